(** Laws of rounding used by the theorems on positions; each is proved for [exact_arith] and [binary64] (Float64.v). *)
From Coq Require Import ZArith QArith Qcanon.
From Verif Require Import Base Num.

Definition monotone (ar : Arith) : Prop := forall x y : Qc, (x <= y)%Qc -> (rnd x <= rnd y)%Qc.
Definition idempotent (ar : Arith) : Prop := forall x : Qc, rnd (rnd x) = rnd x.
Definition odd (ar : Arith) : Prop := forall x : Qc, rnd (- x)%Qc = (- rnd x)%Qc.
(** [x] is a float *)
Definition float {ar : Arith} (x : Qc) : Prop := rnd x = x.
