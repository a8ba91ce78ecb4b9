(** When pygcode-norm finishes. *)
From Coq Require Import Ascii String List Bool Arith ZArith QArith Qabs Qcanon.
From Verif Require Import Base Num Words GTable GCode Line Position Machine GCodeSpec ArithSpec DrillSpec Transform Scripts.
Import ListNotations.

Section WithArith.
Context {ar : Arith}.
(** the run on the file ends, and what it prints and how it ends does not depend on how many turns the loops are allowed *)
Definition finishes (o : options) (file : list text) : Prop :=
  exists n out r, r <> Raise EOutOfFuel /\ forall k, (n <= k)%nat -> norm o k file = (out, r).
(** however many turns are allowed, they do not suffice *)
Definition never_finishes (o : options) (file : list text) : Prop := forall k, snd (norm o k file) = Raise EOutOfFuel.
(** a word of the program *)
Definition written (ls : list text) (w : word) : Prop := exists s l, In s ls /\ mk_line s = Ok l /\ In w (bwords (lblock l)).
(** the arcs, if they are linearized, are linearized by something that ends *)
Definition arcs_finish (o : options) : Prop := forall f m g, o_linearize o = Some f -> snd (f m g) <> Raise EOutOfFuel.
End WithArith.
