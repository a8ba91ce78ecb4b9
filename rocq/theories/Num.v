(** Numbers: Python floats as canonical rationals with explicit rounding, and decimal printing.

    A float is a [Qc]; Leibniz equality on [Qc] is numeric equality, i.e. Python's [==].
    Every operation on floats is "round (exact result)"; the rounding function is the [Arith] parameter.
    Not modelled: infinities, NaN, overflow, the sign of zero. *)
From Coq Require Import Ascii String List Bool ZArith QArith Qcanon Qround Lia.
From Verif Require Import Base.
Import ListNotations.
Open Scope Z_scope.

Class Arith := { rnd : Qc -> Qc }.

(** Exact arithmetic. *)
Definition exact_arith : Arith := {| rnd := fun x => x |}.

(** Round half to even, to an integer. *)
Definition rhe (q : Q) : Z :=
  let f := Qfloor q in
  match Qcompare (q - inject_Z f) (1 # 2) with
  | Lt => f
  | Gt => f + 1
  | Eq => if Z.even f then f else f + 1
  end.

(** IEEE binary64 round-to-nearest-even: 53 bits of precision, smallest exponent -1074, no overflow. *)
Definition zpow2 (e : Z) : Q := if 0 <=? e then inject_Z (2 ^ e) else / inject_Z (2 ^ (- e)).
(** floor (log2 |q|) for q <> 0 *)
Definition qlog2 (q : Q) : Z :=
  let n := Z.abs (Qnum q) in let d := Zpos (Qden q) in
  let e0 := Z.log2 n - Z.log2 d in
  if n * 2 ^ (Z.max 0 (- e0)) <? d * 2 ^ (Z.max 0 e0) then e0 - 1 else e0.
Definition rnd64 (x : Qc) : Qc :=
  let q := this x in
  if Qnum q =? 0 then x
  else
    let e := Z.max (qlog2 q - 52) (-1074) in
    Q2Qc (inject_Z (rhe (q / zpow2 e)) * zpow2 e).
Definition binary64 : Arith := {| rnd := rnd64 |}.

Definition Qc_of_Z (z : Z) : Qc := Q2Qc (inject_Z z).
(** the rational n/d, d > 0 *)
Definition frac (n : Z) (d : positive) : Qc := Q2Qc (n # d).

Definition Qcltb (a b : Qc) : bool := match Qcompare (this a) (this b) with Lt => true | _ => false end.
Definition Qcleb (a b : Qc) : bool := match Qcompare (this a) (this b) with Gt => false | _ => true end.
Definition Qceqb (a b : Qc) : bool := match Qcompare (this a) (this b) with Eq => true | _ => false end.

Section Ops.
  Context {ar : Arith}.
  (** float + float, etc. *)
  Definition fadd (a b : Qc) : Qc := rnd (a + b)%Qc.
  Definition fsub (a b : Qc) : Qc := rnd (a - b)%Qc.
  Definition fmul (a b : Qc) : Qc := rnd (a * b)%Qc.
  (** division; the caller checks for zero *)
  Definition fdiv (a b : Qc) : Qc := rnd (a / b)%Qc.
  (** a float literal n/d in the source, or [float(int)] *)
  Definition flit (n : Z) (d : positive) : Qc := rnd (frac n d).
  Definition float_of_int (z : Z) : Qc := rnd (Qc_of_Z z).
  (** Python [round(x, 3)]: correctly rounded from the exact value (half even), then to a float. *)
  Definition round3 (x : Qc) : Qc := rnd (frac (rhe (this x * 1000)) 1000).
End Ops.

(** ** Decimal digits *)
Definition digit_char (d : Z) : ascii := ascii_of_nat (48 + Z.to_nat d).
Definition char_digit (c : ascii) : Z := Z.of_nat (code c) - 48.

(** exactly [k] digits, most significant first *)
Fixpoint pad_digits (k : nat) (n : Z) : text :=
  match k with
  | O => []
  | S k' => pad_digits k' (n / 10) ++ [digit_char (n mod 10)]
  end.
(** number of decimal digits minus one, for n >= 1 *)
Fixpoint ilog10_fuel (fuel : nat) (n : Z) : Z :=
  match fuel with
  | O => 0
  | S f => if n <? 10 then 0 else 1 + ilog10_fuel f (n / 10)
  end.
Definition ilog10 (n : Z) : Z := ilog10_fuel (Z.to_nat (Z.log2 n + 1)) n.
(** [str(n)] for n >= 0 *)
Definition dec_text (n : Z) : text := pad_digits (Z.to_nat (ilog10 n + 1)) n.
(** [str(n)] *)
Definition int_text (n : Z) : text := if n <? 0 then "-"%char :: dec_text (- n) else dec_text n.

(** the number a list of digits denotes *)
Definition digits_val (ds : text) : Z := fold_left (fun a c => 10 * a + char_digit c) ds 0.

(** floor (log10 (n/d)) for n, d >= 1 *)
Definition qlog10 (n d : Z) : Z :=
  let e0 := ilog10 n - ilog10 d in
  if n * 10 ^ (Z.max 0 (- e0)) <? d * 10 ^ (Z.max 0 e0) then e0 - 1 else e0.

Fixpoint drop_while {A} (f : A -> bool) (l : list A) : list A :=
  match l with [] => [] | x :: l' => if f x then drop_while f l' else l end.
Definition strip_zeros (ds : text) : text :=
  rev (drop_while (fun c => Ascii.eqb c "0"%char) (rev ds)).
(** integer part, and fraction digits without trailing zeros *)
Definition with_frac (ip fp : text) : text :=
  match strip_zeros fp with [] => ip | f => ip ++ "."%char :: f end.

(** the number N / 10^k in fixed notation, trailing zeros removed; N >= 0 *)
Definition fixed_text (N : Z) (k : nat) : text :=
  with_frac (dec_text (N / 10 ^ Z.of_nat k)) (pad_digits k (N mod 10 ^ Z.of_nat k)).

(** six significant digits of q > 0: mantissa in [10^5, 10^6) and exponent of the first digit *)
Definition sig6 (q : Q) : Z * Z :=
  let n := Qnum q in let d := Zpos (Qden q) in
  let e := qlog10 n d in
  let m := rhe (q * inject_Z (10 ^ Z.max 0 (5 - e)) / inject_Z (10 ^ Z.max 0 (e - 5))) in
  if m =? 10 ^ 6 then (10 ^ 5, e + 1) else (m, e).

(** C's [%g] for q > 0 (precision 6) *)
Definition fmt_g_pos (q : Q) : text :=
  let (m, e) := sig6 q in
  if (-4 <=? e) && (e <? 6) then fixed_text m (Z.to_nat (5 - e))
  else
    with_frac (dec_text (m / 10 ^ 5)) (pad_digits 5 (m mod 10 ^ 5))
    ++ "e"%char :: (if e <? 0 then "-"%char else "+"%char)
    :: (if Z.abs e <? 10 then "0"%char :: dec_text (Z.abs e) else dec_text (Z.abs e)).

(** Python ["%g" % x] and ["{0:g}".format(x)]. [negzero]: x is a zero that came from a negative number. *)
Definition fmt_g (negzero : bool) (x : Qc) : text :=
  let q := this x in
  match Qnum q with
  | Z0 => if negzero then t "-0" else t "0"
  | Zpos _ => fmt_g_pos q
  | Zneg _ => "-"%char :: fmt_g_pos (- q)
  end.
