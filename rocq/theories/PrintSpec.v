(** What printing words promises, stated without the printing code. *)
From Coq Require Import Ascii String List Bool Arith ZArith QArith Qcanon Qabs.
From Verif Require Import Base Num Words WordsSpec.
Import ListNotations.

(** rounding that keeps small integers and is accurate to 40 bits on the numbers used here (binary64 has 53) *)
Definition accurate (ar : Arith) : Prop :=
  (forall n : Z, (Z.abs n < 2 ^ 53)%Z -> rnd (Qc_of_Z n) = Qc_of_Z n) /\
  forall x : Qc, (1 # 1000000000 <= Qabs x)%Q -> (Qabs (rnd x - x)%Qc <= Qabs x / (2 ^ 40))%Q.

(** the number n / 1000 *)
Definition thousandths (n : Z) : Qc := frac n 1000.
Definition tenths (n : Z) : Qc := frac n 10.

(** [d] has at most six significant decimal digits *)
Definition six_digits (d : Qc) : Prop :=
  exists (m s : Z), (Z.abs m < 10 ^ 6)%Z /\ (d == inject_Z m * Qpower (inject_Z 10) s)%Q.

(** [w] printed alone is a letter and a value text of that letter, standing for the value of [w] *)
Definition survives {ar : Arith} (w : word) : Prop :=
  exists v, word_str w = letter_ascii (wletter w) :: v /\
            value_text (letter_kind (wletter w)) v /\ value_denotes (wletter w) v (wvalue w).

(** the range in which printing loses only digits: up to 999999, and no negative number that rounds to zero *)
Definition printable (w : word) : Prop :=
  match wvalue w with
  | VFloat x => (Qabs x <= 999999)%Q /\ ~ (- (1 # 2000) <= x /\ x < 0)%Q
  | VInt n => (n < 10 ^ 6)%Z
  | VStr _ => True
  end.
