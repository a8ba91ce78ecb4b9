(** What the scripts promise, stated on files, lines and machines. *)
From Coq Require Import Ascii String List Bool Arith ZArith QArith Qcanon.
From Verif Require Import Base Num Words GTable GCode Line Position Machine Transform Scripts WordsSpec.
Import ListNotations.

Section WithArith.
Context {ar : Arith}.
(** reading lines one after the other: each line as understood, with the machine after it *)
Inductive reading : machine -> list text -> list (line * machine) -> Prop :=
| reading_nil m : reading m [] []
| reading_cons m s l m1 r tr : mk_line s = Ok l -> process_block (lblock l) m = (m1, Ok tt) -> reading m1 r tr -> reading m (s :: r) ((l, m1) :: tr).
(** the machine after [tr], started as [m] *)
Definition after (m : machine) (tr : list (line * machine)) : machine := last (map snd tr) m.
(** the condition has the value [b] at line number [n], the machine being [m] after that line *)
Definition says (c : condition) (n : nat) (m : machine) (b : bool) : Prop := exists p, machine_pos m = Ok p /\ c n p = Ok b.
(** [a], [b], [c]: the lines before the cropped area, those in it, and the line that ends it (none at the end of the file);
    line numbers start at 1 *)
Definition selection (first last : condition) (a b c : list (line * machine)) : Prop :=
  (forall i x, nth_error a i = Some x -> says first (S i) (snd x) false) /\
  (forall x r, b ++ c = x :: r -> says first (S (length a)) (snd x) true) /\
  (forall i x, nth_error b i = Some x -> says last (S (length a + i)) (snd x) false) /\
  (c = [] \/ exists x, c = [x] /\ says last (S (length a + length b)) (snd x) true).
End WithArith.

(** ** The range argument of pygcode-crop *)
Definition op_texts : list (text * cmp_op) :=
  [(t "=", CEq); (t "==", CEq); (t "!=", CNe); (t "<", CLt); (t "<=", CLe); (t ">", CGt); (t ">=", CGe)]%string.
Definition compares (c : cmp_op) (y x : Qc) : Prop :=
  match c with CEq => y = x | CNe => y <> x | CLt => (y < x)%Qc | CLe => (y <= x)%Qc | CGt => (x < y)%Qc | CGe => (x <= y)%Qc end.
(** a condition: variable (N: the line number, otherwise an axis), comparison, number *)
Record cond := Cond { c_var : letter; c_op : cmp_op; c_num : Qc }.
Definition variables : list letter := [LA; LB; LC; LN; LX; LY; LZ].
Section WithArith2.
Context {ar : Arith}.
(** a number: sign, digits, and decimals after a point *)
Inductive number_text : text -> Qc -> Prop :=
| nt neg ip dot fp : Forall digit ip -> ip <> [] -> Forall digit fp -> (dot = false -> fp = []) -> (dot = true -> fp <> []) ->
    number_text (sign neg ++ ip ++ dotted dot fp) (rnd (decimal_number neg ip fp)).
(** {variable}{operation}{number} with blanks in between; the variable, or variable and operation, may be left out *)
Inductive cond_text : text -> cond -> Prop :=
| ct_full w1 p l w2 o op w3 v x w4 :
    Forall blank w1 -> Forall blank w2 -> Forall blank w3 -> Forall blank w4 ->
    (p = [] /\ l = LN) \/ (exists c, p = [c] /\ char_letter c l /\ In l variables) ->
    In (o, op) op_texts -> number_text v x ->
    cond_text (w1 ++ p ++ w2 ++ o ++ w3 ++ v ++ w4) (Cond l op x)
| ct_number w1 v x w2 : Forall blank w1 -> Forall blank w2 -> number_text v x -> cond_text (w1 ++ v ++ w2) (Cond LN CEq x).
Definition whole (x : Qc) : Prop := exists z, x = Qc_of_Z z.
Definition usable (c : cond) : Prop := c_var c = LN -> whole (c_num c).
(** one side of the range: nothing, or conditions separated by commas *)
Definition side_text (s : text) (cs : list cond) : Prop :=
  (s = [] /\ cs = []) \/
  exists parts, s <> [] /\ s = join [","%char] parts /\ Forall (fun p => ~ In ","%char p) parts /\ Forall2 cond_text parts cs /\ Forall usable cs.
Definition range_text (s : text) (first last : list cond) : Prop :=
  exists a b, s = a ++ ":"%char :: b /\ ~ In ":"%char a /\ ~ In ":"%char b /\ side_text a first /\ side_text b last.
(** what a condition says at line number [n] and position [p] *)
Inductive cond_at (n : nat) (p : position) : cond -> Prop -> Prop :=
| at_line op x : cond_at n p (Cond LN op x) (compares op (Qc_of_Z (Z.of_nat n)) x)
| at_axis a op x y : pos_getattr p a = Ok y -> cond_at n p (Cond (axis_letter a) op x) (compares op y x).
(** the axes mentioned are axes of the position *)
Definition answers (cs : list cond) (p : position) : Prop := Forall (fun c => forall a, c_var c = axis_letter a -> exists y, pos_getattr p a = Ok y) cs.
Definition all_hold (cs : list cond) (n : nat) (p : position) : Prop := Forall (fun c => exists P, cond_at n p c P /\ P) cs.
End WithArith2.
