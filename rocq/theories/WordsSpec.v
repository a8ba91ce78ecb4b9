(** What the word syntax of the default dialect is, stated without the regex engine, the scanner or
    the index arithmetic of the code. *)
From Coq Require Import Ascii String List Bool Arith ZArith QArith Qcanon.
From Verif Require Import Base Num Words.
Import ListNotations.
Local Open Scope nat_scope.

(** ** Characters *)
Definition digit (c : ascii) : Prop := 48 <= code c <= 57.
Definition blank (c : ascii) : Prop := is_space c = true.
(** the blanks Python's [float] and [int] ignore: those but codes 28-31 *)
Definition numblank (c : ascii) : Prop := blank c /\ ~ (28 <= code c <= 31).
(** [c] is the letter [l], in upper or lower case *)
Definition char_letter (c : ascii) (l : letter) : Prop :=
  code c = code (letter_ascii l) \/ code c = code (letter_ascii l) + 32.

(** ** Value texts *)
Inductive kind := KFloat | KCode | KNat | KText.
(** which syntax each letter's value has (the documentation of WORD_MAP) *)
Definition letter_kind (l : letter) : kind :=
  match l with
  | LG | LM => KCode
  | LL | LN | LT => KNat
  | LO => KText
  | _ => KFloat
  end.
Definition sign (neg : bool) : text := if neg then ["-"%char] else [].
Definition dotted (dot : bool) (fp : text) : text := if dot then "."%char :: fp else [].

Inductive value_text : kind -> text -> Prop :=
| vt_float ws neg ip dot fp :
    Forall blank ws -> Forall digit ip -> Forall digit fp -> (dot = false -> fp = []) -> ip ++ fp <> [] ->
    value_text KFloat (ws ++ sign neg ++ ip ++ dotted dot fp)
| vt_code ws ip :
    Forall blank ws -> Forall digit ip -> ip <> [] -> value_text KCode (ws ++ ip)
| vt_code_tenths ws ip d :
    Forall blank ws -> Forall digit ip -> ip <> [] -> digit d -> value_text KCode (ws ++ ip ++ ["."%char; d])
| vt_nat ws ip :
    Forall blank ws -> Forall digit ip -> ip <> [] -> value_text KNat (ws ++ ip)
| vt_text v : v <> [] -> ~ In newline v -> value_text KText v.

(** the number a list of digits stands for *)
Fixpoint number (ds : text) : Z :=
  match ds with
  | [] => 0
  | c :: r => (Z.of_nat (code c) - 48) * 10 ^ Z.of_nat (length r) + number r
  end%Z.
(** the number [-]ip.fp *)
Definition decimal_number (neg : bool) (ip fp : text) : Qc :=
  Q2Qc ((if neg then - number (ip ++ fp) else number (ip ++ fp))%Z # Z.to_pos (10 ^ Z.of_nat (length fp))).

Section WithArith.
Context {ar : Arith}.
(** the value a value text stands for: floats are rounded once, string letters keep the text *)
Inductive value_denotes : letter -> text -> value -> Prop :=
| vd_float l ws neg ip dot fp :
    letter_class l = CFloat -> Forall numblank ws -> Forall digit ip -> Forall digit fp ->
    (dot = false -> fp = []) -> ip ++ fp <> [] ->
    value_denotes l (ws ++ sign neg ++ ip ++ dotted dot fp) (VFloat (rnd (decimal_number neg ip fp)))
| vd_int l ws ip :
    letter_class l = CInt -> Forall numblank ws -> Forall digit ip -> ip <> [] ->
    value_denotes l (ws ++ ip) (VInt (number ip))
| vd_str l v : letter_class l = CStr -> value_denotes l v (VStr v).

(** [v] is the longest value text of letter [l] at the start of [v ++ r];
    the free text of a program name must extend to the end of the line *)
Definition longest_value (l : letter) (v r : text) : Prop :=
  value_text (letter_kind l) v /\
  (forall v' r', v' ++ r' = v ++ r -> value_text (letter_kind l) v' -> length v' <= length v) /\
  (letter_kind l = KText -> r = [] \/ r = [newline]).

(** [reads s ws]: the text [s] reads, left to right, as the words [ws] *)
Inductive reads : text -> list word -> Prop :=
| reads_end s : Forall blank s -> reads s []
| reads_word junk c l v r val ws :
    Forall (fun x => (forall l', ~ char_letter x l') /\ x <> newline) junk ->
    char_letter c l ->
    longest_value l v r ->
    value_denotes l v val ->
    reads r ws ->
    reads (junk ++ c :: v ++ r) (Word l val :: ws).
End WithArith.

(** ** Free spelling (C02): words written one after the other, each as a letter and a value text, with blanks
    (other than a newline, which ends a block) anywhere before a letter. A program name, whose
    text runs to the end of the line, can only be the last word. *)
Inductive spelling {ar : Arith} : list word -> text -> Prop :=
| sp_end b : Forall blank b -> spelling [] b
| sp_word b c l v val ws s :
    Forall blank b -> ~ In newline b -> char_letter c l -> letter_kind l <> KText ->
    value_text (letter_kind l) v -> value_denotes l v val -> spelling ws s ->
    spelling (Word l val :: ws) (b ++ c :: v ++ s)
| sp_name b c v nl :
    Forall blank b -> ~ In newline b -> char_letter c LO -> value_text KText v -> nl = [] \/ nl = [newline] ->
    spelling [Word LO (VStr v)] (b ++ c :: v ++ nl).

(** ** Case (C04) *)
Definition same_char (x y : ascii) : Prop := x = y \/ exists l, char_letter x l /\ char_letter y l.
Definition same_but_case (a b : text) : Prop := Forall2 same_char a b.
Definition has_letter (l : letter) (s : text) : Prop := exists c, In c s /\ char_letter c l.

(** ** Blank clean-up (C05): [fields s ws]: the maximal runs of visible characters of [s] are [ws] *)
Inductive fields : text -> list text -> Prop :=
| f_end b : Forall blank b -> fields b []
| f_word b w r ws :
    Forall blank b -> w <> [] -> Forall (fun c => ~ blank c) w ->
    (r = [] \/ exists c r', r = c :: r' /\ blank c) -> fields r ws -> fields (b ++ w ++ r) (w :: ws).
