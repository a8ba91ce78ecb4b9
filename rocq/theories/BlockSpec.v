(** When printing a block or a line and reading it back is safe. *)
From Coq Require Import Ascii String List Bool Arith ZArith QArith Qcanon Qabs Permutation.
From Verif Require Import Base Num Words GTable GCode Line WordsSpec PrintSpec GCodeSpec.
Import ListNotations.

(** a character with no meaning for comments, macros and blanks *)
Definition plain (c : ascii) : Prop := ~ blank c /\ ~ In c (t "();%").
(** words whose printed text is read back as a word printing the same: the free text of T and O words is plain, numbers with
    decimals are in the range where printing loses digits only, codes and integers are printed exactly *)
Definition prints_well {ar : Arith} (w : word) : Prop :=
  (survives w \/ (letter_kind (wletter w) = KFloat /\ printable w)) /\
  (forall s, wvalue w = VStr s -> Forall plain s).
(** the leftover words cannot be taken for parameters of the gcodes printed before them *)
Definition separate (b : block) : Prop :=
  (forall w g, In w (bmodal b) -> In g (bgcodes b) -> ~ takes (gcls g) (wletter w)) /\
  (bmodal b <> [] -> ~ In LO (map wletter (bwords b))).
(** [w'] is what is read back from the printed [w], and stands in the relation [S] to it *)
Definition read_as {ar : Arith} (S : word -> word -> Prop) (w w' : word) : Prop :=
  wletter w' = wletter w /\ S w w' /\ text2words (word_str w) = Ok [w'] /\
  (w' = w \/ letter_kind (wletter w) = KFloat).
(** the same gcode up to reading back its words, parameters in any order *)
Definition gcode_read_as {ar : Arith} (S : word -> word -> Prop) (g g' : gcode) : Prop :=
  gcls g' = gcls g /\ read_as S (gword g) (gword g') /\
  exists ps, Permutation ps (gparams g) /\ Forall2 (fun a b => fst b = fst a /\ read_as S (snd a) (snd b)) ps (gparams g').
(** what is read back prints the same *)
Definition prints_as {ar : Arith} : word -> word -> Prop := read_as (fun w w' => word_str w' = word_str w).
Definition gcode_prints_as {ar : Arith} : gcode -> gcode -> Prop := gcode_read_as (fun w w' => word_str w' = word_str w).
