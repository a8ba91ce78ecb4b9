(** What --rm_invalid_modal promises: "Simply remove everything that isn't understood." *)
From Coq Require Import Ascii String List Bool Arith ZArith QArith Qcanon.
From Verif Require Import Base Num Words GTable GCode Line Position Machine Transform Scripts WordsSpec GCodeSpec PrintSpec BlockSpec ModeSpec MachSpec PropsMach2 TransSpec SimSpec ScriptsSpec ScriptsSpec2.
Import ListNotations.
Local Open Scope nat_scope.

Section Tidy.
Context {ar : Arith}.
(** [ps]: the leftover words of the line that are understood. None in a line with a motion command of its own (that has taken the
    words it understands); otherwise those the motion command in force takes. *)
Definition understood (m : machine) (l : line) (ps : list word) : Prop :=
  ((exists g, In g (bgcodes (lblock l)) /\ in_group MG_motion g) -> ps = []) /\
  ((forall g, In g (bgcodes (lblock l)) -> ~ in_group MG_motion g) -> sifted (PropsMach2.usable m) (bmodal (lblock l)) ps).
(** the machine reads the lines, executing of each what is understood: its gcodes, and the leftover words that are understood *)
Inductive tidy_reading : machine -> list text -> list (line * list word * machine) -> Prop :=
| td_nil m : tidy_reading m [] []
| td_line m s l ps m1 r tr : mk_line s = Ok l -> understood m l ps -> NoDup (map wletter ps) -> process_gcodes (bgcodes (lblock l)) ps m = (m1, Ok tt) ->
    tidy_reading m1 r tr -> tidy_reading m (s :: r) ((l, ps, m1) :: tr).
(** the option alone, any --machine_mode *)
Definition tidying (o : options) : Prop :=
  o_rm_invalid_modal o = true /\ o_singles o = false /\ o_full o = false /\ o_linearize o = None /\ o_canned_expand o = false /\
  o_zero_xy o = false /\ o_zero_z o = false /\ o_spindle_off o = false /\
  o_rm_comments o = false /\ o_rm_blanks o = false /\ o_rm_whitespace o = false /\ o_rm_gcodes o = [].
(** the same options without it *)
Definition untidy (o : options) : options :=
  Options (o_singles o) (o_full o) (o_machine_mode o) (o_linearize o) (o_canned_expand o) (o_canned_codes o) (o_zero_xy o) (o_zero_z o) (o_height o) (o_spindle_off o)
    (o_rm_comments o) (o_rm_blanks o) (o_rm_whitespace o) (o_rm_gcodes o) false.
(** lines that can be printed without loss (C06, C07, C16, C24) once reduced to the leftover words [ps] *)
Definition tidily (l : line) (ps : list word) : Prop :=
  Forall readable (bwords (lblock l)) /\
  (forall x, lcomment l = Some (Comment CommentSemicolon x) -> lmacro l = None \/ x = []) /\
  (forall w g, In w ps -> In g (bgcodes (lblock l)) -> ~ takes (gcls g) (wletter w)) /\
  (ps <> [] -> ~ In LO (map wletter (bwords (lblock l)))).
(** machines that differ in nothing but ignore_invalid_modal *)
Definition same_but_ignore (a b : machine) : Prop :=
  same_mode (m_mode a) (m_mode b) /\ m_state a = m_state b /\ m_abs a = m_abs b /\ m_min a = m_min b /\ m_max a = m_max b /\ m_axes a = m_axes b.
(** the line [y] of the output stands for the line [x] of the input; the states after them agree *)
Definition stands_for (x : line * list word * machine) (y : line * machine) : Prop :=
  let '(l, ps, m) := x in
  Forall2 same_gcode (bgcodes (lblock l)) (bgcodes (lblock (fst y))) /\ bmodal (lblock (fst y)) = ps /\
  lcomment (fst y) = lcomment l /\ lmacro (fst y) = lmacro l /\ same_but_ignore m (snd y).
(** nothing in the line to be removed: no word twice, no leftover words beside a motion command *)
Definition tidy_already (l : line) : Prop :=
  NoDup (map wletter (bmodal (lblock l))) /\ ((exists g, In g (bgcodes (lblock l)) /\ in_group MG_motion g) -> bmodal (lblock l) = []).
End Tidy.
(** --rm_invalid_modal alone *)
Definition rm_invalid {ar : Arith} : options := Options false false norm_machine_mode None false default_canned_codes false false None false false false false [] true.
