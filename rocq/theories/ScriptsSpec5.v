(** What --full and the options that remove content promise. *)
From Coq Require Import Ascii String List Bool Arith ZArith QArith Qcanon Permutation.
From Verif Require Import Base Num Words GTable GCode Line Position Machine Transform Scripts WordsSpec GCodeSpec PrintSpec BlockSpec ModeSpec MachSpec TransSpec SimSpec ScriptsSpec ScriptsSpec2.
Import ListNotations.
Local Open Scope nat_scope.

Section Restyle.
Context {ar : Arith}.
(** the command [mo] with the words [ps], the last one of a letter counting, in place of those it has *)
Definition filled_in (mo : gcode) (ps : list word) (g : gcode) : Prop :=
  gcls g = gcls mo /\ gword g = gword mo /\
  forall k, dget letter_eqb (gparams g) k = match dget letter_eqb (rev (map (fun w => (wletter w, w)) ps)) k with Some w => Some w | None => dget letter_eqb (gparams mo) k end.
(** the gcodes of a line in the order of execution; leftover words go with the motion command in force *)
Inductive full_gcodes (m : machine) (l : line) : list gcode -> Prop :=
| fg_none : bmodal (lblock l) = [] -> full_gcodes m l (sort_gcodes (bgcodes (lblock l)))
| fg_some mo g : bmodal (lblock l) <> [] -> gm_get (m_mode m) MG_motion = Some mo -> filled_in mo (bmodal (lblock l)) g -> full_gcodes m l (sort_gcodes (bgcodes (lblock l) ++ [g])).
(** without the gcodes whose word is among [ws] *)
Definition named (ws : list word) (g : gcode) : Prop := exists w, In w ws /\ word_eqb (gword g) w = true.
Inductive without (ws : list word) : list gcode -> list gcode -> Prop :=
| wo_nil : without ws [] []
| wo_drop g gs gs' : named ws g -> without ws gs gs' -> without ws (g :: gs) gs'
| wo_keep g gs gs' : ~ named ws g -> without ws gs gs' -> without ws (g :: gs) (g :: gs').
(** [l']: the line [l] (read in state [m]) as the options want it *)
Definition restyled (o : options) (m : machine) (l l' : line) : Prop :=
  exists gs gs', (if o_full o then full_gcodes m l gs else gs = bgcodes (lblock l)) /\ without (o_rm_gcodes o) gs gs' /\ Forall2 same_gcode gs' (bgcodes (lblock l')) /\
    bmodal (lblock l') = (if o_full o then [] else bmodal (lblock l)) /\
    lcomment l' = (if o_rm_comments o then None else lcomment l) /\ lmacro l' = lmacro l.
Definition empty_line (l : line) : Prop := bgcodes (lblock l) = [] /\ bmodal (lblock l) = [] /\ lcomment l = None /\ lmacro l = None.
(** a program [tr] read from state [m], line by line; with --rm_blanks what would be an empty line is left out *)
Inductive becomes {B : Type} (line_of : B -> line) (agrees : machine -> B -> Prop) (o : options) : machine -> list (line * machine) -> list B -> Prop :=
| be_nil m : becomes line_of agrees o m [] []
| be_line m l m1 tr y ys : restyled o m l (line_of y) -> (o_rm_blanks o = true -> ~ empty_line (line_of y)) -> agrees m1 y -> becomes line_of agrees o m1 tr ys ->
    becomes line_of agrees o m ((l, m1) :: tr) (y :: ys)
| be_blank m l m1 tr ys l' : o_rm_blanks o = true -> restyled o m l l' -> empty_line l' -> becomes line_of agrees o m1 tr ys -> becomes line_of agrees o m ((l, m1) :: tr) ys.
(** the lines alone; the lines and the state of the machine after each *)
Definition becomes_lines : options -> machine -> list (line * machine) -> list line -> Prop := becomes (fun l => l) (fun _ _ => True).
Definition becomes_run : options -> machine -> list (line * machine) -> list (line * machine) -> Prop := becomes fst (fun m y => same_machine m (snd y)).

(** the options of this part alone (any combination of them, any --machine_mode) *)
Definition restyling (o : options) : Prop :=
  o_singles o = false /\ o_linearize o = None /\ o_canned_expand o = false /\ o_rm_invalid_modal o = false /\ o_zero_xy o = false /\ o_zero_z o = false /\ o_spindle_off o = false.
(** lines that can be printed without loss. Every word at most 4 decimals and so on (C06, C07); a ';' comment that is kept is not
    followed by a macro (C16). With --full: leftover words only without a motion command in the line, for what the motion mode has
    retained the same as for the words; a program name not together with other gcodes than a line number. Otherwise: no leftover
    word that a gcode of the line would take when printed behind it (C24). *)
Definition restylable (o : options) (m : machine) (l : line) : Prop :=
  Forall readable (bwords (lblock l)) /\
  (o_rm_comments o = false -> forall x, lcomment l = Some (Comment CommentSemicolon x) -> lmacro l = None \/ x = []) /\
  if o_full o then
    (bmodal (lblock l) <> [] -> Forall (fun g => modal_group (gcls g) <> Some MG_motion) (bgcodes (lblock l)) /\
       forall mo, gm_get (m_mode m) MG_motion = Some mo -> Forall readable (gword mo :: map snd (gparams mo))) /\
    (forall g, In g (bgcodes (lblock l)) -> wletter (gword g) = LO -> bmodal (lblock l) = [] /\ forall h, In h (bgcodes (lblock l)) -> h = g \/ wletter (gword h) = LN)
  else separate (lblock l).
(** machines in the same place, in the same modes except for that of motion *)
Definition motion_aside (a b : machine) : Prop :=
  (forall mg, mg <> MG_motion -> gm_get (m_mode a) mg = gm_get (m_mode b) mg) /\ m_state a = m_state b /\ m_abs a = m_abs b /\ m_axes a = m_axes b /\ m_ignore a = m_ignore b.
(** what the line does has nothing to do with the motion mode before it *)
Definition stands_alone (l : line) : Prop :=
  forall a b a1, sound a -> sound b -> motion_aside a b -> process_block (lblock l) a = (a1, Ok tt) -> exists b1, process_block (lblock l) b = (b1, Ok tt) /\ motion_aside a1 b1.
(** the lines of a reading, each with the state before it *)
Fixpoint from_states (m : machine) (tr : list (line * machine)) : list (machine * line) :=
  match tr with [] => [] | (l, m1) :: r => (m, l) :: from_states m1 r end.
End Restyle.
(** --full alone *)
Definition full {ar : Arith} : options := Options false true norm_machine_mode None false default_canned_codes false false None false false false false [] false.
(** --rm_comments, --rm_blanks, --rm_whitespace, --rm_gcodes *)
Definition removing {ar : Arith} (comments blanks whitespace : bool) (gcodes : list word) : options :=
  Options false false norm_machine_mode None false default_canned_codes false false None false comments blanks whitespace gcodes false.
