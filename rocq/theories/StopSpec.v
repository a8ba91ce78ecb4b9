(** What stops the reading of a line, and what stops the machine running it. *)
From Coq Require Import Ascii String List Bool Arith ZArith QArith Qcanon.
From Verif Require Import Base Num Words GTable GCode Line Position Machine WordsSpec LineSpec GCodeSpec PosSpec ModeSpec MachSpec PropsMach2.
Import ListNotations.
Local Open Scope Z_scope.

(** a plane is selected *)
Definition plane_selected (m : machine) : Prop := exists pl, gm_get (m_mode m) MG_plane_selection = Some pl.
Definition has_r (g : gcode) : Prop := exists w, In (LR, w) (gparams g).

(** a canned cycle cannot be done: no plane is selected; or G99 asks for a return to R and the plane selected is not one of G17, G18, G19,
    or the normal of the plane is not an axis of the machine, or no R is given *)
Inductive cycle_stop (m : machine) (g : gcode) : exn -> Prop :=
| stop_plane : ~ plane_selected m -> cycle_stop m g EAttributeError
| stop_normal : plane_selected m -> returns_to_r m -> (forall b, ~ normal m b) -> cycle_stop m g ETypeError
| stop_axis b : returns_to_r m -> normal m b -> ~ has (m_abs m) b -> absolute m -> cycle_stop m g EMachineInvalidAxis
| stop_r b : returns_to_r m -> normal m b -> has (m_abs m) b -> ~ has_r g -> cycle_stop m g ETypeError.

Section WithArith.
Context {ar : Arith}.
(** a block cannot be run: a word without a gcode is not one the motion mode takes; or the commands are run in order up to a
    canned cycle that cannot be done *)
Inductive block_stop (m : machine) (b : block) : exn -> Prop :=
| stop_word w : m_ignore m = false -> In w (bmodal b) -> ~ usable m w -> block_stop m b EMachineInvalidState
| stop_cycle l1 g l2 ps m1 e : block_modal_gcodes m b = Ok (l1 ++ g :: l2) -> path m l1 ps m1 -> is_canned g -> cycle_stop m1 g e -> block_stop m b e.

(** a text cannot be read: it is not one line; it is not made of words; a parameter is given twice; two commands conflict *)
Inductive text_stop (s : text) : exn -> Prop :=
| stop_lines : ~ one_line s -> text_stop s EAttributeError
| stop_words bc mac : line_split s bc mac -> (forall ws, ~ reads (clean_text (fst (split_line bc))) ws) -> text_stop s EGCodeWordStrError
| stop_params bc mac ws grs rest : line_split s bc mac -> reads (clean_text (fst (split_line bc))) ws -> grouped ws grs rest ->
    ~ Forall unambiguous grs -> text_stop s EGCodeParameterError
| stop_conflict bc mac ws grs rest : line_split s bc mac -> reads (clean_text (fst (split_line bc))) ws -> grouped ws grs rest ->
    Forall unambiguous grs -> ~ ForallOrdPairs compatible (map built grs) -> text_stop s EAssertionError.
End WithArith.

(** a machine as the interpreter makes it by default: X, Y and Z axes, a plane selected *)
Definition usual {ar : Arith} (m : machine) : Prop := sound m /\ inside m /\ plane_selected m /\ has (m_abs m) AX /\ has (m_abs m) AY /\ has (m_abs m) AZ.
(** no line of the program has a G99 *)
Definition never_g99 {ar : Arith} (ls : list text) : Prop := forall s l g, In s ls -> mk_line s = Ok l -> In g (bgcodes (lblock l)) -> ~ derives (gcls g) GCodeCannedCycleReturnToR.
