(** What pygcode-crop promises for programs with numbers of any decimals. *)
From Coq Require Import Ascii String List Bool Arith ZArith QArith Qcanon Qabs.
From Verif Require Import Base Num Words GTable GCode Line Position Machine WordsSpec PrintSpec BlockSpec GCodeSpec ArithSpec PosSpec ModeSpec MachSpec Scripts ScriptsSpec ScriptsSpec2 ScriptsSpec12.
Import ListNotations.

Section WithArith.
Context {ar : Arith}.
(** what the preamble can restore but for the decimals: [restorable] with words readable when printed, whatever decimals are lost *)
Definition recoverable (m : machine) : Prop :=
  (forall g, gm_get (m_mode m) MG_motion = Some g -> ~ is_canned g) /\
  (forall g, gm_get (m_mode m) MG_spindle_speed_mode = Some g -> gcls g <> GCodeSpindleConstantSurfaceSpeedMode) /\
  (forall mg g, gm_get (m_mode m) mg = Some g -> Forall legible_word (gword g :: map snd (gparams g))) /\
  (forall g, gm_get (m_mode m) MG_plane_selection = Some g -> In (gcls g) (map fst planes)).
(** [m'] is at most [e] from the place of [m] on every axis, in the same modes up to the numbers as they are read back; the mode of motion is
    left out unless [moving] *)
Definition follows (moving : bool) (e : Q) (m m' : machine) : Prop :=
  (forall mg, mg <> MG_motion \/ moving = true -> match gm_get (m_mode m) mg, gm_get (m_mode m') mg with
              | None, None => True
              | Some g, Some g' => like_gcode reads_back g g'
              | _, _ => False
              end) /\
  m_state m' = m_state m /\ m_axes m' = m_axes m /\ m_ignore m' = m_ignore m /\ punit (m_abs m') = punit (m_abs m) /\
  forall a, has (m_abs m) a -> off_by e (pval (m_abs m) a) (pval (m_abs m') a).
(** a gcode of the line sets the mode of motion *)
Definition sets_motion (l : line) : Prop := exists g, In g (bgcodes (lblock l)) /\ in_group MG_motion g.
(** [tr'] goes the way of [tr]: like [rounded], without the recorded ranges; with the mode of motion as soon as a line sets it *)
Inductive trails (M : Q) : bool -> nat -> machine -> list (line * machine) -> list (line * machine) -> Prop :=
| tl_nil moving k m : trails M moving k m [] []
| tl_cons moving moving' k m l m1 tr l' m1' tr' gs n : block_modal_gcodes m (lblock l) = Ok gs -> strides m gs n -> like_line reads_back l l' ->
    (moving' = true <-> moving = true \/ sets_motion l) ->
    follows moving' (inject_Z (Z.of_nat (1 + k + n)) * unit_error M) m1 m1' -> trails M moving' (k + n) m1 tr tr' ->
    trails M moving k m ((l, m1) :: tr) ((l', m1') :: tr').
End WithArith.
