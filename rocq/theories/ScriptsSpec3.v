(** What pygcode-crop promises: after its preamble, the kept lines do what they did in the original. *)
From Coq Require Import Ascii String List Bool Arith ZArith QArith Qcanon Permutation.
From Verif Require Import Base Num Words GTable GCode Line Position Machine Transform Scripts WordsSpec GCodeSpec PrintSpec BlockSpec PosSpec ModeSpec MachSpec TransSpec SimSpec ScriptsSpec ScriptsSpec2.
Import ListNotations.
Local Open Scope nat_scope.

Definition same_entry (a b : option gcode) : Prop :=
  match a, b with None, None => True | Some g, Some h => same_gcode g h | _, _ => False end.
(** machines in the same place with the same modes, that of motion aside; the recorded ranges may differ *)
Definition resumed (a b : machine) : Prop :=
  (forall mg, mg <> MG_motion -> same_entry (gm_get (m_mode a) mg) (gm_get (m_mode b) mg)) /\
  m_state a = m_state b /\ m_abs a = m_abs b /\ m_axes a = m_axes b /\ m_ignore a = m_ignore b.
(** and the same motion mode *)
Definition alike (a b : machine) : Prop := resumed a b /\ same_entry (gm_get (m_mode a) MG_motion) (gm_get (m_mode b) MG_motion).
(** the motion mode is G0 *)
Definition rapid_mode (m : machine) : Prop := exists g, gm_get (m_mode m) MG_motion = Some g /\ gcls g = GCodeRapidMove /\ gparams g = [].

(** what the preamble can restore: no canned cycle is in force, G96 is not (it takes the S word printed behind it), the plane is not
    one of G17.1, G18.1, G19.1, and the words of the modes, the coordinates and the largest coordinates reached print without loss *)
Definition restorable {ar : Arith} (m : machine) : Prop :=
  (forall g, gm_get (m_mode m) MG_motion = Some g -> ~ is_canned g) /\
  (forall g, gm_get (m_mode m) MG_spindle_speed_mode = Some g -> gcls g <> GCodeSpindleConstantSurfaceSpeedMode) /\
  (forall mg g, gm_get (m_mode m) mg = Some g -> Forall readable (gword g :: map snd (gparams g))) /\
  (forall a x, pos_at m a x -> readable (Word (axis_letter a) (VFloat x))) /\
  (forall a x, has (m_abs m) a -> pos_getattr (m_max m) a = Ok x -> readable (Word (axis_letter a) (VFloat x))) /\
  (forall g, gm_get (m_mode m) MG_plane_selection = Some g -> In (gcls g) (map fst planes)).

(** the kept lines name their motion before they rely on it *)
Inductive names_motion : list line -> Prop :=
| nm_nil : names_motion []
| nm_here l r : bmodal (lblock l) = [] -> (exists g, In g (bgcodes (lblock l)) /\ in_group MG_motion g) -> names_motion (l :: r)
| nm_later l r : bmodal (lblock l) = [] -> names_motion r -> names_motion (l :: r).
(** some line names a motion *)
Definition motion_named (ls : list line) : Prop := exists l g, In l ls /\ In g (bgcodes (lblock l)) /\ in_group MG_motion g.

(** ** the way into place *)
(** the axis along which the tool is lifted: the normal of the plane in force, Z without any *)
Definition upright (m : machine) (a : axis) : Prop := normal m a \/ (gm_get (m_mode m) MG_plane_selection = None /\ a = AZ).
Definition as_in {ar : Arith} (n m : machine) (b : axis) : Prop := forall x, pos_at n b x <-> pos_at m b x.
(** from [m0], the lines of [tr] put the machine at the place of [m] in three moves: along [a] to [top], then at this height to the other
    coordinates of [m], then along [a] to the place of [m]; the lines in front of these, and the one behind, do not move it *)
Definition approaches {ar : Arith} (m0 m : machine) (a : axis) (top : Qc) (tr : list (line * machine)) : Prop :=
  exists front l1 n1 l2 n2 l3 n3 l4, tr = front ++ [(l1, n1); (l2, n2); (l3, n3); (l4, n3)] /\
    Forall (fun x => forall b, as_in (snd x) m0 b) front /\
    (pos_at n1 a top /\ forall b, b <> a -> as_in n1 m0 b) /\
    (pos_at n2 a top /\ forall b, b <> a -> as_in n2 m b) /\
    (forall b, as_in n3 m b).
