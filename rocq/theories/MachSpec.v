(** Machines as a user sees them: the position in the active frame, the recorded range, the axis words of a gcode. *)
From Coq Require Import List Bool ZArith QArith Qcanon.
From Verif Require Import Base Num Words GTable GCode Line Position Machine GCodeSpec WordsSpec WordOrder ArithSpec PosSpec ModeSpec.
Import ListNotations.

(** gcodes made of well-formed words whose own word names the class: every gcode read from text or made with numbers *)
Definition gcode_wf {ar : Arith} (g : gcode) : Prop := legal g /\ proper g /\ word_wf (gword g) /\ Forall (fun kv => word_wf (snd kv)) (gparams g).
(** the state every uncopied machine is in (MachProofs.v: every new machine is, and no action leaves it) *)
Definition sound {ar : Arith} (m : machine) : Prop :=
  (good (m_abs m) /\ paxes (m_abs m) = m_axes m /\ known_unit (punit (m_abs m))) /\
  (good (m_min m) /\ (forall a, has (m_abs m) a -> has (m_min m) a) /\ punit (m_min m) = punit (m_abs m)) /\
  (good (m_max m) /\ (forall a, has (m_abs m) a -> has (m_max m) a) /\ punit (m_max m) = punit (m_abs m)) /\
  (good (st_offset (m_state m)) /\ paxes (st_offset (m_state m)) = m_axes m) /\
  (exists d, coord_systems (m_state m) = CSDict d /\ map fst d = [1; 2; 3; 4; 5; 6; 7; 8; 9]%Z /\ forall i p, dget Z.eqb d i = Some p -> good p /\ paxes p = m_axes m) /\
  (mode_wf (m_mode m) /\ forall mg g, gm_get (m_mode m) mg = Some g -> gcode_wf g).
(** the range contains the current position *)
Definition inside (m : machine) : Prop :=
  forall a x lo hi, pos_getattr (m_abs m) a = Ok x -> pos_getattr (m_min m) a = Ok lo -> pos_getattr (m_max m) a = Ok hi -> (lo <= x)%Qc /\ (x <= hi)%Qc.
(** the selected coordinate system is the one of the mode: true unless the mode was assigned directly or the machine was copied *)
Definition in_sync (m : machine) : Prop :=
  forall g, gm_get (m_mode m) MG_coordinate_system = Some g -> coord_system_id (gcls g) = Some (cur_coord_sys (m_state m)).

(** the offset of the active coordinate system, and the temporary one, on an axis *)
Definition system_offset (m : machine) (a : axis) : Qc :=
  match coord_systems (m_state m), cur_coord_sys (m_state m) with
  | CSDict d, Some i => match dget Z.eqb d i with Some p => pval p a | None => Q2Qc 0 end
  | _, _ => Q2Qc 0
  end.
Definition temp_offset (m : machine) (a : axis) : Qc := pval (st_offset (m_state m)) a.
Definition no_offsets (m : machine) : Prop := forall a, system_offset m a = Q2Qc 0 /\ temp_offset m a = Q2Qc 0.

(** what [machine.pos.<axis>] reads *)
Definition pos_at {ar : Arith} (m : machine) (a : axis) (x : Qc) : Prop := exists p, machine_pos m = Ok p /\ pos_getattr p a = Ok x.

(** an action whose words, gcodes and positions fit a machine with these axes: words are well formed, positions have just these
    axes and a known unit, coordinates are of these axes *)
Definition fits {ar : Arith} (axes : axset) (a : action) : Prop :=
  match a with
  | Process gs ps => Forall gcode_wf gs /\ Forall word_wf ps
  | SetMode gs => Forall gcode_wf gs
  | Assign _ v => forall g, v = Some g -> gcode_wf g
  | SetPos p => good p /\ paxes p = axes /\ known_unit (punit p)
  | MoveTo cs => NoDup (map fst cs)
  | SetOffset p | SetSystem _ p => good p /\ paxes p = axes
  end.
(** [g] has the axis word [a] with value [x] *)
Definition names (g : gcode) (a : axis) (x : Qc) : Prop := exists w, In (axis_letter a, w) (gparams g) /\ wvalue w = VFloat x.
(** a motion gcode: canned cycles, and G80 and the dwell G4 (which the code derives from the motion class), aside *)
Definition is_move (g : gcode) : Prop := derives (gcls g) GCodeMotion /\ ~ is_g80 g /\ ~ derives (gcls g) GCodeDwell.
Definition is_canned (g : gcode) : Prop := derives (gcls g) GCodeCannedCycle.
(** the total of the increments of a list of gcodes on an axis *)
Inductive total : list gcode -> axis -> Qc -> Prop :=
| total_nil a : total [] a (Q2Qc 0)
| total_named g gs a x s : names g a x -> total gs a s -> total (g :: gs) a (x + s)%Qc
| total_other g gs a s : (forall x, ~ names g a x) -> total gs a s -> total (g :: gs) a s.
(** the classes of G54, G55, ... G59.3 *)
Definition systems : list (gclass * Z) :=
  [(GCodeSelectCoordinateSystem1, 1); (GCodeSelectCoordinateSystem2, 2); (GCodeSelectCoordinateSystem3, 3); (GCodeSelectCoordinateSystem4, 4); (GCodeSelectCoordinateSystem5, 5);
   (GCodeSelectCoordinateSystem6, 6); (GCodeSelectCoordinateSystem7, 7); (GCodeSelectCoordinateSystem8, 8); (GCodeSelectCoordinateSystem9, 9)]%Z.
Definition absolute (m : machine) : Prop := forall g, gm_get (m_mode m) MG_distance = Some g -> ~ derives (gcls g) GCodeIncrementalDistanceMode.
Definition incremental (m : machine) : Prop := exists g, gm_get (m_mode m) MG_distance = Some g /\ derives (gcls g) GCodeIncrementalDistanceMode.

Section WithArith.
Context {ar : Arith}.
(** every machine made by the constructor and used with actions that fit it *)
Definition reachable (m : machine) : Prop :=
  exists axes ignore lines m0 l, new_machine axes ignore lines = Ok m0 /\ Forall (fits axes) l /\ m = history l m0.
(** executing gcodes one by one; [ps]: the absolute position after each *)
Inductive path : machine -> list gcode -> list position -> machine -> Prop :=
| path_nil m : path m [] [] m
| path_cons m g gs m1 ps m2 : gcode_process g m = (m1, Ok tt) -> path m1 gs ps m2 -> path m (g :: gs) (m_abs m1 :: ps) m2.
End WithArith.

(** ** Canned cycles *)
(** the axis normal to the selected plane *)
Definition planes : list (gclass * axis) := [(GCodeSelectXYPlane, AZ); (GCodeSelectZXPlane, AY); (GCodeSelectYZPlane, AX)].
Definition normal (m : machine) (b : axis) : Prop := exists pl, gm_get (m_mode m) MG_plane_selection = Some pl /\ In (gcls pl, b) planes.
(** G99 is in force *)
Definition returns_to_r (m : machine) : Prop := exists g, gm_get (m_mode m) MG_canned_cycles_return = Some g /\ derives (gcls g) GCodeCannedCycleReturnToR.
(** the value of the R word, and the number of holes asked for by the L word (at least one) *)
Definition r_word (g : gcode) (r : Qc) : Prop := exists w, In (LR, w) (gparams g) /\ wvalue w = VFloat r.
Definition loops (g : gcode) (n : nat) : Prop :=
  (exists w z, In (LL, w) (gparams g) /\ wvalue w = VInt z /\ n = Z.to_nat (Z.max 1 z)) \/ ((forall w, ~ In (LL, w) (gparams g)) /\ n = 1%nat).
