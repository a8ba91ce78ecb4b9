(** What the options of pygcode-norm promise: the final actions, full commands, removed content. *)
From Coq Require Import Ascii String List Bool Arith ZArith QArith Qcanon Permutation.
From Verif Require Import Base Num Words GTable GCode Line Position Machine Transform Scripts WordsSpec GCodeSpec PrintSpec BlockSpec PosSpec ModeSpec MachSpec TransSpec SimSpec ScriptsSpec ScriptsSpec2 ScriptsSpec3.
Import ListNotations.
Local Open Scope nat_scope.

(** ** The final actions: --zero_xy, --zero_z, --spindle_off *)
Section Final.
Context {ar : Arith}.
(** the axis is where it was *)
Definition stays (a : axis) (m n : machine) : Prop := forall x, pos_at m a x <-> pos_at n a x.
(** going through the states [l] from [m]: whenever X or Y changes, Z is [h] before and after *)
Fixpoint crosses_at (h : Qc) (m : machine) (l : list machine) : Prop :=
  match l with
  | [] => True
  | n :: r => ((stays AX m n /\ stays AY m n) \/ (pos_at m AZ h /\ pos_at n AZ h)) /\ crosses_at h n r
  end.
(** the height of the way across: the argument, else the greatest Z the machine has recorded *)
Definition safe_height (o : options) (m : machine) (h : Qc) : Prop :=
  match o_height o with Some x => h = x | None => exists p, abs2work m (m_max m) = Ok p /\ pos_getattr p AZ = Ok h end.
(** [m]: before the final actions, [n]: after *)
Definition finalized (o : options) (h : Qc) (m n : machine) : Prop :=
  (if o_zero_xy o then pos_at n AX (Q2Qc 0) /\ pos_at n AY (Q2Qc 0) else stays AX m n /\ stays AY m n) /\
  (if o_zero_z o then pos_at n AZ (Q2Qc 0) else if o_zero_xy o then pos_at n AZ h else stays AZ m n) /\
  (if o_spindle_off o then exists g, gm_get (m_mode n) MG_spindle = Some g /\ gcls g = GCodeStopSpindle
   else gm_get (m_mode n) MG_spindle = gm_get (m_mode m) MG_spindle) /\
  forall mg, ~ In mg [MG_motion; MG_distance; MG_spindle] -> gm_get (m_mode n) mg = gm_get (m_mode m) mg.
End Final.
(** the arguments with final actions alone *)
Definition finalizing {ar : Arith} (zxy zz : bool) (h : option Qc) (so : bool) : options :=
  Options false false norm_machine_mode None false default_canned_codes zxy zz h so false false false [] false.
(** a program is over at M2 or M30 *)
Definition ends_program (l : line) : Prop := exists g, In g (bgcodes (lblock l)) /\ In (gcls g) [GCodeEndProgram; GCodeEndProgramPalletShuttle].
