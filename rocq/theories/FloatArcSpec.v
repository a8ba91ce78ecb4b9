(** What linearize_arc promises about the end of an arc, in floating point. *)
From Coq Require Import List Bool ZArith QArith Qcanon Qabs.
From Verif Require Import Base Num Words GTable GCode Position Machine Transform PrintSpec GCodeSpec ArithSpec MachSpec FloatArc.
Import ListNotations.

(** all that is asked of the functions of [math]: sqrt(1) is 1, 0 ** 2 is 0 and 1 ** 2 is 1 *)
Definition lawful (L : mathlib) : Prop := l_sqrt L (Q2Qc 1) = Q2Qc 1 /\ l_square L (Q2Qc 0) = Q2Qc 0 /\ l_square L (Q2Qc 1) = Q2Qc 1.
(** the coordinates involved are floats *)
Definition float_arc {ar : Arith} (g : gcode) (p : position) : Prop :=
  (forall a x, In a [AX; AY; AZ] -> names g a x -> float x) /\ forall a x, In a [AX; AY; AZ] -> vget (pvals p) a = Some x -> float x.
(** G90 and G91; G90 is the default *)
Definition in_absolute (dist : option gclass) : Prop := dist = None \/ exists c, dist = Some c /\ derives c GCodeAbsoluteDistanceMode.
Definition in_incremental (dist : option gclass) : Prop := exists c, dist = Some c /\ derives c GCodeIncrementalDistanceMode.
(** where the arc [g] begun at [p] ends on an axis: where its word says, or where it began *)
Definition ends_at (g : gcode) (p : position) (a : axis) (x : Qc) : Prop := names g a x \/ ((forall y, ~ names g a y) /\ vget (pvals p) a = Some x).
(** how far it leads in incremental mode *)
Definition leads (g : gcode) (a : axis) (x : Qc) : Prop := names g a x \/ ((forall y, ~ names g a y) /\ x = Q2Qc 0).
(** G1 with the words X, Y and Z *)
Definition linear_to {ar : Arith} (h : gcode) (x y z : Qc) : Prop :=
  gcls h = GCodeLinearMove /\ gcode_wf h /\ gwhite h = false /\ gparams h = [(LX, Word LX (VFloat x)); (LY, Word LY (VFloat y)); (LZ, Word LZ (VFloat z))].
(** rounding a number up to [B] changes it by at most [u] (2^20 and 2^-33 for binary64; any B and 0 for exact arithmetic) *)
Definition rounds_within (ar : Arith) (B u : Q) : Prop := forall x : Qc, (Qabs x <= B)%Q -> (Qabs (rnd x - x)%Qc <= u)%Q.
