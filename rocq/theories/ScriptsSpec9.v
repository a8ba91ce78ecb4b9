(** Arcs that pygcode-norm --arc_linearize can replace in incremental mode. *)
From Coq Require Import Ascii String List Bool Arith ZArith QArith Qcanon Qabs.
From Verif Require Import Base Num Words GTable GCode Line Position Machine Transform WordsSpec PrintSpec GCodeSpec ArithSpec ModeSpec MachSpec SimSpec TransSpec Scripts ScriptArgs ScriptsSpec ScriptsSpec2 ScriptsSpec3 ScriptsSpec5 ScriptsSpec6 ScriptsSpec8 FloatArc FloatArcSpec.
Import ListNotations.

Section Arcs.
Context {ar : Arith} (L : mathlib) (methods : lin_methods) (precision : Qc).
(** in state [m] (incremental mode, X, Y, Z) the arc, whose X, Y, Z words are thousandths, can be linearized, no move being as long as 1000 *)
Definition steps_ready (m : machine) (g : gcode) : Prop :=
  derives (gcls g) GCodeArcMove /\ incremental m /\ m_axes m = xyz /\
  (forall a x, In a [AX; AY; AZ] -> names g a x -> exists n, x = frac n 1000) /\
  exists moves, norm_linearize L methods precision m g = (moves, Ok tt) /\ Forall (fun h => forall a x, names h a x -> (Qabs x < 1000)%Q) moves.
(** a line the script can handle when only arcs are replaced, in absolute or incremental mode *)
Definition linearizable_either (o : options) (m : machine) (l : line) : Prop :=
  exists gs, block_modal_gcodes m (lblock l) = Ok gs /\
    ((Forall (fun g => ~ swapped o g) gs /\ faithful l) \/
     exists a g b ms, gs = a ++ g :: b /\ swapped o g /\ fillable m l /\ lmacro l = None /\ passes m a ms /\ (arc_ready L methods precision (last ms m) g \/ steps_ready (last ms m) g)).
End Arcs.
