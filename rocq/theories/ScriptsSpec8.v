(** Arcs that pygcode-norm --arc_linearize can replace. *)
From Coq Require Import Ascii String List Bool Arith ZArith QArith Qcanon Qabs.
From Verif Require Import Base Num Words GTable GCode Line Position Machine Transform WordsSpec PrintSpec GCodeSpec ArithSpec ModeSpec MachSpec SimSpec TransSpec Scripts ScriptArgs ScriptsSpec ScriptsSpec2 ScriptsSpec3 ScriptsSpec5 ScriptsSpec6 FloatArc FloatArcSpec.
Import ListNotations.

Section Arcs.
Context {ar : Arith} (L : mathlib) (methods : lin_methods) (precision : Qc).
(** in state [m] (absolute mode, X, Y, Z) the arc can be linearized, no coordinate of the moves is beyond 999999 and the end of the arc
    prints without loss *)
Definition arc_ready (m : machine) (g : gcode) : Prop :=
  derives (gcls g) GCodeArcMove /\ absolute m /\ m_axes m = xyz /\
  (forall p a x, machine_pos m = Ok p -> In a [AX; AY; AZ] -> ends_at g p a x -> readable (Word (axis_letter a) (VFloat x))) /\
  exists moves, norm_linearize L methods precision m g = (moves, Ok tt) /\ Forall (fun h => forall a x, names h a x -> (Qabs x <= 999999)%Q) moves.
(** a line the script can handle when only arcs are replaced *)
Definition linearizable (o : options) (m : machine) (l : line) : Prop :=
  exists gs, block_modal_gcodes m (lblock l) = Ok gs /\
    ((Forall (fun g => ~ swapped o g) gs /\ faithful l) \/
     exists a g b ms, gs = a ++ g :: b /\ swapped o g /\ fillable m l /\ lmacro l = None /\ passes m a ms /\ arc_ready (last ms m) g).
End Arcs.
