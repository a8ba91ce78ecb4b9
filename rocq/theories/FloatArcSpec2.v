(** Functions that return the float nearest to the true result; arguments of linearize_arc that are in order. *)
From Coq Require Import List ZArith QArith Qcanon.
From Verif Require Import Base Num Words GTable GCode Position GCodeSpec ArithSpec MachSpec FloatArc FloatArcSpec.
Import ListNotations.

Section WithArith.
Context {ar : Arith}.
(** [x ** 2] is the rounded square *)
Definition right_square (L : mathlib) : Prop := forall x : Qc, l_square L x = rnd (x * x)%Qc.
(** [math.sqrt x] is the rounded root (which need not be rational): no more than the rounding of what is no less than the root, no less
    than the rounding of what is no more *)
Definition right_root (L : mathlib) : Prop := forall x s : Qc, (Q2Qc 0 <= x)%Qc -> (Q2Qc 0 <= s)%Qc ->
  ((s * s <= x)%Qc -> (rnd s <= l_sqrt L x)%Qc) /\ ((x <= s * s)%Qc -> (l_sqrt L x <= rnd s)%Qc).
(** roots are not negative *)
Definition root_sign (L : mathlib) : Prop := forall x : Qc, (Q2Qc 0 <= x)%Qc -> (Q2Qc 0 <= l_sqrt L x)%Qc.
(** the words of an arc that make sense: an end point, and either a centre or a radius that is not zero *)
Definition worded (g : gcode) (l : letter) : Prop := exists w, In (l, w) (gparams g).
Definition radius_is (g : gcode) (x : Qc) : Prop := exists w, In (LR, w) (gparams g) /\ wvalue w = VFloat x.
Definition posed (g : gcode) : Prop :=
  (exists l, In l [LX; LY; LZ] /\ worded g l) /\
  (((exists l, In l [LI; LJ; LK] /\ worded g l) /\ ~ worded g LR) \/ ((forall l, In l [LI; LJ; LK] -> ~ worded g l) /\ exists x, radius_is g x /\ x <> Q2Qc 0)).
(** the other arguments: a position with X, Y and Z, one of G17, G18, G19, one of G90, G91, one of G90.1, G91.1, a positive precision *)
Definition in_order (p : position) (plane dist adist : option gclass) (e : Qc) : Prop :=
  (forall a, In a [AX; AY; AZ] -> exists x, vget (pvals p) a = Some x) /\
  (plane = None \/ exists c, plane = Some c /\ In c [GCodeSelectXYPlane; GCodeSelectZXPlane; GCodeSelectYZPlane]) /\
  (dist = None \/ exists c, dist = Some c /\ (derives c GCodeAbsoluteDistanceMode \/ derives c GCodeIncrementalDistanceMode)) /\
  (adist = None \/ exists c, adist = Some c /\ (derives c GCodeAbsoluteArcDistanceMode \/ derives c GCodeIncrementalArcDistanceMode)) /\
  (Q2Qc 0 < e)%Qc.
End WithArith.
(** the words of the moves on an axis are (the floats next to) so many thousandths, [n] in all *)
Inductive counts {ar : Arith} : list gcode -> axis -> Z -> Prop :=
| counts_nil a : counts [] a 0
| counts_cons h hs a k n : names h a (rnd (frac k 1000)) -> counts hs a n -> counts (h :: hs) a (k + n).
