(** Arcs: the circle a gcode asks for, turning in a plane, straight pieces. Coordinates are real numbers. *)
From Coq Require Import List Bool ZArith QArith Qcanon Qreals Reals.
From Verif Require Import Base Num Words GTable GCode Position Arc GCodeSpec PosSpec ModeSpec MachSpec DrillSpec.
Import ListNotations.
Open Scope R_scope.

(** the planes G17, G18, G19: first and second axis, and the height over the plane; right handed *)
Definition arc_plane (c : gclass) : Prop := In c [GCodeSelectXYPlane; GCodeSelectZXPlane; GCodeSelectYZPlane].
Definition pu (c : gclass) (v : vec) : R := match c with GCodeSelectZXPlane => vz v | GCodeSelectYZPlane => vy v | _ => vx v end.
Definition pv (c : gclass) (v : vec) : R := match c with GCodeSelectZXPlane => vx v | GCodeSelectYZPlane => vz v | _ => vy v end.
Definition ph (c : gclass) (v : vec) : R := match c with GCodeSelectZXPlane => vy v | GCodeSelectYZPlane => vx v | _ => vz v end.
(** distance seen from above the plane *)
Definition apart (c : gclass) (p q : vec) : R := sqrt ((pu c p - pu c q) * (pu c p - pu c q) + (pv c p - pv c q) * (pv c p - pv c q)).
Definition same_spot (c : gclass) (p q : vec) : Prop := pu c p = pu c q /\ pv c p = pv c q.
(** [q] is [p] turned around [o] by the angle [th] and moved away from [o] by the factor [k], seen from above *)
Definition turned (c : gclass) (clockwise : bool) (o p : vec) (th k : R) (q : vec) : Prop :=
  let a := pu c p - pu c o in let b := pv c p - pv c o in let s := if clockwise then - sin th else sin th in
  pu c q - pu c o = k * (a * cos th - b * s) /\ pv c q - pv c o = k * (a * s + b * cos th).
(** the angle of an arc around [o], less than a full turn *)
Definition sweep (c : gclass) (clockwise : bool) (o p q : vec) (th : R) : Prop := 0 <= th < 2 * PI /\ turned c clockwise o p th 1 q.

(** the parameter [l] of a gcode *)
Definition reads (g : gcode) (l : letter) (x : R) : Prop := exists w q, In (l, w) (gparams g) /\ wvalue w = VFloat q /\ x = Qc2R q.
Definition lacks (g : gcode) (l : letter) : Prop := forall w, ~ In (l, w) (gparams g).
Definition at_point (p : position) (v : vec) : Prop :=
  exists x y z, vget (pvals p) AX = Some x /\ vget (pvals p) AY = Some y /\ vget (pvals p) AZ = Some z /\ v = V3 (Qc2R x) (Qc2R y) (Qc2R z).
(** the end point: [absolute] or relative to [p] *)
Definition target (absolute : bool) (g : gcode) (p q : vec) : Prop :=
  forall l f, In (l, f) [(LX, vx); (LY, vy); (LZ, vz)] ->
    (forall x, reads g l x -> f q = if absolute then x else f p + x) /\ (lacks g l -> f q = f p).
(** the centre given by I, J, K: [relative] to [p] or absolute *)
Definition given_center (relative : bool) (g : gcode) (p o : vec) : Prop :=
  forall l f, In (l, f) [(LI, vx); (LJ, vy); (LK, vz)] ->
    (forall x, reads g l x -> f o = if relative then f p + x else x) /\ (lacks g l -> f o = if relative then f p else 0).
(** the circle an arc from [p] to [q] is on: centre [o], radius [r].
    With R: at the distance R of both ends, on the side that makes the arc at most half a turn (R positive) or at least half a turn.
    With I, J, K: the radius is the mean distance of the ends from the given centre, the centre is one of the points at this distance
    of both ends, the one closest to the given centre *)
Definition circle_of (g : gcode) (c : gclass) (relative : bool) (p q o : vec) (r : R) : Prop :=
  apart c p o = r /\ apart c q o = r /\
  ((exists x, reads g LR x /\ r = Rabs x /\ exists th, sweep c (subclass (gcls g) GCodeArcMoveCW) o p q th /\ (0 < x -> th <= PI) /\ (x < 0 -> PI <= th)) \/
   (lacks g LR /\ exists o0, given_center relative g p o0 /\ r = (apart c p o0 + apart c q o0) / 2 /\
      forall o', apart c p o' = r -> apart c q o' = r -> apart c o o0 <= apart c o' o0)).
(** arguments: None for the default *)
Definition plane_is (o : option gclass) (c : gclass) : Prop := o = Some c \/ (o = None /\ c = GCodeSelectXYPlane).
Definition dist_is (o : option gclass) (absolute : bool) : Prop := if absolute then abs_mode o else inc_mode o.
Definition arc_dist_is (o : option gclass) (relative : bool) : Prop :=
  if relative then o = None \/ exists p, o = Some p /\ derives p GCodeIncrementalArcDistanceMode
  else exists p, o = Some p /\ derives p GCodeAbsoluteArcDistanceMode.
Definition is_arc (g : gcode) : Prop := derives (gcls g) GCodeArcMove.
Definition clockwise (g : gcode) : bool := subclass (gcls g) GCodeArcMoveCW.

(** straight pieces, each starting where the one before ended *)
Inductive chained : vec -> list (vec * vec) -> vec -> Prop :=
| chain_one p q : chained p [(p, q)] q
| chain_more p x l q : chained x l q -> chained p ((p, x) :: l) q.
(** the straight pieces of a path starting at [p] *)
Fixpoint pieces (p : vec) (l : list vec) : list (vec * vec) := match l with [] => [] | q :: l => (p, q) :: pieces q l end.
(** between two points *)
Definition between (p q x : vec) : Prop := exists t, 0 <= t <= 1 /\
  vx x = (1 - t) * vx p + t * vx q /\ vy x = (1 - t) * vy p + t * vy q /\ vz x = (1 - t) * vz p + t * vz q.
(** how far a line may be from the circle *)
Definition allowed (m : arc_method) (r e d : R) : Prop :=
  match m with Inside => r - e <= d <= r | Outside => r <= d <= r + e | Mid => r - e / 2 <= d <= r + e / 2 end.
(** increasing positive angles, the last one [th] *)
Inductive rising : R -> list R -> R -> Prop :=
| rising_one a b : a < b -> rising a [b] b
| rising_more a b l th : a < b -> rising b l th -> rising a (b :: l) th.
(** relative moves [d] from [cur]: after every one the position is within half a unit of the last decimal place of the vertex *)
Definition close (places : Z) (u v : vec) : Prop := let h := / (2 * powerRZ 10 places) in Rabs (vx u - vx v) <= h /\ Rabs (vy u - vy v) <= h /\ Rabs (vz u - vz v) <= h.
Inductive keeps (places : Z) : vec -> list vec -> list vec -> Prop :=
| keeps_end p : keeps places p [] []
| keeps_on p p' d l v vs : vx p' = vx p + vx d -> vy p' = vy p + vy d -> vz p' = vz p + vz d -> close places p' v -> keeps places p' l vs -> keeps places p (d :: l) (v :: vs).
(** the moves [out] from [p] go to the points [vs]: absolute moves exactly, relative moves up to rounding *)
Definition follows (absolute : bool) (places : Z) (p : vec) (out vs : list vec) : Prop := if absolute then out = vs else keeps places p out vs.
(** the parameters make sense: an end point, and either a radius, large enough, with ends that differ, or a centre *)
Definition well_posed (g : gcode) (c : gclass) (e : R) (p q : vec) : Prop :=
  (exists l, In l [LX; LY; LZ] /\ ~ lacks g l) /\
  ((exists x, reads g LR x /\ x <> 0 /\ e <= apart c p q <= 2 * Rabs x /\ forall l, In l [LI; LJ; LK] -> lacks g l) \/
   (lacks g LR /\ exists l, In l [LI; LJ; LK] /\ ~ lacks g l)).
(** a point on the way: turned by [th] around [o], no nearer to it than the start, its height in proportion to the angle, [A] being all of it *)
Definition on_helix (c : gclass) (cw : bool) (o p q : vec) (A th : R) (v : vec) : Prop :=
  exists k, 1 <= k /\ turned c cw o p th k v /\ ph c v = ph c p + (ph c q - ph c p) * (th / A).
(** with wedges of the angle [w] the lines are too far from the circle *)
Definition too_coarse (m : arc_method) (r e w : R) : Prop :=
  match m with
  | Inside => e < r - r * cos (w / 2)
  | Outside => PI <= w \/ e < r / cos (w / 2) - r
  | Mid => 2 * PI <= w \/ e / 2 < r * (tan (w / 4) * tan (w / 4))
  end.
