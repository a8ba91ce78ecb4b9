(** Floating point that is close to the real numbers, and paths close to an arc. *)
From Coq Require Import List Bool ZArith QArith Qcanon Qreals Reals.
From Verif Require Import Base Num Words GTable GCode Position Machine Transform ArithSpec Arc ArcSpec.
From Verif Require Import FloatArc FloatArcSpec.
Import ListNotations.
Open Scope R_scope.

(** [y] is [x] but for the last digits: an error of [u] times [x], and of [u * i * i] for what is too small to be told from zero *)
Definition off (u i x y : R) : Prop := Rabs (y - x) <= u * (Rabs x + i * i).
Definition size (v : fvec) : R := Rabs (Qc2R (fx v)) + Rabs (Qc2R (fy v)) + Rabs (Qc2R (fz v)).
(** rounding, and the functions of [math] and euclid3 used on arcs in the XY plane, are what they are meant to be, up to [u] *)
Record close_to_real (ar : Arith) (L : mathlib) (u i : R) : Prop := {
  near_rnd : forall x, off u i (Qc2R x) (Qc2R (rnd x));
  near_square : forall x, off u i (Qc2R x * Qc2R x) (Qc2R (l_square L x));
  near_sqrt : forall x, 0 <= Qc2R x -> off u i (R_sqrt.sqrt (Qc2R x)) (Qc2R (l_sqrt L x));
  near_acos : forall x, -1 <= Qc2R x <= 1 -> Rabs (Qc2R (l_acos L x) - Ratan.acos (Qc2R x)) <= u;
  near_cos : forall x, Rabs (Qc2R x) <= 4 -> Rabs (Qc2R (l_cos L x) - cos (Qc2R x)) <= u;
  near_tan : forall x, Rabs (Qc2R x) <= 1 -> Rabs (Qc2R (l_tan L x) - tan (Qc2R x)) <= u;
  near_pi : Rabs (Qc2R (l_pi L) - PI) <= u;
  (** the angle of (x, y) *)
  near_atan2 : forall y x, exists th, - PI <= th <= PI /\
    (let d := R_sqrt.sqrt (Qc2R x * Qc2R x + Qc2R y * Qc2R y) in Qc2R x = d * cos th /\ Qc2R y = d * sin th) /\ Rabs (Qc2R (l_atan2 L y x) - th) <= u;
  near_mod : forall x y, 0 < Qc2R y -> 0 <= Qc2R (l_mod L x y) <= Qc2R y /\ exists k : Z, Rabs (Qc2R (l_mod L x y) - (Qc2R x - IZR k * Qc2R y)) <= u * Qc2R y;
  (** turning around the axis (0, 0, -1): clockwise seen from above *)
  near_rotate : forall th v, Rabs (Qc2R th) <= 10 ->
    let w := l_rotate L th (FV (Q2Qc 0) (Q2Qc 0) (- Q2Qc 1)%Qc) v in let d := u * (size v + i * i) in
    Rabs (Qc2R (fx w) - (Qc2R (fx v) * cos (Qc2R th) + Qc2R (fy v) * sin (Qc2R th))) <= d /\
    Rabs (Qc2R (fy w) - (Qc2R (fy v) * cos (Qc2R th) - Qc2R (fx v) * sin (Qc2R th))) <= d /\ Rabs (Qc2R (fz w) - Qc2R (fz v)) <= d;
  near_plane : forall v, let w := l_plane L GCodeSelectXYPlane v in let d := u * (size v + i * i) in
    Rabs (Qc2R (fx w) - Qc2R (fx v)) <= d /\ Rabs (Qc2R (fy w) - Qc2R (fy v)) <= d /\ Rabs (Qc2R (fz w) - Qc2R (fz v)) <= d }.

(** the words of an arc, and the position it starts from, are floats *)
Definition all_floats {ar : Arith} (g : gcode) (s : position) : Prop :=
  (forall l w x, In (l, w) (gparams g) -> wvalue w = VFloat x -> float x) /\ forall a x, In a [AX; AY; AZ] -> vget (pvals s) a = Some x -> float x.
(** the points a list of G1 moves goes to *)
Definition goes_to {ar : Arith} (h : gcode) (v : vec) : Prop := exists x y z, linear_to h x y z /\ v = V3 (Qc2R x) (Qc2R y) (Qc2R z).
(** the points passed by G1 moves that are relative to the point before *)
Inductive walks {ar : Arith} : vec -> list gcode -> list vec -> Prop :=
| walks_end p : walks p [] []
| walks_on p h hs d p' vs : goes_to h d -> vx p' = vx p + vx d -> vy p' = vy p + vy d -> vz p' = vz p + vz d -> walks p' hs vs -> walks p (h :: hs) (p' :: vs).
(** coordinates no larger than [M] *)
Definition inside (M : R) (v : vec) : Prop := Rabs (vx v) <= M /\ Rabs (vy v) <= M /\ Rabs (vz v) <= M.
(** [v] is no further than [d] from the point on the way of an arc, of the angle [A] around [o], that is turned by [th] *)
Definition near_helix (c : gclass) (cw : bool) (o p q : vec) (A d th : R) (v : vec) : Prop :=
  exists k v', 0 < k /\ turned c cw o p th k v' /\ apart c v v' <= d /\ Rabs (ph c v - (ph c p + (ph c q - ph c p) * (th / A))) <= d.
(** as [allowed], and [d] more *)
Definition nearly_allowed (m : arc_method) (r e d x : R) : Prop :=
  match m with Inside => r - e - d <= x <= r + d | Outside => r - d <= x <= r + e + d | Mid => r - e / 2 - d <= x <= r + e / 2 + d end.
(** how far [o] is to the left of the way from [p] to [q], times the length of the way *)
Definition leftness (c : gclass) (p q o : vec) : R := (pu c q - pu c p) * (pv c o - pv c p) - (pv c q - pv c p) * (pu c o - pu c p).
(** the circle [circle_of] speaks of, up to [d]; where two centres are nearly as close to the given one it is either, up to [d2] *)
Definition nearly_circle (g : gcode) (c : gclass) (relative : bool) (p q o : vec) (r d d2 : R) : Prop :=
  Rabs (apart c p o - r) <= d /\ Rabs (apart c q o - r) <= d /\
  ((exists x, reads g LR x /\ r = Rabs x /\
      (** clockwise the centre is to the right, the other way round it is to the left; for more than half a turn it is the other one *)
      if Bool.eqb (subclass (gcls g) GCodeArcMoveCW) (if Rlt_dec x 0 then true else false) then - d * apart c p q <= leftness c p q o else leftness c p q o <= d * apart c p q) \/
   (lacks g LR /\ exists o0, given_center relative g p o0 /\ Rabs (r - (apart c p o0 + apart c q o0) / 2) <= d /\
      forall o', apart c p o' = r -> apart c q o' = r -> apart c o o0 <= apart c o' o0 + d2)).
(** no coordinate of [w] is further than [h] from that of [v] *)
Definition by_each (h : R) (v w : vec) : Prop := Rabs (vx w - vx v) <= h /\ Rabs (vy w - vy v) <= h /\ Rabs (vz w - vz v) <= h.
