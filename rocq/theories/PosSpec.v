(** What positions mean. A coordinate is observed with [pos_getattr], i.e. Python's [p.X]. *)
From Coq Require Import List Bool ZArith QArith Qcanon.
From Verif Require Import Base Num GTable Position.
Import ListNotations.

Definition has (p : position) (a : axis) : Prop := vget (paxes p) a = true.
(** a position has a value for each of its axes and no other value: what the constructor makes when it is
    given coordinates of its own axes only *)
Definition good (p : position) : Prop := forall a, vget (pvals p) a = None <-> ~ has p a.
Definition known_unit (u : Z) : Prop := u = UNIT_IMPERIAL \/ u = UNIT_METRIC.
(** a length in millimetres *)
Definition mm (u : Z) (x : Qc) : Qc := if Z.eqb u UNIT_IMPERIAL then (x * frac 254 10)%Qc else x.
(** two positions are the same place: same axes, same lengths *)
Definition same_place (p q : position) : Prop :=
  (forall a, has p a <-> has q a) /\
  forall a x y, pos_getattr p a = Ok x -> pos_getattr q a = Ok y -> mm (punit p) x = mm (punit q) y.
(** the last value assigned to an axis in a list of assignments *)
Definition last_assigned (cs : list (axis * Qc)) (a : axis) (x : Qc) : Prop :=
  exists l r, cs = l ++ (a, x) :: r /\ forall y, ~ In (a, y) r.
