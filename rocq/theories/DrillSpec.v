(** Drilling cycles written out as moves. *)
From Coq Require Import List Bool ZArith QArith Qabs Qcanon.
From Verif Require Import Base Num Words GTable GCode Line Position Machine WordsSpec PrintSpec BlockSpec GCodeSpec ArithSpec PosSpec ModeSpec MachSpec TransSpec.
Import ListNotations.

Notation where_ := (v9 (option Qc)).
Definition height (v : where_) (z : Qc) : Prop := vget v AZ = Some z.
(** only the height differs *)
Definition vertical (v v' : where_) : Prop := forall a, a <> AZ -> vget v' a = vget v a.
(** [safe r d v f l]: the moves [l] from [v] are safe when the material starts at height [r], holes may be [d] deep and the hole
    under the tool is free down to [f]: rapid moves stay in the free part, sideways moves are not below [r], feed goes down, and not below [d] *)
Inductive safe (r d : Qc) : where_ -> Qc -> list spot -> Prop :=
| safe_end v f : safe r d v f []
| safe_rapid v f c v' z l : derives c GCodeRapidMove -> vertical v v' -> height v' z -> (f <= z)%Qc -> safe r d v' f l -> safe r d v f ((c, v') :: l)
| safe_side v f c v' z l : derives c GCodeRapidMove -> height v z -> height v' z -> (r <= z)%Qc -> safe r d v' r l -> safe r d v f ((c, v') :: l)
| safe_feed v f c v' z z' l : derives c GCodeLinearMove -> vertical v v' -> height v z -> height v' z' -> (z' <= z)%Qc -> (d <= z')%Qc -> safe r d v' (if Qcltb z' f then z' else f) l -> safe r d v f ((c, v') :: l).
(** the moves that absolute gcodes command, starting at [v] *)
Inductive commands : where_ -> list gcode -> list spot -> Prop :=
| com_nil v : commands v [] []
| com_cons v g gs v' l : (forall a x, names g a x -> vget v a <> None -> vget v' a = Some x) -> (forall a, (forall x, ~ names g a x) \/ vget v a = None -> vget v' a = vget v a) ->
    commands v' gs l -> commands v (g :: gs) ((gcls g, v') :: l).

(** a drilling cycle started at x0, y0, z0: top [r] and bottom [d] of the holes, position of hole [i], counted from 1 *)
Record job := Job { jr : Qc; jd : Qc; jx : nat -> Qc; jy : nat -> Qc }.
Definition job_absolute (g : gcode) (j : job) : Prop :=
  exists x y, names g AX x /\ names g AY y /\ names g AZ (jd j) /\ r_word g (jr j) /\ forall i, jx j i = x /\ jy j i = y.
(** [x0, y0, z0]: the start; R is relative to the start, Z to R, and each hole is one step further *)
Definition job_incremental (g : gcode) (x0 y0 z0 : Qc) (j : job) : Prop :=
  exists x y z r, names g AX x /\ names g AY y /\ names g AZ z /\ r_word g r /\ jr j = (z0 + r)%Qc /\ jd j = (z0 + r + z)%Qc /\
    forall i, jx j i = (x0 + Qc_of_Z (Z.of_nat i) * x)%Qc /\ jy j i = (y0 + Qc_of_Z (Z.of_nat i) * y)%Qc.
(** the number of holes asked for *)
Definition asked (g : gcode) (n : nat) : Prop :=
  (exists w z, In (LL, w) (gparams g) /\ wvalue w = VInt z /\ n = Z.to_nat z) \/ ((forall w, ~ In (LL, w) (gparams g)) /\ n = 1%nat).
Definition over (j : job) (i : nat) (v : where_) : Prop := vget v AX = Some (jx j i) /\ vget v AY = Some (jy j i).
(** every feed is at one of the [n] holes, and at each of them the tool gets to the bottom *)
Definition feeds_over (j : job) (n : nat) (l : list spot) : Prop :=
  forall c v, In (c, v) l -> derives c GCodeLinearMove -> exists i, (1 <= i <= n)%nat /\ over j i v.
Definition bottom_reached (j : job) (n : nat) (vs : list where_) : Prop :=
  forall i, (1 <= i <= n)%nat -> exists v, In v vs /\ over j i v /\ height v (jd j).
(** the number of feed moves *)
Inductive feed_count : list gcode -> nat -> Prop :=
| fc_nil : feed_count [] 0
| fc_feed g l k : derives (gcls g) GCodeLinearMove -> feed_count l k -> feed_count (g :: l) (S k)
| fc_other g l k : ~ derives (gcls g) GCodeLinearMove -> feed_count l k -> feed_count (g :: l) k.
(** [k] pecks of size [q] are just enough for depth [h] *)
Definition enough (q h : Qc) (k : nat) : Prop := (Qc_of_Z (Z.of_nat k - 1) * q < h)%Qc /\ (h <= Qc_of_Z (Z.of_nat k) * q)%Qc.
Definition pecking (g : gcode) : Prop := derives (gcls g) GCodeDrillingCyclePeck \/ derives (gcls g) GCodeDrillingCycleChipBreaking.
Definition q_word (g : gcode) (q : Qc) : Prop := exists w, In (LQ, w) (gparams g) /\ wvalue w = VFloat q.
(** cycles this code knows how to drill: not the dwell, which fails on a missing name *)
Definition dwells (g : gcode) : Prop := derives (gcls g) GCodeDrillingCycleDwell.
(** a cycle with all it needs, whose class the code can expand *)
Definition complete (g : gcode) : Prop := ~ dwells g /\ (pecking g -> exists q, q_word g q).
(** arguments of the expansion: plane, distance mode, return mode; None for the default (G17, G90, G98) *)
Definition xy_plane (c : option gclass) : Prop := c = None \/ exists p, c = Some p /\ derives p GCodeSelectXYPlane.
Definition abs_mode (c : option gclass) : Prop := c = None \/ exists p, c = Some p /\ derives p GCodeAbsoluteDistanceMode.
Definition inc_mode (c : option gclass) : Prop := exists p, c = Some p /\ derives p GCodeIncrementalDistanceMode.
Definition to_r_mode (c : option gclass) : Prop := exists p, c = Some p /\ derives p GCodeCannedCycleReturnToR.
Definition prev_mode (c : option gclass) : Prop := c = None \/ exists p, c = Some p /\ derives p GCodeCannedCycleReturnPrevLevel.
(** the holes asked for, starting at [v] *)
Definition drilling (g : gcode) (v : where_) (dist : option gclass) (j : job) : Prop :=
  (abs_mode dist /\ job_absolute g j) \/
  (inc_mode dist /\ exists x0 y0 z0, vget v AX = Some x0 /\ vget v AY = Some y0 /\ vget v AZ = Some z0 /\ job_incremental g x0 y0 z0 j).
(** the height after a hole: that of the start, or R *)
Definition end_height (ret : option gclass) (v : where_) (j : job) (z : Qc) : Prop := (to_r_mode ret /\ z = jr j) \/ (prev_mode ret /\ height v z).
Definition mode_fits (m : machine) (dist : option gclass) : Prop := (abs_mode dist /\ absolute m) \/ (inc_mode dist /\ incremental m).
Definition knows_xyz (v : where_) : Prop := forall a, In a [AX; AY; AZ] -> vget v a <> None.
(** up to a million units from the origin *)
Definition within (x : Qc) : Prop := (Qabs (this x) <= 1000000)%Q.
