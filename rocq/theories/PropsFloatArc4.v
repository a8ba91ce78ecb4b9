(** C95: in floating point the moves of linearize_arc stay close to the arc. *)
From Coq Require Import Ascii String List Bool ZArith QArith Qcanon Qabs Qround Qreals Reals Lia Lra.
From Verif Require Import Base Num Words GTable GCode Position Machine Transform BaseFacts NumFacts WordOrder PrintSpec PrintProofs GCodeSpec PropsGCode ArithSpec Float64 MachSpec MachProofs CannedProofs DrillProofs PropsDrill Arc ArcSpec ArcProofs2 ArcProofs3.
From Verif Require Import FloatArc FloatArcSpec FloatArcSpec2 FloatArcSpec3 FloatArcProofs FloatArcProofs5 FloatArcProofs7 FloatArcProofs13 FloatArcProofs14 Root64 PropsFloatArc PropsFloatArc2 Lib64.
Import ListNotations.
Open Scope R_scope.

(** absolute mode, XY plane; rounding and the functions of [math] right up to [u], nothing larger than [M], ends and precision well above
    the rounding errors: the moves go around the arc's centre, its way round and less than a full turn, through corners in order along
    the arc and evenly up or down, end in the end of the arc, and no point on them is further from the circle than the precision allows,
    but for 1500 * u * M *)
Theorem C95_path : forall (ar : Arith) (L : mathlib) (u i M : R) (g : gcode) (start : position) (plane : option gclass) (m : arc_method) (dist adist : option gclass) (relative : bool) (e : Qc) (moves : list gcode) (p q : vec),
  let c := GCodeSelectXYPlane in let d := 1500 * u * M in
  accurate ar -> idempotent ar -> lawful L -> close_to_real ar L u i -> 0 < u <= / 1000000 -> 0 < i <= u ->
  gcode_wf g -> all_floats g start -> at_point start p -> target true g p q -> plane_is plane c -> in_absolute dist -> arc_dist_is adist relative ->
  1 <= M -> inside M p -> inside M q -> (forall x, reads g LR x -> Rabs x <= M) -> (forall o, lacks g LR -> given_center relative g p o -> apart c p o <= M /\ apart c q o <= M) ->
  2000 * u * M <= apart c p q -> 2000 * u * M <= Qc2R e ->
  linearize_arc L g start plane (Some m) dist adist e = (moves, Ok tt) ->
  exists o r A vs ths, Forall2 goes_to moves vs /\ (exists before, vs = before ++ [q]) /\ nearly_circle g c relative p q o r (165 * u * M) (10 * R_sqrt.sqrt u * M) /\ 0 < A < 2 * PI /\ rising 0 ths A /\
    Forall2 (near_helix c (clockwise g) o p q A d) ths vs /\ Forall (fun pq => forall x, between (fst pq) (snd pq) x -> nearly_allowed m r (Qc2R e) d (apart c x o)) (pieces p vs).
Proof.
  intros ar L u i M g start plane m dist adist relative e moves p q c d acc ID LW C U I W FL AT TG PL DI AD M1 PM QM RM GM AP EL E.
  destruct (path_near L u i C U I LW acc ID g start plane m dist adist e moves p q relative M W FL AT TG PL DI AD M1 PM QM RM GM AP EL E) as (o & r & A & vs & ths & H1 & H2 & H3 & H4 & H5 & H6 & H7 & _).
  exists o, r, A, vs, ths. auto 10.
Qed.
Print Assumptions C95_path.
(** incremental mode: the points passed, each the sum of the increments up to there, are as close, but for the half thousandth the
    increments are rounded by and the rounding errors of [n] additions; [q'] is the end as computed *)
Theorem C95_increments : forall (ar : Arith) (L : mathlib) (u i M : R) (g : gcode) (start : position) (plane : option gclass) (m : arc_method) (dist adist : option gclass) (relative : bool) (e : Qc) (moves : list gcode) (p q : vec),
  let c := GCodeSelectXYPlane in let h := / 2000 + (2 * INR (length moves) + 6) * (u * (5 * M + Qc2R e + 1)) in let d := 1501 * u * M + 3 / 2 * h in
  accurate ar -> idempotent ar -> lawful L -> close_to_real ar L u i -> 0 < u <= / 1000000 -> 0 < i <= u ->
  gcode_wf g -> all_floats g start -> at_point start p -> target false g p q -> plane_is plane c -> in_incremental dist -> arc_dist_is adist relative ->
  1 <= M -> inside M p -> inside M q -> (forall x, reads g LR x -> Rabs x <= M) -> (forall o, lacks g LR -> given_center relative g p o -> apart c p o <= M /\ apart c q o <= M) ->
  2010 * u * M <= apart c p q -> 2010 * u * M <= Qc2R e -> 10000 * u * (5 * M + Qc2R e + 1) <= 1 ->
  linearize_arc L g start plane (Some m) dist adist e = (moves, Ok tt) ->
  exists o r A vs ths q', walks p moves vs /\ by_each (2 * u * M) q q' /\ (exists before v, vs = before ++ [v] /\ by_each h q' v) /\ nearly_circle g c relative p q' o r (166 * u * M) (11 * R_sqrt.sqrt u * M) /\ 0 < A < 2 * PI /\ rising 0 ths A /\
    Forall2 (near_helix c (clockwise g) o p q' A d) ths vs /\ Forall (fun pq => forall x, between (fst pq) (snd pq) x -> nearly_allowed m r (Qc2R e) d (apart c x o)) (pieces p vs).
Proof.
  intros ar L u i M g start plane m dist adist relative e moves p q c h d acc ID LW C U I W FL AT TG PL DI AD M1 PM QM RM GM AP EL NU E.
  exact (path_increments L u i C U I LW acc ID g start plane m dist adist e moves p q relative M W FL AT TG PL DI AD M1 PM QM RM GM AP EL NU E).
Qed.
Print Assumptions C95_increments.
(** the rounding of binary64, with any functions that return the float nearest to squares and roots *)
Theorem C95_binary64 : forall L : mathlib, right_square (ar := binary64) L -> right_root (ar := binary64) L ->
  let u := / 2 ^ 53 in let i := / 2 ^ 511 in (forall x, off u i (Qc2R x) (Qc2R (rnd (Arith := binary64) x))) /\ (forall x, off u i (Qc2R x * Qc2R x) (Qc2R (l_square L x))) /\ (forall x, 0 <= Qc2R x -> off u i (R_sqrt.sqrt (Qc2R x)) (Qc2R (l_sqrt L x))).
Proof.
  intros L SQ RT u i. split; [exact binary64_off|]. split.
  - intros x. rewrite SQ, <- q_mul. apply binary64_off.
  - apply (root_near binary64 L); [|exact RT|exact binary64_off]. unfold u. split; [left; apply Rinv_0_lt_compat, pow_lt; lra|]. rewrite <- Rinv_1. apply Rinv_lt_contravar; [rewrite Rmult_1_l; apply pow_lt; lra|apply Rlt_pow_R1; [lra|lia]].
Qed.
Print Assumptions C95_binary64.
(** the hypothesis can be met: a library on binary64 *)
Theorem C95_library : lawful lib64 /\ close_to_real binary64 lib64 u64 u64 /\ u64 = / 2 ^ 46.
Proof. split; [exact lib64_lawful|]. split; [exact lib64_close|]. unfold u64. f_equal. lra. Qed.
Print Assumptions C95_library.
(** ** three quarters of a circle *)
Definition word_b (g : gcode) (l : letter) (x : Qc) : bool := match pget (gparams g) l with Some (Word _ (VFloat y)) => Qceqb y x | _ => false end.
Definition without_b (g : gcode) (l : letter) : bool := match pget (gparams g) l with None => true | _ => false end.
Lemma word_is ar g l x : gcode_wf (ar := ar) g -> word_b g l x = true -> (forall y, reads g l y -> y = Qc2R x) /\ reads g l (Qc2R x).
Proof.
  intros W. unfold word_b. destruct (pget (gparams g) l) as [[k [z| |]]|] eqn:P; try discriminate. intros E. apply Qceqb_eq in E. subst z. split.
  - intros y (w & z & J & V & ->). apply (pget_in g _ _ (proj1 W)) in J. rewrite J in P. injection P as ->. cbn in V. congruence.
  - exists (Word k (VFloat x)), x. split; [apply (pget_in g _ _ (proj1 W)); exact P|auto].
Qed.
Lemma without_is ar g l : gcode_wf (ar := ar) g -> without_b g l = true -> lacks g l /\ forall y, ~ reads g l y.
Proof.
  intros W. unfold without_b. destruct (pget (gparams g) l) eqn:P; [discriminate|]. intros _. assert (N : lacks g l) by (intros w J; apply (pget_in g _ _ (proj1 W)) in J; congruence). split; auto. intros y (w & z & J & _). exact (N w J).
Qed.
Definition all_floats_b (ar : Arith) (g : gcode) (p : position) : bool := float_arc_b ar g p.
Lemma all_floats_ex ar g p : all_floats_b ar g p = true -> all_floats (ar := ar) g p.
Proof.
  intros E. unfold all_floats_b, float_arc_b in E. apply andb_prop in E as [E1 E2]. rewrite forallb_forall in E1, E2. split.
  - intros l w x J V. specialize (E1 _ J). cbn [snd] in E1. rewrite V in E1. apply Qceqb_eq. exact E1.
  - intros a x J V. specialize (E2 a J). rewrite V in E2. apply Qceqb_eq. exact E2.
Qed.
Definition three_quarters : gcode := agcode binary64 "G2 X1 Y-1 I1".
Local Notation moves_of g m e := (linearize_arc (ar := binary64) lib64 g from_zero None (Some m) None None e).
Lemma q_lit n d x : IZR n / IZR (Zpos d) = x -> Qc2R (frac n d) = x. Proof. intros <-. apply q_frac. Qed.
Lemma target_is g x y : reads g LX x -> (forall z, reads g LX z -> z = x) -> reads g LY y -> (forall z, reads g LY z -> z = y) -> lacks g LZ -> target true g (V3 0 0 0) (V3 x y 0).
Proof.
  assert (NL : forall l z, reads g l z -> ~ lacks g l) by (intros l z (w & k & J & _) N; exact (N w J)). assert (LN : forall l z, lacks g l -> ~ reads g l z) by (intros l z N (w & k & J & _); exact (N w J)).
  intros X X' Y Y' Z l f [E|[E|[E|[]]]]; injection E as <- <-; (split; [intros z H|intros H]); cbn [vx vy vz]; auto.
  - symmetry. auto.
  - destruct (NL LX x X H).
  - symmetry. auto.
  - destruct (NL LY y Y H).
  - destruct (LN LZ z Z H).
Qed.
Lemma center_is g x o : reads g LI x -> lacks g LJ -> given_center true g (V3 0 0 0) o -> vx o = x /\ vy o = 0.
Proof. intros X Y G. destruct (G LI vx ltac:(cbn; auto)) as [A _]. destruct (G LJ vy ltac:(cbn; auto)) as [_ B]. rewrite (A x X), (B Y). cbn. lra. Qed.
Example C95_path_ex : let p := V3 0 0 0 in let q := V3 1 (-1) 0 in let c := GCodeSelectXYPlane in let g := three_quarters in
  accurate binary64 /\ idempotent binary64 /\ lawful lib64 /\ close_to_real binary64 lib64 u64 u64 /\ 0 < u64 <= / 1000000 /\
  gcode_wf (ar := binary64) g /\ all_floats (ar := binary64) g from_zero /\ at_point from_zero p /\ target true g p q /\ plane_is None c /\ in_absolute None /\ arc_dist_is None true /\
  inside 1 p /\ inside 1 q /\ (forall x, reads g LR x -> Rabs x <= 1) /\ (forall o, lacks g LR -> given_center true g p o -> apart c p o <= 1 /\ apart c q o <= 1) /\
  2000 * u64 * 1 <= apart c p q /\ 2000 * u64 * 1 <= Qc2R (frac 1 2) /\ snd (moves_of g Inside (frac 1 2)) = Ok tt /\
  texts binary64 (moves_of g Inside (frac 1 2)) = (["G01 X1 Y1 Z0"; "G01 X2 Y-0 Z0"; "G01 X1 Y-1 Z0"]%string, true).
Proof.
  intros p q c g. assert (W : gcode_wf (ar := binary64) g) by (apply agcode_wf; vm_compute; discriminate).
  destruct (word_is _ g LX (frac 1 1) W) as [X X']; [vm_compute; reflexivity|]. destruct (word_is _ g LY (frac (-1) 1) W) as [Y Y']; [vm_compute; reflexivity|]. destruct (without_is _ g LZ W) as [Z Z']; [vm_compute; reflexivity|].
  destruct (word_is _ g LI (frac 1 1) W) as [I I']; [vm_compute; reflexivity|]. destruct (without_is _ g LJ W) as [J J']; [vm_compute; reflexivity|]. destruct (without_is _ g LR W) as [_ R']; [vm_compute; reflexivity|].
  rewrite (q_lit 1 1 1) in X, X', I, I' by lra. rewrite (q_lit (-1) 1 (-1)) in Y, Y' by lra.
  split; [exact binary64_accurate|]. split; [exact binary64_idempotent|]. split; [exact lib64_lawful|]. split; [exact lib64_close|]. split; [unfold u64; lra|]. split; [exact W|]. split; [apply all_floats_ex; vm_compute; reflexivity|].
  split; [exists (frac 0 1), (frac 0 1), (frac 0 1); split; [reflexivity|]; split; [reflexivity|]; split; [reflexivity|]; rewrite (q_lit 0 1 0) by lra; reflexivity|].
  split; [exact (target_is g 1 (-1) X' X Y' Y Z)|].
  split; [right; auto|]. split; [left; auto|]. split; [left; auto|]. split; [unfold inside, p; cbn; rewrite Rabs_R0; lra|]. split; [unfold inside, q; cbn [vx vy vz]; rewrite Rabs_R0, Rabs_R1, (Rabs_left (-1)) by lra; lra|].
  split; [intros x H; destruct (R' x H)|]. split.
  { intros o _ G. destruct (center_is g 1 o I' J G) as [OX OY]. rewrite !apart_len. cbn [pu pv c p q vx vy]. rewrite OX, OY. split; right; apply len_eq; lra. }
  split. { rewrite apart_len. cbn [pu pv c p q vx vy]. pose proof (len_x (0 - 1) (0 - -1)) as H. rewrite Rabs_left in H by lra. unfold u64. lra. }
  split; [rewrite (q_lit 1 2 (/ 2)) by lra; unfold u64; lra|]. split; [vm_compute; reflexivity|]. vm_compute. reflexivity.
Qed.
(** the same arc in incremental mode *)
Local Notation steps_of g m e := (linearize_arc (ar := binary64) lib64 g from_zero None (Some m) (Some GCodeIncrementalDistanceMode) None e).
Example C95_increments_ex : let p := V3 0 0 0 in let q := V3 1 (-1) 0 in let g := three_quarters in
  target false g p q /\ in_incremental (Some GCodeIncrementalDistanceMode) /\ 2010 * u64 * 1 <= apart GCodeSelectXYPlane p q /\ 2010 * u64 * 1 <= Qc2R (frac 1 2) /\ 10000 * u64 * (5 * 1 + Qc2R (frac 1 2) + 1) <= 1 /\
  snd (steps_of g Inside (frac 1 2)) = Ok tt /\ texts binary64 (steps_of g Inside (frac 1 2)) = (["G01 X1 Y1 Z0"; "G01 X1 Y-1 Z0"; "G01 X-1 Y-1 Z0"]%string, true).
Proof.
  intros p q g. destruct C95_path_ex as (_ & _ & _ & _ & _ & _ & _ & _ & TG & _ & _ & _ & _ & _ & _ & _ & AP & _). fold p q g in TG, AP. split.
  { intros l f J. destruct (TG l f J) as [A B]. split; [|exact B]. intros x X. rewrite (A x X). destruct J as [E|[E|[E|[]]]]; injection E as _ <-; cbn; lra. }
  split; [exists GCodeIncrementalDistanceMode; split; [reflexivity|apply der_self]|]. split. { rewrite apart_len. cbn [pu pv p q vx vy]. pose proof (len_x (0 - 1) (0 - -1)) as H. rewrite Rabs_left in H by lra. unfold u64. lra. }
  rewrite (q_lit 1 2 (/ 2)) by lra. split; [unfold u64; lra|]. split; [unfold u64; lra|]. split; vm_compute; reflexivity.
Qed.
