(** Lemmas for C95: turning and straight lines, over the reals. *)
From Coq Require Import List Bool ZArith QArith Qcanon Reals Lia Lra Psatz.
From Verif Require Import Base Num Words GTable GCode Position Arc ArcSpec ArcProofs2 FloatArcProofs5.
Import ListNotations.
Open Scope R_scope.

(** ** sine and cosine change slowly *)
Lemma sin_small x : Rabs (sin x) <= Rabs x.
Proof.
  destruct (Rtotal_order x 0) as [H|[->|H]].
  - rewrite <- (Rabs_Ropp x), <- (Rabs_Ropp (sin x)), <- sin_neg. rewrite (Rabs_right (- x)) by lra. apply ab. pose proof (SIN_bound (- x)). destruct (Rle_dec (- x) 1) as [B|B]; [|lra]. pose proof (sin_lt_x (- x) ltac:(lra)). pose proof (sin_ge_0 (- x) ltac:(lra) ltac:(pose proof PI2_1; lra)). lra.
  - rewrite sin_0, !Rabs_R0. lra.
  - rewrite (Rabs_right x) by lra. apply ab. pose proof (SIN_bound x). destruct (Rle_dec x 1) as [B|B]; [|lra]. pose proof (sin_lt_x x H). pose proof (sin_ge_0 x ltac:(lra) ltac:(pose proof PI2_1; lra)). lra.
Qed.
Lemma half_prod a b : Rabs b <= 1 -> Rabs (2 * sin (a / 2) * b) <= Rabs a.
Proof.
  intros B. rewrite !Rabs_mult, (Rabs_right 2) by lra. pose proof (sin_small (a / 2)) as S. assert (E : Rabs (a / 2) = Rabs a / 2) by (unfold Rdiv; rewrite Rabs_mult, (Rabs_right (/ 2)) by lra; reflexivity). rewrite E in S. pose proof (ab_pos (sin (a / 2))) as P. assert (Rabs (sin (a / 2)) * Rabs b <= Rabs (sin (a / 2)) * 1) by (apply Rmult_le_compat_l; auto). lra.
Qed.
Lemma cos_close x y : Rabs (cos x - cos y) <= Rabs (x - y).
Proof. rewrite form2. replace (-2 * sin ((x - y) / 2) * sin ((x + y) / 2)) with (- (2 * sin ((x - y) / 2) * sin ((x + y) / 2))) by ring. rewrite Rabs_Ropp. apply half_prod. apply ab. pose proof (SIN_bound ((x + y) / 2)). lra. Qed.
Lemma sin_close x y : Rabs (sin x - sin y) <= Rabs (x - y).
Proof. rewrite form4. replace (2 * cos ((x + y) / 2) * sin ((x - y) / 2)) with (2 * sin ((x - y) / 2) * cos ((x + y) / 2)) by ring. apply half_prod. apply ab. pose proof (COS_bound ((x + y) / 2)). lra. Qed.
Lemma cos1 x : Rabs (cos x) <= 1. Proof. apply ab. pose proof (COS_bound x). lra. Qed.
Lemma sin1 x : Rabs (sin x) <= 1. Proof. apply ab. pose proof (SIN_bound x). lra. Qed.

(** ** turning clockwise by [t] (the other way round where it is negative) *)
Definition rx (a b t : R) : R := a * cos t + b * sin t.
Definition ry (a b t : R) : R := b * cos t - a * sin t.
Lemma rot_comb a b x y d : Rabs a <= d -> Rabs b <= d -> Rabs x <= 1 -> Rabs y <= 1 -> Rabs (a * x + b * y) <= 2 * d.
Proof.
  intros A B X Y. eapply Rle_trans; [apply Rabs_triang|]. rewrite !Rabs_mult. pose proof (ab_pos a). pose proof (ab_pos b). assert (Rabs a * Rabs x <= Rabs a * 1) by (apply Rmult_le_compat_l; auto). assert (Rabs b * Rabs y <= Rabs b * 1) by (apply Rmult_le_compat_l; auto). lra.
Qed.
(** a vector nearby, turned *)
Lemma rot_vec a b a' b' t d : Rabs (a' - a) <= d -> Rabs (b' - b) <= d -> Rabs (rx a' b' t - rx a b t) <= 2 * d /\ Rabs (ry a' b' t - ry a b t) <= 2 * d.
Proof.
  intros A B. unfold rx, ry. split.
  - replace (a' * cos t + b' * sin t - (a * cos t + b * sin t)) with ((a' - a) * cos t + (b' - b) * sin t) by ring. apply rot_comb; auto using cos1, sin1.
  - replace (b' * cos t - a' * sin t - (b * cos t - a * sin t)) with ((b' - b) * cos t + (a' - a) * (- sin t)) by ring. apply rot_comb; auto using cos1. rewrite Rabs_Ropp. apply sin1.
Qed.
(** an angle nearby *)
Lemma rot_angle a b t t' k : Rabs a <= k -> Rabs b <= k -> Rabs (rx a b t' - rx a b t) <= 2 * k * Rabs (t' - t) /\ Rabs (ry a b t' - ry a b t) <= 2 * k * Rabs (t' - t).
Proof.
  intros A B. unfold rx, ry. pose proof (cos_close t' t) as CC. pose proof (sin_close t' t) as SC. pose proof (ab_pos (t' - t)) as P. set (d := Rabs (t' - t)) in *.
  assert (K : forall x y z w, Rabs x <= k -> Rabs y <= k -> Rabs z <= d -> Rabs w <= d -> Rabs (x * z + y * w) <= 2 * k * d).
  { intros x y z w X Y Z W. eapply Rle_trans; [apply Rabs_triang|]. rewrite !Rabs_mult. assert (Rabs x * Rabs z <= k * d) by (apply Rmult_le_compat; auto using ab_pos). assert (Rabs y * Rabs w <= k * d) by (apply Rmult_le_compat; auto using ab_pos). lra. }
  split.
  - replace (a * cos t' + b * sin t' - (a * cos t + b * sin t)) with (a * (cos t' - cos t) + b * (sin t' - sin t)) by ring. apply K; auto.
  - replace (b * cos t' - a * sin t' - (b * cos t - a * sin t)) with (b * (cos t' - cos t) + (- a) * (sin t' - sin t)) by ring. apply K; auto. rewrite Rabs_Ropp; auto.
Qed.
Lemma rot_scale k a b t : rx (k * a) (k * b) t = k * rx a b t /\ ry (k * a) (k * b) t = k * ry a b t.
Proof. unfold rx, ry. split; ring. Qed.
Lemma rot_dot a b s t : rx a b s * rx a b t + ry a b s * ry a b t = (a * a + b * b) * cos (s - t).
Proof. unfold rx, ry. rewrite cos_minus. pose proof (sin2_cos2 s). ring. Qed.
Lemma rot_len a b t : rx a b t * rx a b t + ry a b t * ry a b t = a * a + b * b.
Proof. rewrite rot_dot. replace (t - t) with 0 by ring. rewrite cos_0. ring. Qed.
Lemma rot_one a b t : a * a + b * b = 1 -> Rabs (rx a b t) <= 1 /\ Rabs (ry a b t) <= 1.
Proof.
  intros E. pose proof (rot_len a b t) as F. rewrite E in F. pose proof (len_x (rx a b t) (ry a b t)) as X. pose proof (len_y (rx a b t) (ry a b t)) as Y. assert (len (rx a b t) (ry a b t) = 1) by (apply len_eq; lra). lra.
Qed.
Lemma rot_turned cw o p t k v : turned GCodeSelectXYPlane cw o p t k v <-> let s := if cw then t else - t in vx v - vx o = k * rx (vx p - vx o) (vy p - vy o) s /\ vy v - vy o = k * ry (vx p - vx o) (vy p - vy o) s.
Proof.
  unfold turned, rx, ry. cbn [pu pv]. cbv zeta. destruct cw; rewrite ?cos_neg, ?sin_neg.
  - replace ((vx p - vx o) * cos t - (vy p - vy o) * - sin t) with ((vx p - vx o) * cos t + (vy p - vy o) * sin t) by ring. replace ((vx p - vx o) * - sin t + (vy p - vy o) * cos t) with ((vy p - vy o) * cos t - (vx p - vx o) * sin t) by ring. tauto.
  - replace ((vx p - vx o) * cos t - (vy p - vy o) * sin t) with ((vx p - vx o) * cos t + (vy p - vy o) * - sin t) by ring. replace ((vx p - vx o) * sin t + (vy p - vy o) * cos t) with ((vy p - vy o) * cos t - (vx p - vx o) * - sin t) by ring. tauto.
Qed.

(** ** points near to polar coordinates, and the lines between them *)
Section Polar.
Context (o : vec) (a b : R) (E : a * a + b * b = 1).
Definition vert (rho t d : R) (v : vec) : Prop := Rabs (vx v - vx o - rho * rx a b t) <= d /\ Rabs (vy v - vy o - rho * ry a b t) <= d.
Lemma vert_more rho t d d' v : d <= d' -> vert rho t d v -> vert rho t d' v.
Proof. intros H [X Y]. split; lra. Qed.
Lemma vert_apart rho t d v : 0 <= rho -> vert rho t d v -> apart GCodeSelectXYPlane v o <= rho + 2 * d.
Proof.
  intros P [X Y]. rewrite apart_len. cbn [pu pv]. pose proof (len_diff _ _ _ _ _ _ X Y) as D. rewrite len_scale in D. rewrite (Rabs_right rho) in D by lra. rewrite (len_eq (rx a b t) (ry a b t) 1) in D by (rewrite ?rot_len; lra). apply ab in D. lra.
Qed.
Lemma vert_along rho t d v beta m : vert rho t d v -> m <= rho * cos (t - beta) -> m - 2 * d <= (vx v - vx o) * rx a b beta + (vy v - vy o) * ry a b beta.
Proof.
  intros [X Y] H. pose proof (rot_dot a b t beta) as D. rewrite E, Rmult_1_l in D. destruct (rot_one a b beta E) as [BX BY]. pose proof (rot_comb _ _ _ _ d X Y BX BY) as R. rewrite <- D in H. apply ab in R. lra.
Qed.
Lemma line_bounds rho t rho' t' d v v' beta m K x : 0 <= rho <= K -> 0 <= rho' <= K -> vert rho t d v -> vert rho' t' d v' -> m <= rho * cos (t - beta) -> m <= rho' * cos (t' - beta) -> between v v' x ->
  m - 2 * d <= apart GCodeSelectXYPlane x o <= K + 2 * d.
Proof.
  intros P P' V V' H H' (s & S & BX & BY & _). pose proof (vert_along _ _ _ _ _ _ V H) as A. pose proof (vert_along _ _ _ _ _ _ V' H') as A'. pose proof (vert_apart _ _ _ _ (proj1 P) V) as D. pose proof (vert_apart _ _ _ _ (proj1 P') V') as D'. rewrite !apart_len in *. cbn [pu pv] in *.
  assert (EX : vx x - vx o = (1 - s) * (vx v - vx o) + s * (vx v' - vx o)) by (rewrite BX; ring). assert (EY : vy x - vy o = (1 - s) * (vy v - vy o) + s * (vy v' - vy o)) by (rewrite BY; ring). rewrite EX, EY. split.
  - set (p := rx a b beta) in *. set (r := ry a b beta) in *. assert (UN : p * p + r * r = 1) by (unfold p, r; rewrite rot_len; auto). set (X := (1 - s) * (vx v - vx o) + s * (vx v' - vx o)). set (Y := (1 - s) * (vy v - vy o) + s * (vy v' - vy o)).
    assert (M : m - 2 * d <= X * p + Y * r). { replace (X * p + Y * r) with ((1 - s) * ((vx v - vx o) * p + (vy v - vy o) * r) + s * ((vx v' - vx o) * p + (vy v' - vy o) * r)) by (unfold X, Y; ring). assert ((1 - s) * (m - 2 * d) <= (1 - s) * ((vx v - vx o) * p + (vy v - vy o) * r)) by (apply Rmult_le_compat_l; lra). assert (s * (m - 2 * d) <= s * ((vx v' - vx o) * p + (vy v' - vy o) * r)) by (apply Rmult_le_compat_l; lra). lra. }
    apply Rle_trans with (1 := M). apply sq_le; [apply len_pos|]. rewrite len_sq. pose proof (Rle_0_sqr (X * r - Y * p)) as S2. unfold Rsqr in S2. replace (X * X + Y * Y) with ((X * X + Y * Y) * (p * p + r * r)) by (rewrite UN; ring). lra.
  - eapply Rle_trans; [apply len_add|]. rewrite !len_scale, !Rabs_right by lra. assert ((1 - s) * len (vx v - vx o) (vy v - vy o) <= (1 - s) * (K + 2 * d)) by (apply Rmult_le_compat_l; lra). assert (s * len (vx v' - vx o) (vy v' - vy o) <= s * (K + 2 * d)) by (apply Rmult_le_compat_l; lra). lra.
Qed.
End Polar.
