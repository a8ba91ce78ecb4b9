(** Angles and circles. *)
From Coq Require Import List Bool ZArith QArith Qcanon Qreals Reals Lra Lia Psatz.
From Verif Require Import Base Num Words GTable GCode Position Arc ArcSpec ArcProofs.
Import ListNotations.
Open Scope R_scope.

Lemma sincos x : sin x * sin x + cos x * cos x = 1.
Proof. pose proof (sin2_cos2 x) as Q. unfold Rsqr in Q. auto. Qed.
Lemma cos_Z x k : cos (x + 2 * PI * IZR k) = cos x.
Proof.
  destruct (Z_le_dec 0 k) as [P|P].
  - rewrite <- (Z2Nat.id k) by auto. rewrite <- INR_IZR_INZ. replace (x + 2 * PI * INR (Z.to_nat k)) with (x + 2 * INR (Z.to_nat k) * PI) by ring. apply cos_period.
  - rewrite <- (cos_period _ (Z.to_nat (- k))). f_equal. rewrite INR_IZR_INZ, Z2Nat.id by lia. rewrite opp_IZR. ring.
Qed.
Lemma sin_Z x k : sin (x + 2 * PI * IZR k) = sin x.
Proof.
  destruct (Z_le_dec 0 k) as [P|P].
  - rewrite <- (Z2Nat.id k) by auto. rewrite <- INR_IZR_INZ. replace (x + 2 * PI * INR (Z.to_nat k)) with (x + 2 * INR (Z.to_nat k) * PI) by ring. apply sin_period.
  - rewrite <- (sin_period _ (Z.to_nat (- k))). f_equal. rewrite INR_IZR_INZ, Z2Nat.id by lia. rewrite opp_IZR. ring.
Qed.
Lemma rmod_spec x m : 0 < m -> 0 <= rmod x m < m /\ exists k, rmod x m = x + m * IZR k.
Proof.
  intros P. unfold rmod. destruct (base_Int_part (x / m)) as [A B]. split; [|exists (- Int_part (x / m))%Z; rewrite opp_IZR; ring].
  assert (E : x = m * (x / m)) by (field; lra). split.
  - rewrite E at 1. assert (m * IZR (Int_part (x / m)) <= m * (x / m)) by (apply Rmult_le_compat_l; lra). lra.
  - assert (x / m - IZR (Int_part (x / m)) < 1) by lra. assert (m * (x / m - IZR (Int_part (x / m))) < m * 1) by (apply Rmult_lt_compat_l; lra). lra.
Qed.
Lemma tau_pos : 0 < 2 * PI. Proof. pose proof PI_RGT_0. lra. Qed.
Lemma cos_rmod x : cos (rmod x (2 * PI)) = cos x.
Proof. destruct (rmod_spec x (2 * PI) tau_pos) as [_ [k E]]. rewrite E. apply cos_Z. Qed.
Lemma sin_rmod x : sin (rmod x (2 * PI)) = sin x.
Proof. destruct (rmod_spec x (2 * PI) tau_pos) as [_ [k E]]. rewrite E. apply sin_Z. Qed.

(** *** atan2 *)
Lemma sum2_pos x y : x <> 0 \/ y <> 0 -> 0 < x * x + y * y.
Proof. intros [N|N]; apply Rsqr_pos_lt in N; pose proof (Rle_0_sqr x); pose proof (Rle_0_sqr y); unfold Rsqr in *; lra. Qed.
Lemma sum2_nonneg x y : 0 <= x * x + y * y.
Proof. pose proof (Rle_0_sqr x). pose proof (Rle_0_sqr y). unfold Rsqr in *. lra. Qed.
Lemma cos_atan_pos x y r : 0 < x -> 0 <= r -> r * r = x * x + y * y -> r * cos (atan (y / x)) = x /\ r * sin (atan (y / x)) = y.
Proof.
  intros P Q E. pose proof (atan_bound (y / x)) as B. assert (C : 0 < cos (atan (y / x))) by (apply cos_gt_0; lra). pose proof (tan_atan (y / x)) as T. unfold tan in T.
  assert (S : sin (atan (y / x)) * x = y * cos (atan (y / x))). { apply (f_equal (fun z => z * cos (atan (y / x)) * x)) in T. transitivity (sin (atan (y / x)) / cos (atan (y / x)) * cos (atan (y / x)) * x); [field; lra|]. rewrite T. field. lra. }
  pose proof (sincos (atan (y / x))) as I. revert S C I. generalize (sin (atan (y / x))), (cos (atan (y / x))). clear - P Q E. intros s c S C I.
  assert (R2 : r * r * (c * c) = x * x). { assert (EQ : (s * x) * (s * x) = (y * c) * (y * c)) by (rewrite S; ring). rewrite E. nra. }
  assert (RC : r * c = x). { assert (0 <= r * c) by (apply Rmult_le_pos; lra). assert (F : (r * c - x) * (r * c + x) = 0) by (transitivity (r * r * (c * c) - x * x); [ring|lra]). apply Rmult_integral in F. lra. }
  split; auto. apply Rmult_eq_reg_r with x; [|lra]. replace (r * s * x) with (r * (s * x)) by ring. rewrite S. rewrite <- RC. ring.
Qed.
Lemma atan2_spec x y : let r := sqrt (x * x + y * y) in r * cos (atan2 y x) = x /\ r * sin (atan2 y x) = y.
Proof.
  cbv zeta. pose proof (sqrt_pos (x * x + y * y)) as P. pose proof (sqrt_sqrt _ (sum2_nonneg x y)) as E. revert P E. generalize (sqrt (x * x + y * y)). intros r P E. unfold atan2.
  destruct (Rlt_dec 0 x) as [X|X]; [apply cos_atan_pos; auto|]. destruct (Rlt_dec x 0) as [X'|X'].
  - destruct (cos_atan_pos (- x) (- y) r) as [A B]; [lra|auto|lra|]. replace (- y / - x) with (y / x) in * by (field; lra).
    destruct (Rle_dec 0 y).
    + rewrite cos_plus, sin_plus, cos_PI, sin_PI. split; lra.
    + unfold Rminus. rewrite cos_plus, sin_plus, cos_neg, sin_neg, cos_PI, sin_PI. split; lra.
  - assert (x = 0) by lra. subst x. destruct (Rlt_dec 0 y) as [Y|Y]; [|destruct (Rlt_dec y 0) as [Y'|Y']].
    + rewrite cos_PI2, sin_PI2. assert (r = y) by nra. lra.
    + rewrite cos_neg, sin_neg, cos_PI2, sin_PI2. assert (r = - y) by nra. lra.
    + assert (y = 0) by lra. subst y. assert (r = 0) by nra. subst r. lra.
Qed.

(** *** turning *)
Lemma turned_cos c cw o p th k q : turned c cw o p th k q <-> turned c true o p (if cw then th else - th) k q.
Proof. unfold turned. destruct cw; [tauto|]. rewrite cos_neg, sin_neg. cbv zeta. rewrite Ropp_involutive. tauto. Qed.
Definition bearing (c : gclass) (o p : vec) : R := atan2 (pv c p - pv c o) (pu c p - pu c o).
Lemma bearing_spec c o p : apart c p o * cos (bearing c o p) = pu c p - pu c o /\ apart c p o * sin (bearing c o p) = pv c p - pv c o.
Proof. apply atan2_spec. Qed.
Definition true_angle (c : gclass) (cw : bool) (o p q : vec) : R := rmod (if cw then bearing c o p - bearing c o q else bearing c o q - bearing c o p) (2 * PI).
Lemma true_angle_sweep c cw o p q : apart c p o = apart c q o -> sweep c cw o p q (true_angle c cw o p q).
Proof.
  intros E. unfold sweep, true_angle. split; [apply rmod_spec, tau_pos|]. destruct (bearing_spec c o p) as [A B]. destruct (bearing_spec c o q) as [A' B']. rewrite <- E in A', B'. unfold turned. rewrite <- A, <- B, <- A', <- B'. rewrite cos_rmod, sin_rmod.
  generalize (bearing c o p), (bearing c o q), (apart c p o). clear. intros a b r. assert (P : cos (a - b) = cos a * cos b + sin a * sin b) by apply cos_minus. assert (Q : sin (a - b) = sin a * cos b - cos a * sin b) by apply sin_minus.
  assert (P' : cos (b - a) = cos a * cos b + sin a * sin b) by (rewrite cos_minus; ring). assert (Q' : sin (b - a) = - (sin a * cos b - cos a * sin b)) by (rewrite sin_minus; ring). pose proof (sincos a) as I.
  destruct cw; rewrite ?P, ?Q, ?P', ?Q'; split.
  - transitivity (r * cos b * (sin a * sin a + cos a * cos a)); [rewrite I; ring|ring].
  - transitivity (r * sin b * (sin a * sin a + cos a * cos a)); [rewrite I; ring|ring].
  - transitivity (r * cos b * (sin a * sin a + cos a * cos a)); [rewrite I; ring|ring].
  - transitivity (r * sin b * (sin a * sin a + cos a * cos a)); [rewrite I; ring|ring].
Qed.
Lemma apart_nonneg c p q : 0 <= apart c p q. Proof. apply sqrt_pos. Qed.
Lemma apart_sq c p q : apart c p q * apart c p q = (pu c p - pu c q) * (pu c p - pu c q) + (pv c p - pv c q) * (pv c p - pv c q).
Proof. apply sqrt_sqrt, sum2_nonneg. Qed.
Lemma apart_zero c p q : apart c p q = 0 <-> same_spot c p q.
Proof.
  split.
  - intros E. pose proof (apart_sq c p q) as S. rewrite E in S. pose proof (Rle_0_sqr (pu c p - pu c q)). pose proof (Rle_0_sqr (pv c p - pv c q)). unfold Rsqr in *. split; apply Rminus_diag_uniq, Rsqr_0_uniq; unfold Rsqr; lra.
  - intros [A B]. unfold apart. rewrite A, B. replace (_ + _) with 0 by ring. apply sqrt_0.
Qed.
Lemma apart_eq c p q x : 0 <= x -> (pu c p - pu c q) * (pu c p - pu c q) + (pv c p - pv c q) * (pv c p - pv c q) = x * x -> apart c p q = x.
Proof. intros P E. unfold apart. rewrite E. apply sqrt_square. auto. Qed.
Lemma apart_sym c p q : apart c p q = apart c q p.
Proof. unfold apart. f_equal. ring. Qed.
Lemma angle_unique a b : 0 <= a < 2 * PI -> 0 <= b < 2 * PI -> cos a = cos b -> sin a = sin b -> a = b.
Proof.
  assert (W : forall a b, 0 <= a < 2 * PI -> 0 <= b < 2 * PI -> cos a = cos b -> sin a = sin b -> ~ a < b).
  { clear. intros a b A B C S L. assert (P : 0 < sin ((b - a) / 2)) by (apply sin_gt_0; lra). assert (D : cos (b - a) = 1) by (rewrite cos_minus, C, S; pose proof (sincos b); lra).
    replace (b - a) with (2 * ((b - a) / 2)) in D by field. rewrite cos_2a_sin in D. assert (0 < sin ((b - a) / 2) * sin ((b - a) / 2)) by (apply Rmult_lt_0_compat; auto). lra. }
  intros A B C S. destruct (Rtotal_order a b) as [L|[E|L]]; auto; exfalso; [apply (W a b)|apply (W b a)]; auto; lra.
Qed.
Lemma turned_cossin c cw o p th q : turned c cw o p th 1 q -> let a := pu c p - pu c o in let b := pv c p - pv c o in let u := pu c q - pu c o in let v := pv c q - pv c o in
  apart c p o * apart c p o * cos th = a * u + b * v /\ apart c p o * apart c p o * sin th = (if cw then b * u - a * v else a * v - b * u).
Proof.
  intros [U V]. cbv zeta in *. rewrite apart_sq, U, V. destruct cw; split; ring.
Qed.
Lemma sweep_unique c cw o p q a b : ~ same_spot c p o -> sweep c cw o p q a -> sweep c cw o p q b -> a = b.
Proof.
  intros N [A TA] [B TB]. rewrite <- apart_zero in N. destruct (turned_cossin _ _ _ _ _ _ TA) as [CA SA]. destruct (turned_cossin _ _ _ _ _ _ TB) as [CB SB]. cbv zeta in *.
  assert (N2 : apart c p o * apart c p o <> 0) by (apply Rmult_integral_contrapositive; auto). apply angle_unique; auto; eapply Rmult_eq_reg_l; eauto; congruence.
Qed.
(** the computed angle is right in the XY plane *)
Lemma arc_angle_xy cw o p q : let th := true_angle GCodeSelectXYPlane cw o p q in arc_angle cw quat_one (vsub p o) (vsub q o) = if cw then th else - th.
Proof. cbv zeta. unfold arc_angle, true_angle, bearing. rewrite !qrot_one. cbn. destruct cw; reflexivity. Qed.
