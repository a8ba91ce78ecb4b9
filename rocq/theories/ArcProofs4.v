(** The vertices of a linearized arc. *)
From Coq Require Import List Bool ZArith QArith Qcanon Qreals Reals Lra Lia Psatz.
From Verif Require Import Base Num Words GTable GCode Position Arc ArcSpec ArcProofs ArcProofs2 ArcProofs3.
Import ListNotations.
Open Scope R_scope.

(** *** chains *)
Lemma wedges_chained m a outer w count n k s l : wedges m a outer w count n k s = (l, Ok tt) -> chained s l (vadd (a_end a) (a_hend a)).
Proof.
  revert k s l. induction n as [|n IH]; intros k s l; cbn [wedges].
  - intros H. injection H as <-. constructor.
  - destruct (_ || _).
    + destruct (vertex a outer _) as [v|x]; [|discriminate]. destruct (wedges m a outer w count n (k + 1) v) as [l' r'] eqn:E. unfold ycons. cbn [fst snd]. intros H. injection H as <- ->. constructor. eapply IH; eauto.
    + intros H. injection H as <-. constructor.
Qed.
Lemma iter_chained m a l : iter_vertices m a = (l, Ok tt) -> chained (vadd (a_start a) (a_hstart a)) l (vadd (a_end a) (a_hend a)).
Proof.
  unfold iter_vertices. assert (E : vadd (a_center a) (vsub (a_start a) (a_center a)) = a_start a) by (destruct (a_center a), (a_start a); unfold vadd, vsub; cbn; f_equal; ring). rewrite E. clear E.
  destruct (outer_radius m a) as [r|]; [|discriminate]. destruct (wedge_count m a) as [n|]; [|discriminate]. destruct (n <=? 0)%Z; [intros H; injection H as <-; constructor|]. destruct (wedge_angle m a) as [w|]; [|discriminate]. apply wedges_chained.
Qed.
Lemma chained_last p l q : chained p l q -> exists vs, map snd l = vs ++ [q].
Proof. induction 1 as [p q|p x l q C [vs E]]; [exists []; reflexivity|exists (x :: vs)]. cbn. rewrite E. reflexivity. Qed.
Lemma chained_pieces p l q : chained p l q -> l = pieces p (map snd l).
Proof. induction 1 as [p q|p x l q C E]; cbn; auto. f_equal. auto. Qed.

(** *** angles of the wedges *)
Lemma rceil_spec x : x <= IZR (rceil x) < x + 1.
Proof. unfold rceil. rewrite opp_IZR. destruct (base_Int_part (- x)). lra. Qed.
Definition ratio (m : arc_method) (r e : R) : R := match m with Inside => (r - e) / r | Outside => r / (r + e) | Mid => (r - e / 2) / (r + e / 2) end.
Lemma ratio_bound m r e : 0 < e <= r -> 0 <= ratio m r e < 1.
Proof.
  intros [E L]. destruct m; cbn [ratio].
  - split; [apply Rmult_le_pos; [lra|left; apply Rinv_0_lt_compat; lra]|]. apply Rmult_lt_reg_r with r; [lra|]. field_simplify; lra.
  - split; [apply Rmult_le_pos; [lra|left; apply Rinv_0_lt_compat; lra]|]. apply Rmult_lt_reg_r with (r + e); [lra|]. field_simplify; lra.
  - split; [apply Rmult_le_pos; [lra|left; apply Rinv_0_lt_compat; lra]|]. apply Rmult_lt_reg_r with (r + e / 2); [lra|]. field_simplify; lra.
Qed.
Lemma max_wedge_spec m a : 0 < a_error a <= a_radius a -> exists W, max_wedge_angle m a = Ok W /\ 0 < W <= PI /\ cos (W / 2) = ratio m (a_radius a) (a_error a).
Proof.
  intros B. pose proof (ratio_bound m _ _ B) as RB. exists (2 * acos (ratio m (a_radius a) (a_error a))).
  assert (Q : racos (ratio m (a_radius a) (a_error a)) = Ok (acos (ratio m (a_radius a) (a_error a)))) by (apply racos_ok; lra).
  assert (P : 0 < acos (ratio m (a_radius a) (a_error a)) <= PI / 2). { split; [apply acos_bound_lt; lra|]. destruct (Rle_dec (acos (ratio m (a_radius a) (a_error a))) (PI / 2)) as [|N]; auto. exfalso. pose proof (acos_bound (ratio m (a_radius a) (a_error a))) as AB.
    assert (cos (acos (ratio m (a_radius a) (a_error a))) < 0) by (apply cos_lt_0; lra). rewrite cos_acos in H by lra. lra. }
  split; [|split; [lra|replace (2 * _ / 2) with (acos (ratio m (a_radius a) (a_error a))) by field; apply cos_acos; lra]].
  unfold max_wedge_angle. destruct m; cbn [ratio] in *; rewrite rdiv_ok by lra; cbn [bind]; rewrite Q; cbn [bind]; f_equal; apply Rabs_right; lra.
Qed.
Lemma count_spec m a : 0 < a_error a <= a_radius a -> a_angle a <> 0 -> exists n w W, wedge_count m a = Ok n /\ (1 <= n)%Z /\ wedge_angle m a = Ok w /\ w * IZR n = a_angle a /\ 0 < Rabs w <= W /\ W <= PI /\ cos (W / 2) = ratio m (a_radius a) (a_error a) /\ (IZR n - 1) * W < Rabs (a_angle a).
Proof.
  intros B N. destruct (max_wedge_spec m a B) as (W & EW & WP & CW). unfold wedge_angle, wedge_count. rewrite EW. cbn [bind]. rewrite rdiv_ok by lra. cbn [bind]. set (n := rceil (Rabs (a_angle a) / W)). pose proof (rceil_spec (Rabs (a_angle a) / W)) as C. fold n in C.
  assert (AP : 0 < Rabs (a_angle a)) by (apply Rabs_pos_lt; auto). assert (DP : 0 < Rabs (a_angle a) / W) by (apply Rmult_lt_0_compat; [auto|apply Rinv_0_lt_compat; lra]).
  assert (N1 : (1 <= n)%Z) by (assert (0 < n)%Z by (apply lt_IZR; lra); lia). assert (NP : 0 < IZR n) by (apply IZR_lt; lia). exists n, (a_angle a / IZR n), W. split; auto. split; auto. rewrite rdiv_ok by lra. split; auto. split; [field; lra|].
  split; [|split; [lra|split; auto]].
  - unfold Rdiv. rewrite Rabs_mult, (Rabs_right (/ IZR n)) by (apply Rle_ge; left; apply Rinv_0_lt_compat; auto). split; [apply Rmult_lt_0_compat; [auto|apply Rinv_0_lt_compat; auto]|]. apply Rmult_le_reg_r with (IZR n); auto. rewrite Rmult_assoc, Rinv_l by lra. rewrite Rmult_1_r. destruct C as [C _]. apply Rmult_le_compat_r with (r := W) in C; [|lra]. replace (Rabs (a_angle a) / W * W) with (Rabs (a_angle a)) in C by (field; lra). lra.
  - destruct C as [_ C]. apply Rmult_lt_reg_r with (/ W); [apply Rinv_0_lt_compat; lra|]. rewrite Rmult_assoc, Rinv_r by lra. unfold Rdiv in C. lra.
Qed.
(** the outer radius, in proportion *)
Definition factor (m : arc_method) (w : R) : R := match m with Inside => 1 | Outside => / cos (w / 2) | Mid => 1 + tan (w / 4) * tan (w / 4) end.
Lemma cos_abs x : cos (Rabs x) = cos x.
Proof. unfold Rabs. destruct (Rcase_abs x); auto. apply cos_neg. Qed.
Lemma cos_half_pos w W : Rabs w <= W -> W <= PI -> cos (W / 2) <= cos (w / 2).
Proof. intros A B. rewrite <- (cos_abs (w / 2)). unfold Rdiv at 2. rewrite Rabs_mult, (Rabs_right (/ 2)) by lra. pose proof (Rabs_pos w). pose proof PI_RGT_0. apply cos_decr_1; lra. Qed.
Lemma cos_quarter w : Rabs w <= PI -> 0 < cos (w / 4).
Proof. intros H. rewrite <- cos_abs. unfold Rdiv. rewrite Rabs_mult, (Rabs_right (/ 4)) by lra. pose proof (Rabs_pos w). pose proof PI_RGT_0. apply cos_gt_0; lra. Qed.
Lemma tan_quarter w : Rabs w <= PI -> let s := tan (w / 4) * tan (w / 4) in 0 <= s /\ cos (w / 2) * (1 + s) = 1 - s.
Proof.
  intros H. pose proof (cos_quarter w H) as C. cbv zeta. unfold tan. pose proof (sincos (w / 4)) as SC. assert (D : cos (w / 2) = cos (w / 4) * cos (w / 4) - sin (w / 4) * sin (w / 4)) by (rewrite <- cos_plus; f_equal; field). rewrite D.
  generalize dependent (cos (w / 4)). generalize (sin (w / 4)). intros s c C SC _. split.
  - replace (s / c * (s / c)) with ((s / c) * (s / c)) by ring. apply Rle_0_sqr.
  - replace (1 + s / c * (s / c)) with ((s * s + c * c) / (c * c)) by (field; lra). rewrite SC. field. lra.
Qed.
Definition bound_ok (m : arc_method) (r e w : R) : Prop :=
  match m with Inside => r - e <= r * cos (w / 2) /\ 0 <= cos (w / 2) | Outside => 0 < cos (w / 2) <= 1 /\ r * / cos (w / 2) <= r + e | Mid => let s := tan (w / 4) * tan (w / 4) in 0 <= s <= 1 /\ r * s <= e / 2 /\ cos (w / 2) * (1 + s) = 1 - s end.
Lemma wedge_bound m a w W : 0 < a_error a <= a_radius a -> Rabs w <= W -> W <= PI -> cos (W / 2) = ratio m (a_radius a) (a_error a) -> bound_ok m (a_radius a) (a_error a) w.
Proof.
  intros B L P E. pose proof (cos_half_pos w W L P) as C. rewrite E in C. pose proof (ratio_bound m _ _ B) as RB. pose proof (COS_bound (w / 2)) as CB. revert B C RB. generalize (a_radius a), (a_error a). intros r e B C RB. destruct m; cbn [bound_ok ratio] in *.
  - split; [|lra]. apply Rmult_le_compat_l with (r := r) in C; [|lra]. replace (r * ((r - e) / r)) with (r - e) in C by (field; lra). auto.
  - assert (0 < cos (w / 2)). { assert (0 < r / (r + e)) by (apply Rmult_lt_0_compat; [lra|apply Rinv_0_lt_compat; lra]). lra. } split; [lra|]. apply Rmult_le_reg_r with (cos (w / 2)); auto. rewrite Rmult_assoc, Rinv_l, Rmult_1_r by lra.
    apply Rmult_le_compat_l with (r := r + e) in C; [|lra]. replace ((r + e) * (r / (r + e))) with r in C by (field; lra). lra.
  - destruct (tan_quarter w ltac:(lra)) as [S0 S1]. cbv zeta in *. set (s := tan (w / 4) * tan (w / 4)) in *. assert (K : (r - e / 2) * (1 + s) <= (1 - s) * (r + e / 2)). { rewrite <- S1. apply Rmult_le_compat_l with (r := r + e / 2) in C; [|lra]. replace ((r + e / 2) * ((r - e / 2) / (r + e / 2))) with (r - e / 2) in C by (field; lra). assert (0 <= 1 + s) by lra. apply Rmult_le_compat_r with (r := 1 + s) in C; auto. lra. }
    assert (RS : r * s <= e / 2) by lra. split; [|split; auto]. split; auto. apply Rmult_le_reg_l with r; [lra|]. lra.
Qed.
Lemma outer_spec m a w : 0 < a_error a <= a_radius a -> wedge_angle m a = Ok w -> bound_ok m (a_radius a) (a_error a) w -> outer_radius m a = Ok (a_radius a * factor m w).
Proof.
  intros B E K. unfold outer_radius. destruct m; cbn [factor bound_ok] in *; rewrite ?E; cbn [bind].
  - f_equal. ring.
  - destruct K as [[K _] _]. rewrite rdiv_ok by lra. cbn [bind]. f_equal. apply Rabs_right. apply Rle_ge, Rmult_le_pos; [lra|left; apply Rinv_0_lt_compat; auto].
  - f_equal. ring.
Qed.

(** *** distance of a line from the centre *)
Lemma between_frame c x y z t : arc_plane c -> vx z = (1 - t) * vx x + t * vx y -> vy z = (1 - t) * vy x + t * vy y -> vz z = (1 - t) * vz x + t * vz y -> pu c z = (1 - t) * pu c x + t * pu c y /\ pv c z = (1 - t) * pv c x + t * pv c y.
Proof. intros PL A B C. by_plane PL; cbn; auto. Qed.
Lemma line_dist c o p a b x y z t k1 k2 : arc_plane c -> turned c true o p a k1 x -> turned c true o p b k2 y ->
  vx z = (1 - t) * vx x + t * vx y -> vy z = (1 - t) * vy x + t * vy y -> vz z = (1 - t) * vz x + t * vz y ->
  apart c z o * apart c z o = apart c p o * apart c p o * ((1 - t) * (1 - t) * (k1 * k1) + t * t * (k2 * k2) + 2 * t * (1 - t) * (k1 * k2) * cos (b - a)).
Proof.
  intros PL [X1 X2] [Y1 Y2] A B C. destruct (between_frame c x y z t PL A B C) as [U V]. cbv zeta in *. rewrite !apart_sq. 
  replace (pu c z - pu c o) with ((1 - t) * (pu c x - pu c o) + t * (pu c y - pu c o)) by (rewrite U; ring). replace (pv c z - pv c o) with ((1 - t) * (pv c x - pv c o) + t * (pv c y - pv c o)) by (rewrite V; ring). rewrite X1, X2, Y1, Y2. rewrite cos_minus. clear X1 X2 Y1 Y2.
  pose proof (sincos a) as SA. pose proof (sincos b) as SB. generalize dependent (sin a). generalize dependent (sin b). generalize dependent (cos a). generalize dependent (cos b). generalize (pu c p - pu c o), (pv c p - pv c o). clear. intros A B cb ca sb SB sa SA.
  transitivity ((A * A + B * B) * ((1 - t) * (1 - t) * (k1 * k1) * (sa * sa + ca * ca) + t * t * (k2 * k2) * (sb * sb + cb * cb) + 2 * t * (1 - t) * (k1 * k2) * (cb * ca + sb * sa))); [ring|]. rewrite SA, SB. ring.
Qed.
Lemma sq_le x y : 0 <= y -> x * x <= y * y -> x <= y.
Proof. intros P H. destruct (Rle_dec x y); auto. exfalso. assert (y * y < x * x) by (apply Rmult_le_0_lt_compat; lra). lra. Qed.
Section Lines.
Variables (c : gclass) (o p : vec) (m : arc_method) (r e w : R).
Hypotheses (PL : arc_plane c) (RP : apart c p o = r) (RE : 0 < e <= r) (BO : bound_ok m r e w).
Definition good_piece (s : vec * vec) : Prop := forall z, between (fst s) (snd s) z -> allowed m r e (apart c z o).
(** between two outer vertices *)
Lemma chord_good a x y : turned c true o p a (factor m w) x -> turned c true o p (a + w) (factor m w) y -> good_piece (x, y).
Proof.
  intros X Y z (t & T & A & B & C). cbn [fst snd] in *. pose proof (line_dist c o p a (a + w) x y z t _ _ PL X Y A B C) as D. rewrite RP in D. replace (a + w - a) with w in D by ring. pose proof (apart_nonneg c z o) as NN. generalize dependent (apart c z o). intros d D NN. clear X Y A B C.
  assert (CW : cos w = 2 * (cos (w / 2) * cos (w / 2)) - 1) by (replace w with (2 * (w / 2)) at 1 by field; rewrite cos_2a_cos; ring). rewrite CW in D. pose proof (COS_bound (w / 2)) as CB. assert (CC : 0 <= cos (w / 2)) by (destruct m; cbn [bound_ok] in BO; [tauto|lra|]; destruct BO as ([S0 S1] & _ & S2); cbv zeta in *; set (s := tan (w / 4) * tan (w / 4)) in *; apply Rmult_le_reg_r with (1 + s); lra).
  set (h := cos (w / 2)) in *. assert (D' : d * d = r * r * (factor m w * factor m w) * (1 - 4 * (t * (1 - t)) * (1 - h * h))) by (rewrite D; ring).
  assert (TT : 0 <= 4 * (t * (1 - t)) <= 1) by (split; [assert (0 <= t * (1 - t)) by (apply Rmult_le_pos; lra); lra|pose proof (Rle_0_sqr (2 * t - 1)) as S; unfold Rsqr in S; lra]). set (q := 4 * (t * (1 - t))) in *.
  assert (HH : 0 <= h * h <= 1) by (split; [apply Rle_0_sqr|replace 1 with (1 * 1) by ring; apply Rmult_le_compat; lra]).
  assert (LO : h * h <= 1 - q * (1 - h * h)). { assert (q * (1 - h * h) <= 1 * (1 - h * h)) by (apply Rmult_le_compat_r; lra). lra. }
  assert (HI : 1 - q * (1 - h * h) <= 1). { assert (0 <= q * (1 - h * h)) by (apply Rmult_le_pos; lra). lra. }
  assert (F0 : 0 <= factor m w). { destruct m; cbn [factor bound_ok] in *; [lra|left; apply Rinv_0_lt_compat; tauto|]. destruct BO as [[S0 _] _]. cbv zeta in *. lra. }
  set (f := factor m w) in *. assert (RF : 0 <= r * f) by (apply Rmult_le_pos; lra).
  assert (UP : d <= r * f). { apply sq_le; auto. rewrite D'. replace (r * f * (r * f)) with (r * r * (f * f) * 1) by ring. apply Rmult_le_compat_l; auto. apply Rmult_le_pos; apply Rle_0_sqr. }
  assert (DN : r * f * h <= d). { apply sq_le; auto. rewrite D'. replace (r * f * h * (r * f * h)) with (r * r * (f * f) * (h * h)) by ring. apply Rmult_le_compat_l; auto. apply Rmult_le_pos; apply Rle_0_sqr. }
  subst f. destruct m; cbn [allowed factor bound_ok] in *; fold h in BO.
  - lra.
  - destruct BO as [[H0 H1] H2]. fold h in UP, DN. split; [|lra]. replace r with (r * / h * h) by (field; lra). auto.
  - destruct BO as ([S0 S1] & S2 & S3). cbv zeta in *. set (s := tan (w / 4) * tan (w / 4)) in *. assert (DN' : r * ((1 + s) * h) <= d) by lra. replace ((1 + s) * h) with (1 - s) in DN' by lra. lra.
Qed.
(** from the circle to the first outer vertex, half a wedge on; also the other way round *)
Lemma edge_good a b x y : phase_offset m = true -> (b - a = w / 2 \/ a - b = w / 2) -> turned c true o p a 1 x -> turned c true o p b (factor m w) y -> good_piece (x, y) /\ good_piece (y, x).
Proof.
  intros OF AB X Y. assert (G : forall t z, 0 <= t <= 1 -> vx z = (1 - t) * vx x + t * vx y -> vy z = (1 - t) * vy x + t * vy y -> vz z = (1 - t) * vz x + t * vz y -> allowed m r e (apart c z o)).
  { intros t z T A B C. pose proof (line_dist c o p a b x y z t _ _ PL X Y A B C) as D. rewrite RP in D. assert (CW : cos (b - a) = cos (w / 2)) by (destruct AB as [-> |AB]; [auto|replace (b - a) with (- (w / 2)) by lra; apply cos_neg]). rewrite CW in D. pose proof (apart_nonneg c z o) as NN. generalize dependent (apart c z o). intros d D NN. clear X Y A B C CW AB.
    destruct m; [discriminate| |]; cbn [allowed factor bound_ok] in *; fold (cos (w / 2)) in *; set (h := cos (w / 2)) in *.
    - destruct BO as [[H0 H1] H2]. assert (D' : d * d = r * r * (1 - t * t) + (t * t) * ((r * / h) * (r * / h))). { rewrite D. field. lra. }
      assert (TT : 0 <= t * t <= 1) by (split; [apply Rle_0_sqr|replace 1 with (1 * 1) by ring; apply Rmult_le_compat; lra]). assert (RH : r <= r * / h). { apply Rmult_le_reg_r with h; auto. rewrite Rmult_assoc, Rinv_l by lra. apply Rmult_le_compat_l with (r := r) in H1; lra. }
      assert (R2 : r * r <= (r * / h) * (r * / h)) by (apply Rmult_le_compat; lra). split.
      + apply sq_le; auto. rewrite D'. set (g := (r * / h) * (r * / h)) in *. assert (t * t * (r * r) <= t * t * g) by (apply Rmult_le_compat_l; lra). lra.
      + apply Rle_trans with (r * / h); auto. apply sq_le; [lra|]. rewrite D'. set (g := (r * / h) * (r * / h)) in *. assert ((1 - t * t) * (r * r) <= (1 - t * t) * g) by (apply Rmult_le_compat_l; lra). lra.
    - destruct BO as ([S0 S1] & S2 & S3). cbv zeta in *. set (s := tan (w / 4) * tan (w / 4)) in *.
      assert (D' : d * d = r * r * (1 + s * (4 * (t * t) - 2 * t + s * (t * t)))). { rewrite D. transitivity (r * r * ((1 - t) * (1 - t) + t * t * ((1 + s) * (1 + s)) + 2 * t * (1 - t) * (h * (1 + s)))); [ring|]. rewrite S3. ring. }
      assert (T2 : 0 <= t * t) by apply Rle_0_sqr. assert (T3 : t * t <= 1) by (replace 1 with (1 * 1) by ring; apply Rmult_le_compat; lra). assert (T4 : t * t <= t) by (replace t with (t * 1) at 3 by ring; apply Rmult_le_compat_l; lra).
      assert (ST : s * (t * t) <= s * 1) by (apply Rmult_le_compat_l; auto). assert (ST0 : 0 <= s * (t * t)) by (apply Rmult_le_pos; auto). assert (RR : 0 <= r * r) by apply Rle_0_sqr.
      assert (UP : d <= r * (1 + s)). { apply sq_le; [apply Rmult_le_pos; lra|]. rewrite D'. replace (r * (1 + s) * (r * (1 + s))) with (r * r * (1 + s * (2 + s))) by ring. apply Rmult_le_compat_l; auto. apply Rplus_le_compat_l. apply Rmult_le_compat_l; auto. lra. }
      assert (DN : r * (1 - s) <= d). { apply sq_le; auto. rewrite D'. replace (r * (1 - s) * (r * (1 - s))) with (r * r * (1 + s * (- 2 + s))) by ring. apply Rmult_le_compat_l; auto. apply Rplus_le_compat_l. apply Rmult_le_compat_l; auto.
        assert (s * (1 - t * t) <= 1 * (1 - t * t)) by (apply Rmult_le_compat_r; lra). pose proof (Rle_0_sqr (5 * t - 1)) as Q. unfold Rsqr in Q. lra. }
      lra. }
  split; intros z (t & T & A & B & C); cbn [fst snd] in *; [apply (G t z); auto|]. apply (G (1 - t) z); [lra| | |]; [rewrite A|rewrite B|rewrite C]; ring.
Qed.
End Lines.

(** *** the vertices *)
Lemma pieces_app p l q : pieces p (l ++ [q]) = pieces p l ++ [(last l p, q)].
Proof. revert p. induction l as [|x l IH]; intros p; auto. cbn [app pieces]. rewrite IH. cbn [app]. f_equal. f_equal. f_equal. f_equal. destruct l; auto. cbn [last]. clear. revert v. induction l as [|y l IH]; intros v; auto. cbn [last]. destruct l; auto. Qed.
Section Verts.
Variables (c : gclass) (n : vec) (PL : arc_plane c) (PN : plane_normal c = Some n) (p q : vec) (a : arc).
Hypotheses (AN : a_normal a = n) (AS : a_start a = plane_projection p n) (AE : a_end a = plane_projection q n) (AHS : a_hstart a = vscale n (dot p n)) (AHE : a_hend a = vscale n (dot q n))
  (AC : ph c (a_center a) = 0) (AR : apart c p (a_center a) = a_radius a) (AB : 0 < a_error a <= a_radius a) (AT : a_angle a <> 0).
Let o := a_center a.
Let r := a_radius a.
Lemma lift v : vadd (plane_projection v n) (vscale n (dot v n)) = v.
Proof. apply (frame_ext c); auto; rewrite ?pu_add, ?pv_add, ?ph_add, ?pu_scale, ?pv_scale, ?ph_scale, ?(pu_proj c n PL PN), ?(pv_proj c n PL PN), ?(ph_proj c n PL PN), ?(pu_n c n PL PN), ?(pv_n c n PL PN), ?(ph_n c n PL PN), ?(dot_n c n PL PN); ring. Qed.
Lemma end_point : vadd (a_end a) (a_hend a) = q. Proof. rewrite AE, AHE. apply lift. Qed.
Lemma start_point : vadd (vadd (a_center a) (vsub (a_start a) (a_center a))) (a_hstart a) = p.
Proof. replace (vadd (a_center a) (vsub (a_start a) (a_center a))) with (a_start a); [rewrite AS, AHS; apply lift|]. destruct (a_center a), (a_start a); unfold vadd, vsub; cbn; f_equal; ring. Qed.
Lemma normalized_start f : vscale (normalized (vsub (a_start a) o)) (r * f) = vscale (vsub (a_start a) o) f.
Proof.
  assert (E : norm (vsub (a_start a) o) = r) by (rewrite AS; unfold o; rewrite (flat_apart c n PL PN); auto; [rewrite (apart_proj_l c n PL PN); auto|apply (ph_proj c n PL PN)]).
  rewrite (normalized_scale (vsub (a_start a) o)) at 2. rewrite E. destruct (normalized _). unfold vscale; cbn. f_equal; ring.
Qed.
Lemma qrot_vscale u v k : qrot u (vscale v k) = vscale (qrot u v) k. Proof. apply qrot_scale. Qed.
Lemma vertex_spec f th : exists v, vertex a (vscale (normalized (vsub (a_start a) o)) (r * f)) th = Ok v /\ turned c true o p th f v /\ ph c v = ph c p + (ph c q - ph c p) * (th / a_angle a).
Proof.
  rewrite normalized_start. unfold vertex. rewrite rdiv_ok by auto. cbn [bind]. eexists. split; [reflexivity|]. rewrite AN, AHS, AHE. split.
  - apply (turned_rot c n PL PN). cbv zeta. rewrite !pu_add, !pv_add, !pu_scale, !pv_scale, !pu_sub, !pv_sub, !pu_scale, !pv_scale, (pu_n c n PL PN), (pv_n c n PL PN). rewrite qrot_vscale, pu_scale, pv_scale. fold o.
    destruct (rot_frame c n PL PN th (vsub (a_start a) o)) as (A & B & _). destruct (rot_frame c n PL PN th (vsub p o)) as (A' & B' & _). cbv zeta in *. rewrite A, B, A', B', AS, !pu_sub, !pv_sub, (pu_proj c n PL PN), (pv_proj c n PL PN). split; ring.
  - rewrite !ph_add, !ph_scale, !ph_sub, !ph_scale, (ph_n c n PL PN), !(dot_n c n PL PN). rewrite qrot_vscale, ph_scale. destruct (rot_frame c n PL PN th (vsub (a_start a) o)) as (_ & _ & A). cbv zeta in A. rewrite A, ph_sub, AS, (ph_proj c n PL PN). unfold o. rewrite AC. ring.
Qed.
Variables (m : arc_method) (w : R) (count : Z).
Hypotheses (WN : w * IZR count = a_angle a) (WP : 0 < Rabs w) (C1 : (1 <= count)%Z) (BO : bound_ok m r (a_error a) w).
Let f := factor m w.
Let outer := vscale (normalized (vsub (a_start a) o)) (r * f).
Let sg : R := if Rlt_dec 0 w then 1 else - 1.
Lemma sg_w : sg * w = Rabs w /\ sg * sg = 1.
Proof. unfold sg. destruct (Rlt_dec 0 w); [rewrite Rabs_right by lra|rewrite Rabs_left1 by lra]; split; ring. Qed.
Lemma sg_angle : sg * a_angle a = Rabs (a_angle a) /\ 0 < Rabs (a_angle a).
Proof. destruct sg_w as [A _]. split; [|apply Rabs_pos_lt; auto]. rewrite <- WN, Rabs_mult, (Rabs_right (IZR count)) by (apply Rle_ge, IZR_le; lia). rewrite <- A. ring. Qed.
Definition prev (k : Z) : R := if phase_offset m then (if (k =? 1)%Z then 0 else w * (IZR k - 1) - w / 2) else w * (IZR k - 1).
Definition spot (th : R) (v : vec) : Prop := exists k, 1 <= k /\ turned c true o p (sg * th) k v /\ ph c v = ph c p + (ph c q - ph c p) * (th / Rabs (a_angle a)).
Notation good := (good_piece c o m r (a_error a)).
Lemma factor_ge : 1 <= f.
Proof.
  unfold f. destruct m; cbn [factor bound_ok] in *; [lra| |].
  - destruct BO as [[A B] _]. rewrite <- Rinv_1 at 1. apply Rinv_le_contravar; auto.
  - cbv zeta in *. lra.
Qed.
Lemma vertex_at k th : th = sg * k -> exists v, vertex a outer k = Ok v /\ turned c true o p k f v /\ spot th v.
Proof.
  intros ->. destruct (vertex_spec f k) as (v & E & T & H). exists v. split; auto. split; auto. exists f. split; [apply factor_ge|]. destruct sg_w as [_ SS]. destruct sg_angle as [SA SP]. split.
  - replace (sg * (sg * k)) with (sg * sg * k) by ring. rewrite SS, Rmult_1_l. auto.
  - rewrite H. f_equal. f_equal. rewrite <- SA. field. split; auto. intros Z. rewrite Z in SS. lra.
Qed.
Lemma wedges_spec k j s : (1 <= j)%Z -> count = (j + Z.of_nat k - 1)%Z -> (phase_offset m = false -> (1 <= k)%nat) -> turned c true o p (prev j) (if (j =? 1)%Z then 1 else f) s ->
  exists l vs ths, wedges m a outer w count k j s = (l, Ok tt) /\ l = pieces s (vs ++ [q]) /\ Forall2 spot ths vs /\ rising (sg * prev j) (ths ++ [Rabs (a_angle a)]) (Rabs (a_angle a)) /\
    Forall good (pieces s vs) /\ (turned c true o p (a_angle a) 1 q -> Forall good (pieces s (vs ++ [q]))).
Proof.
  destruct sg_w as [SW SS]. destruct sg_angle as [SA SP]. revert j s. induction k as [|k IH]; intros j s J EC IN TS; cbn [wedges]; rewrite end_point.
  - destruct (phase_offset m) eqn:OF; [|specialize (IN eq_refl); lia]. exists [(s, q)], [], []. split; auto. split; auto. split; [constructor|]. assert (J2 : (2 <= j)%Z) by lia. assert (E1 : (j =? 1)%Z = false) by (apply Z.eqb_neq; lia). rewrite E1 in TS. unfold prev in *. rewrite OF, E1 in *.
    assert (EA : a_angle a = w * (IZR j - 1)). { rewrite <- WN. f_equal. rewrite EC. replace (j + Z.of_nat 0 - 1)%Z with (j - 1)%Z by lia. apply minus_IZR. }
    split; [apply rising_one; rewrite <- SA, EA; lra|]. split; [constructor|]. intros TE. cbn [app pieces]. constructor; [|constructor]. apply (edge_good c o p m r (a_error a) w PL AR AB BO (a_angle a) (w * (IZR j - 1) - w / 2) q s OF); auto. right. lra.
  - assert (CH : (phase_offset m = true /\ (j =? 1)%Z = true) \/ prev j = (if phase_offset m then w * IZR j - w / 2 else w * IZR j) - w).
    { unfold prev. destruct (phase_offset m); [destruct (j =? 1)%Z; auto|]; right; lra. }
    destruct (phase_offset m || (j <? count)%Z) eqn:GO.
    + set (ang := if phase_offset m then w * IZR j - w / 2 else w * IZR j). destruct (vertex_at ang (sg * ang) eq_refl) as (v & EV & TV & SV). rewrite EV.
      assert (PN1 : prev (j + 1) = ang). { unfold prev, ang. assert (E1 : (j + 1 =? 1)%Z = false) by (apply Z.eqb_neq; lia). rewrite E1. rewrite plus_IZR. destruct (phase_offset m); f_equal; try f_equal; lra. }
      assert (E1 : (j + 1 =? 1)%Z = false) by (apply Z.eqb_neq; lia).
      destruct (IH (j + 1)%Z v) as (l & vs & ths & EL & EP & F2 & RI & G1 & G2); [lia|lia| |rewrite PN1, E1; auto|].
      { intros OF. rewrite OF in GO. cbn in GO. apply Z.ltb_lt in GO. lia. }
      rewrite EL. unfold ycons. cbn [fst snd]. exists ((s, v) :: l), (v :: vs), (sg * ang :: ths). split; auto. split; [rewrite EP; reflexivity|]. split; [constructor; auto|]. rewrite PN1 in RI.
      assert (GP : good (s, v)). { destruct CH as [[OF J1]|CH].
        - rewrite J1 in TS. unfold prev in TS. rewrite OF, J1 in TS. apply (edge_good c o p m r (a_error a) w PL AR AB BO 0 ang s v OF); auto. left. unfold ang. rewrite OF. apply Z.eqb_eq in J1. subst j. lra.
        - apply (chord_good c o p m r (a_error a) w PL AR AB BO (prev j)); [|rewrite CH; fold ang; replace (ang - w + w) with ang by ring; auto]. destruct (j =? 1)%Z eqn:J1; [|auto]. destruct (phase_offset m) eqn:OF; [|unfold f in *; destruct m; try discriminate; auto].
          exfalso. unfold prev in CH. rewrite OF, J1 in CH. apply Z.eqb_eq in J1. subst j. unfold f in *. assert (w = 0) by lra. rewrite H, Rabs_R0 in WP. lra. }
      split; [cbn [app]; apply rising_more; auto; destruct CH as [[OF J1]|CH]; [unfold prev, ang; rewrite OF, J1; apply Z.eqb_eq in J1; subst j; lra|rewrite CH; fold ang; lra]|]. split; [cbn [pieces]; constructor; auto|]. intros TE. cbn [app pieces]. constructor; auto.
    + apply orb_false_iff in GO as [OF GO]. apply Z.ltb_ge in GO. assert (k = 0)%nat by lia. subst k. exists [(s, q)], [], []. split; auto. split; auto. split; [constructor|]. destruct CH as [[X _]|CH]; [congruence|]. rewrite OF in CH. assert (EA : a_angle a = w * IZR j) by (rewrite <- WN; f_equal; f_equal; lia).
      split; [apply rising_one; rewrite <- SA, CH, EA; lra|]. split; [constructor|]. intros TE. cbn [app pieces]. constructor; [|constructor]. assert (F1 : f = 1) by (unfold f; destruct m; try discriminate; auto). apply (chord_good c o p m r (a_error a) w PL AR AB BO (prev j)); fold f; rewrite F1; [destruct (j =? 1)%Z; auto; rewrite <- F1; auto|]. rewrite CH, <- EA. replace (a_angle a - w + w) with (a_angle a) by ring. auto.
Qed.
End Verts.
(** *** all pieces of an arc *)
Lemma forall2_imp {A B} (P Q : A -> B -> Prop) l l' : (forall x y, P x y -> Q x y) -> Forall2 P l l' -> Forall2 Q l l'.
Proof. intros H F. induction F; constructor; auto. Qed.
Definition on_way (c : gclass) (o p q : vec) (A th : R) (v : vec) : Prop :=
  exists k, 1 <= k /\ turned c true o p (if Rlt_dec 0 A then th else - th) k v /\ ph c v = ph c p + (ph c q - ph c p) * (th / Rabs A).
Lemma iter_spec c n p q m a : arc_plane c -> plane_normal c = Some n -> a_normal a = n -> a_start a = plane_projection p n -> a_end a = plane_projection q n -> a_hstart a = vscale n (dot p n) -> a_hend a = vscale n (dot q n) ->
  ph c (a_center a) = 0 -> apart c p (a_center a) = a_radius a -> 0 < a_error a <= a_radius a -> a_angle a <> 0 ->
  exists l vs ths, iter_vertices m a = (l, Ok tt) /\ l = pieces p (vs ++ [q]) /\ Forall2 (on_way c (a_center a) p q (a_angle a)) ths vs /\ rising 0 (ths ++ [Rabs (a_angle a)]) (Rabs (a_angle a)) /\
    Forall (good_piece c (a_center a) m (a_radius a) (a_error a)) (pieces p vs) /\ (turned c true (a_center a) p (a_angle a) 1 q -> Forall (good_piece c (a_center a) m (a_radius a) (a_error a)) (pieces p (vs ++ [q]))).
Proof.
  intros PL PN AN AS AE AHS AHE AC AR AB AT. destruct (count_spec m a AB AT) as (k & w & W & EC & K1 & EW & WK & [WP WL] & WM & CW & _). pose proof (wedge_bound m a w W AB WL WM CW) as BO.
  unfold iter_vertices. rewrite (outer_spec m a w AB EW BO), EC, EW. assert (L : (k <=? 0)%Z = false) by (apply Z.leb_gt; lia). rewrite L, (start_point c n PL PN p a AS AHS) by auto.
  assert (P0 : prev m w 1 = 0) by (unfold prev; destruct (phase_offset m); cbn; ring).
  destruct (wedges_spec c n PL PN p q a AN AS AE AHS AHE AC AR AB AT m w k WK WP K1 BO (Z.to_nat k) 1 p) as (l & vs & ths & E & EP & F2 & RI & G); [lia|lia|lia| |].
  { rewrite P0. cbn. unfold turned. rewrite cos_0, sin_0. cbv zeta. split; ring. }
  exists l, vs, ths. split; auto. split; auto. split; [|split; auto; rewrite P0, Rmult_0_r in RI; auto]. eapply forall2_imp; [|exact F2]. intros th v (x & X & T & H). exists x. split; auto. split; auto.
  assert (S : (if Rlt_dec 0 w then 1 else -1) = (if Rlt_dec 0 (a_angle a) then 1 else -1)). { assert (0 < IZR k) by (apply IZR_lt; lia). destruct (Rlt_dec 0 w) as [A|A], (Rlt_dec 0 (a_angle a)) as [B|B]; auto; exfalso; rewrite <- WK in B; [apply B, Rmult_lt_0_compat; auto|]. apply A. apply Rmult_lt_reg_r with (IZR k); auto. lra. }
  rewrite S in T. destruct (Rlt_dec 0 (a_angle a)); [rewrite Rmult_1_l in T|replace (-1 * th) with (- th) in T by ring]; auto.
Qed.
