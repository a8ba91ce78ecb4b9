(** Vectors, rotations, planes. *)
From Coq Require Import List Bool ZArith QArith Qcanon Qreals Reals Lra Lia.
From Verif Require Import Base Num Words GTable GCode Position Arc ArcSpec.
Import ListNotations.
Open Scope R_scope.

Lemma vec_ext a b : vx a = vx b -> vy a = vy b -> vz a = vz b -> a = b.
Proof. destruct a, b; cbn; congruence. Qed.
Lemma norm_nonneg a : 0 <= norm a. Proof. apply sqrt_pos. Qed.
Lemma sumsq_nonneg x y z : 0 <= x * x + y * y + z * z.
Proof. pose proof (Rle_0_sqr x). pose proof (Rle_0_sqr y). pose proof (Rle_0_sqr z). unfold Rsqr in *. lra. Qed.
Lemma norm_sq a : norm a * norm a = dot a a.
Proof. unfold norm, dot. apply sqrt_sqrt, sumsq_nonneg. Qed.
Lemma norm_zero a : norm a = 0 -> a = V3 0 0 0.
Proof.
  intros H. assert (E : dot a a = 0) by (rewrite <- norm_sq, H; ring). unfold dot in E. pose proof (Rle_0_sqr (vx a)). pose proof (Rle_0_sqr (vy a)). pose proof (Rle_0_sqr (vz a)). unfold Rsqr in *.
  apply vec_ext; cbn; apply Rsqr_0_uniq; unfold Rsqr; lra.
Qed.
Lemma norm_dot a x : 0 <= x -> dot a a = x * x -> norm a = x.
Proof. intros P E. unfold norm. unfold dot in E. rewrite E. apply sqrt_square. auto. Qed.
Lemma normalized_unit a : norm a <> 0 -> dot (normalized a) (normalized a) = 1.
Proof.
  intros N. unfold normalized. destruct (Req_EM_T (norm a) 0); [congruence|]. unfold dot; cbn. pose proof (norm_sq a) as S. unfold dot in S.
  replace (vx a / norm a * (vx a / norm a) + vy a / norm a * (vy a / norm a) + vz a / norm a * (vz a / norm a)) with ((vx a * vx a + vy a * vy a + vz a * vz a) / (norm a * norm a)) by (field; auto). rewrite <- S. field. auto.
Qed.
Lemma normalized_scale a : a = vscale (normalized a) (norm a).
Proof.
  unfold normalized. destruct (Req_EM_T (norm a) 0) as [E|E].
  - rewrite E. rewrite (norm_zero _ E). unfold vscale; cbn. f_equal; ring.
  - apply vec_ext; cbn; field; auto.
Qed.
Lemma normalized_id a : dot a a = 1 -> normalized a = a.
Proof.
  intros U. assert (N : norm a = 1) by (apply norm_dot; lra). unfold normalized. rewrite N. destruct (Req_EM_T 1 0); [lra|]. apply vec_ext; cbn; field.
Qed.
Lemma normalized_zero : normalized (V3 0 0 0) = V3 0 0 0.
Proof. unfold normalized. destruct (Req_EM_T _ _); auto. apply vec_ext; cbn; unfold Rdiv; ring. Qed.

(** *** rotations *)
(** rotation around a unit vector *)
Lemma rot_rodrigues th k v : dot k k = 1 ->
  qrot (rotate_axis th k) v = vadd (vadd (vscale v (cos th)) (vscale (cross k v) (sin th))) (vscale k (dot k v * (1 - cos th))).
Proof.
  intros U. unfold rotate_axis. rewrite (normalized_id k U). destruct k as [a b c], v as [x y z]. unfold dot in U; cbn in U.
  assert (C : cos th = cos (th / 2) * cos (th / 2) - sin (th / 2) * sin (th / 2)) by (rewrite <- cos_plus; f_equal; field).
  assert (S : sin th = 2 * sin (th / 2) * cos (th / 2)) by (rewrite <- sin_2a; f_equal; field).
  assert (P : sin (th / 2) * sin (th / 2) + cos (th / 2) * cos (th / 2) = 1) by (pose proof (sin2_cos2 (th / 2)) as Q; unfold Rsqr in Q; lra).
  rewrite C, S. clear C S. revert P. generalize (cos (th / 2)), (sin (th / 2)). intros cs s P.
  assert (E1 : cs * cs = 1 - s * s) by lra. assert (E2 : c * c = 1 - a * a - b * b) by lra.
  unfold qrot, vadd, vscale, cross, dot; cbn. f_equal.
  - transitivity (cs * cs * x + 2 * cs * s * (b * z - c * y) + s * s * (a * a * x - b * b * x - c * c * x + 2 * a * (b * y + c * z))); [ring|].
    transitivity (x * (cs * cs - s * s) + (b * z - c * y) * (2 * s * cs) + a * (a * x + b * y + c * z) * (1 - (cs * cs - s * s))); [|ring]. rewrite E1, E2. ring.
  - transitivity (cs * cs * y + 2 * cs * s * (c * x - a * z) + s * s * (b * b * y - a * a * y - c * c * y + 2 * b * (a * x + c * z))); [ring|].
    transitivity (y * (cs * cs - s * s) + (- a * z + c * x) * (2 * s * cs) + b * (a * x + b * y + c * z) * (1 - (cs * cs - s * s))); [|ring]. rewrite E1, E2. ring.
  - transitivity (cs * cs * z + 2 * cs * s * (a * y - b * x) + s * s * (c * c * z - a * a * z - b * b * z + 2 * c * (a * x + b * y))); [ring|].
    transitivity (z * (cs * cs - s * s) + (a * y - b * x) * (2 * s * cs) + c * (a * x + b * y + c * z) * (1 - (cs * cs - s * s))); [|ring]. rewrite E1.
    replace (c * (a * x + b * y + c * z)) with (c * a * x + c * b * y + c * c * z) by ring. rewrite E2. ring.
Qed.
Lemma qrot_mul p q v : qrot (qmul p q) v = qrot p (qrot q v).
Proof. destruct p, q, v. unfold qrot, qmul; cbn. f_equal; ring. Qed.
Lemma qrot_one v : qrot quat_one v = v.
Proof. destruct v. unfold qrot; cbn. f_equal; ring. Qed.
Lemma qrot_add q a b : qrot q (vadd a b) = vadd (qrot q a) (qrot q b).
Proof. destruct q, a, b. unfold qrot, vadd; cbn. f_equal; ring. Qed.
Lemma qrot_scale q a k : qrot q (vscale a k) = vscale (qrot q a) k.
Proof. destruct q, a. unfold qrot, vscale; cbn. f_equal; ring. Qed.
Lemma qrot_dot q a b : let n := qw q * qw q + qx q * qx q + qy q * qy q + qz q * qz q in dot (qrot q a) (qrot q b) = n * n * dot a b.
Proof. destruct q, a, b. unfold qrot, dot; cbn. ring. Qed.
Definition qn (q : quat) : R := qw q * qw q + qx q * qx q + qy q * qy q + qz q * qz q.
Lemma qn_mul p q : qn (qmul p q) = qn p * qn q.
Proof. destruct p, q. unfold qn, qmul; cbn. ring. Qed.
Lemma qrot_iso q v w : qn q = 1 -> dot (qrot q v) (qrot q w) = dot v w.
Proof. intros U. rewrite (qrot_dot q v w). cbv zeta. fold (qn q). rewrite U. ring. Qed.
Lemma qrot_cross q v w : qn q = 1 -> cross (qrot q v) (qrot q w) = qrot q (cross v w).
Proof.
  intros U. transitivity (vscale (qrot q (cross v w)) (qn q)); [destruct q, v, w; unfold cross, qrot, vscale, qn; cbn; f_equal; ring|]. rewrite U. destruct (qrot q (cross v w)). unfold vscale; cbn. f_equal; ring.
Qed.
Lemma rotate_axis_unit th k : dot k k = 1 -> qn (rotate_axis th k) = 1.
Proof.
  intros U. unfold rotate_axis, qn. rewrite normalized_id by auto. cbn. pose proof (sin2_cos2 (th / 2)) as Q. unfold Rsqr in Q. unfold dot in U.
  transitivity (cos (th / 2) * cos (th / 2) + (vx k * vx k + vy k * vy k + vz k * vz k) * (sin (th / 2) * sin (th / 2))); [ring|]. rewrite U. lra.
Qed.

(** *** Lagrange *)
Lemma cross_dot a b : dot (cross a b) (cross a b) = dot a a * dot b b - dot a b * dot a b.
Proof. destruct a, b. unfold dot, cross; cbn. ring. Qed.
Lemma cross_orth1 a b : dot a (cross a b) = 0. Proof. destruct a, b. unfold dot, cross; cbn. ring. Qed.
Lemma cross_orth2 a b : dot b (cross a b) = 0. Proof. destruct a, b. unfold dot, cross; cbn. ring. Qed.
Lemma cross_cross a b : cross (cross a b) a = vsub (vscale b (dot a a)) (vscale a (dot a b)).
Proof. destruct a, b. unfold dot, cross, vsub, vscale; cbn. f_equal; ring. Qed.
Lemma cauchy a b : dot a a = 1 -> dot b b = 1 -> -1 <= dot a b <= 1.
Proof.
  intros A B. pose proof (cross_dot a b) as E. rewrite A, B in E. assert (P : 0 <= dot (cross a b) (cross a b)) by (unfold dot; apply sumsq_nonneg). rewrite E in P. clear E. generalize dependent (dot a b). intros d P. split.
  - destruct (Rle_dec (-1) d); auto. exfalso. assert (1 < d * d) by (replace (d * d) with ((- d) * (- d)) by ring; replace 1 with (1 * 1) by ring; apply Rmult_le_0_lt_compat; lra). lra.
  - destruct (Rle_dec d 1); auto. exfalso. assert (1 < d * d) by (replace 1 with (1 * 1) by ring; apply Rmult_le_0_lt_compat; lra). lra.
Qed.

(** *** aligning *)
Lemma rdiv_ok a b : b <> 0 -> rdiv a b = Ok (a / b).
Proof. intros N. unfold rdiv. destruct (Req_EM_T b 0); congruence. Qed.
Lemma racos_ok x : -1 <= x <= 1 -> racos x = Ok (acos x).
Proof. intros [A B]. unfold racos. destruct (Rle_dec (-1) x); [|contradiction]. destruct (Rle_dec x 1); [auto|contradiction]. Qed.
Lemma vangle_unit a b : dot a a = 1 -> dot b b = 1 -> vangle a b = Ok (acos (dot a b)).
Proof.
  intros A B. unfold vangle. rewrite (norm_dot a 1) by lra. rewrite (norm_dot b 1) by lra. rewrite rdiv_ok by lra. cbn [bind]. replace (dot a b / (1 * 1)) with (dot a b) by field. apply racos_ok, cauchy; auto.
Qed.
Lemma dot_sub a b : dot (vsub a b) (vsub a b) = dot a a - 2 * dot a b + dot b b.
Proof. destruct a, b. unfold dot, vsub; cbn. ring. Qed.
Lemma dot_zero a : dot a a = 0 -> a = V3 0 0 0.
Proof. intros H. apply norm_zero, norm_dot; lra. Qed.
Lemma unit_eq a b : dot a a = 1 -> dot b b = 1 -> dot a b = 1 -> a = b.
Proof.
  intros A B D. assert (E : vsub a b = V3 0 0 0) by (apply dot_zero; rewrite dot_sub; lra). unfold vsub in E. injection E as X Y Z. apply vec_ext; lra.
Qed.
Lemma dot_scale a k b : dot (vscale a k) b = k * dot a b. Proof. destruct a, b. unfold dot; cbn. ring. Qed.
Lemma dot_comm a b : dot a b = dot b a. Proof. unfold dot. ring. Qed.
Lemma cross_scale a k b : cross (vscale a k) b = vscale (cross a b) k. Proof. destruct a, b. unfold cross, vscale; cbn. f_equal; ring. Qed.
Lemma cross_cross3 a b v : cross (cross a b) v = vsub (vscale b (dot a v)) (vscale a (dot b v)).
Proof. destruct a, b, v. unfold dot, cross, vsub, vscale; cbn. f_equal; ring. Qed.
Lemma cross_twice k v : cross k (cross k v) = vsub (vscale k (dot k v)) (vscale v (dot k k)).
Proof. destruct k, v. unfold dot, cross, vsub, vscale; cbn. f_equal; ring. Qed.
Lemma sin_acos_nonneg x : -1 <= x <= 1 -> 0 <= sin (acos x).
Proof. intros H. apply sin_ge_0; apply acos_bound. Qed.
Lemma acos_one : acos 1 = 0. Proof. apply acos_1. Qed.

Lemma align_spec a b : dot a a = 1 -> dot b b = 1 -> dot a b <> -1 ->
  exists q, quat2align a b false = Ok q /\ qrot q a = b /\ qn q = 1 /\ (forall v, dot v a = 0 -> dot v b = 0 -> qrot q v = v).
Proof.
  intros A B N. unfold quat2align. rewrite vangle_unit by auto. cbn [bind]. eexists. split; [reflexivity|]. pose proof (cauchy a b A B) as CB.
  pose proof (cross_dot a b) as L. rewrite A, B in L. destruct (Req_EM_T (dot a b) 1) as [D|D].
  - (* parallel *) assert (a = b) by (apply unit_eq; auto). subst b. replace (cross a a) with (V3 0 0 0) by (destruct a; unfold cross; cbn; f_equal; ring). rewrite D, acos_one.
    replace (rotate_axis 0 (V3 0 0 0)) with quat_one by (unfold rotate_axis; rewrite normalized_zero; replace (0 / 2) with 0 by field; rewrite cos_0, sin_0; cbn; unfold quat_one; f_equal; ring).
    split; [apply qrot_one|]. split; [unfold qn; cbn; ring|]. intros; rewrite ?qrot_one; auto.
  - assert (P : 0 < 1 - dot a b * dot a b). { assert (0 < (1 - dot a b) * (1 + dot a b)) by (apply Rmult_lt_0_compat; lra). lra. }
    assert (NZ : norm (cross a b) <> 0). { intros Z. pose proof (norm_sq (cross a b)) as S. rewrite Z, L in S. lra. }
    set (k := normalized (cross a b)). assert (K : dot k k = 1) by (apply normalized_unit; auto).
    assert (SN : sin (acos (dot a b)) = norm (cross a b)). { symmetry. apply norm_dot; [apply sin_acos_nonneg; auto|]. rewrite L. pose proof (sin2_cos2 (acos (dot a b))) as Q. rewrite (cos_acos _ CB) in Q. unfold Rsqr in Q. lra. }
    assert (KA : vscale k (norm (cross a b)) = cross a b) by (symmetry; apply normalized_scale).
    assert (RQ : rotate_axis (acos (dot a b)) (cross a b) = rotate_axis (acos (dot a b)) k). { unfold rotate_axis. rewrite (normalized_id k K). reflexivity. }
    assert (OA : dot k a = 0). { apply Rmult_eq_reg_l with (norm (cross a b)); auto. rewrite <- dot_scale, KA, dot_comm, cross_orth1. ring. }
    assert (OB : dot k b = 0). { apply Rmult_eq_reg_l with (norm (cross a b)); auto. rewrite <- dot_scale, KA, dot_comm, cross_orth2. ring. }
    rewrite RQ. split; [|split].
    + rewrite (rot_rodrigues _ k a K), OA, SN, (cos_acos _ CB), <- cross_scale, KA, cross_cross, A. destruct a, b, k. unfold vadd, vsub, vscale; cbn. f_equal; ring.
    + apply rotate_axis_unit; auto.
    + intros v VA VB. assert (CZ : cross k v = V3 0 0 0). { assert (E : vscale (cross k v) (norm (cross a b)) = V3 0 0 0). { rewrite <- cross_scale, KA, cross_cross3, (dot_comm a v), (dot_comm b v), VA, VB. destruct a, b. unfold vsub, vscale; cbn. f_equal; ring. }
        unfold vscale in E. injection E as E1 E2 E3. apply vec_ext; cbn [vx vy vz]; eapply Rmult_eq_reg_r; eauto; rewrite Rmult_0_l; auto. }
      assert (VK : vscale k (dot k v) = v). { pose proof (cross_twice k v) as T. rewrite CZ, K in T. destruct k as [k1 k2 k3], v as [v1 v2 v3]. unfold cross, vsub, vscale in *; cbn in *. injection T as T1 T2 T3. f_equal; lra. }
      rewrite (rot_rodrigues _ k v K), CZ. replace (vscale k (dot k v * (1 - cos (acos (dot a b))))) with (vscale (vscale k (dot k v)) (1 - cos (acos (dot a b)))) by (unfold vscale; cbn; f_equal; ring). rewrite VK. destruct v. unfold vadd, vscale; cbn. f_equal; ring.
Qed.
(** opposite vectors: the axis is a zero vector and the quaternion is zero *)
Lemma align_opposite a : dot a a = 1 -> exists q, quat2align a (vneg a) false = Ok q /\ forall v, qrot q v = V3 0 0 0.
Proof.
  intros A. assert (B : dot (vneg a) (vneg a) = 1) by (destruct a; unfold dot, vneg in *; cbn in *; lra). assert (D : dot a (vneg a) = -1) by (destruct a; unfold dot, vneg in *; cbn in *; lra).
  unfold quat2align. rewrite vangle_unit by auto. cbn [bind]. eexists. split; [reflexivity|]. intros v. rewrite D.
  replace (cross a (vneg a)) with (V3 0 0 0) by (destruct a; unfold cross, vneg; cbn; f_equal; ring). unfold rotate_axis. rewrite normalized_zero. replace (-1) with (- (1)) by ring. rewrite (acos_opp 1), acos_1, Rminus_0_r. rewrite cos_PI2. destruct v. unfold qrot; cbn. f_equal; ring.
Qed.
Lemma coord_system_spec o1 o2 a1 a2 : dot o1 o1 = 1 -> dot o2 o2 = 1 -> dot o1 o2 = 0 -> dot a1 a1 = 1 -> dot a2 a2 = 1 -> dot a1 a2 = 0 -> dot o1 a1 <> -1 ->
  (forall q1, quat2align o1 a1 false = Ok q1 -> dot (qrot q1 o2) a2 <> -1) ->
  exists q, quat2coord_system o1 o2 a1 a2 = Ok q /\ qrot q o1 = a1 /\ qrot q o2 = a2 /\ qn q = 1.
Proof.
  intros O1 O2 O A1 A2 A N1 N2. unfold quat2coord_system. rewrite !normalized_id by auto. destruct (align_spec o1 a1 O1 A1 N1) as (q1 & E1 & R1 & I1 & _). rewrite E1. cbn [bind]. specialize (N2 q1 E1).
  assert (U : dot (qrot q1 o2) (qrot q1 o2) = 1) by (rewrite (qrot_iso _ _ _ I1); auto). destruct (align_spec _ a2 U A2 N2) as (q2 & E2 & R2 & I2 & F2). rewrite E2. cbn [bind]. eexists. split; [reflexivity|]. rewrite !qrot_mul, R1. split; [|split; auto].
  - apply F2; auto. rewrite <- R1, (qrot_iso _ _ _ I1). auto.
  - rewrite qn_mul, I1, I2. ring.
Qed.

(** *** planes *)
Lemma plane_frame c : arc_plane c -> exists n, plane_normal c = Some n /\ dot n n = 1 /\ n = match c with GCodeSelectZXPlane => ey | GCodeSelectYZPlane => ex | _ => ez end.
Proof. intros [<-|[<-|[<-|[]]]]; eexists; cbn; (split; [reflexivity|]); (split; [unfold dot; cbn; ring|reflexivity]). Qed.
Ltac by_plane H := destruct H as [<-|[<-|[<-|[]]]].
Lemma frame_ext c v w : arc_plane c -> pu c v = pu c w -> pv c v = pv c w -> ph c v = ph c w -> v = w.
Proof. intros A U V H. by_plane A; cbn in *; apply vec_ext; auto. Qed.
Lemma pu_add c v w : pu c (vadd v w) = pu c v + pu c w. Proof. destruct c; reflexivity. Qed.
Lemma pv_add c v w : pv c (vadd v w) = pv c v + pv c w. Proof. destruct c; reflexivity. Qed.
Lemma ph_add c v w : ph c (vadd v w) = ph c v + ph c w. Proof. destruct c; reflexivity. Qed.
Lemma pu_sub c v w : pu c (vsub v w) = pu c v - pu c w. Proof. destruct c; reflexivity. Qed.
Lemma pv_sub c v w : pv c (vsub v w) = pv c v - pv c w. Proof. destruct c; reflexivity. Qed.
Lemma ph_sub c v w : ph c (vsub v w) = ph c v - ph c w. Proof. destruct c; reflexivity. Qed.
Lemma pu_scale c v k : pu c (vscale v k) = pu c v * k. Proof. destruct c; reflexivity. Qed.
Lemma pv_scale c v k : pv c (vscale v k) = pv c v * k. Proof. destruct c; reflexivity. Qed.
Lemma ph_scale c v k : ph c (vscale v k) = ph c v * k. Proof. destruct c; reflexivity. Qed.
Section Plane.
Variables (c : gclass) (n : vec).
Hypotheses (PL : arc_plane c) (PN : plane_normal c = Some n).
Lemma pu_n : pu c n = 0. Proof. by_plane PL; injection PN as <-; reflexivity. Qed.
Lemma pv_n : pv c n = 0. Proof. by_plane PL; injection PN as <-; reflexivity. Qed.
Lemma ph_n : ph c n = 1. Proof. by_plane PL; injection PN as <-; reflexivity. Qed.
Lemma dot_frame v w : dot v w = pu c v * pu c w + pv c v * pv c w + ph c v * ph c w.
Proof. by_plane PL; unfold dot; cbn; ring. Qed.
Lemma dot_n v : dot v n = ph c v.
Proof. rewrite dot_frame, pu_n, pv_n, ph_n. ring. Qed.
Lemma n_unit : dot n n = 1. Proof. rewrite dot_n. apply ph_n. Qed.
Lemma pu_proj v : pu c (plane_projection v n) = pu c v.
Proof. unfold plane_projection. rewrite (normalized_id n n_unit), pu_sub, pu_scale, pu_n. ring. Qed.
Lemma pv_proj v : pv c (plane_projection v n) = pv c v.
Proof. unfold plane_projection. rewrite (normalized_id n n_unit), pv_sub, pv_scale, pv_n. ring. Qed.
Lemma ph_proj v : ph c (plane_projection v n) = 0.
Proof. unfold plane_projection. rewrite (normalized_id n n_unit), ph_sub, ph_scale, ph_n, dot_n. ring. Qed.
Lemma proj_apart v w : norm (vsub (plane_projection v n) (plane_projection w n)) = apart c v w.
Proof.
  unfold apart. apply norm_dot; [apply sqrt_pos|]. rewrite sqrt_sqrt; [|pose proof (sumsq_nonneg (pu c v - pu c w) (pv c v - pv c w) 0); lra].
  rewrite dot_frame, !pu_sub, !pv_sub, !ph_sub, !pu_proj, !pv_proj, !ph_proj. ring.
Qed.
Lemma flat_norm v : ph c v = 0 -> norm v = sqrt (pu c v * pu c v + pv c v * pv c v).
Proof.
  intros H. apply norm_dot; [apply sqrt_pos|]. rewrite sqrt_sqrt; [|pose proof (sumsq_nonneg (pu c v) (pv c v) 0); lra]. rewrite dot_frame, H. ring.
Qed.
Lemma pu_cross v : pu c (cross v n) = pv c v. Proof. by_plane PL; injection PN as <-; cbn; ring. Qed.
Lemma pv_cross v : pv c (cross v n) = - pu c v. Proof. by_plane PL; injection PN as <-; cbn; ring. Qed.
Lemma ph_cross v : ph c (cross v n) = 0. Proof. by_plane PL; injection PN as <-; cbn; ring. Qed.
Lemma rot_frame th v : let w := qrot (rotate_axis th (vneg n)) v in
  pu c w = pu c v * cos th + pv c v * sin th /\ pv c w = - pu c v * sin th + pv c v * cos th /\ ph c w = ph c v.
Proof.
  cbv zeta. assert (U : dot (vneg n) (vneg n) = 1) by (pose proof n_unit; destruct n; unfold dot, vneg in *; cbn in *; lra). rewrite (rot_rodrigues th _ v U). by_plane PL; injection PN as <-; unfold vneg, dot, cross, vadd, vscale; cbn; repeat split; ring.
Qed.
Lemma turned_rot (o p q : vec) th k : turned c true o p th k q <-> (let w := qrot (rotate_axis th (vneg n)) (vsub p o) in pu c q - pu c o = k * pu c w /\ pv c q - pv c o = k * pv c w).
Proof.
  cbv zeta. destruct (rot_frame th (vsub p o)) as (A & B & _). rewrite A, B, pu_sub, pv_sub. unfold turned. split; intros [X Y]; (split; [rewrite X|rewrite Y]; ring).
Qed.
End Plane.

(** the planes' quaternions permute the axes *)
Lemma frame_decompose v : v = vadd (vadd (vscale ex (vx v)) (vscale ey (vy v))) (vscale ez (vz v)).
Proof. destruct v. unfold vadd, vscale; cbn. f_equal; ring. Qed.
Lemma quat_axes q a b : qn q = 1 -> qrot q ex = a -> qrot q ey = b -> forall v, qrot q v = vadd (vadd (vscale a (vx v)) (vscale b (vy v))) (vscale (cross a b) (vz v)).
Proof.
  intros U A B v. rewrite (frame_decompose v) at 1. rewrite !qrot_add, !qrot_scale, A, B. f_equal. f_equal. rewrite <- A, <- B, (qrot_cross _ _ _ U). f_equal. unfold cross; cbn. apply vec_ext; cbn; ring.
Qed.
Lemma quat_xy : plane_quat GCodeSelectXYPlane = Ok quat_one. Proof. reflexivity. Qed.
Lemma quat_zx : exists q, plane_quat GCodeSelectZXPlane = Ok q /\ forall v, qrot q v = V3 (vy v) (vz v) (vx v).
Proof.
  destruct (coord_system_spec ex ey ez ex) as (q & E & A & B & U); try (unfold dot; cbn; lra).
  - intros q1 E. destruct (align_spec ex ez) as (q1' & E' & R & _ & F); try (unfold dot; cbn; lra). assert (q1' = q1) by congruence. subst q1'. rewrite F by (unfold dot; cbn; ring). unfold dot; cbn. lra.
  - exists q. split; auto. intros v. rewrite (quat_axes q _ _ U A B). destruct v. unfold vadd, vscale, cross; cbn. f_equal; ring.
Qed.
Lemma quat_yz : exists q, plane_quat GCodeSelectYZPlane = Ok q /\ forall v, qrot q v = V3 (vz v) (vx v) (vy v).
Proof.
  destruct (coord_system_spec ex ey ey ez) as (q & E & A & B & U); try (unfold dot; cbn; lra).
  - intros q1 E. destruct (align_spec ex ey) as (q1' & E' & R & U & _); try (unfold dot; cbn; lra). assert (q1' = q1) by congruence. subst q1'.
    assert (K : qrot q1 ez = ez). { destruct (align_spec ex ey) as (q1' & E'' & _ & _ & F); try (unfold dot; cbn; lra). assert (q1' = q1) by congruence. subst q1'. apply F; unfold dot; cbn; ring. }
    rewrite <- K, (qrot_iso _ _ _ U). unfold dot; cbn. lra.
  - exists q. split; auto. intros v. rewrite (quat_axes q _ _ U A B). destruct v. unfold vadd, vscale, cross; cbn. f_equal; ring.
Qed.
