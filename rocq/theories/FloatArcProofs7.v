(** Lemmas for C95: the circle of an arc in the XY plane. *)
From Coq Require Import List Bool ZArith QArith Qcanon Qabs Qreals Reals Lia Lra Psatz.
From Verif Require Import Base Num Words GTable GCode Position Machine Transform BaseFacts NumFacts WordOrder PrintSpec PrintProofs PosProofs ArithSpec Float64 DrillProofs GCodeSpec Arc ArcSpec ArcProofs2 ArcProofs3.
From Verif Require Import FloatArc FloatArcSpec FloatArcSpec2 FloatArcSpec3 FloatArcProofs FloatArcProofs3 FloatArcProofs5 FloatArcProofs6.
Import ListNotations.
Open Scope R_scope.

(** ** plane geometry: points at the distance s from the middle of a span, straight across *)
Lemma across_len X Y s k : let N := len X Y in 0 < N -> k * k = 1 -> let a := X / 2 + k * (Y / N * s) in let b := Y / 2 - k * (X / N * s) in a * a + b * b = N / 2 * (N / 2) + s * s.
Proof.
  cbv zeta. intros P K. pose proof (len_sq X Y) as E. set (N := len X Y) in *. assert (G : (X / N) * (X / N) + (Y / N) * (Y / N) = 1). { transitivity ((X * X + Y * Y) / (N * N)); [field; lra|]. rewrite <- E. field. lra. }
  transitivity ((X * X + Y * Y) / 4 + (k * k) * (s * s) * ((X / N) * (X / N) + (Y / N) * (Y / N))); [field; lra|]. rewrite G, K, <- E. field.
Qed.
Lemma across_only X Y a b r : let N := len X Y in 0 < N -> 0 <= r -> len a b = r -> len (X - a) (Y - b) = r -> exists l, l * l = r * r - N / 2 * (N / 2) /\ a = X / 2 + Y / N * l /\ b = Y / 2 - X / N * l.
Proof.
  cbv zeta. intros P R A B. pose proof (len_sq X Y) as E. pose proof (len_sq a b) as EA. pose proof (len_sq (X - a) (Y - b)) as EB. rewrite A in EA. rewrite B in EB. set (N := len X Y) in *. assert (D : X * a + Y * b = (N * N) / 2) by (rewrite E; lra).
  exists ((Y * a - X * b) / N). assert (NN : N * N <> 0) by (apply Rmult_integral_contrapositive; lra). split; [|split].
  - assert (G : (X * a + Y * b) * (X * a + Y * b) + (Y * a - X * b) * (Y * a - X * b) = (N * N) * (r * r)) by (rewrite E, EA; ring). rewrite D in G. apply Rmult_eq_reg_l with (N * N); auto. transitivity ((Y * a - X * b) * (Y * a - X * b)); [field; lra|]. transitivity (N * N * (r * r) - N * N / 2 * (N * N / 2)); [lra|field].
  - apply Rmult_eq_reg_l with (N * N); auto. transitivity (X * ((N * N) / 2) + Y * (Y * a - X * b)); [rewrite <- D, E; ring|field; lra].
  - apply Rmult_eq_reg_l with (N * N); auto. transitivity (Y * ((N * N) / 2) - X * (Y * a - X * b)); [rewrite <- D, E; ring|field; lra].
Qed.
Lemma root_diff a b v : 0 <= a -> 0 <= b -> 0 <= v -> Rabs (a * a - b * b) <= v * v -> Rabs (a - b) <= v.
Proof.
  intros A B V H. apply sq_le; auto. rewrite <- Rabs_mult, Rabs_right by (apply Rle_ge, Rle_0_sqr). apply ab in H. destruct (Rle_dec a b); [assert (a * a <= a * b) by (apply Rmult_le_compat_l; lra)|assert (b * b <= a * b) by (apply Rmult_le_compat_r; lra)]; lra.
Qed.

Section Laws.
Context {ar : Arith} (L : mathlib) (u i : R) (C : close_to_real ar L u i) (U : 0 < u <= / 1000000) (I : 0 < i <= u) (LW : lawful L) (acc : accurate ar) (ID : idempotent ar).
Notation q := Qc2R.
Definition real3 (v : fvec) : vec := V3 (q (fx v)) (q (fy v)) (q (fz v)).
Notation up := (FV zero zero one).
Lemma proj_xy v : float3 v -> projection L v up = Ok (FV (fx v) (fy v) zero).
Proof.
  intros (X & Y & Z). unfold projection. rewrite (unit_normal L acc LW GCodeSelectXYPlane up eq_refl). cbn [bind]. destruct v as [x y z]. cbn [fx fy fz] in *. unfold sub3, scale3, dot3. cbn [fx fy fz].
  rewrite !(mul_0r acc), !(mul_0l acc), (mul_1r z) by auto. rewrite (add_0l zero), (add_0l z) by (auto; exact (r0 acc)). rewrite (mul_1l z) by auto. rewrite (sub_0r x), (sub_0r y), (sub_self acc) by auto. reflexivity.
Qed.

Section Span.
Variables (M : R) (p p' : fvec).
Hypotheses (M1 : 1 <= M) (PX : Rabs (q (fx p)) <= M) (PY : Rabs (q (fy p)) <= M) (QX : Rabs (q (fx p')) <= M) (QY : Rabs (q (fy p')) <= M) (ZP : fz p = zero) (ZQ : fz p' = zero).
Let X := q (fx p') - q (fx p).
Let Y := q (fy p') - q (fy p).
Let N := len X Y.
Hypothesis (NB : 2000 * u * M <= N).
Lemma uM : u <= u * M /\ 0 < u * M. Proof. assert (u * 1 <= u * M) by (apply Rmult_le_compat_l; lra). lra. Qed.
Lemma N_pos : 0 < N /\ 4 * i <= N. Proof. pose proof uM. lra. Qed.
(** the point across, with [k] telling the side: to the right for 1 *)
Definition across_x (k s : R) : R := q (fx p) + X / 2 + k * (Y / N * s).
Definition across_y (k s : R) : R := q (fy p) + Y / 2 - k * (X / N * s).
Definition center_at (k s : R) (c : fvec) : Prop := fz c = zero /\ Rabs (q (fx c) - across_x k s) <= 50 * u * M /\ Rabs (q (fy c) - across_y k s) <= 50 * u * M.
Lemma span_unit : Rabs (X / N) <= 1 /\ Rabs (Y / N) <= 1 /\ (X / N) * (X / N) + (Y / N) * (Y / N) = 1.
Proof.
  pose proof (proj1 N_pos) as NP. assert (G : forall z, Rabs z <= N -> Rabs (z / N) <= 1) by (intros z ZN; unfold Rdiv; rewrite Rabs_mult, (Rabs_right (/ N)) by (apply Rle_ge; left; apply Rinv_0_lt_compat; auto); apply Rmult_le_reg_r with N; auto; rewrite Rmult_assoc, Rinv_l by lra; lra).
  split; [apply G, len_x|]. split; [apply G, len_y|]. pose proof (len_sq X Y) as E. fold N in E. transitivity ((X * X + Y * Y) / (N * N)); [field; lra|]. rewrite <- E. field. lra.
Qed.
Lemma centers_near g r mid tc : middle L g up p p' r = Ok (mid, tc) -> q r <= 101 / 100 * M ->
  exists s, Rabs (s * s - (q r * q r - N / 2 * (N / 2))) <= 60 * u * (q r * q r) /\ - (u * i) <= s <= 11 / 10 * q r /\ N / 2 <= (1 + 30 * u) * q r /\
    center_at 1 s (add3 (add3 p mid) tc) /\ center_at (-1) s (sub3 (add3 p mid) tc).
Proof.
  intros E RM. pose proof N_pos as [NP N4]. destruct (middle_near L u i C U I LW acc g p p' r mid tc N4 ZP ZQ E) as (s & S1 & S2 & S3 & ZM & ZT & MX & MY & TX & TY). fold X in MX, TX, TY. fold Y in MY, TX, TY. fold N in S1, S3, TX, TY. exists s. split; auto. split; auto. split; auto.
  pose proof span_unit as (XN & YN & _). pose proof (ii u i U I) as II. pose proof uM as [UM UMP]. assert (UI : u * (i * i) <= / 1000000 * (u * M)). { replace (/ 1000000 * (u * M)) with (u * (/ 1000000 * M)) by ring. apply Rmult_le_compat_l; lra. } assert (UR : u * q r <= 101 / 100 * (u * M)). { replace (101 / 100 * (u * M)) with (u * (101 / 100 * M)) by ring. apply Rmult_le_compat_l; lra. }
  assert (UUM : u * (u * M) <= / 1000000 * (u * M)) by (apply Rmult_le_compat_r; lra). assert (SA : Rabs s <= 112 / 100 * M) by (assert (u * i <= i) by (rewrite <- (Rmult_1_l i) at 2; apply Rmult_le_compat_r; lra); apply ab; lra).
  assert (HALF : forall a a' m, Rabs (q a) <= M -> Rabs (q a') <= M -> Rabs (q m - (q a' - q a) / 2) <= 4 * u * (Rabs ((q a' - q a) / 2) + i * i) -> Rabs (q (fadd a m) - (q a + (q a' - q a) / 2)) <= 52 / 10 * (u * M)).
  { intros a a' m HA HA' HM. assert (A1 : Rabs ((q a' - q a) / 2) <= M) by (apply ab in HA, HA'; apply ab; lra). assert (A2 : Rabs (q a + (q a' - q a) / 2) <= M) by (apply ab in HA, HA'; apply ab; lra).
    assert (HM' : Rabs (q m - (q a' - q a) / 2) <= 401 / 100 * (u * M)). { apply Rle_trans with (1 := HM). assert (u * Rabs ((q a' - q a) / 2) <= u * M) by (apply Rmult_le_compat_l; lra). lra. }
    assert (SELF : Rabs (q a - q a) <= 0) by (rewrite Rminus_diag_eq, Rabs_R0 by auto; lra). pose proof (f_add_near L u i C U a m _ _ _ _ SELF HM') as F. apply Rle_trans with (1 := F). assert (u * Rabs (q a + (q a' - q a) / 2) <= u * M) by (apply Rmult_le_compat_l; lra). lra. }
  pose proof (HALF _ _ _ PX QX MX) as HX. pose proof (HALF _ _ _ PY QY MY) as HY. clear HALF. fold X in HX. fold Y in HY.
  assert (PROD : forall z, Rabs z <= 1 -> Rabs (z * s) <= 112 / 100 * M). { intros z Z1. rewrite Rabs_mult. apply Rle_trans with (1 * Rabs s); [apply Rmult_le_compat_r; [apply ab_pos|auto]|lra]. }
  assert (BX : Rabs (q (fx p) + X / 2) <= M) by (unfold X; apply ab in PX, QX; apply ab; lra). assert (BY : Rabs (q (fy p) + Y / 2) <= M) by (unfold Y; apply ab in PY, QY; apply ab; lra).
  assert (TX' : Rabs (q (fx tc) - Y / N * s) <= 415 / 10 * (u * M)) by lra. assert (TY' : Rabs (q (fy tc) - - (X / N) * s) <= 415 / 10 * (u * M)) by lra. pose proof (PROD _ YN) as PY1. assert (PX1 : Rabs (- (X / N) * s) <= 112 / 100 * M) by (apply PROD; rewrite Rabs_Ropp; auto).
  assert (BIG : forall a b A B, Rabs (q a - A) <= 52 / 10 * (u * M) -> Rabs (q b - B) <= 415 / 10 * (u * M) -> Rabs A <= M -> Rabs B <= 112 / 100 * M -> Rabs (q (fadd a b) - (A + B)) <= 50 * u * M /\ Rabs (q (fsub a b) - (A - B)) <= 50 * u * M).
  { intros a b A B HA HB AM BM. assert (S : forall z, Rabs z <= 212 / 100 * M -> (1 + u) * (52 / 10 * (u * M) + 415 / 10 * (u * M)) + u * (Rabs z + i * i) <= 50 * u * M). { intros z Z1. assert (u * Rabs z <= u * (212 / 100 * M)) by (apply Rmult_le_compat_l; lra). lra. }
    apply ab in AM, BM. split; [apply Rle_trans with (1 := f_add_near L u i C U a b _ _ _ _ HA HB)|apply Rle_trans with (1 := f_sub_near L u i C U a b _ _ _ _ HA HB)]; apply S; apply ab; lra. }
  destruct (BIG _ _ _ _ HX TX' BX PY1) as [AX SX]. destruct (BIG _ _ _ _ HY TY' BY PX1) as [AY SY]. unfold center_at, across_x, across_y, add3, sub3. cbn [fx fy fz]. rewrite ZP, ZM, ZT. rewrite (add_0l zero) by exact (r0 acc). rewrite (add_0l zero) by exact (r0 acc). rewrite (sub_self acc).
  split; (split; [reflexivity|]); split.
  - replace (1 * (Y / N * s)) with (Y / N * s) by ring. exact AX.
  - replace (q (fy p) + Y / 2 - 1 * (X / N * s)) with (q (fy p) + Y / 2 + - (X / N) * s) by ring. exact AY.
  - replace (q (fx p) + X / 2 + -1 * (Y / N * s)) with (q (fx p) + X / 2 - Y / N * s) by ring. exact SX.
  - replace (q (fy p) + Y / 2 - -1 * (X / N * s)) with (q (fy p) + Y / 2 - - (X / N) * s) by ring. exact SY.
Qed.
(** what follows for such a centre *)
Section Center.
Variables (r : Qc) (s k : R) (c : fvec).
Hypotheses (RM : q r <= 101 / 100 * M) (S1 : Rabs (s * s - (q r * q r - N / 2 * (N / 2))) <= 60 * u * (q r * q r)) (S2 : - (u * i) <= s <= 11 / 10 * q r) (S3 : N / 2 <= (1 + 30 * u) * q r) (K : k * k = 1) (CA : center_at k s c).
Lemma r_pos : 0 < q r. Proof. pose proof (proj1 N_pos). apply Rmult_lt_reg_l with (1 + 30 * u); lra. Qed.
Lemma r_big : 900 * u * M <= q r.
Proof. pose proof r_pos as RP. assert (u * q r <= / 1000000 * q r) by (apply Rmult_le_compat_r; lra). pose proof uM. lra. Qed.
Lemma ends_apart : Rabs (apart GCodeSelectXYPlane (real3 p) (real3 c) - q r) <= 165 * u * M /\ Rabs (apart GCodeSelectXYPlane (real3 p') (real3 c) - q r) <= 165 * u * M.
Proof.
  pose proof N_pos as [NP _]. pose proof r_pos as RP. destruct CA as (_ & CX & CY). assert (RR : 0 < q r * q r) by (apply Rmult_lt_0_compat; auto). assert (UR : u * (q r * q r) <= / 1000000 * (q r * q r)) by (apply Rmult_le_compat_r; lra). assert (U2 : u * q r <= 101 / 100 * (u * M)). { replace (101 / 100 * (u * M)) with (u * (101 / 100 * M)) by ring. apply Rmult_le_compat_l; lra. }
  assert (G : forall a b, a * a + b * b = N / 2 * (N / 2) + s * s -> Rabs (len a b - q r) <= 61 * (u * M)).
  { intros a b E. unfold len. rewrite E. apply Rle_trans with (60 * u * q r); [|pose proof uM; lra]. apply root_near; [|auto|lra|].
    - pose proof (Rle_0_sqr (N / 2)) as A. pose proof (Rle_0_sqr s) as B. unfold Rsqr in A, B. lra.
    - replace (N / 2 * (N / 2) + s * s - q r * q r) with (s * s - (q r * q r - N / 2 * (N / 2))) by ring. exact S1. }
  assert (F : forall a b A B, Rabs (a - A) <= 50 * u * M -> Rabs (b - B) <= 50 * u * M -> A * A + B * B = N / 2 * (N / 2) + s * s -> Rabs (len a b - q r) <= 165 * u * M).
  { intros a b A B HA HB E. pose proof (G _ _ E) as H. pose proof (len_diff _ _ _ _ _ _ HA HB) as D. pose proof uM. apply ab in H, D. apply ab. lra. }
  pose proof (across_len X Y s k NP K) as E1. cbv zeta in E1. fold N in E1. split; rewrite apart_len; cbn [pu pv real3 vx vy].
  - apply F with (- (X / 2 + k * (Y / N * s))) (- (Y / 2 - k * (X / N * s))).
    + unfold across_x in CX. apply ab in CX. apply ab. lra.
    + unfold across_y in CY. apply ab in CY. apply ab. lra.
    + rewrite <- E1. ring.
  - assert (K' : (- k) * (- k) = 1) by (rewrite <- K; ring). pose proof (across_len X Y s (- k) NP K') as E2. cbv zeta in E2. fold N in E2. apply F with (X / 2 + - k * (Y / N * s)) (Y / 2 - - k * (X / N * s)).
    + unfold across_x in CX. replace (q (fx p')) with (q (fx p) + X) by (unfold X; ring). apply ab in CX. apply ab. lra.
    + unfold across_y in CY. replace (q (fy p')) with (q (fy p) + Y) by (unfold Y; ring). apply ab in CY. apply ab. lra.
    + exact E2.
Qed.
Lemma center_side : if Rlt_dec 0 k then leftness GCodeSelectXYPlane (real3 p) (real3 p') (real3 c) <= 110 * u * M * N else - (110 * u * M) * N <= leftness GCodeSelectXYPlane (real3 p) (real3 p') (real3 c).
Proof.
  pose proof N_pos as [NP _]. destruct CA as (_ & CX & CY). unfold leftness. cbn [pu pv real3 vx vy]. fold X Y. unfold across_x, across_y in *. set (ex := q (fx c) - (q (fx p) + X / 2 + k * (Y / N * s))) in *. set (ey := q (fy c) - (q (fy p) + Y / 2 - k * (X / N * s))) in *.
  assert (E : X * (q (fy c) - q (fy p)) - Y * (q (fx c) - q (fx p)) = - (k * (s * N)) + (X * ey - Y * ex)).
  { transitivity (X * (ey + Y / 2 - k * (X / N * s)) - Y * (ex + X / 2 + k * (Y / N * s))); [unfold ex, ey; ring|]. pose proof (len_sq X Y) as E. fold N in E. transitivity (- (k * s * ((X * X + Y * Y) / N)) + (X * ey - Y * ex)); [field; lra|]. rewrite <- E. field. lra. }
  rewrite E. pose proof (len_x X Y) as LX. pose proof (len_y X Y) as LY. fold N in LX, LY. assert (B : Rabs (X * ey - Y * ex) <= 100 * u * M * N).
  { replace (X * ey - Y * ex) with (X * ey + (- Y) * ex) by ring. eapply Rle_trans; [apply Rabs_triang|]. rewrite !Rabs_mult, Rabs_Ropp. assert (A1 : Rabs X * Rabs ey <= N * (50 * u * M)) by (apply Rmult_le_compat; auto; apply ab_pos). assert (A2 : Rabs Y * Rabs ex <= N * (50 * u * M)) by (apply Rmult_le_compat; auto; apply ab_pos). lra. }
  apply ab in B. pose proof uM as [UM UMP]. assert (UI : u * i <= u * M) by (apply Rmult_le_compat_l; lra). assert (SN : - (u * M) * N <= s * N) by (apply Rmult_le_compat_r; lra). destruct (Rlt_dec 0 k) as [KP|KP].
  - assert (k = 1) by (assert (Z : (k - 1) * (k + 1) = 0) by lra; apply Rmult_integral in Z; destruct Z; lra). subst k. assert (0 <= u * M * N) by (apply Rmult_le_pos; lra). lra.
  - assert (k = -1) by (assert (Z : (k - 1) * (k + 1) = 0) by lra; apply Rmult_integral in Z; destruct Z; lra). subst k. assert (0 <= u * M * N) by (apply Rmult_le_pos; lra). lra.
Qed.
(** a point at the radius of both ends is near one of the two centres *)
Lemma only_two (o' : vec) : apart GCodeSelectXYPlane (real3 p) o' = q r -> apart GCodeSelectXYPlane (real3 p') o' = q r ->
  exists k', k' * k' = 1 /\ len (vx o' - across_x k' s) (vy o' - across_y k' s) <= 9 * R_sqrt.sqrt u * M.
Proof.
  intros A B. pose proof N_pos as [NP _]. pose proof r_pos as RP. rewrite apart_len in A, B. cbn [pu pv real3 vx vy] in A, B.
  assert (A' : len (vx o' - q (fx p)) (vy o' - q (fy p)) = q r) by (rewrite <- A; unfold len; f_equal; ring). assert (B' : len (X - (vx o' - q (fx p))) (Y - (vy o' - q (fy p))) = q r) by (rewrite <- B; unfold X, Y; unfold len; f_equal; ring).
  destruct (across_only X Y _ _ (q r) NP ltac:(lra) A' B') as (l & E & EX & EY). fold N in E, EX, EY. pose proof (sqrt_pos u) as SP. pose proof (sqrt_sqrt u ltac:(lra)) as SS. set (v := R_sqrt.sqrt u) in *.
  assert (V3 : v <= / 1000) by (apply sq_le; [lra|]; rewrite SS; lra). assert (LS : Rabs (Rabs l - Rabs s) <= 8 * v * q r).
  { apply root_diff; try apply ab_pos; [apply Rmult_le_pos; lra|]. assert (AB : forall z, Rabs z * Rabs z = z * z) by (intros z; rewrite <- Rabs_mult, Rabs_right; auto; apply Rle_ge, Rle_0_sqr). rewrite !AB, E. replace (q r * q r - N / 2 * (N / 2) - s * s) with (- (s * s - (q r * q r - N / 2 * (N / 2)))) by ring. rewrite Rabs_Ropp. apply Rle_trans with (1 := S1). replace (8 * v * q r * (8 * v * q r)) with (64 * (v * v) * (q r * q r)) by ring. rewrite SS. assert (0 <= u * (q r * q r)) by (apply Rmult_le_pos; [lra|apply Rle_0_sqr]). lra. }
  assert (VR : v * q r <= 101 / 100 * (v * M)). { replace (101 / 100 * (v * M)) with (v * (101 / 100 * M)) by ring. apply Rmult_le_compat_l; lra. }
  assert (UI : u * i <= / 1000 * (v * M)). { apply Rle_trans with (v * (v * / 1000000)); [rewrite <- Rmult_assoc, SS; apply Rmult_le_compat_l; lra|]. replace (/ 1000 * (v * M)) with (v * (/ 1000 * M)) by ring. apply Rmult_le_compat_l; lra. }
  assert (SA : Rabs (Rabs s - s) <= 2 * (u * i)). { assert (0 <= u * i) by (apply Rmult_le_pos; lra). unfold Rabs at 2. destruct (Rcase_abs s); [apply ab; lra|]. rewrite Rminus_diag_eq, Rabs_R0 by auto. lra. }
  set (k' := if Rlt_dec l 0 then -1 else 1). assert (KK : k' * k' = 1) by (unfold k'; destruct (Rlt_dec l 0); lra). assert (KL : l = k' * Rabs l) by (unfold k'; destruct (Rlt_dec l 0); [rewrite Rabs_left|rewrite Rabs_right]; lra).
  exists k'. split; auto. unfold across_x, across_y. replace (vx o') with (q (fx p) + (vx o' - q (fx p))) by ring. replace (vy o') with (q (fy p) + (vy o' - q (fy p))) by ring. rewrite EX, EY.
  set (z := k' * (Rabs l - s)). replace (q (fx p) + (X / 2 + Y / N * l) - (q (fx p) + X / 2 + k' * (Y / N * s))) with (z * (Y / N)) by (unfold z; rewrite KL at 2; ring). replace (q (fy p) + (Y / 2 - X / N * l) - (q (fy p) + Y / 2 - k' * (X / N * s))) with (z * (- (X / N))) by (unfold z; rewrite KL at 2; ring).
  rewrite len_scale. rewrite (len_eq (Y / N) (- (X / N)) 1) by (try lra; pose proof span_unit as (_ & _ & G); rewrite Rmult_1_r, <- G; ring). rewrite Rmult_1_r. unfold z. rewrite Rabs_mult. assert (Rabs k' = 1) by (unfold k'; destruct (Rlt_dec l 0); [rewrite Rabs_left|rewrite Rabs_right]; lra). rewrite H, Rmult_1_l. assert (0 <= v * M) by (apply Rmult_le_pos; lra). apply ab in LS, SA. apply ab. lra.
Qed.
End Center.
End Span.
End Laws.
