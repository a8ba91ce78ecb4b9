(** Lemmas for C95: directions, and the centre of an arc. *)
From Coq Require Import List Bool ZArith QArith Qcanon Qabs Qreals Reals Lia Lra Psatz.
From Verif Require Import Base Num Words GTable GCode Position Machine Transform BaseFacts NumFacts WordOrder PrintSpec PrintProofs PosProofs ArithSpec Float64 DrillProofs Arc ArcSpec ArcProofs2.
From Verif Require Import FloatArc FloatArcSpec FloatArcSpec3 FloatArcProofs FloatArcProofs5.
Import ListNotations.
Open Scope R_scope.

Section Laws.
Context {ar : Arith} (L : mathlib) (u i : R) (C : close_to_real ar L u i) (U : 0 < u <= / 1000000) (I : 0 < i <= u) (LW : lawful L) (acc : accurate ar).
Notation q := Qc2R.
Lemma div_0 d : fdiv zero d = zero. Proof. unfold fdiv. replace (zero / d)%Qc with zero by (unfold zero, Qcdiv; ring). exact (r0 acc). Qed.
(** a vector close to (X, Y) is about as long *)
Lemma len_near_off X Y v x y : let N := len X Y in 2 * i <= N -> 0 <= v -> Rabs (x - X) <= v * (Rabs X + i * i) -> Rabs (y - Y) <= v * (Rabs Y + i * i) -> Rabs (len x y - N) <= 21 / 10 * v * N.
Proof.
  cbv zeta. set (N := len X Y). intros B V HX HY. pose proof (len_diff _ _ _ _ _ _ HX HY) as D. fold N in D. apply Rle_trans with (1 := D). pose proof (len_x X Y) as LX. pose proof (len_y X Y) as LY. fold N in LX, LY. pose proof (ii u i U I) as II. assert (i * i <= N * / 1000000) by lra.
  replace (21 / 10 * v * N) with (v * (21 / 10 * N)) by ring. rewrite <- Rmult_plus_distr_l. apply Rmult_le_compat_l; lra.
Qed.
Lemma ratio_near x X N N' a b : 0 < N -> 0 < N' -> Rabs (x - X) <= a * N -> Rabs (N' - N) <= b * N -> Rabs X <= N -> 0 <= a -> 0 <= b <= / 100 -> Rabs (x / N' - X / N) <= 102 / 100 * (a + b).
Proof.
  intros P P' HX HN XN A B. assert (E : x / N' - X / N = (x - X) / N' + X * (N - N') / (N * N')) by (field; lra). rewrite E. eapply Rle_trans; [apply Rabs_triang|].
  apply ab in HN. assert (NB : b * N <= / 100 * N) by (apply Rmult_le_compat_r; lra). assert (NN : N <= 102 / 100 * N') by lra. assert (IP : 0 < / N') by (apply Rinv_0_lt_compat; auto).
  assert (T1 : Rabs ((x - X) / N') <= 102 / 100 * a). { unfold Rdiv. rewrite Rabs_mult, (Rabs_right (/ N')) by lra. apply Rmult_le_reg_r with N'; auto. rewrite Rmult_assoc, Rinv_l, Rmult_1_r by lra. apply Rle_trans with (1 := HX). replace (102 * / 100 * a * N') with (a * (102 / 100 * N')) by field. apply Rmult_le_compat_l; auto. }
  assert (T2 : Rabs (X * (N - N') / (N * N')) <= 102 / 100 * b).
  { unfold Rdiv. rewrite !Rabs_mult. rewrite (Rabs_right (/ (N * N'))) by (apply Rle_ge; left; apply Rinv_0_lt_compat; apply Rmult_lt_0_compat; auto). assert (NP : 0 < N * N') by (apply Rmult_lt_0_compat; auto). apply Rmult_le_reg_r with (N * N'); auto. rewrite Rmult_assoc, Rinv_l, Rmult_1_r by lra.
    assert (K : Rabs (N - N') <= b * N) by (apply ab; lra). apply Rle_trans with (N * (b * N)); [apply Rmult_le_compat; auto; apply ab_pos|]. replace (102 * / 100 * b * (N * N')) with ((b * N) * (102 / 100 * N')) by field. rewrite (Rmult_comm N). apply Rmult_le_compat_l; auto. apply Rmult_le_pos; lra. }
  lra.
Qed.
Lemma unit_near X Y v x y w : let N := len X Y in 2 * i <= N -> 0 <= v <= 10 * u -> Rabs (q x - X) <= v * (Rabs X + i * i) -> Rabs (q y - Y) <= v * (Rabs Y + i * i) -> unit3 L (FV x y zero) = Ok w ->
  Rabs (q (fx w) - X / N) <= 15 * u + 4 * v /\ Rabs (q (fy w) - Y / N) <= 15 * u + 4 * v /\ fz w = zero.
Proof.
  cbv zeta. intros B V HX HY. pose proof (len_near_off X Y v _ _ B (proj1 V) HX HY) as LN. set (N := len X Y) in *. set (n := len (q x) (q y)) in *. assert (NP : 0 < N) by lra.
  assert (VN : v * N <= 10 * u * N) by (apply Rmult_le_compat_r; lra). assert (UN : u * N <= / 1000000 * N) by (apply Rmult_le_compat_r; lra). pose proof (proj1 (ab _ _) LN) as LN'. assert (NI : i <= n) by lra.
  unfold unit3. destruct (magnitude L (FV x y zero)) as [d|] eqn:M; [|discriminate]. cbn [bind]. pose proof (magnitude_near L u i C U I LW x y d NI M) as MN. fold n in MN. pose proof (proj1 (ab _ _) MN) as MN'. assert (Un : u * n <= / 1000000 * n) by (apply Rmult_le_compat_r; lra).
  assert (DP : 0 < q d) by lra. destruct (Qceqb d zero) eqn:DZ; [exfalso; apply Qceqb_eq in DZ; rewrite DZ, q_zero in DP; lra|]. intros H. injection H as <-. cbn [fx fy fz].
  assert (DN : Rabs (q d - N) <= (13 * u + 22 / 10 * v) * N). { apply ab. assert (A : u * (v * N) <= / 1000000 * (v * N)) by (apply Rmult_le_compat_r; [apply Rmult_le_pos; lra|lra]). assert (u * n <= u * N + u * (21 / 10 * v * N)) by (replace (u * N + u * (21 / 10 * v * N)) with (u * (N + 21 / 10 * v * N)) by ring; apply Rmult_le_compat_l; lra). assert (0 <= v * N) by (apply Rmult_le_pos; lra). assert (0 <= u * N) by (apply Rmult_le_pos; lra). lra. }
  assert (II : i * i <= N * / 1000000) by (pose proof (ii u i U I); lra). assert (COMP : forall z Z, Rabs Z <= N -> Rabs (q z - Z) <= v * (Rabs Z + i * i) -> Rabs (q (fdiv z d) - Z / N) <= 15 * u + 4 * v).
  { intros z Z ZN HZ. assert (HZ' : Rabs (q z - Z) <= (101 / 100 * v) * N). { apply Rle_trans with (1 := HZ). replace (101 / 100 * v * N) with (v * (101 / 100 * N)) by ring. apply Rmult_le_compat_l; lra. }
    pose proof (ratio_near (q z) Z N (q d) _ _ NP DP HZ' DN ZN ltac:(lra) ltac:(lra)) as R. pose proof (f_div L u i C z d ltac:(lra)) as F. assert (ZN1 : Rabs (Z / N) <= 1). { unfold Rdiv. rewrite Rabs_mult, (Rabs_right (/ N)) by (apply Rle_ge; left; apply Rinv_0_lt_compat; auto). apply Rmult_le_reg_r with N; auto. rewrite Rmult_assoc, Rinv_l by lra. lra. }
    assert (ZD : Rabs (q z / q d) <= 1 + 102 / 100 * (101 / 100 * v + (13 * u + 22 / 10 * v))). { replace (q z / q d) with (Z / N + (q z / q d - Z / N)) by ring. eapply Rle_trans; [apply Rabs_triang|]. lra. }
    assert (IS : i * i <= / 1000000) by (pose proof (ii u i U I); lra). assert (F2 : Rabs (q (fdiv z d) - q z / q d) <= u * (11 / 10)) by (apply Rle_trans with (1 := F); apply Rmult_le_compat_l; lra). apply ab in F2. apply ab in R. apply ab. lra. }
  split; [apply COMP; auto; apply len_x|]. split; [apply COMP; auto; apply len_y|]. apply div_0.
Qed.
(** the direction from one point to another *)
Lemma direction_near a b w : let X := q (fx a) - q (fx b) in let Y := q (fy a) - q (fy b) in let N := len X Y in 2 * i <= N -> fz a = zero -> fz b = zero -> unit3 L (sub3 a b) = Ok w ->
  Rabs (q (fx w) - X / N) <= 19 * u /\ Rabs (q (fy w) - Y / N) <= 19 * u /\ fz w = zero.
Proof.
  cbv zeta. intros B ZA ZB. unfold sub3. rewrite ZA, ZB, (sub_self acc). intros H. destruct (unit_near _ _ u _ _ w B ltac:(lra) (f_sub L u i C (fx a) (fx b)) (f_sub L u i C (fy a) (fy b)) H) as (X & Y & Z). split; [lra|]. split; [lra|auto].
Qed.
(** and the distance *)
Lemma distance_near a b d : let N := len (q (fx a) - q (fx b)) (q (fy a) - q (fy b)) in 2 * i <= N -> fz a = zero -> fz b = zero -> magnitude L (sub3 a b) = Ok d -> Rabs (q d - N) <= 15 * u * N.
Proof.
  cbv zeta. intros B ZA ZB. unfold sub3. rewrite ZA, ZB, (sub_self acc). intros H. pose proof (len_near_off _ _ u _ _ B ltac:(lra) (f_sub L u i C (fx a) (fx b)) (f_sub L u i C (fy a) (fy b))) as LN. set (N := len (q (fx a) - q (fx b)) (q (fy a) - q (fy b))) in *.
  assert (UN : u * N <= / 1000000 * N) by (apply Rmult_le_compat_r; lra). apply ab in LN. assert (NI : i <= len (q (fsub (fx a) (fx b))) (q (fsub (fy a) (fy b)))) by lra. pose proof (magnitude_near L u i C U I LW (fsub (fx a) (fx b)) (fsub (fy a) (fy b)) d NI H) as M. cbv zeta in M. set (n := len (q (fsub (fx a) (fx b))) (q (fsub (fy a) (fy b)))) in *. assert (K : u * n <= u * (N + 21 / 10 * u * N)) by (apply Rmult_le_compat_l; lra). assert (u * (u * N) <= / 1000000 * (u * N)) by (apply Rmult_le_compat_r; [apply Rmult_le_pos; lra|lra]). assert (0 <= u * N) by (apply Rmult_le_pos; lra). apply ab in M. apply ab. lra.
Qed.
Lemma distance_any a b d : let N := len (q (fx a) - q (fx b)) (q (fy a) - q (fy b)) in fz a = zero -> fz b = zero -> magnitude L (sub3 a b) = Ok d -> Rabs (q d - N) <= 15 * u * N + 8 * i.
Proof.
  cbv zeta. intros ZA ZB H. destruct (Rle_dec (2 * i) (len (q (fx a) - q (fx b)) (q (fy a) - q (fy b)))) as [G|G]; [pose proof (distance_near a b d G ZA ZB H); lra|]. apply Rnot_le_lt in G. revert H. unfold sub3. rewrite ZA, ZB, (sub_self acc). intros H. pose proof (magnitude_any L u i C U I LW _ _ _ H) as M.
  pose proof (f_sub L u i C (fx a) (fx b)) as HX. pose proof (f_sub L u i C (fy a) (fy b)) as HY. pose proof (len_diff _ _ _ _ _ _ HX HY) as D. pose proof (len_pos (q (fsub (fx a) (fx b))) (q (fsub (fy a) (fy b)))) as P.
  pose proof (len_x (q (fx a) - q (fx b)) (q (fy a) - q (fy b))) as LX. pose proof (len_y (q (fx a) - q (fx b)) (q (fy a) - q (fy b))) as LY. cbv zeta in M. set (N := len (q (fx a) - q (fx b)) (q (fy a) - q (fy b))) in *. set (n := len (q (fsub (fx a) (fx b))) (q (fsub (fy a) (fy b)))) in *. pose proof (ii u i U I) as II. assert (PN : 0 <= N) by apply len_pos.
  assert (D2 : u * (Rabs (q (fx a) - q (fx b)) + i * i) + u * (Rabs (q (fy a) - q (fy b)) + i * i) <= i / 10). { pose proof (ab_pos (q (fx a) - q (fx b))). pose proof (ab_pos (q (fy a) - q (fy b))). rewrite <- Rmult_plus_distr_l. apply Rle_trans with (/ 1000000 * (Rabs (q (fx a) - q (fx b)) + i * i + (Rabs (q (fy a) - q (fy b)) + i * i))); [apply Rmult_le_compat_r; lra|lra]. }
  assert (un : u * n <= / 1000000 * n) by (apply Rmult_le_compat_r; lra). assert (0 <= u * N) by (apply Rmult_le_pos; lra). assert (0 <= u * n) by (apply Rmult_le_pos; lra). apply ab in D. apply ab in M. apply ab. lra.
Qed.

(** ** the middle of the span and the way to the centre *)
Lemma half_near a b : let D := q a - q b in Rabs (q (fmul (fsub a b) (flit 1 2)) - D / 2) <= 4 * u * (Rabs (D / 2) + i * i).
Proof.
  cbv zeta. set (D := q a - q b). pose proof (f_sub L u i C a b) as A. fold D in A. pose proof (f_lit L u i C 1 2) as B. rewrite (Rabs_right (1 / 2)) in B by lra. pose proof (f_mul_near L u i C U _ _ _ _ _ _ A B) as M. pose proof (ii u i U I) as II. rewrite (Rabs_right (1 / 2)) in M by lra. rewrite <- Rmult_div_assoc || idtac.
  replace (D * (1 / 2)) with (D / 2) in M by field. assert (E : Rabs (D / 2) = Rabs D / 2) by (unfold Rdiv; rewrite Rabs_mult, (Rabs_right (/ 2)) by lra; reflexivity). rewrite E. apply Rle_trans with (1 := M). pose proof (ab_pos D) as P. set (d := Rabs D) in *. set (k := i * i) in *. assert (K : 0 <= k <= / 1000000) by lra.
  assert (UD : 0 <= u * d) by (apply Rmult_le_pos; lra). assert (UK : 0 <= u * k) by (apply Rmult_le_pos; lra). assert (A1 : k * (u * d) <= / 1000000 * (u * d)) by (apply Rmult_le_compat_r; lra). assert (A2 : u * (u * d) <= / 1000000 * (u * d)) by (apply Rmult_le_compat_r; lra). assert (A3 : u * (u * k) <= / 1000000 * (u * k)) by (apply Rmult_le_compat_r; lra). assert (A4 : k * (u * k) <= / 1000000 * (u * k)) by (apply Rmult_le_compat_r; lra).
  assert (B1 : u * (k * (u * d)) <= / 1000000 * (u * d)) by (apply Rle_trans with (1 * (k * (u * d))); [apply Rmult_le_compat_r; [apply Rmult_le_pos; lra|lra]|lra]).
  assert (B2 : u * (u * (u * d)) <= / 1000000 * (u * d)) by (apply Rle_trans with (1 * (u * (u * d))); [apply Rmult_le_compat_r; [apply Rmult_le_pos; lra|lra]|lra]).
  assert (B3 : u * (u * (u * k)) <= / 1000000 * (u * k)) by (apply Rle_trans with (1 * (u * (u * k))); [apply Rmult_le_compat_r; [apply Rmult_le_pos; lra|lra]|lra]).
  assert (B4 : u * (k * (u * k)) <= / 1000000 * (u * k)) by (apply Rle_trans with (1 * (k * (u * k))); [apply Rmult_le_compat_r; [apply Rmult_le_pos; lra|lra]|lra]).
  assert (B5 : u * (u * (k * (u * d))) <= / 1000000 * (u * d)) by (apply Rle_trans with (1 * (u * (k * (u * d)))); [apply Rmult_le_compat_r; [apply Rmult_le_pos; [lra|apply Rmult_le_pos; lra]|lra]|lra]).
  assert (B6 : u * (u * (k * (u * k))) <= / 1000000 * (u * k)) by (apply Rle_trans with (1 * (u * (k * (u * k)))); [apply Rmult_le_compat_r; [apply Rmult_le_pos; [lra|apply Rmult_le_pos; lra]|lra]|lra]).
  lra.
Qed.
Lemma middle_near g p p' r mid tc : let X := q (fx p') - q (fx p) in let Y := q (fy p') - q (fy p) in let N := len X Y in 4 * i <= N -> fz p = zero -> fz p' = zero -> middle L g (FV zero zero one) p p' r = Ok (mid, tc) ->
  exists s, Rabs (s * s - (q r * q r - N / 2 * (N / 2))) <= 60 * u * (q r * q r) /\ - (u * i) <= s <= 11 / 10 * q r /\ N / 2 <= (1 + 30 * u) * q r /\ fz mid = zero /\ fz tc = zero /\
    Rabs (q (fx mid) - X / 2) <= 4 * u * (Rabs (X / 2) + i * i) /\ Rabs (q (fy mid) - Y / 2) <= 4 * u * (Rabs (Y / 2) + i * i) /\
    Rabs (q (fx tc) - Y / N * s) <= 41 * u * q r /\ Rabs (q (fy tc) - - (X / N) * s) <= 41 * u * q r.
Proof.
  cbv zeta. intros B ZP ZQ. unfold middle. set (X := q (fx p') - q (fx p)) in *. set (Y := q (fy p') - q (fy p)) in *. set (N := len X Y) in *.
  assert (ME : scale3 (sub3 p' p) (flit 1 2) = FV (fmul (fsub (fx p') (fx p)) (flit 1 2)) (fmul (fsub (fy p') (fy p)) (flit 1 2)) zero). { unfold scale3, sub3. cbn [fx fy fz]. rewrite ZP, ZQ, (sub_self acc), (mul_0l acc). reflexivity. } rewrite ME. clear ME.
  pose proof (half_near (fx p') (fx p)) as MX. pose proof (half_near (fy p') (fy p)) as MY. cbv zeta in MX, MY. fold X in MX. fold Y in MY. set (mx := fmul _ _) in MX |- *. set (my := fmul _ _) in MY |- *.
  assert (H2 : len (X / 2) (Y / 2) = N / 2). { replace (X / 2) with (/ 2 * X) by field. replace (Y / 2) with (/ 2 * Y) by field. rewrite len_scale, Rabs_right by lra. fold N. field. }
  pose proof (len_near_off (X / 2) (Y / 2) (4 * u) (q mx) (q my)) as LN. cbv zeta in LN. rewrite H2 in LN. specialize (LN ltac:(lra) ltac:(lra) MX MY). set (H := N / 2) in *. set (n := len (q mx) (q my)) in *. assert (UH : u * H <= / 1000000 * H) by (apply Rmult_le_compat_r; unfold H; lra). apply ab in LN. assert (HP : 0 < H) by (unfold H; lra).
  destruct (magnitude L (FV mx my zero)) as [h|] eqn:M; [|discriminate]. cbn [bind]. pose proof (magnitude_near L u i C U I LW mx my h ltac:(fold n; unfold H in *; lra) M) as MN. fold n in MN. apply ab in MN. destruct (Qcltb r h) eqn:RH; [discriminate|]. apply q_ge in RH.
  destruct (unit3 L (FV mx my zero)) as [w|] eqn:UW; [|discriminate]. cbn [bind]. pose proof (unit_near (X / 2) (Y / 2) (4 * u) mx my w) as UN. cbv zeta in UN. rewrite H2 in UN. specialize (UN ltac:(unfold H in *; lra) ltac:(lra) MX MY UW). destruct UN as (UX & UY & UZ). fold H in UX, UY. replace (X / 2 / H) with (X / N) in UX by (unfold H; field; lra). replace (Y / 2 / H) with (Y / N) in UY by (unfold H; field; lra).
  unfold sqrt. set (S := fsub (l_square L r) (l_square L h)). destruct (Qcltb S zero) eqn:SZ; [discriminate|]. apply q_ge in SZ. rewrite q_zero in SZ. cbn [bind]. intros E. injection E as <- <-. pose proof (ii u i U I) as II. assert (UH0 : 0 <= u * H) by (apply Rmult_le_pos; lra). assert (UU : u * (u * H) <= / 1000000 * (u * H)) by (apply Rmult_le_compat_r; lra).
  assert (Un : u * n <= u * (H + 21 / 10 * (4 * u) * H)) by (apply Rmult_le_compat_l; lra). assert (HN : H - 21 * u * H <= q h <= H + 21 * u * H) by lra. assert (HP' : 0 < q h) by lra. assert (RP : 0 < q r) by lra. assert (IR : i <= q r) by (unfold H in *; lra).
  assert (RR : 0 < q r * q r) by (apply Rmult_lt_0_compat; auto). assert (IRR : i * i <= q r * q r) by (apply Rmult_le_compat; lra). assert (HHR : q h * q h <= q r * q r) by (apply Rmult_le_compat; lra).
  (* S = r^2 - h^2 *)
  assert (SN : Rabs (q S - (q r * q r - q h * q h)) <= 7 * u * (q r * q r)).
  { pose proof (near_square _ _ _ _ C r) as A. pose proof (near_square _ _ _ _ C h) as A'. unfold off in A, A'. rewrite (Rabs_right (q r * q r)) in A by lra. rewrite (Rabs_right (q h * q h)) in A' by (apply Rle_ge, Rle_0_sqr). pose proof (f_sub_near L u i C U _ _ _ _ _ _ A A') as F. fold S in F. apply Rle_trans with (1 := F).
    assert (HH0 : 0 <= q h * q h) by apply Rle_0_sqr. rewrite (Rabs_right (q r * q r - q h * q h)) by lra. set (R := q r * q r) in *. set (k := i * i) in *. set (hh := q h * q h) in *. assert (X1 : u * (R + k) + u * (hh + k) <= 4 * u * R). { replace (4 * u * R) with (u * (4 * R)) by ring. rewrite <- Rmult_plus_distr_l. apply Rmult_le_compat_l; lra. }
    assert (X2 : (1 + u) * (u * (R + k) + u * (hh + k)) <= (1 + u) * (4 * u * R)) by (apply Rmult_le_compat_l; lra). assert (X3 : u * (R - hh + k) <= u * (2 * R)) by (apply Rmult_le_compat_l; lra). assert (X4 : u * (u * R) <= / 1000000 * (u * R)) by (apply Rmult_le_compat_r; [apply Rmult_le_pos; lra|lra]). assert (0 <= u * R) by (apply Rmult_le_pos; lra). lra. }
  pose proof (near_sqrt _ _ _ _ C S SZ) as SQ. unfold off in SQ. pose proof (sqrt_pos (q S)) as TP. pose proof (sqrt_sqrt (q S) SZ) as TT. set (t := R_sqrt.sqrt (q S)) in *. rewrite (Rabs_right t) in SQ by lra. set (s := q (l_sqrt L S)) in *.
  assert (UR : u * (q r * q r) <= / 1000000 * (q r * q r)) by (apply Rmult_le_compat_r; lra). apply ab in SN. assert (HH1 : 0 <= q h * q h) by apply Rle_0_sqr. assert (TR : t <= 101 / 100 * q r). { apply sq_le; [lra|]. rewrite TT. replace (101 / 100 * q r * (101 / 100 * q r)) with (101 / 100 * (101 / 100) * (q r * q r)) by ring. lra. }
  assert (UT : 0 <= u * t <= / 1000000 * t) by (split; [apply Rmult_le_pos; lra|apply Rmult_le_compat_r; lra]). assert (UI : 0 <= u * (i * i) <= / 1000000 * (u * i)). { split; [apply Rmult_le_pos; lra|]. replace (/ 1000000 * (u * i)) with (u * (/ 1000000 * i)) by ring. apply Rmult_le_compat_l; lra. } assert (UI2 : 0 <= u * i <= / 1000000 * i) by (split; [apply Rmult_le_pos; lra|apply Rmult_le_compat_r; lra]). apply ab in SQ.
  assert (SB : - (u * i) <= s <= 103 / 100 * q r) by lra. 
  assert (SSQ : Rabs (s * s - q S) <= 4 * u * (q r * q r)).
  { rewrite <- TT. replace (s * s - t * t) with ((s - t) * (s + t)) by ring. rewrite Rabs_mult. assert (A1 : Rabs (s - t) <= u * (t + i * i)) by (apply ab; lra). assert (A2 : Rabs (s + t) <= 205 / 100 * q r) by (apply ab; lra). apply Rle_trans with (u * (t + i * i) * (205 / 100 * q r)); [apply Rmult_le_compat; auto; apply ab_pos|].
    replace (4 * u * (q r * q r)) with (u * (4 / (205 / 100) * q r) * (205 / 100 * q r)) by field. apply Rmult_le_compat_r; [lra|]. apply Rmult_le_compat_l; [lra|]. lra. }
  assert (HQ : Rabs (q h * q h - H * H) <= 43 * u * (H * H)). { replace (q h * q h - H * H) with ((q h - H) * (q h + H)) by ring. rewrite Rabs_mult. assert (A1 : Rabs (q h - H) <= 21 * u * H) by (apply ab; lra). assert (A2 : Rabs (q h + H) <= 201 / 100 * H) by (apply ab; lra). apply Rle_trans with (21 * u * H * (201 / 100 * H)); [apply Rmult_le_compat; auto; apply ab_pos|]. replace (21 * u * H * (201 / 100 * H)) with (21 * (201 / 100) * (u * (H * H))) by ring. replace (43 * u * (H * H)) with (43 * (u * (H * H))) by ring. apply Rmult_le_compat_r; [|lra]. apply Rmult_le_pos; [lra|apply Rle_0_sqr]. }
  assert (HR : H <= (1 + 30 * u) * q r). { assert (UR2 : 0 <= u * q r <= / 1000000 * q r) by (split; [apply Rmult_le_pos; lra|apply Rmult_le_compat_r; lra]). assert (u * H <= u * (101 / 100 * q r)) by (apply Rmult_le_compat_l; lra). lra. }
  assert (HH2 : H * H <= 101 / 100 * (101 / 100) * (q r * q r)). { replace (101 / 100 * (101 / 100) * (q r * q r)) with ((101 / 100 * q r) * (101 / 100 * q r)) by ring. assert (0 <= u * q r <= / 1000000 * q r) by (split; [apply Rmult_le_pos; lra|apply Rmult_le_compat_r; lra]). apply Rmult_le_compat; lra. }
  exists s. split; [|split; [lra|]].
  { assert (UHH : u * (H * H) <= u * (101 / 100 * (101 / 100) * (q r * q r))) by (apply Rmult_le_compat_l; lra). assert (0 <= u * (q r * q r)) by (apply Rmult_le_pos; lra). apply ab in SSQ. apply ab in HQ. apply ab. lra. }
  split; [auto|]. cbn [fx fy fz]. split; [reflexivity|]. unfold scale3, cross3. cbn [fx fy fz]. rewrite UZ, !(mul_0r acc). split; [rewrite (sub_self acc); apply (mul_0l acc)|]. split; [exact MX|]. split; [exact MY|].
  (* the way to the centre *)
  assert (XN : Rabs (X / N) <= 1 /\ Rabs (Y / N) <= 1).
  { assert (NP : 0 < N) by (unfold H in HP; lra). assert (G : forall z, Rabs z <= N -> Rabs (z / N) <= 1) by (intros z ZN; unfold Rdiv; rewrite Rabs_mult, (Rabs_right (/ N)) by (apply Rle_ge; left; apply Rinv_0_lt_compat; auto); apply Rmult_le_reg_r with N; auto; rewrite Rmult_assoc, Rinv_l by lra; lra). split; apply G; [apply len_x|apply len_y]. }
  assert (IS : i * i <= / 1000000 * i) by lra. assert (ONE : Rabs (q one - 1) <= 0) by (rewrite q_one, Rminus_diag_eq, Rabs_R0 by auto; lra). assert (ZERO : Rabs (q zero - 0) <= 0) by (rewrite q_zero, Rminus_0_r, Rabs_R0; lra). assert (UU1 : u * u <= / 1000000 * u) by (apply Rmult_le_compat_r; lra). assert (UII : 0 <= u * (i * i) <= / 1000000 * u) by (split; [apply Rmult_le_pos; lra|rewrite Rmult_comm; apply Rmult_le_compat_r; lra]). assert (UUI : u * (u * (i * i)) <= / 1000000 * u) by (apply Rle_trans with (1 * (u * (i * i))); [apply Rmult_le_compat_r; lra|lra]). assert (UUU : u * (u * u) <= / 1000000 * u) by (pose proof (uu u U); apply Rle_trans with (1 * (u * u)); [apply Rmult_le_compat_r; lra|lra]).
  assert (SELF : Rabs (s - s) <= 0) by (rewrite Rminus_diag_eq, Rabs_R0 by auto; lra). assert (SA : Rabs s <= 103 / 100 * q r) by (apply ab; lra). assert (US : u * Rabs s <= u * (103 / 100 * q r)) by (apply Rmult_le_compat_l; lra). assert (UI3 : u * (i * i) <= / 1000000 * (u * q r)). { replace (/ 1000000 * (u * q r)) with (u * (/ 1000000 * q r)) by ring. apply Rmult_le_compat_l; lra. }
  assert (COMP : forall z Z, Rabs (z - Z) <= 34 * u -> Rabs Z <= 1 -> forall k, q k = z -> Rabs (q (fmul k (l_sqrt L S)) - Z * s) <= 41 * u * q r).
  { intros z Z HZ Z1 k <-. pose proof (f_mul_near L u i C U _ _ _ _ _ _ HZ SELF) as F. fold s in F. apply Rle_trans with (1 := F). assert (US0 : 0 <= u * Rabs s) by (apply Rmult_le_pos; [lra|apply ab_pos]). assert (A1 : u * (u * Rabs s) <= / 1000000 * (u * Rabs s)) by (apply Rmult_le_compat_r; lra). assert (A2 : u * (Rabs Z * Rabs s) <= u * Rabs s). { apply Rmult_le_compat_l; [lra|]. replace (Rabs s) with (1 * Rabs s) at 2 by ring. apply Rmult_le_compat_r; [apply ab_pos|auto]. } assert (0 <= u * q r) by (apply Rmult_le_pos; lra). lra. }
  split.
  - eapply COMP; [|exact (proj2 XN)|reflexivity]. pose proof (f_mul_near L u i C U _ _ _ _ _ _ UY ONE) as F1. rewrite Rmult_1_r, (Rabs_right 1) in F1 by lra. pose proof (f_sub_near L u i C U _ _ _ _ _ _ F1 ZERO) as F2. rewrite Rminus_0_r in F2. apply Rle_trans with (1 := F2). set (y := Rabs (Y / N)) in *. assert (Y1 : u * y <= u * 1) by (apply Rmult_le_compat_l; lra). assert (u * (u * y) <= u * (u * 1)) by (apply Rmult_le_compat_l; lra). assert (u * (u * (u * y)) <= u * (u * (u * 1))) by (do 2 (apply Rmult_le_compat_l; [lra|]); auto). lra.
  - assert (UX' : Rabs (q (- fx w)%Qc - - (X / N)) <= 15 * u + 4 * (4 * u)) by (rewrite q_opp; replace (- q (fx w) - - (X / N)) with (- (q (fx w) - X / N)) by ring; rewrite Rabs_Ropp; auto). assert (XN' : Rabs (- (X / N)) <= 1) by (rewrite Rabs_Ropp; tauto).
    eapply COMP; [|exact XN'|reflexivity]. pose proof (f_mul_near L u i C U _ _ _ _ _ _ UX' ONE) as F1. rewrite Rmult_1_r, (Rabs_right 1) in F1 by lra. pose proof (f_add_near L u i C U _ _ _ _ _ _ F1 ZERO) as F2. rewrite Rplus_0_r in F2. apply Rle_trans with (1 := F2). set (y := Rabs (- (X / N))) in *. assert (Y1 : u * y <= u * 1) by (apply Rmult_le_compat_l; lra). assert (u * (u * y) <= u * (u * 1)) by (apply Rmult_le_compat_l; lra). assert (u * (u * (u * y)) <= u * (u * (u * 1))) by (do 2 (apply Rmult_le_compat_l; [lra|]); auto). lra.
Qed.
End Laws.
