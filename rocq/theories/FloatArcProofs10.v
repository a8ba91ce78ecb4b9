(** Lemmas for C95: the angle of an arc. *)
From Coq Require Import List Bool ZArith QArith Qcanon Qabs Qreals Reals Machin Lia Lra Psatz.
From Verif Require Import Base Num Words GTable GCode Position Machine Transform BaseFacts NumFacts WordOrder PrintSpec PrintProofs PosProofs ArithSpec Float64 DrillProofs Arc ArcSpec ArcProofs2.
From Verif Require Import FloatArc FloatArcSpec FloatArcSpec3 FloatArcProofs FloatArcProofs5 FloatArcProofs6 FloatArcProofs7 FloatArcProofs9.
Import ListNotations.
Open Scope R_scope.
Lemma pi_bounds : 3 <= PI <= 315 / 100.
Proof. pose proof PI2_3_2. pose proof (PI_2_3_7_ineq 3) as [_ B]. unfold tg_alt, PI_2_3_7_tg, Ratan_seq in B. cbn in B. lra. Qed.

Section Laws.
Context {ar : Arith} (L : mathlib) (u i : R) (C : close_to_real ar L u i) (U : 0 < u <= / 1000000) (I : 0 < i <= u) (LW : lawful L) (acc : accurate ar) (ID : idempotent ar).
Notation q := Qc2R.
Notation up := (FV zero zero one).
Notation XY := GCodeSelectXYPlane.
(** the direction of a point seen from the centre *)
Lemma atan_near p c : let X := q (fx p) - q (fx c) in let Y := q (fy p) - q (fy c) in let N := len X Y in fz p = zero -> fz c = zero -> 100 * u <= N ->
  let w := l_plane L XY (sub3 p c) in exists th, - PI <= th <= PI /\ Rabs (q (l_atan2 L (fy w) (fx w)) - th) <= u /\ Rabs (cos th - X / N) <= 10 * u /\ Rabs (sin th - Y / N) <= 10 * u.
Proof.
  cbv zeta. intros ZP ZC NB. pose proof (f_sub L u i C (fx p) (fx c)) as SX. pose proof (f_sub L u i C (fy p) (fy c)) as SY. set (X := q (fx p) - q (fx c)) in *. set (Y := q (fy p) - q (fy c)) in *. pose proof (len_x X Y) as LX. pose proof (len_y X Y) as LY. set (N := len X Y) in *.
  pose proof (ii u i U I) as II. assert (IN : i * i <= / 1000 * N) by lra. assert (NP : 0 < N) by lra. assert (UN : 0 < u * N) by (apply Rmult_lt_0_compat; lra).
  assert (SB : forall z s, Rabs z <= N -> Rabs (s - z) <= u * (Rabs z + i * i) -> Rabs (s - z) <= 1001 / 1000 * (u * N)). { intros z s ZN H. apply Rle_trans with (1 := H). replace (1001 / 1000 * (u * N)) with (u * (1001 / 1000 * N)) by ring. apply Rmult_le_compat_l; lra. }
  pose proof (SB _ _ LX SX) as VX. pose proof (SB _ _ LY SY) as VY. set (v := sub3 p c) in *. assert (ZV : fz v = zero) by (unfold v, sub3; cbn [fz]; rewrite ZP, ZC; apply (sub_self acc)). change (fsub (fx p) (fx c)) with (fx v) in VX. change (fsub (fy p) (fy c)) with (fy v) in VY.
  assert (UU : u * N <= / 1000000 * N) by (apply Rmult_le_compat_r; lra). assert (SZ : size v <= 201 / 100 * N). { unfold size. rewrite ZV, q_zero, Rabs_R0. assert (K : forall z s, Rabs z <= N -> Rabs (s - z) <= 1001 / 1000 * (u * N) -> Rabs s <= 1002 / 1000 * N) by (intros z s A B; apply ab in A, B; apply ab; lra). pose proof (K _ _ LX VX). pose proof (K _ _ LY VY). lra. }
  destruct (near_plane _ _ _ _ C v) as (WX & WY & _). set (w := l_plane L XY v) in *. assert (UB : u * (size v + i * i) <= 202 / 100 * (u * N)). { replace (202 / 100 * (u * N)) with (u * (202 / 100 * N)) by ring. apply Rmult_le_compat_l; lra. }
  assert (WX' : Rabs (q (fx w) - X) <= 31 / 10 * u * N) by (apply ab in WX, VX; apply ab; lra). assert (WY' : Rabs (q (fy w) - Y) <= 31 / 10 * u * N) by (apply ab in WY, VY; apply ab; lra).
  destruct (near_atan2 _ _ _ _ C (fy w) (fx w)) as (th & TB & (CT & ST) & TA). cbv zeta in CT, ST. fold (len (q (fx w)) (q (fy w))) in CT, ST. set (d := len (q (fx w)) (q (fy w))) in *.
  assert (DN : Rabs (d - N) <= 62 / 10 * u * N). { replace (62 / 10 * u * N) with (31 / 10 * u * N + 31 / 10 * u * N) by lra. apply len_diff; auto. }
  assert (DP : 0 < d) by (apply ab in DN; lra). exists th. split; auto. split; auto.
  assert (CE : cos th = q (fx w) / d) by (rewrite CT; field; lra). assert (SE : sin th = q (fy w) / d) by (rewrite ST; field; lra). rewrite CE, SE. split.
  - eapply Rle_trans; [apply (ratio_near _ _ N d (31 / 10 * u) (62 / 10 * u)); auto; lra|lra].
  - eapply Rle_trans; [apply (ratio_near _ _ N d (31 / 10 * u) (62 / 10 * u)); auto; lra|lra].
Qed.
(** a full turn *)
Lemma full_near : Rabs (q (fmul (Q2Qc 2) (l_pi L)) - 2 * PI) <= 84 / 10 * u.
Proof.
  pose proof (near_pi _ _ _ _ C) as P. pose proof (f_mul L u i C (Q2Qc 2) (l_pi L)) as M. rewrite q_two in M. pose proof pi_bounds as B. pose proof (ii u i U I) as II. apply ab in P. assert (T : Rabs (2 * q (l_pi L)) <= 631 / 100) by (apply ab; lra). assert (u * (Rabs (2 * q (l_pi L)) + i * i) <= u * (635 / 100)) by (apply Rmult_le_compat_l; lra). apply ab in M. apply ab. lra.
Qed.
(** the remainder: [a], [b] near to two angles *)
Lemma turn_near a b ta tb : - PI <= ta <= PI -> - PI <= tb <= PI -> Rabs (q a - ta) <= u -> Rabs (q b - tb) <= u ->
  let phi := q (l_mod L (fsub a b) (fmul (Q2Qc 2) (l_pi L))) in 0 <= phi <= 2 * PI + 9 * u /\ exists k : Z, Rabs (phi - (ta - tb - IZR k * (2 * PI))) <= 36 * u.
Proof.
  intros BA BB NA NB. cbv zeta. pose proof full_near as F. pose proof pi_bounds as PB. set (rt := fmul (Q2Qc 2) (l_pi L)) in *. pose proof (proj1 (ab _ _) F) as F'. pose proof (ii u i U I) as II.
  pose proof (f_sub_near L u i C U _ _ _ _ _ _ NA NB) as S. assert (T : Rabs (ta - tb) <= 63 / 10) by (apply ab; lra). assert (S' : Rabs (q (fsub a b) - (ta - tb)) <= 84 / 10 * u). { apply Rle_trans with (1 := S). assert (u * (Rabs (ta - tb) + i * i) <= u * (631 / 100)) by (apply Rmult_le_compat_l; lra). pose proof (uu u U). lra. }
  destruct (near_mod _ _ _ _ C (fsub a b) rt ltac:(lra)) as (MB & k & MK). set (phi := q (l_mod L (fsub a b) rt)) in *. split; [lra|]. exists k. apply ab in S', MK, T.
  assert (UR : u * q rt <= 631 / 100 * u). { replace (631 / 100 * u) with (u * (631 / 100)) by ring. apply Rmult_le_compat_l; lra. }
  assert (KB : Rabs (IZR k) <= 211 / 100). { assert (KR : - (1261 / 100) <= IZR k * q rt <= 1261 / 100 + / 1000) by lra. apply ab. split; apply Rmult_le_reg_r with (q rt); lra. }
  assert (KE : Rabs (IZR k * (q rt - 2 * PI)) <= 178 / 10 * u). { rewrite Rabs_mult. apply Rle_trans with (211 / 100 * (84 / 10 * u)); [apply Rmult_le_compat; auto using ab_pos|lra]. }
  apply ab in KE. apply ab. lra.
Qed.
(** ** the angle of an arc *)
Lemma angle_near cw p p' c : let X := q (fx p) - q (fx c) in let Y := q (fy p) - q (fy c) in let N := len X Y in let X' := q (fx p') - q (fx c) in let Y' := q (fy p') - q (fy c) in let N' := len X' Y' in
  fz p = zero -> fz p' = zero -> fz c = zero -> 100 * u <= N -> 100 * u <= N' ->
  let T := q (angle_of L cw XY (sub3 p c) (sub3 p' c)) in exists phi, 0 <= phi <= 2 * PI + 9 * u /\ T = (if cw then phi else - phi) /\ Rabs (rx (X / N) (Y / N) T - X' / N') <= 70 * u /\ Rabs (ry (X / N) (Y / N) T - Y' / N') <= 70 * u.
Proof.
  cbv zeta. intros ZP ZP' ZC NB NB'. destruct (atan_near p c ZP ZC NB) as (t1 & B1 & A1 & C1 & S1). destruct (atan_near p' c ZP' ZC NB') as (t2 & B2 & A2 & C2 & S2).
  set (X := q (fx p) - q (fx c)) in *. set (Y := q (fy p) - q (fy c)) in *. set (N := len X Y) in *. set (X' := q (fx p') - q (fx c)) in *. set (Y' := q (fy p') - q (fy c)) in *. set (N' := len X' Y') in *. unfold angle_of.
  set (a1 := l_atan2 L (fy (l_plane L XY (sub3 p c))) (fx (l_plane L XY (sub3 p c)))) in *. set (a2 := l_atan2 L (fy (l_plane L XY (sub3 p' c))) (fx (l_plane L XY (sub3 p' c)))) in *.
  assert (G : forall T (k : Z), Rabs (T - (t1 - t2 - IZR k * (2 * PI))) <= 36 * u -> Rabs (rx (X / N) (Y / N) T - X' / N') <= 70 * u /\ Rabs (ry (X / N) (Y / N) T - Y' / N') <= 70 * u).
  { intros T k H. destruct (rot_vec (cos t1) (sin t1) (X / N) (Y / N) T (10 * u)) as [VX VY]; [rewrite <- Rabs_Ropp; replace (- (X / N - cos t1)) with (cos t1 - X / N) by ring; auto|rewrite <- Rabs_Ropp; replace (- (Y / N - sin t1)) with (sin t1 - Y / N) by ring; auto|].
    assert (RX : rx (cos t1) (sin t1) T = cos (t1 - T)) by (unfold rx; rewrite cos_minus; ring). assert (RY : ry (cos t1) (sin t1) T = sin (t1 - T)) by (unfold ry; rewrite sin_minus; ring). rewrite RX in VX. rewrite RY in VY.
    pose proof (cos_close (t1 - T) (t2 + 2 * PI * IZR k)) as CC. pose proof (sin_close (t1 - T) (t2 + 2 * PI * IZR k)) as SC. rewrite (cos_Z t2 k) in CC. rewrite (sin_Z t2 k) in SC. assert (D : Rabs (t1 - T - (t2 + 2 * PI * IZR k)) <= 36 * u). { rewrite <- Rabs_Ropp. replace (- (t1 - T - (t2 + 2 * PI * IZR k))) with (T - (t1 - t2 - IZR k * (2 * PI))) by ring. auto. }
    assert (CC' : Rabs (cos (t1 - T) - cos t2) <= 36 * u) by lra. assert (SC' : Rabs (sin (t1 - T) - sin t2) <= 36 * u) by lra. apply ab in VX, VY, CC', SC', C2, S2. split; apply ab; lra. }
  destruct cw.
  - destruct (turn_near a1 a2 t1 t2 B1 B2 A1 A2) as (PB & k & K). exists (q (l_mod L (fsub a1 a2) (fmul (Q2Qc 2) (l_pi L)))). split; auto. split; auto. apply (G _ k). exact K.
  - destruct (turn_near a2 a1 t2 t1 B2 B1 A2 A1) as (PB & k & K). exists (q (l_mod L (fsub a2 a1) (fmul (Q2Qc 2) (l_pi L)))). split; auto. rewrite q_opp. split; auto. apply (G _ (- k)%Z). rewrite opp_IZR. apply ab in K. apply ab. lra.
Qed.
End Laws.
