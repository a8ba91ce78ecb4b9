(** Lemmas for C95: the number of lines, and the radius of their ends. *)
From Coq Require Import List Bool ZArith QArith Qcanon Qabs Qround Qreals Reals Lia Lra Psatz.
From Verif Require Import Base Num Words GTable GCode Position Machine Transform BaseFacts NumFacts WordOrder PrintSpec PrintProofs PosProofs ArithSpec Float64 DrillProofs Arc ArcSpec ArcProofs2.
From Verif Require Import FloatArc FloatArcSpec FloatArcSpec3 FloatArcProofs FloatArcProofs5 FloatArcProofs6 FloatArcProofs7 FloatArcProofs9 FloatArcProofs10.
Import ListNotations.
Open Scope R_scope.
Lemma abs_near z a d : 0 <= a -> Rabs (z - a) <= d -> Rabs (Rabs z - a) <= d.
Proof. intros A H. unfold Rabs at 2. destruct (Rcase_abs z); auto. apply ab in H. apply ab. lra. Qed.

Section Laws.
Context {ar : Arith} (L : mathlib) (u i : R) (C : close_to_real ar L u i) (U : 0 < u <= / 1000000) (I : 0 < i <= u) (LW : lawful L) (acc : accurate ar) (ID : idempotent ar).
Notation q := Qc2R.
(** a quotient *)
Lemma quot_near s t S D a b : 0 < D -> Rabs S <= D -> Rabs (q s - S) <= a * D -> Rabs (q t - D) <= b * D -> 0 <= a <= 10 * u -> 0 <= b <= 10 * u -> Rabs (q (fdiv s t) - S / D) <= 102 / 100 * (a + b) + 105 / 100 * u.
Proof.
  intros P SD HS HT A B. assert (BD : b * D <= / 100000 * D) by (apply Rmult_le_compat_r; lra). assert (TP : 0 < q t) by (apply ab in HT; lra). pose proof (ratio_near (q s) S D (q t) a b P TP HS HT SD ltac:(lra) ltac:(lra)) as N. pose proof (f_div L u i C s t ltac:(lra)) as F. pose proof (ii u i U I) as II.
  assert (SB : Rabs (S / D) <= 1). { unfold Rdiv. rewrite Rabs_mult, (Rabs_right (/ D)) by (apply Rle_ge; left; apply Rinv_0_lt_compat; auto). apply Rmult_le_reg_r with D; auto. rewrite Rmult_assoc, Rinv_l by lra. lra. }
  apply ab in N, SB. assert (QB : Rabs (q s / q t) <= 101 / 100) by (apply ab; lra). assert (u * (Rabs (q s / q t) + i * i) <= u * (105 / 100)) by (apply Rmult_le_compat_l; lra). apply ab in F. apply ab. lra.
Qed.
Section Arc.
Context (m : arc_method) (a : farc) (M : R) (M1 : 1 <= M) (RM : q (fa_radius a) <= 101 / 100 * M) (EB : 900 * u * M <= q (fa_error a)) (ER : q (fa_error a) <= q (fa_radius a)).
Notation r := (q (fa_radius a)).
Notation e := (q (fa_error a)).
Notation T := (q (fa_angle a)).
Notation phi := (Rabs (q (fa_angle a))).
Context (PL : 290 * u <= phi) (PH : phi <= 631 / 100).
Lemma uM' : u <= u * M. Proof. assert (u * 1 <= u * M) by (apply Rmult_le_compat_l; lra). lra. Qed.
Lemma rP : 0 < r. Proof. pose proof uM'. lra. Qed.
Lemma eP : 0 < e. Proof. pose proof uM'. lra. Qed.
Lemma iR : i * i <= / 1000 * e. Proof. pose proof (ii u i U I). pose proof uM'. lra. Qed.
Lemma uR : u * r <= 101 / 100 * (u * M). Proof. replace (101 / 100 * (u * M)) with (u * (101 / 100 * M)) by ring. apply Rmult_le_compat_l; lra. Qed.
(** the cosine of half the greatest angle *)
Definition ideal : R := match m with Inside => (r - e) / r | Outside => r / (r + e) | Mid => (r - e / 2) / (r + e / 2) end.
Lemma ideal_low : 0 <= ideal /\ match m with Inside => True | Outside => / 2 <= ideal | Mid => / 3 <= ideal end.
Proof.
  pose proof rP. pose proof eP. assert (G : forall s d k, 0 < d -> k * d <= s -> k <= s / d) by (intros s d k D H'; apply Rmult_le_reg_r with d; auto; unfold Rdiv; rewrite Rmult_assoc, Rinv_l by lra; lra). unfold ideal. destruct m; split; auto; apply G; lra.
Qed.
Lemma ideal_high : ideal <= 1 - 440 * u.
Proof.
  pose proof rP. pose proof eP. assert (G : forall s d, 0 < d -> s <= d - 440 * (u * d) -> s / d <= 1 - 440 * u) by (intros s d D H'; apply Rmult_le_reg_r with d; auto; unfold Rdiv; rewrite Rmult_assoc, Rinv_l by lra; lra).
  assert (UE : u * e <= u * r) by (apply Rmult_le_compat_l; lra). pose proof uR. unfold ideal. destruct m; apply G; lra.
Qed.
Lemma limit_near W : max_wedge L m a = Ok W -> exists x, -1 <= x <= 1 /\ Rabs (x - ideal) <= 5 * u /\ Rabs (q W - 2 * Ratan.acos x) <= 84 / 10 * u.
Proof.
  intros H. pose proof rP as RP. pose proof eP as EP. pose proof iR as IR. pose proof (ii u i U I) as II.
  assert (X : exists x, (do y <- acos L x; Ok (qc_abs (fmul (Q2Qc 2) y))) = Ok W /\ Rabs (q x - ideal) <= 5 * u).
  { unfold max_wedge in H. unfold ideal. destruct m.
    - destruct (div (fsub (fa_radius a) (fa_error a)) (fa_radius a)) as [x|] eqn:D; [|discriminate]. cbn [bind] in H. exists x. split; auto. apply (div_ok) in D. destruct D as [_ ->]. pose proof (f_sub L u i C (fa_radius a) (fa_error a)) as F. rewrite (Rabs_right (r - e)) in F by lra.
      eapply Rle_trans; [apply (quot_near _ _ (r - e) r (1001 / 1000 * u) 0); try lra|lra].
      + apply ab; lra.
      + apply Rle_trans with (1 := F). replace (1001 / 1000 * u * r) with (u * (1001 / 1000 * r)) by ring. apply Rmult_le_compat_l; lra.
      + rewrite Rminus_diag_eq, Rabs_R0; lra.
    - destruct (div (fa_radius a) (fadd (fa_radius a) (fa_error a))) as [x|] eqn:D; [|discriminate]. cbn [bind] in H. exists x. split; auto. apply (div_ok) in D. destruct D as [_ ->]. pose proof (f_add L u i C (fa_radius a) (fa_error a)) as F. rewrite (Rabs_right (r + e)) in F by lra.
      eapply Rle_trans; [apply (quot_near _ _ r (r + e) 0 (1001 / 1000 * u)); try lra|lra].
      + apply ab; lra.
      + rewrite Rminus_diag_eq, Rabs_R0; lra.
      + apply Rle_trans with (1 := F). replace (1001 / 1000 * u * (r + e)) with (u * (1001 / 1000 * (r + e))) by ring. apply Rmult_le_compat_l; lra.
    - set (d := fdiv (fa_error a) (Q2Qc 2)) in *. destruct (div (fsub (fa_radius a) d) (fadd (fa_radius a) d)) as [x|] eqn:D; [|discriminate]. cbn [bind] in H. exists x. split; auto. apply (div_ok) in D. destruct D as [_ ->].
      pose proof (f_div L u i C (fa_error a) (Q2Qc 2) ltac:(rewrite q_two; lra)) as DN. fold d in DN. rewrite q_two in DN. rewrite (Rabs_right (e / 2)) in DN by lra. assert (RN : Rabs (r - r) <= 0) by (rewrite Rminus_diag_eq, Rabs_R0; lra). pose proof (f_sub_near L u i C U _ _ _ _ _ _ RN DN) as FS. pose proof (f_add_near L u i C U _ _ _ _ _ _ RN DN) as FA.
      rewrite (Rabs_right (r - e / 2)) in FS by lra. rewrite (Rabs_right (r + e / 2)) in FA by lra. rewrite Rplus_0_l in FS, FA. assert (UE : u * e <= u * r) by (apply Rmult_le_compat_l; lra). assert (UI : u * (i * i) <= / 1000 * (u * e)) by (replace (/ 1000 * (u * e)) with (u * (/ 1000 * e)) by ring; apply Rmult_le_compat_l; lra). assert (0 < u * e) by (apply Rmult_lt_0_compat; lra). assert (UUE : u * (u * e) <= / 1000000 * (u * e)) by (apply Rmult_le_compat_r; lra). assert (UUI : u * (u * (i * i)) <= / 1000000 * (u * e)). { apply Rle_trans with (u * (/ 1000 * (u * e))); [apply Rmult_le_compat_l; lra|]. replace (u * (/ 1000 * (u * e))) with (/ 1000 * (u * (u * e))) by ring. lra. }
      eapply Rle_trans; [apply (quot_near _ _ (r - e / 2) (r + e / 2) (16 / 10 * u) (16 / 10 * u)); try lra|lra]. apply ab; lra. }
  destruct X as (x & E & XN). unfold acos in E. destruct (Qcltb x (- one)%Qc || Qcltb one x) eqn:B; [discriminate|]. apply orb_false_iff in B. destruct B as [B1 B2]. apply q_ge in B1, B2. rewrite q_opp, q_one in B1. rewrite q_one in B2. cbn [bind] in E. injection E as <-. exists (q x). split; [lra|]. split; auto.
  pose proof (near_acos _ _ _ _ C x ltac:(lra)) as A. pose proof (acos_bound (q x)) as AB. pose proof pi_bounds as PB. pose proof (f_mul L u i C (Q2Qc 2) (l_acos L x)) as F. rewrite q_two in F. apply ab in A. assert (T2 : Rabs (2 * q (l_acos L x)) <= 631 / 100) by (apply ab; lra). assert (u * (Rabs (2 * q (l_acos L x)) + i * i) <= u * (632 / 100)) by (apply Rmult_le_compat_l; lra). rewrite q_abs. apply abs_near; [lra|]. apply ab in F. apply ab. lra.
Qed.
(** ** the number of lines *)
Lemma count_near n : wedges_of L m a = Ok n -> (1 <= n)%Z /\ u * IZR n <= / 50 /\ exists x, -1 <= x <= 1 /\ Rabs (x - ideal) <= 5 * u /\ phi / IZR n / 2 <= Ratan.acos x + 8 * u.
Proof.
  unfold wedges_of. destruct (max_wedge L m a) as [W|] eqn:EW; [|discriminate]. cbn [bind]. destruct (div (qc_abs (fa_angle a)) W) as [z|] eqn:ED; [|discriminate]. cbn [bind]. intros E. injection E as <-. apply div_ok in ED. destruct ED as [_ ->]. destruct (limit_near W EW) as (x & XB & XN & WN). pose proof ideal_high as IH. pose proof (proj1 (ab _ _) XN) as XN'. pose proof (proj1 (ab _ _) WN) as WN'. pose proof (acos_bound x) as AB. pose proof pi_bounds as PB. pose proof (ii u i U I) as II.
  assert (AL : 1 - x <= Ratan.acos x). { pose proof (cos_close (Ratan.acos x) 0) as CC. rewrite cos_0, cos_acos, Rminus_0_r in CC by lra. rewrite (Rabs_right (Ratan.acos x)) in CC by lra. apply ab in CC. lra. }
  assert (WL : 860 * u <= q W) by lra. assert (WP : 0 < q W) by lra. pose proof (f_div L u i C (qc_abs (fa_angle a)) W ltac:(lra)) as F. rewrite q_abs in F. set (Q := fdiv (qc_abs (fa_angle a)) W) in *. assert (IW : 0 < / q W) by (apply Rinv_0_lt_compat; auto). assert (QP : 0 <= phi / q W) by (apply Rmult_le_pos; [apply ab_pos|lra]). rewrite (Rabs_right (phi / q W)) in F by lra. apply ab in F.
  assert (N1 : q Q <= IZR (Qceiling (this Q))). { pose proof (Qle_Rle _ _ (Qle_ceiling (this Q))) as H. replace (Q2R (inject_Z (Qceiling (this Q)))) with (IZR (Qceiling (this Q))) in H; auto. unfold Q2R, inject_Z. cbn. field. }
  assert (N2 : IZR (Qceiling (this Q)) < q Q + 1). { pose proof (Qlt_Rlt _ _ (Qceiling_lt (this Q))) as H. replace (Q2R (inject_Z (Qceiling (this Q) - 1))) with (IZR (Qceiling (this Q)) - 1) in H; [|unfold Q2R, inject_Z; rewrite <- minus_IZR; cbn [Qnum Qden]; rewrite Rinv_1; ring]. unfold Qc2R. lra. }
  set (n := Qceiling (this Q)) in *. assert (QW : phi / q W * q W = phi) by (field; lra). assert (UQ : u * (phi / q W) <= 75 / 10000). { apply Rmult_le_reg_r with (q W); auto. rewrite Rmult_assoc, QW. apply Rle_trans with (u * (631 / 100)); [apply Rmult_le_compat_l; lra|]. lra. }
  assert (WH : q W <= 631 / 100) by lra. assert (QL : 45 * u <= phi / q W). { apply Rmult_le_reg_r with (q W); auto. rewrite QW. apply Rle_trans with (45 * u * (631 / 100)); [apply Rmult_le_compat_l; lra|lra]. }
  assert (UUQ : u * (phi / q W) <= / 1000000 * (phi / q W)) by (apply Rmult_le_compat_r; lra). assert (UI : 0 <= u * (i * i) <= u * / 1000000) by (split; [apply Rmult_le_pos; lra|apply Rmult_le_compat_l; lra]). assert (NP : 0 < IZR n) by lra.
  assert (n1 : (1 <= n)%Z) by (apply lt_IZR in NP; lia). assert (N1' : 1 <= IZR n) by (apply (IZR_le 1); auto). split; auto. split. { assert (u * IZR n <= u * (phi / q W + 101 / 100)) by (apply Rmult_le_compat_l; lra). lra. }
  exists x. split; auto. split; auto. assert (K : IZR n * q W >= phi - u * phi - u * (i * i) * q W). { assert (IZR n * q W >= (phi / q W - u * (phi / q W + i * i)) * q W) by (apply Rle_ge, Rmult_le_compat_r; lra). replace ((phi / q W - u * (phi / q W + i * i)) * q W) with (phi / q W * q W - u * (phi / q W * q W) - u * (i * i) * q W) in H by ring. rewrite QW in H. lra. }
  assert (UP : u * phi <= u * (631 / 100)) by (apply Rmult_le_compat_l; lra). assert (UIW : u * (i * i) * q W <= u * / 1000000 * (631 / 100)) by (apply Rmult_le_compat; lra). assert (G : phi <= IZR n * (q W + 7 * u)). { assert (7 * u <= IZR n * (7 * u)) by (rewrite <- (Rmult_1_l (7 * u)) at 1; apply Rmult_le_compat_r; lra). lra. }
  assert (phi / IZR n <= q W + 7 * u) by (apply Rmult_le_reg_r with (IZR n); auto; unfold Rdiv; rewrite Rmult_assoc, Rinv_l by lra; lra). lra.
Qed.
Section Count.
Context (n : Z) (EN : wedges_of L m a = Ok n).
Notation D := (T / IZR n).
Notation delta := (phi / IZR n).
Definition hh : R := cos (delta / 2).
Lemma n_pos : 1 <= IZR n. Proof. apply (IZR_le 1). apply count_near; auto. Qed.
Lemma abs_D : Rabs D = delta.
Proof. pose proof n_pos. unfold Rdiv. rewrite Rabs_mult, (Rabs_right (/ IZR n)); auto. apply Rle_ge. left. apply Rinv_0_lt_compat. lra. Qed.
Lemma delta_pos : 0 < delta. Proof. pose proof n_pos. apply Rmult_lt_0_compat; [lra|apply Rinv_0_lt_compat; lra]. Qed.
Lemma delta_phi : delta * IZR n = phi. Proof. pose proof n_pos. field. lra. Qed.
Lemma delta_le : delta <= phi. Proof. pose proof n_pos. pose proof delta_pos. rewrite <- delta_phi at 2. rewrite <- (Rmult_1_r delta) at 1. apply Rmult_le_compat_l; lra. Qed.
Lemma tiny : u * (i * i) <= / 1000 * (u * delta).
Proof.
  destruct (count_near n EN) as (_ & N & _). pose proof n_pos. pose proof delta_pos. apply Rmult_le_reg_r with (IZR n); [lra|]. replace (/ 1000 * (u * delta) * IZR n) with (/ 1000 * (u * (delta * IZR n))) by ring. rewrite delta_phi. replace (u * (i * i) * IZR n) with (u * IZR n * (i * i)) by ring. pose proof (ii u i U I) as II.
  apply Rle_trans with (/ 50 * (i * i)); [apply Rmult_le_compat_r; lra|]. assert (i * i <= u * u) by (apply Rmult_le_compat; lra). assert (u * (290 * u) <= u * phi) by (apply Rmult_le_compat_l; lra). lra.
Qed.
Lemma cos_low : ideal - 13 * u <= hh <= 1.
Proof.
  destruct (count_near n EN) as (_ & _ & x & XB & XN & DX). fold (IZR n) in DX. unfold hh. split; [|apply COS_bound]. pose proof delta_pos as DP. pose proof (acos_bound x) as AB. apply ab in XN. assert (cos (delta / 2) >= x - 8 * u); [|lra]. destruct (Rle_dec (delta / 2) (Ratan.acos x)) as [G|G].
  - pose proof (cos_decr_1 (delta / 2) (Ratan.acos x) ltac:(lra) ltac:(lra) ltac:(lra) ltac:(lra) G) as H. rewrite cos_acos in H by lra. lra.
  - pose proof (cos_close (delta / 2) (Ratan.acos x)) as H. rewrite cos_acos in H by lra. rewrite (Rabs_right (delta / 2 - Ratan.acos x)) in H by lra. apply ab in H. lra.
Qed.
(** away from half a turn *)
Lemma wide : m <> Inside -> delta / 2 <= PI / 2 - / 20.
Proof.
  intros NI. destruct (count_near n EN) as (_ & _ & x & XB & XN & DX). apply ab in XN. assert (X3 : / 4 <= x) by (pose proof ideal_low as [_ H]; destruct (m) eqn:EM; [destruct (NI eq_refl)|lra|lra]). pose proof (acos_bound x) as AB. pose proof pi_bounds as PB. destruct (Rle_dec (Ratan.acos x) (PI / 2 - / 10)) as [G|G]; [lra|exfalso].
  pose proof (cos_decr_1 (PI / 2 - / 10) (Ratan.acos x) ltac:(lra) ltac:(lra) ltac:(lra) ltac:(lra) ltac:(lra)) as H. rewrite cos_acos, cos_shift in H by lra. pose proof (sin_lt_x (/ 10) ltac:(lra)). lra.
Qed.
Section Wedge.
Context (w : Qc) (EW : wedge_of L m a = Ok w).
Lemma wedge_near : Rabs (q w - D) <= 22 / 10 * (u * delta).
Proof.
  pose proof EW as E. unfold wedge_of in E. rewrite EN in E. cbn [bind] in E. apply div_ok in E. destruct E as [_ ->]. pose proof n_pos as NP. pose proof (f_int L u i C n) as F. rewrite (Rabs_right (IZR n)) in F by lra. pose proof (ii u i U I) as II. assert (F' : Rabs (q (float_of_int n) - IZR n) <= 1001 / 1000 * u * IZR n). { apply Rle_trans with (1 := F). replace (1001 / 1000 * u * IZR n) with (u * (1001 / 1000 * IZR n)) by ring. apply Rmult_le_compat_l; lra. }
  set (nf := q (float_of_int n)) in *. assert (UN : u * IZR n <= / 1000000 * IZR n) by (apply Rmult_le_compat_r; lra). pose proof (proj1 (ab _ _) F') as FB. assert (NF : 999 / 1000 * IZR n <= nf) by lra. assert (NFP : 0 < nf) by lra. assert (NZ : q (float_of_int n) <> 0) by (change (nf <> 0); lra). pose proof (f_div L u i C (fa_angle a) (float_of_int n) NZ) as G. fold nf in G.
  assert (EQ : T / nf - D = D * ((IZR n - nf) / nf)) by (field; lra). assert (RB : Rabs ((IZR n - nf) / nf) <= 101 / 100 * u). { unfold Rdiv. rewrite Rabs_mult, (Rabs_right (/ nf)) by (apply Rle_ge; left; apply Rinv_0_lt_compat; auto). apply Rmult_le_reg_r with nf; auto. rewrite Rmult_assoc, Rinv_l, Rmult_1_r by lra. rewrite <- Rabs_Ropp, Ropp_minus_distr. apply Rle_trans with (1 := F'). replace (1001 / 1000 * u * IZR n) with (u * (1001 / 1000 * IZR n)) by ring. replace (101 * / 100 * u * nf) with (u * (101 / 100 * nf)) by field. apply Rmult_le_compat_l; lra. }
  pose proof abs_D as AD. pose proof delta_pos as DP. assert (UDP : 0 < u * delta) by (apply Rmult_lt_0_compat; lra). assert (E1 : Rabs (T / nf - D) <= 101 / 100 * (u * delta)). { rewrite EQ, Rabs_mult, AD. replace (101 / 100 * (u * delta)) with (delta * (101 / 100 * u)) by ring. apply Rmult_le_compat_l; lra. }
  assert (UD : u * delta <= / 1000000 * delta) by (apply Rmult_le_compat_r; lra). assert (E2 : Rabs (T / nf) <= 101 / 100 * delta). { pose proof (Rabs_triang (T / nf - D) D) as H. replace (T / nf - D + D) with (T / nf) in H by ring. rewrite AD in H. lra. }
  assert (E3 : u * (Rabs (T / nf) + i * i) <= 102 / 100 * (u * delta)). { pose proof tiny as TI. rewrite Rmult_plus_distr_l. assert (u * Rabs (T / nf) <= u * (101 / 100 * delta)) by (apply Rmult_le_compat_l; lra). lra. }
  apply ab in G, E1. apply ab. lra.
Qed.
Lemma part_near k : 1 <= k <= 4 -> forall kc, q kc = k -> Rabs (q (fdiv w kc) - D / k) <= 35 / 10 * (u * delta).
Proof.
  intros KB kc KQ. pose proof wedge_near as WN. pose proof (f_div L u i C w kc ltac:(rewrite KQ; lra)) as F. rewrite KQ in F. pose proof abs_D as AD. pose proof delta_pos as DP. assert (IK : 0 < / k <= 1). { split; [apply Rinv_0_lt_compat; lra|]. rewrite <- Rinv_1. apply Rinv_le_contravar; lra. } assert (UDP : 0 < u * delta) by (apply Rmult_lt_0_compat; lra).
  assert (E1 : Rabs (q w / k - D / k) <= 22 / 10 * (u * delta)). { replace (q w / k - D / k) with ((q w - D) * / k) by (unfold Rdiv; ring). rewrite Rabs_mult, (Rabs_right (/ k)) by lra. apply Rle_trans with (22 / 10 * (u * delta) * 1); [apply Rmult_le_compat; auto using ab_pos; lra|lra]. }
  assert (UD : u * delta <= / 1000000 * delta) by (apply Rmult_le_compat_r; lra). assert (E2 : Rabs (q w / k) <= 101 / 100 * delta). { unfold Rdiv. rewrite Rabs_mult, (Rabs_right (/ k)) by lra. pose proof (Rabs_triang (q w - D) D) as H. replace (q w - D + D) with (q w) in H by ring. rewrite AD in H. apply Rle_trans with (Rabs (q w) * 1); [apply Rmult_le_compat_l; [apply ab_pos|lra]|lra]. }
  assert (E3 : u * (Rabs (q w / k) + i * i) <= 102 / 100 * (u * delta)). { pose proof tiny as TI. rewrite Rmult_plus_distr_l. assert (u * Rabs (q w / k) <= u * (101 / 100 * delta)) by (apply Rmult_le_compat_l; lra). lra. }
  apply ab in F, E1. apply ab. lra.
Qed.
(** the angle of a corner *)
Lemma turn_at (j : Z) : (1 <= j <= n)%Z -> Rabs (q (fmul w (float_of_int j)) - D * IZR j) <= 45 / 10 * (u * phi) /\ Rabs (D * IZR j) <= phi.
Proof.
  intros J. assert (J1 : 1 <= IZR j) by (apply (IZR_le 1); lia). assert (JN : IZR j <= IZR n) by (apply IZR_le; lia). pose proof n_pos as NP. pose proof abs_D as AD. pose proof delta_pos as DP. pose proof wedge_near as WN. pose proof (f_int L u i C j) as F. rewrite (Rabs_right (IZR j)) in F by lra. pose proof (ii u i U I) as II.
  assert (F' : Rabs (q (float_of_int j) - IZR j) <= 1001 / 1000 * (u * IZR j)). { apply Rle_trans with (1 := F). replace (1001 / 1000 * (u * IZR j)) with (u * (1001 / 1000 * IZR j)) by ring. apply Rmult_le_compat_l; lra. }
  pose proof (f_mul_near L u i C U _ _ _ _ _ _ WN F') as G. rewrite AD, (Rabs_right (IZR j)) in G by lra. set (x := delta * IZR j) in *. assert (XB : 0 < x <= phi). { unfold x. split; [apply Rmult_lt_0_compat; lra|]. apply Rle_trans with (delta * IZR n); [apply Rmult_le_compat_l; lra|rewrite delta_phi; lra]. }
  split; [|rewrite Rabs_mult, AD, (Rabs_right (IZR j)) by lra; unfold x in XB; lra]. apply Rle_trans with (1 := G). replace (22 / 10 * (u * delta) * IZR j) with (22 / 10 * (u * x)) by (unfold x; ring). replace (delta * (1001 / 1000 * (u * IZR j))) with (1001 / 1000 * (u * x)) by (unfold x; ring). replace (22 / 10 * (u * delta) * (1001 / 1000 * (u * IZR j))) with (22 / 10 * (1001 / 1000) * (u * (u * x))) by (unfold x; ring).
  assert (UX : u * x <= u * phi) by (apply Rmult_le_compat_l; lra). assert (UX0 : 0 < u * x) by (apply Rmult_lt_0_compat; lra). assert (UUX : u * (u * x) <= / 1000000 * (u * x)) by (apply Rmult_le_compat_r; lra). assert (UUUX : u * (u * (u * x)) <= / 1000000 * (u * x)). { apply Rle_trans with (u * (/ 1000000 * (u * x))); [apply Rmult_le_compat_l; lra|]. lra. }
  pose proof tiny as TI. assert (UDX : u * delta <= u * phi) by (apply Rmult_le_compat_l; [lra|apply delta_le]). lra.
Qed.
Lemma turn_half (j : Z) : (1 <= j <= n)%Z -> Rabs (q (fsub (fmul w (float_of_int j)) (fdiv w (Q2Qc 2))) - D * (IZR j - / 2)) <= 10 * (u * phi) /\ Rabs (D * (IZR j - / 2)) <= phi.
Proof.
  intros J. destruct (turn_at j J) as [A B]. pose proof (part_near 2 ltac:(lra) _ q_two) as H. pose proof (f_sub_near L u i C U _ _ _ _ _ _ A H) as G. assert (J1 : 1 <= IZR j) by (apply (IZR_le 1); lia). assert (JN : IZR j <= IZR n) by (apply IZR_le; lia). pose proof n_pos as NP. pose proof abs_D as AD. pose proof delta_pos as DP. pose proof delta_le as DL.
  replace (D * IZR j - D / 2) with (D * (IZR j - / 2)) in G by (field; lra). assert (XB : Rabs (D * (IZR j - / 2)) <= phi). { rewrite Rabs_mult, AD, (Rabs_right (IZR j - / 2)) by lra. apply Rle_trans with (delta * IZR n); [apply Rmult_le_compat_l; lra|rewrite delta_phi; lra]. }
  split; auto. apply Rle_trans with (1 := G). assert (UD : u * delta <= u * phi) by (apply Rmult_le_compat_l; lra). assert (UP0 : 0 < u * phi) by (apply Rmult_lt_0_compat; lra). assert (u * (Rabs (D * (IZR j - / 2)) + i * i) <= u * phi + / 1000 * (u * delta)). { rewrite Rmult_plus_distr_l. assert (u * Rabs (D * (IZR j - / 2)) <= u * phi) by (apply Rmult_le_compat_l; lra). pose proof tiny. lra. }
  assert (u * (u * phi) <= / 1000000 * (u * phi)) by (apply Rmult_le_compat_r; lra). assert (u * (u * delta) <= / 1000000 * (u * phi)). { apply Rle_trans with (u * (u * phi)); [apply Rmult_le_compat_l; lra|lra]. } lra.
Qed.
End Wedge.
(** ** the distance of the corners from the centre *)
Definition reach : R := match m with Inside => r | Outside => r / hh | Mid => 2 * r / (1 + hh) end.
Lemma hh_D : cos (D / 2) = hh.
Proof.
  unfold hh. rewrite <- abs_D. unfold Rabs. destruct (Rcase_abs D); auto. rewrite <- cos_neg. f_equal. field. pose proof n_pos. lra.
Qed.
Lemma hh_low : match m with Inside => - (13 * u) <= hh | Outside => 49 / 100 <= hh | Mid => 33 / 100 <= hh end.
Proof. pose proof cos_low as [A _]. pose proof ideal_low as [B K]. destruct m; lra. Qed.
Lemma outer_near ro : outer_of L m a = Ok ro -> Rabs (q ro - reach) <= 55 * (u * r).
Proof.
  pose proof rP as RP. assert (URP : 0 < u * r) by (apply Rmult_lt_0_compat; lra). pose proof hh_low as HL. pose proof cos_low as [_ HH]. pose proof wide as WD. pose proof n_pos as NP. pose proof hh_D as HD. pose proof abs_D as AD. pose proof delta_pos as DP. pose proof delta_le as DL. assert (UD : u * delta <= u * phi) by (apply Rmult_le_compat_l; lra). assert (UP : u * phi <= u * (631 / 100)) by (apply Rmult_le_compat_l; lra). assert (UDP : 0 < u * delta) by (apply Rmult_lt_0_compat; lra). pose proof pi_bounds as PB. pose proof (ii u i U I) as II. pose proof iR as IR.
  unfold outer_of, reach. case_eq m; intros EM; rewrite EM in HL.
  - intros E. injection E as <-. rewrite Rminus_diag_eq, Rabs_R0; lra.
  - destruct (wedge_of L Outside a) as [w|] eqn:EW; [|discriminate]. cbn [bind]. destruct (div _ _) as [z|] eqn:ED; [|discriminate]. cbn [bind]. intros E. injection E as <-. apply div_ok in ED. destruct ED as [NZ ->]. specialize (WD ltac:(rewrite EM; discriminate)). assert (UD3 : u * delta <= u * (306 / 100)) by (apply Rmult_le_compat_l; lra).
    rewrite <- EM in EW. pose proof (part_near w EW 2 ltac:(lra) _ q_two) as PN. assert (D2 : Rabs (D / 2) <= 2). { unfold Rdiv at 1. rewrite Rabs_mult, AD, (Rabs_right (/ 2)) by lra. lra. } set (hf := fdiv w (Q2Qc 2)) in *. assert (HB : Rabs (q hf) <= 4) by (apply ab in PN, D2; apply ab; lra). pose proof (near_cos _ _ _ _ C hf HB) as CN. pose proof (cos_close (q hf) (D / 2)) as CC. rewrite HD in CC.
    assert (CH : Rabs (q (l_cos L hf) - hh) <= 12 * u) by (apply ab in CN; assert (CC' : Rabs (cos (q hf) - hh) <= 109 / 10 * u) by lra; apply ab in CC'; apply ab; lra). set (c := l_cos L hf) in *. pose proof (proj1 (ab _ _) CH) as CB. assert (CP : 48 / 100 <= q c) by lra. pose proof (f_div L u i C (fa_radius a) c NZ) as F.
    assert (EQ : r / q c - r / hh = r * ((hh - q c) / (q c * hh))) by (field; lra). assert (PP : 235 / 1000 <= q c * hh). { apply Rle_trans with (48 / 100 * (49 / 100)); [lra|]. apply Rmult_le_compat; lra. }
    assert (RB : Rabs ((hh - q c) / (q c * hh)) <= 52 * u). { unfold Rdiv. rewrite Rabs_mult, (Rabs_right (/ (q c * hh))) by (apply Rle_ge; left; apply Rinv_0_lt_compat; lra). apply Rmult_le_reg_r with (q c * hh); [lra|]. rewrite Rmult_assoc, Rinv_l, Rmult_1_r by lra. rewrite <- Rabs_Ropp, Ropp_minus_distr. apply Rle_trans with (1 := CH). assert (52 * u * (235 / 1000) <= 52 * u * (q c * hh)) by (apply Rmult_le_compat_l; lra). lra. }
    assert (E1 : Rabs (r / q c - r / hh) <= 52 * (u * r)). { rewrite EQ, Rabs_mult, (Rabs_right r) by lra. replace (52 * (u * r)) with (r * (52 * u)) by ring. apply Rmult_le_compat_l; lra. }
    assert (RC : 0 <= r / q c <= 21 / 10 * r). { split; [apply Rmult_le_pos; [lra|left; apply Rinv_0_lt_compat; lra]|]. apply Rmult_le_reg_r with (q c); [lra|]. unfold Rdiv. rewrite Rmult_assoc, Rinv_l, Rmult_1_r by lra. assert (21 * / 10 * r * (48 / 100) <= 21 * / 10 * r * q c) by (apply Rmult_le_compat_l; lra). lra. }
    rewrite (Rabs_right (r / q c)) in F by lra. assert (F' : u * (r / q c + i * i) <= 22 / 10 * (u * r)). { replace (22 / 10 * (u * r)) with (u * (22 / 10 * r)) by ring. apply Rmult_le_compat_l; lra. }
    rewrite q_abs. apply abs_near; [apply Rmult_le_pos; [lra|left; apply Rinv_0_lt_compat; lra]|]. apply ab in F, E1. apply ab. lra.
  - destruct (wedge_of L Mid a) as [w|] eqn:EW; [|discriminate]. cbn [bind]. intros E. injection E as <-. specialize (WD ltac:(rewrite EM; discriminate)). assert (UD3 : u * delta <= u * (306 / 100)) by (apply Rmult_le_compat_l; lra). rewrite <- EM in EW. pose proof (part_near w EW 4 ltac:(lra) _ q_four) as PN. assert (PN' : Rabs (q (fdiv w (Q2Qc 4)) - D / 4) <= 108 / 10 * u) by lra. clear PN. set (x := fdiv w (Q2Qc 4)) in *.
    assert (D4 : Rabs (D / 4) <= 77 / 100). { unfold Rdiv at 1. rewrite Rabs_mult, AD, (Rabs_right (/ 4)) by lra. lra. } pose proof (proj1 (ab _ _) D4) as D4'. assert (XB : Rabs (q x) <= 1) by (apply ab in PN'; apply ab; lra).
    assert (CQ : 2 * (cos (D / 4) * cos (D / 4)) = 1 + hh). { rewrite <- HD. replace (D / 2) with (2 * (D / 4)) by (field; lra). rewrite cos_2a_cos. ring. }
    assert (CP : 0 < cos (D / 4)) by (apply cos_gt_0; lra). assert (CL : 81 / 100 <= cos (D / 4)) by (apply sq_le; lra). pose proof (cos_close (q x) (D / 4)) as CC. assert (CX : 8 / 10 <= cos (q x)) by (apply ab in PN'; assert (CC' : Rabs (cos (q x) - cos (D / 4)) <= 11 * u) by (apply Rle_trans with (1 := CC); apply ab; lra); apply ab in CC'; lra).
    set (t := tan (D / 4)) in *. assert (TE : tan (q x) - t = sin (q x - D / 4) / (cos (q x) * cos (D / 4))). { unfold t, tan. rewrite sin_minus. field. split; lra. }
    assert (PP : 64 / 100 <= cos (q x) * cos (D / 4)). { apply Rle_trans with (8 / 10 * (81 / 100)); [lra|]. apply Rmult_le_compat; lra. }
    assert (TD : Rabs (tan (q x) - t) <= 17 * u). { rewrite TE. unfold Rdiv at 1. rewrite Rabs_mult, (Rabs_right (/ (cos (q x) * cos (D / 4)))) by (apply Rle_ge; left; apply Rinv_0_lt_compat; lra). apply Rmult_le_reg_r with (cos (q x) * cos (D / 4)); [lra|]. rewrite Rmult_assoc, Rinv_l, Rmult_1_r by lra. apply Rle_trans with (1 := sin_small _). apply Rle_trans with (1 := PN'). assert (17 * u * (64 / 100) <= 17 * u * (cos (q x) * cos (D / 4))) by (apply Rmult_le_compat_l; lra). lra. }
    assert (SQ : t * t * (cos (D / 4) * cos (D / 4)) = 1 - cos (D / 4) * cos (D / 4)). { pose proof (sin2_cos2 (D / 4)) as S. unfold Rsqr in S. rewrite <- S. unfold t, tan. field. lra. } set (cc := cos (D / 4) * cos (D / 4)) in *. assert (CCB : 2 * cc = 1 + hh) by auto. assert (T2 : t * t * (1 + hh) = 1 - hh) by (rewrite <- CCB; replace (t * t * (2 * cc)) with (2 * (t * t * cc)) by ring; lra).
    assert (TT : 0 <= t * t <= 1). { split; [apply Rle_0_sqr|]. apply Rmult_le_reg_r with (1 + hh); lra. } assert (T1 : Rabs t <= 1) by (apply sq_le; [lra|]; rewrite <- Rabs_mult, Rabs_right by lra; lra).
    assert (RE : 2 * r / (1 + hh) = r + r * (t * t)). { apply Rmult_eq_reg_r with (1 + hh); [|lra]. unfold Rdiv. rewrite Rmult_assoc, Rinv_l by lra. replace ((r + r * (t * t)) * (1 + hh)) with (r * (1 + hh) + r * (t * t * (1 + hh))) by ring. rewrite T2. ring. } rewrite RE.
    pose proof (near_tan _ _ _ _ C x XB) as NT. set (tf := l_tan L x) in *. assert (TF : Rabs (q tf - t) <= 18 * u) by (apply ab in NT, TD; apply ab; lra). pose proof (prod_near _ _ _ _ _ _ TF TF) as SN. assert (UU : 18 * u * (18 * u) <= / 1000 * u) by (pose proof (uu u U); lra). assert (SN' : Rabs (q tf * q tf - t * t) <= 361 / 10 * u). { apply Rle_trans with (1 := SN). assert (18 * u * Rabs t <= 18 * u * 1) by (apply Rmult_le_compat_l; lra). lra. }
    pose proof (near_square _ _ _ _ C tf) as NS. unfold off in NS. assert (SB : Rabs (q tf * q tf) <= 1 + 361 / 10 * u) by (apply ab in SN'; apply ab; lra). assert (NS' : u * (Rabs (q tf * q tf) + i * i) <= u * (101 / 100)) by (apply Rmult_le_compat_l; lra). assert (SF : Rabs (q (l_square L tf) - t * t) <= 372 / 10 * u) by (apply ab in NS, SN'; apply ab; lra).
    assert (RN : Rabs (r - r) <= 0) by (rewrite Rminus_diag_eq, Rabs_R0; lra). pose proof (f_mul_near L u i C U _ _ _ _ _ _ RN SF) as FM. rewrite (Rabs_right r), (Rabs_right (t * t)) in FM by lra. assert (UI : u * (i * i) <= / 1000 * (u * r)) by (replace (/ 1000 * (u * r)) with (u * (/ 1000 * r)) by ring; apply Rmult_le_compat_l; lra). assert (URT : u * (r * (t * t)) <= u * (r * 1)) by (apply Rmult_le_compat_l; [lra|]; apply Rmult_le_compat_l; lra). assert (UUR : u * (u * r) <= / 1000000 * (u * r)) by (apply Rmult_le_compat_r; lra).
    assert (FM' : Rabs (q (fmul (fa_radius a) (l_square L tf)) - r * (t * t)) <= 383 / 10 * (u * r)) by (apply Rle_trans with (1 := FM); lra). pose proof (f_add_near L u i C U _ _ _ _ _ _ RN FM') as FA. assert (RT : 0 <= r * (t * t) <= r) by (split; [apply Rmult_le_pos; lra|]; rewrite <- (Rmult_1_r r) at 2; apply Rmult_le_compat_l; lra). rewrite (Rabs_right (r + r * (t * t))) in FA by lra. apply Rle_trans with (1 := FA). lra.
Qed.
(** within the limits *)
Lemma reach_ok : r <= reach <= 21 / 10 * r /\
  match m with
  | Inside => reach = r /\ r - e - 13 * (u * r) <= reach * hh
  | Outside => reach * hh = r /\ reach <= r + e + 60 * (u * r)
  | Mid => r - e / 2 - 60 * (u * r) <= reach * hh /\ reach <= r + e / 2 + 60 * (u * r)
  end.
Proof.
  pose proof rP as RP. pose proof eP as EP. assert (URP : 0 < u * r) by (apply Rmult_lt_0_compat; lra). assert (UE : u * e <= u * r) by (apply Rmult_le_compat_l; lra). pose proof hh_low as HL. pose proof cos_low as [HC HH]. unfold ideal in HC. unfold reach. case_eq m; intros EM; rewrite EM in HL, HC.
  - split; [lra|]. split; auto. assert (K : r * ((r - e) / r - 13 * u) <= r * hh) by (apply Rmult_le_compat_l; lra). replace (r * ((r - e) / r - 13 * u)) with (r - e - 13 * (u * r)) in K by (field; lra). exact K.
  - set (R := r / hh). assert (RH : R * hh = r) by (unfold R; field; lra). assert (R0 : 0 < R) by (apply Rmult_lt_0_compat; [lra|apply Rinv_0_lt_compat; lra]). assert (R1 : R * hh <= R * 1) by (apply Rmult_le_compat_l; lra). assert (R2 : R * (49 / 100) <= R * hh) by (apply Rmult_le_compat_l; lra). split; [lra|]. split; auto.
    assert (K : (r / (r + e) - 13 * u) * (r + e) <= hh * (r + e)) by (apply Rmult_le_compat_r; lra). replace ((r / (r + e) - 13 * u) * (r + e)) with (r - 13 * (u * r) - 13 * (u * e)) in K by (field; lra). assert (K2 : R * (r - 26 * (u * r)) <= R * (hh * (r + e))) by (apply Rmult_le_compat_l; lra). replace (R * (hh * (r + e))) with (R * hh * (r + e)) in K2 by ring. rewrite RH in K2. replace (R * (r - 26 * (u * r))) with (r * (R - 26 * (u * R))) in K2 by ring. apply Rmult_le_reg_l in K2; [|lra]. assert (u * R <= u * (21 / 10 * r)) by (apply Rmult_le_compat_l; lra). lra.
  - set (R := 2 * r / (1 + hh)). assert (RH : R * (1 + hh) = 2 * r) by (unfold R; field; lra). assert (R0 : 0 < R) by (apply Rmult_lt_0_compat; [lra|apply Rinv_0_lt_compat; lra]). assert (R1 : R * (1 + hh) <= R * 2) by (apply Rmult_le_compat_l; lra). assert (R2 : R * (133 / 100) <= R * (1 + hh)) by (apply Rmult_le_compat_l; lra). split; [lra|].
    assert (K : ((r - e / 2) / (r + e / 2) - 13 * u) * (r + e / 2) <= hh * (r + e / 2)) by (apply Rmult_le_compat_r; lra). replace (((r - e / 2) / (r + e / 2) - 13 * u) * (r + e / 2)) with (r - e / 2 - 13 * (u * r) - 13 / 2 * (u * e)) in K by (field; lra). assert (K2 : R * (2 * r - 20 * (u * r)) <= R * ((1 + hh) * (r + e / 2))) by (apply Rmult_le_compat_l; lra). replace (R * ((1 + hh) * (r + e / 2))) with (R * (1 + hh) * (r + e / 2)) in K2 by ring. rewrite RH in K2. replace (R * (2 * r - 20 * (u * r))) with (2 * r * (R - 10 * (u * R))) in K2 by ring. apply Rmult_le_reg_l in K2; [|lra]. assert (u * R <= u * (21 / 10 * r)) by (apply Rmult_le_compat_l; lra). lra.
Qed.
End Count.
End Arc.
End Laws.
