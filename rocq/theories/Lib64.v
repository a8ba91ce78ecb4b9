(** binary64 with functions of [math] that are close to the real ones: a library for the examples of C95. Its functions are right on
    the multiples of a quarter turn and a few other angles; elsewhere they are some rational number close to the real one. *)
From Coq Require Import List Bool ZArith QArith Qcanon Qabs Qround Qreals Reals Machin Lia Lra.
From Flocq Require Import Core Relative.
From Verif Require Import Base Num Words GTable GCode Position Machine Transform NumFacts WordOrder PrintSpec PrintProofs PosProofs ArithSpec Float64 Ieee DrillProofs Arc ArcSpec ArcProofs2.
From Verif Require Import FloatArc FloatArcSpec FloatArcSpec2 FloatArcSpec3 FloatArcProofs FloatArcProofs5 FloatArcProofs9 Root64 PropsFloatArc2.
Import ListNotations.
Open Scope R_scope.
Local Notation q := Qc2R.

(** ** the rounding of binary64 *)
Definition tiny64 : R := bpow radix2 (-511).
Theorem binary64_near : forall x, off (bpow radix2 (-53)) tiny64 (q x) (q (rnd (Arith := binary64) x)).
Proof.
  intros x. unfold off. cbn [rnd binary64]. unfold Qc2R. rewrite binary64_ieee. set (X := Q2R (this x)).
  assert (H2 : / 2 = bpow radix2 (-1)) by reflexivity. pose proof (bpow_gt_0 radix2 (-53)) as B0. assert (T2 : 0 <= tiny64 * tiny64) by (pose proof (Rle_0_sqr tiny64); unfold Rsqr in *; lra). pose proof (Rabs_pos X) as XP.
  destruct (Rle_or_lt (bpow radix2 (-1074 + 53 - 1)) (Rabs X)) as [H|H].
  - eapply Rle_trans; [apply (relative_error_N_FLT radix2 (-1074) 53 eq_refl); exact H|]. rewrite H2, <- bpow_plus. apply Rmult_le_compat_l; [apply bpow_ge_0|lra].
  - assert (V : Valid_exp (FLT_exp (-1074) 53)) by (apply FLT_exp_valid; reflexivity). eapply Rle_trans; [apply (error_le_half_ulp radix2 (FLT_exp (-1074) 53))|]. rewrite (@ulp_FLT_small radix2 (-1074) 53 eq_refl).
    + rewrite H2, <- bpow_plus. rewrite Rmult_plus_distr_l. assert (0 <= bpow radix2 (-53) * Rabs X) by (apply Rmult_le_pos; lra). assert (E : bpow radix2 (-53) * (tiny64 * tiny64) = bpow radix2 (-1 + -1074)) by (unfold tiny64; rewrite <- !bpow_plus; reflexivity). lra.
    + apply Rlt_trans with (1 := H). apply bpow_lt. reflexivity.
Qed.
(** ** rational numbers near real ones *)
Definition approx (k : positive) (x : R) : Qc := Q2Qc (up (x * IZR (Zpos k)) # k).
Lemma approx_near k x : x < q (approx k x) <= x + / IZR (Zpos k).
Proof.
  unfold approx. replace (q _) with (IZR (up (x * IZR (Zpos k))) / IZR (Zpos k)) by (unfold Qc2R; cbn [this Q2Qc]; rewrite (Qeq_eqR _ _ (Qred_correct _)); reflexivity).
  assert (K : 0 < IZR (Zpos k)) by (apply IZR_lt; reflexivity). destruct (archimed (x * IZR (Zpos k))) as [A B]. split.
  - apply Rmult_lt_reg_r with (IZR (Zpos k)); auto. unfold Rdiv. rewrite Rmult_assoc, Rinv_l by lra. lra.
  - apply Rmult_le_reg_r with (IZR (Zpos k)); auto. unfold Rdiv. rewrite Rmult_assoc, Rinv_l, Rmult_plus_distr_r, Rinv_l by lra. lra.
Qed.
Lemma rational_between a b : a < b -> exists s : Qc, a < q s < b.
Proof.
  intros H. pose (n := up (/ (b - a))). destruct (archimed (/ (b - a))) as [N _]. fold n in N. assert (P : 0 < / (b - a)) by (apply Rinv_0_lt_compat; lra). assert (NP : (0 < n)%Z) by (apply lt_IZR; lra).
  destruct n as [|k|k] eqn:En; try discriminate NP. exists (approx k a). destruct (approx_near k a) as [A B]. split; auto. apply Rle_lt_trans with (1 := B). assert (/ IZR (Zpos k) < b - a); [|lra].
  rewrite <- (Rinv_inv (b - a)). apply Rinv_lt_contravar; auto. apply Rmult_lt_0_compat; lra.
Qed.
(** ** roots that are the float nearest to the real one *)
Lemma root_near (ar : Arith) (L : mathlib) (u i : R) : 0 <= u < 1 -> right_root (ar := ar) L -> (forall x, off u i (q x) (q (rnd x))) -> forall x, 0 <= q x -> off u i (R_sqrt.sqrt (q x)) (q (l_sqrt L x)).
Proof.
  intros U RR NR x X. unfold off. pose proof (sqrt_pos (q x)) as P. pose proof (sqrt_sqrt _ X) as S. set (s := R_sqrt.sqrt (q x)) in *. assert (I2 : 0 <= i * i) by (pose proof (Rle_0_sqr i); unfold Rsqr in *; lra). rewrite (Rabs_right s) by lra.
  assert (QX : (Q2Qc 0 <= x)%Qc) by (apply Qcleb_le; unfold Qcleb; pose proof (q_ge x zero) as G; unfold Qcltb in G; rewrite q_zero in G; apply G in X; clear -X; unfold zero in *; cbn [this Q2Qc] in *; destruct (Qcompare (this x) (Qred 0)) eqn:E1; rewrite <- Qcompare_antisym, E1; cbn; congruence).
  assert (QL : forall a b, q a <= q b -> (a <= b)%Qc) by (intros a b H; unfold Qcle; apply Rle_Qle; exact H). assert (LQ : forall a b, (a <= b)%Qc -> q a <= q b) by (intros a b H; apply Qle_Rle; exact H).
  apply ab. split.
  - apply Rnot_lt_le. intros H. set (D := - (u * (s + i * i)) - (q (l_sqrt L x) - s)) in *. assert (DP : 0 < D) by (unfold D; lra).
    destruct (Rle_lt_or_eq_dec 0 s P) as [P'|P'].
    + destruct (rational_between (Rmax 0 (s - D)) s) as (r & R1 & R2); [apply Rmax_lub_lt; lra|]. assert (R0 : 0 < q r) by (pose proof (Rmax_l 0 (s - D)); lra). assert (R3 : s - D < q r) by (pose proof (Rmax_r 0 (s - D)); lra).
      destruct (RR x r QX) as [A _]; [apply QL; change (q zero <= q r); rewrite q_zero; lra|]. assert (RS : q r * q r <= q x) by (rewrite <- S; apply Rmult_le_compat; lra). specialize (A ltac:(apply QL; rewrite q_mul; exact RS)). apply LQ in A.
      pose proof (NR r) as N. unfold off in N. rewrite (Rabs_right (q r)) in N by lra. apply ab in N. assert (u * q r <= u * s) by (apply Rmult_le_compat_l; lra). unfold D in R3. lra.
    + destruct (RR x zero QX) as [A _]; [apply Qcle_refl|]. assert (RS : q zero * q zero <= q x) by (rewrite q_zero; lra). specialize (A ltac:(apply QL; rewrite q_mul; exact RS)). apply LQ in A. pose proof (NR zero) as N. unfold off in N. rewrite q_zero, Rabs_R0 in N. apply ab in N. unfold D in DP. rewrite <- P' in DP. lra.
  - apply Rnot_lt_le. intros H. set (D := (q (l_sqrt L x) - s) - u * (s + i * i)) in *. assert (DP : 0 < D) by (unfold D; lra).
    destruct (rational_between s (s + D / 2)) as (r & R1 & R2); [lra|]. destruct (RR x r QX) as [_ A]; [apply QL; change (q zero <= q r); rewrite q_zero; lra|]. assert (RS : q x <= q r * q r) by (rewrite <- S; apply Rmult_le_compat; lra). specialize (A ltac:(apply QL; rewrite q_mul; exact RS)). apply LQ in A.
    pose proof (NR r) as N. unfold off in N. rewrite (Rabs_right (q r)) in N by lra. apply ab in N. assert (u * (q r - s) <= 1 * (q r - s)) by (apply Rmult_le_compat_r; lra). unfold D in R2. lra.
Qed.
(** ** pi *)
Definition odd_pos (n : nat) : positive := Pos.of_nat (2 * n + 1).
Definition pi_term (n : nat) : Q := ((if Nat.even n then 1 else -1) * (2 * (1 # 3 ^ odd_pos n * odd_pos n) + (1 # 7 ^ odd_pos n * odd_pos n)))%Q.
Fixpoint pi_sum (n : nat) : Q := match n with O => pi_term 0 | S k => Qred (pi_sum k + pi_term n)%Q end.
Lemma pi_part (b : positive) n : Q2R (1 # b ^ odd_pos n * odd_pos n) = Ratan_seq (/ IZR (Zpos b)) n.
Proof.
  unfold Q2R, Ratan_seq. cbn [Qnum Qden]. assert (O : Zpos (odd_pos n) = Z.of_nat (2 * n + 1)) by (unfold odd_pos; rewrite <- positive_nat_Z, Nat2Pos.id by lia; reflexivity).
  assert (B : 0 < IZR (Zpos b)) by (apply IZR_lt; reflexivity). assert (D : 0 < INR (2 * n + 1)) by (apply lt_0_INR; lia).
  rewrite Pos2Z.inj_mul, Pos2Z.inj_pow, mult_IZR, O, <- pow_IZR, <- INR_IZR_INZ, Rmult_1_l, Rinv_mult, pow_inv. reflexivity.
Qed.
Lemma pi_term_real n : Q2R (pi_term n) = tg_alt PI_2_3_7_tg n.
Proof.
  unfold pi_term, tg_alt, PI_2_3_7_tg. rewrite Q2R_mult, Q2R_plus, Q2R_mult, !pi_part. replace (Q2R 2) with 2 by (unfold Q2R; cbn; field). f_equal.
  induction n as [|n IH]; [cbn; unfold Q2R; cbn; field|]. rewrite Nat.even_succ, <- Nat.negb_even. cbn [pow]. rewrite <- IH. destruct (Nat.even n); unfold Q2R; cbn; field.
Qed.
Lemma pi_sum_real n : Q2R (pi_sum n) = sum_f_R0 (tg_alt PI_2_3_7_tg) n.
Proof. induction n as [|n IH]; [apply pi_term_real|]. cbn [pi_sum]. rewrite (Qeq_eqR _ _ (Qred_correct _)), Q2R_plus, IH. rewrite pi_term_real. reflexivity. Qed.
Definition pi64 : Qc := Q2Qc (884279719003555 # 281474976710656).
Lemma pi64_near : Rabs (q pi64 - PI) <= Q2R (1 # 2 ^ 52).
Proof.
  destruct (PI_2_3_7_ineq 9) as [A B]. rewrite <- pi_sum_real in A, B. change (S (2 * 9)) with 19%nat in A. change (2 * 9)%nat with 18%nat in B.
  assert (A' : (this pi64 - (1 # 2 ^ 52) <= 4 * pi_sum 19)%Q) by (vm_compute; discriminate). assert (B' : (4 * pi_sum 18 <= this pi64 + (1 # 2 ^ 52))%Q) by (vm_compute; discriminate).
  apply Qle_Rle in A', B'. rewrite Q2R_minus, Q2R_mult in A'. rewrite Q2R_plus, Q2R_mult in B'. replace (Q2R 4) with 4 in * by (unfold Q2R; cbn; field). change (q pi64) with (Q2R (this pi64)). set (X := Q2R (this pi64)) in *. set (E := Q2R (1 # 2 ^ 52)) in *. apply ab. lra.
Qed.
(** ** the functions *)
Definition u64 : R := / 70368744177664. (* 2^-46 *)
Definition grain : positive := 1152921504606846976. (* 2^60 *)
Definition half_pi : Qc := (pi64 / Q2Qc 2)%Qc.
(** [Some j]: the angle is, but for rounding, [j] quarters of a turn *)
Definition quarter (th : Qc) : option Z :=
  let j := Qfloor (this (th / half_pi + frac 1 2)%Qc) in
  if Qcltb (qc_abs (th - Qc_of_Z j * half_pi)%Qc) (Q2Qc (1 # 562949953421312)) && (Z.abs j <=? 8)%Z then Some j else None.
Definition cos_of (th : Qc) : Qc := match quarter th with Some j => match (j mod 4)%Z with 0%Z => one | 2%Z => (- one)%Qc | _ => zero end | None => approx grain (cos (q th)) end.
Definition sin_of (th : Qc) : Qc := match quarter th with Some j => match (j mod 4)%Z with 1%Z => one | 3%Z => (- one)%Qc | _ => zero end | None => approx grain (sin (q th)) end.
Definition acos_of (x : Qc) : Qc := if Qceqb x (frac 1 2) then (pi64 / Q2Qc 3)%Qc else approx grain (Ratan.acos (q x)).
Definition tan_of (x : Qc) : Qc := approx grain (tan (q x)).
(** directions along an axis, but for rounding, are told from the others *)
Definition along (x y : Qc) : bool := Qcleb (qc_abs y) (Q2Qc (1 # 140737488355328) * qc_abs x)%Qc. (* 2^-47 *)
Definition atan2_of (y x : Qc) : Qc :=
  if Qceqb y zero && Qceqb x zero then zero
  else if along x y then (if Qcltb x zero then (if Qcltb y zero then (- pi64)%Qc else pi64) else zero)
  else if along y x then (if Qcltb y zero then (- half_pi)%Qc else half_pi) else approx grain (atan2 (q y) (q x)).
Definition mod_of (x y : Qc) : Qc := (x - y * Qc_of_Z (Qfloor (this (x / y)%Qc)))%Qc.
(** turning [v] around an axis parallel to Z *)
Definition rotate_of (th : Qc) (n v : fvec) : fvec :=
  let c := cos_of th in let s := (fz n * sin_of th)%Qc in FV (fx v * c - fy v * s)%Qc (fx v * s + fy v * c)%Qc (fz v).
Definition lib64 : mathlib := MathLib root64 (fun x => rnd64 (x * x)%Qc) acos_of cos_of tan_of atan2_of mod_of pi64 rotate_of (fun _ v => v).

Lemma pi64_q : Rabs (q pi64 - PI) <= / 4503599627370496.
Proof. pose proof pi64_near as H. unfold Q2R in H. cbn [Qnum Qden] in H. change (IZR (Zpos (2 ^ 52))) with 4503599627370496 in H. lra. Qed.
Lemma q_half : q half_pi = q pi64 / 2. Proof. unfold half_pi. rewrite q_div; rewrite q_two; lra. Qed.
Lemma q_Q n d : q (Q2Qc (n # d)) = IZR n / IZR (Zpos d). Proof. exact (q_frac n d). Qed.
Lemma grain_near x : Rabs (q (approx grain x) - x) <= / 1152921504606846976.
Proof. destruct (approx_near grain x) as [A B]. change (IZR (Zpos grain)) with 1152921504606846976 in B. apply ab. lra. Qed.
Lemma quarter_near th j : quarter th = Some j -> Rabs (q th - IZR j * (PI / 2)) <= u64 / 2.
Proof.
  unfold quarter. set (k := Qfloor _). destruct (_ && _) eqn:B; [|discriminate]. intros E. injection E as <-. apply andb_prop in B as [B1 B2]. apply Z.leb_le in B2. apply q_lt in B1. rewrite q_abs, q_sub, q_mul, q_int, q_half, q_Q in B1.
  pose proof pi64_q as P. assert (K : Rabs (IZR k) <= 8) by (rewrite <- abs_IZR; apply IZR_le; exact B2). assert (D : Rabs (IZR k * (q pi64 - PI)) <= 8 * / 4503599627370496) by (rewrite Rabs_mult; apply Rmult_le_compat; auto using Rabs_pos). apply Rlt_le in B1. apply ab in B1, D. apply ab. unfold u64. lra.
Qed.
Lemma quarter_cos j : cos (IZR j * (PI / 2)) = match (j mod 4)%Z with 0%Z => 1 | 2%Z => -1 | _ => 0 end /\ sin (IZR j * (PI / 2)) = match (j mod 4)%Z with 1%Z => 1 | 3%Z => -1 | _ => 0 end.
Proof.
  pose proof (Z.div_mod j 4 ltac:(lia)) as E. pose proof (Z.mod_pos_bound j 4 ltac:(lia)) as B. set (k := (j / 4)%Z) in *. set (r := (j mod 4)%Z) in *. assert (X : IZR j * (PI / 2) = IZR r * (PI / 2) + 2 * PI * IZR k) by (rewrite E at 1; rewrite plus_IZR, mult_IZR; lra). rewrite X, cos_Z, sin_Z.
  assert (C : (r = 0 \/ r = 1 \/ r = 2 \/ r = 3)%Z) by lia. destruct C as [->|[->|[->| ->]]].
  - rewrite Rmult_0_l. split; [apply cos_0|apply sin_0].
  - rewrite Rmult_1_l. split; [apply cos_PI2|apply sin_PI2].
  - replace (2 * (PI / 2)) with PI by lra. split; [apply cos_PI|apply sin_PI].
  - replace (3 * (PI / 2)) with (PI + PI / 2) by lra. rewrite cos_plus, sin_plus, cos_PI, sin_PI, cos_PI2, sin_PI2. split; ring.
Qed.
Lemma cos_near th : Rabs (q (cos_of th) - cos (q th)) <= u64 / 2.
Proof.
  unfold cos_of. destruct (quarter th) as [j|] eqn:E.
  - apply quarter_near in E. destruct (quarter_cos j) as [C _]. replace (q _) with (cos (IZR j * (PI / 2))) by (rewrite C; destruct (j mod 4)%Z as [|[p|[p|p|]|]|p]; rewrite ?q_opp, ?q_one, ?q_zero; reflexivity). eapply Rle_trans; [apply cos_close|]. rewrite Rabs_minus_sym. exact E.
  - pose proof (grain_near (cos (q th))). unfold u64. lra.
Qed.
Lemma sin_near th : Rabs (q (sin_of th) - sin (q th)) <= u64 / 2.
Proof.
  unfold sin_of. destruct (quarter th) as [j|] eqn:E.
  - apply quarter_near in E. destruct (quarter_cos j) as [_ C]. replace (q _) with (sin (IZR j * (PI / 2))) by (rewrite C; destruct (j mod 4)%Z as [|[[p|p|]|p|]|p]; rewrite ?q_opp, ?q_one, ?q_zero; reflexivity). eapply Rle_trans; [apply sin_close|]. rewrite Rabs_minus_sym. exact E.
  - pose proof (grain_near (sin (q th))). unfold u64. lra.
Qed.
Lemma atan2_range y x : - PI <= atan2 y x <= PI.
Proof.
  pose proof PI_RGT_0 as P. assert (UP : forall z, 0 <= z -> 0 <= atan z). { intros z [Z| <-]; [left; rewrite <- atan_0; apply atan_increasing; auto|rewrite atan_0; lra]. }
  unfold atan2. pose proof (atan_bound (y / x)) as B. destruct (Rlt_dec 0 x); [lra|]. destruct (Rlt_dec x 0) as [N|N].
  - assert (I : 0 < / - x) by (apply Rinv_0_lt_compat; lra). assert (E : y / x = - (y * / - x)) by (unfold Rdiv; field; lra). destruct (Rle_dec 0 y) as [Y|Y].
    + assert (0 <= atan (y * / - x)) by (apply UP, Rmult_le_pos; lra). rewrite E, atan_opp in *. lra.
    + assert (0 <= atan (- y * / - x)) as H by (apply UP, Rmult_le_pos; lra). replace (- y * / - x) with (y / x) in H by (field; lra). lra.
  - destruct (Rlt_dec 0 y); [lra|]. destruct (Rlt_dec y 0); lra.
Qed.
Lemma atan_small z : Rabs (atan z) <= Rabs z.
Proof.
  assert (G : forall z, 0 < z -> 0 <= atan z <= z).
  { intros x X. destruct (MVT_cor2 atan (fun c => / (1 + c ^ 2)) 0 x X) as (c & E & B); [intros c _; apply derivable_pt_lim_atan|]. rewrite atan_0, !Rminus_0_r in E. assert (C2 : 0 <= c ^ 2) by (apply pow_le; lra). assert (I1 : 0 < / (1 + c ^ 2)) by (apply Rinv_0_lt_compat; lra). assert (I2 : / (1 + c ^ 2) <= 1) by (rewrite <- Rinv_1; apply Rinv_le_contravar; lra). rewrite E. split; [apply Rmult_le_pos; lra|]. rewrite <- (Rmult_1_l x) at 2. apply Rmult_le_compat_r; lra. }
  destruct (Rtotal_order z 0) as [H|[->|H]].
  - pose proof (G (- z) ltac:(lra)) as K. rewrite atan_opp in K. rewrite !Rabs_left1 by lra. lra.
  - rewrite atan_0. lra.
  - pose proof (G z H). rewrite !Rabs_right by lra. lra.
Qed.
(** the angle of a vector close to the axis it points along *)
Lemma along_near x y : 0 < x -> Rabs y <= / 140737488355328 * x -> let d := R_sqrt.sqrt (x * x + y * y) in exists a, x = d * cos a /\ y = d * sin a /\ Rabs a <= u64 / 2 /\ (0 <= y -> 0 <= a) /\ (y < 0 -> a <= 0).
Proof.
  intros X Y d. exists (atan (y / x)). destruct (atan2_spec x y) as [A B]. fold d in A, B. unfold atan2 in A, B. destruct (Rlt_dec 0 x) as [_|]; [|lra]. split; auto. split; auto. assert (I : 0 < / x) by (apply Rinv_0_lt_compat; auto). split.
  - eapply Rle_trans; [apply atan_small|]. unfold Rdiv. rewrite Rabs_mult, (Rabs_right (/ x)) by lra. apply Rmult_le_reg_r with x; auto. rewrite Rmult_assoc, Rinv_l by lra. unfold u64. lra.
  - assert (UP : forall z, 0 <= z -> 0 <= atan z). { intros z [Z| <-]; [left; rewrite <- atan_0; apply atan_increasing; auto|rewrite atan_0; lra]. }
    split; intros H; [apply UP, Rmult_le_pos; lra|]. assert (E : 0 <= atan (- (y / x))) by (apply UP; unfold Rdiv; rewrite Ropp_mult_distr_l; apply Rmult_le_pos; lra). rewrite atan_opp in E. lra.
Qed.
Lemma along_q x y : along x y = true -> Rabs (q y) <= / 140737488355328 * Rabs (q x).
Proof. unfold along. intros H. apply Qcleb_le in H. unfold Qcle in H. apply Qle_Rle in H. change (q (qc_abs y) <= q (Q2Qc (1 # 140737488355328) * qc_abs x)%Qc) in H. rewrite q_mul, !q_abs, q_Q in H. lra. Qed.
Lemma atan2_near y x : exists th, - PI <= th <= PI /\ (let d := R_sqrt.sqrt (q x * q x + q y * q y) in q x = d * cos th /\ q y = d * sin th) /\ Rabs (q (atan2_of y x) - th) <= u64.
Proof.
  pose proof pi64_q as P. apply ab in P. pose proof PI_RGT_0 as PP. pose proof PI2_3_2 as P3. cbv zeta. unfold atan2_of. assert (U0 : 0 < u64 / 2 <= / 100000000) by (unfold u64; lra). assert (PU : / 4503599627370496 <= u64 / 2) by (unfold u64; lra).
  destruct (Qceqb y zero && Qceqb x zero) eqn:O; [|destruct (along x y) eqn:AX; [|destruct (along y x) eqn:AY]].
  - apply andb_prop in O as [O1 O2]. apply Qceqb_eq in O1, O2. subst. rewrite q_zero. exists 0. split; [lra|]. rewrite Rmult_0_l, Rplus_0_l, sqrt_0. split; [lra|]. rewrite Rminus_eq_0, Rabs_R0. lra.
  - apply along_q in AX. assert (X0 : q x <> 0). { intros E. rewrite E, Rabs_R0, Rmult_0_r in AX. assert (Y0 : q y = 0) by (apply ab in AX; lra). rewrite <- q_zero in E, Y0. apply q_inj in E, Y0. subst. discriminate O. }
    destruct (Qcltb x zero) eqn:XS; [apply q_lt in XS|apply q_ge in XS]; rewrite q_zero in XS.
    + rewrite (Rabs_left (q x)) in AX by auto. destruct (along_near (- q x) (q y) ltac:(lra) AX) as (a & A & B & S & SP & SN). cbv zeta in A, B. replace (- q x * - q x) with (q x * q x) in A, B by ring. apply ab in S. destruct (Qcltb y zero) eqn:YS; [apply q_lt in YS|apply q_ge in YS]; rewrite q_zero in YS.
      * specialize (SN YS). exists (- PI - a). split; [lra|]. split; [|rewrite q_opp; apply ab; lra]. replace (- PI - a) with (- (a + PI)) by ring. rewrite cos_neg, sin_neg, neg_cos, neg_sin. lra.
      * specialize (SP YS). exists (PI - a). split; [lra|]. split; [|apply ab; lra]. replace (PI - a) with (- a + PI) by ring. rewrite neg_cos, neg_sin, cos_neg, sin_neg. lra.
    + rewrite (Rabs_right (q x)) in AX by lra. destruct (along_near (q x) (q y) ltac:(lra) AX) as (a & A & B & S & _). cbv zeta in A, B. apply ab in S. exists a. split; [lra|]. split; auto. rewrite q_zero. apply ab. lra.
  - apply along_q in AY. assert (Y0 : q y <> 0). { intros E. rewrite E, Rabs_R0, Rmult_0_r in AY. assert (X0 : q x = 0) by (apply ab in AY; lra). rewrite <- q_zero in E, X0. apply q_inj in E, X0. subst. discriminate O. }
    destruct (Qcltb y zero) eqn:YS; [apply q_lt in YS|apply q_ge in YS]; rewrite q_zero in YS.
    + rewrite (Rabs_left (q y)) in AY by auto. destruct (along_near (- q y) (q x) ltac:(lra) AY) as (a & A & B & S & _). cbv zeta in A, B. replace (- q y * - q y + q x * q x) with (q x * q x + q y * q y) in A, B by ring. apply ab in S. exists (a - PI / 2). split; [lra|]. split; [|rewrite q_opp, q_half; apply ab; lra].
      rewrite cos_minus, sin_minus, cos_PI2, sin_PI2. lra.
    + rewrite (Rabs_right (q y)) in AY by lra. destruct (along_near (q y) (q x) ltac:(lra) AY) as (a & A & B & S & _). cbv zeta in A, B. replace (q y * q y + q x * q x) with (q x * q x + q y * q y) in A, B by ring. apply ab in S. exists (PI / 2 - a). split; [lra|]. split; [|rewrite q_half; apply ab; lra].
      rewrite cos_minus, sin_minus, cos_PI2, sin_PI2. lra.
  - exists (atan2 (q y) (q x)). split; [apply atan2_range|]. split; [destruct (atan2_spec (q x) (q y)) as [A B]; auto|]. pose proof (grain_near (atan2 (q y) (q x))). unfold u64. lra.
Qed.
Theorem lib64_close : close_to_real binary64 lib64 u64 u64.
Proof.
  assert (UB : bpow radix2 (-53) <= u64) by (unfold u64; cbn; lra). assert (T0 : 0 < tiny64) by apply bpow_gt_0. assert (TB : tiny64 <= u64) by (eapply Rle_trans; [|exact UB]; apply bpow_le; lia). assert (U0 : 0 < u64) by (unfold u64; lra).
  assert (OF : forall x y, off (bpow radix2 (-53)) tiny64 x y -> off u64 u64 x y). { intros x y H. unfold off in *. eapply Rle_trans; [exact H|]. assert (0 <= tiny64 * tiny64 <= u64 * u64) by (split; [apply Rmult_le_pos; lra|apply Rmult_le_compat; lra]). pose proof (Rabs_pos x). apply Rmult_le_compat; try lra. apply bpow_ge_0. }
  split.
  - intros x. apply OF, binary64_near.
  - intros x. cbn [l_square lib64]. rewrite <- q_mul. apply OF, (binary64_near (x * x)%Qc).
  - intros x X. apply OF. apply (root_near binary64 lib64); auto.
    + split; [apply bpow_ge_0|]. apply Rle_lt_trans with (1 := UB). unfold u64. lra.
    + intros y s Y S. exact (root64_right y s Y S).
    + apply binary64_near.
  - intros x X. cbn [l_acos lib64]. unfold acos_of. destruct (Qceqb x (frac 1 2)) eqn:E.
    + apply Qceqb_eq in E. subst x. rewrite q_frac, <- cos_PI3, acos_cos by (pose proof PI_RGT_0; lra). rewrite q_div; replace (q (Q2Qc 3)) with 3 by (unfold Qc2R, Q2R; cbn; field); [|lra]. pose proof pi64_q as P. apply ab in P. apply ab. unfold u64. lra.
    + pose proof (grain_near (Ratan.acos (q x))). unfold u64. lra.
  - intros x _. pose proof (cos_near x). cbn [l_cos lib64]. lra.
  - intros x _. cbn [l_tan lib64]. unfold tan_of. pose proof (grain_near (tan (q x))). unfold u64. lra.
  - cbn [l_pi lib64]. pose proof pi64_q. unfold u64. lra.
  - exact atan2_near.
  - intros x y Y. cbn [l_mod lib64]. unfold mod_of. set (k := Qfloor (this (x / y)%Qc)). rewrite q_sub, q_mul, q_int. assert (KF : IZR k <= q x / q y < IZR k + 1).
    { rewrite <- q_div by lra. unfold Qc2R. rewrite <- Q2R_Z. split; [apply Qle_Rle, Qfloor_le|]. pose proof (Qlt_floor (this (x / y)%Qc)) as F. apply Qlt_Rlt in F. fold k in F. rewrite inject_Z_plus, Q2R_plus in F. change (Q2R 1) with (Q2R (inject_Z 1)) in F. rewrite (Q2R_Z 1) in F. exact F. }
    assert (E : q x = q y * (q x / q y)) by (field; lra). set (t := q x / q y) in *. split.
    + rewrite E. assert (q y * IZR k <= q y * t) by (apply Rmult_le_compat_l; lra). assert (q y * t <= q y * (IZR k + 1)) by (apply Rmult_le_compat_l; lra). lra.
    + exists k. replace (q x - q y * IZR k - (q x - IZR k * q y)) with 0 by ring. rewrite Rabs_R0. apply Rmult_le_pos; lra.
  - intros th v _. cbv zeta. cbn [l_rotate lib64]. unfold rotate_of. cbn [fx fy fz]. replace (- Q2Qc 1 * sin_of th)%Qc with (- sin_of th)%Qc by (change (Q2Qc 1) with 1%Qc; ring).
    pose proof (cos_near th) as CN. pose proof (sin_near th) as SN. rewrite q_sub, q_add, !q_mul, q_opp. set (x := q (fx v)). set (y := q (fy v)). set (c := q (cos_of th)) in *. set (s := q (sin_of th)) in *. set (C := cos (q th)) in *. set (S := sin (q th)) in *.
    assert (U2 : 0 <= u64 * (u64 * u64)) by (apply Rmult_le_pos; [lra|apply Rmult_le_pos; lra]). unfold size. fold x. fold y. pose proof (Rabs_pos (q (fz v))) as ZP. assert (K : forall a b, Rabs (a * (c - C) + b * (s - S)) <= u64 / 2 * (Rabs a + Rabs b)).
    { intros a b. eapply Rle_trans; [apply Rabs_triang|]. rewrite !Rabs_mult. pose proof (Rabs_pos a) as AP. pose proof (Rabs_pos b) as BP. assert (Rabs a * Rabs (c - C) <= Rabs a * (u64 / 2)) by (apply Rmult_le_compat_l; auto). assert (Rabs b * Rabs (s - S) <= Rabs b * (u64 / 2)) by (apply Rmult_le_compat_l; auto). lra. }
    assert (XP : 0 <= u64 * Rabs x) by (apply Rmult_le_pos; [lra|apply Rabs_pos]). assert (YP : 0 <= u64 * Rabs y) by (apply Rmult_le_pos; [lra|apply Rabs_pos]). assert (ZP' : 0 <= u64 * Rabs (q (fz v))) by (apply Rmult_le_pos; lra). split; [|split].
    + replace (x * c - y * - s - (x * C + y * S)) with (x * (c - C) + y * (s - S)) by ring. eapply Rle_trans; [apply K|]. lra.
    + replace (x * - s + y * c - (y * C - x * S)) with (y * (c - C) + - x * (s - S)) by ring. eapply Rle_trans; [apply K|]. rewrite Rabs_Ropp. lra.
    + rewrite Rminus_eq_0, Rabs_R0. lra.
  - intros v. cbv zeta. cbn [l_plane lib64]. assert (D : 0 <= u64 * (size v + u64 * u64)) by (apply Rmult_le_pos; [lra|]; unfold size; pose proof (Rabs_pos (q (fx v))); pose proof (Rabs_pos (q (fy v))); pose proof (Rabs_pos (q (fz v))); assert (0 <= u64 * u64) by (apply Rmult_le_pos; lra); lra). rewrite !Rminus_eq_0, Rabs_R0. auto.
Qed.
Lemma bpow_inv (k : positive) : bpow radix2 (Zneg k) = / 2 ^ Pos.to_nat k.
Proof. change (Zneg k) with (- Zpos k)%Z. rewrite bpow_opp, bpow_powerRZ. reflexivity. Qed.
Lemma binary64_off x : off (/ 2 ^ 53) (/ 2 ^ 511) (q x) (q (rnd (Arith := binary64) x)).
Proof. pose proof (binary64_near x) as H. unfold tiny64 in H. rewrite !bpow_inv in H. exact H. Qed.
Lemma lib64_lawful : lawful lib64.
Proof. apply (right_lawful (ar := binary64)); [exact binary64_accurate|intros x; reflexivity|intros x s X S; exact (root64_right x s X S)]. Qed.
