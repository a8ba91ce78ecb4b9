(** The rounding [rnd64] of the model is the IEEE 754 rounding to nearest, ties to even, in binary64 without overflow: the one of
    the Flocq library. *)
From Coq Require Import ZArith QArith Qcanon Qabs Qround Qreals Reals Lia Lra.
From Flocq Require Import Core.
From Verif Require Import Base Num NumFacts PrintSpec PrintProofs ArithSpec Float64.
Local Open Scope R_scope.

Lemma Q2R_Z z : Q2R (inject_Z z) = IZR z.
Proof. unfold Q2R, inject_Z. cbn [Qnum Qden]. lra. Qed.
Lemma Q2R_zpow2 e : Q2R (zpow2 e) = bpow radix2 e.
Proof.
  unfold zpow2. destruct (Z.leb_spec 0 e) as [H|H].
  - rewrite Q2R_Z. rewrite <- IZR_Zpower by auto. reflexivity.
  - assert (P : (0 < 2 ^ (- e))%Z) by (apply Z.pow_pos_nonneg; lia). rewrite Q2R_inv by (unfold Qeq; cbn; lia). rewrite Q2R_Z. change (2 ^ (- e))%Z with (Zpower radix2 (- e)). rewrite IZR_Zpower by lia. rewrite <- bpow_opp, Z.opp_involutive. reflexivity.
Qed.
Lemma rhe_nearest q : rhe q = ZnearestE (Q2R q).
Proof.
  symmetry. unfold ZnearestE, Znearest.
  assert (F : Zfloor (Q2R q) = Qfloor q).
  { apply Zfloor_imp. rewrite <- !Q2R_Z. split; [apply Qle_Rle, Qfloor_le|apply Qlt_Rlt, Qlt_floor]. }
  assert (D : Q2R q - IZR (Zfloor (Q2R q)) = Q2R (q - inject_Z (Qfloor q))) by (rewrite F, <- Q2R_Z, Q2R_minus; reflexivity).
  assert (C : Q2R q <> IZR (Zfloor (Q2R q)) -> Zceil (Q2R q) = (Qfloor q + 1)%Z) by (intros N; rewrite (Zceil_floor_neq _ (not_eq_sym N)), F; reflexivity).
  assert (H2 : Q2R (1 # 2) = / 2) by (unfold Q2R; cbn; lra).
  unfold rhe. rewrite D, <- H2. destruct (Qcompare (q - inject_Z (Qfloor q)) (1 # 2)) eqn:E.
  - apply Qeq_alt in E. rewrite Rcompare_Eq by (apply Qeq_eqR; auto). rewrite F, C.
    + destruct (Z.even (Qfloor q)); reflexivity.
    + intros N. apply Rminus_diag_eq in N. rewrite D in N. rewrite (Qeq_eqR _ _ E) in N. lra.
  - apply Qlt_alt in E. rewrite Rcompare_Lt by (apply Qlt_Rlt; auto). auto.
  - apply Qgt_alt in E. rewrite Rcompare_Gt by (apply Qlt_Rlt; auto). apply C. intros N. apply Rminus_diag_eq in N. rewrite D in N. apply Qlt_Rlt in E. lra.
Qed.

Lemma Q2R_abs q : Q2R (Qabs q) = Rabs (Q2R q).
Proof.
  destruct (Qlt_le_dec q 0) as [H|H].
  - rewrite Qabs_neg by (apply Qlt_le_weak; auto). apply Qlt_Rlt in H. rewrite RMicromega.Q2R_0 in H. rewrite Q2R_opp. rewrite Rabs_left; auto.
  - rewrite Qabs_pos by auto. apply Qle_Rle in H. rewrite RMicromega.Q2R_0 in H. rewrite Rabs_right; auto. apply Rle_ge; auto.
Qed.
Lemma mag_qlog2 q : (~ q == 0)%Q -> mag radix2 (Q2R q) = (qlog2 q + 1)%Z :> Z.
Proof.
  intros N. apply mag_unique. rewrite <- Q2R_abs. replace (qlog2 q + 1 - 1)%Z with (qlog2 q) by lia. rewrite <- !Q2R_zpow2. split.
  - apply Qle_Rle. rewrite zpow2_p2. apply qlog2_low; auto.
  - apply Qlt_Rlt. rewrite zpow2_p2. apply qlog2_high; auto.
Qed.
(** for every rational number *)
Theorem binary64_ieee : forall x : Qc, Q2R (this (rnd64 x)) = round radix2 (FLT_exp (-1074) 53) ZnearestE (Q2R (this x)).
Proof.
  intros x. unfold rnd64. destruct (Qnum (this x) =? 0)%Z eqn:Z0.
  - apply Z.eqb_eq in Z0. assert (E : Q2R (this x) = 0) by (unfold Q2R; rewrite Z0; lra). rewrite E. symmetry. apply round_0. apply valid_rnd_N.
  - apply Z.eqb_neq in Z0. assert (N : (~ this x == 0)%Q) by (unfold Qeq; cbn; lia). set (q := this x) in *. set (e := Z.max (qlog2 q - 52) (-1074)).
    assert (CE : cexp radix2 (FLT_exp (-1074) 53) (Q2R q) = e) by (unfold cexp, FLT_exp; rewrite (mag_qlog2 q N); unfold e; f_equal; lia).
    unfold round, F2R, scaled_mantissa. cbn [Fnum Fexp]. rewrite CE. cbn [this Q2Qc]. rewrite (Qeq_eqR _ _ (Qred_correct _)), Q2R_mult, Q2R_Z, Q2R_zpow2. do 2 f_equal.
    rewrite rhe_nearest. f_equal. rewrite bpow_opp, <- Q2R_zpow2. unfold Qdiv. rewrite Q2R_mult, Q2R_inv; auto. rewrite zpow2_p2. pose proof (p2_pos e) as P. intros Q. rewrite Q in P. apply Qlt_irrefl in P. auto.
Qed.
Print Assumptions binary64_ieee.
(** what [rnd64] leaves unchanged are the floats: numbers m * 2^e with |m| < 2^53 and e >= -1074 *)
Theorem binary64_floats : forall x : Qc, float (ar := binary64) x <-> exists m e : Z, (Z.abs m < 2 ^ 53)%Z /\ (-1074 <= e)%Z /\ Q2R (this x) = IZR m * bpow radix2 e.
Proof.
  intros x. assert (V : Valid_exp (FLT_exp (-1074) 53)) by (apply FLT_exp_valid; reflexivity). unfold float. cbn [rnd binary64]. split.
  - intros E. assert (G : generic_format radix2 (FLT_exp (-1074) 53) (Q2R (this x))). { rewrite <- E, binary64_ieee. apply generic_format_round; auto. apply valid_rnd_N. }
    apply FLT_format_generic in G; [|reflexivity]. destruct G as [[m e] E1 E2 E3]. exists m, e. split; [exact E2|]. split; [exact E3|]. exact E1.
  - intros (m & e & M & L & E). assert (G : generic_format radix2 (FLT_exp (-1074) 53) (Q2R (this x))). { apply generic_format_FLT. exists (Float radix2 m e); auto. }
    apply Qc_is_canon. apply eqR_Qeq. rewrite binary64_ieee. apply round_generic; auto. apply valid_rnd_N.
Qed.
Print Assumptions binary64_floats.
Example binary64_tenth : float (ar := binary64) (frac 1 8) /\ ~ float (ar := binary64) (frac 1 10).
Proof.
  split; [apply Qc_is_canon; vm_compute; reflexivity|]. unfold float. intros E. assert (Q : (this (rnd (Arith := binary64) (frac 1 10)) == this (frac 1 10))%Q) by (rewrite E; reflexivity). vm_compute in Q. discriminate Q.
Qed.
