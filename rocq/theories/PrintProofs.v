From Coq Require Import Ascii String List Bool Arith ZArith QArith Qcanon Qround Qabs Qpower Lia Lqa.
From Verif Require Import Base Num Words BaseFacts WordsSpec WordsProofs WordsProofs2 NumFacts PrintSpec.
Import ListNotations.
Open Scope Z_scope.

(** ** The value of a [Qc] operation *)
Lemma this_frac n d : (this (frac n d) == n # d)%Q. Proof. unfold frac. cbn [this Q2Qc]. apply Qred_correct. Qed.
Lemma this_sub a b : (this (a - b)%Qc == this a - this b)%Q.
Proof. unfold Qcminus, Qcplus, Qcopp. cbn [this Q2Qc]. rewrite !Qred_correct. reflexivity. Qed.
Lemma this_zero : (this 0%Qc == 0)%Q. Proof. reflexivity. Qed.
Lemma Qabs_bounds x b : (Qabs x <= b <-> - b <= x <= b)%Q.
Proof. apply Qabs_Qle_condition. Qed.

Lemma Qred_inject_Z n : Qred (inject_Z n) = inject_Z n.
Proof.
  apply Qred_identity. unfold inject_Z. cbn [Qnum Qden]. apply Z.gcd_1_r.
Qed.

(** ** binary64 is accurate *)
Definition p2 (e : Z) : Q := Qpower (inject_Z 2) e.
Lemma two_nz : ~ (inject_Z 2 == 0)%Q. Proof. intros H. discriminate. Qed.
Lemma p2_pos e : (0 < p2 e)%Q. Proof. apply Qpower_0_lt. reflexivity. Qed.
Lemma p2_plus a b : (p2 (a + b) == p2 a * p2 b)%Q. Proof. apply Qpower_plus, two_nz. Qed.
Lemma p2_Z e : 0 <= e -> (p2 e == inject_Z (2 ^ e))%Q. Proof. intros H. symmetry. apply Zpower_Qpower; auto. Qed.
Lemma p2_le a b : a <= b -> (p2 a <= p2 b)%Q.
Proof. intros H. apply Qpower_le_compat_l; auto. unfold Qle; simpl; lia. Qed.
Lemma p2_opp a : (p2 (- a) == / p2 a)%Q. Proof. apply Qpower_opp. Qed.
Lemma p2_inv a : (p2 a * p2 (- a) == 1)%Q. Proof. rewrite <- p2_plus, Z.add_opp_diag_r. reflexivity. Qed.
Lemma zpow2_p2 e : (zpow2 e == p2 e)%Q.
Proof.
  unfold zpow2. destruct (0 <=? e) eqn:E.
  - apply Z.leb_le in E. rewrite p2_Z by auto. reflexivity.
  - apply Z.leb_gt in E. rewrite <- p2_Z by lia. rewrite <- p2_opp. replace (- - e) with e by lia. reflexivity.
Qed.
Lemma qlog2_low q : (~ q == 0)%Q -> (p2 (qlog2 q) <= Qabs q)%Q.
Proof.
  intros Hq. unfold qlog2. set (n := Z.abs (Qnum q)). set (d := Zpos (Qden q)).
  assert (Hn : 0 < n) by (unfold n; assert (Qnum q <> 0) by (intros E; apply Hq; unfold Qeq; rewrite E; auto); lia).
  assert (Hd : 0 < d) by (unfold d; lia).
  assert (AQ : (Qabs q * inject_Z d == inject_Z n)%Q).
  { unfold n, d. destruct q as [a b]. unfold Qabs, Qeq. simpl. lia. }
  destruct (Z.log2_spec n Hn) as [N1 N2]. destruct (Z.log2_spec d Hd) as [D1 D2].
  pose proof (Z.log2_nonneg n) as N0. pose proof (Z.log2_nonneg d) as D0.
  set (a := Z.log2 n) in *. set (b := Z.log2 d) in *. replace (Z.succ a) with (a + 1) in N2 by lia. replace (Z.succ b) with (b + 1) in D2 by lia.
  assert (T : n * 2 ^ Z.max 0 (- (a - b)) <? d * 2 ^ Z.max 0 (a - b) = true <-> (inject_Z n < p2 (a - b) * inject_Z d)%Q).
  { rewrite Z.ltb_lt. rewrite <- inject_Z_lt', !inject_Z_mult, <- !p2_Z by lia.
    assert (P0 : (p2 0 == 1)%Q) by reflexivity.
    destruct (Z_le_gt_dec 0 (a - b)) as [L|L].
    - rewrite Z.max_l, Z.max_r, P0 by lia. split; intros; lra.
    - rewrite Z.max_r, Z.max_l, P0 by lia. pose proof (p2_pos (- (a - b))). pose proof (p2_pos (a - b)).
      pose proof (p2_inv (a - b)) as I. rewrite <- (Qmult_lt_r (inject_Z n * p2 (- (a - b))) _ (p2 (a - b))) by auto.
      assert (J : (inject_Z n * p2 (- (a - b)) * p2 (a - b) == inject_Z n)%Q) by (rewrite <- Qmult_assoc, (Qmult_comm (p2 (- (a - b)))), I; ring).
      rewrite J. split; intros; lra. }
  apply (proj2 (inject_Z_le' _ _)) in N1, D1. apply (proj2 (inject_Z_lt' _ _)) in N2, D2. rewrite <- p2_Z in * by lia.
  assert (E1 : (p2 a == p2 (a - b) * p2 b)%Q) by (rewrite <- p2_plus; replace (a - b + b) with a by lia; reflexivity).
  assert (E2 : (p2 (a - b - 1) * 2 == p2 (a - b))%Q).
  { change 2%Q with (p2 1). rewrite <- p2_plus. replace (a - b - 1 + 1) with (a - b) by lia. reflexivity. }
  assert (E5 : (p2 (b + 1) == p2 b * 2)%Q) by (rewrite p2_plus; reflexivity).
  pose proof (p2_pos (a - b)). pose proof (p2_pos b). pose proof (p2_pos (a - b - 1)).
  assert (Dq : (0 < inject_Z d)%Q) by reflexivity.
  apply (proj1 (Qmult_le_r _ _ _ Dq)). rewrite AQ.
  destruct (n * 2 ^ Z.max 0 (- (a - b)) <? d * 2 ^ Z.max 0 (a - b)) eqn:E.
  - nra.
  - assert (F : ~ (inject_Z n < p2 (a - b) * inject_Z d)%Q) by (intros X; apply T in X; congruence). lra.
Qed.
Lemma p2_tiny : (p2 (-1074) <= p2 (-41) * (1 # 1000000000))%Q. Proof. vm_compute. congruence. Qed.
Theorem binary64_accurate : accurate binary64.
Proof.
  split.
  - intros n Hn. cbn [rnd binary64]. unfold rnd64.
    assert (T : this (Qc_of_Z n) = inject_Z n) by (unfold Qc_of_Z; cbn [this Q2Qc]; apply Qred_inject_Z). rewrite T.
    destruct (Qnum (inject_Z n) =? 0) eqn:E0; auto. apply Z.eqb_neq in E0. cbn [Qnum inject_Z] in E0.
    assert (L : qlog2 (inject_Z n) <= 52).
    { unfold qlog2. cbn [Qnum Qden inject_Z]. change (Z.log2 1) with 0. rewrite Z.sub_0_r.
      assert (Z.log2 (Z.abs n) < 53) by (apply Z.log2_lt_pow2; lia).
      destruct (_ <? _); lia. }
    set (e := Z.max (qlog2 (inject_Z n) - 52) (-1074)). assert (He : e <= 0) by (unfold e; lia).
    apply Qc_is_canon. cbn [this Q2Qc]. rewrite Qred_correct, T.
    assert (I : (inject_Z n / zpow2 e == inject_Z (n * 2 ^ (- e)))%Q).
    { rewrite zpow2_p2, inject_Z_mult, <- p2_Z by lia. rewrite p2_opp. reflexivity. }
    rewrite (rhe_near _ (n * 2 ^ (- e))).
    + rewrite inject_Z_mult, zpow2_p2, <- p2_Z by lia. rewrite p2_opp. field. pose proof (p2_pos e). lra.
    + rewrite I. split; unfold Qminus; rewrite Qplus_opp_r; reflexivity.
  - intros x Hx. cbn [rnd binary64]. unfold rnd64.
    assert (Hq : ~ (this x == 0)%Q) by (intros E; rewrite E in Hx; vm_compute in Hx; congruence).
    destruct (Qnum (this x) =? 0) eqn:E0.
    { exfalso. apply Hq. apply Z.eqb_eq in E0. unfold Qeq. rewrite E0. auto. }
    set (e := Z.max (qlog2 (this x) - 52) (-1074)). set (z := zpow2 e). set (q := this x) in *.
    assert (Z1 : (0 < z)%Q) by (unfold z; rewrite zpow2_p2; apply p2_pos).
    assert (Z2 : (z <= p2 (-41) * Qabs q)%Q).
    { unfold z. rewrite zpow2_p2. pose proof (p2_pos (-41)) as P41. unfold e. destruct (Z.max_spec (qlog2 q - 52) (-1074)) as [[_ ->]|[_ ->]].
      - pose proof p2_tiny. nra.
      - pose proof (qlog2_low q Hq) as L. replace (qlog2 q - 52) with (-52 + qlog2 q) by lia. rewrite p2_plus.
        assert (L2 : (p2 (-52) <= p2 (-41))%Q) by (apply p2_le; lia). pose proof (p2_pos (qlog2 q)). pose proof (p2_pos (-52)). nra. }
    rewrite this_sub. cbn [this Q2Qc]. rewrite Qred_correct. fold q.
    pose proof (rhe_err (q / z)) as [R1 R2].
    assert (QZ : (q / z * z == q)%Q) by (field; lra).
    assert (D40 : (Qabs q / (2 ^ 40) == Qabs q * (1 # 1099511627776))%Q) by reflexivity.
    apply Qabs_bounds. rewrite D40. change (p2 (-41)) with (1 # 2199023255552)%Q in Z2.
    set (r := inject_Z (rhe (q / z))) in *. set (y := (q / z)%Q) in *.
    pose proof (Qabs_nonneg q).
    assert (B : (- ((1 # 2) * z) <= r * z - q <= (1 # 2) * z)%Q) by (rewrite <- QZ; split; nra).
    split; lra.
Qed.
Lemma exact_accurate : accurate exact_arith.
Proof.
  split; auto. intros x _. cbn [rnd exact_arith].
  assert (Z1 : (this (x - x)%Qc == 0)%Q) by (rewrite this_sub; ring).
  assert (Z0 : (Qabs (x - x)%Qc == 0)%Q) by (rewrite Z1; reflexivity).
  rewrite Z0. apply Qle_shift_div_l; [reflexivity|]. rewrite Qmult_0_l. apply Qabs_nonneg.
Qed.

(** ** %g *)
Lemma decimal_text_scale s N k a : decimal_text s (N * 10 ^ Z.of_nat a) (k + a) -> decimal_text s N k.
Proof.
  intros (ip & dot & fp & H1 & H2 & H3 & H4 & H5 & H5' & H6). exists ip, dot, fp. do 6 (split; [assumption|]).
  intros neg. rewrite H6. apply Qc_is_canon. rewrite !this_frac. rewrite Nat2Z.inj_add, Z.pow_add_r by lia.
  unfold Qeq. cbn [Qnum Qden]. pose proof (pow10_pos k). pose proof (pow10_pos a).
  rewrite !Z2Pos.id by nia. destruct neg; ring.
Qed.
Lemma p10_neg_nat k : (p10 (- Z.of_nat k) == 1 # Z.to_pos (10 ^ Z.of_nat k))%Q.
Proof.
  rewrite p10_opp, p10_Z by lia. pose proof (pow10_pos k). destruct (10 ^ Z.of_nat k) eqn:E; try lia. reflexivity.
Qed.
Lemma frac_p10 n k : (n # Z.to_pos (10 ^ Z.of_nat k) == inject_Z n * p10 (- Z.of_nat k))%Q.
Proof.
  rewrite p10_neg_nat. unfold Qeq, Qmult. cbn [Qnum Qden inject_Z]. rewrite Z.mul_1_r. auto.
Qed.
Lemma close_eq x y y' : (y == y')%Q -> close x y -> close x y'.
Proof. intros E [H1 H2]. unfold close. rewrite <- E. auto. Qed.
Lemma fmt_near q M k : 10 ^ 5 <= M < 10 ^ 6 -> (k <= 9)%nat -> close q (M # Z.to_pos (10 ^ Z.of_nat k)) ->
  fmt_g_pos q = fixed_text M k.
Proof.
  intros HM Hk C. apply (close_eq _ _ _ (frac_p10 M k)) in C. unfold fmt_g_pos. rewrite (sig6_near q M (- Z.of_nat k)) by auto.
  destruct ((-4 <=? - Z.of_nat k + 5) && (- Z.of_nat k + 5 <? 6)) eqn:E.
  - f_equal. lia.
  - apply andb_false_iff in E as [E|E]; [apply Z.leb_gt in E|apply Z.ltb_ge in E]; lia.
Qed.
Lemma six_digit_form N : 0 < N < 10 ^ 6 -> exists a, (a <= 5)%nat /\ 10 ^ 5 <= N * 10 ^ Z.of_nat a < 10 ^ 6.
Proof.
  intros H. destruct (ilog10_spec N) as (L0 & L1 & L2); [lia|]. set (l := ilog10 N) in *.
  assert (l < 6). { apply (Z.pow_lt_mono_r_iff 10); lia. }
  exists (Z.to_nat (5 - l)). split; [lia|]. rewrite Z2Nat.id by lia.
  assert (E : 10 ^ l * 10 ^ (5 - l) = 10 ^ 5) by (rewrite <- Z.pow_add_r by lia; f_equal; lia).
  assert (E' : 10 ^ (l + 1) * 10 ^ (5 - l) = 10 ^ 6) by (rewrite <- Z.pow_add_r by lia; f_equal; lia).
  assert (0 < 10 ^ (5 - l)) by (apply Z.pow_pos_nonneg; lia). nia.
Qed.
Lemma fmt_exact q N k : 0 < N < 10 ^ 6 -> (k <= 4)%nat -> close q (N # Z.to_pos (10 ^ Z.of_nat k)) ->
  decimal_text (fmt_g_pos q) N k.
Proof.
  intros HN Hk C. destruct (six_digit_form N HN) as (a & Ha & HM).
  apply decimal_text_scale with (a := a). rewrite (fmt_near q (N * 10 ^ Z.of_nat a) (k + a)); try lia.
  - apply fixed_text_spec. lia.
  - revert C. apply close_eq. pose proof (pow10_pos k). pose proof (pow10_pos a).
    rewrite Nat2Z.inj_add, Z.pow_add_r by lia. unfold Qeq. cbn [Qnum Qden]. rewrite !Z2Pos.id by nia. ring.
Qed.
(** any number in range prints as a six digit decimal within half a unit of the sixth digit *)
Lemma fmt_approx q : (1 # 10000 <= q)%Q -> (q < 999999 + (1 # 2))%Q ->
  exists M k, 10 ^ 5 <= M < 10 ^ 6 /\ (k <= 9)%nat /\ fmt_g_pos q = fixed_text M k /\
    (Qabs ((M # Z.to_pos (10 ^ Z.of_nat k)) - q) <= q / 200000)%Q /\
    (Qabs ((M # Z.to_pos (10 ^ Z.of_nat k)) - q) <= (1 # 2) * (1 # Z.to_pos (10 ^ Z.of_nat k)))%Q.
Proof.
  intros H1 H2. destruct (sig6 q) as [m e] eqn:E. assert (Hq : (0 < q)%Q) by lra.
  destruct (sig6_spec q m e Hq E) as (M & B1 & B2 & B3).
  assert (E1 : -5 < e).
  { assert (P : (p10 (-4) < p10 (e + 1))%Q) by (change (p10 (-4)) with (1 # 10000)%Q; lra). apply p10_lt_inv in P. lia. }
  assert (E2 : e < 6).
  { destruct (Z_lt_le_dec e 6) as [L|L]; auto. exfalso. apply (p10_le 6) in L. change (p10 6) with 1000000%Q in L.
    destruct B2 as [B2 _]. assert (P6 : (p10 (e - 6) * 1000000 == p10 e)%Q).
    { change 1000000%Q with (p10 6). rewrite <- p10_plus. replace (e - 6 + 6) with e by lia. reflexivity. } lra. }
  assert (K : (p10 (e - 5) == 1 # Z.to_pos (10 ^ Z.of_nat (Z.to_nat (5 - e))))%Q).
  { rewrite <- p10_neg_nat. rewrite Z2Nat.id by lia. replace (- (5 - e)) with (e - 5) by lia. reflexivity. }
  exists m, (Z.to_nat (5 - e)). split; [auto|]. split; [lia|]. split.
  - unfold fmt_g_pos. rewrite E. replace ((-4 <=? e) && (e <? 6)) with true; auto. symmetry. apply andb_true_iff. rewrite Z.leb_le, Z.ltb_lt. lia.
  - rewrite frac_p10, <- K, Z2Nat.id by lia. replace (- (5 - e)) with (e - 5) by lia.
    split; apply Qabs_bounds; lra.
Qed.

Lemma fmt_g_pos_sign nz x : (0 < this x)%Q -> fmt_g nz x = fmt_g_pos (this x).
Proof. unfold fmt_g. intros H. unfold Qlt in H. simpl in H. destruct (Qnum (this x)); auto; lia. Qed.
Lemma fmt_g_neg_sign nz x : (this x < 0)%Q -> fmt_g nz x = "-"%char :: fmt_g_pos (- this x).
Proof. unfold fmt_g. intros H. unfold Qlt in H. simpl in H. destruct (Qnum (this x)); auto; lia. Qed.
Lemma fmt_g_zero nz : fmt_g nz 0%Qc = if nz then t "-0" else t "0". Proof. reflexivity. Qed.
Lemma decimal_zero k : decimal_text (t "0") 0 k.
Proof.
  exists (t "0"), false, []. repeat split; auto.
  - repeat constructor; vm_compute; lia.
  - discriminate.
  - intros f c H. destruct f; discriminate.
  - intros neg. apply Qc_is_canon. unfold decimal_number, frac. cbn [this Q2Qc]. rewrite !Qred_correct. destruct neg; reflexivity.
Qed.
Section Accurate.
Context {ar : Arith} (acc : accurate ar).
Lemma rnd_zero : rnd 0%Qc = 0%Qc. Proof. destruct acc as [A _]. apply (A 0). reflexivity. Qed.
(** magnitude and sign of a rounded fraction *)
Definition asgn (j : Z) (q : Q) : Q := if j <? 0 then (- q)%Q else q.
Lemma rnd_close n d : n <> 0 -> (Zpos d <= 1000000000) -> close (asgn n (rnd (frac n d))) (Z.abs n # d).
Proof.
  intros Hn Hd. destruct acc as [_ A]. specialize (A (frac n d)).
  assert (E : (Qabs (frac n d) == Z.abs n # d)%Q) by (rewrite this_frac; reflexivity).
  rewrite E in A. assert (B : (1 # 1000000000 <= Z.abs n # d)%Q) by (unfold Qle; simpl; nia). specialize (A B).
  rewrite this_sub, this_frac in A. apply Qabs_bounds in A. unfold close.
  set (b := ((Z.abs n # d) / 2 ^ 40)%Q) in *. unfold asgn. destruct (n <? 0) eqn:S.
  - apply Z.ltb_lt in S. assert (F : (Z.abs n # d == - (n # d))%Q) by (rewrite Z.abs_neq by lia; reflexivity). rewrite F. lra.
  - apply Z.ltb_ge in S. rewrite Z.abs_eq in * by lia. lra.
Qed.
Lemma fmt_asgn nz n x : (0 < asgn n (this x))%Q -> fmt_g nz x = sign (n <? 0) ++ fmt_g_pos (asgn n (this x)).
Proof.
  unfold asgn. destruct (n <? 0); intros H; simpl.
  - apply fmt_g_neg_sign. lra.
  - apply fmt_g_pos_sign. auto.
Qed.
Lemma close_pos x y : (0 < y)%Q -> close x y -> (0 < x)%Q.
Proof. intros H C. apply close_bounds in C; auto. lra. Qed.
Lemma abs_pos n d : n <> 0 -> (0 < Z.abs n # d)%Q. Proof. intros H. unfold Qlt. simpl. lia. Qed.
(** exact printing of decimals with at most six significant digits *)
Lemma fmt_frac nz n k : n <> 0 -> Z.abs n < 10 ^ 6 -> (k <= 4)%nat ->
  exists body, fmt_g nz (rnd (frac n (Z.to_pos (10 ^ Z.of_nat k)))) = sign (n <? 0) ++ body /\ decimal_text body (Z.abs n) k.
Proof.
  intros Hn Ha Hk. set (d := Z.to_pos (10 ^ Z.of_nat k)).
  assert (D : Zpos d <= 1000000000).
  { unfold d. rewrite Z2Pos.id by apply pow10_pos. change 1000000000 with (10 ^ 9). apply Z.pow_le_mono_r; lia. }
  pose proof (rnd_close n d Hn D) as C. exists (fmt_g_pos (asgn n (rnd (frac n d)))). split.
  - apply fmt_asgn. eapply close_pos; [|exact C]. apply abs_pos; auto.
  - apply fmt_exact; auto. lia.
Qed.
(** rounding to thousandths is exact on thousandths *)
Lemma rhe_thousandths n : Z.abs n < 10 ^ 9 -> rhe (this (rnd (thousandths n)) * 1000) = n.
Proof.
  intros H. destruct (Z.eq_dec n 0) as [->|N].
  - replace (thousandths 0) with 0%Qc by (apply Qc_is_canon; reflexivity). rewrite rnd_zero. reflexivity.
  - pose proof (rnd_close n 1000 N) as C. specialize (C ltac:(lia)). apply close_bounds in C; [|apply abs_pos; auto].
    apply rhe_near. unfold thousandths.
    assert (B : (Z.abs n # 1000 < 1000000)%Q) by (unfold Qlt; simpl; lia).
    assert (E : (inject_Z n == (n # 1000) * 1000)%Q) by (unfold Qeq; simpl; lia). rewrite E.
    unfold asgn in C. destruct (n <? 0) eqn:S.
    + apply Z.ltb_lt in S. assert (F : (Z.abs n # 1000 == - (n # 1000))%Q) by (rewrite Z.abs_neq by lia; reflexivity). rewrite F in B, C. clear -B C. split; lra.
    + apply Z.ltb_ge in S. rewrite Z.abs_eq in * by lia. split; lra.
Qed.
Lemma Qabs_asgn n q : (0 < asgn n q)%Q -> (Qabs q == asgn n q)%Q.
Proof.
  unfold asgn. destruct (n <? 0); intros H.
  - apply Qabs_neg. lra.
  - apply Qabs_pos. lra.
Qed.
Lemma fmt_thousandths nz j : j <> 0 -> Z.abs j <= 999999499 ->
  exists M k j', 10 ^ 5 <= M < 10 ^ 6 /\ (k <= 9)%nat /\ Z.abs j' * 10 ^ Z.of_nat k = M * 1000 /\ j' <> 0 /\ (j' <? 0) = (j <? 0) /\
    fmt_g nz (rnd (thousandths j)) = sign (j <? 0) ++ fixed_text M k /\
    (Qabs (this (thousandths j') - this (rnd (thousandths j))) <= Qabs (this (rnd (thousandths j))) / 200000)%Q /\
    (Z.abs j < 10 ^ 6 -> j' = j).
Proof.
  intros Hj Ha. pose proof (rnd_close j 1000 Hj ltac:(lia)) as C. fold (thousandths j) in C.
  set (q := asgn j (rnd (thousandths j))) in *.
  assert (Hq : (0 < q)%Q) by (eapply close_pos; [|exact C]; apply abs_pos; auto).
  rewrite (fmt_asgn nz j) by (fold q; auto). fold q.
  destruct (Z_lt_le_dec (Z.abs j) (10 ^ 6)) as [L|L].
  - destruct (six_digit_form (Z.abs j)) as (a & A1 & A2); [lia|].
    assert (P3 : 10 ^ Z.of_nat (3 + a) = 1000 * 10 ^ Z.of_nat a) by (rewrite Nat2Z.inj_add, Z.pow_add_r by lia; reflexivity).
    exists (Z.abs j * 10 ^ Z.of_nat a), (3 + a)%nat, j. split; [auto|]. split; [lia|]. split; [rewrite P3; lia|]. split; [auto|]. split; [auto|].
    split; [|split; [|auto]].
    + f_equal. apply fmt_near; auto. lia. revert C. apply close_eq. rewrite P3. pose proof (pow10_pos a).
      unfold Qeq. cbn [Qnum Qden]. rewrite Z2Pos.id by nia. lia.
    + unfold thousandths. rewrite this_frac. fold (thousandths j).
      assert (B : (Qabs ((Z.abs j # 1000) - q) <= q / 200000)%Q).
      { apply close_bounds in C; [|apply abs_pos; auto]. apply Qabs_bounds. unfold Qdiv. change (/ 200000)%Q with (1 # 200000). lra. }
      rewrite (Qabs_asgn j (this (rnd (thousandths j))) Hq). fold q. revert B. unfold q, asgn. destruct (j <? 0) eqn:S; intros B.
      * apply Z.ltb_lt in S. assert (F : (Z.abs j # 1000 == - (j # 1000))%Q) by (rewrite Z.abs_neq by lia; reflexivity). rewrite F in B.
        rewrite <- Qabs_opp. eapply Qle_trans; [|exact B]. apply Qabs_bounds. apply (proj1 (Qabs_bounds _ _)). apply Qle_lteq. right. apply Qabs_wd. ring.
      * apply Z.ltb_ge in S. rewrite Z.abs_eq in B by lia. exact B.
  - apply close_bounds in C; [|apply abs_pos; auto].
    assert (Q1 : (1000 * (1 - (1 # 1000000000000)) < q)%Q).
    { assert ((1000 <= Z.abs j # 1000)%Q) by (unfold Qle; simpl; lia). lra. }
    assert (Q2 : (q < 999999 + (1 # 2))%Q).
    { assert ((Z.abs j # 1000 <= 999999499 # 1000)%Q) by (unfold Qle; simpl; lia). lra. }
    destruct (fmt_approx q) as (M & k & M1 & K1 & F1 & E1 & E2); [lra|auto|].
    assert (K3 : (k <= 3)%nat).
    { destruct (le_gt_dec k 3) as [|G]; auto. exfalso. apply Qabs_bounds in E1.
      assert (X : (M # Z.to_pos (10 ^ Z.of_nat k) <= 100)%Q).
      { unfold Qle. cbn [Qnum Qden]. rewrite Z2Pos.id by apply pow10_pos.
        assert (10 ^ 4 <= 10 ^ Z.of_nat k) by (apply Z.pow_le_mono_r; lia). lia. }
      unfold Qdiv in E1. change (/ 200000)%Q with (1 # 200000) in E1. lra. }
    assert (P3 : 10 ^ Z.of_nat (3 - k) * 10 ^ Z.of_nat k = 1000) by (rewrite <- Z.pow_add_r by lia; replace (Z.of_nat (3 - k) + Z.of_nat k) with 3 by lia; reflexivity).
    pose proof (pow10_pos (3 - k)) as P0. pose proof (pow10_pos k) as Pk.
    set (j0 := M * 10 ^ Z.of_nat (3 - k)). assert (J0 : 0 < j0) by (unfold j0; nia).
    assert (JM : (j0 # 1000 == M # Z.to_pos (10 ^ Z.of_nat k))%Q).
    { unfold Qeq. cbn [Qnum Qden]. rewrite Z2Pos.id by auto. unfold j0. rewrite <- P3. ring. }
    exists M, k, (if j <? 0 then - j0 else j0). split; [auto|]. split; [auto|].
    split. { destruct (j <? 0); rewrite ?Z.abs_opp, Z.abs_eq by lia; unfold j0; rewrite <- Z.mul_assoc, P3; ring. }
    split. { destruct (j <? 0); lia. }
    split. { destruct (j <? 0); [apply Z.ltb_lt; lia|apply Z.ltb_ge; lia]. }
    split. { f_equal. auto. }
    split; [|intros; lia].
    rewrite (Qabs_asgn j (this (rnd (thousandths j))) Hq). fold q. rewrite <- JM in E1. unfold thousandths at 1. rewrite this_frac.
    eapply Qle_trans; [|exact E1]. apply Qle_lteq. right. unfold q, asgn. destruct (j <? 0).
    + rewrite <- Qabs_opp. apply Qabs_wd. change (- j0 # 1000)%Q with (- (j0 # 1000))%Q. ring.
    + reflexivity.
Qed.
End Accurate.
