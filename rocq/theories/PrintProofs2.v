From Coq Require Import Ascii String List Bool Arith ZArith QArith Qcanon Qround Qabs Qpower Lia Lqa.
From Verif Require Import Base Num Words BaseFacts WordsSpec WordsProofs WordsProofs2 NumFacts PrintSpec PrintProofs.
Import ListNotations.
Open Scope Z_scope.

Lemma char_letter_self l : char_letter (letter_ascii l) l. Proof. left; auto. Qed.
Lemma single_reads {ar : Arith} l v val : value_text (letter_kind l) v -> value_denotes l v val ->
  text2words (letter_ascii l :: v) = Ok [Word l val].
Proof.
  intros H1 H2. apply spelling_text2words. destruct (letter_kind l) eqn:K.
  1-3: rewrite <- K in H1; rewrite <- (app_nil_r v); change (letter_ascii l :: v ++ []) with ([] ++ letter_ascii l :: v ++ []);
    apply sp_word; auto using char_letter_self; try congruence; constructor; auto.
  assert (l = LO) by (destruct l; simpl in K; congruence). subst l. inversion H2; subst; try discriminate.
  pose proof (sp_name [] (letter_ascii LO) v []) as S. cbn [app] in S. rewrite app_nil_r in S.
  apply S; auto using char_letter_self.
Qed.
Lemma survives_reads {ar : Arith} w : survives w -> text2words (word_str w) = Ok [w].
Proof. intros (v & E & H1 & H2). rewrite E. rewrite (single_reads _ _ _ H1 H2). destruct w; auto. Qed.

Lemma kfloat_class l : letter_kind l = KFloat -> letter_class l = CFloat.
Proof. destruct l; simpl; congruence. Qed.
Lemma kcode_class l : letter_kind l = KCode -> letter_class l = CFloat.
Proof. destruct l; simpl; congruence. Qed.
Lemma cint_kind l : letter_class l = CInt -> letter_kind l = KNat.
Proof. destruct l; simpl; congruence. Qed.
Lemma app_nonnil {A} (a b : list A) : a <> [] -> a ++ b <> []. Proof. destruct a; simpl; congruence. Qed.

Lemma float_value {ar : Arith} l neg body N k : letter_kind l = KFloat -> decimal_text body N k ->
  value_text KFloat (sign neg ++ body) /\
  value_denotes l (sign neg ++ body) (VFloat (rnd (frac (if neg then - N else N) (Z.to_pos (10 ^ Z.of_nat k))))).
Proof.
  intros K (ip & dot & fp & -> & H2 & H3 & H4 & H5 & H5' & H6). rewrite <- H6. split.
  - apply (vt_float [] neg ip dot fp); auto using app_nonnil. tauto.
  - apply (vd_float l [] neg ip dot fp); auto using app_nonnil, kfloat_class. tauto.
Qed.
Lemma code_value {ar : Arith} l body N z : letter_kind l = KCode -> decimal_text body N 1 -> Forall digit z -> number z = 0 ->
  value_text KCode (z ++ body) /\ value_denotes l (z ++ body) (VFloat (rnd (tenths N))).
Proof.
  intros K H Hz Nz. destruct (decimal_text_short _ _ _ H) as (ip & dot & fp & -> & H2 & H3 & H4 & H5 & H5' & H6).
  assert (E : decimal_number false (z ++ ip) fp = tenths N).
  { transitivity (decimal_number false ip fp); [|exact (H6 false)]. unfold decimal_number. rewrite <- app_assoc, (number_app z), Nz. auto. }
  assert (Z' : Forall digit (z ++ ip)) by (apply Forall_app; auto).
  assert (NE : z ++ ip <> []) by (destruct z; simpl; congruence).
  rewrite app_assoc. split.
  - destruct fp as [|d [|d' fp]]; simpl in H5'; [| |lia].
    + assert (dot = false) by tauto. subst. simpl. rewrite app_nil_r. apply (vt_code []); auto.
    + destruct dot; [|destruct H5 as [H5 _]; specialize (H5 eq_refl); discriminate]. simpl. inversion H4; subst.
      rewrite <- app_assoc. rewrite app_assoc. apply (vt_code_tenths [] (z ++ ip) d); auto.
  - rewrite <- E. apply (vd_float l [] false (z ++ ip) dot fp); auto using app_nonnil, kcode_class. tauto.
Qed.
Lemma nat_value {ar : Arith} l body N : letter_class l = CInt -> decimal_text body N 0 ->
  value_text KNat body /\ value_denotes l body (VInt N).
Proof.
  intros K H. destruct (decimal_text_short _ _ _ H) as (ip & dot & fp & -> & H2 & H3 & H4 & H5 & H5' & H6).
  destruct fp; simpl in H5'; [|lia]. assert (dot = false) by tauto. subst. simpl. rewrite app_nil_r.
  specialize (H6 false). cbn iota in H6. unfold decimal_number, frac in H6. apply Qc_decomp_inv in H6. rewrite app_nil_r in H6.
  unfold Qeq in H6. simpl in H6. assert (number ip = N) by lia. subst N. split.
  - apply (vt_nat [] ip); auto.
  - apply (vd_int l [] ip); auto.
Qed.
Lemma word_str_float {ar : Arith} l x : letter_kind l = KFloat -> word_str (Word l (VFloat x)) = letter_ascii l :: clean_float x.
Proof. destruct l; simpl; try congruence; auto. Qed.
Lemma word_str_code {ar : Arith} l x : letter_kind l = KCode -> word_str (Word l (VFloat x)) = letter_ascii l :: clean_code x.
Proof. destruct l; simpl; try congruence; auto. Qed.
Lemma word_str_nat {ar : Arith} l x : word_str (Word l (VInt x)) = letter_ascii l :: clean_int x.
Proof. destruct l; simpl; try congruence; auto. Qed.
Lemma word_str_str {ar : Arith} l x : word_str (Word l (VStr x)) = letter_ascii l :: x.
Proof. destruct l; auto. Qed.

Lemma rhe_bound v b : (Qabs v <= inject_Z b)%Q -> Z.abs (rhe (v * 1000)) <= b * 1000.
Proof.
  intros H. apply Qabs_bounds in H. apply Z.abs_le. split.
  - apply rhe_mono_bound'. rewrite inject_Z_opp, inject_Z_mult. change (inject_Z 1000) with 1000%Q. lra.
  - apply rhe_mono_bound. rewrite inject_Z_mult. change (inject_Z 1000) with 1000%Q. lra.
Qed.
Lemma clean_float_thousandths {ar : Arith} x : clean_float x = fmt_g (Qcltb x 0) (rnd (thousandths (rhe (this x * 1000)))).
Proof. reflexivity. Qed.
Lemma frac_eq a b c d : (a # b == c # d)%Q -> frac a b = frac c d.
Proof. intros H. apply Qc_is_canon. rewrite !this_frac. auto. Qed.
Lemma frac0 d : frac 0 d = 0%Qc. Proof. apply Qc_is_canon. rewrite this_frac. reflexivity. Qed.
Lemma six_digits_intro M k (neg : bool) : 0 <= M < 10 ^ 6 -> six_digits (frac (if neg then - M else M) (Z.to_pos (10 ^ Z.of_nat k))).
Proof.
  intros H. exists (if neg then - M else M), (- Z.of_nat k). split; [destruct neg; lia|].
  rewrite this_frac. apply (frac_p10 (if neg then - M else M) k).
Qed.

Lemma number_bound ds : Forall digit ds -> 0 <= number ds < 10 ^ Z.of_nat (length ds).
Proof.
  induction 1 as [|c ds Hc H IH]; [simpl; lia|]. cbn [number length].
  rewrite Nat2Z.inj_succ, Z.pow_succ_r by lia. unfold digit in Hc. nia.
Qed.
Lemma code_denotes {ar : Arith} l v x : letter_kind l = KCode -> value_text KCode v -> value_denotes l v x ->
  exists k, 0 <= k /\ x = VFloat (rnd (tenths k)).
Proof.
  intros K V D. apply value_denotes_coerce in D. pose proof (kcode_class l K) as C.
  assert (G : exists ws ip dot fp, v = ws ++ sign false ++ ip ++ dotted dot fp /\ Forall blank ws /\ Forall digit ip /\
                Forall digit fp /\ (dot = false -> fp = []) /\ ip <> [] /\ (length fp <= 1)%nat).
  { inversion V; subst.
    - exists ws, ip, false, []. simpl. rewrite !app_nil_r. auto 10.
    - exists ws, ip, true, [d]. simpl. repeat split; auto; discriminate. }
  destruct G as (ws & ip & dot & fp & -> & H1 & H2 & H3 & H4 & H5 & H6).
  assert (NB : 0 <= number (ip ++ fp)) by (apply number_bound, Forall_app; auto).
  destruct (numspace_split ws) as [N|(a & c & b & -> & Ha & Hc & Hs)].
  - apply Forall_blank; auto.
  - unfold coerce in D. rewrite C, py_float_ok in D by (auto using app_nonnil). simpl in D. injection D as <-.
    exists (number (ip ++ fp) * (if Nat.eqb (length fp) 0 then 10 else 1)). split; [destruct (Nat.eqb (length fp) 0); lia|].
    do 2 f_equal. apply Qc_is_canon.
    unfold decimal_number, tenths, frac. cbn [this Q2Qc]. rewrite !Qred_correct.
    destruct fp as [|c1 [|]]; simpl in H6; try lia; simpl length; simpl Nat.eqb; cbv iota; unfold Qeq; cbn [Qnum Qden]; simpl; lia.
  - unfold coerce in D. rewrite C, <- app_assoc in D. cbn [app] in D. rewrite py_float_bad in D; auto. discriminate.
Qed.

Section Accurate.
Context {ar : Arith} (acc : accurate ar).
Lemma rnd_frac0 d : rnd (frac 0 d) = 0%Qc. Proof. rewrite frac0. apply rnd_zero; auto. Qed.

Lemma float_prints l (v : Qc) : letter_kind l = KFloat -> (Qabs v <= 999999)%Q ->
  exists text' d, word_str (Word l (VFloat v)) = letter_ascii l :: text' /\
    value_text KFloat text' /\ value_denotes l text' (VFloat (rnd d)) /\ six_digits d /\
    (let r := this (rnd (thousandths (rhe (this v * 1000)))) in Qabs (this d - r) <= Qabs r / 200000)%Q /\
    (Z.abs (rhe (this v * 1000)) < 10 ^ 6 -> d = thousandths (rhe (this v * 1000))) /\
    ((0 <= this v)%Q \/ rhe (this v * 1000) <> 0 -> word_str (Word l (VFloat (rnd d))) = letter_ascii l :: text').
Proof.
  intros K Hv. rewrite word_str_float, clean_float_thousandths by auto.
  apply (rhe_bound (this v) 999999) in Hv. set (j := rhe (this v * 1000)) in *.
  destruct (Z.eq_dec j 0) as [J0|J0].
  - rewrite J0. unfold thousandths. rewrite rnd_frac0, fmt_g_zero.
    exists (if Qcltb v 0 then t "-0" else t "0"), 0%Qc. split; auto.
    destruct (float_value l (Qcltb v 0) (t "0") 0 0 K (decimal_zero 0)) as [V1 V2].
    assert (E : sign (Qcltb v 0) ++ t "0" = if Qcltb v 0 then t "-0" else t "0") by (destruct (Qcltb v 0); auto).
    rewrite E in V1, V2. replace (if Qcltb v 0 then - 0 else 0) with 0 in V2 by (destruct (Qcltb v 0); auto). rewrite frac0 in V2.
    split; auto. split; auto. split. { exists 0, 0. split; [lia|reflexivity]. }
    split. { rewrite this_zero. vm_compute. congruence. }
    split. { intros _. rewrite frac0. auto. }
    intros [P|N]; [|congruence]. rewrite rnd_zero by auto. rewrite word_str_float by auto.
    assert (F : Qcltb v 0 = false).
    { unfold Qcltb. change (this 0%Qc) with 0%Q. destruct (Qcompare_spec (this v) 0); auto. lra. }
    rewrite F. unfold clean_float, round3. change (rhe (this 0%Qc * 1000)) with 0. rewrite rnd_frac0. reflexivity.
  - destruct (fmt_thousandths acc (Qcltb v 0) j J0) as (M & k & j' & M1 & K1 & J1 & J2 & S & T & B & X); [lia|].
    exists (sign (j <? 0) ++ fixed_text M k), (thousandths j'). rewrite T.
    assert (D : thousandths j' = frac (if j <? 0 then - M else M) (Z.to_pos (10 ^ Z.of_nat k))).
    { apply frac_eq. unfold Qeq. cbn [Qnum Qden]. rewrite Z2Pos.id by apply pow10_pos. rewrite <- S.
      destruct (j' <? 0) eqn:S'; [apply Z.ltb_lt in S'|apply Z.ltb_ge in S']; lia. }
    destruct (float_value l (j <? 0) (fixed_text M k) M k K) as [V1 V2]; [apply fixed_text_spec; lia|]. rewrite <- D in V2.
    split; auto. split; auto. split; auto. split. { rewrite D. apply six_digits_intro. lia. }
    split; [auto|]. split. { intros A. rewrite X; auto. }
    intros _. rewrite word_str_float by auto. f_equal. rewrite clean_float_thousandths.
    pose proof (pow10_pos k) as Pk.
    assert (JB : Z.abs j' < 10 ^ 9) by nia.
    rewrite rhe_thousandths by auto. set (nz := Qcltb (rnd (thousandths j')) 0).
    pose proof (rnd_close acc j' 1000 J2 ltac:(lia)) as C. fold (thousandths j') in C.
    rewrite (fmt_asgn nz j').
    + rewrite S. f_equal. apply fmt_near; auto. revert C. apply close_eq. unfold Qeq. cbn [Qnum Qden]. rewrite Z2Pos.id by auto. auto.
    + eapply close_pos; [|exact C]. apply abs_pos; auto.
Qed.
Lemma float_survives l n : letter_kind l = KFloat -> Z.abs n < 10 ^ 6 -> survives (Word l (VFloat (rnd (thousandths n)))).
Proof.
  intros K H. unfold survives. cbn [wletter wvalue].
  assert (R : rhe (this (rnd (thousandths n)) * 1000) = n) by (apply rhe_thousandths; auto; lia).
  destruct (float_prints l (rnd (thousandths n)) K) as (v & d & E & V1 & V2 & _ & _ & X & _).
  - destruct (Z.eq_dec n 0) as [->|N].
    + unfold thousandths. rewrite rnd_frac0. vm_compute. congruence.
    + pose proof (rnd_close acc n 1000 N ltac:(lia)) as C. fold (thousandths n) in C.
      assert (P : (0 < asgn n (rnd (thousandths n)))%Q) by (eapply close_pos; [|exact C]; apply abs_pos; auto).
      rewrite (Qabs_asgn n (this (rnd (thousandths n))) P). apply close_bounds in C; [|apply abs_pos; auto].
      assert ((Z.abs n # 1000 <= 1000)%Q) by (unfold Qle; simpl; lia). lra.
  - rewrite R in X. specialize (X H). subst d. exists v. rewrite K. auto.
Qed.

(** codes *)
Lemma code_range k : 0 < k -> close (this (rnd (tenths k))) (k # 10).
Proof.
  intros H. pose proof (rnd_close acc k 10 ltac:(lia) ltac:(lia)) as C. unfold asgn in C.
  destruct (k <? 0) eqn:S; [apply Z.ltb_lt in S; lia|]. rewrite Z.abs_eq in C by lia. exact C.
Qed.
Lemma code_less_ten k : 0 <= k -> Qcltb (rnd (tenths k)) (Q2Qc 10) = (k <? 100).
Proof.
  intros H. destruct (Z.eq_dec k 0) as [->|N].
  - unfold tenths. rewrite rnd_frac0. reflexivity.
  - assert (Hk : 0 < k) by lia. pose proof (code_range k Hk) as C. unfold Qcltb. change (this (Q2Qc 10)) with 10%Q.
    destruct (k <? 100) eqn:L.
    + apply Z.ltb_lt in L. apply close_bounds in C; [|reflexivity || (unfold Qlt; simpl; lia)].
      assert ((k # 10 <= 99 # 10)%Q) by (unfold Qle; simpl; lia).
      destruct (Qcompare_spec (this (rnd (tenths k))) 10); auto; lra.
    + apply Z.ltb_ge in L. destruct (Z.eq_dec k 100) as [->|N1].
      * replace (tenths 100) with (Qc_of_Z 10) by (apply Qc_is_canon; reflexivity).
        rewrite (proj1 acc) by reflexivity. reflexivity.
      * apply close_bounds in C; [|unfold Qlt; simpl; lia].
        assert ((101 # 10 <= k # 10)%Q) by (unfold Qle; simpl; lia).
        destruct (Qcompare_spec (this (rnd (tenths k))) 10); auto; lra.
Qed.
Lemma clean_code_eq k : 0 <= k ->
  clean_code (rnd (tenths k)) = (if k <? 100 then ["0"%char] else []) ++ fmt_g false (rnd (tenths k)).
Proof. intros H. unfold clean_code. rewrite code_less_ten by auto. destruct (k <? 100); auto. Qed.
Lemma zeros_ok (b : bool) : Forall digit (if b then ["0"%char] else []) /\ number (if b then ["0"%char] else []) = 0.
Proof. destruct b; split; auto. repeat constructor; vm_compute; lia. Qed.
Lemma code_prints l k : letter_kind l = KCode -> 0 <= k <= 9999990 ->
  exists v k', word_str (Word l (VFloat (rnd (tenths k)))) = letter_ascii l :: v /\
    value_text KCode v /\ value_denotes l v (VFloat (rnd (tenths k'))) /\ 0 <= k' <= 9999990 /\ (k < 10 ^ 6 -> k' = k) /\
    word_str (Word l (VFloat (rnd (tenths k')))) = letter_ascii l :: v.
Proof.
  intros K [H0 H1]. rewrite word_str_code, clean_code_eq by auto. destruct (zeros_ok (k <? 100)) as [Z1 Z2].
  set (z := if k <? 100 then ["0"%char] else []) in *.
  destruct (Z_lt_le_dec k (10 ^ 6)) as [L|L].
  - exists (z ++ fmt_g false (rnd (tenths k))), k.
    assert (D : decimal_text (fmt_g false (rnd (tenths k))) k 1).
    { destruct (Z.eq_dec k 0) as [->|N].
      - unfold tenths. rewrite rnd_frac0, fmt_g_zero. apply decimal_zero.
      - destruct (fmt_frac acc false k 1) as (b & E & D); [lia|lia|lia|]. change (Z.to_pos (10 ^ Z.of_nat 1)) with 10%positive in E.
        fold (tenths k) in E. rewrite E. replace (k <? 0) with false by (symmetry; apply Z.ltb_ge; lia). rewrite Z.abs_eq in D by lia. auto. }
    destruct (code_value l _ k z K D Z1 Z2) as [V1 V2]. repeat split; auto; try lia.
    rewrite word_str_code, clean_code_eq by auto. reflexivity.
  - assert (z = []) as -> by (unfold z; replace (k <? 100) with false by (symmetry; apply Z.ltb_ge; lia); auto).
    cbn [app]. pose proof (code_range k ltac:(lia)) as C. set (q := this (rnd (tenths k))) in *. apply close_bounds in C; [|unfold Qlt; simpl; lia].
    assert (Q1 : (100000 - (1 # 1000) < q)%Q) by (assert ((100000 <= k # 10)%Q) by (unfold Qle; simpl; lia); lra).
    assert (Q2 : (q < 999999 + (1 # 2))%Q) by (assert ((k # 10 <= 999999)%Q) by (unfold Qle; simpl; lia); lra).
    destruct (fmt_approx q) as (M & kk & M1 & K1 & F1 & E1 & E2); [lra|auto|].
    assert (kk = 0%nat).
    { destruct kk as [|kk]; auto. exfalso. apply Qabs_bounds in E2.
      assert (10 ^ 1 <= 10 ^ Z.of_nat (S kk)) by (apply Z.pow_le_mono_r; lia).
      assert (X : (M # Z.to_pos (10 ^ Z.of_nat (S kk)) <= 99999 + (9 # 10))%Q).
      { unfold Qle. cbn [Qnum Qden]. rewrite Z2Pos.id by apply pow10_pos. simpl (Qnum _). simpl (Qden _). nia. }
      assert (Y : (1 # Z.to_pos (10 ^ Z.of_nat (S kk)) <= 1 # 10)%Q).
      { unfold Qle. cbn [Qnum Qden]. rewrite Z2Pos.id by apply pow10_pos. lia. }
      lra. }
    subst kk. exists (fixed_text M 0), (M * 10). rewrite fmt_g_pos_sign by (fold q; lra). fold q. rewrite F1.
    assert (D : decimal_text (fixed_text M 0) (M * 10) 1).
    { destruct (fixed_text_spec M 0 ltac:(lia)) as (ip & dot & fp & A1 & A2 & A3 & A4 & A5 & A6 & A7). exists ip, dot, fp.
      do 6 (split; [assumption|]). intros neg. rewrite A7. apply frac_eq. destruct neg; unfold Qeq; simpl; lia. }
    destruct (code_value l _ (M * 10) [] K D) as [V1 V2]; auto. cbn [app] in V1, V2.
    do 3 (split; [auto|]). split; [lia|]. split; [lia|]. rewrite word_str_code, clean_code_eq by (auto; lia).
    replace (M * 10 <? 100) with false by (symmetry; apply Z.ltb_ge; lia). cbn [app]. f_equal.
    assert (T10 : tenths (M * 10) = Qc_of_Z M). { apply Qc_is_canon. unfold tenths. rewrite this_frac. unfold Qc_of_Z. cbn [this Q2Qc]. rewrite Qred_correct. unfold Qeq; simpl; lia. }
    rewrite T10. rewrite (proj1 acc) by lia.
    assert (T : this (Qc_of_Z M) = inject_Z M) by (unfold Qc_of_Z; cbn [this Q2Qc]; apply Qred_inject_Z).
    rewrite fmt_g_pos_sign by (rewrite T; unfold Qlt; simpl; lia). rewrite T. apply fmt_near; auto; try lia.
    unfold close. simpl (Z.to_pos _). change (M # 1)%Q with (inject_Z M). assert ((0 <= inject_Z M / 2 ^ 40)%Q).
    { apply Qle_shift_div_l; [reflexivity|]. rewrite Qmult_0_l. unfold Qle; simpl; lia. } lra.
Qed.
Lemma code_survives l k : letter_kind l = KCode -> 0 <= k < 10 ^ 6 -> survives (Word l (VFloat (rnd (tenths k)))).
Proof.
  intros K H. destruct (code_prints l k K) as (v & k' & E & V1 & V2 & _ & X & _); [lia|]. rewrite X in V2 by lia.
  exists v. cbn [wletter wvalue]. rewrite K. auto.
Qed.
Lemma dec_text_head n : 1 <= n -> exists c r, dec_text n = c :: r /\ c <> "0"%char.
Proof.
  intros H. destruct (dec_text_spec n) as (D & NE & N); [lia|]. destruct (ilog10_spec n H) as (L0 & L1 & _).
  destruct (dec_text n) as [|c r] eqn:E; [congruence|]. exists c, r. split; auto. intros ->.
  assert (LR : Z.of_nat (length r) = ilog10 n).
  { apply (f_equal (@length _)) in E. unfold dec_text in E. rewrite pad_digits_length in E. simpl in E. lia. }
  cbn [number] in N. inversion D as [|c' r' _ Dr]. clear D. pose proof (number_bound r Dr) as B. rewrite LR in B.
  change (Z.of_nat (code "0") - 48) with 0 in N. lia.
Qed.
Lemma with_frac_head a fp c r : with_frac (c :: a) fp = r -> exists r', r = c :: r'.
Proof. unfold with_frac. destruct (strip_zeros fp); intros <-; eauto. simpl. eauto. Qed.
Lemma code_leading_zero l k : letter_kind l = KCode -> 0 <= k < 10 ^ 6 ->
  ((exists r, word_str (Word l (VFloat (rnd (tenths k)))) = letter_ascii l :: "0"%char :: r) <-> k < 100).
Proof.
  intros K H. rewrite word_str_code, clean_code_eq by (auto; lia). split.
  - intros [r E]. destruct (k <? 100) eqn:L; [apply Z.ltb_lt; auto|]. apply Z.ltb_ge in L. exfalso. cbn [app] in E. injection E as E.
    pose proof (code_range k ltac:(lia)) as C. rewrite fmt_g_pos_sign in E by (eapply close_pos; [|exact C]; unfold Qlt; simpl; lia).
    destruct (six_digit_form k) as (a & A1 & A2); [lia|].
    assert (P3 : 10 ^ Z.of_nat (1 + a) = 10 * 10 ^ Z.of_nat a) by (rewrite Nat2Z.inj_add, Z.pow_add_r by lia; reflexivity).
    pose proof (pow10_pos a) as Pa.
    rewrite (fmt_near _ (k * 10 ^ Z.of_nat a) (1 + a)) in E; try lia.
    + unfold fixed_text in E. destruct (dec_text_head (k * 10 ^ Z.of_nat a / 10 ^ Z.of_nat (1 + a))) as (c & r' & E' & NZ).
      { rewrite P3. apply Z.div_le_lower_bound; nia. }
      rewrite E' in E. apply with_frac_head in E as [r'' E]. congruence.
    + revert C. apply close_eq. rewrite P3. unfold Qeq. cbn [Qnum Qden]. rewrite Z2Pos.id by nia. lia.
  - intros L. apply Z.ltb_lt in L. rewrite L. simpl. eauto.
Qed.

(** integers *)
Lemma nat_survives l n : letter_class l = CInt -> 0 <= n < 10 ^ 6 -> survives (Word l (VInt n)).
Proof.
  intros K H. exists (clean_int n). cbn [wletter wvalue]. rewrite (cint_kind l K). split. apply word_str_nat. apply nat_value; auto.
  unfold clean_int, float_of_int. replace (Qc_of_Z n) with (frac n 1) by reflexivity.
  destruct (Z.eq_dec n 0) as [->|N].
  - rewrite rnd_frac0, fmt_g_zero. apply decimal_zero.
  - destruct (fmt_frac acc false n 0) as (b & E & D); [lia|lia|lia|]. change (Z.to_pos (10 ^ Z.of_nat 0)) with 1%positive in E.
    rewrite E. replace (n <? 0) with false by (symmetry; apply Z.ltb_ge; lia). rewrite Z.abs_eq in D by lia. auto.
Qed.
(** program names and tool numbers *)
Lemma text_survives l v : letter_class l = CStr -> value_text (letter_kind l) v -> survives (Word l (VStr v)).
Proof. intros C H. exists v. cbn [wletter wvalue]. repeat split; auto. apply word_str_str. constructor; auto. Qed.
End Accurate.
