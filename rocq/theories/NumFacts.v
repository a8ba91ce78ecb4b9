(** Decimal printing: digits, six significant digits, [%g]. *)
From Coq Require Import Ascii String List Bool Arith ZArith QArith Qcanon Qround Qabs Qpower Lia Lqa.
From Verif Require Import Base Num Words BaseFacts WordsSpec WordsProofs.
Import ListNotations.
Open Scope Z_scope.

(** ** Digits *)
Lemma digit_char_code d : 0 <= d < 10 -> Z.of_nat (code (digit_char d)) = 48 + d.
Proof.
  intros H. unfold digit_char, code. rewrite nat_ascii_embedding by lia. lia.
Qed.
Lemma digit_char_digit d : 0 <= d < 10 -> digit (digit_char d).
Proof. intros H. pose proof (digit_char_code d H). unfold digit. lia. Qed.
Lemma pad_digits_length k n : length (pad_digits k n) = k.
Proof. revert n. induction k; intros n; simpl; auto. rewrite app_length, IHk. simpl. lia. Qed.
Lemma pad_digits_digit k n : Forall digit (pad_digits k n).
Proof.
  revert n. induction k; intros n; simpl; auto. apply Forall_app. split; auto. constructor; auto.
  apply digit_char_digit. apply Z.mod_pos_bound. lia.
Qed.
Lemma number_pad_digits k n : 0 <= n -> number (pad_digits k n) = n mod 10 ^ Z.of_nat k.
Proof.
  revert n. induction k; intros n Hn.
  - simpl. rewrite Z.mod_1_r. auto.
  - cbn [pad_digits]. rewrite number_app, IHk by (apply Z.div_pos; lia). cbn [number length].
    rewrite digit_char_code by (apply Z.mod_pos_bound; lia).
    rewrite (Nat2Z.inj_succ k), (Z.pow_succ_r 10 (Z.of_nat k)) by lia.
    rewrite (Z.rem_mul_r n 10 (10 ^ Z.of_nat k)) by (try lia; apply Z.pow_pos_nonneg; lia).
    change (Z.of_nat 1) with 1. change (Z.of_nat 0) with 0. change (10 ^ 1) with 10. change (10 ^ 0) with 1. lia.
Qed.
Lemma ilog10_fuel_spec f n : 1 <= n < 10 ^ Z.of_nat f ->
  0 <= ilog10_fuel f n /\ 10 ^ ilog10_fuel f n <= n < 10 ^ (ilog10_fuel f n + 1).
Proof.
  revert n. induction f as [|f IH]; intros n H.
  - simpl in H. lia.
  - cbn [ilog10_fuel]. destruct (n <? 10) eqn:E.
    + apply Z.ltb_lt in E. simpl. lia.
    + apply Z.ltb_ge in E. rewrite Nat2Z.inj_succ, Z.pow_succ_r in H by lia.
      assert (H1 : 1 <= n / 10 < 10 ^ Z.of_nat f).
      { split. apply Z.div_le_lower_bound; lia. apply Z.div_lt_upper_bound; lia. }
      destruct (IH _ H1) as (P & Q1 & Q2). set (r := ilog10_fuel f (n / 10)) in *.
      replace (1 + r + 1) with (Z.succ (r + 1)) by lia. replace (1 + r) with (Z.succ r) by lia.
      rewrite !Z.pow_succ_r by lia. split; [lia|].
      pose proof (Z.div_mod n 10). pose proof (Z.mod_pos_bound n 10). split; nia.
Qed.
Lemma ilog10_spec n : 1 <= n -> 0 <= ilog10 n /\ 10 ^ ilog10 n <= n < 10 ^ (ilog10 n + 1).
Proof.
  intros H. unfold ilog10. apply ilog10_fuel_spec. split; auto.
  pose proof (Z.log2_nonneg n). rewrite Z2Nat.id by lia.
  destruct (Z.log2_spec n) as [_ L]; [lia|]. replace (Z.succ (Z.log2 n)) with (Z.log2 n + 1) in L by lia.
  eapply Z.lt_le_trans; [exact L|]. apply Z.pow_le_mono_l. lia.
Qed.
Lemma dec_text_spec n : 0 <= n -> Forall digit (dec_text n) /\ dec_text n <> [] /\ number (dec_text n) = n.
Proof.
  intros H. unfold dec_text. split; [apply pad_digits_digit|].
  assert (L : 0 <= ilog10 n /\ n < 10 ^ (ilog10 n + 1)).
  { destruct (Z.eq_dec n 0) as [->|N]. vm_compute. split; congruence. destruct (ilog10_spec n); lia. }
  split.
  - intros E. apply (f_equal (@length _)) in E. rewrite pad_digits_length in E. simpl in E. lia.
  - rewrite number_pad_digits by auto. rewrite Z2Nat.id by lia. apply Z.mod_small. lia.
Qed.
Lemma number_zeros k : number (repeat "0"%char k) = 0.
Proof. induction k; auto. Qed.
Lemma strip_zeros_spec ds : exists k, ds = strip_zeros ds ++ repeat "0"%char k.
Proof.
  unfold strip_zeros. destruct (drop_while_spec (fun c => Ascii.eqb c "0"%char) (rev ds)) as (p & E & Hp & _).
  exists (length p).
  assert (P : p = repeat "0"%char (length p)).
  { clear E. induction p as [|c p IH]; simpl; auto. simpl in Hp. apply andb_true_iff in Hp as [Hc Hp].
    apply Ascii.eqb_eq in Hc. subst. f_equal; auto. }
  assert (R : rev (repeat "0"%char (length p)) = repeat "0"%char (length p)).
  { clear. generalize (length p). induction n; simpl; auto. rewrite IHn. clear. induction n; simpl; auto. f_equal; auto. }
  rewrite <- R, <- P, <- rev_app_distr, <- E, rev_involutive. auto.
Qed.
Lemma strip_zeros_digit ds : Forall digit ds -> Forall digit (strip_zeros ds).
Proof. intros H. destruct (strip_zeros_spec ds) as [k E]. rewrite E in H. apply Forall_app in H. tauto. Qed.

Lemma pow10_pos k : 0 < 10 ^ Z.of_nat k. Proof. apply Z.pow_pos_nonneg; lia. Qed.
Lemma decimal_number_zeros neg ip fp k : decimal_number neg ip (fp ++ repeat "0"%char k) = decimal_number neg ip fp.
Proof.
  unfold decimal_number. apply Qc_is_canon. cbn [this Q2Qc]. rewrite !Qred_correct.
  rewrite app_assoc, number_app, number_zeros, app_length, repeat_length, Nat2Z.inj_add, Z.pow_add_r by lia.
  unfold Qeq. cbn [Qnum Qden]. pose proof (pow10_pos (length fp)). pose proof (pow10_pos k).
  rewrite !Z2Pos.id by nia. destruct neg; ring.
Qed.
Lemma Qc_decomp_inv a b : Q2Qc a = Q2Qc b -> (a == b)%Q.
Proof. intros H. apply (f_equal this) in H. cbn [this Q2Qc] in H. rewrite <- (Qred_correct a), H. apply Qred_correct. Qed.
(** a decimal text: digits, perhaps a dot and more digits not ending in zero *)
Definition decimal_text (s : text) (N : Z) (k : nat) : Prop :=
  exists ip dot fp, s = ip ++ dotted dot fp /\ Forall digit ip /\ ip <> [] /\ Forall digit fp /\ (dot = false <-> fp = []) /\
    (forall f c, fp = f ++ [c] -> c <> "0"%char) /\
    (forall neg, decimal_number neg ip fp = frac (if neg : bool then - N else N) (Z.to_pos (10 ^ Z.of_nat k))).
Lemma strip_zeros_last ds f c : strip_zeros ds = f ++ [c] -> c <> "0"%char.
Proof.
  unfold strip_zeros. destruct (drop_while_spec (fun c => Ascii.eqb c "0"%char) (rev ds)) as (p & E & Hp & H).
  intros X. apply (f_equal (@rev _)) in X. rewrite rev_involutive, rev_app_distr in X. simpl in X. rewrite X in H.
  apply Ascii.eqb_neq in H. auto.
Qed.
Lemma with_frac_text a b k : 0 <= a -> 0 <= b < 10 ^ Z.of_nat k ->
  decimal_text (with_frac (dec_text a) (pad_digits k b)) (a * 10 ^ Z.of_nat k + b) k.
Proof.
  intros Ha Hb. destruct (dec_text_spec a Ha) as (D1 & D2 & D3).
  destruct (strip_zeros_spec (pad_digits k b)) as [z E].
  assert (V : forall neg, decimal_number neg (dec_text a) (strip_zeros (pad_digits k b)) =
     frac (if neg : bool then - (a * 10 ^ Z.of_nat k + b) else a * 10 ^ Z.of_nat k + b) (Z.to_pos (10 ^ Z.of_nat k))).
  { intros neg. rewrite <- (decimal_number_zeros neg _ _ z), <- E. unfold decimal_number, frac.
    rewrite number_app, D3, number_pad_digits, pad_digits_length, Z.mod_small by lia. auto. }
  unfold with_frac. pose proof (strip_zeros_digit _ (pad_digits_digit k b)) as S.
  pose proof (strip_zeros_last (pad_digits k b)) as SL.
  destruct (strip_zeros (pad_digits k b)) as [|c f].
  - exists (dec_text a), false, []. simpl. rewrite app_nil_r. repeat split; auto.
  - exists (dec_text a), true, (c :: f). simpl. repeat split; auto; discriminate.
Qed.
Lemma decimal_text_short s N k : decimal_text s N k ->
  exists ip dot fp, s = ip ++ dotted dot fp /\ Forall digit ip /\ ip <> [] /\ Forall digit fp /\ (dot = false <-> fp = []) /\
    (length fp <= k)%nat /\
    (forall neg, decimal_number neg ip fp = frac (if neg : bool then - N else N) (Z.to_pos (10 ^ Z.of_nat k))).
Proof.
  intros (ip & dot & fp & H1 & H2 & H3 & H4 & H5 & H6 & H7). exists ip, dot, fp. repeat split; try tauto.
  destruct (le_gt_dec (length fp) k) as [L|L]; auto. exfalso.
  assert (X : fp = [] \/ exists f c, fp = f ++ [c]).
  { clear. induction fp using rev_ind; eauto. }
  destruct X as [->|(f & c & ->)]; [simpl in L; lia|].
  apply (H6 f c); auto. specialize (H7 false). cbn iota in H7. unfold decimal_number, frac in H7.
  apply Qc_decomp_inv in H7. rewrite app_length in L, H7. cbn [length] in L, H7.
  unfold Qeq in H7. cbn [Qnum Qden] in H7. pose proof (pow10_pos k). pose proof (pow10_pos (length f + 1)).
  rewrite !Z2Pos.id in H7 by lia. replace (Z.of_nat (length f + 1)) with (Z.of_nat k + (1 + Z.of_nat (length f - k))) in H7 by lia.
  rewrite !Z.pow_add_r in H7 by lia. rewrite app_assoc, number_app in H7. cbn [length number] in H7. change (Z.of_nat 1) with 1 in H7.
  change (Z.of_nat 0) with 0 in H7. change (10 ^ 1) with 10 in H7. change (10 ^ 0) with 1 in H7.
  apply Forall_app in H4 as [_ H4]. inversion H4 as [|c' l' Hc _]; subst. unfold digit in Hc.
  assert (Y : (Z.of_nat (code c) - 48) = 10 * (N * 10 ^ Z.of_nat (length f - k) - number (ip ++ f))).
  { apply (Z.mul_cancel_r _ _ (10 ^ Z.of_nat k)); [lia|]. lia. }
  assert (Z.of_nat (code c) = 48) by lia.
  rewrite <- (ascii_nat_embedding c). unfold code in *. replace (nat_of_ascii c) with 48%nat by lia. reflexivity.
Qed.
Lemma fixed_text_spec N k : 0 <= N -> decimal_text (fixed_text N k) N k.
Proof.
  intros H. unfold fixed_text. pose proof (pow10_pos k). pose proof (Z.mod_pos_bound N (10 ^ Z.of_nat k)).
  pose proof (with_frac_text (N / 10 ^ Z.of_nat k) (N mod 10 ^ Z.of_nat k) k) as W.
  replace (N / 10 ^ Z.of_nat k * 10 ^ Z.of_nat k + N mod 10 ^ Z.of_nat k) with N in W.
  - apply W. apply Z.div_pos; lia. lia.
  - pose proof (Z.div_mod N (10 ^ Z.of_nat k)). lia.
Qed.

(** ** Rounding to an integer *)
Lemma inject_Z_lt' a b : (inject_Z a < inject_Z b)%Q <-> a < b. Proof. unfold Qlt. simpl. lia. Qed.
Lemma inject_Z_le' a b : (inject_Z a <= inject_Z b)%Q <-> a <= b. Proof. unfold Qle. simpl. lia. Qed.
Lemma rhe_err q : (- (1 # 2) <= q - inject_Z (rhe q) <= 1 # 2)%Q.
Proof.
  unfold rhe. pose proof (Qfloor_le q) as H1. pose proof (Qlt_floor q) as H2. rewrite inject_Z_plus in H2.
  change (inject_Z 1) with 1%Q in H2.
  destruct (Qcompare (q - inject_Z (Qfloor q)) (1 # 2)) eqn:E.
  - apply Qeq_alt in E. destruct (Z.even (Qfloor q)); rewrite ?inject_Z_plus; change (inject_Z 1) with 1%Q; lra.
  - apply Qlt_alt in E. lra.
  - apply Qgt_alt in E. rewrite inject_Z_plus. change (inject_Z 1) with 1%Q. lra.
Qed.
Lemma rhe_near q z : (- (1 # 2) < q - inject_Z z < 1 # 2)%Q -> rhe q = z.
Proof.
  intros [H1 H2]. pose proof (rhe_err q) as [H3 H4].
  assert (A : (inject_Z (rhe q) < inject_Z (z + 1))%Q) by (rewrite inject_Z_plus; change (inject_Z 1) with 1%Q; lra).
  assert (B : (inject_Z z < inject_Z (rhe q + 1))%Q) by (rewrite inject_Z_plus; change (inject_Z 1) with 1%Q; lra).
  apply (proj1 (inject_Z_lt' _ _)) in A, B. lia.
Qed.
Lemma rhe_mono_bound q z : (q <= inject_Z z)%Q -> rhe q <= z.
Proof.
  intros H. pose proof (rhe_err q) as [H3 H4]. destruct (Z_le_gt_dec (rhe q) z) as [L|L]; auto.
  assert (G : z + 1 <= rhe q) by lia. apply (proj2 (inject_Z_le' _ _)) in G. rewrite inject_Z_plus in G. change (inject_Z 1) with 1%Q in G. lra.
Qed.
Lemma rhe_mono_bound' q z : (inject_Z z <= q)%Q -> z <= rhe q.
Proof.
  intros H. pose proof (rhe_err q) as [H3 H4]. destruct (Z_le_gt_dec z (rhe q)) as [L|L]; auto.
  assert (G : rhe q + 1 <= z) by lia. apply (proj2 (inject_Z_le' _ _)) in G. rewrite inject_Z_plus in G. change (inject_Z 1) with 1%Q in G. lra.
Qed.

(** ** Powers of ten *)
Definition p10 (e : Z) : Q := Qpower (inject_Z 10) e.
Lemma ten_nz : ~ (inject_Z 10 == 0)%Q. Proof. intros H. discriminate. Qed.
Lemma p10_pos e : (0 < p10 e)%Q. Proof. apply Qpower_0_lt. reflexivity. Qed.
Lemma p10_plus a b : (p10 (a + b) == p10 a * p10 b)%Q. Proof. apply Qpower_plus, ten_nz. Qed.
Lemma p10_Z e : 0 <= e -> (p10 e == inject_Z (10 ^ e))%Q. Proof. intros H. symmetry. apply Zpower_Qpower; auto. Qed.
Lemma p10_0 : (p10 0 == 1)%Q. Proof. reflexivity. Qed.
Lemma p10_inv a : (p10 a * p10 (- a) == 1)%Q. Proof. rewrite <- p10_plus, Z.add_opp_diag_r. reflexivity. Qed.
Lemma p10_opp a : (p10 (- a) == / p10 a)%Q. Proof. apply Qpower_opp. Qed.
Lemma p10_le a b : a <= b -> (p10 a <= p10 b)%Q.
Proof. intros H. apply Qpower_le_compat_l; auto. unfold Qle; simpl; lia. Qed.
Lemma p10_lt a b : a < b -> (p10 a < p10 b)%Q.
Proof. intros H. apply Qpower_lt_compat_l; auto. unfold Qlt; simpl; lia. Qed.
Lemma p10_lt_inv a b : (p10 a < p10 b)%Q -> a < b.
Proof. intros H. destruct (Z_lt_le_dec a b); auto. apply p10_le in l. lra. Qed.

Lemma qlog10_spec n d : 1 <= n -> 1 <= d ->
  (p10 (qlog10 n d) * inject_Z d <= inject_Z n /\ inject_Z n < p10 (qlog10 n d + 1) * inject_Z d)%Q.
Proof.
  intros Hn Hd. unfold qlog10.
  destruct (ilog10_spec n Hn) as (N0 & N1 & N2). destruct (ilog10_spec d Hd) as (D0 & D1 & D2).
  set (a := ilog10 n) in *. set (b := ilog10 d) in *.
  assert (T : n * 10 ^ Z.max 0 (- (a - b)) <? d * 10 ^ Z.max 0 (a - b) = true <-> (inject_Z n < p10 (a - b) * inject_Z d)%Q).
  { rewrite Z.ltb_lt. rewrite <- inject_Z_lt', !inject_Z_mult, <- !p10_Z by lia.
    destruct (Z_le_gt_dec 0 (a - b)) as [L|L].
    - rewrite Z.max_l, Z.max_r, p10_0 by lia. split; intros; lra.
    - rewrite Z.max_r, Z.max_l, p10_0 by lia. pose proof (p10_pos (- (a - b))). pose proof (p10_pos (a - b)).
      pose proof (p10_inv (a - b)) as I. rewrite <- (Qmult_lt_r (inject_Z n * p10 (- (a - b))) _ (p10 (a - b))) by auto.
      assert (J : (inject_Z n * p10 (- (a - b)) * p10 (a - b) == inject_Z n)%Q) by (rewrite <- Qmult_assoc, (Qmult_comm (p10 (- (a - b)))), I; ring).
      rewrite J. split; intros; lra. }
  apply (proj2 (inject_Z_le' _ _)) in N1, D1. apply (proj2 (inject_Z_lt' _ _)) in N2, D2. rewrite <- p10_Z in * by lia.
  assert (E1 : (p10 a == p10 (a - b) * p10 b)%Q) by (rewrite <- p10_plus; replace (a - b + b) with a by lia; reflexivity).
  assert (E2 : (p10 (a - b - 1) * 10 == p10 (a - b))%Q).
  { change 10%Q with (p10 1). rewrite <- p10_plus. replace (a - b - 1 + 1) with (a - b) by lia. reflexivity. }
  assert (E3 : (p10 (a - b + 1) == p10 (a - b) * 10)%Q) by (rewrite p10_plus; reflexivity).
  assert (E4 : (p10 (a + 1) == p10 a * 10)%Q) by (rewrite p10_plus; reflexivity).
  assert (E5 : (p10 (b + 1) == p10 b * 10)%Q) by (rewrite p10_plus; reflexivity).
  pose proof (p10_pos (a - b)). pose proof (p10_pos b). pose proof (p10_pos (a - b - 1)).
  destruct (n * 10 ^ Z.max 0 (- (a - b)) <? d * 10 ^ Z.max 0 (a - b)) eqn:E.
  - clear E. destruct T as [T _]. specialize (T eq_refl). replace (a - b - 1 + 1) with (a - b) by lia. split; auto. nra.
  - assert (F : ~ (inject_Z n < p10 (a - b) * inject_Z d)%Q) by (intros X; apply T in X; congruence).
    split; [lra|]. nra.
Qed.
Lemma Q_num_den q : (q * inject_Z (Zpos (Qden q)) == inject_Z (Qnum q))%Q.
Proof. destruct q as [n d]. unfold Qeq. simpl. lia. Qed.
Lemma log10_of q : (0 < q)%Q -> let e := qlog10 (Qnum q) (Zpos (Qden q)) in (p10 e <= q < p10 (e + 1))%Q.
Proof.
  intros H e. assert (Hn : 1 <= Qnum q) by (unfold Qlt in H; simpl in H; lia).
  destruct (qlog10_spec (Qnum q) (Zpos (Qden q)) Hn) as [H1 H2]; [lia|]. fold e in H1, H2.
  rewrite <- Q_num_den in H1, H2.
  assert (D : (0 < inject_Z (Zpos (Qden q)))%Q) by reflexivity.
  split.
  - apply Qmult_le_r in H1; auto.
  - apply Qmult_lt_r in H2; auto.
Qed.
Lemma log10_unique a b q : (p10 a <= q < p10 (a + 1))%Q -> (p10 b <= q < p10 (b + 1))%Q -> a = b.
Proof.
  intros [H1 H2] [H3 H4]. assert (a < b + 1) by (apply p10_lt_inv; lra). assert (b < a + 1) by (apply p10_lt_inv; lra). lia.
Qed.

(** ** Six significant digits *)
Lemma sig6_scale e q : (q * inject_Z (10 ^ Z.max 0 (5 - e)) / inject_Z (10 ^ Z.max 0 (e - 5)) == q * p10 (5 - e))%Q.
Proof.
  rewrite <- !p10_Z by lia. destruct (Z_le_gt_dec 0 (5 - e)) as [L|L].
  - rewrite Z.max_r, Z.max_l by lia. rewrite p10_0. field.
  - rewrite Z.max_l, Z.max_r by lia. rewrite p10_0. replace (5 - e) with (- (e - 5)) by lia. rewrite p10_opp. field.
    pose proof (p10_pos (e - 5)). lra.
Qed.
Lemma rhe_eq a b : (a == b)%Q -> rhe a = rhe b.
Proof.
  intros H. unfold rhe. rewrite (Qfloor_comp a b H).
  assert (E : ((a - inject_Z (Qfloor b)) ?= 1 # 2)%Q = ((b - inject_Z (Qfloor b)) ?= 1 # 2)%Q).
  { apply Qcompare_comp. rewrite H. reflexivity. reflexivity. }
  rewrite E. auto.
Qed.
Lemma sig6_unfold q : sig6 q =
  let e := qlog10 (Qnum q) (Zpos (Qden q)) in let m := rhe (q * p10 (5 - e)) in
  if m =? 10 ^ 6 then (10 ^ 5, e + 1) else (m, e).
Proof. unfold sig6. cbv zeta. rewrite (rhe_eq _ _ (sig6_scale _ q)). reflexivity. Qed.
Lemma sig6_spec q m e : (0 < q)%Q -> sig6 q = (m, e) ->
  10 ^ 5 <= m < 10 ^ 6 /\ (- (q / 200000) <= q - inject_Z m * p10 (e - 5) <= q / 200000)%Q /\
  (p10 e - (1 # 2) * p10 (e - 6) <= q < p10 (e + 1))%Q /\ (- (1 # 2) * p10 (e - 5) <= q - inject_Z m * p10 (e - 5) <= (1 # 2) * p10 (e - 5))%Q.
Proof.
  intros Hq. rewrite sig6_unfold. cbv zeta. pose proof (log10_of q Hq) as [L1 L2].
  set (e0 := qlog10 (Qnum q) (Z.pos (Qden q))) in *.
  assert (E1 : (p10 e0 * p10 (5 - e0) == 100000)%Q) by (rewrite <- p10_plus; replace (e0 + (5 - e0)) with 5 by lia; reflexivity).
  assert (E2 : (p10 (e0 + 1) * p10 (5 - e0) == 1000000)%Q) by (rewrite <- p10_plus; replace (e0 + 1 + (5 - e0)) with 6 by lia; reflexivity).
  assert (E3 : (p10 (e0 - 5) * p10 (5 - e0) == 1)%Q) by (rewrite <- p10_plus; replace (e0 - 5 + (5 - e0)) with 0 by lia; reflexivity).
  pose proof (p10_pos (5 - e0)) as P. pose proof (p10_pos (e0 - 5)) as P'.
  set (x := (q * p10 (5 - e0))%Q) in *.
  assert (X : (100000 <= x < 1000000)%Q) by (unfold x; split; nra).
  assert (Qx : (q == x * p10 (e0 - 5))%Q) by (unfold x; rewrite <- Qmult_assoc, (Qmult_comm (p10 (5 - e0))), E3; ring).
  pose proof (rhe_err x) as [R1 R2].
  assert (M1 : 10 ^ 5 <= rhe x) by (apply rhe_mono_bound'; change (inject_Z (10 ^ 5)) with 100000%Q; lra).
  assert (M2 : rhe x <= 10 ^ 6) by (apply rhe_mono_bound; change (inject_Z (10 ^ 6)) with 1000000%Q; lra).
  assert (B : (- (q / 200000) <= q - inject_Z (rhe x) * p10 (e0 - 5) <= q / 200000)%Q).
  { rewrite Qx. unfold Qdiv. change (/ 200000)%Q with (1 # 200000). split; nra. }
  assert (B' : (- (1 # 2) * p10 (e0 - 5) <= q - inject_Z (rhe x) * p10 (e0 - 5) <= (1 # 2) * p10 (e0 - 5))%Q).
  { rewrite Qx. split; nra. }
  destruct (rhe x =? 10 ^ 6) eqn:Em; intros H; inversion H; subst; clear H.
  - apply Z.eqb_eq in Em. rewrite Em in B, B', R1, R2. change (inject_Z (10 ^ 6)) with 1000000%Q in *.
    assert (E4 : (p10 (e0 + 1 - 5) == p10 (e0 - 5) * 10)%Q).
    { replace (e0 + 1 - 5) with (e0 - 5 + 1) by lia. rewrite p10_plus. reflexivity. }
    assert (E5 : (p10 (e0 + 1) == p10 (e0 - 5) * 1000000)%Q).
    { replace (e0 + 1) with (e0 - 5 + 6) by lia. rewrite p10_plus. reflexivity. }
    assert (E6 : (p10 (e0 + 1 + 1) == p10 (e0 - 5) * 10000000)%Q).
    { replace (e0 + 1 + 1) with (e0 - 5 + 7) by lia. rewrite p10_plus. reflexivity. }
    assert (E7 : (p10 (e0 + 1 - 6) == p10 (e0 - 5))%Q) by (replace (e0 + 1 - 6) with (e0 - 5) by lia; reflexivity).
    change (Z.pow_pos 10 5) with 100000. change (inject_Z 100000) with 100000%Q. rewrite E4, E5, E6, E7.
    split; [lia|]. split; [|split]; lra.
  - apply Z.eqb_neq in Em. split; [lia|]. split; auto. split; auto. pose proof (p10_pos (e0 - 6)). lra.
Qed.
(** numbers within a relative 2^-40 of a six digit number print as that number *)
Definition close (x y : Q) : Prop := (- (y / (2 ^ 40)) <= x - y <= y / (2 ^ 40))%Q.
Lemma close_bounds x y : (0 < y)%Q -> close x y -> (y * (1 - (1 # 1000000000000)) < x < y * (1 + (1 # 1000000000000)))%Q.
Proof.
  unfold close. intros Hy [H1 H2]. change (2 ^ 40)%Q with (1099511627776)%Q in *. unfold Qdiv in *.
  change (/ 1099511627776)%Q with (1 # 1099511627776)%Q in *. split; nra.
Qed.
Lemma sig6_near q M s : 10 ^ 5 <= M < 10 ^ 6 -> close q (inject_Z M * p10 s) -> sig6 q = (M, s + 5).
Proof.
  intros [M1 M2] C. pose proof (p10_pos s) as P.
  assert (MQ : (100000 <= inject_Z M <= 999999)%Q).
  { change 100000%Q with (inject_Z 100000). change 999999%Q with (inject_Z 999999). rewrite !inject_Z_le'. lia. }
  apply close_bounds in C; [|nra]. destruct C as [C1 C2].
  assert (Hq : (0 < q)%Q) by nra.
  rewrite sig6_unfold. cbv zeta. pose proof (log10_of q Hq) as L. set (e0 := qlog10 (Qnum q) (Z.pos (Qden q))) in *.
  assert (S5 : (p10 (s + 5) == p10 s * 100000)%Q) by (rewrite p10_plus; reflexivity).
  assert (S6 : (p10 (s + 5 + 1) == p10 s * 1000000)%Q) by (replace (s + 5 + 1) with (s + 6) by lia; rewrite p10_plus; reflexivity).
  assert (S4 : (p10 (s + 4) == p10 s * 10000)%Q) by (rewrite p10_plus; reflexivity).
  assert (S41 : (p10 (s + 4 + 1) == p10 s * 100000)%Q) by (replace (s + 4 + 1) with (s + 5) by lia; rewrite p10_plus; reflexivity).
  destruct (Qlt_le_dec q (p10 (s + 5))) as [Lt|Ge].
  - assert (e0 = s + 4) as ->.
    { apply (log10_unique _ _ q); auto. rewrite S4, S41. rewrite S5 in Lt. split; nra. }
    assert (M = 10 ^ 5) as ->.
    { destruct (Z_le_gt_dec M 100000) as [G|G]; [lia|]. exfalso.
      assert (MQ' : (100001 <= inject_Z M)%Q) by (change 100001%Q with (inject_Z 100001); rewrite inject_Z_le'; lia).
      rewrite S5 in Lt. nra. }
    change (inject_Z (10 ^ 5)) with 100000%Q in *.
    assert (E : (p10 s * p10 (5 - (s + 4)) == 10)%Q) by (rewrite <- p10_plus; replace (s + (5 - (s + 4))) with 1 by lia; reflexivity).
    pose proof (p10_pos (5 - (s + 4))).
    assert (R : rhe (q * p10 (5 - (s + 4))) = 10 ^ 6).
    { apply rhe_near. change (inject_Z (10 ^ 6)) with 1000000%Q. split; nra. }
    rewrite R. simpl. f_equal. lia.
  - assert (e0 = s + 5) as ->.
    { apply (log10_unique _ _ q); auto. rewrite S5, S6 in *. split; nra. }
    assert (E : (p10 s * p10 (5 - (s + 5)) == 1)%Q) by (rewrite <- p10_plus; replace (s + (5 - (s + 5))) with 0 by lia; reflexivity).
    pose proof (p10_pos (5 - (s + 5))).
    assert (R : rhe (q * p10 (5 - (s + 5))) = M).
    { apply rhe_near. split; nra. }
    rewrite R. destruct (M =? 10 ^ 6) eqn:X; auto. apply Z.eqb_eq in X. lia.
Qed.
