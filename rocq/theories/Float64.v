(** binary64 rounding is monotone, idempotent and odd. *)
From Coq Require Import List Bool Arith Setoid Morphisms ZArith QArith Qcanon Qround Qabs Qpower Lia Lqa.
From Verif Require Import Base Num NumFacts PrintSpec PrintProofs ArithSpec.
Open Scope Z_scope.

Lemma rhe_tie q : (q - inject_Z (rhe q) == 1 # 2 \/ q - inject_Z (rhe q) == - (1 # 2))%Q -> Z.even (rhe q) = true.
Proof.
  unfold rhe. pose proof (Qfloor_le q) as H1. pose proof (Qlt_floor q) as H2. rewrite inject_Z_plus in H2. change (inject_Z 1) with 1%Q in H2.
  destruct (Qcompare (q - inject_Z (Qfloor q)) (1 # 2)) eqn:E.
  - intros _. destruct (Z.even (Qfloor q)) eqn:Ev; auto. rewrite Z.even_add, Ev. reflexivity.
  - apply Qlt_alt in E. intros [H|H]; exfalso; lra.
  - apply Qgt_alt in E. rewrite inject_Z_plus. change (inject_Z 1) with 1%Q. intros [H|H]; exfalso; lra.
Qed.
Lemma rhe_mono a b : (a <= b)%Q -> rhe a <= rhe b.
Proof.
  intros H. destruct (Z_le_gt_dec (rhe a) (rhe b)) as [L|L]; auto. exfalso.
  pose proof (rhe_err a) as [A1 A2]. pose proof (rhe_err b) as [B1 B2].
  assert (G : rhe b + 1 <= rhe a) by lia. apply (proj2 (inject_Z_le' _ _)) in G. rewrite inject_Z_plus in G. change (inject_Z 1) with 1%Q in G.
  assert (E : (a == b)%Q) by lra. apply rhe_eq in E. lia.
Qed.
Lemma rhe_opp q : rhe (- q) = - rhe q.
Proof.
  pose proof (rhe_err q) as [A1 A2]. pose proof (rhe_err (- q)) as [B1 B2].
  assert (T1 := rhe_tie q). assert (T2 := rhe_tie (- q)). set (n := rhe q) in *. set (m := rhe (- q)) in *.
  assert (C : - 1 <= m + n <= 1).
  { split; [|]; apply (proj1 (inject_Z_le' _ _)); rewrite inject_Z_plus; [change (inject_Z (-1)) with (-1)%Q|change (inject_Z 1) with 1%Q]; lra. }
  assert (D : m + n = 0 \/ m + n = 1 \/ m + n = -1) by lia. destruct D as [D|D]; [lia|]. exfalso.
  assert (Q1 : (inject_Z m + inject_Z n == 1 \/ inject_Z m + inject_Z n == -1)%Q).
  { rewrite <- inject_Z_plus. destruct D as [-> | ->]; [left|right]; reflexivity. }
  assert (E1 : Z.even n = true). { apply T1. destruct Q1; [right|left]; lra. }
  assert (E2 : Z.even m = true). { apply T2. destruct Q1; [right|left]; lra. }
  assert (E3 : Z.even (m + n) = true) by (rewrite Z.even_add, E1, E2; reflexivity). destruct D as [D|D]; rewrite D in E3; discriminate.
Qed.
Lemma rhe_Z n : rhe (inject_Z n) = n.
Proof. apply rhe_near. lra. Qed.

Lemma qlog2_high q : (~ q == 0)%Q -> (Qabs q < p2 (qlog2 q + 1))%Q.
Proof.
  intros Hq. unfold qlog2. set (n := Z.abs (Qnum q)). set (d := Zpos (Qden q)).
  assert (Hn : 0 < n) by (unfold n; assert (Qnum q <> 0) by (intros E; apply Hq; unfold Qeq; rewrite E; auto); lia).
  assert (Hd : 0 < d) by (unfold d; lia).
  assert (AQ : (Qabs q * inject_Z d == inject_Z n)%Q). { unfold n, d. destruct q as [a b]. unfold Qabs, Qeq. simpl. lia. }
  destruct (Z.log2_spec n Hn) as [N1 N2]. destruct (Z.log2_spec d Hd) as [D1 D2].
  pose proof (Z.log2_nonneg n) as N0. pose proof (Z.log2_nonneg d) as D0.
  set (a := Z.log2 n) in *. set (b := Z.log2 d) in *. replace (Z.succ a) with (a + 1) in N2 by lia. replace (Z.succ b) with (b + 1) in D2 by lia.
  assert (T : n * 2 ^ Z.max 0 (- (a - b)) <? d * 2 ^ Z.max 0 (a - b) = true <-> (inject_Z n < p2 (a - b) * inject_Z d)%Q).
  { rewrite Z.ltb_lt. rewrite <- inject_Z_lt', !inject_Z_mult, <- !p2_Z by lia.
    assert (P0 : (p2 0 == 1)%Q) by reflexivity.
    destruct (Z_le_gt_dec 0 (a - b)) as [L|L].
    - rewrite Z.max_l, Z.max_r, P0 by lia. split; intros; lra.
    - rewrite Z.max_r, Z.max_l, P0 by lia. pose proof (p2_pos (- (a - b))). pose proof (p2_pos (a - b)).
      pose proof (p2_inv (a - b)) as I. rewrite <- (Qmult_lt_r (inject_Z n * p2 (- (a - b))) _ (p2 (a - b))) by auto.
      assert (J : (inject_Z n * p2 (- (a - b)) * p2 (a - b) == inject_Z n)%Q) by (rewrite <- Qmult_assoc, (Qmult_comm (p2 (- (a - b)))), I; ring).
      rewrite J. split; intros; lra. }
  apply (proj2 (inject_Z_le' _ _)) in N1, D1. apply (proj2 (inject_Z_lt' _ _)) in N2, D2. rewrite <- p2_Z in * by lia.
  assert (E1 : (p2 (a + 1) == p2 (a - b + 1) * p2 b)%Q) by (rewrite <- p2_plus; replace (a - b + 1 + b) with (a + 1) by lia; reflexivity).
  pose proof (p2_pos (a - b)). pose proof (p2_pos b). pose proof (p2_pos (a - b + 1)).
  assert (Dq : (0 < inject_Z d)%Q) by reflexivity.
  apply (proj1 (Qmult_lt_r _ _ _ Dq)). rewrite AQ.
  destruct (n * 2 ^ Z.max 0 (- (a - b)) <? d * 2 ^ Z.max 0 (a - b)) eqn:E.
  - replace (a - b - 1 + 1) with (a - b) by lia. apply T. auto.
  - nra.
Qed.
Lemma p2_lt_inv a b : (p2 a < p2 b)%Q -> a < b.
Proof. intros H. destruct (Z_lt_le_dec a b) as [L|L]; auto. apply p2_le in L. lra. Qed.
Lemma p2_lt a b : a < b -> (p2 a < p2 b)%Q.
Proof.
  intros H. assert (L : a + 1 <= b) by lia. apply p2_le in L. rewrite p2_plus in L. change (p2 1) with 2%Q in L. pose proof (p2_pos a). lra.
Qed.
Lemma qlog2_unique a q : (p2 a <= Qabs q < p2 (a + 1))%Q -> qlog2 q = a.
Proof.
  intros [H1 H2]. assert (Hq : (~ q == 0)%Q).
  { intros E. assert (X : (Qabs q == 0)%Q) by (rewrite E; reflexivity). pose proof (p2_pos a). lra. }
  pose proof (qlog2_low q Hq). pose proof (qlog2_high q Hq).
  assert (qlog2 q < a + 1) by (apply p2_lt_inv; lra). assert (a < qlog2 q + 1) by (apply p2_lt_inv; lra). lia.
Qed.

(** the rounding as a function on Q *)
Definition expo (q : Q) : Z := Z.max (qlog2 q - 52) (-1074).
Definition rq (q : Q) : Q := (inject_Z (rhe (q * p2 (- expo q))) * p2 (expo q))%Q.
Lemma p2_nz e : (~ p2 e == 0)%Q. Proof. pose proof (p2_pos e). lra. Qed.
Lemma rnd64_rq x : (~ this x == 0)%Q -> (this (rnd64 x) == rq (this x))%Q.
Proof.
  intros H. unfold rnd64. assert (E : Qnum (this x) =? 0 = false). { apply Z.eqb_neq. intros E. apply H. unfold Qeq. rewrite E. reflexivity. }
  rewrite E. fold (expo (this x)). cbn [this Q2Qc]. rewrite Qred_correct. unfold rq.
  assert (F : (this x / zpow2 (expo (this x)) == this x * p2 (- expo (this x)))%Q).
  { unfold Qdiv. rewrite (zpow2_p2 (expo (this x))), p2_opp. reflexivity. }
  rewrite (rhe_eq _ _ F), (zpow2_p2 (expo (this x))). reflexivity.
Qed.
Lemma rnd64_zero x : (this x == 0)%Q -> rnd64 x = x.
Proof. intros H. unfold rnd64. destruct (this x) as [a b] eqn:E. unfold Qeq in H. simpl in H. assert (a = 0) by lia. subst. reflexivity. Qed.
Lemma expo_eq a b : (a == b)%Q -> (~ a == 0)%Q -> expo a = expo b.
Proof.
  intros H N. unfold expo. assert (E : qlog2 b = qlog2 a); [|rewrite E; auto]. apply qlog2_unique. rewrite <- H. split. apply qlog2_low; auto. apply qlog2_high; auto.
Qed.
Lemma rq_eq a b : (a == b)%Q -> (~ a == 0)%Q -> (rq a == rq b)%Q.
Proof.
  intros H N. unfold rq. rewrite <- (expo_eq a b H N). assert (E : (a * p2 (- expo a) == b * p2 (- expo a))%Q) by (apply Qmult_comp; [exact H|reflexivity]). rewrite (rhe_eq _ _ E). reflexivity.
Qed.
Lemma rq_opp a : (~ a == 0)%Q -> (rq (- a) == - rq a)%Q.
Proof.
  intros N. unfold rq.
  assert (E : expo (- a) = expo a).
  { unfold expo. assert (E : qlog2 (- a) = qlog2 a); [|rewrite E; auto]. apply qlog2_unique. rewrite Qabs_opp. split. apply qlog2_low; auto. apply qlog2_high; auto. }
  rewrite E. assert (F : (- a * p2 (- expo a) == - (a * p2 (- expo a)))%Q) by ring. rewrite (rhe_eq _ _ F), rhe_opp, inject_Z_opp. ring.
Qed.
(** rounding respects a power of two in reach *)
Lemma rq_le_p2 a k : (0 < a)%Q -> (a <= p2 k)%Q -> expo a <= k -> (rq a <= p2 k)%Q.
Proof.
  intros P H K. unfold rq. set (e := expo a) in *. assert (E : (p2 k == inject_Z (2 ^ (k - e)) * p2 e)%Q).
  { rewrite <- p2_Z by lia. rewrite <- p2_plus. replace (k - e + e) with k by lia. reflexivity. }
  rewrite E. apply Qmult_le_compat_r; [|pose proof (p2_pos e); lra]. apply (proj2 (inject_Z_le' _ _)). apply rhe_mono_bound.
  rewrite <- p2_Z by lia. apply (proj1 (Qmult_le_r _ _ _ (p2_pos e))).
  assert (I : (a * p2 (- e) * p2 e == a)%Q). { rewrite <- Qmult_assoc, (Qmult_comm (p2 (- e))), p2_inv. ring. }
  rewrite I, <- p2_plus. replace (k - e + e) with k by lia. auto.
Qed.
Lemma rq_ge_p2 a k : (0 < a)%Q -> (p2 k <= a)%Q -> expo a <= k -> (p2 k <= rq a)%Q.
Proof.
  intros P H K. unfold rq. set (e := expo a) in *. assert (E : (p2 k == inject_Z (2 ^ (k - e)) * p2 e)%Q).
  { rewrite <- p2_Z by lia. rewrite <- p2_plus. replace (k - e + e) with k by lia. reflexivity. }
  rewrite E. apply Qmult_le_compat_r; [|pose proof (p2_pos e); lra]. apply (proj2 (inject_Z_le' _ _)). apply rhe_mono_bound'.
  rewrite <- p2_Z by lia. apply (proj1 (Qmult_le_r _ _ _ (p2_pos e))).
  assert (I : (a * p2 (- e) * p2 e == a)%Q). { rewrite <- Qmult_assoc, (Qmult_comm (p2 (- e))), p2_inv. ring. }
  rewrite I, <- p2_plus. replace (k - e + e) with k by lia. auto.
Qed.
Lemma rq_nonneg a : (0 < a)%Q -> (0 <= rq a)%Q.
Proof.
  intros P. unfold rq. pose proof (p2_pos (expo a)). pose proof (p2_pos (- expo a)).
  assert (0 <= rhe (a * p2 (- expo a))). { apply rhe_mono_bound'. change (inject_Z 0) with 0%Q. apply Qmult_le_0_compat; lra. }
  apply Qmult_le_0_compat; [|lra]. change 0%Q with (inject_Z 0). apply (proj2 (inject_Z_le' _ _)). auto.
Qed.
Lemma pos_nz a : (0 < a)%Q -> (~ a == 0)%Q. Proof. intros; lra. Qed.
Lemma rq_mono_pos a b : (0 < a)%Q -> (a <= b)%Q -> (rq a <= rq b)%Q.
Proof.
  intros P H. assert (Pb : (0 < b)%Q) by lra.
  pose proof (qlog2_low a (pos_nz a P)) as A1. pose proof (qlog2_high a (pos_nz a P)) as A2.
  pose proof (qlog2_low b (pos_nz b Pb)) as B1. pose proof (qlog2_high b (pos_nz b Pb)) as B2.
  rewrite Qabs_pos in A1, A2, B1, B2 by lra.
  assert (L : qlog2 a <= qlog2 b). { assert (qlog2 a < qlog2 b + 1) by (apply p2_lt_inv; lra). lia. }
  destruct (Z.eq_dec (expo a) (expo b)) as [E|E].
  - unfold rq. rewrite E. apply Qmult_le_compat_r; [|pose proof (p2_pos (expo b)); lra]. apply (proj2 (inject_Z_le' _ _)). apply rhe_mono.
    apply Qmult_le_compat_r; auto. pose proof (p2_pos (- expo b)). lra.
  - assert (EB : expo a < expo b /\ expo b = qlog2 b - 52) by (unfold expo in *; lia).
    assert (K : (rq a <= p2 (Z.max (qlog2 a + 1) (expo a)))%Q).
    { apply rq_le_p2; auto; [|lia]. eapply Qle_trans; [apply Qlt_le_weak; exact A2|]. apply p2_le. lia. }
    assert (K2 : (p2 (qlog2 b) <= rq b)%Q) by (apply rq_ge_p2; auto; lia).
    eapply Qle_trans; [exact K|]. eapply Qle_trans; [|exact K2]. apply p2_le. unfold expo in *. lia.
Qed.
Lemma rnd64_pos x : (0 <= this x)%Q -> (0 <= this (rnd64 x))%Q.
Proof.
  intros H. destruct (Qeq_dec (this x) 0) as [E|E]; [rewrite rnd64_zero by auto; auto|]. rewrite rnd64_rq by auto. apply rq_nonneg. lra.
Qed.
Lemma this_opp x : (this (- x)%Qc == - this x)%Q. Proof. unfold Qcopp. cbn [this Q2Qc]. apply Qred_correct. Qed.
Theorem binary64_odd : odd binary64.
Proof.
  intros x. cbn [rnd binary64]. apply Qc_is_canon. rewrite this_opp. destruct (Qeq_dec (this x) 0) as [E|E].
  - rewrite (rnd64_zero x) by auto. rewrite rnd64_zero; [apply this_opp|]. rewrite this_opp, E. reflexivity.
  - rewrite rnd64_rq by (rewrite this_opp; lra). rewrite rnd64_rq by auto. rewrite (rq_eq _ (- this x)); [|apply this_opp|rewrite this_opp; lra]. apply rq_opp; auto.
Qed.
Theorem binary64_monotone : monotone binary64.
Proof.
  intros x y H. cbn [rnd binary64]. unfold Qcle in *.
  assert (POS : forall x y, (0 <= this x)%Q -> (this x <= this y)%Q -> (this (rnd64 x) <= this (rnd64 y))%Q).
  { clear. intros x y P H. destruct (Qeq_dec (this x) 0) as [E|E].
    - rewrite rnd64_zero by auto. rewrite E. apply rnd64_pos. lra.
    - rewrite !rnd64_rq by lra. apply rq_mono_pos; lra. }
  destruct (Qlt_le_dec (this x) 0) as [Nx|Px]; [|apply POS; auto].
  assert (OX : (this (rnd64 x) == - this (rnd64 (- x)%Qc))%Q). { pose proof (binary64_odd x) as O. cbn [rnd binary64] in O. rewrite O, this_opp. lra. }
  assert (OY : (this (rnd64 y) == - this (rnd64 (- y)%Qc))%Q). { pose proof (binary64_odd y) as O. cbn [rnd binary64] in O. rewrite O, this_opp. lra. }
  destruct (Qlt_le_dec (this y) 0) as [Ny|Py].
  - assert (K : (this (rnd64 (- y)%Qc) <= this (rnd64 (- x)%Qc))%Q). { apply POS; rewrite !this_opp; lra. } lra.
  - assert (K1 : (0 <= this (rnd64 (- x)%Qc))%Q). { apply rnd64_pos; rewrite this_opp; lra. } pose proof (rnd64_pos y Py). lra.
Qed.
(** numbers of 53 bits are floats *)
Lemma rq_exact n e : 0 < n <= 2 ^ 53 -> -1074 <= e -> (rq (inject_Z n * p2 e) == inject_Z n * p2 e)%Q.
Proof.
  intros [N1 N2] He. set (q := (inject_Z n * p2 e)%Q).
  assert (Nq : (0 < inject_Z n)%Q) by (change 0%Q with (inject_Z 0); apply (proj2 (inject_Z_lt' _ _)); auto).
  assert (P : (0 < q)%Q). { unfold q. pose proof (p2_pos e). apply Qmult_lt_0_compat; auto. }
  pose proof (qlog2_low q (pos_nz q P)) as A1. rewrite Qabs_pos in A1 by lra.
  assert (U : (q <= p2 (53 + e))%Q). { unfold q. rewrite p2_plus. apply Qmult_le_compat_r; [|pose proof (p2_pos e); lra]. rewrite p2_Z by lia. apply (proj2 (inject_Z_le' _ _)). auto. }
  assert (L : qlog2 q <= 53 + e). { destruct (Z_le_gt_dec (qlog2 q) (53 + e)) as [L|L]; auto. assert (X := p2_lt (53 + e) (qlog2 q)). assert (53 + e < qlog2 q) by lia. specialize (X H). lra. }
  assert (C : expo q <= e \/ (n = 2 ^ 53 /\ expo q = e + 1)).
  { unfold expo in *. destruct (Z.eq_dec (qlog2 q) (53 + e)) as [E|E]; [|left; lia]. right. split; [|lia].
    assert (X : (p2 (53 + e) <= q)%Q) by (rewrite <- E; auto). unfold q in X. rewrite p2_plus in X. apply (proj1 (Qmult_le_r _ _ _ (p2_pos e))) in X. rewrite p2_Z in X by lia. apply (proj1 (inject_Z_le' _ _)) in X. lia. }
  unfold rq. assert (I : exists z, (q * p2 (- expo q) == inject_Z z)%Q).
  { destruct C as [C|[-> C]].
    - exists (n * 2 ^ (e - expo q)). rewrite inject_Z_mult, <- p2_Z by lia. unfold q. rewrite <- Qmult_assoc, <- p2_plus. replace (e + - expo q) with (e - expo q) by lia. reflexivity.
    - exists (2 ^ 52). rewrite C. unfold q. rewrite <- !p2_Z by lia. rewrite <- !p2_plus. replace (53 + e + - (e + 1)) with 52 by lia. reflexivity. }
  destruct I as (z & I). rewrite (rhe_eq _ _ I), rhe_Z. rewrite <- I. rewrite <- Qmult_assoc, (Qmult_comm (p2 (- expo q))), p2_inv. ring.
Qed.
Lemma rhe_bound a : (0 < a)%Q -> rhe (a * p2 (- expo a)) <= 2 ^ 53.
Proof.
  intros P. apply rhe_mono_bound. rewrite <- p2_Z by lia. apply (proj1 (Qmult_le_r _ _ _ (p2_pos (expo a)))).
  assert (I : (a * p2 (- expo a) * p2 (expo a) == a)%Q). { rewrite <- Qmult_assoc, (Qmult_comm (p2 (- expo a))), p2_inv. ring. }
  rewrite I, <- p2_plus. pose proof (qlog2_high a (pos_nz a P)) as H. rewrite Qabs_pos in H by lra. eapply Qle_trans; [apply Qlt_le_weak; exact H|]. apply p2_le. unfold expo. lia.
Qed.
Theorem binary64_idempotent : idempotent binary64.
Proof.
  intros x. cbn [rnd binary64].
  assert (POS : forall x, (0 < this x)%Q -> rnd64 (rnd64 x) = rnd64 x).
  { clear. intros x P. apply Qc_is_canon. destruct (Qeq_dec (this (rnd64 x)) 0) as [E|E]; [rewrite rnd64_zero by auto; reflexivity|].
    rewrite rnd64_rq by auto. pose proof (rnd64_rq x (pos_nz _ P)) as R. rewrite (rq_eq _ _ R) by auto. rewrite R. unfold rq at 2 3. apply rq_exact.
    - split; [|apply rhe_bound; auto]. assert (S : 0 <= rhe (this x * p2 (- expo (this x)))).
      { apply rhe_mono_bound'. change (inject_Z 0) with 0%Q. pose proof (p2_pos (- expo (this x))). apply Qmult_le_0_compat; lra. }
      destruct (Z.eq_dec (rhe (this x * p2 (- expo (this x)))) 0) as [Z0|Z0]; [|lia]. exfalso. apply E. rewrite R. unfold rq. rewrite Z0. reflexivity.
    - unfold expo. lia. }
  destruct (Qeq_dec (this x) 0) as [E|E]; [rewrite (rnd64_zero x) by auto; apply rnd64_zero; auto|].
  destruct (Qlt_le_dec 0 (this x)) as [P|N]; [apply POS; auto|].
  assert (O : forall y, rnd64 y = (- rnd64 (- y))%Qc). { intros y. pose proof (binary64_odd y) as O. cbn [rnd binary64] in O. rewrite O. ring. }
  pose proof (binary64_odd (rnd64 (- x))) as O1. cbn [rnd binary64] in O1. rewrite (O x), O1, (POS (- x)%Qc); auto. rewrite this_opp. lra.
Qed.
Theorem exact_monotone : monotone exact_arith. Proof. intros x y H. exact H. Qed.
Theorem exact_idempotent : idempotent exact_arith. Proof. intros x. reflexivity. Qed.
Theorem exact_odd : odd exact_arith. Proof. intros x. reflexivity. Qed.
Lemma odd_zero ar : odd ar -> rnd (Q2Qc 0) = Q2Qc 0.
Proof.
  intros O. pose proof (O (Q2Qc 0)) as H. replace (- Q2Qc 0)%Qc with (Q2Qc 0) in H by (apply Qc_is_canon; reflexivity). set (z := rnd (Q2Qc 0)) in *.
  apply Qc_is_canon. assert (E : (this z == - this z)%Q) by (rewrite <- this_opp, <- H; reflexivity). change (this (Q2Qc 0)) with 0%Q. lra.
Qed.
