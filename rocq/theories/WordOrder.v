(** Word comparison: equality is Leibniz equality on constructible words, the order is total. *)
From Coq Require Import Ascii String List Bool Arith ZArith QArith Qcanon Lia.
From Verif Require Import Base Num Regex Words BaseFacts.
Import ListNotations.
Local Open Scope nat_scope.

Lemma Qceqb_eq x y : Qceqb x y = true <-> x = y.
Proof.
  unfold Qceqb. split.
  - destruct (Qcompare (this x) (this y)) eqn:E; try discriminate. intros _. apply Qc_is_canon, Qeq_alt; auto.
  - intros ->. assert (E : (this y ?= this y)%Q = Eq) by (apply Qeq_alt; reflexivity). rewrite E. auto.
Qed.
Lemma text_eqb_eq a b : text_eqb a b = true <-> a = b.
Proof. unfold text_eqb. destruct (list_eq_dec ascii_dec a b); split; congruence. Qed.

Lemma text_compare_eq a b : text_compare a b = Eq <-> a = b.
Proof.
  revert b. induction a as [|x a IH]; intros [|y b]; simpl; split; intros H; try discriminate; auto.
  - destruct (Nat.compare_spec (code x) (code y)); try discriminate. apply IH in H. apply code_inj in H0. congruence.
  - inversion H; subst. rewrite Nat.compare_refl. apply IH; auto.
Qed.
Lemma text_compare_antisym a b : text_compare b a = CompOpp (text_compare a b).
Proof.
  revert b. induction a as [|x a IH]; intros [|y b]; simpl; auto.
  rewrite Nat.compare_antisym. destruct (code x ?= code y); simpl; auto.
Qed.
Lemma text_compare_trans a b c : text_compare a b = Lt -> text_compare b c = Lt -> text_compare a c = Lt.
Proof.
  revert b c. induction a as [|x a IH]; intros [|y b] [|z c]; simpl; auto; try discriminate.
  destruct (Nat.compare_spec (code x) (code y)); destruct (Nat.compare_spec (code y) (code z));
  intros H1 H2; try discriminate; destruct (Nat.compare_spec (code x) (code z)); auto; try lia.
  eapply IH; eauto.
Qed.

(** same kind of value *)
Definition same_kind (a b : value) : Prop :=
  match a, b with VFloat _, VFloat _ | VInt _, VInt _ | VStr _, VStr _ => True | _, _ => False end.
Definition vcmp (a b : value) : comparison :=
  match a, b with
  | VFloat x, VFloat y => Qcompare (this x) (this y)
  | VInt x, VInt y => Z.compare x y
  | VStr x, VStr y => text_compare x y
  | _, _ => Eq
  end.
Lemma value_compare_same a b : same_kind a b -> value_compare a b = Ok (vcmp a b).
Proof. destruct a, b; simpl; tauto. Qed.
Lemma vcmp_eq a b : same_kind a b -> vcmp a b = Eq <-> a = b.
Proof.
  destruct a, b; simpl; try tauto; intros _.
  - rewrite <- Qeq_alt. split; intros H. f_equal. apply Qc_is_canon; auto. inversion H; reflexivity.
  - rewrite Z.compare_eq_iff. split; congruence.
  - rewrite text_compare_eq. split; congruence.
Qed.
Lemma vcmp_antisym a b : same_kind a b -> vcmp b a = CompOpp (vcmp a b).
Proof.
  destruct a, b; simpl; try tauto; intros _.
  - symmetry. apply Qcompare_antisym.
  - apply Z.compare_antisym.
  - apply text_compare_antisym.
Qed.
Lemma vcmp_trans a b c : same_kind a b -> same_kind b c -> vcmp a b = Lt -> vcmp b c = Lt -> vcmp a c = Lt.
Proof.
  destruct a, b, c; simpl; try tauto; intros _ _.
  - rewrite <- !Qlt_alt. intros; eapply Qlt_trans; eauto.
  - rewrite !Z.compare_lt_iff. lia.
  - apply text_compare_trans.
Qed.
Lemma value_eqb_same a b : same_kind a b -> value_eqb a b = true <-> a = b.
Proof.
  destruct a, b; simpl; try tauto; intros _.
  - rewrite Qceqb_eq. split; congruence.
  - rewrite Z.eqb_eq. split; congruence.
  - rewrite text_eqb_eq. split; congruence.
Qed.
Lemma wf_same_kind a b : word_wf a -> word_wf b -> wletter a = wletter b -> same_kind (wvalue a) (wvalue b).
Proof.
  unfold word_wf. intros Ha Hb E. rewrite <- E in Hb. destruct (letter_class (wletter a)), (wvalue a), (wvalue b); simpl in *; tauto.
Qed.
Lemma word_eqb_eq a b : word_wf a -> word_wf b -> word_eqb a b = true <-> a = b.
Proof.
  intros Ha Hb. unfold word_eqb. rewrite andb_true_iff, letter_eqb_eq. split.
  - intros [H1 H2]. apply value_eqb_same in H2; [|apply wf_same_kind; auto]. destruct a, b; simpl in *; congruence.
  - intros ->. split; auto. apply value_eqb_same; auto. apply wf_same_kind; auto.
Qed.
Lemma Qceqb_refl x : Qceqb x x = true. Proof. apply Qceqb_eq; auto. Qed.
Lemma word_eqb_refl a : word_eqb a a = true.
Proof.
  unfold word_eqb. rewrite letter_eqb_refl. destruct (wvalue a); simpl.
  apply Qceqb_refl. apply Z.eqb_refl. apply text_eqb_eq; auto.
Qed.

(** the comparison of two constructible words *)
Definition wcmp (a b : word) : comparison :=
  match Nat.compare (lnum (wletter a)) (lnum (wletter b)) with Eq => vcmp (wvalue a) (wvalue b) | c => c end.
Lemma word_compare_wcmp a b : word_wf a -> word_wf b -> word_compare a b = Ok (wcmp a b).
Proof.
  intros Ha Hb. unfold word_compare, wcmp. destruct (Nat.compare_spec (lnum (wletter a)) (lnum (wletter b))); auto.
  apply value_compare_same, wf_same_kind; auto. apply lnum_inj; auto.
Qed.
Lemma wcmp_eq a b : word_wf a -> word_wf b -> wcmp a b = Eq <-> a = b.
Proof.
  intros Ha Hb. unfold wcmp. split.
  - destruct (Nat.compare_spec (lnum (wletter a)) (lnum (wletter b))); try discriminate. apply lnum_inj in H.
    intros H1. apply vcmp_eq in H1; [|apply wf_same_kind; auto]. destruct a, b; simpl in *; congruence.
  - intros ->. rewrite Nat.compare_refl. apply vcmp_eq; auto. apply wf_same_kind; auto.
Qed.
Lemma wcmp_antisym a b : word_wf a -> word_wf b -> wcmp b a = CompOpp (wcmp a b).
Proof.
  intros Ha Hb. unfold wcmp. rewrite Nat.compare_antisym.
  destruct (Nat.compare_spec (lnum (wletter a)) (lnum (wletter b))); simpl; auto.
  apply vcmp_antisym, wf_same_kind; auto. apply lnum_inj; auto.
Qed.
Lemma wcmp_trans a b c : word_wf a -> word_wf b -> word_wf c -> wcmp a b = Lt -> wcmp b c = Lt -> wcmp a c = Lt.
Proof.
  intros Ha Hb Hc. unfold wcmp.
  destruct (Nat.compare_spec (lnum (wletter a)) (lnum (wletter b))); try discriminate;
  destruct (Nat.compare_spec (lnum (wletter b)) (lnum (wletter c))); try discriminate;
  destruct (Nat.compare_spec (lnum (wletter a)) (lnum (wletter c))); auto; try lia.
  apply vcmp_trans; apply wf_same_kind; auto; apply lnum_inj; auto.
Qed.

Section WithArith.
Context {ar : Arith}.
Lemma coerce_wf l v v' : coerce l v = Ok v' -> word_wf (Word l v').
Proof.
  unfold coerce, word_wf. simpl. destruct (letter_class l); destruct v; simpl; intros H; try discriminate;
  try (inversion H; subst; exact I).
  - destruct (py_float s); simpl in H; inversion H; exact I.
  - destruct (py_int s); simpl in H; inversion H; exact I.
Qed.
Lemma mk_word_wf l v w : mk_word l v = Ok w -> word_wf w.
Proof.
  unfold mk_word. destruct (coerce l v) eqn:E; simpl; intros H; inversion H; subst. eapply coerce_wf; eauto.
Qed.
Lemma mk_word_letter l v w : mk_word l v = Ok w -> wletter w = l.
Proof. unfold mk_word. destruct (coerce l v) eqn:E; simpl; intros H; inversion H; subst; auto. Qed.
Lemma text2words_wf s ws : text2words s = Ok ws -> Forall word_wf ws.
Proof.
  unfold text2words. generalize (S (length s)). intros n. revert s ws. induction n as [|n IH]; simpl; intros s ws H; [discriminate|].
  destruct (search next_word s) as [m|]; [|destruct (existsb _ s); inversion H; constructor].
  destruct (group m 1) as [[|c [|? ?]]|]; try discriminate. destruct (letter_of_ascii c) as [l|]; try discriminate.
  destruct (search (value_regex l) _) as [v|]; try discriminate.
  destruct (mk_word l (VStr (mtext v))) as [w|] eqn:E; simpl in H; [|discriminate].
  destruct (text2words_fuel n _) as [ws'|] eqn:E'; simpl in H; [|discriminate]. inversion H; subst.
  constructor; eauto. eapply mk_word_wf; eauto.
Qed.
End WithArith.
