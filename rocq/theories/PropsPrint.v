(** C06-C08: printing words and reading them back. *)
From Coq Require Import Ascii String List Bool Arith ZArith QArith Qcanon Qround Qabs Qpower Lia Lqa.
From Verif Require Import Base Num Words BaseFacts WordsSpec WordsProofs WordsProofs2 NumFacts PrintSpec PrintProofs PrintProofs2.
Import ListNotations.
Open Scope Z_scope.

(** binary64 and exact arithmetic meet the hypothesis of the theorems of this file. *)
Theorem C06_arith : accurate binary64 /\ accurate exact_arith.
Proof. split. exact binary64_accurate. exact exact_accurate. Qed.
Print Assumptions C06_arith.

Lemma tri a b c : (Qabs (a - c) <= Qabs (a - b) + Qabs (b - c))%Q.
Proof. assert (E : (a - c == (a - b) + (b - c))%Q) by ring. rewrite E. apply Qabs_triangle. Qed.
Lemma tri0 a b : (Qabs a <= Qabs b + Qabs (a - b))%Q.
Proof. assert (E : (a == b + (a - b))%Q) by ring. rewrite E at 1. apply Qabs_triangle. Qed.

(** ** C06: a printed coordinate reads back as the nearest six digit decimal of the value in thousandths. *)
Theorem C06_digits : forall (ar : Arith) (l : letter) (v : Qc), accurate ar -> letter_kind l = KFloat -> (Qabs v <= 999999)%Q ->
  exists (j : Z) (d : Qc),
    text2words (word_str (Word l (VFloat v))) = Ok [Word l (VFloat (rnd d))] /\
    (Qabs (thousandths j - v)%Qc <= 1 # 2000)%Q /\
    six_digits d /\ (Qabs (d - rnd (thousandths j))%Qc <= Qabs (rnd (thousandths j)) / 200000)%Q.
Proof.
  intros ar l v acc K Hv. destruct (float_prints acc l v K Hv) as (s & d & E & V1 & V2 & S & B & _ & _).
  exists (rhe (this v * 1000)), d. rewrite E. split. { apply single_reads; auto. rewrite K; auto. }
  split. { rewrite this_sub. unfold thousandths. rewrite this_frac. pose proof (rhe_err (this v * 1000)) as [R1 R2].
    assert (X : (rhe (this v * 1000) # 1000 == inject_Z (rhe (this v * 1000)) * (1 # 1000))%Q) by (unfold Qeq; simpl; lia).
    apply Qabs_bounds. rewrite X. split; lra. }
  split; auto. rewrite this_sub. exact B.
Qed.
Print Assumptions C06_digits.
Theorem C06_error : forall (ar : Arith) (l : letter) (v : Qc), accurate ar -> letter_kind l = KFloat -> (Qabs v <= 999999)%Q ->
  exists w : Qc, text2words (word_str (Word l (VFloat v))) = Ok [Word l (VFloat w)] /\
    (Qabs (w - v)%Qc <= (1 # 1999) + Qabs v / 199999)%Q.
Proof.
  intros ar l v acc K Hv. destruct (float_prints acc l v K Hv) as (s & d & E & V1 & V2 & S & B & X0 & _).
  exists (rnd d). rewrite E. split. { apply single_reads; auto. rewrite K; auto. }
  set (j := rhe (this v * 1000)) in *. rewrite this_sub.
  assert (B0 : (Qabs ((j # 1000) - v) <= 1 # 2000)%Q).
  { pose proof (rhe_err (this v * 1000)) as [R1 R2]. fold j in R1, R2.
    assert (X : (j # 1000 == inject_Z j * (1 # 1000))%Q) by (unfold Qeq; simpl; lia).
    apply Qabs_bounds. rewrite X. split; lra. }
  pose proof (Qabs_nonneg v) as Pv. unfold Qdiv in *. change (/ 199999)%Q with (1 # 199999). change (/ 200000)%Q with (1 # 200000) in B.
  destruct (Z.eq_dec j 0) as [J|J].
  - rewrite X0 by (rewrite J; reflexivity). rewrite J in *. unfold thousandths. rewrite rnd_frac0 by auto.
    assert (Y : (0 # 1000 == 0)%Q) by reflexivity. rewrite Y in B0. change (this 0%Qc) with 0%Q. lra.
  - assert (Hx : (1 # 1000 <= Qabs (j # 1000))%Q) by (unfold Qabs, Qle; simpl; lia).
    destruct acc as [_ A]. pose proof (A (thousandths j)) as A1. rewrite this_sub in A1. unfold thousandths at 1 3 4 in A1. rewrite !this_frac in A1.
    fold (thousandths j) in A1. specialize (A1 ltac:(lra)).
    set (r := this (rnd (thousandths j))) in *. cbv zeta in B.
    assert (E40 : forall x, (x / (2 ^ 40) == x * (1 # 1099511627776))%Q) by (intros; reflexivity). rewrite E40 in A1.
    pose proof (tri0 (j # 1000) v) as T1. pose proof (tri0 r (j # 1000)) as T2. pose proof (tri0 (this d) r) as T3.
    pose proof (tri0 (j # 1000) r) as T2'. pose proof (tri0 r (this d)) as T3'.
    assert (C1 : (Qabs ((j # 1000) - r) == Qabs (r - (j # 1000)))%Q) by (rewrite Qabs_Qminus; reflexivity).
    assert (C2 : (Qabs (r - this d) == Qabs (this d - r))%Q) by (rewrite Qabs_Qminus; reflexivity).
    pose proof (A d) as A2. rewrite this_sub, E40 in A2. specialize (A2 ltac:(lra)).
    pose proof (tri (this (rnd d)) (this d) (this v)) as U1. pose proof (tri (this d) r (this v)) as U2. pose proof (tri r (j # 1000) (this v)) as U3.
    lra.
Qed.
Print Assumptions C06_error.
Theorem C06_exact : forall (ar : Arith) (l : letter) (n : Z), accurate ar -> letter_kind l = KFloat -> Z.abs n < 1000000 ->
  let w := Word l (VFloat (rnd (thousandths n))) in text2words (word_str w) = Ok [w].
Proof. intros ar l n acc K H w. apply survives_reads. apply float_survives; auto. Qed.
Print Assumptions C06_exact.
Example C06_example :
  let v := rnd64 (frac 123456789 100000) in                                  (* 1234.56789 prints as 1234.57 *)
  letter_kind LX = KFloat /\ (Qabs v <= 999999)%Q /\ string_of_list_ascii (word_str (ar := binary64) (Word LX (VFloat v))) = "X1234.57"%string /\
  string_of_list_ascii (word_str (ar := binary64) (Word LX (VFloat (rnd64 (thousandths (-999999)))))) = "X-999.999"%string.
Proof. repeat split; vm_compute; congruence. Qed.

(** ** C07 *)
(** A seven digit coordinate prints with an exponent and no longer reads back. *)
Theorem C07_readback_refuted :
  exists w, word_wf w /\ (exists s, text2words (ar := binary64) s = Ok [w]) /\
            text2words (ar := binary64) (word_str (ar := binary64) w) = Raise EGCodeWordStrError.
Proof.
  destruct (text2words (ar := binary64) (t "X1234567")) as [[|w [|]]|] eqn:E; try (vm_compute in E; discriminate).
  exists w. assert (W : w = Word LX (VFloat (rnd64 (Q2Qc 1234567)))).
  { assert (W : match text2words (ar := binary64) (t "X1234567") with Ok [Word l (VFloat x)] => l = LX /\ Qceqb x (rnd64 (Q2Qc 1234567)) = true | _ => False end)
      by (vm_compute; auto).
    rewrite E in W. destruct w as [l [x| |]]; try contradiction. destruct W as [-> W]. f_equal. f_equal. apply Qc_is_canon.
    unfold Qceqb in W. destruct (Qcompare_spec x (rnd64 (Q2Qc 1234567))); congruence. }
  split. { rewrite W. vm_compute. auto. }
  split. { exists (t "X1234567"). exact E. }
  rewrite W. vm_compute. auto.
Qed.
Print Assumptions C07_readback_refuted.
(** the same for a seven digit line number *)
Theorem C07_line_number_refuted :
  exists n, text2words (ar := binary64) (word_str (ar := binary64) (Word LN (VInt n))) = Raise EGCodeWordStrError.
Proof. exists 1000000. vm_compute. auto. Qed.
Print Assumptions C07_line_number_refuted.
Lemma read_word_form {ar : Arith} s ws w : reads s ws -> In w ws ->
  exists v, value_text (letter_kind (wletter w)) v /\ value_denotes (wletter w) v (wvalue w).
Proof.
  induction 1 as [s|junk c l v r val ws Hj Hc [V _] Hd Hr IH]; intros Hi; [contradiction|].
  destruct Hi as [<-|Hi]; auto. exists v. auto.
Qed.
Theorem C07_readback_partial : forall (ar : Arith) (s : text) (ws : list word) (w : word), accurate ar ->
  text2words s = Ok ws -> In w ws -> printable w ->
  exists w', text2words (word_str w) = Ok [w'] /\ wletter w' = wletter w /\ word_str w' = word_str w.
Proof.
  intros ar s ws w acc H Hi P. apply text2words_reads in H. destruct (read_word_form _ _ _ H Hi) as (v & V & D).
  destruct w as [l val]. cbn [wletter wvalue] in *.
  assert (SV : survives (Word l val) -> exists w', text2words (word_str (Word l val)) = Ok [w'] /\ wletter w' = l /\ word_str w' = word_str (Word l val)).
  { intros S. exists (Word l val). split. apply survives_reads; auto. auto. }
  unfold printable in P. cbn [wvalue] in P. destruct (letter_kind l) eqn:K.
  - inversion D as [? ? ? ? ? ? C| |? ? C]; subst; try (rewrite (kfloat_class l K) in *; discriminate). clear D V.
    destruct P as [P1 P2]. set (x := rnd (decimal_number neg ip fp)) in *.
    destruct (float_prints acc l x K P1) as (s' & d & E & V1 & V2 & _ & _ & _ & I).
    exists (Word l (VFloat (rnd d))). rewrite E. split. { apply single_reads; auto. rewrite K; auto. } split; auto. apply I.
    destruct (Qlt_le_dec x 0) as [N|N]; auto. right. intros J.
    apply P2. split; auto. pose proof (rhe_err (this x * 1000)) as [R1 R2]. rewrite J in R1. change (inject_Z 0) with 0%Q in R1. lra.
  - destruct (code_denotes l v val K V D) as (k & K0 & ->). destruct P as [P1 _].
    assert (KB : k <= 9999990).
    { destruct (Z_le_gt_dec k 9999990) as [|G]; auto. exfalso. pose proof (code_range acc k ltac:(lia)) as C.
      apply close_bounds in C; [|unfold Qlt; simpl; lia]. apply Qabs_bounds in P1.
      assert ((9999991 # 10 <= k # 10)%Q) by (unfold Qle; simpl; lia). lra. }
    destruct (code_prints acc l k K) as (s' & k' & E & V1 & V2 & _ & _ & I); [lia|].
    exists (Word l (VFloat (rnd (tenths k')))). rewrite E. split. { apply single_reads; auto. rewrite K; auto. } split; auto.
  - inversion D as [? ? ? ? ? ? C|? ? ? C|? ? C]; subst.
    + destruct l; simpl in K, C; discriminate.
    + apply SV. apply nat_survives; auto. split; auto. apply number_bound; auto.
    + apply SV. apply text_survives; auto. rewrite K. auto.
  - inversion D as [? ? ? ? ? ? C|? ? ? C|? ? C]; subst; try (destruct l; simpl in K, C; discriminate).
    apply SV. apply text_survives; auto. rewrite K. auto.
Qed.
Print Assumptions C07_readback_partial.

Example C07_example :
  exists ws, text2words (ar := binary64) (t "X-12345.678 G38.2 N42 T1") = Ok ws /\ Forall printable ws /\ length ws = 4%nat /\
    map (fun w => string_of_list_ascii (word_str (ar := binary64) w)) ws = ["X-12345.7"; "G38.2"; "N42"; "T1"]%string.
Proof.
  destruct (text2words (ar := binary64) (t "X-12345.678 G38.2 N42 T1")) as [ws|e] eqn:E; [|vm_compute in E; discriminate].
  exists ws. vm_compute in E. injection E as <-. split; auto. split.
  - repeat apply Forall_cons; try apply Forall_nil; vm_compute; try (split; [congruence|intros [H1 H2]; congruence]); auto.
  - split; vm_compute; auto.
Qed.

(** ** C08: codes in tenths and line numbers / loop counts below a million. *)
Theorem C08_codes : forall (ar : Arith) (l : letter) (k : Z), accurate ar -> l = LG \/ l = LM -> 0 <= k < 1000000 ->
  let w := Word l (VFloat (rnd (tenths k))) in
  text2words (word_str w) = Ok [w] /\
  ((exists r, word_str w = letter_ascii l :: "0"%char :: r) <-> k < 100).
Proof.
  intros ar l k acc Hl H w. assert (K : letter_kind l = KCode) by (destruct Hl; subst; auto). split.
  - apply survives_reads, code_survives; auto.
  - apply code_leading_zero; auto.
Qed.
Print Assumptions C08_codes.
Theorem C08_integers : forall (ar : Arith) (l : letter) (n : Z), accurate ar -> l = LN \/ l = LL -> 0 <= n < 1000000 ->
  let w := Word l (VInt n) in text2words (word_str w) = Ok [w].
Proof. intros ar l n acc Hl H w. apply survives_reads, nat_survives; auto. destruct Hl; subst; auto. Qed.
Print Assumptions C08_integers.
(** tool numbers and program names keep their text, whatever the size *)
Theorem C08_texts : forall (ar : Arith) (l : letter) (v : text), l = LT \/ l = LO -> value_text (letter_kind l) v ->
  let w := Word l (VStr v) in text2words (word_str w) = Ok [w].
Proof. intros ar l v Hl H w. apply survives_reads, text_survives; auto. destruct Hl; subst; auto. Qed.
Print Assumptions C08_texts.
Example C08_example : map (fun k => string_of_list_ascii (word_str (ar := binary64) (Word LG (VFloat (rnd64 (tenths k)))))) [0; 10; 383; 540; 593; 100] =
  ["G00"; "G01"; "G38.3"; "G54"; "G59.3"; "G10"]%string.
Proof. vm_compute. reflexivity. Qed.
