(** C05, C12-C15: blanks, comments, macros. *)
From Coq Require Import Ascii String List Bool Arith ZArith QArith Qcanon Lia.
From Verif Require Import Base Num Regex Words GTable GCode Line BaseFacts WordsSpec WordsProofs LineSpec CommentProofs CleanProofs CleanProofs2.
Import ListNotations.
Local Open Scope nat_scope.

(** ** C05. The clean-up of [Block] joins the visible runs of the text by single spaces; every text has such runs. *)
Theorem C05_clean_up : forall s ws, fields s ws -> clean_text s = join [space] ws.
Proof. exact clean_text_fields. Qed.
Print Assumptions C05_clean_up.
Theorem C05_clean_up_total : forall s, exists ws, fields s ws /\ clean_text s = join [space] ws.
Proof. intros s. destruct (fields_total s) as [ws H]. exists ws. auto using clean_text_fields. Qed.
Print Assumptions C05_clean_up_total.
(** As stated the property is false: the values of T (and O) words keep their blanks. *)
Theorem C05_same_words_refuted : exists s ws ws',
  ~ In newline s /\ text2words (ar := binary64) s = Ok ws /\ text2words (ar := binary64) (clean_text s) = Ok ws' /\ ws <> ws'.
Proof.
  exists (t "T  5"), [Word LT (VStr (t "  5"))], [Word LT (VStr (t " 5"))].
  repeat split; try (vm_compute; reflexivity); [|discriminate].
  intros H. vm_compute in H. intuition discriminate.
Qed.
Print Assumptions C05_same_words_refuted.
(** It holds for every text without O and T: a readable text reads the same after the clean-up, and for texts without
    newline and without the blanks 28-31 the outcome, including the exception, is the same. *)
Theorem C05_same_words_partial : forall (ar : Arith) s, ~ has_letter LO s -> ~ has_letter LT s ->
  (forall ws, text2words s = Ok ws -> text2words (clean_text s) = Ok ws) /\
  (~ In newline s -> (forall c, In c s -> ~ (28 <= code c <= 31)) -> text2words (clean_text s) = text2words s).
Proof.
  intros ar s HO HT. destruct (clean_words s (conj HO HT)) as [H1 H2]. split; auto.
  intros Hn He. apply H2. intros c Hc Hs. split.
  - destruct (is_newline c) eqn:E; auto. apply newline_char in E. subst. tauto.
  - apply numblank_iff. split; auto.
Qed.
Print Assumptions C05_same_words_partial.
Theorem C05_block_words_partial : forall (ar : Arith) v s b, ~ has_letter LO s -> ~ has_letter LT s ->
  ~ In newline s -> (forall c, In c s -> ~ (28 <= code c <= 31)) ->
  mk_block v s = Ok b -> text2words s = Ok (bwords b).
Proof.
  intros ar v s b HO HT Hn He H. destruct (C05_same_words_partial ar s HO HT) as [_ E]. rewrite <- E by auto. clear E.
  destruct s as [|c s].
  - cbn in H. inversion H; subst. reflexivity.
  - unfold mk_block in H. destruct (text2words (clean_text (c :: s))) as [ws|]; [|discriminate]. cbn [bind] in H.
    destruct (words2gcodes ws) as [[gs un]|]; [|discriminate]. cbn [bind] in H. destruct v.
    + destruct (assert_gcodes [] [] gs); [|discriminate]. cbn [bind] in H. inversion H; auto.
    + inversion H; auto.
Qed.
Print Assumptions C05_block_words_partial.
Example C05_example : let s := t "   G1	X  -1.5    Y2  " in
  ~ has_letter LO s /\ ~ has_letter LT s /\ ~ In newline s /\ (forall c, In c s -> ~ (28 <= code c <= 31)) /\
  clean_text s = t "G1 X -1.5 Y2" /\ exists b, mk_block (ar := binary64) true s = Ok b /\ length (bwords b) = 3.
Proof.
  repeat split; try (vm_compute; reflexivity).
  - intros (c & H & [E|E]); vm_compute in H; repeat destruct H as [<-|H]; vm_compute in E; try discriminate; tauto.
  - intros (c & H & [E|E]); vm_compute in H; repeat destruct H as [<-|H]; vm_compute in E; try discriminate; tauto.
  - intros H; vm_compute in H; intuition discriminate.
  - intros c H. vm_compute in H. repeat destruct H as [<-|H]; vm_compute; lia.
  - eexists. split. vm_compute. reflexivity. reflexivity.
Qed.

(** ** C12 (any number of newlines may follow, as left by the reader of a file) *)
Theorem C12_semicolon : forall s nls b c, ~ In newline s -> Forall (eq newline) nls -> semicolon_parts s b c ->
  split_line (s ++ nls) = (b, Some (Comment CommentSemicolon c)).
Proof. exact split_line_semi. Qed.
Print Assumptions C12_semicolon.
(** every line with a ';' has such parts *)
Theorem C12_semicolon_total : forall s nls, ~ In newline s -> Forall (eq newline) nls -> In ";"%char s ->
  exists b c, semicolon_parts s b c /\ split_line (s ++ nls) = (b, Some (Comment CommentSemicolon c)).
Proof. intros s nls Hs Hn H. destruct (semicolon_total s H) as (b & c & P). exists b, c. auto using split_line_semi. Qed.
Print Assumptions C12_semicolon_total.
Theorem C12_no_comment : forall s nls, ~ In newline s -> Forall (eq newline) nls -> ~ In ";"%char s ->
  (forall a b, s = a ++ "("%char :: b -> ~ In ")"%char b) -> split_line (s ++ nls) = (s, None).
Proof. intros s nls Hs Hn Hsemi H. apply (split_line_brackets s nls s []); auto. constructor; auto. Qed.
Print Assumptions C12_no_comment.
Example C12_example : semicolon_parts (t "G1 X1 (a) ;  note; (b)") (t "G1 X1 (a)") (t "note; (b)").
Proof.
  exists (t " "), (t "  "). repeat split; try (repeat constructor; fail).
  - right. exists (t "G1 X1 (a"), ")"%char. split; [reflexivity|]. discriminate.
  - right. exists "n"%char, (t "ote; (b)"). split; [reflexivity|]. discriminate.
  - intros H. vm_compute in H. intuition discriminate.
Qed.
Example C12_example_none : let s := t "G1 X1 ) ( Y2" in
  ~ In ";"%char s /\ split_line s = (s, None).
Proof. split. intros H; vm_compute in H; intuition discriminate. vm_compute. reflexivity. Qed.

(** ** C13 *)
Theorem C13_brackets : forall s nls out ins, ~ In newline s -> Forall (eq newline) nls -> ~ In ";"%char s ->
  bracket_parts s out ins ->
  split_line (s ++ nls) = (out, match ins with [] => None | _ => Some (Comment CommentBrackets (join (t ". ") ins)) end).
Proof. exact split_line_brackets. Qed.
Print Assumptions C13_brackets.
Theorem C13_brackets_total : forall s, exists out ins, bracket_parts s out ins.
Proof. exact bracket_parts_total. Qed.
Print Assumptions C13_brackets_total.
Example C13_example : bracket_parts (t "G1(a(b)X1 (c) Y2 (") (t "G1X1  Y2 (") [t "a(b"; t "c"].
Proof.
  apply (bp_comment (t "G1") (t "a(b") (t "X1 (c) Y2 (") (t "X1  Y2 (") [t "c"]).
  - intros H; vm_compute in H; intuition discriminate.
  - intros H; vm_compute in H; intuition discriminate.
  - apply (bp_comment (t "X1 ") (t "c") (t " Y2 (") (t " Y2 (") []).
    + intros H; vm_compute in H; intuition discriminate.
    + intros H; vm_compute in H; intuition discriminate.
    + constructor. intros a b E H. change (t " Y2 (") with [" "; "Y"; "2"; " "; "("]%char in E.
      do 4 (destruct a as [|? a]; [discriminate E|]; injection E as <- E).
      destruct a as [|? a]; injection E as E; [subst b; destruct H|destruct a; discriminate].
Qed.

(** ** C14 *)
Definition plain_text (s : text) : Prop := ~ In newline s /\ ~ In "%"%char s /\ ~ In ";"%char s.
Lemma plain_text_app a b : plain_text (a ++ b) <-> plain_text a /\ plain_text b.
Proof. unfold plain_text. rewrite !in_app_iff. tauto. Qed.
(** replacing a semicolon comment; [b] has no earlier ';' *)
Theorem C14_semicolon_partial : forall (ar : Arith) b c c',
  ~ In newline (b ++ c ++ c') -> ~ In "%"%char (b ++ c ++ c') -> ~ In ";"%char b ->
  rmap lblock (mk_line (b ++ ";"%char :: c)) = rmap lblock (mk_line (b ++ ";"%char :: c')).
Proof.
  intros ar b c c' Hn Hp Hs.
  assert (G : forall c, ~ In newline (b ++ c) -> ~ In "%"%char (b ++ c) ->
    exists b', (forall a x, b = a ++ x -> Forall blank x -> ends_visible a -> b' = a) /\
    rmap lblock (mk_line (b ++ ";"%char :: c)) = mk_block true b').
  { clear c c' Hn Hp. intros c Hn Hp. destruct (trailing_blanks c) as (d & ws & -> & Hw & Hd).
    destruct (trailing_blanks b) as (b' & x & -> & Hx & Hb').
    exists b'. split.
    { intros a y E Hy Ha. assert (Q : forall a b x y, a ++ x = b ++ y -> Forall blank x -> Forall blank y -> ends_visible a -> ends_visible b -> length b <= length a).
      { clear. intros a b x y E Hx Hy Ha Hb. destruct Hb as [->|(p & c & -> & Hc)]; [simpl; lia|].
        destruct (le_lt_dec (length (p ++ [c])) (length a)) as [L|L]; auto. exfalso. apply Hc.
        rewrite app_length in L. simpl in L.
        assert (N : nth_error (a ++ x) (length p) = Some c).
        { rewrite E, <- app_assoc, nth_error_app2, Nat.sub_diag by lia. auto. }
        rewrite nth_error_app2 in N by lia. apply nth_error_In in N. rewrite Forall_forall in Hx. auto. }
      pose proof (Q _ _ _ _ E Hx Hy Hb' Ha). pose proof (Q _ _ _ _ (eq_sym E) Hy Hx Ha Hb').
      assert (L : length b' = length a) by lia.
      rewrite <- (firstn_app_exact b' x), <- (firstn_app_exact a y), E, L. auto. }
    assert (LS : line_split ((b' ++ x) ++ ";"%char :: d ++ ws) ((b' ++ x) ++ ";"%char :: d) None).
    { replace ((b' ++ x) ++ ";"%char :: d ++ ws) with (((b' ++ x) ++ ";"%char :: d) ++ ws) by (rewrite <- app_assoc; auto).
      apply ls_plain; auto.
      - rewrite !in_app_iff in *. simpl. intros [H|[H|H]]; [tauto|discriminate|tauto].
      - rewrite !in_app_iff in *. simpl. intros [H|[H|H]]; [tauto|discriminate|tauto].
      - right. destruct Hd as [->|(p & e & -> & He)].
        + exists (b' ++ x), ";"%char. split; auto. discriminate.
        + exists ((b' ++ x) ++ ";"%char :: p), e. rewrite <- !app_assoc. auto. }
    apply line_parts_iff in LS. unfold mk_line. rewrite LS. cbn [bind].
    destruct (span is_space d) as [w2 d2] eqn:E. apply span_inv in E as (-> & Hw2 & Hd2).
    assert (SP : semicolon_parts ((b' ++ x) ++ ";"%char :: w2 ++ d2) b' d2).
    { exists x, w2. rewrite <- app_assoc. repeat split; auto. apply Forall_blank; auto.
      - destruct d2 as [|y d2]; [left; auto|right]. exists y, d2. split; auto. apply visible_iff; auto.
      - intros H. apply Hs. apply in_app_iff; auto. }
    pose proof (split_line_semi ((b' ++ x) ++ ";"%char :: w2 ++ d2) [] b' d2) as S. rewrite app_nil_r in S. rewrite S; auto.
    - destruct (mk_block true b'); auto.
    - rewrite !in_app_iff in *. simpl. rewrite !in_app_iff. intros [H|[H|H]]; [tauto|discriminate|tauto]. }
  destruct (G c) as (b1 & H1 & ->); try (rewrite !in_app_iff in *; tauto).
  destruct (G c') as (b2 & H2 & ->); try (rewrite !in_app_iff in *; tauto).
  destruct (trailing_blanks b) as (b' & x & E & Hx & Hb'). rewrite (H1 _ _ E Hx Hb'), (H2 _ _ E Hx Hb'). auto.
Qed.
Print Assumptions C14_semicolon_partial.
(** replacing any number of bracket comments *)
Theorem C14_brackets_partial : forall (ar : Arith) l l' last,
  map fst l = map fst l' ->
  Forall (fun gc => plain_text (fst gc) /\ plain_text (snd gc) /\ ~ In "("%char (fst gc) /\ ~ In ")"%char (snd gc)) (l ++ l') ->
  plain_text last -> ~ In "("%char last ->
  rmap lblock (mk_line (with_brackets l last)) = rmap lblock (mk_line (with_brackets l' last)).
Proof.
  intros ar l l' last E H Hl Hp. destruct (trailing_blanks last) as (b & ws & -> & Hw & Hb).
  assert (P : forall l, Forall (fun gc => plain_text (fst gc) /\ plain_text (snd gc) /\ ~ In "("%char (fst gc) /\ ~ In ")"%char (snd gc)) l ->
    plain_text (with_brackets l b)).
  { clear -Hl. intros l H. induction H as [|[g c] l (Hg & Hc & _) H IH].
    - apply plain_text_app in Hl. apply Hl.
    - unfold with_brackets in *. cbn [flat_map fst snd] in *.
      change (g ++ "("%char :: c ++ [")"%char]) with (g ++ ["("%char] ++ c ++ [")"%char]).
      rewrite <- !app_assoc, !plain_text_app. apply plain_text_app in IH as [IH1 IH2]. repeat split; try apply IH1; try apply IH2; try apply Hg; try apply Hc;
      intros X; vm_compute in X; intuition discriminate. }
  assert (G : forall l, Forall (fun gc => plain_text (fst gc) /\ plain_text (snd gc) /\ ~ In "("%char (fst gc) /\ ~ In ")"%char (snd gc)) l ->
    rmap lblock (mk_line (with_brackets l (b ++ ws))) = mk_block true
      (match b with [] => match l with [] => [] | _ => flat_map fst l end | _ => flat_map fst l ++ b end)).
  { clear l l' E H. intros l H. specialize (P l H).
    assert (LS : exists bc, line_split (with_brackets l (b ++ ws)) bc None /\ bc = with_brackets l b).
    { exists (with_brackets l b). split; auto. replace (with_brackets l (b ++ ws)) with (with_brackets l b ++ ws).
      2:{ unfold with_brackets. rewrite app_assoc. auto. }
      destruct P as (P1 & P2 & P3). apply ls_plain; auto.
      destruct Hb as [->|(p & c & -> & Hc)].
      - unfold with_brackets. rewrite app_nil_r.
        assert (C : l = [] \/ exists l0 gc, l = l0 ++ [gc]) by (clear; induction l using rev_ind; eauto).
        destruct C as [->|(l0 & gc & ->)]; [left; auto|]. right. rewrite flat_map_app. cbn [flat_map]. rewrite app_nil_r.
        exists (flat_map (fun gc0 => fst gc0 ++ "("%char :: snd gc0 ++ [")"%char]) l0 ++ fst gc ++ "("%char :: snd gc), ")"%char.
        rewrite <- !app_assoc. cbn [app]. split; auto. discriminate.
      - right. unfold with_brackets. exists (flat_map (fun gc0 => fst gc0 ++ "("%char :: snd gc0 ++ [")"%char]) l ++ p), c.
        rewrite <- app_assoc. auto. }
    destruct LS as (bc & LS & ->). apply line_parts_iff in LS. unfold mk_line. rewrite LS. cbn [bind].
    assert (BP : bracket_parts (with_brackets l b) (flat_map fst l ++ b) (map snd l)).
    { apply with_brackets_parts; auto.
      - eapply Forall_impl; [|exact H]. intros gc (_ & _ & X); exact X.
      - rewrite in_app_iff in Hp. tauto. }
    pose proof (split_line_brackets _ [] _ _ (proj1 P) ltac:(constructor) (proj2 (proj2 P)) BP) as S. rewrite app_nil_r in S.
    rewrite S. cbn [bind]. destruct b.
    - rewrite app_nil_r. destruct l; simpl; [reflexivity|]. destruct (mk_block _ _); auto.
    - destruct (mk_block true (flat_map fst l ++ a :: b)); auto. }
  apply Forall_app in H as [H1 H2]. rewrite (G l H1), (G l' H2).
  assert (M : flat_map fst l = flat_map fst l').
  { clear -E. revert l' E. induction l as [|x l IH]; intros [|y l'] E; try discriminate; auto. simpl in *. inversion E. f_equal; auto. }
  rewrite M. destruct l; destruct l'; try discriminate; auto.
Qed.
Print Assumptions C14_brackets_partial.
(** Without the restrictions the property is false: '%' starts a macro even inside a comment, and a line with a ';'
    reads its brackets as machine code. *)
Theorem C14_comment_percent_refuted : exists l,
  mk_line (ar := binary64) (t "G1 X1 (50 power)") = Ok l /\
  mk_line (ar := binary64) (t "G1 X1 (50% power)") = Raise EGCodeWordStrError.
Proof. eexists. split; vm_compute; reflexivity. Qed.
Print Assumptions C14_comment_percent_refuted.
Theorem C14_comment_semicolon_refuted : exists l l',
  mk_line (ar := binary64) (t "G1 (x5) Z3 ; bar") = Ok l /\
  mk_line (ar := binary64) (t "G1 (x6) Z3 ; bar") = Ok l' /\
  map (word_str (ar := binary64)) (bwords (lblock l)) = [t "G01"; t "X5"; t "Z3"] /\
  map (word_str (ar := binary64)) (bwords (lblock l')) = [t "G01"; t "X6"; t "Z3"].
Proof.
  eexists. eexists. split; [vm_compute; reflexivity|]. split; [vm_compute; reflexivity|]. split; vm_compute; reflexivity.
Qed.
Print Assumptions C14_comment_semicolon_refuted.
Example C14_example :
  let l := [(t "G1 X1 ", t "fast"); (t " Y2 ", t "note: 5")] in let l' := [(t "G1 X1 ", t ""); (t " Y2 ", t "other G99 X7")] in
  map fst l = map fst l' /\ plain_text (t " F10 ") /\
  Forall (fun gc => plain_text (fst gc) /\ plain_text (snd gc) /\ ~ In "("%char (fst gc) /\ ~ In ")"%char (snd gc)) (l ++ l') /\
  exists x, mk_line (ar := binary64) (with_brackets l' (t " F10 ")) = Ok x /\ length (bwords (lblock x)) = 4.
Proof.
  cbv zeta. split; [reflexivity|]. split; [repeat split; intros H; vm_compute in H; intuition discriminate|]. split.
  - repeat apply Forall_cons; try apply Forall_nil; repeat split; intros H; vm_compute in H; intuition discriminate.
  - eexists. split; vm_compute; reflexivity.
Qed.

(** ** C15 *)
Theorem C15_split : forall (ar : Arith) s l, mk_line s = Ok l ->
  exists bc, line_split s bc (lmacro l) /\
    mk_block true (fst (split_line bc)) = Ok (lblock l) /\ snd (split_line bc) = lcomment l.
Proof.
  intros ar s l H. unfold mk_line in H. destruct (line_parts s) as [[bc m]|] eqn:E; [|discriminate]. cbn [bind] in H.
  destruct (split_line bc) as [bs c] eqn:Es. destruct (mk_block true bs) as [b|] eqn:Eb; [|discriminate]. cbn [bind] in H.
  inversion H; subst. exists bc. rewrite Es. simpl. split; auto. apply line_parts_iff; auto.
Qed.
Print Assumptions C15_split.
(** the split does not lose a character except trailing blanks, and is unique *)
Theorem C15_lossless : forall s bc m, line_split s bc m ->
  exists ws, Forall blank ws /\ s = bc ++ (match m with Some x => x | None => [] end) ++ ws /\
    ~ In "%"%char bc /\ match m with Some x => exists y, x = "%"%char :: y | None => ~ In "%"%char s end.
Proof.
  intros s bc m [bc' ws H1 H2 H3 H4|bc' m' tl H1 H2 H3 H4].
  - exists ws. simpl. repeat split; auto. rewrite in_app_iff. intros [H|H]; auto.
    rewrite Forall_forall in H4. apply H4 in H. discriminate.
  - exists tl. simpl. repeat split; auto. 2: eauto.
    destruct H4 as [->|(w & -> & Hw)]; auto. constructor; auto. reflexivity.
Qed.
Print Assumptions C15_lossless.
Theorem C15_unique : forall s bc m bc' m', line_split s bc m -> line_split s bc' m' -> bc = bc' /\ m = m'.
Proof.
  intros s bc m bc' m' H H'. apply line_parts_iff in H. apply line_parts_iff in H'. rewrite H in H'. inversion H'; auto.
Qed.
Print Assumptions C15_unique.
Theorem C15_accepts : forall s, one_line s <-> exists bc m, line_split s bc m.
Proof.
  split. apply one_line_split. intros (bc & m & H). eapply line_split_one_line; eauto.
Qed.
Print Assumptions C15_accepts.
(** any other text raises, and the exceptions of a text that splits are those of its block *)
Theorem C15_rejects : forall (ar : Arith) s, ~ one_line s -> mk_line s = Raise EAttributeError.
Proof.
  intros ar s H. unfold mk_line. destruct (line_parts s) as [[bc m]|e] eqn:E.
  - exfalso. apply H. apply line_parts_iff in E. eapply line_split_one_line; eauto.
  - apply line_parts_error in E. subst. auto.
Qed.
Print Assumptions C15_rejects.
Theorem C15_errors : forall (ar : Arith) s bc m e, line_split s bc m -> mk_line s = Raise e ->
  mk_block true (fst (split_line bc)) = Raise e.
Proof.
  intros ar s bc m e H. apply line_parts_iff in H. unfold mk_line. rewrite H. cbn [bind].
  destruct (split_line bc) as [bs c]. simpl. destruct (mk_block true bs); cbn; congruence.
Qed.
Print Assumptions C15_errors.
Example C15_example : exists l, mk_line (ar := binary64) (t "G1 X1 ; go %macro% " ++ [newline; newline]) = Ok l /\
  lmacro l = Some (t "%macro% ") /\ option_map ctext (lcomment l) = Some (t "go ") /\ length (bwords (lblock l)) = 2.
Proof. eexists. split; [vm_compute; reflexivity|]. vm_compute. auto. Qed.
Example C15_example_reject : ~ one_line (t "G1" ++ newline :: t "X1").
Proof. intros H. specialize (H (t "G1") (t "X1") eq_refl). inversion H; subst. discriminate. Qed.
