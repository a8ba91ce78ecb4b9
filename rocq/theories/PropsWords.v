(** C01-C04, C09-C11: reading words. *)
From Coq Require Import Ascii String List Bool Arith ZArith QArith Qcanon Lia.
From Verif Require Import Base Num Regex Words BaseFacts WordsSpec WordsProofs WordsProofs2 WordOrder.
Import ListNotations.

(** ** C01: the tokeniser accepts exactly the texts the grammar [reads] describes, and returns the reading;
    the reading is unique; the only other outcomes are GCodeWordStrError and, for blanks with
    codes 28-31 only, ValueError (in particular the recursion bound of the model is never hit). *)
Theorem C01_tokeniser : forall (ar : Arith) (s : text) (ws : list word), text2words s = Ok ws <-> reads s ws.
Proof. exact @text2words_reads. Qed.
Print Assumptions C01_tokeniser.
Theorem C01_unique : forall (ar : Arith) (s : text) (ws ws' : list word), reads s ws -> reads s ws' -> ws = ws'.
Proof. exact @reads_unique. Qed.
Print Assumptions C01_unique.
Theorem C01_errors : forall (ar : Arith) (s : text) (e : exn),
  text2words s = Raise e ->
  e = EGCodeWordStrError \/ (e = EValueError /\ exists c, In c s /\ (28 <= code c <= 31)%nat).
Proof.
  intros ar s e H. destruct (text2words_errors s e H) as [->| ->]; auto.
  right. split; auto. apply text2words_value_error; auto.
Qed.
Print Assumptions C01_errors.
(** a text with junk, both cases, no blanks, and a second text that is refused *)
Example C01_example : exists ws, reads (ar := binary64) (t "g1 ?X-.5y2.") ws /\ length ws = 3%nat.
Proof.
  destruct (text2words (ar := binary64) (t "g1 ?X-.5y2.")) as [ws|e] eqn:E.
  - exists ws. split. apply text2words_reads; auto. revert E. vm_compute. intros E. inversion E. reflexivity.
  - exfalso. revert E. vm_compute. discriminate.
Qed.
Example C01_example_error : text2words (ar := binary64) (t "G1 X2 ?") = Raise EGCodeWordStrError.
Proof. vm_compute. reflexivity. Qed.
Example C01_example_value_error :
  text2words (ar := binary64) ("X"%char :: ascii_of_nat 28 :: t "1") = Raise EValueError.
Proof. vm_compute. reflexivity. Qed.

(** ** C02: any free spelling of a list of words reads back as these words *)
Theorem C02_spelling : forall (ar : Arith) (ws : list word) (s : text), spelling ws s -> text2words s = Ok ws.
Proof. exact @spelling_text2words. Qed.
Print Assumptions C02_spelling.
Example C02_example : exists w1 w2, spelling (ar := binary64) [w1; w2] (t " g 1X-.5 ").
Proof.
  do 2 eexists.
  eapply (sp_word [" "%char] "g"%char LG [" "%char; "1"%char] _ _ (t "X-.5 ")).
  - repeat constructor.
  - simpl. intros [H|[]]. discriminate.
  - right. reflexivity.
  - discriminate.
  - apply (vt_code [" "%char] ["1"%char]); [repeat constructor|repeat constructor; cbv; lia|discriminate].
  - apply (vd_float LG [" "%char] false ["1"%char] false []); auto;
      [repeat constructor; cbv; lia|repeat constructor; cbv; lia|discriminate].
  - eapply (sp_word [] "X"%char LX (t "-.5") _ [] [" "%char]).
    + constructor.
    + intros [].
    + left. reflexivity.
    + discriminate.
    + apply (vt_float [] true [] true ["5"%char]); [constructor|constructor|repeat constructor; cbv; lia|discriminate|discriminate].
    + apply (vd_float LX [] true [] true ["5"%char]); auto;
        [repeat constructor; cbv; lia|discriminate|discriminate].
    + constructor. repeat constructor.
Qed.

(** ** C03 is false: stray characters between words are skipped without an error *)
Theorem C03_junk_rejected_refuted :
  exists (s : text) (ws : list word), text2words (ar := binary64) s = Ok ws /\ ~ spelling (ar := binary64) ws s.
Proof.
  exists (t "?G1"). destruct (text2words (ar := binary64) (t "?G1")) as [ws|e] eqn:E.
  - exists ws. split; auto. intros H. inversion H as [b Hb Hw Hs|b c l v val ws' s Hb Hn Hc K Hv Hd Hsp Hw Hs|b c v nl Hb Hn Hc Hv Hnl Hw Hs].
    + inversion Hb; discriminate.
    + destruct b as [|x b]; simpl in Hs; inversion Hs; subst.
      * apply char_letter_iff in Hc. discriminate.
      * inversion Hb; subst. discriminate.
    + destruct b as [|x b]; simpl in Hs; inversion Hs; subst.
      * apply char_letter_iff in Hc. discriminate.
      * inversion Hb; subst. discriminate.
  - exfalso. revert E. vm_compute. discriminate.
Qed.
Print Assumptions C03_junk_rejected_refuted.
(** ... also inside what looks like one number: X1.2.3 reads as X1.2 *)
Example C03_number_cut :
  rmap (map (word_str (ar := binary64))) (text2words (ar := binary64) (t "X1.2.3 Y4")) = Ok [t "X1.2"; t "Y4"].
Proof. vm_compute. reflexivity. Qed.
(** What holds (missing from C03: junk before a letter is not rejected): nothing but its value and blanks
    follows the last letter of an accepted text, and a text without letters is accepted only if blank. *)
Theorem C03_junk_rejected_partial : forall (ar : Arith) (p : text) (c : ascii) (q : text) (l : letter) (ws : list word),
  text2words (p ++ c :: q) = Ok ws -> char_letter c l -> (forall x l', In x q -> ~ char_letter x l') ->
  ~ has_letter LO (p ++ c :: q) ->
  exists v b val ws', q = v ++ b /\ value_text (letter_kind l) v /\ value_denotes l v val /\ Forall blank b /\
                      ws = ws' ++ [Word l val].
Proof. exact @text2words_tail. Qed.
Print Assumptions C03_junk_rejected_partial.
Theorem C03_no_letter : forall (ar : Arith) (s : text), (forall x l, In x s -> ~ char_letter x l) ->
  text2words s = if forallb is_space s then Ok [] else Raise EGCodeWordStrError.
Proof. exact @text2words_noletter. Qed.
Print Assumptions C03_no_letter.
Example C03_example :
  text2words (ar := binary64) (t "G1 X" ++ "Y"%char :: t "2 ") <> Raise EGCodeWordStrError -> False.
Proof. intros H. apply H. vm_compute. reflexivity. Qed.
Example C03_example_hyps :
  (exists ws, text2words (ar := binary64) (t "G1 X2 " ++ "Y"%char :: t "2 ") = Ok ws) /\ char_letter "Y" LY /\
  (forall x l', In x (t "2 ") -> ~ char_letter x l') /\ ~ has_letter LO (t "G1 X2 " ++ "Y"%char :: t "2 ").
Proof.
  split; [|split; [|split]].
  - destruct (text2words (ar := binary64) (t "G1 X2 " ++ "Y"%char :: t "2 ")) eqn:E; eauto. revert E. vm_compute. discriminate.
  - left; reflexivity.
  - intros x l' [<-|[<-|[]]] H; apply char_letter_iff in H; discriminate.
  - intros (x & Hx & H). apply char_letter_iff in H. revert H.
    simpl in Hx. repeat (destruct Hx as [<-|Hx]; [vm_compute; discriminate|]). contradiction.
Qed.

(** ** C04: letter case does not matter *)
Theorem C04_case : forall (ar : Arith) (a b : text), same_but_case a b -> ~ has_letter LO a -> text2words a = text2words b.
Proof. exact @text2words_case. Qed.
Print Assumptions C04_case.
Example C04_example : same_but_case (t "g1x2") (t "G1X2") /\ ~ has_letter LO (t "g1x2") /\
  exists ws, text2words (ar := binary64) (t "g1x2") = Ok ws /\ length ws = 2%nat.
Proof.
  split; [|split].
  - unfold same_but_case. cbn. repeat first [apply Forall2_nil | apply Forall2_cons]; try (left; reflexivity).
    right. exists LG. split; [right|left]; reflexivity.
    right. exists LX. split; [right|left]; reflexivity.
  - intros (x & Hx & H). apply char_letter_iff in H. revert H.
    simpl in Hx. repeat (destruct Hx as [<-|Hx]; [vm_compute; discriminate|]). contradiction.
  - destruct (text2words (ar := binary64) (t "g1x2")) as [ws|e] eqn:E.
    + exists ws. split; auto. revert E. vm_compute. intros E. inversion E. reflexivity.
    + exfalso. revert E. vm_compute. discriminate.
Qed.
(** program names do keep their case: the restriction is needed *)
Example C04_O_needed :
  rmap (map (word_str (ar := binary64))) (text2words (ar := binary64) (t "Oab")) = Ok [t "Oab"] /\
  rmap (map (word_str (ar := binary64))) (text2words (ar := binary64) (t "OAB")) = Ok [t "OAB"].
Proof. vm_compute. auto. Qed.

(** ** C09: on the words the constructor makes, == is equality (so any hash of letter and value respects it)
    and the four comparisons are one total order. [!=] is the negation of [==] by definition. *)
Theorem C09_wf : forall (ar : Arith) (l : letter) (v : value) (w : word), mk_word l v = Ok w -> word_wf w /\ wletter w = l.
Proof. intros ar l v w H. split. eapply mk_word_wf; eauto. eapply mk_word_letter; eauto. Qed.
Print Assumptions C09_wf.
Theorem C09_eq : forall a b : word, word_wf a -> word_wf b -> (word_eqb a b = true <-> a = b).
Proof. exact word_eqb_eq. Qed.
Print Assumptions C09_eq.
Theorem C09_hash : forall (H : Type) (hash : letter -> value -> H) (a b : word), word_wf a -> word_wf b ->
  word_eqb a b = true -> hash (wletter a) (wvalue a) = hash (wletter b) (wvalue b).
Proof. intros H hash a b Ha Hb E. apply word_eqb_eq in E; auto. subst; auto. Qed.
Print Assumptions C09_hash.
Theorem C09_order : forall a b c : word, word_wf a -> word_wf b -> word_wf c ->
  (exists r, word_lt a b = Ok r) /\                                            (* never raises *)
  (word_lt a b = Ok true <-> word_gt b a = Ok true) /\
  (word_le a b = Ok true <-> word_lt a b = Ok true \/ a = b) /\
  (word_ge a b = Ok true <-> word_gt a b = Ok true \/ a = b) /\
  word_lt a a = Ok false /\
  (word_lt a b = Ok true -> word_lt b c = Ok true -> word_lt a c = Ok true) /\
  (word_lt a b = Ok true \/ a = b \/ word_lt b a = Ok true).
Proof.
  intros a b c Ha Hb Hc. unfold word_lt, word_gt, word_le, word_ge. rewrite !word_compare_wcmp by auto.
  assert (R : wcmp a a = Eq) by (apply wcmp_eq; auto). rewrite R.
  pose proof (wcmp_eq a b Ha Hb) as E. pose proof (wcmp_antisym a b Ha Hb) as S. rewrite S.
  pose proof (wcmp_trans a b c Ha Hb Hc) as T.
  destruct (wcmp a b); simpl.
  - intuition (try discriminate; eauto).
  - assert (a <> b) by (rewrite <- E; discriminate).
    destruct (wcmp b c), (wcmp a c); simpl in *; intuition (try discriminate; try congruence; eauto).
  - assert (a <> b) by (rewrite <- E; discriminate). intuition (try discriminate; eauto).
Qed.
Print Assumptions C09_order.
(** the order of words with one letter is the numeric order of their values; otherwise that of the letters *)
Theorem C09_order_meaning : forall (l l' : letter) (x y : Qc), letter_class l = CFloat -> letter_class l' = CFloat ->
  (word_lt (Word l (VFloat x)) (Word l (VFloat y)) = Ok true <-> (x < y)%Qc) /\
  (l <> l' -> (word_lt (Word l (VFloat x)) (Word l' (VFloat y)) = Ok true <-> (code (letter_ascii l) < code (letter_ascii l'))%nat)).
Proof.
  intros l l' x y Hl Hl'. split.
  - unfold word_lt, word_compare. cbn [wletter wvalue]. rewrite Nat.compare_refl. cbn. unfold Qclt. rewrite Qlt_alt.
    destruct (this x ?= this y)%Q; split; intros; try discriminate; auto.
  - intros N. unfold word_lt, word_compare. cbn [wletter wvalue].
    assert (G : forall k, (65 <= code (letter_ascii k))%nat).
    { intros k. assert (X : Nat.leb 65 (code (letter_ascii k)) = true) by (destruct k; vm_compute; reflexivity). apply Nat.leb_le; auto. }
    pose proof (G l). pose proof (G l').
    destruct (Nat.compare_spec (lnum l) (lnum l')) as [E|E|E].
    + apply lnum_inj in E. contradiction.
    + cbn. unfold lnum in E. split; intros; auto. lia.
    + cbn. unfold lnum in E. split; intros; [discriminate|lia].
Qed.
Print Assumptions C09_order_meaning.
Example C09_example : exists a b, mk_word (ar := binary64) LX (VStr (t "1.5")) = Ok a /\ mk_word (ar := binary64) LY (VInt 2) = Ok b
  /\ word_lt a b = Ok true /\ word_eqb a b = false.
Proof.
  destruct (mk_word (ar := binary64) LX (VStr (t "1.5"))) as [a|] eqn:A; [|vm_compute in A; discriminate].
  destruct (mk_word (ar := binary64) LY (VInt 2)) as [b|] eqn:B; [|vm_compute in B; discriminate].
  exists a, b. repeat split; auto; vm_compute in A, B; inversion A; inversion B; vm_compute; reflexivity.
Qed.

(** ** C10: words2dict *)
(** the last word with letter [l] *)
Inductive last_value (l : letter) : list word -> value -> Prop :=
| lv_here v ws : (forall w, In w ws -> wletter w <> l) -> last_value l (Word l v :: ws) v
| lv_next w v ws : last_value l ws v -> last_value l (w :: ws) v.
Lemma last_value_find l ws v : find (fun w => letter_eqb (wletter w) l) (rev ws) = option_map (Word l) (Some v) <-> last_value l ws v.
Proof.
  assert (FA : forall (f : word -> bool) a b, find f (a ++ b) = match find f a with Some x => Some x | None => find f b end).
  { induction a as [|x a IH]; simpl; auto. intros b. destruct (f x); auto. }
  assert (FN : forall ws, find (fun w => letter_eqb (wletter w) l) (rev ws) = None <-> (forall w, In w ws -> wletter w <> l)).
  { intros ws0. split.
    - intros H w Hw. apply find_none with (x := w) in H. apply letter_eqb_neq; auto. apply in_rev. rewrite rev_involutive; auto.
    - intros H. destruct (find _ (rev ws0)) eqn:E; auto. apply find_some in E as [E1 E2]. apply letter_eqb_eq in E2.
      apply in_rev in E1. apply H in E1. contradiction. }
  induction ws as [|w ws IH]; simpl.
  - split; [discriminate|]. intros H; inversion H.
  - rewrite FA. destruct (find _ (rev ws)) as [w'|] eqn:E.
    + split.
      * intros H. apply lv_next, IH; auto.
      * intros H. inversion H as [v0 ws0 Hn|w0 v0 ws0 Hl]; subst; auto.
        -- apply FN in Hn. congruence.
        -- apply IH; auto.
    + simpl. split.
      * destruct (letter_eqb (wletter w) l) eqn:El; [|discriminate]. apply letter_eqb_eq in El. intros H. inversion H.
        constructor. apply FN; auto.
      * intros H. inversion H as [v0 ws0 Hn|w0 v0 ws0 Hl]; subst; simpl; auto.
        -- rewrite letter_eqb_refl. auto.
        -- apply IH in Hl. discriminate.
Qed.
Theorem C10_words2dict : forall (ws : list word) (limit : option (list letter)) (l : letter) (v : value),
  dget letter_eqb (words2dict ws limit) l = Some v <->
  last_value l ws v /\ match limit with None => True | Some ls => In l ls end.
Proof.
  intros ws limit l v. rewrite words2dict_get, <- last_value_find. cbn [option_map].
  assert (G : option_map wvalue (find (fun w => letter_eqb (wletter w) l) (rev ws)) = Some v <->
              find (fun w => letter_eqb (wletter w) l) (rev ws) = Some (Word l v)).
  { destruct (find _ (rev ws)) as [w|] eqn:E; simpl.
    - apply find_some in E as [_ E]. apply letter_eqb_eq in E. destruct w; simpl in *. split; congruence.
    - split; discriminate. }
  destruct limit as [ls|]; [|rewrite G; tauto].
  destruct (existsb (letter_eqb l) ls) eqn:Ex.
  - rewrite G. apply existsb_exists in Ex as (x & Hx & Hl). apply letter_eqb_eq in Hl. subst. tauto.
  - split; [discriminate|]. intros [_ H]. exfalso.
    assert (existsb (letter_eqb l) ls = true) by (apply existsb_exists; exists l; split; auto; apply letter_eqb_refl). congruence.
Qed.
Print Assumptions C10_words2dict.
(** a letter occurs once as a key *)
Theorem C10_keys_once : forall ws limit, NoDup (map fst (words2dict ws limit)).
Proof. intros. unfold words2dict. apply dupdate_nodup. apply letter_eqb_eq. constructor. Qed.
Print Assumptions C10_keys_once.
Example C10_example : last_value LX [Word LX (VInt 1); Word LY (VInt 2); Word LX (VInt 3); Word LZ (VInt 4)] (VInt 3).
Proof. do 2 constructor. constructor. intros w [<-|[]]; discriminate. Qed.

(** ** C11: str2word *)
Theorem C11_str2word : forall (ar : Arith) (s : text) (r : result (option word)),
  str2word s = r <->
  match r with
  | Ok None => reads s []
  | Ok (Some w) => reads s [w]
  | Raise e => (text2words s = Raise e) \/ (e = EGCodeWordStrError /\ exists w w' ws, reads s (w :: w' :: ws))
  end.
Proof.
  intros ar s r. rewrite str2word_spec. destruct (text2words s) as [ws|e] eqn:E.
  - apply text2words_reads in E. assert (U := fun ws' => reads_unique s ws ws' E).
    destruct ws as [|w [|w' ws]]; (split; [intros <-; first [exact E | right; split; [reflexivity|exists w, w', ws; exact E]]|]).
    + destruct r as [[w|]|e]; auto; intros H. apply U in H; discriminate.
      destruct H as [H|(_ & ? & ? & ? & H)]; [discriminate|apply U in H; discriminate].
    + destruct r as [[w0|]|e]; auto; intros H. apply U in H; inversion H; auto. apply U in H; discriminate.
      destruct H as [H|(_ & ? & ? & ? & H)]; [discriminate|apply U in H; discriminate].
    + destruct r as [[w0|]|e]; auto; intros H. apply U in H; discriminate. apply U in H; discriminate.
      destruct H as [H|(-> & ? & ? & ? & H)]; [discriminate|auto].
  - assert (N : forall ws, ~ reads s ws) by (intros ws H; apply text2words_reads in H; congruence).
    split.
    + intros <-. auto.
    + destruct r as [[w0|]|e']; intros H; try (exfalso; eapply N; eauto; fail).
      destruct H as [H|(_ & ? & ? & ? & H)]; [congruence|exfalso; eapply N; eauto].
Qed.
Print Assumptions C11_str2word.
Example C11_example : rmap (option_map (word_str (ar := binary64))) (str2word (ar := binary64) (t " g1.0 ")) = Ok (Some (t "G01"))
  /\ str2word (ar := binary64) (t "g1 x1") = Raise EGCodeWordStrError /\ str2word (ar := binary64) (t " ") = Ok None.
Proof. vm_compute. auto. Qed.
