(** C101: what a block says about itself: [block.X], [len(block)], [bool(block)]. *)
From Coq Require Import Ascii String List Bool Arith ZArith QArith Qcanon Permutation Lia.
From Verif Require Import Base Num Regex Words GTable GCode Line Position Machine BaseFacts Float64 WordsSpec WordsProofs LineSpec CleanProofs GCodeSpec GCodeProofs
  PropsWords PropsLine PropsGCode LineProofs Heap PropsHeap.
Import ListNotations.
Open Scope nat_scope.

Lemma mk_block_words {ar : Arith} v s b : mk_block v s = Ok b ->
  text2words (clean_text s) = Ok (bwords b) /\ words2gcodes (bwords b) = Ok (bgcodes b, bmodal b).
Proof.
  rewrite mk_block_clean. destruct (text2words (clean_text s)) as [ws|]; cbn [bind]; [|discriminate].
  destruct (words2gcodes ws) as [[gs r]|] eqn:W; cbn [bind]; [|discriminate].
  destruct v; [destruct (assert_gcodes [] [] gs); cbn [bind]; [|discriminate]|]; intros [= <-]; auto.
Qed.
(** the words of a block are the words of its gcodes, their parameters and the bare parameters *)
Definition part_of (b : block) (w : word) : Prop :=
  (exists g, In g (bgcodes b) /\ (gword g = w \/ In w (map snd (gparams g)))) \/ In w (bmodal b).
Lemma words_parts {ar : Arith} v s b w : mk_block v s = Ok b -> (In w (bwords b) <-> part_of b w).
Proof.
  intros M. apply mk_block_words in M as [_ M]. apply C18_nothing_lost in M. unfold part_of. split.
  - intros I. apply (Permutation_in _ M) in I. apply in_app_iff in I as [I|I]; auto. left. apply in_flat_map in I as (g & G & [E|E]); eauto.
  - intros H. apply (Permutation_in _ (Permutation_sym M)). apply in_app_iff. destruct H as [(g & G & [E|E])|H]; auto.
    + left. apply in_flat_map. exists g. split; auto. left. auto.
    + left. apply in_flat_map. exists g. split; auto. right. auto.
Qed.
Lemma find_first {A} (f : A -> bool) l x : find f l = Some x -> exists p q, l = p ++ x :: q /\ f x = true /\ Forall (fun y => f y = false) p.
Proof.
  induction l as [|y l IH]; cbn; [discriminate|]. destruct (f y) eqn:E.
  - intros [= <-]. exists [], l. auto.
  - intros H. destruct (IH H) as (p & q & -> & F & P). exists (y :: p), q. auto.
Qed.

(** [block.l] is the first word with that letter, and it is a word the block's commands are made of;
    it is None exactly when no command of the block and no bare parameter has that letter *)
Theorem C101_attribute : forall (ar : Arith) (v : bool) (s : text) (b : block) (l : letter), mk_block v s = Ok b ->
  match block_getattr b l with
  | Some w => wletter w = l /\ part_of b w /\ exists p q, bwords b = p ++ w :: q /\ Forall (fun x => wletter x <> l) p
  | None => forall w, part_of b w -> wletter w <> l
  end.
Proof.
  intros ar v s b l M. unfold block_getattr. destruct (find _ (bwords b)) as [w|] eqn:F.
  - apply find_first in F as (p & q & E & W & P). apply letter_eqb_eq in W. split; auto. split.
    + apply (words_parts v s b w M). rewrite E. apply in_app_iff. right. left. auto.
    + exists p, q. split; auto. eapply Forall_impl; [|exact P]. cbn. intros x X Y. apply (proj2 (letter_eqb_eq _ _)) in Y. congruence.
  - intros w W X. apply (words_parts v s b w M) in W. pose proof (find_none _ _ F w W) as Y. cbn in Y.
    apply (proj2 (letter_eqb_eq _ _)) in X. congruence.
Qed.
Print Assumptions C101_attribute.

(** when the letter occurs once in the block, [block.l] is the value the gcode that has that parameter uses;
    missing: letters that occur more than once (see the refutation) *)
Theorem C101_value_partial : forall (ar : Arith) (v : bool) (s : text) (b : block) (l : letter) (g : gcode) (x : value), mk_block v s = Ok b ->
  length (filter (fun w => letter_eqb (wletter w) l) (bwords b)) <= 1 ->
  In g (bgcodes b) -> gcode_getattr g l = Ok (Some x) -> option_map wvalue (block_getattr b l) = Some x.
Proof.
  intros ar v s b l g x M N G A. unfold gcode_getattr in A. destruct (accepts _ _); [|discriminate]. injection A as A.
  destruct (pget (gparams g) l) as [w|] eqn:P; [|discriminate]. cbn in A. injection A as <-.
  assert (W : In w (bwords b) /\ wletter w = l).
  { unfold pget in P. apply (BaseFacts.dget_in _ _ _ letter_eqb_eq) in P. split.
    - apply (words_parts v s b w M). left. exists g. split; auto. right. change w with (snd (l, w)). now apply in_map.
    - apply mk_block_words in M as [_ M]. apply words2gcodes_iff in M as (grs & Gr & F & Eg).
      rewrite Eg in G. apply in_map_iff in G as ([c w0 ps] & <- & G). unfold built in P. cbn [gparams gr_params] in P.
      apply in_map_iff in P as (y & [= <- <-] & _). reflexivity. }
  destruct W as [W L]. unfold block_getattr. destruct (find _ (bwords b)) as [u|] eqn:F.
  - cbn. do 2 f_equal. apply find_some in F as [F1 F2].
    set (f := fun w => letter_eqb (wletter w) l) in *.
    assert (X : In u (filter f (bwords b)) /\ In w (filter f (bwords b))).
    { split; apply filter_In; split; auto. unfold f. apply letter_eqb_eq. auto. }
    destruct (filter f (bwords b)) as [|a [|c r]]; cbn in N; try lia; destruct X as [X Y]; [destruct X|].
    destruct X as [->|[]], Y as [->|[]]. auto.
  - pose proof (find_none _ _ F w W) as Y. cbn in Y. apply (proj2 (letter_eqb_eq _ _)) in L. congruence.
Qed.
Print Assumptions C101_value_partial.
(** Refuted in general: the value of the attribute is that of the first command; the move of the block goes elsewhere. *)
Theorem C101_refuted : exists (s : text) (b : block) (g : gcode), mk_block (ar := binary64) true s = Ok b /\ In g (bgcodes b) /\ gcls g = GCodeRapidMove /\
  option_map (fun w => to_string (word_str (ar := binary64) w)) (block_getattr b LX) = Some "X5"%string /\ to_string (gcode_str (ar := binary64) g) = "G00 X7"%string.
Proof.
  exists (t "G10 L2 P1 X5 G0 X7"). do 2 eexists. split; [vm_compute; reflexivity|]. split; [right; left; reflexivity|]. repeat split; vm_compute; reflexivity.
Qed.
Print Assumptions C101_refuted.

(** [bool(block)], [len(block) > 0], [str(block) != ""] and "the text is not blank" say the same *)
Theorem C101_truth : forall (ar : Arith) (v : bool) (s : text) (b : block), mk_block v s = Ok b ->
  (block_bool b = true <-> 0 < block_len b) /\ (block_bool b = true <-> block_str b <> []) /\ (block_bool b = true <-> ~ Forall blank s).
Proof.
  intros ar v s b M. destruct (block_bool b) eqn:B.
  - assert (E : bgcodes b <> [] \/ bmodal b <> []).
    { apply mk_block_words in M as [_ M]. apply C18_nothing_lost in M. unfold block_bool in B. destruct (bwords b) as [|w ws]; [discriminate|].
      destruct (bgcodes b); [|left; discriminate]. destruct (bmodal b); [|right; discriminate]. cbn in M. apply Permutation_sym, Permutation_nil in M. discriminate. }
    split; [|split].
    + split; auto. intros _. unfold block_len. destruct (bgcodes b), (bmodal b); cbn; try lia. destruct E; congruence.
    + split; auto. intros _. unfold block_str.
      assert (G : exists x l, map gcode_str (bgcodes b) ++ map word_str (bmodal b) = x :: l /\ x <> []).
      { destruct (bgcodes b) as [|g gs] eqn:Eg.
        - destruct (bmodal b) as [|w ws]; [destruct E; congruence|]. cbn. exists (word_str w), (map word_str ws). split; auto. unfold word_str. destruct (wletter w); discriminate.
        - cbn [map app]. exists (gcode_str g), (map gcode_str gs ++ map word_str (bmodal b)). split; auto. unfold gcode_str.
          assert (W : word_str (gword g) <> []) by (unfold word_str; destruct (wletter (gword g)); discriminate).
          destruct (word_str (gword g)) as [|a r]; [congruence|]. destruct (gwhite g); discriminate. }
      destruct G as (x & l & -> & X). destruct l; [exact X|]. cbn [join]. destruct x; [congruence|discriminate].
    + split; auto. intros _ F. unfold block_bool in B.
      assert (Z : mk_block v ([] ++ s) = mk_block v []) by (apply mk_block_blanks; auto). cbn [app] in Z. rewrite M in Z. cbn in Z. injection Z as ->. discriminate.
  - pose proof (mk_block_nowords v s b M B) as ->. split; [cbn; split; [discriminate|lia]|]. split; [cbn; split; [discriminate|congruence]|].
    split; [discriminate|]. intros N. exfalso. apply N. apply mk_block_words in M as [M _]. cbn [bwords empty_block] in M.
    apply (proj1 (C01_tokeniser ar _ _)) in M. inversion M as [x F|]; subst.
    destruct (C05_clean_up_total s) as (ws & FS & E). rewrite E in F. inversion FS as [b0 Hb|b0 w r l Hb N0 V R FS']; subst; auto.
    exfalso. destruct w as [|c w]; [congruence|]. inversion V as [|? ? V1 _]; subst. apply V1. destruct l; cbn in F; inversion F; auto.
Qed.
Print Assumptions C101_truth.

(** [len(block)] is the number of gcodes a machine runs for the block *)
Theorem C101_length : forall (ar : Arith) (v : bool) (s : text) (b : block) (m : machine) (gs : list gcode), mk_block v s = Ok b ->
  m_ignore m = false -> block_modal_gcodes m b = Ok gs -> length gs = block_len b.
Proof.
  intros ar v s b m gs M IG. unfold block_modal_gcodes. destruct (machine_modal_gcode m (bmodal b)) as [og|e] eqn:E; [|discriminate]. cbn [bind].
  intros [= <-]. unfold sort_gcodes. rewrite (Permutation_length (sort_perm _ _ _)), app_length. unfold block_len. f_equal.
  unfold machine_modal_gcode in E. destruct (bmodal b) as [|w ws]; [injection E as <-; reflexivity|].
  destruct (gm_get (m_mode m) MG_motion) as [mo|]; cbn [bind] in E; [|rewrite IG in E; discriminate].
  set (l := gword mo :: _) in E. destruct (words2gcodes l) as [[g2 r2]|] eqn:W; cbn [bind] in E; [|discriminate]. rewrite IG in E.
  destruct r2; cbn in E; [|discriminate]. apply C18_nothing_lost in W. destruct g2 as [|g [|]]; [|injection E as <-; reflexivity|discriminate].
  cbn in W. apply Permutation_sym, Permutation_nil in W. discriminate.
Qed.
Print Assumptions C101_length.

Example C101_ex : exists b, mk_block (ar := binary64) true (t " G1 X5 F20 ") = Ok b /\ block_bool b = true /\ block_len b = 2 /\
  option_map (fun w => to_string (word_str (ar := binary64) w)) (block_getattr b LX) = Some "X5"%string /\ block_getattr b LY = None.
Proof. eexists. split; [vm_compute; reflexivity|]. repeat split; vm_compute; reflexivity. Qed.
Example C101_ex_bare : exists b, mk_block (ar := binary64) true (t "M3 X5 Y6") = Ok b /\ block_len b = 2 /\ length (bgcodes b) = 1.
Proof. eexists. split; [vm_compute; reflexivity|]. split; reflexivity. Qed.
(** An assigned parameter that was not in the text does not become an attribute of the block, although the block prints it. *)
Example C101_ex_assigned :
  let st := run (ar := binary64) [CParse true (t "G1 X5"); CAssign 0 0 LZ (VFloat (frac 6 1))] in
  block_texts (ar := binary64) st = ["G01 X5 Z6"]%string /\ map (fun b => block_getattr b LZ) (seen_blocks st) = [None].
Proof. vm_compute. auto. Qed.

