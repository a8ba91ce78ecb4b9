(** Printing a gcode made in code and reading it back. *)
From Coq Require Import Ascii String List Bool Arith ZArith QArith Qcanon Qabs Permutation Lia.
From Verif Require Import Base Num Words GTable GCode Line Machine BaseFacts WordOrder WordsSpec WordsProofs WordsProofs2 LineSpec CommentProofs CleanProofs CleanProofs2 PrintSpec PrintProofs PrintProofs2
  GCodeSpec GCodeProofs GCodeProofs2 GTableProofs ModeSpec MachSpec PropsWords PropsLine PropsPrint PropsGCode BlockSpec BlockProofs LineProofs SimSpec SimProofs Build.
Import ListNotations.
Local Open Scope nat_scope.

(** the words of a gcode *)
Definition words_of_gcode (g : gcode) : list word := gword g :: map snd (gparams g).
Definition group_of (g : gcode) : group := Group (gcls g) (gword g) (map snd (gparams g)).

Section WithArith.
Context {ar : Arith}.
Lemma group_of_built g : legal g -> gwhite g = false -> built (group_of g) = g.
Proof. intros L W. unfold built, group_of. cbn [gr_class gr_word gr_params]. rewrite <- legal_kv by auto. destruct g. cbn in *. subst. reflexivity. Qed.

Section Accurate.
Hypothesis acc : accurate ar.
Section Reread.
Context (S : word -> word -> Prop).
(** a well-formed gcode each of whose words can be read back *)
Lemma gcode_reread g : gcode_wf g -> gwhite g = false -> Forall (fun w => exists w', read_as S w w') (words_of_gcode g) ->
  Forall (fun w => forall s, wvalue w = VStr s -> Forall plain s) (words_of_gcode g) ->
  exists ws g', text2words (gcode_str g) = Ok ws /\ words2gcodes ws = Ok ([g'], []) /\ gcode_read_as S g g' /\ gwhite g' = false /\ clean_text (gcode_str g) = gcode_str g /\
    Forall calm (gcode_str g) /\ ends_visible (gcode_str g) /\ ((forall w w', S w w' -> word_str w' = word_str w) -> gcode_str g' = gcode_str g).
Proof.
  intros (L & P & WG & WP) WH R PL. pose proof (group_of_built g L WH) as B. set (G := group_of g) in *.
  assert (E : gcode_str g = join [space] (map word_str (group_words (sorted_group G)))) by (rewrite <- B; apply built_str).
  assert (PM : Permutation (group_words (sorted_group G)) (words_of_gcode g)).
  { unfold group_words. cbn [sorted_group gr_word]. unfold words_of_gcode. apply perm_skip. apply sorted_group_perm. }
  assert (PM' : Permutation (words_of_gcode g) (group_words (sorted_group G))) by (symmetry; auto).
  apply (Permutation_Forall' _ _ _ PM') in R. apply (Permutation_Forall' _ _ _ PM') in PL.
  assert (WF : Forall word_wf (group_words (sorted_group G))).
  { apply (Permutation_Forall' _ _ _ PM'). constructor; auto. apply Forall_map. auto. }
  assert (RB : exists ws', Forall2 (read_as S) (group_words (sorted_group G)) ws').
  { clear -R. induction R as [|w l (w' & H) X (l' & IH)]; [exists []; constructor|]. exists (w' :: l'). constructor; auto. }
  destruct RB as (ws' & RB).
  assert (TK : forall x, In x (gr_params G) -> takes (gcls g) (wletter x)).
  { intros x I. cbn [G group_of gr_params] in I. apply in_map_iff in I as ([k w] & <- & I). destruct L as [L _]. rewrite Forall_forall in L. destruct (L _ I) as [E1 E2]. cbn in *. congruence. }
  assert (NL : name_last (group_words (sorted_group G))).
  { unfold group_words. cbn [name_last]. split.
    - intros K. apply ktext_O in K. cbn [sorted_group gr_word G group_of] in K.
      assert (C : gcls g = GCodeProgramName).
      { unfold proper in P. apply (word_class_doc acc) in P; auto. destruct P as [P|(lo & hi & I & _)].
        - rewrite K in P. unfold doc_letters in P. cbn [In] in P. repeat (destruct P as [P|P]; [congruence|]). contradiction.
        - exfalso. rewrite K in I. assert (X : forallb (fun e => match fst (fst (fst e)) with LO => false | _ => true end) doc_codes = true) by (vm_compute; reflexivity).
          rewrite forallb_forall in X. specialize (X _ I). discriminate X. }
      assert (X : gr_params G = []).
      { destruct (gr_params G) as [|x l] eqn:EX; auto. exfalso. specialize (TK x (or_introl eq_refl)). rewrite C in TK. vm_compute in TK. contradiction. }
      cbn [sorted_group gr_params]. rewrite X. reflexivity.
    - apply name_last_none. apply Forall_forall. intros x I K. apply ktext_O in K. apply (no_takes_O (gcls g)). rewrite <- K. apply TK.
      eapply Permutation_in; [apply sorted_group_perm|exact I]. }
  assert (VIS : Forall (fun x => x <> [] /\ Forall plain x) (map word_str (group_words (sorted_group G)))).
  { apply Forall_map. eapply Forall_impl; [|exact PL]. intros w Pw. split; [discriminate|]. apply word_str_plain. auto. }
  assert (VIS2 : Forall (fun x => x <> [] /\ Forall (fun c => ~ blank c) x) (map word_str (group_words (sorted_group G)))).
  { eapply Forall_impl; [|exact VIS]. intros a [N A]. split; auto. eapply Forall_impl; [|exact A]. intros c [C _]. auto. }
  assert (T : text2words (gcode_str g) = Ok ws').
  { rewrite E. apply spelling_text2words. apply (spelling_join _ _ RB PL NL []); [constructor|intros []]. }
  destruct ws' as [|w1 ps']; [inversion RB|].
  assert (RW : read_as S (gword g) w1 /\ Forall2 (read_as S) (gr_params (sorted_group G)) ps') by (inversion RB; auto). destruct RW as [RW RP].
  assert (W1 : word_wf w1) by (eapply prints_as_wf; eauto).
  assert (CL : word_gcode_class w1 = Some (gcls g)).
  { rewrite (prints_as_class acc (S := S) (gword g) w1); auto. }
  assert (G1 : grouped (w1 :: ps') [Group (gcls g) w1 ps'] []).
  { replace (w1 :: ps') with (flat_map group_words [Group (gcls g) w1 ps']) by (cbn; rewrite app_nil_r; reflexivity). apply placed_grouped.
    - cbn [well_placed]. auto.
    - constructor; [|constructor]. cbn [gr_params gr_class]. intros x Ix. destruct (Forall2_in_r _ _ _ _ RP Ix) as (y & Iy & (-> & _)). apply TK.
      eapply Permutation_in; [apply sorted_group_perm|exact Iy]. }
  assert (UN : unambiguous (Group (gcls g) w1 ps')).
  { unfold unambiguous. cbn [gr_params]. rewrite (Forall2_letters _ _ RP). destruct L as [LF ND].
    assert (X : Permutation (map wletter (gr_params (sorted_group G))) (map fst (gparams g))).
    { assert (Y : map fst (gparams g) = map wletter (gr_params G)).
      { cbn [G group_of gr_params]. rewrite map_map. apply map_ext_in. intros kv I. rewrite Forall_forall in LF. apply (LF kv I). }
      rewrite Y. apply Permutation_map, sorted_group_perm. }
    symmetry in X. eapply Permutation_NoDup; eauto. }
  exists (w1 :: ps'), (built (Group (gcls g) w1 ps')). split; auto. split; [apply words2gcodes_iff; exists [Group (gcls g) w1 ps']; auto|].
  split.
  { split; [reflexivity|]. split; [exact RW|]. exists (map (fun w => (wletter w, w)) (gr_params (sorted_group G))). split.
    - rewrite (legal_kv g L). apply Permutation_map. apply (sorted_group_perm G).
    - cbn [built gparams gr_params]. clear -RP. induction RP as [|x y l l' Q F IH]; cbn [map]; constructor; auto. cbn [fst snd]. split; auto. apply Q. }
  split; [reflexivity|]. split; [rewrite E; apply clean_join; auto|]. split; [|split].
  - rewrite E. apply join_calm. eapply Forall_impl; [|exact VIS]. intros a [_ A]. eapply Forall_impl; [|exact A]. intros c C. left. auto.
  - rewrite E. apply join_ends. auto.
  - intros SS. rewrite E, built_str. f_equal. rewrite <- (Forall2_str (S := S) _ _ SS RB).
    unfold group_words, sorted_group. cbn [gr_word gr_params]. do 2 f_equal. apply sort_snd_built.
    apply (sorted_letters (gr_params (sorted_group G))); [symmetry; apply (Forall2_letters (S := S)); auto|]. apply sorted_group_sorted.
Qed.
Lemma gcode_line g : gcode_wf g -> gwhite g = false -> Forall (fun w => exists w', read_as S w w') (words_of_gcode g) ->
  Forall (fun w => forall s, wvalue w = VStr s -> Forall plain s) (words_of_gcode g) ->
  exists ws g', text2gcodes (gcode_str g) = Ok [g'] /\ gcode_read_as S g g' /\ gwhite g' = false /\ gcode_wf g' /\
    (forall bl, Forall blank bl -> mk_line (gcode_str g ++ bl) = Ok (Line (Block ws [g'] []) None None)) /\
    ((forall w w', S w w' -> word_str w' = word_str w) -> gcode_str g' = gcode_str g).
Proof.
  intros W WH R PL. destruct (gcode_reread g W WH R PL) as (ws & g' & T & W2 & RA & WH' & CT & CA & EV & ST). exists ws, g'.
  assert (WF : Forall word_wf ws) by (apply (reads_wf (gcode_str g)), text2words_reads; auto).
  split; [unfold text2gcodes; rewrite T; cbn [bind]; rewrite W2; reflexivity|]. split; auto. split; auto.
  assert (GW : gcode_wf g').
  { pose proof W2 as W3. apply words2gcodes_iff in W3 as (grs & GR & U & E). pose proof (grouped_perm _ _ _ GR) as PR. pose proof (grouped_legal _ _ _ GR U) as LG. pose proof (grouped_placed _ _ _ GR) as PG.
    destruct grs as [|[c w ps] [|]]; try discriminate E. injection E as ->. inversion LG; subst. cbn [flat_map group_words gr_word gr_params app] in PR. rewrite !app_nil_r in PR.
    apply (Permutation_Forall' _ _ _ PR) in WF. inversion WF; subst. destruct PG as (_ & PG & _). split; auto. split; [exact PG|]. split; auto. cbn [built gparams]. apply Forall_map. cbn [snd]. auto. }
  split; auto. split; auto. intros bl B. unfold mk_line.
  assert (LS : line_split (gcode_str g ++ bl) (gcode_str g) None).
  { apply ls_plain; auto; eapply calm_not; eauto; vm_compute; tauto. }
  apply line_parts_iff in LS. rewrite LS. cbn [bind].
  assert (SL : split_line (gcode_str g) = (gcode_str g, None)).
  { rewrite <- (app_nil_r (gcode_str g)) at 1. apply C12_no_comment; auto; try (eapply calm_not; eauto; vm_compute; tauto). intros a z E _.
    assert (H : ~ In "("%char (gcode_str g)) by (eapply calm_not; eauto; vm_compute; tauto). apply H. rewrite E. apply in_app_iff. right. left. auto. }
  rewrite SL, mk_block_clean, CT, T. cbn [bind]. rewrite W2. cbn [bind]. unfold assert_gcodes. cbn. destruct (modal_group (gcls g')); reflexivity.
Qed.
End Reread.

(** ** The words of gcodes made in code *)
Lemma mk_word_wf l v w : mk_word l v = Ok w -> word_wf w.
Proof. intros H. apply constructed_typed. exists v. rewrite (mk_word_letter' _ _ _ H). exact H. Qed.
Lemma kw_words_wf kws ws : kw_words kws = Ok ws -> Forall word_wf ws.
Proof.
  revert ws. induction kws as [|[l v] r IH]; cbn [kw_words]; intros ws H; [injection H as <-; constructor|].
  destruct (mk_word l v) as [w|] eqn:E; cbn [bind] in H; [|discriminate]. destruct (kw_words r) as [ws'|]; cbn [bind] in H; [|discriminate]. injection H as <-.
  constructor; auto. eapply mk_word_wf; eauto.
Qed.
Lemma mk_gcode_wf c w ps g : mk_gcode c w ps = Ok g -> word_wf w -> word_gcode_class w = Some c -> Forall word_wf ps -> gcode_wf g /\ gwhite g = false.
Proof.
  intros H W C P. apply mk_gcode_iff in H as (T & ND & ->). split; [|reflexivity]. split; [apply built_legal; auto|]. split; [exact C|]. split; [exact W|].
  cbn [built gparams gr_params]. apply Forall_map. exact P.
Qed.
(** the default word of a class names the class and can be read back *)
Definition safe_word (w : word) : Prop := survives w /\ forall s, wvalue w = VStr s -> Forall plain s.
Lemma tkey_safe l k : l = LG \/ l = LM -> (0 <= k < 1000000)%Z -> safe_word (tkey l k).
Proof. intros H K. split; [|discriminate]. apply code_survives; auto. destruct H; subst; reflexivity. Qed.
Lemma zero_feed l : letter_kind l = KFloat -> safe_word (Word l (VFloat (float_of_int 0))).
Proof. intros K. split; [|discriminate]. replace (float_of_int 0) with (rnd (thousandths 0)); [apply float_survives; auto; lia|]. unfold float_of_int, thousandths. f_equal. apply Qc_is_canon. reflexivity. Qed.
Lemma tkey_class l lo hi k c : In (l, lo, hi, c) doc_codes -> (lo <= k <= hi)%Z -> (0 <= lo)%Z -> (hi <= 100000)%Z -> letter_class l = CFloat -> word_gcode_class (tkey l k) = Some c.
Proof.
  intros I K L H F. apply (word_class_doc acc); [unfold word_wf; cbn; rewrite F; exact Logic.I|]. right. exists lo, hi. split; [exact I|]. eexists. split; [reflexivity|].
  split; [destruct (Z.eq_dec lo k) as [->|]|destruct (Z.eq_dec k hi) as [->|]]; try apply Qcle_refl; apply Qclt_le_weak; apply (tenths_lt acc); lia.
Qed.
Lemma default_word_spec c w : default_word c = Ok w -> safe_word w /\ word_wf w /\ word_gcode_class w = Some c.
Proof.
  assert (KEY : forall l k lo hi c, In (l, lo, hi, c) doc_codes -> l = LG \/ l = LM -> (lo <= k)%Z -> (k <= hi)%Z -> (0 <= lo)%Z -> (hi <= 100000)%Z -> safe_word (tkey l k) /\ word_wf (tkey l k) /\ word_gcode_class (tkey l k) = Some c).
  { intros l k lo hi c' I L K1 K2 K3 K4. assert (C : letter_class l = CFloat) by (destruct L; subst; reflexivity). split; [apply tkey_safe; auto; lia|]. split; [unfold word_wf; cbn; rewrite C; exact Logic.I|].
    apply (tkey_class l lo hi); auto. }
  unfold default_word. destruct (default_word_attr c) as [d|] eqn:D; [|destruct (word_key c) as [k|] eqn:K; [|discriminate]]; intros H; injection H as <-.
  - destruct c; unfold default_word_attr, resolve_or, resolve in D; cbn [resolve_fuel own_default_word parent option_map] in D; try discriminate D; injection D as <-.
    + replace (lit_word _) with (tkey LG 382) by (unfold tkey; change 382%Z with (2 * 191)%Z; rewrite <- fifth_tenths; reflexivity). apply (KEY LG 382%Z 382%Z 385%Z); [vm_compute; tauto|auto|lia..].
    + split; [apply (zero_feed LF); reflexivity|]. split; [exact Logic.I|]. apply (word_class_doc acc); [exact Logic.I|]. left. vm_compute. tauto.
    + split; [apply (zero_feed LS); reflexivity|]. split; [exact Logic.I|]. apply (word_class_doc acc); [exact Logic.I|]. left. vm_compute. tauto.
    + split; [split; [|intros s Es; injection Es as <-; repeat constructor; vm_compute; intuition discriminate]|].
      * apply (text_survives LT (t "0")); [reflexivity|]. apply (vt_nat [] (t "0")); [constructor|repeat constructor; vm_compute; lia|discriminate].
      * split; [exact Logic.I|]. apply (word_class_doc acc); [exact Logic.I|]. left. vm_compute. tauto.
    + replace (lit_word _) with (tkey LG 280) by (unfold tkey; change 280%Z with (10 * 28)%Z; rewrite <- Z_tenths; reflexivity). apply (KEY LG 280%Z 280%Z 280%Z); [vm_compute; tauto|auto|lia..].
    + apply (KEY LG 281%Z 281%Z 281%Z); [vm_compute; tauto|auto|lia..].
    + apply (KEY LG 921%Z 921%Z 921%Z); [vm_compute; tauto|auto|lia..].
  - assert (F : exists l a, (l = LG \/ l = LM) /\ (0 <= a < 100000)%Z /\ k = tkey l a).
    { pose proof (key_form c) as F. assert (T : match tclaims c with TIntervals l ((a, _) :: _) => (l = LG \/ l = LM) /\ (0 <=? a)%Z && (a <? 100000)%Z = true | _ => True end) by (destruct c; vm_compute; auto).
      destruct (tclaims c) as [|l [|[a b] [|]]|]; try (destruct F as [F F2]; congruence). destruct F as [[_ F]|[F _]]; [|congruence]. destruct T as [T1 T2]. exists l, a. split; auto. apply andb_true_iff in T2 as [A B]. split; [lia|]. congruence. }
    destruct F as (l & a & L & A & E). subst k. split; [apply tkey_safe; auto; lia|]. split; [eapply key_wf; eauto|]. apply (word_class_claims acc); [eapply key_wf; eauto|]. unfold claims. rewrite K. apply word_eqb_eq; auto; eapply key_wf; eauto.
Qed.
End Accurate.
End WithArith.
