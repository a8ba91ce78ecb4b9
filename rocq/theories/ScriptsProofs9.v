(** Printed lines with gcodes left out, without blanks, without the comment: read back. *)
From Coq Require Import Ascii String List Bool Arith ZArith QArith Qcanon Permutation Lia Sorted.
From Verif Require Import Base Num Words GTable GCode Line Position Machine Transform BaseFacts ArithSpec WordsSpec LineSpec CommentProofs CleanProofs CleanProofs2 PrintSpec PrintProofs2 WordsProofs WordsProofs2 GCodeSpec GCodeProofs GCodeProofs2 PropsLine BlockSpec BlockProofs LineProofs LineProofs2 PropsBlock GTableProofs PropsGCode ModeSpec ModeProofs MachSpec MachProofs MachProofs2 SimSpec SimProofs TransSpec TransProofs TransProofs2
  Scripts ScriptsSpec ScriptsSpec2 ScriptsSpec5 ScriptsProofs ScriptsProofs4 ScriptsProofs5.
Import ListNotations.
Local Open Scope nat_scope.

Section WithArith.
Context {ar : Arith}.
(** *** words with one blank between them, or none *)
Definition squeeze (tight : bool) (s : text) : text := if tight then filter (fun c => negb (is_space c)) s else s.
Lemma filter_visible s : Forall (fun c => ~ blank c) s -> filter (fun c => negb (is_space c)) s = s.
Proof. induction 1 as [|c s H F IH]; auto. cbn [filter]. unfold blank in H. destruct (is_space c); [exfalso; apply H; reflexivity|]. cbn [negb]. congruence. Qed.
Lemma squeeze_join l : Forall (Forall (fun c => ~ blank c)) l -> squeeze true (join [space] l) = concat l.
Proof.
  unfold squeeze. induction 1 as [|x l H F IH]; auto. destruct l as [|y l]; [cbn [join concat]; rewrite app_nil_r; apply filter_visible; auto|].
  rewrite join_app1 by discriminate. rewrite !filter_app, IH, (filter_visible x) by auto. cbn [concat]. reflexivity.
Qed.
Lemma word_visible w : readable w -> Forall (fun c => ~ blank c) (word_str w).
Proof. intros [_ P]. eapply Forall_impl; [|apply (word_str_plain w P)]. intros a [A _]. auto. Qed.
Lemma spelling_tight ws ws' : Forall2 prints_as ws ws' -> Forall (fun w => forall s, wvalue w = VStr s -> Forall plain s) ws -> name_last ws -> spelling ws' (concat (map word_str ws)).
Proof.
  induction 1 as [|w w' ws ws' R F IH]; intros P NL.
  - constructor; constructor.
  - inversion P; subst. destruct NL as [N1 N2]. destruct (prints_as_form w w' H1 R) as (v & E & V & D). destruct R as (El & _ & _ & _). cbn [map concat].
    destruct w' as [l val]. cbn [wletter wvalue] in *. subst l.
    destruct (letter_kind (wletter w)) eqn:K.
    4: { specialize (N1 eq_refl). subst ws. inversion F; subst. cbn [map concat]. rewrite E, app_nil_r.
         assert (EL : wletter w = LO) by (destruct (wletter w); cbn in K; congruence). rewrite EL in *.
         inversion D; subst; try (cbn in H; discriminate). replace (letter_ascii LO :: v) with ([] ++ letter_ascii LO :: v ++ []) by (rewrite app_nil_r; auto). apply sp_name; auto using char_letter_self. }
    all: rewrite E; cbn [app]; change (letter_ascii (wletter w) :: v ++ concat (map word_str ws)) with ([] ++ letter_ascii (wletter w) :: v ++ concat (map word_str ws)); apply sp_word; auto using char_letter_self; try congruence; intros [].
Qed.
Lemma concat_visible l : Forall (Forall (fun c => ~ blank c)) l -> Forall (fun c => ~ blank c) (concat l).
Proof. induction 1; cbn [concat]; auto. apply Forall_app; auto. Qed.
(** the words are read back, and the text is fit to have a comment behind it *)
Lemma words_read tight ws : Forall readable ws -> name_last ws ->
  let s := squeeze tight (join [space] (map word_str ws)) in text2words (clean_text s) = Ok ws /\ Forall calm s /\ ends_visible s.
Proof.
  intros R NL s. assert (V : Forall (Forall (fun c => ~ blank c)) (map word_str ws)) by (apply Forall_map; eapply Forall_impl; [|exact R]; apply word_visible).
  assert (V1 : Forall (fun w => w <> [] /\ Forall (fun c => ~ blank c) w) (map word_str ws)).
  { apply Forall_map. eapply Forall_impl; [|exact R]. intros w H. split; [discriminate|]. apply word_visible; auto. }
  assert (PA : Forall2 prints_as ws ws). { clear -R. induction R as [|w l [S _] F IH]; constructor; auto. split; auto. split; auto. split; auto. apply survives_reads; auto. }
  assert (PT : Forall (fun w => forall s, wvalue w = VStr s -> Forall plain s) ws) by (eapply Forall_impl; [|exact R]; intros w [_ H]; auto).
  assert (CA : Forall calm (join [space] (map word_str ws))).
  { apply join_calm. apply Forall_map. eapply Forall_impl; [|exact R]. intros w [_ H]. eapply Forall_impl; [|apply (word_str_plain w H)]. left. auto. }
  unfold s. destruct tight.
  - rewrite squeeze_join by auto. split; [|split].
    + pose proof (concat_visible _ V) as VC. pose proof (spelling_tight ws ws PA PT NL) as SP. assert (CL : clean_text (concat (map word_str ws)) = concat (map word_str ws)).
      { destruct (concat (map word_str ws)) as [|c r] eqn:E; auto. pose proof (clean_text_fields (c :: r) [c :: r]) as Q. apply Q. rewrite <- (app_nil_r (c :: r)) at 1. change ((c :: r) ++ []) with ([] ++ (c :: r) ++ []). apply f_word; auto; [discriminate|]. constructor. constructor. }
      rewrite CL. apply spelling_text2words. auto.
    + rewrite <- squeeze_join by auto. unfold squeeze. clear -CA. induction CA as [|c l H F IH]; cbn [filter]; auto. destruct (negb (is_space c)); auto.
    + destruct ws as [|w0 ws0] using rev_ind; [left; auto|]. rewrite map_app, concat_app. cbn [map concat]. rewrite app_nil_r. right. destruct (@exists_last _ (word_str w0)) as (p & c & E); [discriminate|].
      exists (concat (map word_str ws0) ++ p), c. rewrite E, app_assoc. split; auto. apply Forall_app in R as [_ R]. inversion R; subst. pose proof (word_visible w0 H1) as Q. rewrite E in Q. apply Forall_app in Q as [_ Q]. inversion Q; auto.
  - cbn [squeeze]. split; [|split; auto; apply join_ends; auto].
    rewrite clean_join by auto. apply spelling_text2words. apply (spelling_join (S := fun w w' => word_str w' = word_str w) ws ws) with (b := []); auto.
Qed.
(** *** gcodes and leftover words *)
Lemma printed_parts tight gs ps : accurate ar -> Forall gcode_wf gs -> Forall (fun g => gwhite g = false) gs -> Forall (fun g => Forall readable (gword g :: map snd (gparams g))) gs ->
  ForallOrdPairs compatible gs -> in_place gs -> name_last (map gword gs) -> bare ps -> Forall readable ps -> (forall w g, In w ps -> In g gs -> ~ takes (gcls g) (wletter w)) ->
  (ps <> [] -> ~ In LO (map (fun g => wletter (gword g)) gs)) -> Forall (fun w => wletter w <> LO) ps ->
  let s := squeeze tight (join [space] (map gcode_str gs ++ map word_str ps)) in
  exists ws hs, mk_block true s = Ok (Block ws hs ps) /\ Forall2 same_gcode gs hs /\ Forall calm s /\ ends_visible s.
Proof.
  intros acc W WH R C IP NL B RP SE NO NP s. destruct (printed_groups gs W WH) as (grs & F & E).
  assert (S : s = squeeze tight (join [space] (map word_str (flat_map group_words grs ++ ps)))).
  { unfold s. f_equal. destruct gs as [|g0 gs0] eqn:G0; [inversion F; subst; reflexivity|]. destruct ps as [|p0 ps0] eqn:P0; [rewrite !app_nil_r; exact E|]. rewrite <- G0, <- P0 in *.
    rewrite map_app, (join_cons_app [space] (map gcode_str gs)), (join_cons_app [space] (map word_str (flat_map group_words grs))); [rewrite E; reflexivity| | | |]; subst; try discriminate. inversion F as [|? ? ? ? (_ & Q & _)]; subst. discriminate. }
  set (ws := flat_map group_words grs ++ ps) in *.
  assert (SG : Forall2 same_gcode gs (map built grs)).
  { clear -F. induction F as [|g gr gs grs (A & Bq & P & T & N) F IH]; cbn [map]; constructor; auto. repeat split; cbn [built gcls gword gparams]; auto. symmetry; auto. }
  assert (WF : Forall gcode_wf (map built grs)).
  { clear -SG W. revert W. induction SG as [|g h gs hs S F IH]; intros W; constructor; inversion W; subst; auto. eapply same_wf; eauto. }
  assert (RW : Forall readable ws).
  { unfold ws. apply Forall_app. split; auto. clear -F R. induction F as [|g gr gs grs (A & B & P & T & N) F IH]; cbn [flat_map]; [constructor|]. inversion R as [|? ? R1 R2]; subst. apply Forall_app. split; auto. inversion R1 as [|? ? R3 R4]; subst.
    unfold group_words. rewrite B. constructor; auto. rewrite Forall_forall in *. intros x I. apply R4. assert (I2 : In (wletter x, x) (gparams g)) by (eapply Permutation_in; [exact P|apply (in_map (fun w => (wletter w, w))); auto]). apply in_map_iff. exists (wletter x, x). auto. }
  assert (NW : name_last (flat_map group_words grs)).
  { clear -F NL acc W. revert NL W. induction F as [|g gr gs grs (A & B & P & T & N) F IH]; intros NL W; [exact I|]. cbn [flat_map]. destruct NL as [NL1 NL2]. inversion W as [|? ? W1 W2]; subst. specialize (IH NL2 W2).
    unfold group_words. cbn [app name_last]. rewrite B. split.
    + intros K. specialize (NL1 K). destruct gs; [|discriminate]. inversion F; subst. cbn [flat_map app]. rewrite app_nil_r. apply ktext_O in K. destruct W1 as (_ & PR & W1 & _). pose proof (program_name _ _ acc W1 K PR) as Z. destruct (gr_params gr) as [|x l]; auto. specialize (T x (or_introl eq_refl)). unfold takes in T. rewrite Z in T. contradiction.
    + pose proof (params_not_name _ _ T) as NN. clear -NN IH. induction (gr_params gr) as [|x l IHl]; auto. inversion NN; subst. cbn [app name_last]. split; [intros; contradiction|auto]. }
  assert (NA : name_last ws).
  { apply name_last_app. split; auto. split; [apply name_last_none; eapply Forall_impl; [|exact NP]; intros w Q K; apply Q, ktext_O; auto|]. intros NE. specialize (NO NE). clear -F NO. induction F as [|g gr gs grs (A & B & P & T & N) F IH]; [constructor|].
    cbn [flat_map map] in *. apply Forall_app. split; [|apply IH; intros Q; apply NO; right; auto]. unfold group_words. constructor; [rewrite B; intros K; apply NO; left; apply ktext_O; auto|]. apply (params_not_name (gcls g)); auto. }
  destruct (words_read tight ws RW NA) as (TW & CA & EV). rewrite <- S in TW, CA, EV. exists ws, (map built grs). split; [|split; [exact SG|split; auto]].
  assert (G : grouped ws grs ps).
  { unfold ws. apply grouped_rest.
    - apply placed_grouped.
      + assert (X : forall before, Forall (fun c => Forall (fun g => ~ takes c (wletter (gword g))) gs) before -> well_placed before grs); [|apply X; constructor].
        clear -F IP W. revert W IP. induction F as [|g gr gs grs (A & B & P & T & N) F IH]; intros W IP before BF; cbn [well_placed]; auto. inversion IP as [|? ? IP1 IP2]; inversion W as [|? ? W1 W2]; subst. rewrite A, B. split.
        * eapply Forall_impl; [|exact BF]. intros c H. inversion H; auto.
        * split; [apply W1|]. apply IH; auto. apply Forall_app. split; [eapply Forall_impl; [|exact BF]; intros c H; inversion H; auto|]. constructor; auto.
      + clear -F. induction F as [|g gr gs grs (A & B & P & T & N) F IH]; constructor; auto. rewrite A. auto.
    - apply Forall_forall. intros w I. split; [|unfold bare in B; rewrite Forall_forall in B; auto]. apply Forall_forall. intros gr Ig. destruct (Forall2_in_r _ _ _ _ F Ig) as (g & I2 & A & _). rewrite A. auto. }
  rewrite mk_block_clean, TW. cbn [bind]. assert (WG : words2gcodes ws = Ok (map built grs, ps)).
  { apply words2gcodes_iff. exists grs. split; auto. split; auto. clear -F. induction F as [|g gr gs grs (A & B & P & T & N) F IH]; constructor; auto. }
  rewrite WG. cbn [bind]. assert (AG : assert_gcodes [] [] (map built grs) = Ok tt).
  { apply assert_gcodes_spec; [|constructor|].
    - apply Forall_forall. intros w I. apply in_map_iff in I as (g & <- & I). rewrite Forall_forall in WF. apply (WF g I).
    - split; [|apply Forall_forall; intros; split; [auto|intros ? _ []]]. clear -SG C. revert C. induction SG as [|g h gs hs S F IH]; intros C; [constructor|]. inversion C as [|? ? C1 C2]; subst. constructor; auto. clear -S F C1. revert C1. induction F as [|a b gs hs S2 F IH]; intros C1; constructor; inversion C1; subst; auto.
      unfold compatible in *. destruct S as (S1 & S3 & _), S2 as (S4 & S5 & _). rewrite <- S3, <- S5, <- S1, <- S4. auto. }
  rewrite AG. reflexivity.
Qed.
(** *** the gcodes of a block that was read *)
Lemma fop_in {A} (R : A -> A -> Prop) l1 x l2 : ForallOrdPairs R (l1 ++ x :: l2) -> forall y, In y l2 -> R x y.
Proof. induction l1 as [|a l1 IH]; cbn [app]; intros H; inversion H; subst; auto. rewrite Forall_forall in H2. auto. Qed.
Lemma fop_filter {A} (R : A -> A -> Prop) f l : ForallOrdPairs R l -> ForallOrdPairs R (filter f l).
Proof.
  induction 1 as [|x l H F IH]; cbn [filter]; [constructor|]. destruct (f x); auto. constructor; auto. rewrite Forall_forall in *. intros y I. apply filter_In in I as [I _]. auto.
Qed.
Lemma fop_perm {A} (R : A -> A -> Prop) l l' : (forall x y, R x y -> R y x) -> Permutation l l' -> ForallOrdPairs R l -> ForallOrdPairs R l'.
Proof.
  intros S P. induction P as [|x l l' P IH|x y l|l l' l'' P1 IH1 P2 IH2]; intros F; auto.
  - inversion F; subst. constructor; auto. rewrite Forall_forall in *. intros z I. apply H1. eapply Permutation_in; [symmetry; exact P|auto].
  - inversion F as [|? ? F1 F2]; subst. inversion F2 as [|? ? F3 F4]; subst. inversion F1; subst. constructor; [constructor; auto|]. constructor; auto.
Qed.
Lemma compatible_sym a b : compatible a b -> compatible b a.
Proof. intros [A B]. split; [auto|]. intros (m & H1 & H2). apply B. exists m. auto. Qed.
Lemma name_last_filter {A} (f : A -> word) p l : name_last (map f l) -> name_last (map f (filter p l)).
Proof.
  induction l as [|x l IH]; auto. cbn [map filter name_last]. intros [H1 H2]. destruct (p x); auto. cbn [map name_last]. split; auto. intros K. specialize (H1 K). destruct l; [reflexivity|discriminate].
Qed.
Lemma placed_in before grs : well_placed before grs -> in_place (map built grs) /\ Forall (fun c => Forall (fun g => ~ takes c (wletter (gr_word g))) grs) before.
Proof.
  revert before. induction grs as [|g grs IH]; intros before; cbn [well_placed map].
  - intros _. split; [constructor|]. apply Forall_forall. constructor.
  - intros (A & B & C). destruct (IH _ C) as [D E]. apply Forall_app in E as [E1 E2]. split.
    + constructor; auto. inversion E2; subst. apply Forall_map. cbn [built gcls gword]. auto.
    + rewrite Forall_forall in *. intros c I. constructor; auto.
Qed.
Lemma grouped_name ws grs rest : grouped ws grs rest -> name_last ws -> name_last (map gr_word grs).
Proof.
  induction 1 as [|ws gs1 c g ps gs2 rest w H IH T F|ws gs rest w c H IH F C|ws gs rest w H IH F C]; intros NL; [constructor| | |]; try (apply name_last_app in NL as (N1 & N2 & N3); specialize (N3 ltac:(discriminate))).
  - rewrite !map_app in *. apply IH. auto.
  - rewrite map_app. apply name_last_app. split; auto. split; [exact N2|]. intros _. apply Forall_map. apply Forall_forall. intros g I. rewrite Forall_forall in N3. apply N3. eapply grouped_words_in; eauto.
  - auto.
Qed.
Lemma bare_not_name ps : accurate ar -> Forall word_wf ps -> bare ps -> Forall (fun w => wletter w <> LO) ps.
Proof.
  intros acc W B. unfold bare in B. rewrite Forall_forall in *. intros w I E. specialize (B w I). specialize (W w I). assert (X : word_gcode_class w = Some GCodeProgramName); [|congruence].
  apply (word_class_doc acc); auto. unfold doc_class. left. rewrite E. vm_compute. tauto.
Qed.
Definition told (g : gcode) : Prop := gcode_wf g /\ gwhite g = false /\ Forall readable (gword g :: map snd (gparams g)).
Lemma read_gcodes bs b : accurate ar -> mk_block true bs = Ok b -> Forall readable (bwords b) ->
  Forall told (bgcodes b) /\ ForallOrdPairs compatible (bgcodes b) /\ in_place (bgcodes b) /\ name_last (map gword (bgcodes b)) /\
  bare (bmodal b) /\ Forall word_wf (bmodal b) /\ Forall readable (bmodal b) /\ Forall (fun w => wletter w <> LO) (bmodal b) /\ forall g, In g (bgcodes b) -> In (gword g) (bwords b).
Proof.
  intros acc M R. destruct (mk_block_wf _ _ _ M) as [WF WP]. pose proof M as M0. rewrite mk_block_clean in M. destruct (text2words (clean_text bs)) as [ws|] eqn:T; cbn [bind] in M; [|discriminate].
  destruct (words2gcodes ws) as [[gs0 r]|] eqn:W; cbn [bind] in M; [|discriminate]. destruct (assert_gcodes [] [] gs0) as [[]|] eqn:AG; cbn [bind] in M; [|discriminate]. injection M as <-. cbn [bwords bgcodes bmodal] in *.
  apply words2gcodes_iff in W as (gs & G & U & ->). pose proof (grouped_perm _ _ _ G) as P.
  assert (RG : Forall readable (flat_map group_words gs ++ r)) by (apply (Permutation_Forall' _ ws); auto).
  apply Forall_app in RG as [RG RR]. pose proof (grouped_rest_class _ _ _ G) as BA.
  assert (GW : forall g, In g (map built gs) -> In (gword g) ws). { intros g I. apply in_map_iff in I as (gr & <- & I). cbn [built gword]. eapply grouped_words_in; eauto. }
  split; [|split; [|split; [|split; [|split; [exact BA|split; [exact WP|split; [exact RR|split; [apply bare_not_name; auto|exact GW]]]]]]]].
  - rewrite Forall_forall in *. intros g I. split; [auto|]. apply in_map_iff in I as (gr & <- & I). split; [reflexivity|]. cbn [built gword gparams]. rewrite kv_words. apply Forall_forall. intros x X. apply RG. apply in_flat_map. exists gr. auto.
  - apply assert_gcodes_spec in AG; [apply AG|apply Forall_map; eapply Forall_impl; [|exact WF]; intros g Q; apply Q|constructor].
  - apply (placed_in []). eapply grouped_placed; eauto.
  - rewrite map_map. cbn [built gword]. eapply (grouped_name ws); eauto. eapply name_last_reads. eapply text2words_reads; eauto.
Qed.
(** *** leaving gcodes out *)
Definition keep (ws : list word) (gs : list gcode) : list gcode := filter (fun g => negb (existsb (word_eqb (gword g)) ws)) gs.
Lemma named_b ws g : existsb (word_eqb (gword g)) ws = true <-> named ws g.
Proof. unfold named. rewrite existsb_exists. reflexivity. Qed.
Lemma keep_without ws gs : without ws gs (keep ws gs).
Proof.
  unfold keep. induction gs as [|g gs IH]; cbn [filter]; [constructor|]. destruct (existsb (word_eqb (gword g)) ws) eqn:E; cbn [negb].
  - apply wo_drop; auto. apply named_b. auto.
  - apply wo_keep; auto. intros N. apply named_b in N. congruence.
Qed.
Lemma keep_nil gs : keep [] gs = gs.
Proof. unfold keep. induction gs as [|g gs IH]; cbn [filter existsb negb]; [reflexivity|]. f_equal. exact IH. Qed.
(** *** --full: the gcodes in the order of execution *)
Lemma takes_later c : forallb (fun e => negb (accepts c (fst e)) || (exec_order (snd e) <? exec_order c)%Z) doc_letters && negb (accepts c LG) && negb (accepts c LM) = true.
Proof. destruct c; vm_compute; reflexivity. Qed.
Lemma order_places g h : accurate ar -> gcode_wf g -> gcode_wf h -> (exec_order (gcls g) <= exec_order (gcls h))%Z -> ~ takes (gcls g) (wletter (gword h)).
Proof.
  intros acc W (_ & PR & WH & _) O T. apply accepts_iff in T. pose proof (takes_later (gcls g)) as X. apply andb_true_iff in X as [X XM]. apply andb_true_iff in X as [X XG]. apply (word_class_doc acc) in PR; auto.
  destruct PR as [I|(lo & hi & I & _)].
  - rewrite forallb_forall in X. specialize (X _ I). cbn [fst snd] in X. rewrite T in X. cbn [negb orb] in X. apply Z.ltb_lt in X. lia.
  - assert (Y : forallb (fun e => letter_eqb (fst (fst (fst e))) LG || letter_eqb (fst (fst (fst e))) LM) doc_codes = true) by (vm_compute; reflexivity).
    rewrite forallb_forall in Y. specialize (Y _ I). cbn [fst] in Y. apply orb_true_iff in Y as [Y|Y]; apply letter_eqb_eq in Y; rewrite Y in T; rewrite T in *; discriminate.
Qed.
Lemma letter_order g l c : accurate ar -> gcode_wf g -> wletter (gword g) = l -> In (l, c) doc_letters -> gcls g = c.
Proof.
  intros acc (_ & PR & W & _) E I. assert (X : word_gcode_class (gword g) = Some c) by (apply (word_class_doc acc); auto; left; rewrite E; auto). unfold proper in PR. congruence.
Qed.
Lemma sorted_parts gs : accurate ar -> Forall told gs -> ForallOrdPairs compatible gs ->
  (forall g h, In g gs -> In h gs -> wletter (gword g) = LO -> h = g \/ wletter (gword h) = LN) ->
  Forall told (sort_gcodes gs) /\ ForallOrdPairs compatible (sort_gcodes gs) /\ in_place (sort_gcodes gs) /\ name_last (map gword (sort_gcodes gs)).
Proof.
  intros acc T C N. destruct (C25_sorted gs) as (P & S & _).
  assert (T' : Forall told (sort_gcodes gs)) by (apply (Permutation_Forall' _ gs); [symmetry; auto|auto]).
  assert (C' : ForallOrdPairs compatible (sort_gcodes gs)) by (apply (fop_perm _ gs); [apply compatible_sym|symmetry; auto|auto]).
  assert (N' : forall g h, In g (sort_gcodes gs) -> In h (sort_gcodes gs) -> wletter (gword g) = LO -> h = g \/ wletter (gword h) = LN) by (intros g h I1 I2; apply N; eapply Permutation_in; eauto).
  split; auto. split; auto. clear P T C N. revert S T' C' N'. generalize (sort_gcodes gs) as l. intros l S. induction S as [|g l S IH F]; intros T C N; [split; constructor|].
  inversion T as [|? ? T1 T2]; inversion C as [|? ? C1 C2]; subst. destruct IH as [IP NL]; auto; [intros; apply (N g0); auto; right; auto|].
  split.
  - constructor; auto. rewrite Forall_forall in *. intros h I. exact (order_places g h acc (proj1 T1) (proj1 (T2 h I)) (F h I)).
  - cbn [map name_last]. split; auto. intros K. apply ktext_O in K. destruct l as [|h l]; auto. exfalso. inversion F as [|? ? F1 _]; subst. inversion C1 as [|? ? C3 _]; subst. inversion T2 as [|? ? T3 _]; subst.
    assert (EG : gcls g = GCodeProgramName) by (refine (letter_order g LO _ acc (proj1 T1) K _); vm_compute; tauto).
    destruct (N g h) as [E|E]; [left; auto|right; left; auto|auto| |].
    + subst h. destruct C3 as [C3 _]. apply C3. reflexivity.
    + assert (EH : gcls h = GCodeLineNumber) by (refine (letter_order h LN _ acc (proj1 T3) E _); vm_compute; tauto). rewrite EG, EH in F1. vm_compute in F1. apply F1. reflexivity.
Qed.
Lemma sound_mode m mo : sound m -> gm_get (m_mode m) MG_motion = Some mo -> gcode_wf mo /\ in_group MG_motion mo.
Proof. intros (_ & _ & _ & _ & _ & T & W) E. split; eauto. destruct (T _ _ E); auto. Qed.
(** the gcodes pygcode-norm calls effective *)
Lemma effective m l s gs : accurate ar -> sound m -> m_ignore m = false -> mk_line s = Ok l -> block_modal_gcodes m (lblock l) = Ok gs ->
  exists gs0, gs = sort_gcodes gs0 /\ full_gcodes m l gs /\ Forall gcode_wf gs0 /\
    forall o, o_full o = true -> restylable o m l -> Forall told gs /\ ForallOrdPairs compatible gs /\ in_place gs /\ name_last (map gword gs).
Proof.
  intros acc S IG L H. destruct (mk_line_block _ _ L) as (bs & MB). destruct (mk_block_wf _ _ _ MB) as [WF WP]. unfold block_modal_gcodes in H. destruct (machine_modal_gcode m (bmodal (lblock l))) as [og|] eqn:E; cbn [bind] in H; [|discriminate]. injection H as <-.
  destruct (bmodal (lblock l)) as [|p0 ps0] eqn:PS.
  - cbn in E. injection E as <-. rewrite app_nil_r. exists (bgcodes (lblock l)). split; auto. split; [constructor; auto|]. split; auto. intros o FU (R & _ & Q). rewrite FU in Q. destruct Q as [_ Q].
    destruct (read_gcodes bs (lblock l) acc MB R) as (T & C & _). apply sorted_parts; auto. intros g h I1 I2 K. apply (Q g); auto.
  - rewrite <- PS in *. assert (NE : bmodal (lblock l) <> []) by congruence. pose proof (block_bare _ _ _ MB) as B. destruct (gm_get (m_mode m) MG_motion) as [mo|] eqn:MO.
    2:{ rewrite modal_gcode_none in E by auto. rewrite IG in E. discriminate. }
    destruct (sound_mode m mo S MO) as [WM GM]. pose proof E as E0. rewrite (modal_gcode_spec m mo _ MO (proj1 WM) (proj1 (proj2 WM)) B NE), IG in E. cbn [negb] in E. rewrite andb_true_r in E.
    destruct (existsb (unfit (gcls mo)) (bmodal (lblock l))) eqn:U; [discriminate|].
    assert (FA : filter (fun kv => fit (gcls mo) (snd kv)) (updated mo (bmodal (lblock l))) = updated mo (bmodal (lblock l))).
    { apply filter_all. intros kv X. apply updated_in in X as [K [X|X]]; [| |apply WM].
      - unfold fit. rewrite <- K. apply accepts_iff. destruct WM as [[LM _] _]. rewrite Forall_forall in LM. apply LM. auto.
      - rewrite existsb_false in U. rewrite forallb_forall in U. specialize (U _ X). unfold unfit in U. unfold fit. destruct (accepts (gcls mo) (wletter (snd kv))); auto. }
    rewrite FA in E. assert (EG : og = Some (MkGCode (gcls mo) (gword mo) (updated mo (bmodal (lblock l))) false)) by congruence. subst og. clear E. set (g := MkGCode (gcls mo) (gword mo) (updated mo (bmodal (lblock l))) false) in *.
    assert (WG : gcode_wf g) by (eapply modal_gcode_wf; eauto).
    exists (bgcodes (lblock l) ++ [g]). split; auto. split; [|split].
    + apply (fg_some m l mo g); auto. split; auto. split; auto. intros k. cbn [g gparams]. unfold updated. apply (dget_dupdate _ _ _ letter_eqb_eq).
    + apply Forall_app. split; auto.
    + intros o FU (R & _ & Q). rewrite FU in Q. destruct Q as [Q1 Q2]. destruct (Q1 NE) as [QM QR]. specialize (QR mo MO). inversion QR as [|? ? QR1 QR2]; subst.
      destruct (read_gcodes bs (lblock l) acc MB R) as (T & C & _ & _ & _ & _ & RB & _). apply sorted_parts; auto.
      * apply Forall_app. split; auto. constructor; [|constructor]. split; auto. split; auto. cbn [g gword gparams]. constructor; auto. apply Forall_forall. intros x X. apply in_map_iff in X as (kv & <- & X). apply updated_in in X as [_ [X|X]]; [| |apply WM].
        -- rewrite Forall_forall in QR2. apply QR2. apply in_map_iff. eauto.
        -- rewrite Forall_forall in RB. auto.
      * assert (X : Forall (fun h => compatible g h) (bgcodes (lblock l))).
        { rewrite Forall_forall in *. intros h I. split.
          - intros EQ. apply (QM h I). destruct (WF h I) as (_ & PH & _), WM as (_ & PM & _). unfold proper in *. cbn [g gword] in EQ. rewrite <- EQ in PH. assert (CC : gcls h = gcls mo) by congruence. rewrite CC. exact GM.
          - intros (mg & A1 & A2). apply (QM h I). rewrite A2. cbn [g gcls] in A1. unfold in_group in GM. congruence. }
        apply (fop_perm _ (g :: bgcodes (lblock l))); [apply compatible_sym|apply Permutation_cons_append|constructor; auto].
      * intros a h I1 I2 K. apply in_app_iff in I1 as [I1|[<-|[]]].
        -- destruct (Q2 a I1 K) as [Q _]. contradiction.
        -- exfalso. cbn [g gword] in K. assert (Z : gcls mo = GCodeProgramName) by (apply (letter_order mo LO); auto; vm_compute; tauto). unfold in_group in GM. rewrite Z in GM. discriminate GM.
Qed.
End WithArith.
