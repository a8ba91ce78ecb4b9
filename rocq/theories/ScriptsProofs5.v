(** Gcodes printed on one line, read back. *)
From Coq Require Import Ascii String List Bool Arith ZArith QArith Qcanon Permutation Lia.
From Verif Require Import Base Num Words GTable GCode Line Position Machine Transform BaseFacts ArithSpec WordsSpec LineSpec CommentProofs PrintSpec GCodeSpec GCodeProofs GCodeProofs2 PropsLine BlockSpec BlockProofs LineProofs PropsBlock ModeSpec ModeProofs MachSpec MachProofs MachProofs2 SimSpec SimProofs TransSpec TransProofs TransProofs2
  Scripts ScriptsSpec ScriptsSpec2 ScriptsProofs ScriptsProofs4.
Import ListNotations.
Local Open Scope nat_scope.

Section WithArith.
Context {ar : Arith}.

(** groups of words for the gcodes, in printed order *)
Lemma printed_groups gs : Forall gcode_wf gs -> Forall (fun g => gwhite g = false) gs ->
  exists grs, Forall2 (fun g gr => gr_class gr = gcls g /\ gr_word gr = gword g /\ Permutation (map (fun w => (wletter w, w)) (gr_params gr)) (gparams g) /\
      (forall x, In x (gr_params gr) -> takes (gcls g) (wletter x)) /\ NoDup (map wletter (gr_params gr))) gs grs /\
    join [space] (map gcode_str gs) = join [space] (map word_str (flat_map group_words grs)).
Proof.
  intros W WH. assert (X : exists grs, Forall2 (fun g gr => (gr_class gr = gcls g /\ gr_word gr = gword g /\ Permutation (map (fun w => (wletter w, w)) (gr_params gr)) (gparams g) /\
      (forall x, In x (gr_params gr) -> takes (gcls g) (wletter x)) /\ NoDup (map wletter (gr_params gr))) /\ gcode_str g = join [space] (map word_str (group_words gr))) gs grs).
  { induction gs as [|g gs IH]; [exists []; constructor|]. inversion W; inversion WH; subst. destruct IH as (grs & F); auto. destruct (printed_form g) as (ps & P & T & N & E); [apply H1|]. rewrite H5 in E.
    exists (Group (gcls g) (gword g) ps :: grs). constructor; auto. repeat split; auto. }
  destruct X as (grs & F). exists grs. split; [eapply Forall2_impl_in; [|exact F]; intros g gr _ [A _]; exact A|].
  rewrite flat_map_concat_map, concat_map, map_map. rewrite <- (join_concat [space] (map (fun x => map word_str (group_words x)) grs)).
  - f_equal. rewrite map_map. clear W WH. induction F as [|g gr gs grs [_ E] F IH]; cbn [map]; congruence.
  - apply Forall_forall. intros x I. apply in_map_iff in I as (gr & <- & _). discriminate.
Qed.
(** no gcode takes the word of a later one for a parameter *)
Definition in_place (gs : list gcode) : Prop := ForallOrdPairs (fun a b => ~ takes (gcls a) (wletter (gword b))) gs.
Lemma printed_gcodes gs : accurate ar -> gs <> [] -> Forall gcode_wf gs -> Forall (fun g => gwhite g = false) gs -> Forall (fun g => Forall readable (gword g :: map snd (gparams g))) gs ->
  ForallOrdPairs compatible gs -> in_place gs -> name_last (map gword gs) ->
  exists ws hs, mk_line (join [space] (map gcode_str gs)) = Ok (Line (Block ws hs []) None None) /\ Forall2 same_gcode gs hs /\ Forall readable ws /\ Forall gcode_wf hs /\ Forall (fun g => gwhite g = false) hs.
Proof.
  intros acc NE W WH R C IP NL. destruct (printed_groups gs W WH) as (grs & F & ->). set (ws := flat_map group_words grs).
  assert (SG : Forall2 same_gcode gs (map built grs)).
  { clear -F. induction F as [|g gr gs grs (A & B & P & T & N) F IH]; cbn [map]; constructor; auto. repeat split; cbn [built gcls gword gparams]; auto. symmetry; auto. }
  assert (WF : Forall gcode_wf (map built grs)).
  { clear -SG W. revert W. induction SG as [|g h gs hs S F IH]; intros W; constructor; inversion W; subst; auto. eapply same_wf; eauto. }
  exists ws, (map built grs).
  assert (RW : Forall readable ws).
  { unfold ws. clear -F R. induction F as [|g gr gs grs (A & B & P & T & N) F IH]; cbn [flat_map]; [constructor|]. inversion R as [|? ? R1 R2]; subst. apply Forall_app. split; auto. inversion R1 as [|? ? R3 R4]; subst.
    unfold group_words. rewrite B. constructor; auto. rewrite Forall_forall in *. intros x I. apply R4. assert (I2 : In (wletter x, x) (gparams g)) by (eapply Permutation_in; [exact P|apply (in_map (fun w => (wletter w, w))); auto]). apply in_map_iff. exists (wletter x, x). auto. }
  assert (G : grouped ws grs []).
  { apply placed_grouped.
    - assert (X : forall before, Forall (fun c => Forall (fun g => ~ takes c (wletter (gword g))) gs) before -> well_placed before grs); [|apply X; constructor].
      clear -F IP W. revert W IP. induction F as [|g gr gs grs (A & B & P & T & N) F IH]; intros W IP before BF; cbn [well_placed]; auto. inversion IP as [|? ? IP1 IP2]; inversion W as [|? ? W1 W2]; subst. rewrite A, B. split.
      + eapply Forall_impl; [|exact BF]. intros c H. inversion H; auto.
      + split; [apply W1|]. apply IH; auto. apply Forall_app. split; [eapply Forall_impl; [|exact BF]; intros c H; inversion H; auto|]. constructor; auto.
    - clear -F. induction F as [|g gr gs grs (A & B & P & T & N) F IH]; constructor; auto. rewrite A. auto. }
  split; [|split; [exact SG|split; [exact RW|split; [exact WF|apply Forall_forall; intros g I; apply in_map_iff in I as (gr & <- & _); reflexivity]]]].
  pose proof (line_words 0 ws) as LW. cbn [repeat app] in LW. rewrite LW; clear LW.
  - assert (WG : words2gcodes ws = Ok (map built grs, [])).
    { apply words2gcodes_iff. exists grs. split; auto. split; auto. clear -F. induction F as [|g gr gs grs (A & B & P & T & N) F IH]; constructor; auto. }
    rewrite WG. cbn [bind]. assert (AG : assert_gcodes [] [] (map built grs) = Ok tt).
    { apply assert_gcodes_spec; [|constructor|].
      - apply Forall_forall. intros w I. apply in_map_iff in I as (g & <- & I). rewrite Forall_forall in WF. apply (WF g I).
      - split; [|apply Forall_forall; intros; split; [auto|intros ? _ []]]. clear -SG C. revert C. induction SG as [|g h gs hs S F IH]; intros C; [constructor|]. inversion C as [|? ? C1 C2]; subst. constructor; auto. clear -S F C1. revert C1. induction F as [|a b gs hs S2 F IH]; intros C1; constructor; inversion C1; subst; auto.
        unfold compatible in *. destruct S as (S1 & S3 & _), S2 as (S4 & S5 & _). rewrite <- S3, <- S5, <- S1, <- S4. auto. }
    rewrite AG. reflexivity.
  - unfold ws. inversion F as [|? ? ? ? (A & B & _)]; subst; [congruence|]. discriminate.
  - exact RW.
  - unfold ws. clear -F NL acc W. revert NL W. induction F as [|g gr gs grs (A & B & P & T & N) F IH]; intros NL W; [exact I|]. cbn [flat_map]. destruct NL as [NL1 NL2]. inversion W as [|? ? W1 W2]; subst. specialize (IH NL2 W2).
    unfold group_words. cbn [app name_last]. rewrite B. split.
    + intros K. specialize (NL1 K). destruct gs; [|discriminate]. inversion F; subst. cbn [flat_map app]. rewrite app_nil_r. apply ktext_O in K. destruct W1 as (_ & PR & W1 & _). pose proof (program_name _ _ acc W1 K PR) as Z. destruct (gr_params gr) as [|x l]; auto. specialize (T x (or_introl eq_refl)). unfold takes in T. rewrite Z in T. contradiction.
    + pose proof (params_not_name _ _ T) as NN. clear -NN IH. induction (gr_params gr) as [|x l IHl]; auto. inversion NN; subst. cbn [app name_last]. split; [intros; contradiction|auto].
Qed.
Lemma no_words_none bs b : mk_block true bs = Ok b -> bwords b = [] -> bgcodes b = [].
Proof. intros M E. assert (B : block_bool b = false) by (unfold block_bool; rewrite E; reflexivity). rewrite (mk_block_nowords _ _ _ M B). reflexivity. Qed.
(** the same behind which a comment is printed *)
Lemma printed_commented gs s l : accurate ar -> gs <> [] -> Forall gcode_wf gs -> Forall (fun g => gwhite g = false) gs -> Forall (fun g => Forall readable (gword g :: map snd (gparams g))) gs ->
  ForallOrdPairs compatible gs -> in_place gs -> name_last (map gword gs) -> mk_line s = Ok l -> lmacro l = None ->
  exists b, mk_line (join [space] (join [space] (map gcode_str gs) :: match lcomment l with Some c => [comment_str c] | None => [] end)) = Ok (Line b (lcomment l) None) /\ Forall2 same_gcode gs (bgcodes b) /\ bmodal b = [].
Proof.
  intros acc NE W WH R C IP NL L M. destruct (printed_gcodes gs acc NE W WH R C IP NL) as (ws & hs & E & SG & RW & WF & WH'). set (b := Block ws hs []) in *.
  destruct (mk_line_block _ _ E) as (bs & MB). cbn [lblock] in MB.
  assert (SE : separate b) by (split; [intros w g []|intros H; exfalso; apply H; reflexivity]).
  assert (PW : Forall prints_well (bwords b)) by (eapply Forall_impl; [|exact RW]; intros w [A B]; split; auto).
  destruct (C15_split ar s l L) as (bc & LS & _ & CM). rewrite M in LS.
  destruct (line_reprint_any acc s bc None bs b (lcomment l) LS MB CM PW SE) as (b' & MB' & _ & _ & _ & BB & ML).
  destruct (C24_exact_partial ar true bs b acc MB RW SE) as (b2 & MB2 & BS2 & G & MM). rewrite MB' in MB2. injection MB2 as <-.
  assert (BS : block_str b = join [space] (map gcode_str gs)).
  { unfold block_str, b. cbn [bgcodes bmodal map]. rewrite app_nil_r. f_equal. clear -SG W WH WH'. revert W WH WH'. induction SG as [|g h gs hs S F IH]; intros W WH WH'; auto. inversion W; inversion WH; inversion WH'; subst. cbn [map]. f_equal; auto. symmetry. apply same_str; auto; [apply H1|congruence]. }
  assert (BT : block_bool b = true). { unfold block_bool, b. cbn [bwords]. destruct ws as [|w ws]; auto. exfalso. apply (no_words_none bs b) in MB; auto. inversion SG; subst; [congruence|]. discriminate MB. }
  assert (CA : comment_again (lcomment l) None = lcomment l) by (unfold comment_again; destruct (lcomment l) as [[[] ?]|]; reflexivity).
  rewrite CA in ML. exists b'. split; [|split; [|exact MM]].
  - rewrite <- ML. f_equal. unfold line_str. cbn [lblock lcomment lmacro]. rewrite BT, BS. destruct (lcomment l); reflexivity.
  - clear -SG G. change (bgcodes b) with hs in G. revert G. generalize (bgcodes b'). clear -SG. induction SG as [|g h gs hs S F IH]; intros ks G; inversion G; subst; constructor; auto. eapply same_gcode_trans; eauto.
Qed.
End WithArith.

(** ** --singles *)

Lemma Forall2_len {A B} (R : A -> B -> Prop) l l' : Forall2 R l l' -> length l = length l'.
Proof. induction 1; cbn; congruence. Qed.
Section Singles.
Context {ar : Arith}.
Lemma gcode_str_some g : gcode_str g <> [].
Proof. unfold gcode_str. destruct (gwhite g); unfold word_str; discriminate. Qed.
Lemma each_print {A} (f : A -> printer unit) (h : A -> text) l out : (forall x, f x = print (h x)) -> each f l = (out, Ok tt) <-> out = map h l.
Proof.
  intros H. revert out. induction l as [|x l IH]; intros out; cbn [each map].
  - rewrite ret_ok. split; [intros [-> _]; auto|intros ->; auto].
  - rewrite H, pbind_print. split; [intros (o & E & ->); apply IH in E; subst; auto|intros ->; exists (map h l); split; auto; apply IH; auto].
Qed.
Lemma write_singles s l out : mk_line s = Ok l -> write singles (bgcodes (lblock l)) (bmodal (lblock l)) (lcomment l) (lmacro l) = (out, Ok tt) <-> out = single_lines l.
Proof.
  intros H. unfold write, single_lines. cbn [o_full o_singles singles andb]. destruct (2 <=? length (bgcodes (lblock l))) eqn:E.
  - apply each_print. intros g. unfold write_line, singles, single_line. cbn [o_rm_comments o_rm_gcodes o_rm_whitespace o_rm_blanks map app]. cbn [join].
    pose proof (gcode_str_some g) as N. destruct (gcode_str g) as [|c0 r0]; [congruence|]. cbn [app]. destruct (lcomment l); reflexivity.
  - change (write_line singles) with (write_line no_options). apply (write_line_str s l); auto.
Qed.
Lemma singles_line_ok fuel s m out m' : norm_line singles fuel s m = (out, Ok m') <-> exists l, mk_line s = Ok l /\ process_block (lblock l) m = (m', Ok tt) /\ out = single_lines l.
Proof.
  unfold norm_line. cbn [o_rm_invalid_modal o_full o_canned_expand o_linearize singles andb]. rewrite pbind_pure. split.
  - intros (l & L & H). rewrite pbind_ret in H. apply pbind_pure in H as (gs & G & H). apply pbind_ok in H as (o1 & [] & o2 & W & P & ->). apply acts_ok in P as [-> P].
    exists l. split; auto. split; auto. rewrite app_nil_r. apply (write_singles s l); auto.
  - intros (l & L & P & ->). exists l. split; auto. rewrite pbind_ret, pbind_pure. destruct (modal_gcodes_ok _ _ _ P) as (gs & G). exists gs. split; auto.
    rewrite pbind_ok. exists (single_lines l), tt, []. split; [|split; [rewrite acts_ok; auto|rewrite app_nil_r; auto]]. apply (write_singles s l); auto.
Qed.
Lemma singles_loop_ok fuel ls : forall m out m', norm_loop singles fuel ls m = (out, Ok m') <-> exists tr, reading m ls tr /\ out = flat_map (fun x => single_lines (fst x)) tr /\ m' = after m tr.
Proof.
  induction ls as [|s r IH]; intros m out m'; cbn [norm_loop].
  - rewrite ret_ok. split; [intros [-> ->]; exists []; split; [constructor|auto]|]. intros (tr & R & -> & ->). apply reading_empty in R. subst. auto.
  - rewrite pbind_ok. split.
    + intros (o1 & m1 & o2 & L & H & ->). apply singles_line_ok in L as (l & L & P & ->). apply IH in H as (tr & R & -> & ->). exists ((l, m1) :: tr). split; [econstructor; eauto|]. split; auto. rewrite after_cons. reflexivity.
    + intros (tr & R & -> & ->). apply reading_step in R as (l & m1 & tr' & L & P & R & <-). exists (single_lines l), m1, (flat_map (fun x => single_lines (fst x)) tr'). split; [apply singles_line_ok; eauto|]. split; [|reflexivity].
      apply IH. exists tr'. split; auto. split; auto. rewrite after_cons. reflexivity.
Qed.
(** the lines of one line *)
Lemma reading_app ls ls' : forall m tr tr', reading m ls tr -> reading (after m tr) ls' tr' -> reading m (ls ++ ls') (tr ++ tr').
Proof.
  induction ls as [|s r IH]; intros m tr tr' R R'.
  - apply reading_empty in R. subst. exact R'.
  - apply reading_step in R as (l & m1 & t1 & L & P & R & <-). rewrite after_cons in R'. cbn [app snd] in *. econstructor; eauto.
Qed.
Lemma after_app m tr tr' : after m (tr ++ tr') = after (after m tr) tr'.
Proof. revert m. induction tr as [|x tr IH]; intros m; cbn [app]; auto. rewrite !after_cons. auto. Qed.
Lemma singles_read s l gs : accurate ar -> mk_line s = Ok l -> lmacro l = None -> Forall gcode_wf gs -> Forall (fun g => gwhite g = false) gs -> Forall (fun g => Forall readable (gword g :: map snd (gparams g))) gs ->
  forall m m' m1, sound m -> inside m -> sound m' -> inside m' -> same_machine m m' -> steps (map gcode_process gs) m = (m1, Ok tt) ->
  exists part, reading m' (map (single_line (lcomment l)) gs) part /\ Forall (fun y => length (bgcodes (lblock (fst y))) <= 1 /\ lcomment (fst y) = lcomment l) part /\
    Forall2 same_gcode gs (flat_map (fun y => bgcodes (lblock (fst y))) part) /\ flat_map (fun y => bmodal (lblock (fst y))) part = [] /\ same_machine m1 (after m' part) /\ sound (after m' part) /\ inside (after m' part).
Proof.
  intros acc L M. induction gs as [|g gs IH]; intros W WH R m m' m1 S I S' I' SM ST.
  - cbn in ST. injection ST as <-. exists []. split; [constructor|]. split; [constructor|]. split; [constructor|]. auto.
  - inversion W as [|? ? W1 W2]; inversion WH as [|? ? H1 H2]; inversion R as [|? ? R1 R2]; subst. cbn [map steps] in ST. unfold then_step in ST. destruct (gcode_process g m) as [mg [[]|e]] eqn:PG; [|discriminate ST].
    destruct (printed_commented [g] s l) as (b & E & F & BM); auto; try discriminate; try (constructor; auto; fail); [constructor; constructor|constructor; constructor|split; auto; exact Logic.I|].
    inversion F as [|? g' ? ? SG F0 E1 E2]; subst. inversion F0; subst. cbn [map join] in E. pose proof (process_sim g g' m m' S W1 SG S' SM) as [A B]. rewrite PG in A, B. cbn [fst snd] in A, B.
    destruct (gcode_process g' m') as [mg' r'] eqn:PG'. cbn [fst snd] in A, B. subst r'.
    destruct (process_keeps g m S I W1) as [(S1 & I1 & _) _]. destruct (process_keeps g' m' S' I' (same_wf _ _ W1 SG)) as [(S2 & I2 & _) _]. rewrite PG in S1, I1. rewrite PG' in S2, I2. cbn [fst] in *.
    destruct (IH W2 H2 R2 mg mg' m1 S1 I1 S2 I2 B ST) as (part & P1 & P2 & P3 & P4 & P5 & P6 & P7). exists ((Line b (lcomment l) None, mg') :: part). split; [|split; [|split; [|split; [|split; [|split]]]]].
    + cbn [map]. econstructor; [exact E| |exact P1]. cbn [lblock]. unfold process_block. rewrite BM, <- E2, process_one. exact PG'.
    + constructor; auto. cbn [fst lblock lcomment]. rewrite <- E2. auto.
    + cbn [flat_map fst lblock]. rewrite <- E2. cbn [app]. constructor; auto.
    + cbn [flat_map fst lblock]. rewrite BM. auto.
    + rewrite after_cons. exact P5.
    + rewrite after_cons. exact P6.
    + rewrite after_cons. exact P7.
Qed.
Lemma sort_short gs : length gs < 2 -> sort_gcodes gs = gs.
Proof. destruct gs as [|g [|h gs]]; cbn [length]; intros; [reflexivity|reflexivity|lia]. Qed.
Lemma block_words v s b : mk_block v s = Ok b -> forall w, In w (bmodal b) \/ (exists g, In g (bgcodes b) /\ (w = gword g \/ In w (map snd (gparams g)))) -> In w (bwords b).
Proof.
  intros M. rewrite mk_block_clean in M. destruct (text2words _) as [ws|]; cbn [bind] in M; [|discriminate]. destruct (words2gcodes ws) as [[gs0 r]|] eqn:W; cbn [bind] in M; [|discriminate].
  assert (E : b = Block ws gs0 r). { destruct v; [|congruence]. destruct (assert_gcodes [] [] gs0); cbn [bind] in M; congruence. } subst b. cbn [bwords bgcodes bmodal].
  apply words2gcodes_iff in W as (gs & G & U & ->). apply grouped_perm in G. intros w H. eapply Permutation_in; [symmetry; exact G|]. apply in_app_iff.
  destruct H as [H|(g & I & H)]; auto. left. apply in_map_iff in I as (gr & <- & I). apply in_flat_map. exists gr. split; auto. unfold group_words. cbn [built gword gparams] in H. destruct H as [->|H]; [left; auto|right]. rewrite map_map, map_id in H. auto.
Qed.
Lemma block_white v s b : mk_block v s = Ok b -> Forall (fun g => gwhite g = false) (bgcodes b).
Proof.
  intros M. rewrite mk_block_clean in M. destruct (text2words _) as [ws|]; cbn [bind] in M; [|discriminate]. destruct (words2gcodes ws) as [[gs0 r]|] eqn:W; cbn [bind] in M; [|discriminate].
  assert (E : b = Block ws gs0 r). { destruct v; [|congruence]. destruct (assert_gcodes [] [] gs0); cbn [bind] in M; congruence. } subst b. cbn [bgcodes]. apply words2gcodes_iff in W as (gs & G & U & ->). apply Forall_forall. intros g I. apply in_map_iff in I as (gr & <- & _). reflexivity.
Qed.
Lemma line_singled s l m m' m1 : accurate ar -> mk_line s = Ok l -> faithful l -> splits l -> sound m -> inside m -> sound m' -> inside m' -> same_machine m m' -> process_block (lblock l) m = (m1, Ok tt) ->
  exists part, reading m' (single_lines l) part /\ singled (l, m1) part /\ sound (after m' part) /\ inside (after m' part) /\ same_machine m1 (after m' part).
Proof.
  intros acc L F SP S I S' I' SM P. destruct (mk_line_block _ _ L) as (bs & MB). destruct (mk_block_wf _ _ _ MB) as [W WW]. unfold single_lines. destruct (2 <=? length (bgcodes (lblock l))) eqn:E.
  - apply Nat.leb_le in E. destruct (SP E) as [BM LM]. set (gs := bgcodes (lblock l)) in *. assert (PM : Permutation gs (sort_gcodes gs)) by (symmetry; apply sort_perm).
    destruct (singles_read s l (sort_gcodes gs) acc L LM) with (m := m) (m' := m') (m1 := m1) as (part & P1 & P2 & P3 & P4 & P5 & P6 & P7); auto.
    + apply sort_wf; auto.
    + eapply Permutation_Forall; [exact PM|]. eapply block_white; eauto.
    + eapply Permutation_Forall; [exact PM|]. apply Forall_forall. intros g Ig. destruct F as [F _]. rewrite Forall_forall in F. constructor; [apply F; eapply block_words; eauto|]. apply Forall_forall. intros w Iw. apply F. eapply block_words; eauto.
    + unfold process_block, process_gcodes in P. rewrite BM in P. cbn [machine_modal_gcode] in P. rewrite app_nil_r in P. exact P.
    + exists part. split; auto. split; [|auto]. split; [exact P2|]. split; [exact P3|]. split; [cbn [fst]; rewrite BM; exact P4|].
      destruct (exists_last (l := part)) as (before & y & ->). { intros ->. apply Forall2_len in P3. apply Permutation_length in PM. cbn [flat_map length] in P3. rewrite P3 in PM. unfold gs in *. lia. }
      exists before, y. split; auto. rewrite after_app in P5. exact P5.
  - apply Nat.leb_gt in E. destruct (faithful_line s l acc L F) as (l' & L' & SL & _). pose proof (process_block_same l l' s m m' L SL S I S' I' SM) as [A B]. rewrite P in A, B. destruct (process_block (lblock l') m') as [m1' r'] eqn:P'. cbn [fst snd] in A, B. subst r'.
    destruct (line_keeps l' _ m' m1' L' S' I' P') as [S1 I1]. exists [(l', m1')]. split; [econstructor; eauto; constructor|]. split; [|split; [exact S1|split; [exact I1|exact B]]].
    destruct SL as (G & BM & C & _). split; [|split; [|split; [|exists [], (l', m1'); auto]]].
    + constructor; [|constructor]. cbn [fst]. split; auto. apply Forall2_len in G. lia.
    + cbn [flat_map fst]. rewrite app_nil_r, sort_short by auto. auto.
    + cbn [flat_map fst]. rewrite app_nil_r. auto.
Qed.
Lemma singles_back file : accurate ar -> forall m m' tr, sound m -> inside m -> sound m' -> inside m' -> same_machine m m' -> reading m file tr -> Forall (fun x => faithful (fst x) /\ splits (fst x)) tr ->
  exists parts, reading m' (flat_map (fun x => single_lines (fst x)) tr) (concat parts) /\ Forall2 singled tr parts.
Proof.
  intros acc. induction file as [|s r IH]; intros m m' tr S I S' I' M R F.
  - apply reading_empty in R. subst. exists []. split; constructor.
  - apply reading_step in R as (l & m1 & tr1 & L & P & R & <-). inversion F as [|? ? [F1 F1'] F2]; subst. cbn [fst] in *. destruct (line_singled s l m m' m1 acc L F1 F1' S I S' I' M P) as (part & R1 & SG & S2 & I2 & B).
    destruct (line_keeps l s m m1 L S I P) as [S1 I1]. destruct (IH m1 (after m' part) tr1 S1 I1 S2 I2 B R F2) as (parts & R2 & F3). exists (part :: parts). split; [cbn [flat_map concat fst]; apply reading_app; auto|]. constructor; auto.
Qed.
End Singles.
