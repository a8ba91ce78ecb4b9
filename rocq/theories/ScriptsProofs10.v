(** pygcode-norm with --full and the options that remove content: the printed program, read back and run. *)
From Coq Require Import Ascii String List Bool Arith ZArith QArith Qcanon Permutation Lia Sorted.
From Verif Require Import Base Num Words GTable GCode Line Position Machine Transform BaseFacts ArithSpec WordsSpec LineSpec PrintSpec GCodeSpec GCodeProofs GCodeProofs2 PropsLine BlockSpec BlockProofs LineProofs LineProofs2 PropsGCode ModeSpec ModeProofs MachSpec MachProofs MachProofs2 SimSpec SimProofs TransSpec TransProofs TransProofs2
  Scripts ScriptsSpec ScriptsSpec2 ScriptsSpec5 ScriptsProofs ScriptsProofs4 ScriptsProofs5 ScriptsProofs9.
Import ListNotations.
Local Open Scope nat_scope.

Section WithArith.
Context {ar : Arith}.
(** the line printed for the gcodes [gs] and the leftover words [ps] *)
Definition styled (o : options) (gs : list gcode) (ps : list word) (c : option comment) (m : option text) : text :=
  line_text (squeeze (o_rm_whitespace o) (join [space] (map gcode_str (keep (o_rm_gcodes o) gs) ++ map word_str ps))) (if o_rm_comments o then None else c) m.
Definition shown (o : options) (s : text) : list text := match s, o_rm_blanks o with [], true => [] | _, _ => [s] end.
Lemma write_styled o gs ps c m out : o_singles o = false -> o_full o = false \/ ps = [] -> write o gs ps c m = (out, Ok tt) <-> out = shown o (styled o gs ps c m).
Proof.
  intros SI FU. unfold write. rewrite SI. cbn [andb].
  assert (X : match o_full o, ps with true, _ :: _ => pure (Raise EAssertionError) | _, _ => write_line o gs ps c m end = write_line o gs ps c m) by (destruct FU as [->| ->]; [reflexivity|destruct (o_full o); reflexivity]). rewrite X. clear X.
  unfold write_line, shown. cbv zeta. match goal with |- context [map gcode_str ?x ++ _] => assert (K : x = keep (o_rm_gcodes o) gs) by (destruct (o_rm_gcodes o); [symmetry; apply keep_nil|reflexivity]) end.
  rewrite K. clear K. match goal with |- context [join [space] ?x] => match x with _ ++ _ ++ _ => change (join [space] x) with (styled o gs ps c m) end end.
  destruct (styled o gs ps c m) as [|c0 r0], (o_rm_blanks o); rewrite ?print_ok, ?ret_ok; (split; [intros [-> _]; auto|intros ->; auto]).
Qed.
(** what is printed for a line *)
Definition line_out (o : options) (m : machine) (l : line) : list text :=
  match block_modal_gcodes m (lblock l) with
  | Ok gs => shown o (if o_full o then styled o gs [] (lcomment l) (lmacro l) else styled o (bgcodes (lblock l)) (bmodal (lblock l)) (lcomment l) (lmacro l))
  | Raise _ => []
  end.
Lemma restyle_line_ok o fuel s m out m' : restyling o -> norm_line o fuel s m = (out, Ok m') <-> exists l, mk_line s = Ok l /\ process_block (lblock l) m = (m', Ok tt) /\ out = line_out o m l.
Proof.
  intros (SI & LI & CE & RI & _). unfold norm_line. rewrite RI, LI, CE. cbn [andb]. rewrite pbind_pure. split.
  - intros (l & L & H). rewrite pbind_ret in H. apply pbind_pure in H as (gs & G & H). apply pbind_ok in H as (o1 & [] & o2 & W & P & ->). apply acts_ok in P as [-> P].
    exists l. split; auto. split; auto. rewrite app_nil_r. unfold line_out. rewrite G. destruct (o_full o) eqn:FU; apply write_styled in W; auto.
  - intros (l & L & P & ->). exists l. split; auto. rewrite pbind_ret, pbind_pure. destruct (modal_gcodes_ok _ _ _ P) as (gs & G). exists gs. split; auto.
    rewrite pbind_ok. exists (line_out o m l), tt, []. split; [|split; [rewrite acts_ok; auto|rewrite app_nil_r; auto]]. unfold line_out. rewrite G. destruct (o_full o) eqn:FU; apply write_styled; auto.
Qed.
Lemma restyle_loop_ok o fuel ls : restyling o -> forall m out m', norm_loop o fuel ls m = (out, Ok m') <->
  exists tr, reading m ls tr /\ out = flat_map (fun x => line_out o (fst x) (snd x)) (from_states m tr) /\ m' = after m tr.
Proof.
  intros RE. induction ls as [|s r IH]; intros m out m'; cbn [norm_loop].
  - rewrite ret_ok. split; [intros [-> ->]; exists []; split; [constructor|auto]|]. intros (tr & R & -> & ->). apply reading_empty in R. subst. auto.
  - rewrite pbind_ok. split.
    + intros (o1 & m1 & o2 & L & H & ->). apply restyle_line_ok in L as (l & L & P & ->); auto. apply IH in H as (tr & R & -> & ->). exists ((l, m1) :: tr). split; [econstructor; eauto|]. split; auto. rewrite after_cons. reflexivity.
    + intros (tr & R & -> & ->). apply reading_step in R as (l & m1 & tr' & L & P & R & <-). exists (line_out o m l), m1, (flat_map (fun x => line_out o (fst x) (snd x)) (from_states m1 tr')). split; [apply restyle_line_ok; eauto|]. split; [|reflexivity].
      apply IH. exists tr'. split; auto. split; auto. rewrite after_cons. reflexivity.
Qed.
Lemma restyle_norm_ok o fuel file out : restyling o -> norm o fuel file = (out, Ok tt) <->
  exists m tr, new_machine xyz false (o_machine_mode o) = Ok m /\ reading m file tr /\ out = flat_map (fun x => line_out o (fst x) (snd x)) (from_states m tr).
Proof.
  intros RE. pose proof RE as (_ & _ & _ & RI & ZX & ZZ & SO). unfold norm. rewrite pbind_pure, RI. split.
  - intros (m & E & H). apply pbind_ok in H as (o1 & m1 & o2 & L & F & ->). apply restyle_loop_ok in L as (tr & R & -> & ->); auto. exists m, tr. split; auto. split; auto. unfold norm_final in F. rewrite ZX, ZZ, SO in F. cbn in F. assert (X : o2 = []) by congruence. rewrite X, app_nil_r. reflexivity.
  - intros (m & tr & E & R & ->). exists m. split; auto. rewrite pbind_ok. exists (flat_map (fun x => line_out o (fst x) (snd x)) (from_states m tr)), (after m tr), []. split; [apply restyle_loop_ok; eauto|]. split; [|rewrite app_nil_r; auto]. unfold norm_final. rewrite ZX, ZZ, SO. reflexivity.
Qed.
Lemma in_place_keep ws gs : in_place gs -> in_place (keep ws gs).
Proof. apply fop_filter. Qed.
Lemma keep_in ws gs g : In g (keep ws gs) -> In g gs.
Proof. intros I. apply filter_In in I. apply I. Qed.
Lemma squeeze_nil b : squeeze b [] = [].
Proof. destruct b; reflexivity. Qed.
Lemma comment_again_some c m : (forall x, c = Some (Comment CommentSemicolon x) -> m = None \/ x = []) -> comment_again c m = c.
Proof. intros H. unfold comment_again. destruct c as [[[] x]|] eqn:K; auto. destruct (H x eq_refl) as [->|E]; auto. destruct m; auto. rewrite E. auto. Qed.
(** the printed line, read back *)
Lemma styled_reads o s l gs ps : accurate ar -> mk_line s = Ok l -> (o_rm_comments o = false -> forall x, lcomment l = Some (Comment CommentSemicolon x) -> lmacro l = None \/ x = []) ->
  Forall told gs -> ForallOrdPairs compatible gs -> in_place gs -> name_last (map gword gs) -> bare ps -> Forall readable ps -> (forall w g, In w ps -> In g gs -> ~ takes (gcls g) (wletter w)) ->
  (ps <> [] -> ~ In LO (map (fun g => wletter (gword g)) gs)) -> Forall (fun w => wletter w <> LO) ps ->
  let x := styled o gs ps (lcomment l) (lmacro l) in
  exists l', mk_line x = Ok l' /\ Forall2 same_gcode (keep (o_rm_gcodes o) gs) (bgcodes (lblock l')) /\ bmodal (lblock l') = ps /\ lcomment l' = (if o_rm_comments o then None else lcomment l) /\ lmacro l' = lmacro l /\ (x = [] <-> empty_line l').
Proof.
  intros acc L CO T C IP NL B RP SE NO NP x. destruct (C15_split ar s l L) as (bc & LS & _ & CM).
  set (ks := keep (o_rm_gcodes o) gs). assert (TK : Forall told ks) by (rewrite Forall_forall in *; intros g I; apply T; eapply keep_in; eauto).
  destruct (printed_parts (o_rm_whitespace o) ks ps) as (ws & hs & MB & SG & CA & EV); auto.
  - eapply Forall_impl; [|exact TK]. intros g Q. apply Q.
  - eapply Forall_impl; [|exact TK]. intros g Q. apply Q.
  - eapply Forall_impl; [|exact TK]. intros g Q. apply Q.
  - apply fop_filter. auto.
  - apply in_place_keep. auto.
  - apply name_last_filter. auto.
  - intros w g I1 I2. apply (SE w g); auto. eapply keep_in; eauto.
  - intros NE Q. apply (NO NE). apply in_map_iff in Q as (g & E & I). apply in_map_iff. exists g. split; auto. eapply keep_in; eauto.
  - set (c := if o_rm_comments o then None else lcomment l). assert (CC : c = snd (split_line bc) \/ c = None) by (unfold c; destruct (o_rm_comments o); auto).
    pose proof (line_around s bc (lmacro l) c _ _ LS CC CA EV MB) as ML. rewrite comment_again_some in ML.
    2:{ intros y E. unfold c in E. destruct (o_rm_comments o); [discriminate|]. auto. }
    exists (Line (Block ws hs ps) c (lmacro l)). split; [exact ML|]. cbn [lblock bgcodes bmodal lcomment lmacro]. split; [exact SG|]. split; auto. split; auto. split; auto. split.
    + intros E. unfold x, styled in E. fold c ks in E. rewrite E in ML. assert (EM : mk_line [] = Ok (Line empty_block None None)) by reflexivity. rewrite EM in ML. assert (Q : Line (Block ws hs ps) c (lmacro l) = Line empty_block None None) by congruence. rewrite Q. repeat split.
    + intros (E1 & E2 & E3 & E4). cbn [lblock bgcodes bmodal lcomment lmacro] in *. subst hs. inversion SG as [Q|]; subst ps. unfold x, styled. fold c ks. rewrite <- Q, E3, E4. cbn [map app join]. rewrite squeeze_nil. reflexivity.
Qed.
Lemma steps_ok b m gs : block_modal_gcodes m b = Ok gs -> process_block b m = steps (map gcode_process gs) m.
Proof. unfold block_modal_gcodes, process_block, process_gcodes. destruct (machine_modal_gcode m (bmodal b)) as [og|]; cbn [bind]; [|discriminate]. intros H. injection H as <-. reflexivity. Qed.
Lemma sort_again l : sort_gcodes (sort_gcodes l) = sort_gcodes l.
Proof. symmetry. apply C25_only_order; [apply C25_sorted|reflexivity]. Qed.
Lemma line_back o m l s m1 : accurate ar -> sound m -> inside m -> m_ignore m = false -> mk_line s = Ok l -> process_block (lblock l) m = (m1, Ok tt) -> restylable o m l ->
  exists x l', line_out o m l = shown o x /\ mk_line x = Ok l' /\ restyled o m l l' /\ (x = [] <-> empty_line l') /\
    (o_rm_gcodes o = [] -> forall m', sound m' -> inside m' -> same_machine m m' -> same_outcome (process_block (lblock l) m) (process_block (lblock l') m')).
Proof.
  intros acc S I IG L P RS. destruct (mk_line_block _ _ L) as (bs & MB). destruct (mk_block_wf _ _ _ MB) as [WF WP]. destruct (modal_gcodes_ok _ _ _ P) as (gs & G). unfold line_out. rewrite G.
  pose proof RS as (R & CO & Q). destruct (o_full o) eqn:FU.
  - destruct (effective m l s gs acc S IG L G) as (gs0 & E0 & FG & W0 & EF). destruct (EF o FU RS) as (T & C & IP & NL).
    destruct (styled_reads o s l gs [] acc L CO T C IP NL) as (l' & ML & SG & EM & EC & EMa & EX); try constructor; try (intros ? ? []); try congruence.
    exists (styled o gs [] (lcomment l) (lmacro l)), l'. split; auto. split; auto. split; [|split; auto].
    + exists gs, (keep (o_rm_gcodes o) gs). rewrite FU. split; auto. split; [apply keep_without|]. auto.
    + intros RG m' S' I' M. rewrite RG, keep_nil in SG. rewrite (steps_ok _ _ _ G). unfold process_block, process_gcodes. rewrite EM. cbn [machine_modal_gcode]. rewrite app_nil_r.
      assert (SS : Forall2 same_gcode gs (sort_gcodes (bgcodes (lblock l')))). { pose proof (sort_sim _ _ SG) as Z. subst gs. rewrite sort_again in Z. exact Z. }
      apply steps_sim; auto. subst gs. apply sort_wf. auto.
  - destruct (read_gcodes bs (lblock l) acc MB R) as (T & C & IP & NL & B & _ & RB & NP & GW). destruct Q as [Q1 Q2].
    destruct (styled_reads o s l (bgcodes (lblock l)) (bmodal (lblock l)) acc L CO T C IP NL B RB Q1) as (l' & ML & SG & EM & EC & EMa & EX); auto.
    { intros NE X. apply (Q2 NE). apply in_map_iff in X as (g & E & Ig). apply in_map_iff. exists (gword g). auto. }
    exists (styled o (bgcodes (lblock l)) (bmodal (lblock l)) (lcomment l) (lmacro l)), l'. split; auto. split; auto. split; [|split; auto].
    + exists (bgcodes (lblock l)), (keep (o_rm_gcodes o) (bgcodes (lblock l))). rewrite FU. split; auto. split; [apply keep_without|]. auto.
    + intros RG m' S' I' M. rewrite RG, keep_nil in SG. unfold process_block. rewrite EM. apply process_gcodes_same; auto.
Qed.
Lemma line_ignore s l m m1 : mk_line s = Ok l -> sound m -> inside m -> process_block (lblock l) m = (m1, Ok tt) -> m_ignore m1 = m_ignore m.
Proof.
  intros L S I P. destruct (mk_line_block _ _ L) as (bs & MB). destruct (mk_block_wf _ _ _ MB) as [F W]. destruct (process_gcodes_inv (bgcodes (lblock l)) (bmodal (lblock l)) m S I F W) as (_ & _ & _ & K). unfold process_block in P. rewrite P in K. apply K.
Qed.
Lemma shown_one o x : x <> [] \/ o_rm_blanks o = false -> shown o x = [x].
Proof. intros [H|H]; unfold shown; [destruct x; [contradiction|reflexivity]|rewrite H; destruct x; reflexivity]. Qed.
Lemma shown_none o : o_rm_blanks o = true -> shown o [] = [].
Proof. intros H. unfold shown. rewrite H. reflexivity. Qed.
Lemma nil_dec (x : text) : x = [] \/ x <> []. Proof. destruct x; [left; auto|right; discriminate]. Qed.
Lemma restyle_back o file : accurate ar -> o_rm_gcodes o = [] -> forall m m' tr, sound m -> inside m -> m_ignore m = false -> sound m' -> inside m' -> same_machine m m' -> reading m file tr ->
  Forall (fun x => restylable o (fst x) (snd x)) (from_states m tr) ->
  exists tr', reading m' (flat_map (fun x => line_out o (fst x) (snd x)) (from_states m tr)) tr' /\ becomes_run o m tr tr'.
Proof.
  intros acc RG. induction file as [|s r IH]; intros m m' tr S I IG S' I' M R F.
  - apply reading_empty in R. subst. exists []. split; constructor.
  - apply reading_step in R as (l & m1 & tr1 & L & P & R & <-). cbn [from_states] in F. inversion F as [|? ? F1 F2]; subst. cbn [fst snd] in F1.
    destruct (line_back o m l s m1 acc S I IG L P F1) as (x & l' & EO & ML & RS & EX & PR). specialize (PR RG m' S' I' M). rewrite P in PR. destruct PR as [A B]. destruct (process_block (lblock l') m') as [m1' r'] eqn:P'. cbn [fst snd] in A, B. subst r'.
    destruct (line_keeps l s m m1 L S I P) as [S1 I1]. destruct (line_keeps l' _ m' m1' ML S' I' P') as [S1' I1']. pose proof (line_ignore _ _ _ _ L S I P) as G1. rewrite IG in G1.
    cbn [from_states flat_map fst snd]. rewrite EO. destruct (nil_dec x) as [X|X], (o_rm_blanks o) eqn:RB.
    + subst x. rewrite shown_none by auto. pose proof (proj1 EX eq_refl) as EL. assert (m1' = m'). { destruct EL as (E1 & E2 & _). unfold process_block, process_gcodes in P'. rewrite E1, E2 in P'. cbn [machine_modal_gcode] in P'. change (sort_gcodes ([] ++ [])) with (@nil gcode) in P'. cbn in P'. injection P' as <-. reflexivity. } subst m1'.
      destruct (IH m1 m' tr1 S1 I1 G1 S' I' B R F2) as (tr' & R' & SR). exists tr'. split; auto. eapply be_blank; eauto.
    + rewrite shown_one by auto. destruct (IH m1 m1' tr1 S1 I1 G1 S1' I1' B R F2) as (tr' & R' & SR). exists ((l', m1') :: tr'). cbn [app]. split; [econstructor; eauto|]. apply be_line; auto. rewrite RB. discriminate.
    + rewrite shown_one by auto. destruct (IH m1 m1' tr1 S1 I1 G1 S1' I1' B R F2) as (tr' & R' & SR). exists ((l', m1') :: tr'). cbn [app]. split; [econstructor; eauto|]. apply be_line; auto. cbn [fst]. intros _ Q. apply X. apply EX. auto.
    + rewrite shown_one by auto. destruct (IH m1 m1' tr1 S1 I1 G1 S1' I1' B R F2) as (tr' & R' & SR). exists ((l', m1') :: tr'). cbn [app]. split; [econstructor; eauto|]. apply be_line; auto. rewrite RB. discriminate.
Qed.
Lemma restyle_lines o file : accurate ar -> forall m tr, sound m -> inside m -> m_ignore m = false -> reading m file tr ->
  Forall (fun x => restylable o (fst x) (snd x)) (from_states m tr) ->
  exists ls, Forall2 (fun x l => mk_line x = Ok l) (flat_map (fun x => line_out o (fst x) (snd x)) (from_states m tr)) ls /\ becomes_lines o m tr ls.
Proof.
  intros acc. induction file as [|s r IH]; intros m tr S I IG R F.
  - apply reading_empty in R. subst. exists []. split; constructor.
  - apply reading_step in R as (l & m1 & tr1 & L & P & R & <-). cbn [from_states] in F. inversion F as [|? ? F1 F2]; subst. cbn [fst snd] in F1.
    destruct (line_back o m l s m1 acc S I IG L P F1) as (x & l' & EO & ML & RS & EX & _).
    destruct (line_keeps l s m m1 L S I P) as [S1 I1]. pose proof (line_ignore _ _ _ _ L S I P) as G1. rewrite IG in G1. destruct (IH m1 tr1 S1 I1 G1 R F2) as (ls & R' & SR).
    cbn [from_states flat_map fst snd]. rewrite EO. destruct (nil_dec x) as [X|X], (o_rm_blanks o) eqn:RB.
    + subst x. rewrite shown_none by auto. exists ls. split; auto. eapply be_blank; eauto. apply EX. auto.
    + rewrite shown_one by auto. exists (l' :: ls). split; [constructor; auto|]. apply be_line; auto. rewrite RB. discriminate.
    + rewrite shown_one by auto. exists (l' :: ls). split; [constructor; auto|]. apply be_line; auto. intros _ Q. apply X. apply EX. auto.
    + rewrite shown_one by auto. exists (l' :: ls). split; [constructor; auto|]. apply be_line; auto. rewrite RB. discriminate.
Qed.
End WithArith.
