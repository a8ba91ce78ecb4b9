(** pygcode-norm run on what it printed. *)
From Coq Require Import Ascii String List Bool Arith ZArith QArith Qcanon Permutation Lia Sorted.
From Verif Require Import Base Num Words GTable GCode Line Position Machine Transform BaseFacts ArithSpec WordsSpec LineSpec PrintSpec GCodeSpec GCodeProofs GCodeProofs2 PropsLine BlockSpec BlockProofs LineProofs LineProofs2 PropsGCode ModeSpec ModeProofs MachSpec MachProofs MachProofs2 SimSpec SimProofs TransSpec TransProofs TransProofs2
  Scripts ScriptsSpec ScriptsSpec2 ScriptsSpec5 ScriptsProofs ScriptsProofs4 ScriptsProofs5 ScriptsProofs9 ScriptsProofs10.
Import ListNotations.
Local Open Scope nat_scope.

Section WithArith.
Context {ar : Arith}.
Lemma block_white v bs b : mk_block v bs = Ok b -> Forall (fun g => gwhite g = false) (bgcodes b).
Proof.
  intros M. rewrite mk_block_clean in M. destruct (text2words (clean_text bs)) as [ws|]; cbn [bind] in M; [|discriminate].
  destruct (words2gcodes ws) as [[gs0 r]|] eqn:W; cbn [bind] in M; [|discriminate].
  assert (E : bgcodes b = gs0). { destruct v; [destruct (assert_gcodes [] [] gs0) as [[]|]; cbn [bind] in M; [|discriminate]|cbn [bind] in M]; injection M as <-; reflexivity. }
  rewrite E. apply words2gcodes_iff in W as (gs & _ & _ & ->). apply Forall_forall. intros g I. apply in_map_iff in I as (gr & <- & _). reflexivity.
Qed.
Lemma line_white s l : mk_line s = Ok l -> Forall (fun g => gwhite g = false) (bgcodes (lblock l)).
Proof. intros L. destruct (mk_line_block _ _ L) as (bs & MB). eapply block_white; eauto. Qed.
Lemma keep_same ws gs : forall hs, Forall2 same_gcode gs hs -> Forall (fun g => negb (existsb (word_eqb (gword g)) ws) = true) gs -> keep ws hs = hs.
Proof.
  intros hs H F. induction H as [|g h gs hs (A & B & C) H IH]; [reflexivity|]. inversion F as [|? ? F1 F2]; subst. unfold keep. cbn [filter]. rewrite <- B, F1. f_equal. apply IH. auto.
Qed.
Lemma same_strs gs hs : Forall2 same_gcode gs hs -> Forall told gs -> Forall (fun g => gwhite g = false) hs -> map gcode_str hs = map gcode_str gs.
Proof.
  induction 1 as [|g h gs hs SG H IH]; intros T W; [reflexivity|]. inversion T as [|? ? (T1 & T2 & _) T']; subst. inversion W as [|? ? W1 W']; subst. cbn [map]. f_equal; [|auto]. symmetry. apply same_str; auto; [apply T1|congruence].
Qed.
(** a printed line, read back, prints as it was *)
Lemma styled_again o gs hs ps c mac : Forall told gs -> Forall2 same_gcode (keep (o_rm_gcodes o) gs) hs -> Forall (fun g => gwhite g = false) hs ->
  styled o hs ps (if o_rm_comments o then None else c) mac = styled o gs ps c mac.
Proof.
  intros T SG W. unfold styled. assert (TK : Forall told (keep (o_rm_gcodes o) gs)) by (rewrite Forall_forall in *; intros g I; apply T; eapply keep_in; eauto).
  rewrite (keep_same _ _ _ SG). 2:{ apply Forall_forall. intros g I. apply filter_In in I. apply I. }
  rewrite (same_strs _ _ SG TK W). destruct (o_rm_comments o); reflexivity.
Qed.
Lemma sorted_keep ws gs : sort_gcodes (keep ws (sort_gcodes gs)) = keep ws (sort_gcodes gs).
Proof.
  symmetry. apply C25_only_order; [|reflexivity]. pose proof (proj1 (proj2 (C25_sorted gs))) as S. revert S. generalize (sort_gcodes gs). clear. intros l S. unfold keep. induction S as [|g l S IH F]; [constructor|]. cbn [filter]. destruct (negb _); auto. constructor; auto. rewrite Forall_forall in *. intros x I. apply filter_In in I as [I _]. auto.
Qed.
Lemma sort_sim_fixed gs hs : Forall2 same_gcode gs hs -> sort_gcodes gs = gs -> sort_gcodes hs = hs.
Proof.
  intros SG E. symmetry. apply C25_only_order; [|reflexivity]. pose proof (proj1 (proj2 (C25_sorted gs))) as S. rewrite E in S. clear E. induction SG as [|g h gs hs (A & _) SG IH]; [constructor|]. inversion S as [|? ? S' F]; subst. constructor; auto.
  rewrite Forall_forall in *. intros x I. clear -A F I SG. induction SG as [|g' h' gs hs (A' & _) SG IH]; [destruct I|]. destruct I as [<-|I]; [rewrite <- A, <- A'; apply F; left; reflexivity|]. apply IH; auto. intros y J. apply F. right. auto.
Qed.
Lemma again_line o m l s m1 : accurate ar -> sound m -> inside m -> m_ignore m = false -> mk_line s = Ok l -> process_block (lblock l) m = (m1, Ok tt) -> restylable o m l ->
  exists x l', line_out o m l = shown o x /\ mk_line x = Ok l' /\ forall m' m1', process_block (lblock l') m' = (m1', Ok tt) -> line_out o m' l' = shown o x.
Proof.
  intros acc S I IG L P RS. destruct (mk_line_block _ _ L) as (bs & MB). destruct (mk_block_wf _ _ _ MB) as [WF WP]. destruct (modal_gcodes_ok _ _ _ P) as (gs & G). unfold line_out at 1. rewrite G.
  pose proof RS as (R & CO & Q). destruct (o_full o) eqn:FU.
  - destruct (effective m l s gs acc S IG L G) as (gs0 & E0 & FG & W0 & EF). destruct (EF o FU RS) as (T & C & IP & NL).
    destruct (styled_reads o s l gs [] acc L CO T C IP NL) as (l' & ML & SG & EM & EC & EMa & EX); try constructor; try (intros ? ? []); try congruence.
    exists (styled o gs [] (lcomment l) (lmacro l)), l'. split; auto. split; auto. intros m' m1' P'. destruct (modal_gcodes_ok _ _ _ P') as (gs' & G'). unfold line_out. rewrite G', FU. f_equal.
    assert (X : gs' = bgcodes (lblock l')). { unfold block_modal_gcodes in G'. rewrite EM in G'. cbn [machine_modal_gcode bind] in G'. rewrite app_nil_r in G'. injection G' as <-. apply (sort_sim_fixed _ _ SG). subst gs. apply sorted_keep. }
    rewrite X, EC, EMa. apply styled_again; auto. eapply line_white; eauto.
  - destruct (read_gcodes bs (lblock l) acc MB R) as (T & C & IP & NL & B & _ & RB & NP & GW). destruct Q as [Q1 Q2].
    destruct (styled_reads o s l (bgcodes (lblock l)) (bmodal (lblock l)) acc L CO T C IP NL B RB Q1) as (l' & ML & SG & EM & EC & EMa & EX); auto.
    { intros NE X. apply (Q2 NE). apply in_map_iff in X as (g & E & Ig). apply in_map_iff. exists (gword g). auto. }
    exists (styled o (bgcodes (lblock l)) (bmodal (lblock l)) (lcomment l) (lmacro l)), l'. split; auto. split; auto. intros m' m1' P'. destruct (modal_gcodes_ok _ _ _ P') as (gs' & G'). unfold line_out. rewrite G', FU. f_equal.
    rewrite EM, EC, EMa. apply styled_again; auto. eapply line_white; eauto.
Qed.
Lemma again_file o file : accurate ar -> forall m m' tr tr', sound m -> inside m -> m_ignore m = false -> reading m file tr -> Forall (fun x => restylable o (fst x) (snd x)) (from_states m tr) ->
  reading m' (flat_map (fun x => line_out o (fst x) (snd x)) (from_states m tr)) tr' ->
  flat_map (fun x => line_out o (fst x) (snd x)) (from_states m' tr') = flat_map (fun x => line_out o (fst x) (snd x)) (from_states m tr).
Proof.
  intros acc. induction file as [|s r IH]; intros m m' tr tr' S I IG R F R'.
  - apply reading_empty in R. subst. apply reading_empty in R'. subst. reflexivity.
  - apply reading_step in R as (l & m1 & tr1 & L & P & R & <-). cbn [from_states] in F. inversion F as [|? ? F1 F2]; subst. cbn [fst snd] in F1.
    destruct (again_line o m l s m1 acc S I IG L P F1) as (x & l' & EO & ML & AG). destruct (line_keeps l s m m1 L S I P) as [S1 I1]. pose proof (line_ignore _ _ _ _ L S I P) as G1. rewrite IG in G1.
    cbn [from_states flat_map fst snd] in R' |- *. rewrite EO in R'. rewrite EO. assert (X : shown o x = [] \/ shown o x = [x]) by (unfold shown; destruct x, (o_rm_blanks o); auto). destruct X as [X|X]; rewrite X in R'; rewrite X; cbn [app] in R' |- *.
    + eapply IH; eauto.
    + apply reading_step in R' as (l2 & m2 & tr2 & L2 & P2 & R2 & <-). rewrite ML in L2. injection L2 as <-. cbn [from_states flat_map fst snd]. rewrite (AG _ _ P2), X. cbn [app]. f_equal. eapply IH; eauto.
Qed.
End WithArith.
