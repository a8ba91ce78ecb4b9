(** pygcode-norm without options: every line printed, read back, and run. *)
From Coq Require Import Ascii String List Bool Arith ZArith QArith Qcanon Permutation Lia.
From Verif Require Import Base Num Words GTable GCode Line Position Machine Transform BaseFacts ArithSpec WordsSpec LineSpec CommentProofs PrintSpec GCodeSpec GCodeProofs PropsLine BlockSpec BlockProofs LineProofs PropsBlock ModeSpec ModeProofs MachSpec MachProofs MachProofs2 SimSpec SimProofs GCodeProofs2 TransProofs2
  Scripts ScriptsSpec ScriptsSpec2 ScriptsProofs.
Import ListNotations.
Local Open Scope nat_scope.

Section WithArith.
Context {ar : Arith}.

(** ** the newline at the end of a line is not seen *)
Lemma split_newline s bc m : line_split s bc m -> line_split (s ++ [newline]) bc m.
Proof.
  intros [bc' ws H1 H2 H3 H4|bc' m' tl H1 H2 H3 H4].
  - rewrite <- app_assoc. constructor; auto. apply Forall_app. split; auto. repeat constructor.
  - rewrite <- app_assoc. cbn [app]. rewrite <- app_assoc. constructor; auto. right. destruct H4 as [->|(ws & -> & W)]; [exists []; split; auto|].
    exists (ws ++ [newline]). split; auto. apply Forall_app. split; auto. repeat constructor.
Qed.
Lemma mk_line_newline s : mk_line (s ++ [newline]) = mk_line s.
Proof.
  destruct (line_parts s) as [[bc m]|e] eqn:E.
  - unfold mk_line. rewrite E. apply line_parts_iff in E. apply split_newline in E. apply line_parts_iff in E. rewrite E. reflexivity.
  - assert (N : ~ one_line s) by (intros O; apply C15_accepts in O as (bc & m & O); apply line_parts_iff in O; congruence).
    rewrite (C15_rejects ar s N). apply C15_rejects. intros O. apply N. intros a b ->. specialize (O a (b ++ [newline])). rewrite <- app_assoc in O. specialize (O eq_refl). apply Forall_app in O as [O _]. auto.
Qed.
Lemma reading_newline ls : forall m tr, reading m (printed ls) tr <-> reading m ls tr.
Proof.
  induction ls as [|s r IH]; intros m tr; [tauto|]. cbn [printed map]. split; intros H; apply reading_step in H as (l & m1 & tr' & A & B & C & <-).
  - rewrite mk_line_newline in A. econstructor; eauto. apply IH; auto.
  - econstructor; eauto; [rewrite mk_line_newline; auto|]. apply IH; auto.
Qed.

(** ** what is printed for a line *)
Lemma no_words b v s : mk_block v s = Ok b -> block_str b = [] -> block_bool b = false.
Proof.
  rewrite mk_block_clean. destruct (text2words (clean_text s)) as [ws|]; cbn [bind]; [|discriminate].
  destruct (words2gcodes ws) as [[gs0 r]|] eqn:W; cbn [bind]; [|discriminate].
  intros H. assert (E : b = Block ws gs0 r). { destruct v; [|congruence]. destruct (assert_gcodes [] [] gs0); cbn [bind] in H; congruence. }
  subst b. unfold block_bool. cbn [bwords]. apply words2gcodes_iff in W as (gs & G & U & ->). rewrite block_str_words. intros J.
  pose proof (printed_perm _ _ _ G) as P. destruct (printed_words gs r) as [|w l].
  - destruct ws; auto. apply Permutation_length in P. discriminate P.
  - exfalso. cbn [map] in J. destruct l; cbn [map join] in J; [discriminate J|]. unfold word_str in J. discriminate J.
Qed.
Lemma mk_line_block s l : mk_line s = Ok l -> exists bs, mk_block true bs = Ok (lblock l).
Proof. intros H. apply C15_split in H as (bc & _ & M & _). eauto. Qed.
Lemma write_line_str s l out : mk_line s = Ok l -> write_line no_options (bgcodes (lblock l)) (bmodal (lblock l)) (lcomment l) (lmacro l) = (out, Ok tt) <-> out = [line_str l].
Proof.
  intros H. destruct (mk_line_block s l H) as (bs & M). unfold write_line, no_options. cbn [o_rm_comments o_rm_gcodes o_rm_whitespace o_rm_blanks].
  change (join [space] (map gcode_str (bgcodes (lblock l)) ++ map word_str (bmodal (lblock l)))) with (block_str (lblock l)).
  match goal with |- (match ?x with [] => print ?x | _ :: _ => print ?x end = _) <-> _ => replace (match x with [] => print x | _ :: _ => print x end) with (print x) by (destruct x; reflexivity) end || idtac.
  match goal with |- context [join [space] ?x] => set (J := x) end.
  assert (EJ : join [space] J = line_str l).
  { unfold J, line_str. f_equal. f_equal. destruct (block_str (lblock l)) as [|c r] eqn:B.
    - rewrite (no_words _ _ _ M B). reflexivity.
    - destruct (block_bool (lblock l)) eqn:BB; auto. exfalso. rewrite (mk_block_nowords _ _ _ M BB) in B. discriminate B. }
  rewrite EJ. assert (X : match line_str l with [] => print (line_str l) | _ :: _ => print (line_str l) end = print (line_str l)) by (destruct (line_str l); reflexivity).
  first [rewrite X|idtac]. rewrite print_ok. split; [intros [-> _]; auto|intros ->; auto].
Qed.
Lemma modal_gcodes_ok b m m' : process_block b m = (m', Ok tt) -> exists gs, block_modal_gcodes m b = Ok gs.
Proof.
  unfold process_block, process_gcodes, block_modal_gcodes. destruct (machine_modal_gcode m (bmodal b)) as [og|e]; [|discriminate]. intros _. cbn [bind]. eauto.
Qed.
Lemma norm_line_ok fuel s m out m' : norm_line no_options fuel s m = (out, Ok m') <-> exists l, mk_line s = Ok l /\ process_block (lblock l) m = (m', Ok tt) /\ out = [line_str l].
Proof.
  unfold norm_line. cbn [o_rm_invalid_modal o_full o_canned_expand o_linearize no_options andb]. rewrite pbind_pure. split.
  - intros (l & L & H). rewrite pbind_ret in H. apply pbind_pure in H as (gs & G & H). apply pbind_ok in H as (o1 & [] & o2 & W & P & ->). apply acts_ok in P as [-> P].
    exists l. split; auto. split; auto. rewrite app_nil_r. apply (write_line_str s l); auto.
  - intros (l & L & P & ->). exists l. split; auto. rewrite pbind_ret, pbind_pure. destruct (modal_gcodes_ok _ _ _ P) as (gs & G). exists gs. split; auto.
    rewrite pbind_ok. exists [line_str l], tt, []. split; [|split; [rewrite acts_ok; auto|auto]]. apply (write_line_str s l); auto.
Qed.
Lemma norm_loop_ok fuel ls : forall m out m', norm_loop no_options fuel ls m = (out, Ok m') <-> exists tr, reading m ls tr /\ out = map (fun x => line_str (fst x)) tr /\ m' = after m tr.
Proof.
  induction ls as [|s r IH]; intros m out m'; cbn [norm_loop].
  - rewrite ret_ok. split; [intros [-> ->]; exists []; split; [constructor|auto]|]. intros (tr & R & -> & ->). apply reading_empty in R. subst. auto.
  - rewrite pbind_ok. split.
    + intros (o1 & m1 & o2 & L & H & ->). apply norm_line_ok in L as (l & L & P & ->). apply IH in H as (tr & R & -> & ->). exists ((l, m1) :: tr). split; [econstructor; eauto|]. split; auto.
      rewrite after_cons. reflexivity.
    + intros (tr & R & -> & ->). apply reading_step in R as (l & m1 & tr' & L & P & R & <-). exists [line_str l], m1, (map (fun x => line_str (fst x)) tr'). split; [apply norm_line_ok; eauto|]. split; [|reflexivity].
      apply IH. exists tr'. split; auto. split; auto. rewrite after_cons. reflexivity.
Qed.

(** ** two machines in the same state *)
Lemma modal_same m m' ps : sound m -> sound m' -> same_machine m m' -> bare ps ->
  match machine_modal_gcode m ps, machine_modal_gcode m' ps with
  | Ok (Some g), Ok (Some h) => same_gcode g h
  | Ok None, Ok None => True
  | Raise e, Raise e' => e = e'
  | _, _ => False
  end.
Proof.
  intros S S' M B. pose proof S as (_ & _ & _ & _ & _ & W & T). pose proof S' as (_ & _ & _ & _ & _ & W' & T'). destruct ps as [|p ps]; [cbn; auto|].
  assert (NE : p :: ps <> []) by discriminate. remember (p :: ps) as l. clear Heql. pose proof M as (MM & _ & _ & _ & _ & _ & IG). specialize (MM MG_motion).
  destruct (gm_get (m_mode m) MG_motion) as [mo|] eqn:E, (gm_get (m_mode m') MG_motion) as [mo'|] eqn:E'; try contradiction.
  - assert (L : legal mo) by apply (W _ _ E). assert (Q : proper mo) by apply (T _ _ E). assert (L' : legal mo') by apply (W' _ _ E'). assert (Q' : proper mo') by apply (T' _ _ E').
    rewrite (modal_gcode_spec m mo), (modal_gcode_spec m' mo') by auto. destruct MM as (C & D & P). rewrite <- C, <- IG. destruct (_ && _); auto.
    split; [reflexivity|]. split; [exact D|]. cbn [gparams]. apply filter_perm.
    apply (dict_perm letter_eqb letter_eqb_eq); [apply updated_nodup; auto|apply updated_nodup; auto|]. intros k. unfold updated. rewrite !(dget_dupdate _ _ _ letter_eqb_eq). rewrite (dget_perm _ letter_eqb_eq (gparams mo) (gparams mo')); auto. apply L.
  - rewrite !modal_gcode_none by auto. rewrite <- IG. destruct (m_ignore m); auto.
Qed.
Lemma process_gcodes_same gs hs ps m m' : sound m -> inside m -> sound m' -> inside m' -> same_machine m m' -> Forall gcode_wf gs -> Forall2 same_gcode gs hs -> Forall word_wf ps -> bare ps ->
  same_outcome (process_gcodes gs ps m) (process_gcodes hs ps m').
Proof.
  intros S I S' I' M F R W B. unfold process_gcodes. pose proof (modal_same m m' ps S S' M B) as Q. pose proof (fun g => modal_gcode_wf m ps g S W) as MW.
  destruct (machine_modal_gcode m ps) as [[g|]|e], (machine_modal_gcode m' ps) as [[h|]|e']; try contradiction; [| |subst; split; auto].
  - apply steps_sim; auto; [apply sort_sim, Forall2_app; auto|apply sort_wf, Forall_app; split; auto].
  - apply steps_sim; auto; [apply sort_sim, Forall2_app; auto|apply sort_wf, Forall_app; split; auto].
Qed.
Lemma block_bare v s b : mk_block v s = Ok b -> bare (bmodal b).
Proof.
  rewrite mk_block_clean. destruct (text2words (clean_text s)) as [ws|]; cbn [bind]; [|discriminate].
  destruct (words2gcodes ws) as [[gs0 r]|] eqn:W; cbn [bind]; [|discriminate].
  intros H. assert (E : b = Block ws gs0 r). { destruct v; [|congruence]. destruct (assert_gcodes [] [] gs0); cbn [bind] in H; congruence. }
  subst b. cbn [bmodal]. apply words2gcodes_iff in W as (gs & G & U & ->). eapply grouped_rest_class; eauto.
Qed.
Lemma process_block_same l l' s m m' : mk_line s = Ok l -> same_line l l' -> sound m -> inside m -> sound m' -> inside m' -> same_machine m m' ->
  same_outcome (process_block (lblock l) m) (process_block (lblock l') m').
Proof.
  intros L (G & P & _) S I S' I' M. destruct (mk_line_block _ _ L) as (bs & MB). unfold process_block. rewrite P. destruct (mk_block_wf _ _ _ MB) as [F W]. apply process_gcodes_same; auto. eapply block_bare; eauto.
Qed.
Lemma line_keeps l s m m1 : mk_line s = Ok l -> sound m -> inside m -> process_block (lblock l) m = (m1, Ok tt) -> sound m1 /\ inside m1.
Proof.
  intros L S I P. destruct (mk_line_block _ _ L) as (bs & MB). destruct (mk_block_wf _ _ _ MB) as [F W]. destruct (process_gcodes_inv (bgcodes (lblock l)) (bmodal (lblock l)) m S I F W) as (A & B & _). unfold process_block in P. rewrite P in A, B. auto.
Qed.
(** ** lines read back *)
Lemma faithful_line s l : accurate ar -> mk_line s = Ok l -> faithful l -> exists l', mk_line (line_str l) = Ok l' /\ same_line l l' /\ line_str l' = line_str l.
Proof.
  intros acc L (P & SE & C). assert (P2 : Forall prints_well (bwords (lblock l))) by (eapply Forall_impl; [|exact P]; intros w [A B]; split; auto).
  destruct (mk_line_block _ _ L) as (bs & MB). destruct (line_reprint acc s l L P2 SE) as (b' & MB' & BS & _ & _ & BB & E).
  destruct (C24_exact_partial ar true bs (lblock l) acc MB P SE) as (b2 & MB2 & _ & G & M). rewrite MB' in MB2. injection MB2 as <-.
  exists (Line b' (lcomment l) (lmacro l)). assert (CA : comment_again (lcomment l) (lmacro l) = lcomment l).
  { unfold comment_again. destruct (lcomment l) as [[[] x]|] eqn:K; auto. destruct (C x eq_refl) as [->|H]; auto. destruct (lmacro l); auto. rewrite H. auto. }
  rewrite CA in E. split; auto. split; [repeat split; auto|]. unfold line_str. cbn [lblock lcomment lmacro]. rewrite BS, BB. reflexivity.
Qed.
Lemma reading_back file : accurate ar -> forall m m' tr, sound m -> inside m -> sound m' -> inside m' -> same_machine m m' -> reading m file tr -> Forall (fun x => faithful (fst x)) tr ->
  exists tr', reading m' (map (fun x => line_str (fst x)) tr) tr' /\ same_reading tr tr' /\ map (fun x => line_str (fst x)) tr' = map (fun x => line_str (fst x)) tr.
Proof.
  intros acc. induction file as [|s r IH]; intros m m' tr S I S' I' M R F.
  - apply reading_empty in R. subst. exists []. split; [constructor|]. split; [constructor|auto].
  - apply reading_step in R as (l & m1 & tr1 & L & P & R & <-). inversion F as [|? ? F1 F2]; subst. cbn [fst] in F1. destruct (faithful_line s l acc L F1) as (l' & L' & SL & ES).
    pose proof (process_block_same l l' s m m' L SL S I S' I' M) as [A B]. rewrite P in A, B. destruct (process_block (lblock l') m') as [m1' r'] eqn:P'. cbn [fst snd] in A, B. subst r'.
    destruct (line_keeps l s m m1 L S I P) as [S1 I1]. destruct (line_keeps l' _ m' m1' L' S' I' P') as [S1' I1'].
    destruct (IH m1 m1' tr1 S1 I1 S1' I1' B R F2) as (tr' & R' & SR & EQ). exists ((l', m1') :: tr'). split; [cbn [map fst]; econstructor; eauto|]. split; [constructor; auto|]. cbn [map fst]. rewrite ES, EQ. reflexivity.
Qed.
End WithArith.
Lemma reading_fun {ar : Arith} file : forall m tr tr', reading m file tr -> reading m file tr' -> tr = tr'.
Proof.
  induction file as [|s r IH]; intros m tr tr' R R'; [apply reading_empty in R; apply reading_empty in R'; congruence|].
  apply reading_step in R as (l & m1 & t1 & L & P & R & <-). apply reading_step in R' as (l' & m1' & t1' & L' & P' & R' & <-).
  rewrite L in L'. injection L' as <-. rewrite P in P'. injection P' as <-. f_equal. eauto.
Qed.
