(** pygcode-norm with --rm_invalid_modal. *)
From Coq Require Import Ascii String List Bool Arith ZArith QArith Qcanon Permutation Lia Sorted.
From Verif Require Import Base Num Words GTable GCode Line Position Machine Transform BaseFacts ArithSpec WordsSpec LineSpec PrintSpec GCodeSpec GCodeProofs GCodeProofs2 PropsLine BlockSpec BlockProofs LineProofs LineProofs2 PropsGCode ModeSpec ModeProofs MachSpec MachProofs MachProofs2 PropsMach2 SimSpec SimProofs TransSpec TransProofs TransProofs2
  Scripts ScriptsSpec ScriptsSpec2 ScriptsSpec5 ScriptsSpec7 ScriptsProofs ScriptsProofs4 ScriptsProofs5 ScriptsProofs9 ScriptsProofs10.
Import ListNotations.
Local Open Scope nat_scope.

Section WithArith.
Context {ar : Arith}.
(** ** the machine with another ignore_invalid_modal *)
Definition ig (b : bool) (m : machine) : machine := Machine (m_mode m) (m_state m) (m_abs m) (m_min m) (m_max m) (m_axes m) b.
Definition blind (s : step) : Prop := forall b m, s (ig b m) = (ig b (fst (s m)), snd (s m)).
Lemma blind_then s k : blind s -> blind k -> blind (then_step s k).
Proof. intros S K b m. unfold then_step. rewrite S. destruct (s m) as [m1 [u|e]]; cbn [fst snd]; auto. Qed.
Lemma blind_ok : blind ok_step. Proof. intros b m. reflexivity. Qed.
Lemma blind_atomic f : (forall b m, f (ig b m) = do x <- f m; Ok (ig b x)) -> blind (atomic_step f).
Proof. intros F b m. unfold atomic_step. rewrite F. destruct (f m); reflexivity. Qed.
Lemma set_pos_blind p : blind (set_pos p).
Proof.
  unfold set_pos. apply blind_then; [|apply blind_then]; apply blind_atomic; intros b m.
  - change (work2abs (ig b m) p) with (work2abs m p). destruct (work2abs m p); reflexivity.
  - cbn [ig m_abs m_min]. destruct (pos_min (m_abs m) (m_min m)); reflexivity.
  - cbn [ig m_abs m_max]. destruct (pos_max (m_abs m) (m_max m)); reflexivity.
Qed.
Lemma move_to_blind cs : blind (move_to cs).
Proof.
  intros b m. unfold move_to. change (machine_pos (ig b m)) with (machine_pos m). change (is_incremental (ig b m)) with (is_incremental m). change (m_axes (ig b m)) with (m_axes m).
  destruct (machine_pos m) as [p|]; auto. destruct (is_incremental m).
  - match goal with |- context [if ?c then _ else _] => destruct c end; auto. destruct (pos_add p _) as [q|]; auto. apply set_pos_blind.
  - match goal with |- context [if ?c then _ else _] => destruct c end; auto. match goal with |- context [if ?c then _ else _] => destruct c end; auto. destruct (pos_update p _) as [q|]; auto. apply set_pos_blind.
Qed.
Lemma repeat_blind n s : blind s -> blind (repeat_step n s).
Proof. intros B. induction n as [|n IH]; cbn [repeat_step]; [apply blind_ok|apply blind_then; auto]. Qed.
Lemma canned_blind g : blind (canned_process g).
Proof.
  intros b m. unfold canned_process. change (gcode_coords (ig b m) g) with (gcode_coords m g). change (m_mode (ig b m)) with (m_mode m). cbv zeta.
  destruct (gm_get (m_mode m) MG_plane_selection) as [pl|]; auto. destruct (normal_axis (gcls pl)) as [na|]; auto.
  match goal with |- context [if ?c then _ else _] => destruct c end.
  - destruct (gcode_getattr g LR) as [r|]; auto. destruct na as [l|]; [destruct (axis_of_letter l); auto|]; destruct (gcode_getattr g LL); auto. apply repeat_blind, move_to_blind.
  - destruct (gcode_getattr g LL); auto. apply repeat_blind, move_to_blind.
Qed.
Lemma process_blind g : blind (gcode_process g).
Proof.
  apply blind_then.
  - apply blind_atomic. intros b m. change (m_mode (ig b m)) with (m_mode m). change (m_state (ig b m)) with (m_state m). destruct (mode_set (m_mode m) [g]) as [md|]; cbn [bind]; auto. destruct (gm_get md MG_coordinate_system) as [h|]; auto. destruct (coord_system_id (gcls h)); reflexivity.
  - intros b m. unfold gcode_process_own. destruct (process_kind (gcls g)); auto; [apply move_to_blind|apply canned_blind].
Qed.
Lemma steps_blind gs : blind (steps (map gcode_process gs)).
Proof. induction gs as [|g gs IH]; cbn [map steps]; [apply blind_ok|apply blind_then; [apply process_blind|auto]]. Qed.
(** leftover words that are all understood: the flag does not matter *)
Lemma modal_blind m ps b : sound m -> bare ps -> Forall (PropsMach2.usable m) ps -> machine_modal_gcode (ig b m) ps = machine_modal_gcode m ps.
Proof.
  intros S B U. destruct ps as [|p ps0]; auto. inversion U as [|? ? (mo & E & _) _]; subst. remember (p :: ps0) as ps. assert (NE : ps <> []) by (subst; discriminate). clear Heqps. destruct (sound_motion ar m mo S E) as [L P].
  assert (F : existsb (unfit (gcls mo)) ps = false). { apply existsb_false. apply forallb_forall. intros x X. rewrite Forall_forall in U. destruct (U x X) as (mo' & E' & T). rewrite E in E'. injection E' as <-. unfold unfit. rewrite negb_involutive. apply accepts_iff. auto. }
  rewrite (modal_gcode_spec m mo ps E L P B NE), (modal_gcode_spec (ig b m) mo ps E L P B NE), F. reflexivity.
Qed.
Lemma gcodes_blind gs ps m b : sound m -> bare ps -> Forall (PropsMach2.usable m) ps -> process_gcodes gs ps (ig b m) = (ig b (fst (process_gcodes gs ps m)), snd (process_gcodes gs ps m)).
Proof. intros S B U. unfold process_gcodes. rewrite modal_blind by auto. destruct (machine_modal_gcode m ps) as [og|]; auto. apply steps_blind. Qed.
Lemma new_ig lines b m : new_machine xyz b lines = Ok m -> forall b', new_machine xyz b' lines = Ok (ig b' m).
Proof.
  unfold new_machine. intros H b'. destruct (new_mode lines) as [md|]; cbn [bind] in *; [|discriminate]. match type of H with (do _ <- ?x; _) = _ => destruct x as [u|]; cbn [bind] in *; [|discriminate] end. injection H as <-. reflexivity.
Qed.

(** ** what is left of a line *)
Definition rest (m : machine) (l : line) : list word :=
  match gm_get (m_mode m) MG_motion with
  | None => []
  | Some mo => if existsb (fun g => match modal_group (gcls g) with Some MG_motion => true | _ => false end) (bgcodes (lblock l)) then [] else filter (fit (gcls mo)) (bmodal (lblock l))
  end.
Lemma motion_there gs : existsb (fun g => match modal_group (gcls g) with Some MG_motion => true | _ => false end) gs = true <-> exists g, In g gs /\ in_group MG_motion g.
Proof.
  rewrite existsb_exists. split; intros (g & I & G); exists g; split; auto; unfold in_group in *; [destruct (modal_group (gcls g)) as [[]|]; auto; discriminate|rewrite G; auto].
Qed.
Lemma understood_rest m l ps : understood m l ps <-> ps = rest m l.
Proof.
  unfold understood, rest. pose proof (motion_there (bgcodes (lblock l))) as M. destruct (gm_get (m_mode m) MG_motion) as [mo|] eqn:E.
  - destruct (existsb _ (bgcodes (lblock l))).
    + pose proof (proj1 M eq_refl) as X. split; [intros [H _]; auto|intros ->; split; auto]. intros N. exfalso. destruct X as (g & I & G). apply (N g I G).
    + assert (N : forall g, In g (bgcodes (lblock l)) -> ~ in_group MG_motion g) by (intros g I G; assert (X : false = true) by (apply M; eauto); discriminate X).
      rewrite <- (sifted_filter _ _ _ _ (usable_fit m mo E)). split; [intros [_ H]; auto|intros H; split; auto]. intros (g & I & G). exfalso. apply (N g I G).
  - assert (Q : forall qs us, sifted (PropsMach2.usable m) qs us <-> us = []).
    { intros qs us. split; [induction 1 as [|x q k (mo & E' & _)|]; auto; congruence|intros ->]. induction qs; constructor; auto. intros (mo & E' & _). congruence. }
    split; [intros [H1 H2]|intros ->; split; auto; intros; apply Q; auto]. destruct (existsb _ (bgcodes (lblock l))); [apply H1; apply M; auto|]. apply (Q (bmodal (lblock l))). apply H2. intros g I G. assert (X : false = true) by (apply M; eauto). discriminate X.
Qed.
Lemma rest_in m l w : In w (rest m l) -> In w (bmodal (lblock l)) /\ PropsMach2.usable m w.
Proof.
  unfold rest. destruct (gm_get (m_mode m) MG_motion) as [mo|] eqn:E; [|intros []]. destruct (existsb _ (bgcodes (lblock l))); [intros []|]. intros H. apply filter_In in H as [H1 H2]. split; auto. apply (usable_fit m mo E). auto.
Qed.
Lemma clean_line m l s b : sound m -> mk_line s = Ok l -> clean_block m (lblock l) = Ok b <-> NoDup (map wletter (rest m l)) /\ b = Block (bwords (lblock l)) (bgcodes (lblock l)) (rest m l).
Proof.
  intros S L. destruct (mk_line_block _ _ L) as (bs & MB). pose proof (block_bare _ _ _ MB) as B. unfold clean_block, rest. destruct (gm_get (m_mode m) MG_motion) as [mo|] eqn:E.
  2:{ split; [intros H; injection H as <-; split; auto; constructor|intros [_ ->]; auto]. }
  destruct (existsb _ (bgcodes (lblock l))); [split; [intros H; injection H as <-; split; auto; constructor|intros [_ ->]; auto]|].
  destruct (sound_motion ar m mo S E) as [LE P]. split.
  - destruct (words2gcodes (gword mo :: bmodal (lblock l))) as [[gs un]|] eqn:W; cbn [bind]; [|discriminate]. destruct (motion_words ar m mo _ S E B _ _ W) as (_ & -> & ND). rewrite remove_unfit. cbn [bind]. intros H. injection H as <-. auto.
  - intros [N ->].
    assert (W : words2gcodes (gword mo :: bmodal (lblock l)) = Ok ([built (Group (gcls mo) (gword mo) (filter (fit (gcls mo)) (bmodal (lblock l))))], filter (unfit (gcls mo)) (bmodal (lblock l)))).
    { apply words2gcodes_iff. eexists. split; [apply grouped_one; [exact P|]; eapply Forall_impl; [|exact B]; auto|]. split; [|reflexivity]. constructor; [|constructor]. unfold unambiguous. cbn [gr_params]. auto. }
    rewrite W. cbn [bind]. rewrite remove_unfit. reflexivity.
Qed.
Lemma rest_facts m l s : mk_line s = Ok l -> Forall word_wf (rest m l) /\ bare (rest m l) /\ Forall (PropsMach2.usable m) (rest m l).
Proof.
  intros L. destruct (mk_line_block _ _ L) as (bs & MB). pose proof (block_bare _ _ _ MB) as B. destruct (mk_block_wf _ _ _ MB) as [_ W]. unfold bare in *. rewrite !Forall_forall in *.
  split; [|split]; intros w I; apply rest_in in I as [I U]; auto.
Qed.

(** ** the script *)
Lemma last_from {A} (x : A) l d : last (x :: l) d = last l x.
Proof. revert x d. induction l as [|y l IH]; intros x d; auto. cbn [last] in *. destruct l; auto. Qed.
Lemma tidy_line_ok o fuel s m out m' : tidying o -> sound m -> norm_line o fuel s m = (out, Ok m') <->
  exists l, mk_line s = Ok l /\ NoDup (map wletter (rest m l)) /\ process_gcodes (bgcodes (lblock l)) (rest m l) m = (m', Ok tt) /\ out = [styled o (bgcodes (lblock l)) (rest m l) (lcomment l) (lmacro l)].
Proof.
  intros (RI & SI & FU & LI & CE & _ & _ & _ & _ & RB & _) S. unfold norm_line. rewrite RI, LI, CE, FU. cbn [andb]. rewrite pbind_pure.
  assert (SH : forall x, shown o x = [x]) by (intros x; apply shown_one; auto). split.
  - intros (l & L & H). apply pbind_pure in H as (b & C & H). apply (clean_line m l s b S L) in C as [ND ->]. apply pbind_pure in H as (gs & G & H). apply pbind_ok in H as (o1 & [] & o2 & W & P & ->). apply acts_ok in P as [-> P]. cbn [bgcodes bmodal] in W.
    exists l. split; auto. split; auto. split; [exact P|]. rewrite app_nil_r. apply write_styled in W; auto. rewrite W, SH. auto.
  - intros (l & L & ND & P & ->). exists l. split; auto. rewrite pbind_pure. exists (Block (bwords (lblock l)) (bgcodes (lblock l)) (rest m l)). split; [apply (clean_line m l s _ S L); auto|]. rewrite pbind_pure.
    destruct (modal_gcodes_ok (Block (bwords (lblock l)) (bgcodes (lblock l)) (rest m l)) m m' P) as (gs & G). exists gs. split; auto.
    rewrite pbind_ok. exists [styled o (bgcodes (lblock l)) (rest m l) (lcomment l) (lmacro l)], tt, []. split; [|split; [rewrite acts_ok; auto|rewrite app_nil_r; auto]]. cbn [bgcodes bmodal]. apply write_styled; auto.
Qed.
Definition tidy_out (o : options) (x : line * list word * machine) : text := styled o (bgcodes (lblock (fst (fst x)))) (snd (fst x)) (lcomment (fst (fst x))) (lmacro (fst (fst x))).
Lemma tidy_keeps m l s m1 : sound m -> inside m -> mk_line s = Ok l -> process_gcodes (bgcodes (lblock l)) (rest m l) m = (m1, Ok tt) -> sound m1 /\ inside m1 /\ m_ignore m1 = m_ignore m.
Proof.
  intros S I L P. destruct (mk_line_block _ _ L) as (bs & MB). destruct (mk_block_wf _ _ _ MB) as [F _]. destruct (rest_facts m l s L) as (W & _). destruct (process_gcodes_inv (bgcodes (lblock l)) (rest m l) m S I F W) as (S1 & I1 & _ & K). rewrite P in *. split; auto. split; auto. apply K.
Qed.
Lemma tidy_loop_ok o fuel file : tidying o -> forall m out m', sound m -> inside m -> norm_loop o fuel file m = (out, Ok m') <->
  exists tr, tidy_reading m file tr /\ out = map (tidy_out o) tr /\ m' = last (map snd tr) m.
Proof.
  intros TI. induction file as [|s r IH]; intros m out m' S I; cbn [norm_loop].
  - rewrite ret_ok. split; [intros [-> ->]; exists []; split; [constructor|auto]|]. intros (tr & R & -> & ->). inversion R; subst. auto.
  - rewrite pbind_ok. split.
    + intros (o1 & m1 & o2 & L & H & ->). apply tidy_line_ok in L as (l & L & ND & P & ->); auto. destruct (tidy_keeps m l s m1 S I L P) as (S1 & I1 & _). apply IH in H as (tr & R & -> & ->); auto.
      exists ((l, rest m l, m1) :: tr). split; [econstructor; eauto; apply understood_rest; auto|]. split; auto. cbn [map snd]. rewrite last_from. reflexivity.
    + intros (tr & R & -> & ->). inversion R as [|? ? l ps m1 ? tr1 L U ND P R1]; subst. apply understood_rest in U. subst ps. destruct (tidy_keeps m l s m1 S I L P) as (S1 & I1 & _).
      exists [styled o (bgcodes (lblock l)) (rest m l) (lcomment l) (lmacro l)], m1, (map (tidy_out o) tr1). split; [apply tidy_line_ok; eauto|]. split; [|reflexivity]. apply IH; auto. exists tr1. split; auto. split; auto. cbn [map snd]. rewrite last_from. reflexivity.
Qed.
Lemma tidy_norm_ok o fuel file out : tidying o -> norm o fuel file = (out, Ok tt) <->
  exists m tr, new_machine xyz true (o_machine_mode o) = Ok m /\ tidy_reading m file tr /\ out = map (tidy_out o) tr.
Proof.
  intros TI. pose proof TI as (RI & _ & _ & _ & _ & ZX & ZZ & SO & _). unfold norm. rewrite pbind_pure, RI. split.
  - intros (m & E & H). destruct (new_machine_sound _ _ _ _ E) as (S & I & _). apply pbind_ok in H as (o1 & m1 & o2 & L & F & ->). apply tidy_loop_ok in L as (tr & R & -> & ->); auto. exists m, tr. split; auto. split; auto. unfold norm_final in F. rewrite ZX, ZZ, SO in F. cbn in F. assert (X : o2 = []) by congruence. rewrite X, app_nil_r. reflexivity.
  - intros (m & tr & E & R & ->). destruct (new_machine_sound _ _ _ _ E) as (S & I & _). exists m. split; auto. rewrite pbind_ok. exists (map (tidy_out o) tr), (last (map snd tr) m), []. split; [apply tidy_loop_ok; eauto|]. split; [|rewrite app_nil_r; auto]. unfold norm_final. rewrite ZX, ZZ, SO. reflexivity.
Qed.

(** ** the printed program on a machine that ignores nothing *)
Lemma sound_ig b m : sound m -> inside m -> sound (ig b m) /\ inside (ig b m).
Proof. intros S I. split; [destruct S; constructor; auto|exact I]. Qed.
Lemma ig_same a b c : same_machine (ig b a) c -> same_but_ignore a c.
Proof. intros (A & B & C & D & E & F & _). repeat split; auto. Qed.
Lemma tidy_back o file : accurate ar -> tidying o -> forall m m' tr, sound m -> inside m -> sound m' -> inside m' -> same_machine (ig false m) m' -> tidy_reading m file tr ->
  Forall (fun x => tidily (fst (fst x)) (snd (fst x))) tr -> exists tr', reading m' (map (tidy_out o) tr) tr' /\ Forall2 stands_for tr tr'.
Proof.
  intros acc TI. induction file as [|s r IH]; intros m m' tr S I S' I' M R F.
  - inversion R; subst. exists []. split; constructor.
  - inversion R as [|? ? l ps m1 ? tr1 L U ND P R1]; subst. inversion F as [|? ? F1 F2]; subst. cbn [fst snd] in F1. apply understood_rest in U. subst ps. destruct F1 as (RD & CO & SE & NO).
    destruct (tidy_keeps m l s m1 S I L P) as (S1 & I1 & _). destruct (mk_line_block _ _ L) as (bs & MB). destruct (mk_block_wf _ _ _ MB) as [WF WP].
    destruct (rest_facts m l s L) as (RW & RB & RU). destruct (read_gcodes bs (lblock l) acc MB RD) as (T & C & IP & NL & B & _ & RR & NP & GW).
    pose proof TI as (_ & _ & _ & _ & _ & _ & _ & _ & RC & _ & _ & RG).
    destruct (styled_reads o s l (bgcodes (lblock l)) (rest m l) acc L (fun _ => CO) T C IP NL RB) as (l' & ML & SG & EM & EC & EMa & _); auto.
    { rewrite Forall_forall in *. intros w H. apply rest_in in H as [H _]. auto. }
    { intros NE X. apply (NO NE). apply in_map_iff in X as (g & E & Ig). apply in_map_iff. exists (gword g). auto. }
    { rewrite Forall_forall in *. intros w H. apply rest_in in H as [H _]. auto. }
    rewrite RG, keep_nil in SG. rewrite RC in EC. destruct (sound_ig false m S I) as [SI II].
    pose proof (process_gcodes_same _ _ (rest m l) (ig false m) m' SI II S' I' M WF SG RW RB) as [A Z]. rewrite (gcodes_blind _ _ m false S RB RU), P in A, Z. cbn [fst snd] in A, Z.
    rewrite <- EM in A, Z. change (process_gcodes (bgcodes (lblock l')) (bmodal (lblock l')) m') with (process_block (lblock l') m') in A, Z. destruct (process_block (lblock l') m') as [m1' r'] eqn:P'. cbn [fst snd] in A, Z. subst r'.
    destruct (line_keeps l' _ m' m1' ML S' I' P') as [S1' I1']. destruct (IH m1 m1' tr1 S1 I1 S1' I1' Z R1 F2) as (tr' & R' & ST).
    exists ((l', m1') :: tr'). split; [cbn [map]; econstructor; eauto|]. constructor; auto. split; auto. split; auto. split; auto. split; auto. eapply ig_same; eauto.
Qed.
(** ** a file with nothing to remove *)
Lemma untidy_restyling o : tidying o -> restyling (untidy o).
Proof. intros (RI & SI & FU & LI & CE & ZX & ZZ & SO & _). repeat split; auto. Qed.
Lemma rest_all m l s m1 : sound m -> m_ignore m = false -> mk_line s = Ok l -> process_block (lblock l) m = (m1, Ok tt) -> tidy_already l -> rest (ig true m) l = bmodal (lblock l).
Proof.
  intros S IG L P [ND NM]. destruct (mk_line_block _ _ L) as (bs & MB). pose proof (block_bare _ _ _ MB) as B. symmetry. apply understood_rest. split; auto. intros N.
  assert (U : forall w, In w (bmodal (lblock l)) -> PropsMach2.usable m w).
  { intros w I. destruct (gm_get (m_mode m) MG_motion) as [mo|] eqn:E.
    - destruct (accepts (gcls mo) (wletter w)) eqn:A; [exists mo; split; auto; apply accepts_iff; auto|]. exfalso.
      assert (Q : process_gcodes (bgcodes (lblock l)) (bmodal (lblock l)) m = (m, Raise EMachineInvalidState)).
      { apply C47_refused; auto; [apply bare_iff; auto|]. exists w. split; auto. intros (mo' & E' & T). rewrite E in E'. injection E' as <-. apply accepts_iff in T. congruence. }
      unfold process_block in P. rewrite Q in P. discriminate P.
    - exfalso. assert (Q : process_gcodes (bgcodes (lblock l)) (bmodal (lblock l)) m = (m, Raise EMachineInvalidState)).
      { apply C47_refused; auto; [apply bare_iff; auto|]. exists w. split; auto. intros (mo' & E' & T). congruence. }
      unfold process_block in P. rewrite Q in P. discriminate P. }
  revert U. generalize (bmodal (lblock l)). intros qs U. induction qs as [|q qs IH]; constructor; [|apply IH; intros; apply U; right; auto]. destruct (U q (or_introl eq_refl)) as (mo & E & T). exists mo. auto.
Qed.
Lemma untidy_reading o file : forall m tr, sound m -> inside m -> m_ignore m = false -> reading m file tr -> Forall (fun x => tidy_already (fst x)) tr -> tidying o ->
  exists tr', tidy_reading (ig true m) file tr' /\ flat_map (fun x => line_out (untidy o) (fst x) (snd x)) (from_states m tr) = map (tidy_out o) tr'.
Proof.
  induction file as [|s r IH]; intros m tr S I IG R F TI.
  - apply reading_empty in R. subst. exists []. split; [constructor|reflexivity].
  - apply reading_step in R as (l & m1 & tr1 & L & P & R & <-). inversion F as [|? ? F1 F2]; subst. cbn [fst] in F1.
    destruct (line_keeps l s m m1 L S I P) as [S1 I1]. pose proof (line_ignore _ _ _ _ L S I P) as G1. rewrite IG in G1.
    destruct (IH m1 tr1 S1 I1 G1 R F2 TI) as (tr' & R' & E). pose proof (rest_all m l s m1 S IG L P F1) as RA. destruct (rest_facts (ig true m) l s L) as (_ & RB & RU). rewrite RA in RB, RU.
    exists ((l, bmodal (lblock l), ig true m1) :: tr'). split.
    + econstructor; eauto; [apply understood_rest; auto|apply F1|]. unfold process_block in P. rewrite (gcodes_blind _ _ m true S RB), P; [reflexivity|]. eapply Forall_impl; [|exact RU]. intros w (mo & X & Y). exists mo. auto.
    + cbn [from_states flat_map fst snd map]. rewrite E. clear E. destruct (modal_gcodes_ok _ _ _ P) as (gs & G). unfold line_out. rewrite G. destruct TI as (_ & _ & FU & _ & _ & _ & _ & _ & _ & RBl & _). cbn [untidy o_full]. rewrite FU. rewrite shown_one by auto. reflexivity.
Qed.
End WithArith.
