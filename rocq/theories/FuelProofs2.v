(** The bound on the turns of the drilling loop does not matter, and what it takes for pygcode-norm to finish (continued). *)
From Coq Require Import Ascii String List Bool Arith ZArith QArith Qabs Qcanon Lia Permutation.
From Verif Require Import Base Num Words GTable GCode Line Position Machine BaseFacts WordOrder WordsSpec WordsProofs LineSpec LineProofs GCodeSpec GCodeProofs GCodeProofs2 PropsGCode ArithSpec
  PosSpec PosProofs ModeSpec ModeProofs MachSpec MachProofs MachProofs2 MachProofs3 Transform Arc FloatArc DrillSpec DrillProofs DrillProofs2 DrillProofs4 Scripts StopSpec StopProofs ScriptsProofs4 ScriptsProofs15 FuelSpec FuelProofs.
Import ListNotations.

(** ** more turns change nothing *)
Definition ole (a b : option gen) : Prop := forall s, a = Some s -> b = Some s.
Definition ple {A} (p q : printer A) : Prop := quiet (snd p) -> p = q.
Lemma ple_refl {A} (p : printer A) : ple p p. Proof. intros _. auto. Qed.
Lemma ple_bind {A B} (p q : printer A) (k k' : A -> printer B) : ple p q -> (forall a, ple (k a) (k' a)) -> ple (pbind p k) (pbind q k').
Proof.
  intros P K Q. destruct p as [o [a|e]]; cbn [pbind] in Q |- *.
  - rewrite <- (P (quiet_ok _)). cbn [pbind]. rewrite <- (K a); auto. destruct (k a); exact Q.
  - rewrite <- P; [reflexivity|]. exact (quiet_raise _ e eq_refl Q).
Qed.
Lemma ole_refl a : ole a a. Proof. intros s; auto. Qed.
Section WithArith.
Context {ar : Arith}.
Lemma ole_yield r a b : ole a b -> ole (yield r a) (yield r b).
Proof. intros H s. unfold yield. destruct r; auto. destruct a as [x|]; [|discriminate]. rewrite (H x eq_refl). auto. Qed.
Lemma ole_yield_if c r a b : ole a b -> ole (yield_if c r a) (yield_if c r b). Proof. intros H. unfold yield_if. destruct c; auto using ole_yield. Qed.
Lemma ole_drill chip retract drill delta k k' : ole k k' -> forall f f', (f <= f')%nat -> forall cur last, ole (drill_loop f chip retract drill delta cur last k) (drill_loop f' chip retract drill delta cur last k').
Proof.
  intros K. induction f as [|f IH]; intros f' L cur last; [intros s H; discriminate H|]. destruct f' as [|f']; [lia|]. cbn [drill_loop]. apply ole_yield_if, ole_yield. destruct (Qcleb _ drill); auto. apply ole_yield. apply IH. lia.
Qed.
Lemma ole_lift {A} (r : result A) (k k' : A -> option gen) : (forall a, ole (k a) (k' a)) -> ole (lift (do x <- r; Ok (k x))) (lift (do x <- r; Ok (k' x))).
Proof. intros H. destruct r; cbn [bind lift]; auto using ole_refl. Qed.
Lemma ole_lift2 {A} (r : result A) (k k' : A -> result (option gen)) : (forall a, ole (lift (k a)) (lift (k' a))) -> ole (lift (bind r k)) (lift (bind r k')).
Proof. intros H. destruct r; cbn [bind lift]; auto using ole_refl. Qed.
Lemma ole_holes f f' g start incr to_r n : (f <= f')%nat -> forall hx hy, ole (holes f n g start incr to_r hx hy) (holes f' n g start incr to_r hx hy).
Proof.
  intros L. induction n as [|n IH]; intros hx hy; cbn [holes]; [apply ole_refl|]. apply ole_lift2. intros [[[r d] x] y]. destruct (Qcltb r d); [apply ole_refl|]. apply ole_lift2. intros sz. apply ole_lift2. intros z0. cbn [lift].
  apply ole_yield_if, ole_yield, ole_yield_if. apply ole_lift2. intros delta. cbn [lift]. apply ole_drill; auto. match goal with |- ole (if ?b then _ else _) _ => destruct b end; [apply ole_refl|]. apply ole_yield. auto.
Qed.
Lemma ole_simplify f f' g start plane dist rmode axes : (f <= f')%nat -> ole (simplify_canned_cycle f g start plane dist rmode axes) (simplify_canned_cycle f' g start plane dist rmode axes).
Proof.
  intros L s. unfold simplify_canned_cycle. destruct (negb _); auto. destruct (negb _); auto. match goal with |- option_map ?F ?x = _ -> option_map _ ?y = _ => intros E; assert (O : ole x y) end.
  { apply ole_lift2. intros l. apply ole_lift2. intros n. cbn [lift]. apply ole_holes; auto. }
  destruct (lift _) as [inner|] in E, O; cbn [option_map] in E; [|discriminate]. rewrite (O _ eq_refl). exact E.
Qed.
Lemma ple_expand o f f' m g : (f <= f')%nat -> ple (expand o f m g) (expand o f' m g).
Proof.
  intros L. unfold expand. apply ple_bind; [apply ple_refl|]. intros _. apply ple_bind; [apply ple_refl|]. intros p.
  destruct (simplify_canned_cycle f g p _ _ _ _) as [s|] eqn:E; [|intros Q; destruct Q; reflexivity]. rewrite (ole_simplify f f' _ _ _ _ _ _ L s E). apply ple_refl.
Qed.
Lemma ple_split o cls c body body' gs m : (forall m1 g, ple (body m1 g) (body' m1 g)) -> ple (split_and_process o cls c body gs m) (split_and_process o cls c body' gs m).
Proof.
  intros B. unfold split_and_process. destruct (split_gcodes gs cls true) as [[be [|g [|]]] af]; try apply ple_refl. apply ple_bind; [apply ple_refl|]. intros m1. apply ple_bind; [apply B|]. intros _. apply ple_refl.
Qed.
Lemma ple_line o f f' s m : (f <= f')%nat -> ple (norm_line o f s m) (norm_line o f' s m).
Proof.
  intros L. unfold norm_line. apply ple_bind; [apply ple_refl|]. intros l. apply ple_bind; [apply ple_refl|]. intros b. apply ple_bind; [apply ple_refl|]. intros gs. cbv zeta.
  assert (C : forall p, ple (if o_canned_expand o && existsb (fun g => existsb (word_eqb (gword g)) (o_canned_codes o)) gs then split_and_process o GCodeCannedCycle (lcomment l) (expand o f) gs m else p)
                            (if o_canned_expand o && existsb (fun g => existsb (word_eqb (gword g)) (o_canned_codes o)) gs then split_and_process o GCodeCannedCycle (lcomment l) (expand o f') gs m else p)).
  { intros p. destruct (_ && _); [|apply ple_refl]. apply ple_split. intros m1 g. apply ple_expand; auto. }
  destruct (o_linearize o); [|apply C]. match goal with |- ple (if ?b then _ else _) _ => destruct b end; [apply ple_refl|apply C].
Qed.
Lemma ple_loop o f f' ls : (f <= f')%nat -> forall m, ple (norm_loop o f ls m) (norm_loop o f' ls m).
Proof. intros L. induction ls as [|s ls IH]; intros m; cbn [norm_loop]; [apply ple_refl|]. apply ple_bind; [apply ple_line; auto|]. auto. Qed.
Lemma ple_norm o f f' file : (f <= f')%nat -> ple (norm o f file) (norm o f' file).
Proof. intros L. unfold norm. apply ple_bind; [apply ple_refl|]. intros m. apply ple_bind; [apply ple_loop; auto|]. intros m'. apply ple_refl. Qed.
Lemma finishes_some o n file : quiet (snd (norm o n file)) -> finishes o file.
Proof. intros Q. destruct (norm o n file) as [out r] eqn:E. exists n, out, r. split; [exact Q|]. intros k L. rewrite <- (ple_norm o n k file L); auto. rewrite E. exact Q. Qed.

(** ** what the words of the file say is what the cycles are made of *)
Section Words.
Variable P : word -> Prop.
Definition made (g : gcode) : Prop := gcode_wf g /\ Forall P (gword g :: map snd (gparams g)).
Definition minv (m : machine) : Prop := sound m /\ inside m /\ forall mg g, gm_get (m_mode m) mg = Some g -> made g.
Lemma words_made ws gs rest : Forall P ws -> words2gcodes ws = Ok (gs, rest) -> Forall (fun g => Forall P (gword g :: map snd (gparams g))) gs /\ Forall P rest.
Proof.
  intros F H. apply words2gcodes_iff in H as (grs & G & U & ->). pose proof (grouped_perm _ _ _ G) as PM. apply (Permutation_Forall PM) in F. apply Forall_app in F as [F R]. split; auto. apply Forall_map. rewrite Forall_forall in F |- *. intros g I. apply Forall_forall. intros w J. apply F. apply in_flat_map. exists g. split; auto.
  cbn [built gword gparams] in J. rewrite map_map, map_id in J. exact J.
Qed.
Lemma line_made s l : mk_line s = Ok l -> Forall P (bwords (lblock l)) -> Forall made (bgcodes (lblock l)) /\ Forall P (bmodal (lblock l)) /\ Forall word_wf (bmodal (lblock l)).
Proof.
  intros L F. destruct (line_bare s l L) as (_ & WG & WW). destruct (mk_line_block s l L) as (bs & B). rewrite mk_block_clean in B. destruct (text2words (clean_text bs)) as [ws|]; cbn [bind] in B; [|discriminate]. destruct (words2gcodes ws) as [[gs rest]|] eqn:W; cbn [bind] in B; [|discriminate].
  destruct (assert_gcodes [] [] gs); cbn [bind] in B; [|discriminate]. apply ok_inj in B. rewrite <- B in *. cbn [bwords bgcodes bmodal] in *. destruct (words_made _ _ _ F W) as [A R]. split; auto. apply Forall_forall. intros g I. rewrite Forall_forall in A, WG. split; auto.
Qed.
Lemma effect_made gs : forall md, (forall mg g, gm_get md mg = Some g -> Forall P (gword g :: map snd (gparams g))) -> Forall made gs -> forall mg g, gm_get (fold_left mode_effect gs md) mg = Some g -> Forall P (gword g :: map snd (gparams g)).
Proof.
  induction gs as [|h gs IH]; intros md M F mg g; cbn [fold_left]; [apply M|]. inversion F as [|? ? [_ H] F']; subst. apply IH; auto. clear mg g. intros mg g.
  assert (ST : gm_get (set_effect md h) mg = Some g -> Forall P (gword g :: map snd (gparams g))).
  { unfold set_effect. destruct (modal_group (gcls h)) as [mg'|]; [|apply M]. rewrite gm_get_set. destruct (mgroup_eqb mg' mg); [|apply M]. intros E. injection E as <-. unfold modal_of. cbn [gword gparams]. inversion H as [|? ? H1 H2]; subst. constructor; auto.
    rewrite Forall_forall in *. intros w I. apply in_map_iff in I as (kv & <- & I). apply filter_In in I as [I _]. apply H2. apply in_map. auto. }
  unfold mode_effect. destruct (process_kind (gcls h)); auto. rewrite gm_get_set. destruct (mgroup_eqb MG_motion mg); [discriminate|apply M].
Qed.
Lemma set_made gs : forall md, (forall mg g, gm_get md mg = Some g -> Forall P (gword g :: map snd (gparams g))) -> Forall made gs -> forall mg g, gm_get (fold_left set_effect gs md) mg = Some g -> Forall P (gword g :: map snd (gparams g)).
Proof.
  induction gs as [|h gs IH]; intros md M F mg g; cbn [fold_left]; [apply M|]. inversion F as [|? ? [_ H] F']; subst. apply IH; auto. clear mg g. intros mg g.
  unfold set_effect. destruct (modal_group (gcls h)) as [mg'|]; [|apply M]. rewrite gm_get_set. destruct (mgroup_eqb mg' mg); [|apply M]. intros E. injection E as <-. unfold modal_of. cbn [gword gparams]. inversion H as [|? ? H1 H2]; subst. constructor; auto.
  rewrite Forall_forall in *. intros w I. apply in_map_iff in I as (kv & <- & I). apply filter_In in I as [I _]. apply H2. apply in_map. auto.
Qed.
Lemma sort_made gs : Forall made gs -> Forall made (sort_gcodes gs).
Proof. intros F. eapply Permutation_Forall; [|exact F]. symmetry. apply sort_perm. Qed.
Lemma made_wf gs : Forall made gs -> Forall gcode_wf gs. Proof. apply Forall_impl. intros g W. apply W. Qed.
Lemma steps_made gs m m' : minv m -> Forall made gs -> steps (map gcode_process gs) m = (m', Ok tt) -> minv m'.
Proof.
  intros (S & I & M) F H. pose proof (made_wf _ F) as W. destruct (steps_inv gs m S I W) as (S' & I' & _). rewrite H in S', I'. cbn [fst] in S', I'. split; auto. split; auto.
  pose proof S as (_ & _ & _ & _ & _ & MW & _). destruct (steps_mode gs m m' (Ok tt) MW (wf_legal _ W) H) as (done & rest & E & MD & RS). specialize (RS eq_refl). rewrite RS, app_nil_r in E. rewrite <- E in MD.
  intros mg g G. split; [destruct S' as (_ & _ & _ & _ & _ & _ & T); eauto|]. rewrite MD in G. eapply effect_made; eauto. intros mg' g' G'. apply (M _ _ G').
Qed.
Lemma modal_made m ps g : minv m -> Forall P ps -> Forall word_wf ps -> machine_modal_gcode m ps = Ok (Some g) -> made g.
Proof.
  intros (S & I & M) F W H. split; [eapply modal_gcode_wf; eauto|]. revert H. unfold machine_modal_gcode. destruct ps as [|p ps]; [discriminate|]. destruct (gm_get (m_mode m) MG_motion) as [mo|] eqn:E; [|cbn [bind]; destruct (_ && _); discriminate].
  destruct (words2gcodes _) as [[gs un]|] eqn:E2; cbn [bind]; [|discriminate]. destruct (_ && _); [discriminate|]. destruct gs as [|g0 [|]]; try discriminate. intros H. injection H as <-. refine (Forall_inv (proj1 (words_made _ _ _ _ E2))).
  destruct (M _ _ E) as [_ MM]. inversion MM as [|? ? H1 H2]; subst. constructor; auto. apply Forall_forall. intros w J. apply in_map_iff in J as ((l & w') & <- & J). apply dupdate_in in J as [J|J]; [| |apply (proj1 (proj1 (M _ _ E)))].
  - rewrite Forall_forall in H2. apply H2. apply in_map_iff. exists (l, w'). auto.
  - apply in_map_iff in J as (w2 & E3 & J). injection E3 as <- <-. rewrite Forall_forall in F. auto.
Qed.
Lemma block_made m b gs : minv m -> Forall made (bgcodes b) -> Forall P (bmodal b) -> Forall word_wf (bmodal b) -> block_modal_gcodes m b = Ok gs -> Forall made gs.
Proof.
  intros M B F W. unfold block_modal_gcodes. destruct (machine_modal_gcode m (bmodal b)) as [og|] eqn:O; cbn [bind]; [|discriminate]. intros H. injection H as <-. apply sort_made. apply Forall_app. split; auto. destruct og; constructor; auto. eapply modal_made; eauto.
Qed.
Lemma process_made gs m m' : minv m -> Forall made gs -> process_gcodes gs [] m = (m', Ok tt) -> minv m'.
Proof. intros M F. unfold process_gcodes. cbn [machine_modal_gcode]. rewrite app_nil_r. apply steps_made; auto using sort_made. Qed.
Lemma process_block_made b m m' : minv m -> Forall made (bgcodes b) -> Forall P (bmodal b) -> Forall word_wf (bmodal b) -> process_block b m = (m', Ok tt) -> minv m'.
Proof.
  intros M B F W. unfold process_block, process_gcodes. destruct (machine_modal_gcode m (bmodal b)) as [og|] eqn:O; [|discriminate]. apply steps_made; auto. apply sort_made. apply Forall_app. split; auto. destruct og; constructor; auto. eapply modal_made; eauto.
Qed.
Lemma clean_made m s l b : minv m -> mk_line s = Ok l -> Forall P (bwords (lblock l)) -> clean_block m (lblock l) = Ok b -> Forall made (bgcodes b) /\ Forall P (bmodal b) /\ Forall word_wf (bmodal b).
Proof.
  intros M L F C. destruct (line_made s l L F) as (A & B & W). pose proof M as (S & _). apply (clean_line m l s b S L) in C as [_ ->]. cbn [bgcodes bmodal]. split; auto. unfold ScriptsProofs15.rest.
  destruct (gm_get (m_mode m) MG_motion); [|split; constructor]. destruct (existsb _ _); [split; constructor|]. split; apply Forall_forall; intros w J; apply filter_In in J as [J _]; [rewrite Forall_forall in B|rewrite Forall_forall in W]; auto.
Qed.
Lemma lines_made ls : forall gs, lines_gcodes ls = Ok gs -> (forall w, written ls w -> P w) -> Forall made gs.
Proof.
  induction ls as [|s ls IH]; intros gs; cbn [lines_gcodes]; [intros H; injection H as <-; constructor|]. destruct (mk_line s) as [l|] eqn:L; cbn [bind]; [|discriminate]. destruct (lines_gcodes ls) as [gs'|]; cbn [bind]; [|discriminate]. intros H W. injection H as <-. apply Forall_app. split.
  - refine (proj1 (line_made s l L _)). apply Forall_forall. intros w I. apply W. exists s, l. cbn. auto.
  - apply IH; auto. intros w (s' & l' & I & E). apply W. exists s', l'. cbn. auto.
Qed.
Lemma new_made axes ig lines m : new_machine axes ig lines = Ok m -> (forall w, written lines w -> P w) -> minv m.
Proof.
  intros H W. destruct (new_machine_sound _ _ _ _ H) as (S & I & _). split; auto. split; auto. intros mg g G. split; [destruct S as (_ & _ & _ & _ & _ & _ & T); eauto|]. revert G.
  unfold new_machine, new_mode in H. destruct (lines_gcodes lines) as [gs|] eqn:E; cbn [bind] in H; [|discriminate]. pose proof (lines_made _ _ E W) as F. rewrite mode_set_spec in H by (apply wf_legal, made_wf; auto). cbn [bind] in H.
  assert (MD : m_mode m = fold_left set_effect (sort_gcodes gs) gm_empty). { revert H. set (md := fold_left _ _ _). destruct (match gm_get md MG_units with None => _ | Some _ => _ end); cbn [bind]; [|discriminate]. intros H. injection H as <-. reflexivity. }
  rewrite MD. apply set_made; [|apply sort_made; auto]. intros mg' g' G'. exfalso. revert G'. destruct mg'; discriminate.
Qed.

(** ** the lines *)
Variable o : options.
Hypothesis AF : arcs_finish o.
Hypothesis ENDS : o_canned_expand o = true -> forall m g p, minv m -> made g -> machine_pos m = Ok p ->
  exists n, simplify_canned_cycle n g p (mode_class m MG_plane_selection) (mode_class m MG_distance) None (m_axes m) <> None.
Lemma split_made gs cls be g af : Forall made gs -> split_gcodes gs cls true = (be, [g], af) -> Forall made be /\ made g /\ Forall made af.
Proof.
  intros F. unfold split_gcodes. apply sort_made in F. pose proof (split_at_spec cls (sort_gcodes gs)) as SP. destruct (split_at cls (sort_gcodes gs)) as [[[a x] b]|]; [|discriminate]. intros H. injection H as <- <- <-. destruct SP as (E & _). rewrite E in F. apply Forall_app in F as [A B]. inversion B; subst. auto.
Qed.
Lemma acts_ok s (m m' : machine) out : acts s m = (out, Ok m') -> s m = (m', Ok tt).
Proof. unfold acts, ret, pure. destruct (s m) as [m1 [[]|]]; congruence. Qed.
Lemma bind_snd {A B} (p : printer A) (k : A -> printer B) b : snd (pbind p k) = Ok b -> exists a, snd p = Ok a /\ snd (k a) = Ok b.
Proof. destruct p as [x [a|]]; cbn [pbind]; [|discriminate]. destruct (k a) as [y r] eqn:E. cbn. intros ->. exists a. rewrite E. auto. Qed.
Lemma acts_snd s (m m' : machine) : snd (acts s m) = Ok m' -> s m = (m', Ok tt).
Proof. intros H. destruct (acts s m) as [out r] eqn:E. cbn in H. subst. eapply acts_ok; eauto. Qed.
Lemma split_inv cls c body gs m m' : minv m -> Forall made gs -> snd (split_and_process o cls c body gs m) = Ok m' -> minv m'.
Proof.
  intros M F. unfold split_and_process. destruct (split_gcodes gs cls true) as [[be [|g [|]]] af] eqn:E; try discriminate. destruct (split_made _ _ _ _ _ F E) as (FB & FG & FA). intros H. apply bind_snd in H as (m1 & H1 & H). apply bind_snd in H as ([] & _ & H). apply bind_snd in H as (m2 & H2 & H). apply bind_snd in H as (m3 & H3 & H). apply bind_snd in H as ([] & _ & H). cbn in H. injection H as <-.
  assert (M1 : minv m1). { destruct be; [cbn in H1; injection H1 as <-; auto|]. apply bind_snd in H1 as ([] & _ & H1). apply acts_snd in H1. eapply process_made; [exact M|exact FB|exact H1]. }
  assert (M2 : minv m2). { apply acts_snd in H2. eapply process_made; [exact M1| |exact H2]. auto. }
  destruct af; [cbn in H3; injection H3 as <-; auto|]. apply bind_snd in H3 as ([] & _ & H3). apply acts_snd in H3. eapply process_made; [exact M2|exact FA|exact H3].
Qed.
Lemma line_inv f s m m' : minv m -> (forall l, mk_line s = Ok l -> Forall P (bwords (lblock l))) -> snd (norm_line o f s m) = Ok m' -> minv m'.
Proof.
  intros M F. unfold norm_line. intros H. apply bind_snd in H as (l & L & H). cbn in L. specialize (F l L). apply bind_snd in H as (b & B & H).
  assert (MB : Forall made (bgcodes b) /\ Forall P (bmodal b) /\ Forall word_wf (bmodal b)). { destruct (o_rm_invalid_modal o); cbn in B; [eapply clean_made; eauto|injection B as <-; eapply line_made; eauto]. }
  destruct MB as (A & MP & MW). apply bind_snd in H as (gs & G & H). cbn in G. pose proof (block_made m b gs M A MP MW G) as FG. cbv zeta in H.
  match type of H with snd (match _ with Some f => if _ then _ else ?C | None => _ end) = _ => assert (CI : snd C = Ok m' -> minv m') end.
  { destruct (o_canned_expand o && _); [apply split_inv; auto|]. intros Q. apply bind_snd in Q as ([] & _ & Q). apply acts_snd in Q. eapply process_block_made; [exact M|exact A|exact MP|exact MW|exact Q]. }
  destruct (o_linearize o); auto. destruct (existsb _ gs) in H; auto. eapply split_inv; eauto.
Qed.
Lemma line_ends_somewhere s m : minv m -> (forall l, mk_line s = Ok l -> Forall P (bwords (lblock l))) -> exists n, quiet (snd (norm_line o n s m)).
Proof.
  intros M F. unfold norm_line. destruct (mk_line s) as [l|e] eqn:L; [|exists O; exact (quiet_raise _ e L (q_mk_line s))]. specialize (F l eq_refl).
  set (B := if o_rm_invalid_modal o then pure (clean_block m (lblock l)) else ret (lblock l)). assert (QB : quiet (snd B)) by (unfold B; destruct (o_rm_invalid_modal o); [apply q_clean_block|discriminate]).
  destruct (snd B) as [b|e] eqn:EB; [|exists O; match goal with |- quiet (snd ?x) => change (calm x) end; apply c_bind; [apply c_pure; discriminate|]; intros l' EL; cbn in EL; injection EL as <-; fold B; apply c_bind; [unfold calm; rewrite EB; exact QB|intros b' X; rewrite EB in X; discriminate X]].
  assert (MB : Forall made (bgcodes b) /\ Forall P (bmodal b) /\ Forall word_wf (bmodal b)). { unfold B in EB. destruct (o_rm_invalid_modal o); cbn in EB; [eapply clean_made; eauto|injection EB as <-; eapply line_made; eauto]. }
  destruct MB as (A & MP & MW). destruct (block_modal_gcodes m b) as [gs|e] eqn:G; [|exists O; match goal with |- quiet (snd ?x) => change (calm x) end; apply c_bind; [apply c_pure; discriminate|]; intros l' EL; cbn in EL; injection EL as <-; fold B; apply c_bind; [unfold calm; rewrite EB; exact QB|intros b' X; rewrite EB in X; injection X as <-; rewrite G; exact (quiet_raise _ e G (q_block_modal_gcodes m b))]].
  pose proof (block_made m b gs M A MP MW G) as FG.
  assert (K : exists n, o_canned_expand o = true -> forall m1 be g af, split_gcodes gs GCodeCannedCycle true = (be, [g], af) -> (be = [] /\ m1 = m \/ process_gcodes be [] m = (m1, Ok tt)) -> calm (expand o n m1 g)).
  { destruct (o_canned_expand o) eqn:OX; [|exists O; discriminate]. destruct (split_gcodes gs GCodeCannedCycle true) as [[be [|g [|]]] af] eqn:E; try (exists O; intros _ ? ? ? ? H; discriminate H). destruct (split_made _ _ _ _ _ FG E) as (FB & FG1 & FA).
    assert (NIL : process_gcodes [] [] m = (m, Ok tt)) by reflexivity. remember (fst (process_gcodes be [] m)) as m1 eqn:EM1.
    destruct (machine_pos m1) as [p|e] eqn:MPO.
    - assert (X : minv m1 -> exists n, simplify_canned_cycle n g p (mode_class m1 MG_plane_selection) (mode_class m1 MG_distance) None (m_axes m1) <> None) by (intros Z; eapply ENDS; eauto).
      destruct (process_gcodes be [] m) as [m2 r2] eqn:E2. destruct r2 as [[]|e2].
      + cbn [fst] in EM1. subst m2. assert (Z : minv m1) by (eapply process_made; [exact M|exact FB|exact E2]).
        destruct (X Z) as [n N]. exists n. intros _ m3 be' g' af' H H'. injection H as <- <- <-. assert (m3 = m1) by (destruct H' as [[H' ->]|H']; [subst be; rewrite NIL in E2; congruence|congruence]).
        subst m3. unfold expand. apply c_bind; [apply c_write|]. intros _ _. apply c_bind; [apply c_pure, q_machine_pos|]. intros p' EP. cbn in EP. rewrite MPO in EP. injection EP as <-. pose proof (o_simplify n g p (mode_class m1 MG_plane_selection) (mode_class m1 MG_distance) None (m_axes m1)) as OS. destruct (simplify_canned_cycle _ _ _ _ _ _ _) as [sq|]; [|contradiction]. apply c_write_all. apply OS. auto.
      + destruct be as [|b0 be]; [rewrite NIL in E2; discriminate E2|]. exists O. intros _ m3 be' g' af' H H'. injection H as <- <- <-. destruct H' as [[H' _]|H']; [discriminate H'|]. rewrite E2 in H'. discriminate H'.
    - exists O. intros _ m3 be' g' af' H H'. injection H as <- <- <-. assert (m3 = m1) as -> by (destruct H' as [[H' ->]|H']; [subst be; rewrite NIL in EM1; auto|rewrite H' in EM1; auto]).
       unfold expand. apply c_bind; [apply c_write|]. intros _ _. rewrite MPO. cbn [pure pbind]. exact (quiet_raise _ e MPO (q_machine_pos m1)). }
  destruct K as [n K]. exists n. match goal with |- quiet (snd ?x) => change (calm x) end. apply c_bind; [apply c_pure; discriminate|]. intros l' EL. cbn in EL. injection EL as <-. fold B. apply c_bind; [unfold calm; rewrite EB; discriminate|]. intros b' EB'. rewrite EB in EB'. injection EB' as <-.
  rewrite G. apply c_bind; [apply c_pure; discriminate|]. intros gs' EG. cbn in EG. injection EG as <-. cbv zeta.
  match goal with |- calm (match _ with Some f => if _ then _ else ?C | None => _ end) => assert (CI : calm C) end.
  { destruct (o_canned_expand o) eqn:OX; cbn [andb].
    - match goal with |- calm (if ?b then _ else _) => destruct b end; [apply c_split; apply K; reflexivity|]. apply c_bind; [destruct (o_full o); apply c_write|]. intros _ _. apply c_acts, s_process_gcodes.
    - apply c_bind; [destruct (o_full o); apply c_write|]. intros _ _. apply c_acts, s_process_gcodes. }
  destruct (o_linearize o) as [fl|] eqn:OL; auto. match goal with |- calm (if ?b then _ else _) => destruct b end; auto. apply c_split. intros m1 be g af _ _. unfold linearize. apply c_bind; [apply c_write|]. intros _ _. apply c_write_all. apply AF with (1 := OL).
Qed.
Lemma loop_ends file : (forall w, written file w -> P w) -> forall m, minv m -> exists n, quiet (snd (norm_loop o n file m)).
Proof.
  induction file as [|s file IH]; intros W m M; [exists O; discriminate|]. assert (F : forall l, mk_line s = Ok l -> Forall P (bwords (lblock l))). { intros l L. apply Forall_forall. intros w I. apply W. exists s, l. cbn. auto. }
  destruct (line_ends_somewhere s m M F) as [n N]. destruct (norm_line o n s m) as [out r] eqn:E. destruct r as [m1|e].
  - assert (M1 : minv m1) by (eapply (line_inv n s m m1 M F); rewrite E; reflexivity). destruct (IH ltac:(intros w (s' & l' & I & X); apply W; exists s', l'; cbn; auto) m1 M1) as [n2 N2]. exists (Nat.max n n2). cbn [norm_loop].
    rewrite <- (ple_line o n (Nat.max n n2) s m ltac:(lia)) by (rewrite E; discriminate). rewrite E. cbn [pbind]. rewrite <- (ple_loop o n2 (Nat.max n n2) file ltac:(lia) m1 N2). destruct (norm_loop o n2 file m1); exact N2.
  - exists n. cbn [norm_loop]. rewrite E. exact (quiet_raise _ e eq_refl N).
Qed.
Lemma norm_finishes file : (forall w, written (o_machine_mode o ++ file) w -> P w) -> finishes o file.
Proof.
  intros W. assert (W1 : forall w, written (o_machine_mode o) w -> P w) by (intros w (s & l & I & X); apply W; exists s, l; rewrite in_app_iff; auto). assert (W2 : forall w, written file w -> P w) by (intros w (s & l & I & X); apply W; exists s, l; rewrite in_app_iff; auto).
  pose proof (q_new_machine xyz (o_rm_invalid_modal o) (o_machine_mode o)) as Q. destruct (new_machine xyz (o_rm_invalid_modal o) (o_machine_mode o)) as [m|e] eqn:E.
  - pose proof (new_made _ _ _ _ E W1) as M. destruct (loop_ends file W2 m M) as [n N]. apply (finishes_some o n). unfold norm. rewrite E. apply c_bind; [apply c_pure; discriminate|]. intros m' EM. cbn in EM. injection EM as <-. apply c_bind; [exact N|]. intros m2 _. apply c_final.
  - apply (finishes_some o O). unfold norm. rewrite E. exact (quiet_raise _ e eq_refl Q).
Qed.
End Words.
End WithArith.
