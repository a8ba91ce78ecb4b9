From Coq Require Import List Bool Arith ZArith QArith Qcanon Lia Permutation.
From Verif Require Import Base Num Regex Words GTable GCode Line Position Machine BaseFacts WordOrder WordsSpec WordsProofs WordsProofs2 GCodeSpec GCodeProofs GCodeProofs2 PropsGCode ArithSpec PosSpec PosProofs ModeSpec ModeProofs MachSpec MachProofs.
Import ListNotations.
Open Scope Z_scope.

Section WithArith.
Context {ar : Arith}.

(** ** Gcodes read from words *)
Lemma placed_proper gs g : forall before, well_placed before gs -> In g gs -> word_gcode_class (gr_word g) = Some (gr_class g).
Proof. induction gs as [|x gs IH]; intros before W I; [contradiction|]. cbn [well_placed] in W. destruct W as (_ & P & W). destruct I as [<-|I]; eauto. Qed.
Lemma grouped_proper ws gs rest g : grouped ws gs rest -> In g gs -> word_gcode_class (gr_word g) = Some (gr_class g).
Proof. intros G. apply placed_proper with (before := []). eapply grouped_placed; eauto. Qed.
Lemma grouped_gcode_wf ws gs rest : grouped ws gs rest -> Forall unambiguous gs -> Forall word_wf ws -> Forall gcode_wf (map built gs) /\ Forall word_wf rest.
Proof.
  intros G U W. pose proof (grouped_legal _ _ _ G U) as L. pose proof (grouped_perm _ _ _ G) as P. assert (W' : Forall word_wf (flat_map group_words gs ++ rest)) by (eapply Permutation_Forall; eauto).
  apply Forall_app in W' as [W1 W2]. split; auto. rewrite Forall_forall in *. intros g I. split; auto. apply in_map_iff in I as (gr & <- & I).
  split; [unfold proper; cbn [built gword gcls]; eapply grouped_proper; eauto|]. split; [cbn [built gword]; apply W1; apply in_flat_map; exists gr; split; auto; left; auto|]. apply Forall_forall. intros kv J. cbn [built gparams] in J. apply in_map_iff in J as (w & <- & J). cbn [snd].
  apply W1. apply in_flat_map. exists gr. split; auto. right. auto.
Qed.
Lemma words2gcodes_wf ws gs rest : words2gcodes ws = Ok (gs, rest) -> Forall word_wf ws -> Forall gcode_wf gs /\ Forall word_wf rest.
Proof. intros H W. apply words2gcodes_iff in H as (grs & G & U & ->). eapply grouped_gcode_wf; eauto. Qed.
Lemma mk_block_wf v s b : mk_block v s = Ok b -> Forall gcode_wf (bgcodes b) /\ Forall word_wf (bmodal b).
Proof.
  unfold mk_block. destruct s as [|c s]; [intros H; injection H as <-; split; constructor|]. destruct (text2words (clean_text (c :: s))) as [ws|] eqn:T; cbn [bind]; [|discriminate]. destruct (words2gcodes ws) as [[gs un]|] eqn:E; cbn [bind]; [|discriminate].
  apply words2gcodes_wf in E as [A B]; [|eapply reads_wf, text2words_reads; eauto]. destruct v; [destruct (assert_gcodes [] [] gs); cbn [bind]; [|discriminate]|]; intros H; injection H as <-; auto.
Qed.
Lemma lines_wf ls : forall gs, lines_gcodes ls = Ok gs -> Forall gcode_wf gs.
Proof.
  induction ls as [|l ls IH]; intros gs; cbn [lines_gcodes].
  - intros H. injection H as <-. constructor.
  - destruct (mk_line l) as [ln|] eqn:L; cbn [bind]; [|discriminate]. destruct (lines_gcodes ls) as [gs2|]; cbn [bind]; [|discriminate]. intros H. injection H as <-. apply Forall_app. split; auto.
    unfold mk_line in L. destruct (line_parts l) as [[bc mac]|]; cbn [bind] in L; [|discriminate]. destruct (split_line bc) as [bs c]. destruct (mk_block true bs) as [b|] eqn:B; cbn [bind] in L; [|discriminate].
    injection L as <-. cbn [lblock]. eapply mk_block_wf; eauto.
Qed.
Lemma sort_wf gs : Forall gcode_wf gs -> Forall gcode_wf (sort_gcodes gs).
Proof. intros F. eapply Permutation_Forall; [|exact F]. symmetry. apply sort_perm. Qed.
Lemma wf_legal gs : Forall gcode_wf gs -> Forall legal gs. Proof. apply Forall_impl. intros g W. apply W. Qed.

Lemma default_unit_known : known_unit default_unit. Proof. vm_compute. auto. Qed.
Lemma unit_id_known c u : unit_id c = Some u -> known_unit u.
Proof. destruct c; vm_compute; intros H; try discriminate; injection H as <-; auto. Qed.

(** ** Every new machine *)
Lemma new_machine_sound axes ig lines m : new_machine axes ig lines = Ok m -> sound m /\ inside m /\ no_offsets m /\ m_axes m = axes /\ m_ignore m = ig /\ cur_coord_sys (m_state m) = Some 1 /\ forall a, pval (m_abs m) a = Q2Qc 0.
Proof.
  intros H. pose proof (new_machine_wf _ _ _ _ H) as W. unfold new_machine, new_mode in H. destruct (lines_gcodes lines) as [gs|] eqn:E; cbn [bind] in H; [|discriminate]. apply lines_wf in E.
  rewrite mode_set_spec in H by (apply wf_legal; auto). cbn [bind] in H. set (md := fold_left _ _ _) in H.
  assert (T : forall mg g, gm_get md mg = Some g -> gcode_wf g) by (apply set_effects_typed; [intros mg g; rewrite gm_get_empty; discriminate|apply sort_wf; auto]).
  assert (U : exists u, known_unit u /\ m = (let p := mk_position axes u [] in Machine md (new_state axes) p p p axes ig)).
  { destruct (gm_get md MG_units) as [g|].
    - destruct (unit_id (gcls g)) as [u|] eqn:U; cbn [bind] in H; [|discriminate]. exists u. split; [eapply unit_id_known; eauto|]. congruence.
    - cbn [bind] in H. exists default_unit. split; [apply default_unit_known|]. congruence. }
  destruct U as (u & U & ->). cbn zeta in *. assert (Gp : good (mk_position axes u [])) by (apply mk_position_good; intros a x []). assert (Gz : good (zero_pos axes)) by apply zero_pos_good.
  assert (Z9 : forall i p, dget Z.eqb (map (fun i => (i, zero_pos axes)) [1; 2; 3; 4; 5; 6; 7; 8; 9]) i = Some p -> p = zero_pos axes).
  { intros i p D. apply (dget_in _ _ _ Z.eqb_eq) in D. apply in_map_iff in D as (j & D & _). congruence. }
  split; [|split; [|split; [|split; [|split; [|split]]]]]; auto.
  - split; [cbn; auto|]. split; [cbn; auto|]. split; [cbn; auto|]. split; [cbn; auto|]. split; [|split; auto]. eexists. split; [reflexivity|]. split; [reflexivity|]. intros i p D. cbn [m_axes]. rewrite (Z9 i p D). auto.
  - intros a x lo hi. cbn [m_abs m_min m_max]. intros A B C. assert (x = lo) by congruence. assert (x = hi) by congruence. subst. split; apply Qcle_refl.
  - intros a. unfold system_offset, temp_offset. cbn [m_state new_state coord_systems cur_coord_sys st_offset]. split; [|apply zero_pos_val]. destruct (dget Z.eqb _ 1) as [p|] eqn:D; auto. rewrite (Z9 _ _ D). apply zero_pos_val.
  - intros a. cbn [m_abs]. apply (zero_pos_val axes a).
Qed.

(** ** Bare parameters *)
Lemma dupdate_in (d : dict letter word) l kv : NoDup (map fst d) -> In kv (dupdate letter_eqb d l) -> In kv d \/ In kv l.
Proof.
  intros ND I. destruct kv as [k w]. apply (in_dget _ _ _ letter_eqb_eq) in I; [|apply (dupdate_nodup _ _ _ letter_eqb_eq); auto]. rewrite (dget_dupdate _ _ _ letter_eqb_eq) in I.
  destruct (dget letter_eqb (rev l) k) as [v|] eqn:E.
  - injection I as ->. apply (dget_in _ _ _ letter_eqb_eq) in E. right. apply in_rev. auto.
  - apply (dget_in _ _ _ letter_eqb_eq) in I. auto.
Qed.
Definition bare (ps : list word) : Prop := Forall (fun w => word_gcode_class w = None) ps.
(** the parameters of the motion mode [mo] with those of a block *)
Definition updated (mo : gcode) (ps : list word) : dict letter word := dupdate letter_eqb (gparams mo) (map (fun w => (wletter w, w)) ps).
Definition fit (c : gclass) (w : word) : bool := accepts c (wletter w).
Definition unfit (c : gclass) (w : word) : bool := negb (accepts c (wletter w)).
(** one gcode word followed by parameters, some of which fit *)
Lemma grouped_one w c ws : word_gcode_class w = Some c -> Forall (fun x => takes c (wletter x) \/ word_gcode_class x = None) ws ->
  grouped (w :: ws) [Group c w (filter (fit c) ws)] (filter (unfit c) ws).
Proof.
  intros C. induction ws as [|x ws IH] using rev_ind; intros F.
  - cbn [filter]. apply (gr_start [] [] [] w c); auto. constructor.
  - apply Forall_app in F as [F Fx]. inversion Fx as [|? ? Hx _]; subst. specialize (IH F). rewrite !filter_app. change (w :: ws ++ [x]) with ((w :: ws) ++ [x]). cbn [filter]. unfold fit at 2. unfold unfit at 2. destruct (accepts c (wletter x)) eqn:A; cbn [negb].
    + rewrite app_nil_r. apply (gr_param (w :: ws) [] c w (filter (fit c) ws) [] _ x); auto. apply accepts_iff; auto.
    + rewrite app_nil_r. apply accepts_false in A. apply gr_left; auto. destruct Hx; [contradiction|auto].
Qed.
Lemma updated_nodup mo ps : legal mo -> NoDup (map fst (updated mo ps)).
Proof. intros [_ N]. apply (dupdate_nodup _ _ _ letter_eqb_eq). auto. Qed.
Lemma updated_in mo ps kv : legal mo -> In kv (updated mo ps) -> fst kv = wletter (snd kv) /\ (In kv (gparams mo) \/ In (snd kv) ps).
Proof.
  intros [F N] I. apply dupdate_in in I as [I|I]; auto.
  - rewrite Forall_forall in F. destruct (F kv I). auto.
  - apply in_map_iff in I as (w & <- & I). auto.
Qed.
Lemma filter_kv (f : word -> bool) (d : dict letter word) : (forall kv, In kv d -> fst kv = wletter (snd kv)) -> map (fun w => (wletter w, w)) (filter f (map snd d)) = filter (fun kv => f (snd kv)) d.
Proof. induction d as [|[k w] d IH]; intros H; cbn [map snd filter]; auto. destruct (f w); cbn [map]; rewrite IH by (intros; apply H; right; auto); auto. f_equal. pose proof (H (k, w) (or_introl eq_refl)) as E. cbn [fst snd] in E. congruence. Qed.
Lemma modal_gcode_spec m mo ps : gm_get (m_mode m) MG_motion = Some mo -> legal mo -> proper mo -> bare ps -> ps <> [] ->
  machine_modal_gcode m ps = if existsb (unfit (gcls mo)) ps && negb (m_ignore m) then Raise EMachineInvalidState
    else Ok (Some (MkGCode (gcls mo) (gword mo) (filter (fun kv => fit (gcls mo) (snd kv)) (updated mo ps)) false)).
Proof.
  intros E L P B NE. unfold machine_modal_gcode. destruct ps as [|p0 ps0]; [contradiction|]. remember (p0 :: ps0) as ps. rewrite E. change (dupdate letter_eqb (gparams mo) (map (fun w => (wletter w, w)) ps)) with (updated mo ps).
  pose proof (fun kv => updated_in mo ps kv L) as UI. pose proof (updated_nodup mo ps L) as UN.
  assert (G : grouped (gword mo :: map snd (updated mo ps)) [Group (gcls mo) (gword mo) (filter (fit (gcls mo)) (map snd (updated mo ps)))] (filter (unfit (gcls mo)) (map snd (updated mo ps)))).
  { apply grouped_one; auto. apply Forall_forall. intros x I. apply in_map_iff in I as (kv & <- & I). apply UI in I as [K [I|I]].
    - left. destruct L as [F _]. rewrite Forall_forall in F. destruct (F kv I) as [-> T]. auto.
    - right. unfold bare in B. rewrite Forall_forall in B. auto. }
  assert (K : map (fun w => (wletter w, w)) (filter (fit (gcls mo)) (map snd (updated mo ps))) = filter (fun kv => fit (gcls mo) (snd kv)) (updated mo ps)) by (apply filter_kv; intros kv I; apply UI; auto).
  assert (U : unambiguous (Group (gcls mo) (gword mo) (filter (fit (gcls mo)) (map snd (updated mo ps))))).
  { unfold unambiguous. cbn [gr_params]. rewrite <- kv_letters, K. apply NoDup_map_filter. auto. }
  destruct (words2gcodes_iff (gword mo :: map snd (updated mo ps)) (map built [Group (gcls mo) (gword mo) (filter (fit (gcls mo)) (map snd (updated mo ps)))]) (filter (unfit (gcls mo)) (map snd (updated mo ps)))) as [_ W].
  rewrite W by (eexists; split; [exact G|split; [constructor; [exact U|constructor]|reflexivity]]). cbn [bind].
  assert (X : (match filter (unfit (gcls mo)) (map snd (updated mo ps)) with [] => false | _ => true end) = existsb (unfit (gcls mo)) ps).
  { destruct (existsb (unfit (gcls mo)) ps) eqn:X.
    - apply existsb_exists in X as (w & I & X). assert (J : exists v, dget letter_eqb (updated mo ps) (wletter w) = Some v).
      { unfold updated. rewrite (dget_dupdate _ _ _ letter_eqb_eq). destruct (dget letter_eqb (rev _) (wletter w)) as [v|] eqn:D; [eauto|]. exfalso. apply (dget_none _ _ _ letter_eqb_eq) in D. apply D. rewrite map_rev. apply -> in_rev. rewrite kv_letters. apply in_map. auto. }
      destruct J as [v J]. apply (dget_in _ _ _ letter_eqb_eq) in J. destruct (filter (unfit (gcls mo)) (map snd (updated mo ps))) eqn:Fl; auto. exfalso. assert (In v []); [|contradiction]. rewrite <- Fl. apply filter_In. split; [apply in_map_iff; exists (wletter w, v); auto|].
      apply UI in J as [J _]. cbn [fst snd] in J. unfold unfit in *. rewrite <- J. auto.
    - destruct (filter (unfit (gcls mo)) (map snd (updated mo ps))) as [|v l] eqn:Fl; auto. exfalso. assert (I : In v (v :: l)) by (left; auto). rewrite <- Fl in I. apply filter_In in I as [I V]. apply in_map_iff in I as (kv & <- & I). apply UI in I as [K' [I|I]].
      + destruct L as [F _]. rewrite Forall_forall in F. destruct (F kv I) as [Q T]. unfold unfit in V. rewrite <- Q in V. apply accepts_iff in T. rewrite T in V. discriminate.
      + rewrite existsb_false in X. rewrite forallb_forall in X. specialize (X _ I). rewrite V in X. discriminate. }
  rewrite X. destruct (existsb (unfit (gcls mo)) ps && negb (m_ignore m)); auto. cbn [map]. unfold built. cbn [gr_class gr_word gr_params]. rewrite K. auto.
Qed.
Lemma modal_gcode_none m ps : gm_get (m_mode m) MG_motion = None -> ps <> [] -> machine_modal_gcode m ps = if m_ignore m then Ok None else Raise EMachineInvalidState.
Proof. intros E N. unfold machine_modal_gcode. destruct ps; [contradiction|]. rewrite E. cbn [bind andb]. destruct (m_ignore m); auto. Qed.
Lemma modal_gcode_wf m ps g : sound m -> Forall word_wf ps -> machine_modal_gcode m ps = Ok (Some g) -> gcode_wf g.
Proof.
  intros (_ & _ & _ & _ & _ & MW & T) W. unfold machine_modal_gcode. destruct ps as [|p ps]; [discriminate|]. destruct (gm_get (m_mode m) MG_motion) as [mo|] eqn:E; [|cbn [bind]; destruct (_ && _); discriminate].
  destruct (words2gcodes _) as [[gs un]|] eqn:Q; cbn [bind]; [|discriminate]. destruct (_ && _); [discriminate|]. destruct (T _ _ E) as (L & P & WG & WP). apply words2gcodes_wf in Q as [Q _].
  - destruct gs as [|x [|]]; try discriminate. intros H. injection H as <-. inversion Q; auto.
  - constructor; auto. apply Forall_forall. intros x I. apply in_map_iff in I as (kv & <- & I). change (dupdate letter_eqb (gparams mo) (map (fun w => (wletter w, w)) (p :: ps))) with (updated mo (p :: ps)) in I. apply updated_in in I as [_ [I|I]]; auto; rewrite Forall_forall in *; auto.
Qed.

(** ** Lists of gcodes *)
Lemma steps_app a b m : steps (a ++ b) m = then_step (steps a) (steps b) m.
Proof.
  revert m. induction a as [|s a IH]; intros m; cbn [app steps]; [reflexivity|]. unfold then_step in *. destruct (s m) as [m1 [u|e]]; auto.
Qed.
Definition keeps (m m' : machine) : Prop := m_axes m' = m_axes m /\ m_ignore m' = m_ignore m /\ coord_systems (m_state m') = coord_systems (m_state m) /\ st_offset (m_state m') = st_offset (m_state m) /\ punit (m_abs m') = punit (m_abs m).
Lemma keeps_refl m : keeps m m. Proof. repeat split. Qed.
Lemma keeps_trans a b c : keeps a b -> keeps b c -> keeps a c. Proof. unfold keeps. intuition congruence. Qed.
Lemma process_keeps g m : sound m -> inside m -> gcode_wf g -> inv (fst (gcode_process g m)) /\ keeps m (fst (gcode_process g m)).
Proof. intros S I W. apply process_inv; auto. Qed.
Lemma steps_inv gs : forall m, sound m -> inside m -> Forall gcode_wf gs -> sound (fst (steps (map gcode_process gs) m)) /\ inside (fst (steps (map gcode_process gs) m)) /\ (in_sync m -> in_sync (fst (steps (map gcode_process gs) m))) /\ keeps m (fst (steps (map gcode_process gs) m)).
Proof.
  induction gs as [|g gs IH]; intros m S I F; cbn [map steps]; [split; [auto|split; [auto|split; [auto|apply keeps_refl]]]|]. inversion F; subst. unfold then_step. destruct (process_keeps g m S I H1) as [(S1 & I1 & Y1) K1]. destruct (gcode_process g m) as [m1 [u|e]]; cbn [fst] in *.
  - destruct (IH m1 S1 I1 H2) as (S2 & I2 & Y2 & K2). split; auto. split; auto. split; auto. eapply keeps_trans; eauto.
  - split; auto.
Qed.
Lemma process_gcodes_inv gs ps m : sound m -> inside m -> Forall gcode_wf gs -> Forall word_wf ps ->
  sound (fst (process_gcodes gs ps m)) /\ inside (fst (process_gcodes gs ps m)) /\ (in_sync m -> in_sync (fst (process_gcodes gs ps m))) /\ keeps m (fst (process_gcodes gs ps m)).
Proof.
  intros S I F W. unfold process_gcodes. destruct (machine_modal_gcode m ps) as [og|e] eqn:E; [|cbn [fst]; split; [auto|split; [auto|split; [auto|apply keeps_refl]]]].
  apply steps_inv; auto. apply sort_wf. apply Forall_app. split; auto. destruct og as [g|]; constructor; auto. eapply modal_gcode_wf; eauto.
Qed.

(** ** Actions *)
Lemma dset_keys {V} (d : dict Z V) i v : dmem Z.eqb d i = true -> map fst (dset Z.eqb d i v) = map fst d.
Proof. unfold dmem. induction d as [|[k w] d IH]; cbn [dget dset]; [discriminate|]. destruct (Z.eqb i k); cbn [map fst]; auto. intros H. rewrite IH; auto. Qed.
Lemma action_inv a m : sound m -> inside m -> fits (m_axes m) a ->
  sound (fst (do_action a m)) /\ inside (fst (do_action a m)) /\ m_axes (fst (do_action a m)) = m_axes m /\
  ((forall v, a <> Assign MG_coordinate_system v) -> in_sync m -> in_sync (fst (do_action a m))).
Proof.
  intros S I F. destruct a as [gs ps|gs|mg v|p|cs|p|i p]; cbn [fits do_action] in *.
  - destruct F as [F W]. destruct (process_gcodes_inv gs ps m S I F W) as (A & B & C & K). split; auto. split; auto. split; [apply K|auto].
  - pose proof S as (_ & _ & _ & _ & _ & W & T). rewrite machine_set_mode_spec by (auto; apply wf_legal; auto). cbn [fst]. set (md := fold_left _ _ _). assert (Wd : mode_wf md) by (apply set_effects_wf; auto; apply sort_legal, wf_legal; auto).
    destruct (after_mode_pos m md) as (A & B & C & D & _). split; [apply after_mode_sound; auto; apply set_effects_typed; auto; apply sort_wf; auto|]. split; [unfold inside; rewrite A, B, C; exact I|]. split; auto. intros _ _. apply after_mode_in_sync; auto.
  - unfold atomic_step. destruct (mode_setattr (m_mode m) mg v) as [md|] eqn:E; cbn [bind fst]; auto. pose proof S as (S1 & S2 & S3 & S4 & S5 & W & T).
    assert (K : mode_wf md /\ (forall x g, gm_get md x = Some g -> gcode_wf g) /\ forall x, x <> mg -> gm_get md x = gm_get (m_mode m) x).
    { unfold mode_setattr in E. destruct v as [g|].
      - destruct (modal_group (gcls g)) as [mg'|] eqn:G; [|discriminate]. destruct (mgroup_eqb mg' mg) eqn:Q; [|discriminate]. apply mgroup_eqb_eq in Q. subst mg'. pose proof (F g eq_refl) as Wg. rewrite modal_copy_of in E by apply Wg. cbn [bind] in E. injection E as <-.
        assert (Q : gm_set (m_mode m) mg (Some (modal_of g)) = set_effect (m_mode m) g) by (unfold set_effect; rewrite G; auto). rewrite Q. split; [apply set_effect_wf; auto; apply Wg|]. split; [apply set_effect_typed; auto|]. intros x N. rewrite <- Q. apply gm_get_set_other. auto.
      - injection E as <-. split; [|split].
        + intros x g. rewrite gm_get_set. destruct (mgroup_eqb _ _); [discriminate|apply W].
        + intros x g. rewrite gm_get_set. destruct (mgroup_eqb _ _); [discriminate|apply T].
        + intros x N. apply gm_get_set_other. auto. }
    destruct K as (K1 & K2 & K3). split; [split; [exact S1|]; split; [exact S2|]; split; [exact S3|]; split; [exact S4|]; split; [exact S5|split; auto]|]. split; [exact I|]. split; auto. intros N Y g. cbn [with_mode m_mode m_state]. rewrite K3; [apply Y|]. intros <-. apply (N v); auto.
  - destruct F as (G & A & U). destruct (set_pos_spec p m S G A U) as (m' & E & Fr & S' & _ & _ & I' & _). rewrite E. cbn [fst]. split; auto. split; auto. split; [apply Fr|]. intros _. eapply frame_sync; eauto.
  - destruct (move_to_cases cs m S F) as [(_ & m' & E & Fr & S' & _ & _ & I' & _)|(_ & e & E)]; rewrite E; cbn [fst]; auto. split; auto. split; auto. split; [apply Fr|]. intros _. eapply frame_sync; eauto.
  - unfold atomic_step. cbn [fst]. pose proof S as (S1 & S2 & S3 & S4 & (d & D & S5k & S5) & S6). split; [split; [exact S1|]; split; [exact S2|]; split; [exact S3|]; split; [exact F|]; split; [exists d; auto|exact S6]|]. split; [exact I|]. split; auto.
  - pose proof S as (S1 & S2 & S3 & S4 & (d & D & S5k & S5) & S6). unfold atomic_step. rewrite D. destruct (dmem Z.eqb d i) eqn:M; cbn [fst]; auto. split; [split; [exact S1|]; split; [exact S2|]; split; [exact S3|]; split; [exact S4|]; split; [|exact S6]|].
    + eexists. split; [reflexivity|]. split; [rewrite <- S5k; apply dset_keys; auto|]. intros j q. rewrite (dget_dset _ _ _ Z.eqb_eq). destruct (Z.eqb j i); [intros H; injection H as <-; exact F|apply S5].
    + split; [exact I|]. split; auto.
Qed.
Lemma history_inv l : forall m, sound m -> inside m -> Forall (fits (m_axes m)) l -> sound (history l m) /\ inside (history l m) /\ m_axes (history l m) = m_axes m.
Proof.
  induction l as [|a l IH]; intros m S I F; cbn [history fold_left]; auto. inversion F; subst. destruct (action_inv a m S I H1) as (S1 & I1 & A1 & _). change (fold_left (fun m a => fst (do_action a m)) l (fst (do_action a m))) with (history l (fst (do_action a m))).
  rewrite <- A1 in *. destruct (IH _ S1 I1) as (A & B & C); auto.
Qed.
Lemma reachable_sound m : reachable m -> sound m /\ inside m.
Proof.
  intros (axes & ig & lines & m0 & l & N & F & ->). destruct (new_machine_sound _ _ _ _ N) as (S & I & _ & A & _). rewrite <- A in F. destruct (history_inv l m0 S I F) as (X & Y & _). auto.
Qed.

(** ** Paths *)
Lemma path_steps m gs ps m' : path m gs ps m' -> steps (map gcode_process gs) m = (m', Ok tt).
Proof. induction 1 as [|m g gs m1 ps m2 E P IH]; cbn [map steps]; [reflexivity|]. unfold then_step. rewrite E. auto. Qed.
Lemma steps_path gs : forall m m', steps (map gcode_process gs) m = (m', Ok tt) -> exists ps, path m gs ps m'.
Proof.
  induction gs as [|g gs IH]; intros m m'; cbn [map steps].
  - intros H. injection H as <-. exists []. constructor.
  - unfold then_step. destruct (gcode_process g m) as [m1 [[]|e]] eqn:E; [|discriminate]. intros H. destruct (IH _ _ H) as [ps P]. exists (m_abs m1 :: ps). econstructor; eauto.
Qed.
Lemma path_app m gs ps m1 gs' ps' m2 : path m gs ps m1 -> path m1 gs' ps' m2 -> path m (gs ++ gs') (ps ++ ps') m2.
Proof. induction 1; cbn [app]; auto. intros. econstructor; eauto. Qed.
(** the program of a list of blocks *)
Lemma runs_path m bs gs m' : runs m bs gs m' -> exists ps, path m gs ps m'.
Proof.
  induction 1 as [|m b bs m1 gs l m2 B P R [ps IH]]; [exists []; constructor|]. unfold process_block, process_gcodes in P. unfold block_modal_gcodes in B. destruct (machine_modal_gcode m (bmodal b)) as [og|]; cbn [bind] in B; [|discriminate]. injection B as <-.
  destruct (steps_path _ _ _ P) as [ps' P']. exists (ps' ++ ps). eapply path_app; eauto.
Qed.
End WithArith.
