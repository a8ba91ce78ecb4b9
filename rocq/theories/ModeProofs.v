From Coq Require Import List Bool Arith ZArith QArith Qcanon Lia Permutation Sorted.
From Verif Require Import Base Num Words GTable GCode Line Position Machine BaseFacts WordOrder GCodeSpec GCodeProofs GCodeProofs2 PosSpec PosProofs ModeSpec.
Import ListNotations.
Open Scope Z_scope.

Lemma accepts_modal_iff c l : accepts_modal c l = true <-> In l (modal_param_letters c).
Proof. unfold accepts_modal. rewrite existsb_exists. split; [intros (x & I & E); apply letter_eqb_eq in E; subst; auto|intros I; exists l; split; auto; apply letter_eqb_refl]. Qed.

(** ** Facts about the class table *)
Lemma cancel_class c : process_kind c = PCancelMotion <-> c = GCodeCancelCannedCycle.
Proof. split; [|intros ->; reflexivity]. destruct c; vm_compute; congruence. Qed.
Lemma g80_class c : derives c GCodeCancelCannedCycle <-> c = GCodeCancelCannedCycle.
Proof.
  split; [|intros ->; constructor]. intros D. remember GCodeCancelCannedCycle as b eqn:E. induction D as [|c p b H D IH]; auto. specialize (IH E). subst. exfalso. revert H. destruct c; vm_compute; discriminate.
Qed.
Lemma g80_group : modal_group GCodeCancelCannedCycle = None. Proof. reflexivity. Qed.
Lemma coord_class c : modal_group c = Some MG_coordinate_system -> exists i, coord_system_id c = Some i.
Proof. destruct c; vm_compute; intros H; try discriminate; eauto. Qed.

Section WithArith.
Context {ar : Arith}.

(** ** Modal copies *)
Definition modal_of (g : gcode) : gcode := MkGCode (gcls g) (gword g) (filter (fun kv => accepts_modal (gcls g) (fst kv)) (gparams g)) false.
Lemma modal_copy_of g : legal g -> modal_copy g = Ok (modal_of g). Proof. apply modal_copy_spec. Qed.
Lemma modal_of_legal g : legal g -> legal (modal_of g).
Proof.
  intros [F N]. split; cbn [modal_of gparams gcls]; [|apply NoDup_map_filter; auto]. rewrite Forall_forall in *. intros kv I. apply filter_In in I as [I _]. auto.
Qed.
Lemma modal_of_stored g mg : legal g -> in_group mg g -> stored mg (modal_of g).
Proof.
  intros L G. split; auto. split; [apply modal_of_legal; auto|]. split; auto. cbn [modal_of gparams gcls]. intros kv I. apply filter_In in I as [_ I]. apply accepts_modal_iff; auto.
Qed.
Lemma filter_all {A} (f : A -> bool) l : (forall x, In x l -> f x = true) -> filter f l = l.
Proof. induction l as [|x l IH]; cbn [filter]; auto. intros H. rewrite (H x) by (left; auto). f_equal. apply IH. intros; apply H; right; auto. Qed.
Lemma stored_modal_of mg g : stored mg g -> modal_of g = g.
Proof.
  intros (_ & _ & W & P). destruct g as [c w ps b]. unfold modal_of. cbn [gcls gword gparams gwhite] in *. subst. rewrite filter_all; auto. intros kv I. apply accepts_modal_iff. auto.
Qed.

(** ** The effect of gcodes on the mode *)
Definition set_effect (md : mode) (g : gcode) : mode := match modal_group (gcls g) with Some mg => gm_set md mg (Some (modal_of g)) | None => md end.
Definition mode_effect (md : mode) (g : gcode) : mode :=
  match process_kind (gcls g) with PCancelMotion => gm_set md MG_motion None | _ => set_effect md g end.
Lemma set_list_spec gs : forall md, Forall legal gs -> mode_set_list md gs = Ok (fold_left set_effect gs md).
Proof.
  induction gs as [|g gs IH]; intros md F; cbn [mode_set_list fold_left]; auto. inversion F; subst. unfold mode_set1, set_effect at 2. destruct (modal_group (gcls g)); cbn [bind]; [rewrite modal_copy_of by auto; cbn [bind]|]; apply IH; auto.
Qed.
Lemma sort_legal gs : Forall legal gs -> Forall legal (sort_gcodes gs).
Proof. intros F. eapply Permutation_Forall; [|exact F]. symmetry. apply sort_perm. Qed.
Lemma mode_set_spec md gs : Forall legal gs -> mode_set md gs = Ok (fold_left set_effect (sort_gcodes gs) md).
Proof. intros F. unfold mode_set. apply set_list_spec, sort_legal; auto. Qed.
Lemma set_effect_wf md g : mode_wf md -> legal g -> mode_wf (set_effect md g).
Proof.
  intros W L. unfold set_effect. destruct (modal_group (gcls g)) as [mg|] eqn:G; auto. intros mg' g'. rewrite gm_get_set. destruct (mgroup_eqb mg mg') eqn:E; [|apply W].
  apply mgroup_eqb_eq in E. subst. intros H. injection H as <-. apply modal_of_stored; auto.
Qed.
Lemma set_effects_wf gs : forall md, mode_wf md -> Forall legal gs -> mode_wf (fold_left set_effect gs md).
Proof. induction gs as [|g gs IH]; intros md W F; cbn [fold_left]; auto. inversion F; subst. apply IH; auto. apply set_effect_wf; auto. Qed.
Lemma mode_effect_wf md g : mode_wf md -> legal g -> mode_wf (mode_effect md g).
Proof.
  intros W L. unfold mode_effect. destruct (process_kind (gcls g)); try (apply set_effect_wf; auto; fail). intros mg' g'. rewrite gm_get_set. destruct (mgroup_eqb _ _); [discriminate|apply W].
Qed.

(** ** Steps *)
Definition same_frame (m m' : machine) : Prop := m_mode m' = m_mode m /\ m_state m' = m_state m /\ m_axes m' = m_axes m /\ m_ignore m' = m_ignore m.
Lemma same_frame_refl m : same_frame m m. Proof. repeat split. Qed.
Lemma same_frame_trans a b c : same_frame a b -> same_frame b c -> same_frame a c.
Proof. unfold same_frame. intuition congruence. Qed.
Lemma set_pos_frame p m : same_frame m (fst (set_pos p m)).
Proof.
  unfold set_pos, then_step, atomic_step. destruct (work2abs m p) as [a|e]; cbn [bind]; [|apply same_frame_refl].
  destruct (pos_min (m_abs (with_abs m a)) (m_min (with_abs m a))) as [x|e]; cbn [bind]; [|repeat split].
  destruct (pos_max _ _) as [y|e]; cbn [bind]; repeat split.
Qed.
Lemma move_to_frame cs m : same_frame m (fst (move_to cs m)).
Proof.
  unfold move_to. destruct (machine_pos m) as [p|e]; [|apply same_frame_refl]. destruct (is_incremental m).
  - match goal with |- context [if ?b then _ else _] => destruct b end; [apply same_frame_refl|]. destruct (pos_add _ _); [apply set_pos_frame|apply same_frame_refl].
  - match goal with |- context [if ?b then _ else _] => destruct b end; [apply same_frame_refl|]. match goal with |- context [if ?b then _ else _] => destruct b end; [apply same_frame_refl|].
    destruct (pos_update _ _); [apply set_pos_frame|apply same_frame_refl].
Qed.
Lemma repeat_step_frame n s m : (forall m, same_frame m (fst (s m))) -> same_frame m (fst (repeat_step n s m)).
Proof.
  intros H. revert m. induction n as [|n IH]; intros m; cbn [repeat_step]; [apply same_frame_refl|]. unfold then_step. pose proof (H m) as F. destruct (s m) as [m1 [u|e]]; cbn [fst] in *; auto.
  eapply same_frame_trans; [exact F|apply IH].
Qed.
Lemma canned_frame g m : same_frame m (fst (canned_process g m)).
Proof.
  unfold canned_process. destruct (gm_get (m_mode m) MG_plane_selection) as [pl|]; [|apply same_frame_refl]. destruct (normal_axis (gcls pl)) as [na|]; [|apply same_frame_refl].
  assert (K : forall cs, same_frame m (fst (match gcode_getattr g LL with Raise e => (m, Raise e) | Ok l =>
    repeat_step (Z.to_nat match l with Some (VInt z) => if z <=? 0 then 1 else z | _ => 1 end) (move_to cs) m end))).
  { intros cs. destruct (gcode_getattr g LL); [|apply same_frame_refl]. apply repeat_step_frame. apply move_to_frame. }
  destruct (match gm_get (m_mode m) MG_canned_cycles_return with Some r => subclass (gcls r) GCodeCannedCycleReturnToR | None => false end).
  - destruct (gcode_getattr g LR); [|apply same_frame_refl]. destruct na as [l|].
    + destruct (axis_of_letter l); [apply K|apply same_frame_refl].
    + destruct (gcode_getattr g LL); apply same_frame_refl.
  - destruct na as [l|]; [destruct (axis_of_letter l)|]; apply K.
Qed.
(** the machine after [machine.set_mode], in a machine with a well-formed mode *)
Definition after_mode (m : machine) (md : mode) : machine :=
  match gm_get md MG_coordinate_system with
  | Some g => match coord_system_id (gcls g) with Some i => with_state (with_mode m md) (State (coord_systems (m_state m)) i (st_offset (m_state m))) | None => with_mode m md end
  | None => with_mode m md
  end.
Lemma machine_set_mode_spec gs m : mode_wf (m_mode m) -> Forall legal gs ->
  machine_set_mode gs m = (after_mode m (fold_left set_effect (sort_gcodes gs) (m_mode m)), Ok tt).
Proof.
  intros W F. unfold machine_set_mode, atomic_step. rewrite mode_set_spec by auto. cbn [bind]. set (md := fold_left _ _ _).
  assert (Wd : mode_wf md) by (apply set_effects_wf; auto; apply sort_legal; auto). unfold after_mode.
  destruct (gm_get md MG_coordinate_system) as [g|] eqn:E; auto. destruct (coord_class (gcls g)) as [i ->]; auto. apply Wd in E. apply E.
Qed.
Lemma after_mode_mode m md : m_mode (after_mode m md) = md.
Proof. unfold after_mode. destruct (gm_get md MG_coordinate_system) as [g|]; [destruct (coord_system_id (gcls g))|]; reflexivity. Qed.
Lemma sort_one g : sort_gcodes [g] = [g]. Proof. reflexivity. Qed.
Lemma gcode_process_mode g m : mode_wf (m_mode m) -> legal g -> m_mode (fst (gcode_process g m)) = mode_effect (m_mode m) g.
Proof.
  intros W L. unfold gcode_process, then_step. rewrite machine_set_mode_spec by auto. rewrite sort_one. cbn [fold_left]. set (m1 := after_mode m (set_effect (m_mode m) g)).
  assert (M : m_mode m1 = set_effect (m_mode m) g) by apply after_mode_mode. unfold gcode_process_own, mode_effect. destruct (process_kind (gcls g)) eqn:K.
  - exact M.
  - rewrite (proj1 (move_to_frame _ _)). exact M.
  - rewrite (proj1 (canned_frame _ _)). exact M.
  - cbn [fst with_mode m_mode]. rewrite M. apply cancel_class in K. unfold set_effect. rewrite K, g80_group. auto.
Qed.
(** a list of gcodes: executed up to some point, all of them if it succeeds *)
Lemma steps_mode gs : forall m m' o, mode_wf (m_mode m) -> Forall legal gs -> steps (map gcode_process gs) m = (m', o) ->
  exists done rest, gs = done ++ rest /\ m_mode m' = fold_left mode_effect done (m_mode m) /\ (o = Ok tt -> rest = []).
Proof.
  induction gs as [|g gs IH]; intros m m' o W F E; cbn [map steps] in E.
  - injection E as <- <-. exists [], []. auto.
  - inversion F; subst. unfold then_step in E. pose proof (gcode_process_mode g m W H1) as M. destruct (gcode_process g m) as [m1 [u|e]]; cbn [fst] in M.
    + destruct (IH m1 m' o) as (d & r & -> & Md & Ok_); auto; [rewrite M; apply mode_effect_wf; auto|]. exists (g :: d), r. split; auto. split; auto. rewrite Md. cbn [fold_left]. rewrite M. auto.
    + injection E as <- <-. exists [g], gs. split; auto. split; auto. discriminate.
Qed.
Lemma effects_wf gs : forall md, mode_wf md -> Forall legal gs -> mode_wf (fold_left mode_effect gs md).
Proof. induction gs as [|g gs IH]; intros md W F; cbn [fold_left]; auto. inversion F; subst. apply IH; auto. apply mode_effect_wf; auto. Qed.

(** ** Modal gcodes *)
Lemma words2gcodes_legal ws gs rest : words2gcodes ws = Ok (gs, rest) -> Forall legal gs.
Proof. intros H. apply words2gcodes_iff in H as (grs & G & U & ->). eapply grouped_legal; eauto. Qed.
Lemma modal_gcode_legal m ps g : machine_modal_gcode m ps = Ok (Some g) -> legal g.
Proof.
  unfold machine_modal_gcode. destruct ps as [|p ps]; [discriminate|]. destruct (gm_get (m_mode m) MG_motion) as [mo|].
  - destruct (words2gcodes _) as [[gs un]|] eqn:E; cbn [bind]; [|discriminate]. destruct (_ && _); [discriminate|]. apply words2gcodes_legal in E. destruct gs as [|x [|]]; try discriminate. intros H. injection H as <-. inversion E; auto.
  - cbn [bind]. destruct (_ && _); discriminate.
Qed.
Definition with_modal (gs : list gcode) (og : option gcode) : list gcode := sort_gcodes (gs ++ match og with Some g => [g] | None => [] end).
Lemma with_modal_legal gs og : Forall legal gs -> (forall g, og = Some g -> legal g) -> Forall legal (with_modal gs og).
Proof. intros F H. apply sort_legal. apply Forall_app. split; auto. destruct og; constructor; auto. Qed.
Lemma process_gcodes_mode gs ps m m' o : mode_wf (m_mode m) -> Forall legal gs -> process_gcodes gs ps m = (m', o) ->
  (m' = m /\ exists e, machine_modal_gcode m ps = Raise e) \/
  exists og done rest, machine_modal_gcode m ps = Ok og /\ with_modal gs og = done ++ rest /\ m_mode m' = fold_left mode_effect done (m_mode m) /\ (o = Ok tt -> rest = []).
Proof.
  intros W F. unfold process_gcodes. destruct (machine_modal_gcode m ps) as [og|e] eqn:E.
  - intros H. right. exists og. destruct (steps_mode (with_modal gs og) m m' o W) as (d & r & A & B & C); auto; [|exists d, r; auto].
    apply with_modal_legal; auto. intros g ->. eapply modal_gcode_legal; eauto.
  - intros H. injection H as <- <-. left. split; eauto.
Qed.

(** ** The mode stays well-formed *)
Lemma do_action_wf a m : mode_wf (m_mode m) -> Forall legal (action_gcodes a) -> mode_wf (m_mode (fst (do_action a m))).
Proof.
  intros W F. destruct a as [gs ps|gs|mg v|p|cs|p|i p]; cbn [action_gcodes do_action] in *.
  - destruct (process_gcodes gs ps m) as [m' o] eqn:E. cbn [fst]. destruct (process_gcodes_mode gs ps m m' o W F E) as [[-> _]|(og & d & r & M & A & B & C)]; auto.
    rewrite B. apply effects_wf; auto. assert (L : Forall legal (with_modal gs og)) by (apply with_modal_legal; auto; intros g ->; eapply modal_gcode_legal; eauto). rewrite A in L. apply Forall_app in L as [L _]. auto.
  - rewrite machine_set_mode_spec by auto. cbn [fst]. rewrite after_mode_mode. apply set_effects_wf; auto. apply sort_legal; auto.
  - unfold atomic_step. destruct (mode_setattr (m_mode m) mg v) as [md|] eqn:E; cbn [bind fst]; auto. cbn [with_mode m_mode]. unfold mode_setattr in E. destruct v as [g|].
    + destruct (modal_group (gcls g)) as [mg'|] eqn:G; [|discriminate]. destruct (mgroup_eqb mg' mg) eqn:Q; [|discriminate]. apply mgroup_eqb_eq in Q. subst. inversion F; subst.
      rewrite modal_copy_of in E by auto. cbn [bind] in E. injection E as <-. intros mg' g'. rewrite gm_get_set. destruct (mgroup_eqb mg mg') eqn:X; [|apply W]. apply mgroup_eqb_eq in X. subst. intros X. injection X as <-. apply modal_of_stored; auto.
    + injection E as <-. intros mg' g'. rewrite gm_get_set. destruct (mgroup_eqb mg mg'); [discriminate|apply W].
  - rewrite (proj1 (set_pos_frame p m)). auto.
  - rewrite (proj1 (move_to_frame cs m)). auto.
  - exact W.
  - unfold atomic_step. destruct (coord_systems (m_state m)) as [d|l]; [destruct (dmem Z.eqb d i)|]; exact W.
Qed.
Lemma history_wf l : forall m, mode_wf (m_mode m) -> Forall (fun a => Forall legal (action_gcodes a)) l -> mode_wf (m_mode (history l m)).
Proof. induction l as [|a l IH]; intros m W F; cbn [history fold_left]; auto. inversion F; subst. apply IH; auto. apply do_action_wf; auto. Qed.
Lemma empty_wf : mode_wf gm_empty. Proof. intros mg g. rewrite gm_get_empty. discriminate. Qed.
Lemma block_legal v s b : mk_block v s = Ok b -> Forall legal (bgcodes b).
Proof.
  unfold mk_block. destruct s as [|c s]; [intros H; injection H as <-; constructor|]. destruct (text2words _) as [ws|]; cbn [bind]; [|discriminate]. destruct (words2gcodes ws) as [[gs un]|] eqn:E; cbn [bind]; [|discriminate].
  apply words2gcodes_legal in E. destruct v; [destruct (assert_gcodes [] [] gs); cbn [bind]; [|discriminate]|]; intros H; injection H as <-; auto.
Qed.
Lemma lines_legal ls : forall gs, lines_gcodes ls = Ok gs -> Forall legal gs.
Proof.
  induction ls as [|l ls IH]; intros gs; cbn [lines_gcodes].
  - intros H. injection H as <-. constructor.
  - destruct (mk_line l) as [ln|] eqn:L; cbn [bind]; [|discriminate]. destruct (lines_gcodes ls) as [gs2|]; cbn [bind]; [|discriminate]. intros H. injection H as <-. apply Forall_app. split; auto.
    unfold mk_line in L. destruct (line_parts l) as [[bc mac]|]; cbn [bind] in L; [|discriminate]. destruct (split_line bc) as [bs c]. destruct (mk_block true bs) as [b|] eqn:B; cbn [bind] in L; [|discriminate].
    injection L as <-. cbn [lblock]. eapply block_legal; eauto.
Qed.
Lemma new_machine_wf axes ig lines m : new_machine axes ig lines = Ok m -> mode_wf (m_mode m).
Proof.
  unfold new_machine, new_mode. destruct (lines_gcodes lines) as [gs|] eqn:E; cbn [bind]; [|discriminate]. apply lines_legal in E. rewrite mode_set_spec by auto. cbn [bind]. set (md := fold_left _ _ _).
  assert (W : mode_wf md) by (apply set_effects_wf; [apply empty_wf|apply sort_legal; auto]). destruct (match gm_get md MG_units with None => _ | Some g => _ end) as [u|]; cbn [bind]; [|discriminate]. intros H. injection H as <-. exact W.
Qed.

(** ** What a list of gcodes leaves in a group *)
Definition touches (mg : mgroup) (g : gcode) : Prop := in_group mg g \/ (mg = MG_motion /\ is_g80 g).
Lemma effect_other md mg g : ~ touches mg g -> gm_get (mode_effect md g) mg = gm_get md mg.
Proof.
  intros N. unfold mode_effect. destruct (process_kind (gcls g)) eqn:K.
  4: { apply cancel_class in K. rewrite gm_get_set_other; auto. intros <-. apply N. right. split; auto. apply g80_class. auto. }
  all: unfold set_effect; destruct (modal_group (gcls g)) as [mg'|] eqn:G; auto; rewrite gm_get_set_other; auto; intros ->; apply N; left; exact G.
Qed.
Lemma effects_other gs mg : Forall (fun g => ~ touches mg g) gs -> forall md, gm_get (fold_left mode_effect gs md) mg = gm_get md mg.
Proof. induction gs as [|g gs IH]; intros F md; cbn [fold_left]; auto. inversion F; subst. rewrite IH by auto. apply effect_other; auto. Qed.
Lemma effect_in md mg g : in_group mg g -> gm_get (mode_effect md g) mg = Some (modal_of g).
Proof.
  intros G. unfold in_group in G. unfold mode_effect. destruct (process_kind (gcls g)) eqn:K; try (unfold set_effect; rewrite G; apply gm_get_set_same). apply cancel_class in K. rewrite K in G. discriminate.
Qed.
Lemma effect_g80 md g : is_g80 g -> gm_get (mode_effect md g) MG_motion = None.
Proof. intros G. apply g80_class in G. unfold mode_effect. rewrite G. change (process_kind GCodeCancelCannedCycle) with PCancelMotion. apply gm_get_set_same. Qed.
Lemma runs_mode m bs l m' : runs m bs l m' -> mode_wf (m_mode m) -> Forall (fun b => Forall legal (bgcodes b)) bs ->
  m_mode m' = fold_left mode_effect l (m_mode m) /\ Forall legal l.
Proof.
  induction 1 as [|m b bs m1 gs l m2 B P R IH]; intros W F; [cbn; auto|]. inversion F; subst. unfold block_modal_gcodes in B. destruct (machine_modal_gcode m (bmodal b)) as [og|] eqn:E; cbn [bind] in B; [|discriminate]. injection B as <-. fold (with_modal (bgcodes b) og) in *.
  assert (L : Forall legal (with_modal (bgcodes b) og)) by (apply with_modal_legal; auto; intros g ->; eapply modal_gcode_legal; eauto).
  unfold process_block in P. destruct (process_gcodes_mode _ _ _ _ _ W H1 P) as [[_ [e E']]|(og' & d & r & E' & A & M & C)]; [congruence|].
  rewrite E in E'. injection E' as <-. rewrite C, app_nil_r in A by auto. subst d. destruct IH as [I1 I2]; auto; [rewrite M; apply effects_wf; auto|].
  rewrite fold_left_app, <- M. split; auto. apply Forall_app; auto.
Qed.

(** ** Replaying the mode *)
Lemma set_effects_order gs : NoDup (map (fun g => modal_group (gcls g)) gs) -> (forall g, In g gs -> modal_group (gcls g) <> None) -> forall md mg,
  (forall g, In g gs -> in_group mg g -> gm_get (fold_left set_effect gs md) mg = Some (modal_of g)) /\
  ((forall g, In g gs -> ~ in_group mg g) -> gm_get (fold_left set_effect gs md) mg = gm_get md mg).
Proof.
  induction gs as [|g gs IH]; intros ND NN md mg; cbn [fold_left].
  - split; [contradiction|auto].
  - inversion ND as [|? ? N1 N2]; subst. destruct (IH N2 (fun x I => NN x (or_intror I)) (set_effect md g) mg) as [I1 I2].
    destruct (modal_group (gcls g)) as [mg'|] eqn:G; [|exfalso; apply (NN g); [left|]; auto]. split.
    + intros x [<-|I] X; [|apply I1; auto]. unfold in_group in X. assert (mg' = mg) by congruence. subst. rewrite I2; [unfold set_effect; rewrite G; apply gm_get_set_same|].
      intros y Iy Y. apply N1. rewrite <- Y. apply (in_map (fun g => modal_group (gcls g))). auto.
    + intros N. rewrite I2 by (intros; apply N; right; auto). unfold set_effect. rewrite G. apply gm_get_set_other. intros ->. apply (N g); [left; auto|exact G].
Qed.
Lemma all_mgroups_nodup : NoDup all_mgroups.
Proof. repeat (apply NoDup_cons; [cbn; intuition discriminate|]). apply NoDup_nil. Qed.
Lemma mode_gcodes_in md g : mode_wf md -> In g (mode_gcodes md) <-> exists mg, gm_get md mg = Some g.
Proof.
  intros W. unfold mode_gcodes. rewrite in_flat_map. split.
  - intros (mg & _ & I). destruct (gm_get md mg) eqn:E; [|contradiction]. destruct I as [<-|[]]. eauto.
  - intros (mg & E). exists mg. split; [apply all_mgroups_in|]. rewrite E. left. auto.
Qed.
Lemma mode_gcodes_groups md : mode_wf md -> forall l, NoDup l -> NoDup (map (fun g => modal_group (gcls g)) (flat_map (fun mg => match gm_get md mg with Some g => [g] | None => [] end) l)).
Proof.
  intros W. induction l as [|mg l IH]; intros ND; cbn [flat_map map]; [constructor|]. inversion ND; subst. rewrite map_app. destruct (gm_get md mg) as [g|] eqn:E; cbn [map app]; auto.
  constructor; auto. rewrite (proj1 (W mg g E)). intros I. apply in_map_iff in I as (x & X & I). apply in_flat_map in I as (mg' & I' & I). destruct (gm_get md mg') as [y|] eqn:E'; [|contradiction]. destruct I as [<-|[]].
  pose proof (proj1 (W mg' y E')) as Y. unfold in_group in Y. assert (mg' = mg) by congruence. subst. contradiction.
Qed.
Lemma replay md gs : mode_wf md -> Permutation gs (mode_gcodes md) -> mode_set gm_empty gs = Ok md.
Proof.
  intros W P0. assert (L : Forall legal gs).
  { apply Forall_forall. intros g I. eapply Permutation_in in I; [|exact P0]. apply mode_gcodes_in in I as (mg & E); auto. apply W in E. apply E. }
  rewrite mode_set_spec by auto. f_equal. set (l := sort_gcodes gs). assert (P : Permutation l (mode_gcodes md)) by (etransitivity; [apply sort_perm|auto]).
  assert (ND : NoDup (map (fun g => modal_group (gcls g)) l)).
  { eapply Permutation_NoDup; [apply Permutation_map; symmetry; exact P|]. apply mode_gcodes_groups; auto. apply all_mgroups_nodup. }
  assert (IN : forall g, In g l <-> exists mg, gm_get md mg = Some g).
  { intros g. rewrite <- mode_gcodes_in by auto. split; apply Permutation_in; auto. symmetry; auto. }
  apply gm_ext. intros mg. destruct (set_effects_order l ND) with (md := @gm_empty gcode) (mg := mg) as [I1 I2].
  { intros g I. apply IN in I as (mg' & E). rewrite (proj1 (W mg' g E)). discriminate. }
  destruct (gm_get md mg) as [g|] eqn:E.
  - rewrite (I1 g); [f_equal; eapply stored_modal_of; eauto|apply IN; eauto|apply (proj1 (W mg g E))].
  - rewrite I2; [apply gm_get_empty|]. intros g I X. apply IN in I as (mg' & E'). pose proof (proj1 (W mg' g E')) as Y. unfold in_group in *. assert (mg' = mg) by congruence. congruence.
Qed.

Lemma derives_dec g : {is_g80 g} + {~ is_g80 g}.
Proof.
  unfold is_g80. destruct (gclass_eqb (gcls g) GCodeCancelCannedCycle) eqn:E; [left|right].
  - apply gclass_eqb_eq in E. apply g80_class. auto.
  - intros D. apply g80_class in D. apply gclass_eqb_eq in D. congruence.
Qed.
(** the first word starts the first gcode *)
Lemma grouped_first w ws gs rest c : grouped (w :: ws) gs rest -> word_gcode_class w = Some c -> exists ps gs', gs = Group c w ps :: gs'.
Proof.
  intros G C. revert gs rest G. induction ws as [|x ws IH] using rev_ind; intros gs rest G.
  - inversion G as [|ws' gs1 c' g ps gs2 rest' w' G' T F E1 E2|ws' gs' rest' w' c' G' F C' E1 E2|ws' gs' rest' w' G' F C' E1 E2].
    all: assert (ws' = [] /\ w' = w) as [-> ->] by (destruct ws' as [|? [|]]; cbn [app] in E1; try discriminate; injection E1; auto).
    + inversion G' as [Q|? ? ? ? ? ? ? ? ? ? ? Q|? ? ? ? ? ? ? ? Q|? ? ? ? ? ? ? Q]; try (destruct ws; discriminate); destruct gs1; discriminate.
    + inversion G' as [Q|? ? ? ? ? ? ? ? ? ? ? Q|? ? ? ? ? ? ? ? Q|? ? ? ? ? ? ? Q]; try (destruct ws; discriminate). subst. rewrite C in C'. injection C' as <-. exists [], []. reflexivity.
    + congruence.
  - change (w :: ws ++ [x]) with ((w :: ws) ++ [x]) in G.
    inversion G as [Q|ws' gs1 c' g ps gs2 rest' w' G' T F E1 E2|ws' gs' rest' w' c' G' F C' E1 E2|ws' gs' rest' w' G' F C' E1 E2]; try (symmetry in Q; apply app_eq_nil in Q as [Q _]; discriminate).
    all: change (w :: ws ++ [x]) with ((w :: ws) ++ [x]) in E1; apply app_inj_tail in E1 as [-> ->]; destruct (IH _ _ G') as (ps0 & gs0 & E).
    + destruct gs1 as [|g1 gs1]; cbn [app] in *.
      * injection E as -> -> -> ->. eauto.
      * injection E as -> E. eauto.
    + rewrite E. cbn [app]. eauto.
    + eauto.
Qed.
Lemma modal_gcode_motion m ps g : (forall g, gm_get (m_mode m) MG_motion = Some g -> proper g) -> machine_modal_gcode m ps = Ok (Some g) ->
  exists mo, gm_get (m_mode m) MG_motion = Some mo /\ gcls g = gcls mo.
Proof.
  intros Pr. unfold machine_modal_gcode. destruct ps as [|p ps]; [discriminate|]. destruct (gm_get (m_mode m) MG_motion) as [mo|]; [|cbn [bind]; destruct (_ && _); discriminate].
  destruct (words2gcodes _) as [[gs un]|] eqn:E; cbn [bind]; [|discriminate]. destruct (_ && _); [discriminate|]. apply words2gcodes_iff in E as (grs & G & U & ->).
  destruct (grouped_first _ _ _ _ (gcls mo) G) as (ps0 & gs' & ->); [apply Pr; auto|]. cbn [map]. destruct (map built gs'); [|discriminate]. intros H. injection H as <-. exists mo. auto.
Qed.
End WithArith.
