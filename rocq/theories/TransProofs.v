From Coq Require Import List Bool Arith ZArith QArith Qcanon Lia Permutation Sorted String.
From Verif Require Import Base Num Regex Words GTable GCode Line Position Machine Transform BaseFacts WordOrder WordsSpec GCodeSpec GCodeProofs GCodeProofs2 PropsGCode ArithSpec PosSpec PosProofs ModeSpec ModeProofs MachSpec MachProofs MachProofs2 MachProofs3 PropsMach TransSpec.
Import ListNotations.
Open Scope Z_scope.

Lemma straight_class c : subclass c GCodeRapidMove || subclass c GCodeLinearMove = true -> process_kind c = PMove /\ modal_param_letters c = [] /\ forall a, accepts c (axis_letter a) = true.
Proof. destruct c; vm_compute; intros H; try discriminate; (split; [reflexivity|split; [reflexivity|intros []; reflexivity]]). Qed.
Lemma straight_iff g : straight g <-> subclass (gcls g) GCodeRapidMove || subclass (gcls g) GCodeLinearMove = true.
Proof. unfold straight. rewrite orb_true_iff, !subclass_derives. reflexivity. Qed.
Lemma straight_move g : straight g -> is_move g. Proof. intros H. apply straight_iff, straight_class in H as [H _]. apply kind_move. auto. Qed.

(** the value of the axis word *)
Definition axis_value (g : gcode) (a : axis) : option Qc := match pget (gparams g) (axis_letter a) with Some w => num_of_value (wvalue w) | None => None end.
Definition moved_abs (g : gcode) (v : v9 (option Qc)) : v9 (option Qc) :=
  vfun (fun a => match vget v a with None => None | Some x => match axis_value g a with Some y => Some y | None => Some x end end).
Definition moved_inc (g : gcode) (v : v9 (option Qc)) : v9 (option Qc) :=
  vfun (fun a => match vget v a with None => None | Some x => match axis_value g a with Some y => Some (x + y)%Qc | None => Some x end end).

Lemma v9_dec (u v : v9 (option Qc)) : {u = v} + {u <> v}.
Proof. assert (D : forall a b : option Qc, {a = b} + {a <> b}) by (decide equality; apply Qc_eq_dec). decide equality. Qed.

Section WithArith.
Context {ar : Arith}.
Lemma legal_pget g l w : legal g -> pget (gparams g) l = Some w <-> In (l, w) (gparams g).
Proof.
  intros [_ N]. split.
  - apply (dget_in _ _ _ letter_eqb_eq).
  - apply (in_dget _ _ _ letter_eqb_eq). auto.
Qed.
Lemma axis_value_iff g a x : gcode_wf g -> axis_value g a = Some x <-> names g a x.
Proof.
  intros (L & _ & _ & F). unfold axis_value, names. split.
  - destruct (pget (gparams g) (axis_letter a)) as [w|] eqn:E; [|discriminate]. intros H. apply legal_pget in E; auto. exists w. split; auto. rewrite Forall_forall in F. specialize (F _ E). cbn [snd] in F.
    destruct L as [L _]. rewrite Forall_forall in L. destruct (L _ E) as [Q _]. cbn [fst snd] in Q. destruct (axis_float a w F (eq_sym Q)) as [y Y]. rewrite Y in *. cbn [num_of_value] in H. congruence.
  - intros (w & I & E). apply legal_pget in I; auto. rewrite I, E. reflexivity.
Qed.
Lemma axis_value_none g a : gcode_wf g -> axis_value g a = None <-> forall x, ~ names g a x.
Proof.
  intros W. split.
  - intros H x N. apply axis_value_iff in N; auto. congruence.
  - intros H. destruct (axis_value g a) as [x|] eqn:E; auto. apply axis_value_iff in E; auto. destruct (H x E).
Qed.
Lemma place_at m v : sound m -> place m v -> forall a x, pos_at m a x <-> vget v a = Some x.
Proof.
  intros S (p & E & <-) a x. destruct (machine_pos_spec m S) as (q & E' & G & _). rewrite E in E'. injection E' as <-. unfold pos_at. split.
  - intros (q & Q & X). rewrite E in Q. injection Q as <-. apply getattr_ok in X as [Ha ->]. apply good_some; auto.
  - intros X. exists p. split; auto. apply getattr_ok. destruct (has_dec p a) as [Ha|Ha]; [|rewrite (good_none p a G Ha) in X; discriminate]. split; auto. rewrite (good_some p a G Ha) in X. congruence.
Qed.
Lemma place_ex m : sound m -> exists v, place m v.
Proof. intros S. destruct (machine_pos_spec m S) as (q & E & _). exists (pvals q), q. auto. Qed.
Lemma place_has m v a : sound m -> place m v -> (exists x, vget v a = Some x) <-> has (m_abs m) a.
Proof.
  intros S P. split.
  - intros [x X]. apply (place_at m v S P) in X. apply pos_at_iff in X; auto. apply X.
  - intros H. eexists. apply (place_at m v S P). apply pos_at_iff; auto.
Qed.
Lemma place_intro m v : sound m -> (forall a, has (m_abs m) a -> exists x, vget v a = Some x /\ pos_at m a x) -> (forall a, ~ has (m_abs m) a -> vget v a = None) -> place m v.
Proof.
  intros S H N. destruct (place_ex m S) as [u U]. replace v with u; auto. apply v9_ext. intros a. destruct (has_dec (m_abs m) a) as [Ha|Ha].
  - destruct (H a Ha) as (x & -> & X). apply (place_at m u S U) in X. auto.
  - rewrite (N a Ha). destruct (vget u a) as [x|] eqn:E; auto. exfalso. apply Ha. apply (place_has m u a S U). eauto.
Qed.
Lemma place_unique m v u : place m v -> place m u -> v = u. Proof. intros (p & E & <-) (q & E' & <-). congruence. Qed.
Lemma process_one g m : process_gcodes [g] [] m = gcode_process g m.
Proof. unfold process_gcodes. cbn [machine_modal_gcode]. rewrite app_nil_r, sort_one. cbn [map steps]. unfold then_step, ok_step. destruct (gcode_process g m) as [m' [[]|e]]; reflexivity. Qed.

(** processing a gcode that is not in the distance group keeps the distance mode *)
Lemma process_dist g m : sound m -> gcode_wf g -> ~ in_group MG_distance g -> gm_get (m_mode (fst (gcode_process g m))) MG_distance = gm_get (m_mode m) MG_distance.
Proof.
  intros (_ & _ & _ & _ & _ & MW & _) W N. rewrite gcode_process_mode; auto; [|apply W]. apply effect_other. intros [Q|[Q _]]; [auto|discriminate].
Qed.
Lemma process_ready g m : ready m -> gcode_wf g -> ready (fst (gcode_process g m)) /\ m_axes (fst (gcode_process g m)) = m_axes m.
Proof. intros (S & I & Y) W. destruct (process_keeps g m S I W) as [K (A & _)]. split; auto. Qed.
Lemma same_axes_has m m' a : sound m -> sound m' -> m_axes m' = m_axes m -> has (m_abs m') a <-> has (m_abs m) a.
Proof. intros S S' E. rewrite !sound_axes by auto. rewrite E. reflexivity. Qed.
End WithArith.

Lemma motion_not_distance : MG_motion <> MG_distance. Proof. discriminate. Qed.

Section Exact.
Local Existing Instance exact_arith.
Lemma step_abs g m v : ready m -> absolute m -> place m v -> gcode_wf g -> is_move g ->
  exists m', gcode_process g m = (m', Ok tt) /\ ready m' /\ absolute m' /\ m_axes m' = m_axes m /\ place m' (moved_abs g v).
Proof.
  intros R A P W M. pose proof R as (S & I & Y). destruct (C40_absolute m g S W M A Y) as (m' & E & P1 & P2). pose proof (process_ready g m R W) as K. pose proof (process_dist g m S W (group_not g MG_motion MG_distance (move_group g M) motion_not_distance)) as D. rewrite E in *. cbn [fst] in *. destruct K as [R' X]. pose proof R' as (S' & _).
  exists m'. split; auto. split; auto. split; [unfold absolute in *; rewrite D; auto|]. split; auto. apply place_intro; auto.
  - intros a Ha. rewrite (same_axes_has m m') in Ha by auto. unfold moved_abs. rewrite vget_vfun. destruct (proj2 (place_has m v a S P) Ha) as [x X0]. rewrite X0. destruct (axis_value g a) as [y|] eqn:V.
    + apply axis_value_iff in V; auto. eauto.
    + exists x. split; auto. apply P2; [apply axis_value_none; auto|]. apply (place_at m v S P). auto.
  - intros a Ha. rewrite (same_axes_has m m') in Ha by auto. unfold moved_abs. rewrite vget_vfun. destruct (vget v a) eqn:Q; auto. exfalso. apply Ha. apply (place_has m v a S P). eauto.
Qed.
Lemma step_inc g m v : ready m -> incremental m -> place m v -> gcode_wf g -> is_move g ->
  exists m', gcode_process g m = (m', Ok tt) /\ ready m' /\ incremental m' /\ m_axes m' = m_axes m /\ place m' (moved_inc g v).
Proof.
  intros R A P W M. pose proof R as (S & I & Y). destruct (C41_incremental m g S W M A Y) as (m' & E & P1 & P2). pose proof (process_ready g m R W) as K. pose proof (process_dist g m S W (group_not g MG_motion MG_distance (move_group g M) motion_not_distance)) as D. rewrite E in *. cbn [fst] in *. destruct K as [R' X]. pose proof R' as (S' & _).
  exists m'. split; auto. split; auto. split; [unfold incremental in *; rewrite D; auto|]. split; auto. apply place_intro; auto.
  - intros a Ha. rewrite (same_axes_has m m') in Ha by auto. unfold moved_inc. rewrite vget_vfun. destruct (proj2 (place_has m v a S P) Ha) as [x X0]. rewrite X0. pose proof (proj2 (place_at m v S P a x) X0) as X1. destruct (axis_value g a) as [y|] eqn:V.
    + apply axis_value_iff in V; auto. exists (x + y)%Qc. split; auto.
    + exists x. split; auto. apply P2; auto. apply axis_value_none; auto.
  - intros a Ha. rewrite (same_axes_has m m') in Ha by auto. unfold moved_inc. rewrite vget_vfun. destruct (vget v a) eqn:Q; auto. exfalso. apply Ha. apply (place_has m v a S P). eauto.
Qed.

Definition diff_words (p q : position) : list word :=
  filter (fun w => match wvalue w with VFloat x => negb (Qceqb x (Q2Qc 0)) | _ => true end)
    (map (fun a => Word (axis_letter a) (VFloat (pval q a - pval p a)%Qc)) (filter (vget (paxes q)) axes_by_letter)).
Lemma diff_words_in p q w : In w (diff_words p q) <-> exists a, w = Word (axis_letter a) (VFloat (pval q a - pval p a)%Qc) /\ has q a /\ (pval q a <> pval p a).
Proof.
  unfold diff_words. rewrite filter_In, in_map_iff. split.
  - intros [(a & <- & I) N]. apply filter_In in I as [_ H]. exists a. split; auto. split; auto. cbn [wvalue] in N. apply negb_true_iff in N. intros E. rewrite E in N. replace (pval p a - pval p a)%Qc with (Q2Qc 0) in N by ring. discriminate.
  - intros (a & -> & H & N). split; [exists a; split; auto; apply filter_In; split; auto; destruct a; vm_compute; tauto|]. cbn [wvalue]. apply negb_true_iff. destruct (Qceqb _ _) eqn:E; auto. exfalso. apply N. apply Qceqb_eq in E. replace (pval q a) with (pval q a - pval p a + pval p a)%Qc by ring. rewrite E. ring.
Qed.
Lemma diff_words_letters p q : NoDup (map wletter (diff_words p q)).
Proof.
  unfold diff_words. apply NoDup_map_filter. rewrite map_map. cbn [wletter].
  assert (N : NoDup (map axis_letter axes_by_letter)) by (vm_compute; repeat constructor; cbn; intuition discriminate).
  apply NoDup_map_filter. auto.
Qed.
Lemma relative_words g p q : good p -> good q -> paxes p = paxes q ->
  relative_move g p q = match diff_words p q with [] => Ok None | ws => do (gs, _) <- words2gcodes (gword g :: ws); match rev gs with [] => Raise EIndexError | x :: _ => Ok (Some x) end end.
Proof.
  intros Gp Gq A. unfold relative_move. destruct (pos_sub q p) as [d|e] eqn:D.
  - apply sub_spec in D as (_ & G & X & _ & V); auto. cbn [bind]. replace (filter _ (pos_words d)) with (diff_words p q); auto. unfold diff_words, pos_words. f_equal. rewrite X. apply map_ext_in. intros a I. apply filter_In in I as [_ H].
    destruct (V a H) as [V1 _]. rewrite V1; auto. unfold has. rewrite A. auto.
  - apply sub_error in D as (_ & a & H & N). exfalso. apply N. unfold has in *. rewrite <- A. auto.
Qed.
Lemma relative_none g p q : good p -> good q -> paxes p = paxes q -> pvals p = pvals q -> relative_move g p q = Ok None.
Proof.
  intros Gp Gq A E. rewrite relative_words by auto. destruct (diff_words p q) as [|w l] eqn:D; auto. exfalso. assert (I : In w (diff_words p q)) by (rewrite D; left; auto). apply diff_words_in in I as (a & _ & _ & N). apply N. unfold pval. rewrite E. auto.
Qed.
Lemma relative_some g p q : gcode_wf g -> straight g -> good p -> good q -> paxes p = paxes q -> pvals p <> pvals q ->
  exists x, relative_move g p q = Ok (Some x) /\ gcode_wf x /\ gcls x = gcls g /\ gword x = gword g /\ moved_inc x (pvals p) = pvals q /\ really_moves x.
Proof.
  intros W T Gp Gq A N. rewrite relative_words by auto.
  assert (L : diff_words p q <> []).
  { intros E. apply N. apply v9_ext. intros a. destruct (has_dec q a) as [H|H].
    - assert (Hp : has p a) by (unfold has in *; rewrite A; auto). rewrite (good_some p a Gp Hp), (good_some q a Gq H). f_equal. destruct (Qc_eq_dec (pval p a) (pval q a)) as [|D]; auto. exfalso.
      assert (I : In (Word (axis_letter a) (VFloat (pval q a - pval p a)%Qc)) (diff_words p q)) by (apply diff_words_in; exists a; split; auto). rewrite E in I. destruct I.
    - assert (Hp : ~ has p a) by (unfold has in *; rewrite A; auto). rewrite (good_none p a Gp Hp), (good_none q a Gq H). auto. }
  pose proof W as (LG & PR & WW & WF). pose proof (proj1 (straight_iff g) T) as C. apply straight_class in C as (_ & _ & AC).
  assert (TK : forall w, In w (diff_words p q) -> takes (gcls g) (wletter w)) by (intros w I; apply diff_words_in in I as (a & -> & _); cbn [wletter]; apply accepts_iff, AC).
  pose proof (grouped_one (gword g) (gcls g) (diff_words p q) PR) as G. rewrite (filter_all (fit (gcls g))) in G by (intros w I; apply accepts_iff; auto).
  assert (U : filter (unfit (gcls g)) (diff_words p q) = []).
  { destruct (filter (unfit (gcls g)) (diff_words p q)) as [|w l] eqn:E; auto. exfalso. assert (I : In w (filter (unfit (gcls g)) (diff_words p q))) by (rewrite E; left; auto). apply filter_In in I as [I V]. unfold unfit in V. apply negb_true_iff in V. apply accepts_false in V. auto. }
  rewrite U in G. specialize (G ltac:(apply Forall_forall; intros; left; auto)). apply words2gcodes_grouped in G as [G _]. specialize (G ltac:(constructor; [apply diff_words_letters|constructor])).
  destruct (diff_words p q) as [|w l] eqn:E; [contradiction|]. rewrite <- E in *. rewrite G. cbn [bind map rev app]. exists (built (Group (gcls g) (gword g) (diff_words p q))). split; [reflexivity|].
  assert (WF' : gcode_wf (built (Group (gcls g) (gword g) (diff_words p q)))).
  { split; [apply built_legal; [auto|apply diff_words_letters]|]. split; [exact PR|]. split; [exact WW|]. cbn [built gparams gr_params]. apply Forall_map. apply Forall_forall. intros x I. cbn [snd]. apply diff_words_in in I as (a & -> & _). destruct a; reflexivity. }
  assert (NM : forall a x, names (built (Group (gcls g) (gword g) (diff_words p q))) a x <-> has q a /\ x = (pval q a - pval p a)%Qc /\ pval q a <> pval p a).
  { intros a x. unfold names. cbn [built gparams gr_params]. split.
    - intros (y & I & V). apply in_map_iff in I as (z & Z & I). injection Z as Z1 Z2. subst z. apply diff_words_in in I as (b & Y & H & D). subst y. cbn [wletter wvalue] in *. assert (a = b) by (destruct a, b; vm_compute in Z1; congruence). subst b. injection V as <-. auto.
    - intros (H & -> & D). exists (Word (axis_letter a) (VFloat (pval q a - pval p a)%Qc)). split; [|reflexivity]. apply in_map_iff. exists (Word (axis_letter a) (VFloat (pval q a - pval p a)%Qc)). split; [reflexivity|]. apply diff_words_in. exists a. auto. }
  split; auto. split; [reflexivity|]. split; [reflexivity|]. split.
  - apply v9_ext. intros a. unfold moved_inc. rewrite vget_vfun. destruct (has_dec q a) as [H|H].
    + assert (Hp : has p a) by (unfold has in *; rewrite A; auto). rewrite (good_some p a Gp Hp), (good_some q a Gq H). destruct (axis_value (built _) a) as [x|] eqn:V.
      * apply axis_value_iff in V; auto. apply NM in V as (_ & -> & _). f_equal. ring.
      * f_equal. pose proof (proj1 (axis_value_none _ a WF') V) as V'. destruct (Qc_eq_dec (pval q a) (pval p a)) as [|D]; auto. exfalso. apply (V' _ (proj2 (NM a _) (conj H (conj eq_refl D)))).
    + assert (Hp : ~ has p a) by (unfold has in *; rewrite A; auto). rewrite (good_none p a Gp Hp), (good_none q a Gq H). auto.
  - split.
    + assert (I : In w (diff_words p q)) by (rewrite E; left; auto). apply diff_words_in in I as (a & _ & H & D). exists a, (pval q a - pval p a)%Qc. apply NM. auto.
    + intros a x X. apply NM in X as (_ & -> & D). intros Z. apply D. replace (pval q a) with (pval q a - pval p a + pval p a)%Qc by ring. rewrite Z. ring.
Qed.
Lemma step_idle g m v : ready m -> place m v -> gcode_wf g -> idle g ->
  exists m', gcode_process g m = (m', Ok tt) /\ ready m' /\ gm_get (m_mode m') MG_distance = gm_get (m_mode m) MG_distance /\ m_axes m' = m_axes m /\ place m' v.
Proof.
  intros R P W (NM & NC & N1 & N2 & N3). pose proof R as (S & I & Y). pose proof (process_ready g m R W) as [R' X]. pose proof (process_dist g m S W N2) as D.
  assert (E : exists m', gcode_process g m = (m', Ok tt) /\ m_state m' = m_state m /\ m_abs m' = m_abs m).
  { rewrite process_own by (auto; apply W). unfold gcode_process_own. rewrite <- kind_move in NM. rewrite <- kind_canned in NC. destruct (set_for_pos m g) as (P1 & _). pose proof (set_for_sync m g Y N3) as Q. destruct (process_kind (gcls g)); try contradiction; eexists; (split; [reflexivity|]); cbn [with_mode m_state m_abs]; auto. }
  destruct E as (m' & E & Q1 & Q2). rewrite E in *. cbn [fst] in *. exists m'. split; auto. split; auto. split; auto. split; auto. destruct P as (p & P & V). exists p. split; auto. unfold machine_pos, abs2work, coord_sys_offset in *. rewrite Q1, Q2, X. auto.
Qed.
Lemma g90_mode : exists md, new_mode [t "G90"] = Ok md /\ gm_get md MG_coordinate_system = None /\ gm_get md MG_units = None /\
  forall g, gm_get md MG_distance = Some g -> ~ derives (gcls g) GCodeIncrementalDistanceMode.
Proof.
  assert (X : rmap (fun md => match gm_get md MG_coordinate_system, gm_get md MG_units with None, None => match gm_get md MG_distance with Some g => negb (subclass (gcls g) GCodeIncrementalDistanceMode) | None => true end | _, _ => false end) (new_mode [t "G90"]) = Ok true) by (vm_compute; reflexivity).
  revert X. generalize (new_mode [t "G90"]). intros [md|e] X; unfold rmap in X; [|discriminate X]. injection X as X. exists md. split; auto.
  cbn [gm_get] in *. revert X. destruct (gm_coordinate_system md); [intros X; discriminate X|]. destruct (gm_units md); [intros X; discriminate X|]. intros X. split; auto. split; auto. intros g E. rewrite E in X. apply not_derives. apply negb_true_iff. auto.
Qed.
Lemma absolute_machine_ok axes : exists m0, absolute_coord_machine axes = Ok m0 /\ gm_get (m_mode m0) MG_coordinate_system = None /\
  forall g, gm_get (m_mode m0) MG_distance = Some g -> ~ derives (gcls g) GCodeIncrementalDistanceMode.
Proof.
  destruct g90_mode as (md & E & C & U & D). unfold absolute_coord_machine, new_machine. rewrite E. cbn [bind]. rewrite U. cbn [bind]. eexists. split; [reflexivity|]. cbn [m_mode]. auto.
Qed.
End Exact.
