(** Properties C30-C34: the machine's mode. *)
From Coq Require Import Ascii String List Bool Arith ZArith QArith Qcanon Permutation Lia.
From Verif Require Import Base Num Words GTable GCode Line Position Machine BaseFacts GCodeSpec GCodeProofs GCodeProofs2 PosSpec PosProofs ModeSpec ModeProofs.
Import ListNotations.
Open Scope Z_scope.

(** ** C30 A modal group only ever holds a gcode of that group *)
Theorem C30_groups : forall (ar : Arith) (axes : axset) (ignore : bool) (lines : list text) (m : machine) (l : list action) (mg : mgroup) (g : gcode),
  new_machine axes ignore lines = Ok m -> Forall (fun a => Forall constructible (action_gcodes a)) l ->
  gm_get (m_mode (history l m)) mg = Some g ->
  modal_group (gcls g) = Some mg /\ legal g /\ forall kv, In kv (gparams g) -> In (fst kv) (modal_param_letters (gcls g)).
Proof.
  intros ar axes ignore lines m l mg g N F H. apply new_machine_wf in N.
  assert (W : mode_wf (m_mode (history l m))). { apply history_wf; auto. eapply Forall_impl; [|exact F]. intros a Fa. eapply Forall_impl; [|exact Fa]. apply constructible_legal. }
  destruct (W mg g H) as (A & B & _ & C). auto.
Qed.
Print Assumptions C30_groups.
(** the same from any machine whose mode is so *)
Theorem C30_invariant : forall (ar : Arith) (m : machine) (a : action), mode_wf (m_mode m) -> Forall constructible (action_gcodes a) ->
  mode_wf (m_mode (fst (do_action a m))).
Proof. intros ar m a W F. apply do_action_wf; auto. eapply Forall_impl; [|exact F]. apply constructible_legal. Qed.
Print Assumptions C30_invariant.
(** assigning a gcode of another group is refused *)
Theorem C30_wrong_group : forall (ar : Arith) (md : mode) (mg : mgroup) (g : gcode), modal_group (gcls g) <> Some mg -> mode_setattr md mg (Some g) = Raise EMachineInvalidState.
Proof.
  intros ar md mg g N. unfold mode_setattr. destruct (modal_group (gcls g)) as [mg'|]; auto. destruct (mgroup_eqb mg' mg) eqn:E; auto. apply mgroup_eqb_eq in E. subst. congruence.
Qed.
Print Assumptions C30_wrong_group.

Definition text_gcodes (s : string) : list gcode := match text2gcodes (ar := binary64) (t s) with Ok gs => gs | Raise _ => [] end.
Lemma text_gcodes_con s : Forall (constructible (ar := binary64)) (text_gcodes s).
Proof.
  unfold text_gcodes, text2gcodes. destruct (text2words (ar := binary64) (t s)) as [ws|]; cbn [bind]; [|constructor]. destruct (words2gcodes ws) as [[gs un]|] eqn:E; cbn [bind]; [|constructor].
  destruct un; [|constructor]. apply Forall_forall. intros g I. eapply con_words; eauto.
Qed.
Definition mode_text (m : machine) : text := mode_str (ar := binary64) (m_mode m).
Definition text_gcode (s : string) : gcode := hd (MkGCode GCode (Word LG (VInt 0)) [] false) (text_gcodes s).
Definition ex_history : list action :=
  [Process (text_gcodes "G1 X10 Y20 F100 M3 S500") []; SetMode (text_gcodes "G55 G20"); Assign MG_coolant (Some (text_gcode "M8"));
   Assign MG_units (Some (text_gcode "M8")); Process (text_gcodes "G83 X1 Z-2 R1 Q0.5 L3") []].
Lemma m8_con : constructible (ar := binary64) (text_gcode "M8").
Proof. unfold text_gcode. pose proof (text_gcodes_con "M8") as F. destruct (text_gcodes "M8") as [|g l] eqn:E; [vm_compute in E; discriminate|]. inversion F; auto. Qed.
Lemma from_default {A} (f : machine -> A) (x : A) : rmap f (default_machine (ar := binary64)) = Ok x -> exists m, default_machine (ar := binary64) = Ok m /\ f m = x.
Proof. unfold rmap. generalize (default_machine (ar := binary64)). intros [m|e]; [|discriminate]. intros H. injection H as <-. eauto. Qed.
Example C30_ex : Forall (fun a => Forall (constructible (ar := binary64)) (action_gcodes a)) ex_history /\
  exists m, default_machine (ar := binary64) = Ok m /\
    mode_text (history (ar := binary64) ex_history m) = t "G83 Q0.5 R1 X1 Z-2 G17 G90 G91.1 G94 G20 G40 G49 G55 G61 G97 M03 M08 F100 S500 T0".
Proof.
  split; [|destruct (from_default (fun m => mode_text (history (ar := binary64) ex_history m)) (t "G83 Q0.5 R1 X1 Z-2 G17 G90 G91.1 G94 G20 G40 G49 G55 G61 G97 M03 M08 F100 S500 T0")) as (m & A & B); [vm_compute; reflexivity|exists m; split; [exact A|exact B]]].
  unfold ex_history. constructor; [apply text_gcodes_con|]. constructor; [apply text_gcodes_con|]. constructor; [constructor; [apply m8_con|constructor]|]. constructor; [constructor; [apply m8_con|constructor]|].
  constructor; [apply text_gcodes_con|constructor].
Qed.

(** ** C31 The active mode of a group is that of the last gcode processed in that group *)
(** [m_mode] after a program, in terms of the executed gcodes *)
Theorem C31_last : forall (ar : Arith) (m m' : machine) (bs : list block) (l1 l2 : list gcode) (g : gcode) (mg : mgroup),
  mode_wf (m_mode m) -> Forall (fun b => Forall constructible (bgcodes b)) bs -> runs m bs (l1 ++ g :: l2) m' ->
  modal_group (gcls g) = Some mg -> (forall x, In x l2 -> modal_group (gcls x) <> Some mg) -> (mg = MG_motion -> forall x, In x l2 -> ~ is_g80 x) ->
  exists c, modal_copy g = Ok c /\ gm_get (m_mode m') mg = Some c.
Proof.
  intros ar m m' bs l1 l2 g mg W F R G N N80. apply runs_mode in R as [M L]; auto; [|eapply Forall_impl; [|exact F]; intros b Fb; eapply Forall_impl; [|exact Fb]; apply constructible_legal].
  apply Forall_app in L as [_ L]. inversion L; subst. exists (modal_of g). split; [apply modal_copy_of; auto|]. rewrite M, fold_left_app. cbn [fold_left]. rewrite effects_other; [apply effect_in; auto|].
  apply Forall_forall. intros x I [X|[X Y]]; [apply (N x I X)|apply (N80 X x I Y)].
Qed.
Print Assumptions C31_last.
Theorem C31_none : forall (ar : Arith) (m m' : machine) (bs : list block) (l : list gcode) (mg : mgroup),
  mode_wf (m_mode m) -> Forall (fun b => Forall constructible (bgcodes b)) bs -> runs m bs l m' ->
  (forall x, In x l -> modal_group (gcls x) <> Some mg) -> (mg = MG_motion -> forall x, In x l -> ~ is_g80 x) ->
  gm_get (m_mode m') mg = gm_get (m_mode m) mg.
Proof.
  intros ar m m' bs l mg W F R N N80. apply runs_mode in R as [M L]; auto; [|eapply Forall_impl; [|exact F]; intros b Fb; eapply Forall_impl; [|exact Fb]; apply constructible_legal].
  rewrite M, effects_other; auto. apply Forall_forall. intros x I [X|[X Y]]; [apply (N x I X)|apply (N80 X x I Y)].
Qed.
Print Assumptions C31_none.
Theorem C31_cancelled : forall (ar : Arith) (m m' : machine) (bs : list block) (l1 l2 : list gcode) (g : gcode),
  mode_wf (m_mode m) -> Forall (fun b => Forall constructible (bgcodes b)) bs -> runs m bs (l1 ++ g :: l2) m' ->
  is_g80 g -> (forall x, In x l2 -> modal_group (gcls x) <> Some MG_motion) -> gm_get (m_mode m') MG_motion = None.
Proof.
  intros ar m m' bs l1 l2 g W F R G N. apply runs_mode in R as [M L]; auto; [|eapply Forall_impl; [|exact F]; intros b Fb; eapply Forall_impl; [|exact Fb]; apply constructible_legal].
  rewrite M, fold_left_app. cbn [fold_left]. set (md := fold_left mode_effect l1 (m_mode m)). clear - G N.
  assert (K : forall l md, gm_get md MG_motion = None -> (forall x, In x l -> modal_group (gcls x) <> Some MG_motion) -> gm_get (fold_left mode_effect l md) MG_motion = None).
  { induction l as [|x l IH]; intros d E H; cbn [fold_left]; auto. apply IH; [|intros; apply H; right; auto]. destruct (derives_dec x) as [D|D]; [apply effect_g80; auto|].
    rewrite effect_other; auto. intros [X|[_ X]]; [apply (H x); [left|]; auto|contradiction]. }
  apply K; auto. apply effect_g80; auto.
Qed.
Print Assumptions C31_cancelled.

(** ** C32 Setting one mode leaves the other groups alone *)
Theorem C32_others : forall (ar : Arith) (m m' : machine) (gs : list gcode) (o : result unit) (mg : mgroup),
  mode_wf (m_mode m) -> Forall constructible gs -> process_gcodes gs [] m = (m', o) ->
  (forall x, In x gs -> modal_group (gcls x) <> Some mg) -> (mg = MG_motion -> forall x, In x gs -> ~ is_g80 x) ->
  gm_get (m_mode m') mg = gm_get (m_mode m) mg.
Proof.
  intros ar m m' gs o mg W F P N N80. assert (L : Forall legal gs) by (eapply Forall_impl; [|exact F]; apply constructible_legal).
  destruct (process_gcodes_mode _ _ _ _ _ W L P) as [[-> _]|(og & d & r & E & A & M & _)]; auto. cbn in E. injection E as <-.
  rewrite M, effects_other; auto. apply Forall_forall. intros x I. assert (Ix : In x gs).
  { eapply Permutation_in; [apply (sort_perm _ gorder)|]. unfold with_modal in A. rewrite app_nil_r in A. unfold sort_gcodes in A. rewrite A. apply in_app_iff. auto. }
  intros [X|[X Y]]; [apply (N x Ix X)|apply (N80 X x Ix Y)].
Qed.
Print Assumptions C32_others.
(** bare parameters only ever touch the motion mode *)
Theorem C32_modal_params : forall (ar : Arith) (m m' : machine) (gs : list gcode) (ps : list word) (o : result unit) (mg : mgroup),
  mode_wf (m_mode m) -> (forall g, gm_get (m_mode m) MG_motion = Some g -> proper g) -> Forall constructible gs -> process_gcodes gs ps m = (m', o) ->
  mg <> MG_motion -> (forall x, In x gs -> modal_group (gcls x) <> Some mg) -> gm_get (m_mode m') mg = gm_get (m_mode m) mg.
Proof.
  intros ar m m' gs ps o mg W Pr F P NM N. assert (L : Forall legal gs) by (eapply Forall_impl; [|exact F]; apply constructible_legal).
  destruct (process_gcodes_mode _ _ _ _ _ W L P) as [[-> _]|(og & d & r & E & A & M & _)]; auto.
  rewrite M, effects_other; auto. apply Forall_forall. intros x I. assert (Ix : In x gs \/ og = Some x).
  { assert (I' : In x (with_modal gs og)) by (rewrite A; apply in_app_iff; auto). unfold with_modal, sort_gcodes in I'. eapply Permutation_in in I'; [|apply sort_perm]. apply in_app_iff in I' as [I'|I']; auto. destruct og; [|contradiction]. destruct I' as [<-|[]]; auto. }
  intros [X|[X Y]]; [|contradiction]. destruct Ix as [Ix| ->]; [apply (N x Ix X)|]. apply modal_gcode_motion in E as (mo & E & C); auto. pose proof (proj1 (W _ _ E)) as G. unfold in_group in *. rewrite C, G in X. congruence.
Qed.
Print Assumptions C32_modal_params.
Definition run_text (s : string) (m : machine) : result unit * text :=
  let (m', o) := process_gcodes (ar := binary64) (text_gcodes s) [] m in (o, mode_text m').
Example C32_ex : exists m, default_machine (ar := binary64) = Ok m /\ run_text "G20 M8" m = (Ok tt, t "G00 G17 G90 G91.1 G94 G20 G40 G49 G54 G61 G97 M05 M08 F0 S0 T0").
Proof. apply from_default. vm_compute. reflexivity. Qed.

(** ** C33 A machine's mode can be replayed from its mode gcodes *)
Theorem C33_replay : forall (ar : Arith) (axes : axset) (ignore : bool) (lines : list text) (m : machine) (l : list action) (gs : list gcode),
  new_machine axes ignore lines = Ok m -> Forall (fun a => Forall constructible (action_gcodes a)) l ->
  Permutation gs (mode_gcodes (m_mode (history l m))) -> mode_set gm_empty gs = Ok (m_mode (history l m)).
Proof.
  intros ar axes ignore lines m l gs N F P. apply replay; auto. apply new_machine_wf in N. apply history_wf; auto. eapply Forall_impl; [|exact F]. intros a Fa. eapply Forall_impl; [|exact Fa]. apply constructible_legal.
Qed.
Print Assumptions C33_replay.
(** the list holds one gcode for each group in use, and nothing else *)
Theorem C33_gcodes : forall (md : mode) (g : gcode), mode_wf md ->
  (In g (mode_gcodes md) <-> exists mg, gm_get md mg = Some g) /\ NoDup (map (fun g => modal_group (gcls g)) (mode_gcodes md)).
Proof. intros md g W. split; [apply mode_gcodes_in; auto|]. apply mode_gcodes_groups; auto. apply all_mgroups_nodup. Qed.
Print Assumptions C33_gcodes.
Definition ex_history2 : list action := [Process (text_gcodes "G99 G81 X1 Z-2 R1") []; Process (text_gcodes "G80") []].
Example C33_ex : exists m, default_machine (ar := binary64) = Ok m /\
  mode_text (history (ar := binary64) ex_history2 m) = t "G17 G90 G91.1 G94 G21 G40 G49 G99 G54 G61 G97 M05 M09 F0 S0 T0" /\
  mode_set gm_empty (mode_gcodes (m_mode (history (ar := binary64) ex_history2 m))) = Ok (m_mode (history (ar := binary64) ex_history2 m)).
Proof.
  destruct (from_default (fun m => mode_text (history (ar := binary64) ex_history2 m)) (t "G17 G90 G91.1 G94 G21 G40 G49 G99 G54 G61 G97 M05 M09 F0 S0 T0")) as (m & A & B); [vm_compute; reflexivity|].
  exists m. split; [exact A|]. split; [exact B|]. unfold default_machine in A. refine (C33_replay binary64 xyz false default_mode_lines m ex_history2 _ A _ (Permutation_refl _)).
  unfold ex_history2. constructor; [apply text_gcodes_con|]. constructor; [apply text_gcodes_con|constructor].
Qed.

(** ** C34 A default machine starts in the documented mode *)
Definition default_words : list (mgroup * string) :=
  [(MG_motion, "G00"); (MG_plane_selection, "G17"); (MG_distance, "G90"); (MG_arc_ijk_distance, "G91.1"); (MG_feed_rate_mode, "G94"); (MG_units, "G21");
   (MG_cutter_diameter_comp, "G40"); (MG_tool_length_offset, "G49"); (MG_coordinate_system, "G54"); (MG_control_mode, "G61"); (MG_spindle_speed_mode, "G97");
   (MG_spindle, "M05"); (MG_coolant, "M09"); (MG_feed_rate, "F0"); (MG_spindle_speed, "S0"); (MG_tool, "T0")]%string.
Theorem C34_mode : forall (axes : axset) (ignore : bool), exists m, new_machine (ar := binary64) axes ignore default_mode_lines = Ok m /\
  (forall mg, option_map (fun g => gcode_str (ar := binary64) g) (gm_get (m_mode m) mg) = option_map (fun e => t (snd e)) (find (fun e => mgroup_eqb (fst e) mg) default_words)) /\
  (forall mg g, gm_get (m_mode m) mg = Some g -> gparams g = [] /\ proper (ar := binary64) g).
Proof.
  intros axes ignore. unfold new_machine. destruct (new_mode (ar := binary64) default_mode_lines) as [md|] eqn:E; [|vm_compute in E; discriminate].
  assert (U : match gm_get md MG_units with Some g => unit_id (gcls g) | None => None end = Some UNIT_METRIC).
  { assert (K : match new_mode (ar := binary64) default_mode_lines with Ok md => match gm_get md MG_units with Some g => unit_id (gcls g) | None => None end | _ => None end = Some UNIT_METRIC) by (vm_compute; reflexivity). rewrite E in K. exact K. }
  cbn [bind]. destruct (gm_get md MG_units) as [gu|] eqn:Eu; [|discriminate]. rewrite U. cbn [bind]. eexists. split; [reflexivity|]. cbn [m_mode].
  split.
  - assert (K : match new_mode (ar := binary64) default_mode_lines with Ok md => map (fun mg => option_map (fun g => gcode_str (ar := binary64) g) (gm_get md mg)) all_mgroups | _ => [] end
      = map (fun mg => option_map (fun e => t (snd e)) (find (fun e => mgroup_eqb (fst e) mg) default_words)) all_mgroups) by (vm_compute; reflexivity).
    rewrite E in K. intros mg. pose proof (all_mgroups_in mg) as I. revert I K. induction all_mgroups as [|x l IH]; [contradiction|]. intros [<-|I] K; cbn [map] in K; injection K as K1 K2; auto.
  - assert (K : match new_mode (ar := binary64) default_mode_lines with Ok md => forallb (fun mg => match gm_get md mg with Some g => match gparams g with [] => match word_gcode_class (ar := binary64) (gword g) with Some c => gclass_eqb c (gcls g) | None => false end | _ => false end | None => true end) all_mgroups | _ => false end = true) by (vm_compute; reflexivity).
    rewrite E in K. rewrite forallb_forall in K. intros mg g G. specialize (K mg (all_mgroups_in mg)). rewrite G in K. destruct (gparams g); [|discriminate]. split; auto. unfold proper. destruct (word_gcode_class (ar := binary64) (gword g)) as [c|]; [|discriminate]. apply gclass_eqb_eq in K. congruence.
Qed.
Print Assumptions C34_mode.
Theorem C34_origin : forall (ar : Arith) (axes : axset) (ignore : bool) (lines : list text) (m : machine), new_machine axes ignore lines = Ok m ->
  m_axes m = axes /\ m_ignore m = ignore /\ cur_coord_sys (m_state m) = Some 1 /\ m_min m = m_abs m /\ m_max m = m_abs m /\ good (m_abs m) /\
  (forall a, pos_getattr (m_abs m) a = if vget axes a then Ok (Q2Qc 0) else Raise EAttributeError) /\
  (forall a, pos_getattr (st_offset (m_state m)) a = if vget axes a then Ok (Q2Qc 0) else Raise EAttributeError) /\
  (forall i, 1 <= i <= 9 -> exists p, (exists d, coord_systems (m_state m) = CSDict d /\ dget Z.eqb d i = Some p) /\ forall a, pos_getattr p a = if vget axes a then Ok (Q2Qc 0) else Raise EAttributeError).
Proof.
  intros ar axes ignore lines m. unfold new_machine. destruct (new_mode lines) as [md|]; cbn [bind]; [|discriminate].
  destruct (match gm_get md MG_units with None => _ | Some g => _ end) as [u|]; cbn [bind]; [|discriminate]. intros H. injection H as <-. cbn.
  assert (K : forall u a, pos_getattr (mk_position axes u []) a = if vget axes a then Ok (Q2Qc 0) else Raise EAttributeError).
  { intros v a. unfold pos_getattr, pval, mk_position. cbn [paxes pvals fold_left]. rewrite vget_vfun. destruct (vget axes a); reflexivity. }
  do 5 (split; auto). split; [apply mk_position_good; intros a x []|]. split; [apply K|]. split; [apply K|].
  intros i B. exists (zero_pos axes). split; [|apply K]. eexists. split; [reflexivity|].
  assert (C : i = 1 \/ i = 2 \/ i = 3 \/ i = 4 \/ i = 5 \/ i = 6 \/ i = 7 \/ i = 8 \/ i = 9) by lia. repeat (destruct C as [-> |C]; [reflexivity|]). subst. reflexivity.
Qed.
Print Assumptions C34_origin.
Example C34_ex : exists m, default_machine (ar := binary64) = Ok m /\ mode_text m = t "G00 G17 G90 G91.1 G94 G21 G40 G49 G54 G61 G97 M05 M09 F0 S0 T0".
Proof. apply from_default. vm_compute. reflexivity. Qed.
