(** The moves that --canned_expand prints for a drilling cycle lead where the cycle leads. *)
From Coq Require Import Ascii String List Bool Arith ZArith QArith Qcanon Permutation Lia.
From Verif Require Import Base Num Words GTable GCode Line Position Machine Transform BaseFacts WordOrder ArithSpec WordsSpec LineSpec PrintSpec PrintProofs GCodeSpec GCodeProofs GCodeProofs2 PropsGCode BlockSpec BlockProofs Float64 PosSpec PosProofs ModeSpec ModeProofs MachSpec MachProofs MachProofs2 MachProofs3 PropsMach CannedProofs PropsMach2 SimSpec TransSpec TransProofs TransProofs2 ReadBackProofs PropsTrans
  DrillSpec DrillProofs DrillProofs2 DrillProofs3 DrillProofs4 PropsDrill Scripts ScriptsSpec ScriptsSpec2 ScriptsSpec3 ScriptsSpec5 ScriptsSpec6 ScriptsProofs ScriptsProofs4 ScriptsProofs8 ScriptsProofs12.
Import ListNotations.
Local Open Scope nat_scope.
Local Existing Instance exact_arith.

Definition in_form (h : gcode) : Prop := straight h /\ gparams h <> [] /\ gcode_wf h /\ gwhite h = false.
Lemma words2gcodes_white ws gs r : words2gcodes ws = Ok (gs, r) -> Forall (fun g => gwhite g = false) gs.
Proof. intros W. apply words2gcodes_iff in W as (gs' & G & U & ->). apply Forall_forall. intros g I. apply in_map_iff in I as (gr & <- & _). reflexivity. Qed.
Lemma rel_white g p q x : relative_move g p q = Ok (Some x) -> gwhite x = false.
Proof.
  unfold relative_move. destruct (pos_sub q p) as [d|]; cbn [bind]; [|discriminate]. destruct (filter _ (pos_words d)) as [|w l]; [discriminate|]. destruct (words2gcodes _) as [[gs r]|] eqn:W; cbn [bind]; [|discriminate]. apply words2gcodes_white in W.
  destruct (rev gs) as [|y k] eqn:R; [discriminate|]. intros E. injection E as <-. rewrite Forall_forall in W. apply W. apply in_rev. rewrite R. left. auto.
Qed.
Lemma loop_form gs : Forall plain_move gs -> forall m v r out, ready m -> absolute m -> place m v -> abs2rel_loop m gs (Ok tt) = (out, r) -> Forall in_form out.
Proof.
  induction 1 as [|g gs [W T] F IH]; intros m v r out R A P E; cbn [abs2rel_loop] in E; [injection E as <- _; constructor|].
  rewrite process_one in E. pose proof P as (p & EP & V). rewrite EP in E. pose proof (straight_move g T) as M. destruct (step_abs g m v R A P W M) as (m' & EM & R' & A' & X' & P'). rewrite EM in E. pose proof P' as (q & EQ & V'). rewrite EQ in E.
  pose proof (move_group g M) as G. unfold in_group in G. rewrite G in E. rewrite (proj1 (straight_iff g) T) in E.
  destruct (machine_pos_spec m (proj1 R)) as (p0 & Ep & Gp & Ap & _). rewrite EP in Ep. injection Ep as <-. destruct (machine_pos_spec m' (proj1 R')) as (q0 & Eq & Gq & Aq & _). rewrite EQ in Eq. injection Eq as <-.
  destruct (v9_dec (moved_abs g v) v) as [Q|Q].
  - rewrite (relative_none g p q) in E by (auto; congruence). eapply IH; eauto.
  - destruct (relative_some g p q W T Gp Gq) as (x & Ex & Wx & Cx & Dx & Mx & RM); try congruence. rewrite Ex in E. unfold gen_cons in E. destruct (abs2rel_loop m' gs (Ok tt)) as [o1 r1] eqn:L. injection E as <- _. constructor; [|eapply IH; eauto].
    split; [unfold straight in *; rewrite Cx; auto|]. split; [|split; [auto|eapply rel_white; eauto]]. destruct RM as [(a & y & w & I & _) _]. intros Z. rewrite Z in I. destruct I.
Qed.
Lemma rel_form start c gs out r : good start -> known_unit (punit start) -> Forall plain_move gs -> Forall in_form gs -> gcodes_abs2rel start (Some c) (paxes start) (gs, Ok tt) = (out, r) -> Forall in_form out.
Proof.
  intros G U F IF. unfold gcodes_abs2rel. destruct (subclass c GCodeIncrementalDistanceMode); [|intros E; injection E as <- _; auto].
  destruct (absolute_machine_ok (paxes start)) as (m0 & E0 & A0). rewrite E0. destruct (new_machine_sound (paxes start) false [t "G90"] m0 E0) as (S0 & I0 & _ & X0 & _).
  destruct (C42_assign m0 start S0 G (eq_sym X0) U) as (m & E & PM). rewrite E. cbn [fst snd].
  destruct (set_pos_spec start m0 S0 G (eq_sym X0) U) as (m' & E' & Fr & S & _ & _ & I & _). rewrite E in E'. injection E' as <-. pose proof Fr as (F1 & F2 & F3 & _).
  assert (Y : in_sync m) by (apply (frame_sync m0 m Fr); intros x X; rewrite (proj1 A0) in X; discriminate X).
  assert (R : ready m) by (split; auto). assert (A : absolute m) by (unfold absolute; rewrite F1; exact (proj2 A0)). assert (P : place m (pvals start)) by (exists start; auto).
  apply (loop_form gs F m (pvals start)); auto.
Qed.
Lemma rz_form z : in_form (rz z). Proof. split; [left; apply der_self|]. split; [discriminate|]. split; [apply rz_wf|reflexivity]. Qed.
Lemma lz_form z : in_form (lz z). Proof. split; [right; apply der_self|]. split; [discriminate|]. split; [apply lz_wf|reflexivity]. Qed.
Lemma rxy_form x y : in_form (rxy x y). Proof. split; [left; apply der_self|]. split; [discriminate|]. split; [apply rxy_wf|reflexivity]. Qed.
Lemma if_form (b : bool) z : Forall in_form (if b then [rz z] else []). Proof. destruct b; constructor; auto using rz_form. Qed.
Lemma bores_form chip r d delta c gs : bores chip r d delta c gs -> Forall in_form gs.
Proof. induction 1; repeat (apply Forall_app; split); auto using if_form; repeat (apply Forall_cons; [apply lz_form || apply rz_form|]); auto. Qed.
Lemma drilled_form chip r d delta z0 sz X Y i n gs : drilled chip r d delta z0 sz X Y i n gs -> Forall in_form gs.
Proof.
  induction 1 as [i|i n bs gs B H IH]; [constructor|]. apply Forall_app. split; [apply if_form|]. constructor; [apply rxy_form|]. apply Forall_app. split; [apply if_form|]. apply Forall_app. split; [eapply bores_form; eauto|]. constructor; auto using rz_form.
Qed.
(** ** machines in the same place *)
Lemma same_abs m1 m2 v : sound m1 -> sound m2 -> m_state m1 = m_state m2 -> m_axes m1 = m_axes m2 -> punit (m_abs m1) = punit (m_abs m2) -> place m1 v -> place m2 v -> m_abs m1 = m_abs m2.
Proof.
  intros S1 S2 ST AX U P1 P2. pose proof S1 as ((G1 & A1 & _) & _). pose proof S2 as ((G2 & A2 & _) & _). apply pos_ext; auto; [congruence|]. intros a Ha.
  assert (H2 : has (m_abs m2) a) by (unfold has in *; rewrite A2, <- AX, <- A1; auto). pose proof Ha as Ha'. apply (place_has m1 v a S1 P1) in Ha' as [x V].
  assert (B1 := proj2 (place_at m1 v S1 P1 a x) V). assert (B2 := proj2 (place_at m2 v S2 P2 a x) V). apply pos_at_iff in B1 as [_ B1]; auto. apply pos_at_iff in B2 as [_ B2]; auto.
  rewrite B1 in B2. unfold wpos_of, system_offset, temp_offset in B2. rewrite ST in B2. unfold fsub in B2. cbn [rnd exact_arith] in B2.
  match type of B2 with (?x - ?p - ?q = ?y - _ - _)%Qc => replace x with (x - p - q + (p + q))%Qc by ring; rewrite B2; ring end.
Qed.
(** a motion command changes no mode but that of motion, and not the frame of reference *)
Lemma motion_only g m m1 : ready m -> gcode_wf g -> moving g = true -> gcode_process g m = (m1, Ok tt) ->
  (forall mg, mg <> MG_motion -> gm_get (m_mode m1) mg = gm_get (m_mode m) mg) /\ m_state m1 = m_state m /\ keeps m m1 /\ ready m1.
Proof.
  intros R W M E. pose proof R as (S & I & Y). assert (G : modal_group (gcls g) = Some MG_motion) by (unfold moving in M; destruct (modal_group (gcls g)) as [[]|]; congruence).
  assert (K : process_kind (gcls g) <> PCancelMotion) by (intros K; apply cancel_class in K; rewrite K in G; discriminate).
  destruct (process_keeps g m S I W) as [IV KP]. pose proof (gcode_process_mode g m (proj1 (proj2 (proj2 (proj2 (proj2 (proj2 S)))))) (proj1 W)) as MD. rewrite E in IV, KP, MD. cbn [fst] in *. split; [|split; [|split; auto]].
  - intros mg N. rewrite MD. unfold mode_effect. destruct (process_kind (gcls g)); try contradiction; unfold set_effect; rewrite G; apply gm_get_set_other; congruence.
  - assert (NC : ~ in_group MG_coordinate_system g) by (unfold in_group; rewrite G; discriminate). rewrite <- (set_for_sync m g Y NC).
    destruct (process_cases g m S W) as [(e & E')|(cs & n & m' & E' & _ & [(_ & F & _)|(Z & _)])]; [congruence| |contradiction]. rewrite E in E'. injection E' as <-. apply F.
Qed.
Lemma straight_moving g : straight g -> moving g = true.
Proof. intros T. pose proof (move_group g (straight_move g T)) as G. unfold in_group in G. unfold moving. rewrite G. auto. Qed.
Lemma moves_only gs : Forall in_form gs -> forall m vs m2, ready m -> visits m gs vs m2 -> exists ms, passes m gs ms /\ last ms m = m2 /\
  (forall mg, mg <> MG_motion -> gm_get (m_mode m2) mg = gm_get (m_mode m) mg) /\ m_state m2 = m_state m /\ keeps m m2 /\ ready m2.
Proof.
  induction 1 as [|g gs (T & _ & W & _) F IH]; intros m vs m2 R V; inversion V; subst.
  - exists []. split; [constructor|]. split; auto. split; auto. split; auto. split; auto using keeps_refl.
  - match goal with H : gcode_process g m = _ |- _ => rename H into E end. destruct (motion_only g m m1 R W (straight_moving g T) E) as (M1 & T1 & K1 & R1). destruct (IH m1 vs0 m2 R1) as (ms & P & L & M2 & T2 & K2 & R2); auto.
    exists (m1 :: ms). split; [econstructor; eauto|]. split; [rewrite last_cons; auto|]. split; [intros mg N; rewrite M2, M1; auto|]. split; [congruence|]. split; [eapply keeps_trans; eauto|auto].
Qed.
Lemma cycle_stands fuel m g moves r : ready m -> gcode_wf g -> drillable m g -> (forall p, machine_pos m = Ok p ->
    simplify_canned_cycle fuel g p (mode_class m MG_plane_selection) (mode_class m MG_distance) None (m_axes m) = Some (moves, r)) ->
  r = Ok tt /\ Forall in_form moves /\ (Forall (fun h => Forall readable (gword h :: map snd (gparams h))) moves -> stands_for m g moves moves).
Proof.
  intros R W (C & CO & (n & AS & NP) & NA & NM & NR & p & j & EP & KN & DI & DR) E. specialize (E p EP). pose proof R as (SD & IN & SY).
  destruct (machine_pos_spec m SD) as (p0 & EP' & GS & AX & PU & _). rewrite EP in EP'. injection EP' as <-. pose proof SD as ((_ & _ & U) & _).
  assert (PL : xy_plane (mode_class m MG_plane_selection)). { destruct NM as (pl & EQ & I). right. exists (gcls pl). unfold mode_class. rewrite EQ. split; auto. cbn in I. destruct I as [I|[I|[I|[]]]]; try discriminate I; injection I as <-; constructor. }
  assert (P : place m (pvals p)) by (exists p; auto). destruct (start_height p GS KN) as [z0 HZ].
  assert (MF : mode_fits m (mode_class m MG_distance)).
  { destruct DI as [(A & _)|(I & _)]; [left|right]; split; auto.
    - intros d D. unfold mode_class in A. rewrite D in A. cbn in A. destruct A as [A|(q & Q & A)]; [discriminate|]. injection Q as <-. intros X. apply (modes_apart (Some (gcls d))); [right; eauto|exists (gcls d); auto].
    - destruct I as (q & Q & D). unfold mode_class in Q. destruct (gm_get (m_mode m) MG_distance) as [d|] eqn:X; [|discriminate]. injection Q as <-. exists d. auto. }
  assert (EH : end_height None (pvals p) j z0) by (right; split; [left; auto|auto]). rewrite <- AX in E. assert (KU : known_unit (punit p)) by (rewrite PU; auto).
  assert (RF : return_fits m None) by (right; split; [left; auto|auto]). assert (N1 : inc_mode (mode_class m MG_distance) -> to_r_mode None -> n = 1) by (intros _ (q & Q & _); discriminate).
  destruct (C58_ends_partial fuel g p _ _ None j n z0 _ m W C CO AS NP NA N1 PL DI GS KU KN EH DR R (eq_sym AX) P MF RF NM E) as (out & vs & m1 & m2 & v & EG & E1 & P1 & V & P2). injection EG as <- ->. split; auto.
  destruct (expand_exact fuel g p _ _ None j n z0 z0 _ m W C CO AS PL DI HZ GS KU KN EH DR R (eq_sym AX) P MF E) as (gs & out & vs' & l & m' & EG & D & _ & _ & _ & _ & AR & _). injection EG as <-.
  pose proof (drilled_form _ _ _ _ _ _ _ _ _ _ _ D) as IFS. assert (IF : Forall in_form moves). { eapply rel_form; [exact GS|exact KU|eapply drilled_plain; exact D|exact IFS|exact AR]. } split; auto. intros RD.
  destruct (moves_only moves IF m vs m2 R V) as (ms & PS & L & M2 & T2 & K2 & R2). destruct (motion_only g m m1 R W (canned_motion g C) E1) as (M1 & T1 & K1 & R1). split.
  - apply Forall_forall. intros h I. rewrite Forall_forall in IF. destruct (IF h I) as (A1 & A2 & A3 & A4). auto.
  - split; [clear - RD; induction RD; constructor; auto; apply read_refl; auto|].
    exists m1, ms. split; auto. split; auto. rewrite L. destruct K1 as (K11 & K12 & _ & _ & K13), K2 as (K21 & K22 & _ & _ & K23). split; [intros mg N; rewrite M1, M2; auto|]. split; [congruence|]. split; [|split; congruence].
    apply (same_abs m1 m2 v); auto; try congruence; [apply R1|apply R2].
Qed.
Lemma modal_wf s l m gs : mk_line s = Ok l -> sound m -> block_modal_gcodes m (lblock l) = Ok gs -> Forall gcode_wf gs.
Proof.
  intros L S. destruct (mk_line_block _ _ L) as (bs & MB). destruct (mk_block_wf _ _ _ MB) as [F W]. unfold block_modal_gcodes. destruct (machine_modal_gcode m (bmodal (lblock l))) as [og|] eqn:E; cbn [bind]; [|discriminate]. intros Q. injection Q as <-.
  apply sort_wf. apply Forall_app. split; auto. destruct og as [g|]; constructor; auto. eapply modal_gcode_wf; eauto.
Qed.
Lemma passes_ready gs : Forall gcode_wf gs -> forall m ms, ready m -> passes m gs ms -> ready (last ms m).
Proof.
  intros F m ms (S & I & Y) P. apply passes_end in P. destruct (steps_inv gs m S I F) as (A & B & C & _). rewrite P in A, B, C. cbn [fst] in *. split; auto.
Qed.
Lemma tractable_cycles o fuel s l m : mk_line s = Ok l -> ready m -> expandable o fuel m l -> tractable o fuel m l.
Proof.
  intros L R (gs & B & [H|(a & g & b & ms & E & SW & FI & MA & PA & DR & X)]); exists gs; split; auto. right. destruct R as (S & I & Y). pose proof (modal_wf s l m gs L S B) as W. rewrite E in W. apply Forall_app in W as [Wa W]. inversion W as [|? ? Wg Wb]; subst.
  pose proof (passes_ready a Wa m ms (conj S (conj I Y)) PA) as RD. destruct (machine_pos_spec (last ms m) (proj1 RD)) as (p & EP & _). destruct (X p EP) as (moves & r & SI & RM).
  assert (SI' : forall q, machine_pos (last ms m) = Ok q -> simplify_canned_cycle fuel g q (mode_class (last ms m) MG_plane_selection) (mode_class (last ms m) MG_distance) None (m_axes (last ms m)) = Some (moves, r)) by (intros q Q; rewrite EP in Q; injection Q as <-; exact SI).
  destruct (cycle_stands fuel (last ms m) g moves r RD Wg DR SI') as (-> & _ & ST). exists a, g, b, moves, moves, ms. split; auto. split; auto. split; auto. split; auto. split; auto. split; [|apply ST; auto].
  right. split; [apply DR|]. exists p. auto.
Qed.
Lemma tractable_reading o fuel file : forall m tr, ready m -> reading m file tr -> Forall (fun x => expandable o fuel (fst x) (snd x)) (from_states m tr) -> Forall (fun x => tractable o fuel (fst x) (snd x)) (from_states m tr).
Proof.
  induction file as [|s r IH]; intros m tr R RD F; [apply reading_empty in RD; subst; constructor|]. apply reading_step in RD as (l & m1 & tr1 & L & P & RD & <-). cbn [from_states] in *. inversion F as [|? ? F1 F2]; subst. cbn [fst snd] in F1.
  constructor; [apply (tractable_cycles o fuel s l m); auto|]. apply IH; auto. destruct R as (S & I & Y). destruct (mk_line_block _ _ L) as (bs & MB). destruct (mk_block_wf _ _ _ MB) as [F0 W]. destruct (process_gcodes_inv (bgcodes (lblock l)) (bmodal (lblock l)) m S I F0 W) as (A & B & C & _). unfold process_block in P. rewrite P in A, B, C. split; auto.
Qed.
