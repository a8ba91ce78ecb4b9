(** Property C109: a line sent twice. *)
From Coq Require Import Ascii String List Bool Arith ZArith QArith Qcanon Lia Permutation.
From Verif Require Import Base Num Words GTable GCode Line Position Machine BaseFacts WordOrder WordsSpec LineSpec GCodeSpec GCodeProofs GCodeProofs2 PropsGCode ArithSpec Float64
  PosSpec PosProofs ModeSpec ModeProofs MachSpec MachProofs MachProofs2 MachProofs3 PropsMach PropsMach2 StopSpec StopProofs ScriptsProofs20 PlaceSpec PlaceProofs PropsPlace ResendSpec ResendProofs.
Import ListNotations.

(** ** C109 In absolute mode a line sent twice does what it does once *)
(** partial: no offsets; no bare L in a drilling cycle *)
Theorem C109_resend_partial : forall (ar : Arith) (m m1 : machine) (s : text) (l : line), idempotent ar -> reachable m -> unoffset m -> mk_line s = Ok l ->
  (forall mo, gm_get (m_mode m) MG_motion = Some mo -> no_bare_l mo (bmodal (lblock l))) -> (m_ignore m = true -> gm_get (m_mode m) MG_motion = None -> bmodal (lblock l) = []) ->
  process_str s m = (m1, Ok tt) -> absolute m1 -> exists m2, process_str s m1 = (m2, Ok tt) /\ unchanged m1 m2.
Proof.
  intros ar m m1 s l ID R U L NM NI P A. destruct (reachable_sound m R) as [S I]. destruct (line_bare s l L) as (B & WG & WW). unfold process_str in *. rewrite L in *. unfold process_block, process_gcodes in *.
  destruct (machine_modal_gcode m (bmodal (lblock l))) as [og|e] eqn:O; [|discriminate P].
  assert (NG : og = None -> bmodal (lblock l) = []).
  { intros ->. destruct (bmodal (lblock l)) as [|p ps] eqn:Q; auto. destruct (gm_get (m_mode m) MG_motion) as [mo|] eqn:E.
    - destruct (sound_motion ar m mo S E) as [LG PR]. rewrite (modal_gcode_spec m mo (p :: ps) E LG PR) in O; [destruct (_ && _) in O; discriminate O|apply bare_iff; exact B|discriminate].
    - rewrite modal_gcode_none in O by (auto; discriminate). destruct (m_ignore m); [auto|discriminate O]. }
  set (gs := sort_gcodes (bgcodes (lblock l) ++ match og with Some g => [g] | None => [] end)) in *.
  assert (PL : plain gs).
  { split; [|apply C25_sorted]. eapply Permutation_Forall; [symmetry; apply sort_perm|]. apply Forall_app. split; auto. destruct og as [g|]; constructor; auto. eapply modal_gcode_wf; eauto. }
  destruct (steps_twice ID gs m m1 PL S I U A P) as (m2 & E2 & UN). exists m2. split; auto. replace (machine_modal_gcode m1 (bmodal (lblock l))) with (Ok og); [exact E2|]. symmetry.
  destruct og as [g|]; [|rewrite (NG eq_refl); reflexivity].
  destruct (steps_inv gs m S I (proj1 PL)) as (S1 & _ & _ & (_ & KI & _)). rewrite P in S1, KI. cbn [fst] in *.
  rewrite (modal_gcode_again m m1 _ g (bgcodes (lblock l)) S S1 B O NM KI); [exact O|]. rewrite <- settle_effects. f_equal.
  destruct S as (_ & _ & _ & _ & _ & MW & _). destruct (steps_mode gs m m1 (Ok tt) MW) as (d & r & D & Q & RR); auto; [eapply Forall_impl; [|apply (proj1 PL)]; intros x W; apply W|]. rewrite (RR eq_refl), app_nil_r in D. rewrite Q, <- D. reflexivity.
Qed.
Print Assumptions C109_resend_partial.
(** example: bare words, a move and a feed rate on one line, on a machine as made *)
Lemma new_unoffset {ar : Arith} axes ig lines m : new_machine axes ig lines = Ok m -> unoffset m.
Proof.
  unfold new_machine. destruct (new_mode lines) as [md|]; cbn [bind]; [|discriminate]. destruct (match gm_get md MG_units with None => _ | Some g => _ end) as [u|]; cbn [bind]; [|discriminate]. intros H. injection H as <-. split.
  - intros d i p a D I. cbn [m_state] in D. injection D as <-. cbn [map In] in I. repeat (destruct I as [I|I]; [injection I as _ <-; apply zero_pos_val|]). destruct I.
  - intros a. unfold temp_offset. cbn [m_state st_offset new_state]. apply zero_pos_val.
Qed.
Lemma new_reachable {ar : Arith} axes ig lines m : new_machine axes ig lines = Ok m -> reachable m.
Proof. intros H. exists axes, ig, lines, m, []. split; [exact H|]. split; [constructor|reflexivity]. Qed.
Lemma from_result {A B} (f : A -> B) (r : result A) (y : B) : rmap f r = Ok y -> exists x, r = Ok x /\ f x = y.
Proof. destruct r as [x|e]; cbn [rmap]; [|discriminate]. intros H. injection H as <-. eauto. Qed.
Definition canned_b (g : gcode) : bool := subclass (gcls g) GCodeCannedCycle.
Lemma canned_b_ex gs : existsb canned_b gs = false -> forall g, In g gs -> ~ is_canned g.
Proof. intros E g I C. apply subclass_derives in C. assert (X : existsb canned_b gs = true) by (apply existsb_exists; eauto). congruence. Qed.
Definition motion_b (m : machine) : bool := match gm_get (m_mode m) MG_motion with Some mo => negb (canned_b mo) | None => false end.
Definition ok_b (r : result unit) : bool := match r with Ok _ => true | Raise _ => false end.
Definition seen_at (m : machine) : list text := map (fun a => val_text (pos_getattr (m_abs m) a)) [AX; AY; AZ] ++ range_text m.
Definition sent (s : string) (m : machine) : bool * bool * bool * list text * (bool * list text) :=
  let r1 := process_str (ar := binary64) (t s) m in let r2 := process_str (ar := binary64) (t s) (fst r1) in (motion_b m, ok_b (snd r1), is_incremental (fst r1), seen_at (fst r1), (ok_b (snd r2), seen_at (fst r2))).
Lemma ok_b_ex (x : machine * result unit) : ok_b (snd x) = true -> x = (fst x, Ok tt).
Proof. destruct x as [m [[]|e]]; [reflexivity|discriminate]. Qed.
Definition resend_ex : string := "Y2.5 G1 X0.1 Z-1 F100".
Lemma motion_b_ex m mo : motion_b m = true -> gm_get (m_mode m) MG_motion = Some mo -> ~ is_canned mo.
Proof. unfold motion_b. intros B E. rewrite E in B. intros C. apply subclass_derives in C. unfold canned_b in B. rewrite C in B. discriminate B. Qed.
(** only canned cycles remember parameters *)
Lemma canned_remembers mo : modal_param_letters (gcls mo) <> [] -> is_canned mo.
Proof. unfold is_canned. intros C. apply subclass_derives. destruct (gcls mo); vm_compute; try reflexivity; destruct (C eq_refl). Qed.

Example C109_ex : exists m m1 l, idempotent binary64 /\ reachable (ar := binary64) m /\ unoffset m /\ mk_line (ar := binary64) (t resend_ex) = Ok l /\ length (bmodal (lblock l)) = 1%nat /\ length (bgcodes (lblock l)) = 2%nat /\
  (forall g, In g (bgcodes (lblock l)) -> ~ is_canned g) /\ (exists mo, gm_get (m_mode m) MG_motion = Some mo /\ ~ is_canned mo) /\ process_str (ar := binary64) (t resend_ex) m = (m1, Ok tt) /\ absolute m1 /\
  seen_at m1 = map t ["0.1"; "2.5"; "-1"; "0"; "0"; "-1"; "0.1"; "2.5"; "0"]%string /\ exists m2, process_str (ar := binary64) (t resend_ex) m1 = (m2, Ok tt) /\ unchanged m1 m2.
Proof.
  assert (Q : rmap (sent resend_ex) (default_machine (ar := binary64)) = Ok (true, true, false, map t ["0.1"; "2.5"; "-1"; "0"; "0"; "-1"; "0.1"; "2.5"; "0"]%string, (true, map t ["0.1"; "2.5"; "-1"; "0"; "0"; "-1"; "0.1"; "2.5"; "0"]%string))) by (vm_compute; reflexivity).
  assert (QL : rmap (fun l => (length (bmodal (lblock l)), length (bgcodes (lblock l)), existsb canned_b (bgcodes (lblock l)))) (mk_line (ar := binary64) (t resend_ex)) = Ok (1%nat, 2%nat, false)) by (vm_compute; reflexivity).
  apply from_result in Q as (m & D & Q). apply from_result in QL as (l & L & QL). unfold sent in Q. cbv zeta in Q. apply pair_equal_spec in Q as [Q _]. apply pair_equal_spec in Q as [Q Q4]. apply pair_equal_spec in Q as [Q Q3]. apply pair_equal_spec in Q as [Q1 Q2].
  apply pair_equal_spec in QL as [QL L3]. apply pair_equal_spec in QL as [L1 L2]. apply ok_b_ex in Q2. set (m1 := fst (process_str (ar := binary64) (t resend_ex) m)) in *. unfold default_machine in D.
  assert (R : reachable (ar := binary64) m) by (eapply new_reachable; eauto). assert (U : unoffset m) by (eapply (new_unoffset (ar := binary64)); eauto). assert (A : absolute m1) by (apply absolute_is; exact Q3). pose proof (canned_b_ex _ L3) as NC.
  assert (MO : exists mo, gm_get (m_mode m) MG_motion = Some mo /\ ~ is_canned mo). { destruct (gm_get (m_mode m) MG_motion) as [mo|] eqn:E; [|unfold motion_b in Q1; rewrite E in Q1; discriminate Q1]. exists mo. split; auto. eapply motion_b_ex; eauto. }
  exists m, m1, l. split; [exact binary64_idempotent|]. split; auto. split; auto. split; auto. split; auto. split; auto. split; auto. split; auto. split; auto. split; auto. split; auto.
  destruct MO as (mo & E & N). apply (C109_resend_partial binary64 m m1 (t resend_ex) l binary64_idempotent R U L); auto; [|congruence]. intros mo' E' C. exfalso. assert (EQ : mo' = mo) by congruence. rewrite EQ in C. apply N. clear - C. apply canned_remembers; exact C.
Qed.
(** example: two holes of a drilling cycle in force, from bare words *)
Definition drill_ex : string := "G81 X1 Y1 Z-2 R1".
Definition drilled_ex : string := "G99 Y3 X2.5 R2".
Definition drill_sent (m : machine) : bool * bool * (bool * bool) * (list text * list text) :=
  let m1 := fst (process_str (ar := binary64) (t drill_ex) m) in let r := process_str (ar := binary64) (t drilled_ex) m1 in
  (match gm_get (m_mode m1) MG_motion with Some mo => canned_b mo && forallb (fun k => accepts_modal (gcls mo) k) [LX; LY; LR] | None => false end, is_incremental (fst r), (ok_b (snd r), ok_b (snd (process_str (ar := binary64) (t drilled_ex) (fst r)))),
   (seen_at (fst r), seen_at (fst (process_str (ar := binary64) (t drilled_ex) (fst r))))).
Definition drill_at : list text := map t ["2.5"; "3"; "2"; "0"; "0"; "0"; "2.5"; "3"; "2"]%string.
Lemma act_reachable {ar : Arith} m s l : reachable m -> mk_line s = Ok l -> reachable (fst (process_str s m)).
Proof.
  intros (axes & ig & lines & m0 & h & N & F & ->) L. destruct (line_bare s l L) as (_ & WG & WW). exists axes, ig, lines, m0, (h ++ [Process (bgcodes (lblock l)) (bmodal (lblock l))]). split; [exact N|]. split; [apply Forall_app; split; [exact F|constructor; [split; assumption|constructor]]|].
  unfold history. rewrite fold_left_app. cbn [fold_left]. unfold process_str. rewrite L. reflexivity.
Qed.
Lemma str_unoffset {ar : Arith} m s l : reachable m -> unoffset m -> mk_line s = Ok l -> unoffset (fst (process_str s m)).
Proof.
  intros R U L. destruct (reachable_sound m R) as [S I]. destruct (line_bare s l L) as (_ & WG & WW). eapply unoffset_keeps; [exact U|]. unfold process_str. rewrite L. apply process_gcodes_inv; auto.
Qed.
Example C109_canned_ex : exists m m1 l mo, reachable (ar := binary64) m /\ unoffset m /\ mk_line (ar := binary64) (t drilled_ex) = Ok l /\ length (bmodal (lblock l)) = 3%nat /\ gm_get (m_mode m) MG_motion = Some mo /\ is_canned mo /\ modal_param_letters (gcls mo) <> [] /\ no_bare_l mo (bmodal (lblock l)) /\
  process_str (ar := binary64) (t drilled_ex) m = (m1, Ok tt) /\ absolute m1 /\ seen_at m1 = drill_at /\ exists m2, process_str (ar := binary64) (t drilled_ex) m1 = (m2, Ok tt) /\ unchanged m1 m2.
Proof.
  assert (Q : rmap drill_sent (default_machine (ar := binary64)) = Ok (true, false, (true, true), (drill_at, drill_at))) by (vm_compute; reflexivity).
  assert (Q0 : rmap (fun _ => tt) (mk_line (ar := binary64) (t drill_ex)) = Ok tt) by (vm_compute; reflexivity).
  assert (QL : rmap (fun l => (length (bmodal (lblock l)), map wletter (bmodal (lblock l)))) (mk_line (ar := binary64) (t drilled_ex)) = Ok (3%nat, [LY; LX; LR])) by (vm_compute; reflexivity).
  apply from_result in Q as (m0 & D & Q). apply from_result in Q0 as (l0 & L0 & _). apply from_result in QL as (l & L & QL). unfold drill_sent in Q. cbv zeta in Q. apply pair_equal_spec in Q as [Q Q4]. apply pair_equal_spec in Q4 as [Q4 _]. apply pair_equal_spec in Q as [Q Q3]. apply pair_equal_spec in Q3 as [Q3 _]. apply pair_equal_spec in Q as [Q1 Q2]. apply pair_equal_spec in QL as [L1 L2]. apply ok_b_ex in Q3. unfold default_machine in D.
  assert (R0 : reachable (ar := binary64) m0) by (eapply new_reachable; eauto). assert (U0 : unoffset m0) by (eapply (new_unoffset (ar := binary64)); eauto).
  pose proof (act_reachable m0 _ l0 R0 L0) as R. pose proof (str_unoffset m0 _ l0 R0 U0 L0) as U. set (m := fst (process_str (ar := binary64) (t drill_ex) m0)) in *. set (m1 := fst (process_str (ar := binary64) (t drilled_ex) m)) in *.
  destruct (gm_get (m_mode m) MG_motion) as [mo|] eqn:E; [|discriminate Q1]. apply andb_true_iff in Q1 as [C AC]. assert (RM : no_bare_l mo (bmodal (lblock l))).
  { intros _ w I Q. apply (in_map wletter) in I. rewrite L2, Q in I. cbn [In] in I. repeat (destruct I as [I|I]; [discriminate I|]). exact I. }
  assert (A : absolute m1) by (apply absolute_is; exact Q2). exists m, m1, l, mo. split; auto. split; auto. split; auto. split; auto. split; auto. split; [apply subclass_derives; exact C|]. split; [intros Q; cbn [forallb] in AC; unfold accepts_modal in AC; rewrite Q in AC; discriminate AC|]. split; auto. split; auto. split; auto. split; auto.
  apply (C109_resend_partial binary64 m m1 (t drilled_ex) l binary64_idempotent R U L); auto; [|congruence]. intros mo' E'. assert (Q : mo' = mo) by congruence. rewrite Q. exact RM.
Qed.
(** in G91 it moves twice *)
Lemma seen_unchanged m m' : unchanged m m' -> m_axes m = xyz -> seen_at m' = seen_at m.
Proof.
  intros (_ & _ & _ & _ & _ & H) X. rewrite X in H. unfold seen_at, range_text. cbn [map app].
  destruct (H AX eq_refl) as ((x1 & A1 & A2) & (x2 & A3 & A4) & (x3 & A5 & A6)). destruct (H AY eq_refl) as ((y1 & B1 & B2) & (y2 & B3 & B4) & (y3 & B5 & B6)). destruct (H AZ eq_refl) as ((z1 & C1 & C2) & (z2 & C3 & C4) & (z3 & C5 & C6)).
  rewrite A1, A2, A3, A4, A5, A6, B1, B2, B3, B4, B5, B6, C1, C2, C3, C4, C5, C6. reflexivity.
Qed.
Theorem C109_incremental_refuted : exists m m1 m2 s l, reachable (ar := binary64) m /\ unoffset m /\ mk_line (ar := binary64) s = Ok l /\ bmodal (lblock l) = [] /\ (forall g, In g (bgcodes (lblock l)) -> ~ is_canned g) /\
  process_str (ar := binary64) s m = (m1, Ok tt) /\ process_str (ar := binary64) s m1 = (m2, Ok tt) /\ incremental m1 /\ ~ unchanged m1 m2.
Proof.
  assert (Q : rmap (sent "G91 G1 X1") (default_machine (ar := binary64)) = Ok (true, true, true, map t ["1"; "0"; "0"; "0"; "0"; "0"; "1"; "0"; "0"]%string, (true, map t ["2"; "0"; "0"; "0"; "0"; "0"; "2"; "0"; "0"]%string))) by (vm_compute; reflexivity).
  assert (QL : rmap (fun l => (length (bmodal (lblock l)), existsb canned_b (bgcodes (lblock l)))) (mk_line (ar := binary64) (t "G91 G1 X1")) = Ok (0%nat, false)) by (vm_compute; reflexivity).
  apply from_result in Q as (m & D & Q). apply from_result in QL as (l & L & QL). unfold sent in Q. cbv zeta in Q. apply pair_equal_spec in Q as [Q Q5]. apply pair_equal_spec in Q5 as [Q5 Q6]. apply pair_equal_spec in Q as [Q Q4]. apply pair_equal_spec in Q as [Q Q3]. apply pair_equal_spec in Q as [Q1 Q2].
  apply pair_equal_spec in QL as [L1 L2]. apply ok_b_ex in Q2, Q5. unfold default_machine in D. destruct (new_machine_sound (ar := binary64) _ _ _ _ D) as (S & I & _ & X & _).
  set (m1 := fst (process_str (ar := binary64) (t "G91 G1 X1") m)) in *. exists m, m1, (fst (process_str (ar := binary64) (t "G91 G1 X1") m1)), (t "G91 G1 X1"), l. split; [eapply new_reachable; eauto|]. split; [eapply (new_unoffset (ar := binary64)); eauto|]. split; [exact L|]. split; [destruct (bmodal (lblock l)); [auto|discriminate L1]|]. split; [apply canned_b_ex; auto|]. split; [exact Q2|]. split; [exact Q5|]. split; [apply incremental_is; exact Q3|].
  intros UN. apply seen_unchanged in UN; [rewrite Q4, Q6 in UN; vm_compute in UN; discriminate UN|].
  destruct (line_bare (t "G91 G1 X1") l L) as (_ & WG & WW). unfold process_str in Q2. rewrite L in Q2. destruct (process_gcodes_inv (ar := binary64) (bgcodes (lblock l)) (bmodal (lblock l)) m S I WG WW) as (_ & _ & _ & (K & _)). unfold process_block in Q2. rewrite Q2 in K. cbn [fst] in K. congruence.
Qed.
Print Assumptions C109_incremental_refuted.
(** nor when bare words are ignored for want of a motion mode and the line itself sets one: the second time they count *)
Theorem C109_ignored_refuted : exists m m1 m2 s l, reachable (ar := binary64) m /\ unoffset m /\ mk_line (ar := binary64) s = Ok l /\ (forall g, In g (bgcodes (lblock l)) -> ~ is_canned g) /\ m_ignore m = true /\ gm_get (m_mode m) MG_motion = None /\
  process_str (ar := binary64) s m = (m1, Ok tt) /\ process_str (ar := binary64) s m1 = (m2, Ok tt) /\ absolute m1 /\ ~ unchanged m1 m2.
Proof.
  assert (Q : rmap (sent "Y2 G1 X1") (new_machine (ar := binary64) xyz true []) = Ok (false, true, false, map t ["1"; "0"; "0"; "0"; "0"; "0"; "1"; "0"; "0"]%string, (true, map t ["1"; "2"; "0"; "0"; "0"; "0"; "1"; "2"; "0"]%string))) by (vm_compute; reflexivity).
  assert (QM : rmap (fun m => match gm_get (m_mode m) MG_motion with None => true | _ => false end) (new_machine (ar := binary64) xyz true []) = Ok true) by (vm_compute; reflexivity).
  assert (QL : rmap (fun l => existsb canned_b (bgcodes (lblock l))) (mk_line (ar := binary64) (t "Y2 G1 X1")) = Ok false) by (vm_compute; reflexivity).
  apply from_result in Q as (m & D & Q). apply from_result in QM as (m' & D' & QM). rewrite D in D'. injection D' as <-. apply from_result in QL as (l & L & QL). unfold sent in Q. cbv zeta in Q. apply pair_equal_spec in Q as [Q Q5]. apply pair_equal_spec in Q5 as [Q5 Q6]. apply pair_equal_spec in Q as [Q Q4]. apply pair_equal_spec in Q as [Q Q3]. apply pair_equal_spec in Q as [Q1 Q2].
  apply ok_b_ex in Q2, Q5. destruct (new_machine_sound (ar := binary64) _ _ _ _ D) as (S & I & _ & X & IG & _).
  set (m1 := fst (process_str (ar := binary64) (t "Y2 G1 X1") m)) in *. exists m, m1, (fst (process_str (ar := binary64) (t "Y2 G1 X1") m1)), (t "Y2 G1 X1"), l. split; [eapply new_reachable; eauto|]. split; [eapply (new_unoffset (ar := binary64)); eauto|]. split; [exact L|]. split; [apply canned_b_ex; auto|]. split; [exact IG|]. split; [destruct (gm_get (m_mode m) MG_motion); [discriminate QM|auto]|]. split; [exact Q2|]. split; [exact Q5|]. split; [apply absolute_is; exact Q3|].
  intros UN. apply seen_unchanged in UN; [rewrite Q4, Q6 in UN; vm_compute in UN; discriminate UN|].
  destruct (line_bare (t "Y2 G1 X1") l L) as (_ & WG & WW). unfold process_str in Q2. rewrite L in Q2. destruct (process_gcodes_inv (ar := binary64) (bgcodes (lblock l)) (bmodal (lblock l)) m S I WG WW) as (_ & _ & _ & (K & _)). unfold process_block in Q2. rewrite Q2 in K. cbn [fst] in K. congruence.
Qed.
Print Assumptions C109_ignored_refuted.
