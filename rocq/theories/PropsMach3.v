(** Properties C50-C53: G80, copying machines, units, offset codes. *)
From Coq Require Import Ascii String List Bool Arith ZArith QArith Qcanon Permutation Sorting.Sorted Lia.
From Verif Require Import Base Num Words GTable GCode Line Position Machine BaseFacts WordOrder WordsSpec GCodeSpec GCodeProofs GCodeProofs2 PropsGCode ArithSpec Float64 PosSpec PosProofs PropsPos ModeSpec ModeProofs PropsMode MachSpec MachProofs MachProofs2 MachProofs3 PropsMach PropsMach2.
Import ListNotations.
Open Scope Z_scope.

Lemma sound_mode (ar : Arith) m : sound m -> mode_wf (m_mode m). Proof. intros (_ & _ & _ & _ & _ & W & _). auto. Qed.
Lemma processed_mode (ar : Arith) gs m m' : sound m -> Forall gcode_wf gs -> process_gcodes gs [] m = (m', Ok tt) -> m_mode m' = fold_left mode_effect (sort_gcodes gs) (m_mode m).
Proof.
  intros S W P. destruct (process_gcodes_mode gs [] m m' (Ok tt) (sound_mode ar m S) (Forall_impl _ (fun g X => proj1 X) W) P) as [(_ & e & X)|(og & dn & rest & X & E & M & R)]; [discriminate|].
  cbn [machine_modal_gcode] in X. injection X as <-. rewrite (R eq_refl), app_nil_r in E. unfold with_modal in E. rewrite app_nil_r in E. congruence.
Qed.
(** ** C50 *)
Theorem C50_cancelled : forall (ar : Arith) (m m' : machine) (gs : list gcode) (g : gcode), sound m -> inside m -> Forall gcode_wf gs ->
  In g gs -> is_g80 g -> (forall x, In x gs -> ~ in_group MG_motion x) -> process_gcodes gs [] m = (m', Ok tt) ->
  gm_get (m_mode m') MG_motion = None /\
  forall ps hs, m_ignore m = false -> ps <> [] -> words2gcodes ps = Ok ([], ps) -> process_gcodes hs ps m' = (m', Raise EMachineInvalidState).
Proof.
  intros ar m m' gs g S I W G Z N P. assert (X : gm_get (m_mode m') MG_motion = None).
  { rewrite (processed_mode ar gs m m' S W P). assert (G' : In g (sort_gcodes gs)) by (eapply Permutation_in; [symmetry; apply sort_perm|auto]). assert (N' : forall x, In x (sort_gcodes gs) -> ~ in_group MG_motion x) by (intros x X; apply N; eapply Permutation_in; [apply sort_perm|exact X]).
    clear - G' N' Z. revert G' N'. generalize (sort_gcodes gs) as l. generalize (m_mode m) as md.
    assert (Q : forall l md, (forall x, In x l -> ~ in_group MG_motion x) -> gm_get md MG_motion = None -> gm_get (fold_left mode_effect l md) MG_motion = None).
    { induction l as [|x l IH]; intros md N E; cbn [fold_left]; auto. apply IH; [intros; apply N; right; auto|]. destruct (derives_dec x) as [D|D]; [apply effect_g80; auto|]. rewrite effect_other; auto. intros [T|[_ T]]; [apply (N x); [left; auto|auto]|auto]. }
    intros md l. revert md. induction l as [|x l IH]; intros md G N; [destruct G|]. cbn [fold_left]. destruct G as [->|G]; [apply Q; [intros; apply N; right; auto|apply effect_g80; auto]|]. apply IH; auto. intros; apply N; right; auto. }
  split; auto. intros ps hs IG NE B. destruct (process_gcodes_inv gs [] m S I W (Forall_nil _)) as (S' & _ & _ & (_ & K & _)). rewrite P in *. cbn [fst] in *. apply (C47_refused ar m' hs ps S'); auto; [congruence|]. destruct ps as [|p ps]; [contradiction|]. exists p. split; [left; auto|]. intros (mo & E & _). congruence.
Qed.
Print Assumptions C50_cancelled.
Theorem C50_replaced : forall (ar : Arith) (m m' : machine) (gs : list gcode) (g : gcode) (a b : list gcode), sound m -> Forall gcode_wf gs ->
  gs = a ++ g :: b -> in_group MG_motion g -> (forall x, In x (a ++ b) -> ~ in_group MG_motion x) -> process_gcodes gs [] m = (m', Ok tt) ->
  exists mo, gm_get (m_mode m') MG_motion = Some mo /\ gcls mo = gcls g /\ gword mo = gword g.
Proof.
  intros ar m m' gs g a b S W -> G N P. rewrite (processed_mode ar _ m m' S W P). exists (modal_of g). split; [|split; reflexivity].
  assert (O : forall x, In x (a ++ b) -> is_g80 x -> exec_order (gcls x) < exec_order (gcls g)).
  { intros x _ Z. apply g80_class in Z. rewrite Z. revert G. unfold in_group. generalize (gcls g) as c. clear. intros c. destruct c; vm_compute; intros; try discriminate; reflexivity. }
  assert (PM : Permutation (sort_gcodes (a ++ g :: b)) (g :: a ++ b)) by (etransitivity; [apply sort_perm|symmetry; apply Permutation_middle]).
  pose proof (sort_sorted _ gorder (a ++ g :: b)) as SS. change (sort gorder (a ++ g :: b)) with (sort_gcodes (a ++ g :: b)) in SS.
  assert (IG : In g (sort_gcodes (a ++ g :: b))) by (eapply Permutation_in; [symmetry; exact PM|left; auto]). apply in_split in IG as (l1 & l2 & E). rewrite E in *. rewrite fold_left_app. cbn [fold_left].
  assert (P2 : Permutation (l1 ++ l2) (a ++ b)) by (apply (Permutation_app_inv l1 l2 [] (a ++ b) g); exact PM).
  rewrite effects_other; [apply effect_in; auto|]. apply Forall_forall. intros x X [T|[_ T]].
  - apply (N x); auto. eapply Permutation_in; [exact P2|]. apply in_or_app. auto.
  - assert (L : exec_order (gcls x) < exec_order (gcls g)) by (apply O; auto; eapply Permutation_in; [exact P2|]; apply in_or_app; auto).
    assert (L' : exec_order (gcls g) <= exec_order (gcls x)); [|lia]. clear - SS X. induction l1 as [|y l1 IH]; cbn [app] in SS; inversion SS; subst; auto. rewrite Forall_forall in H2. apply (H2 x X).
Qed.
Print Assumptions C50_replaced.
Example C50_ex : exists m, default_machine (ar := binary64) = Ok m /\ (mode_text (history (ar := binary64) [act_text "G80 M3"] m), mode_text (history (ar := binary64) [act_text "G1 X1 G80"] m)) =
  (t "G17 G90 G91.1 G94 G21 G40 G49 G54 G61 G97 M03 M09 F0 S0 T0", t "G01 G17 G90 G91.1 G94 G21 G40 G49 G54 G61 G97 M05 M09 F0 S0 T0").
Proof. apply from_default. vm_compute. reflexivity. Qed.

(** ** C51 *)
(** missing: the coordinate offsets and the selected system are lost (C51_refuted) *)
Theorem C51_copy_partial : forall (ar : Arith) (m : machine), sound m ->
  let c := machine_copy m in
  m_mode c = m_mode m /\ m_abs c = m_abs m /\ m_min c = m_min m /\ m_max c = m_max m /\ m_axes c = m_axes m /\ m_ignore c = m_ignore m /\ st_offset (m_state c) = st_offset (m_state m) /\
  ((forall a, system_offset m a = Q2Qc 0) -> machine_pos c = machine_pos m).
Proof.
  intros ar m S c. do 7 (split; [reflexivity|]). intros Z. pose proof S as ((Ga & Aa & Ua) & _ & _ & (Go & Ao) & (d & D & KD & PD) & _).
  set (m2 := with_state m (State (CSDict (map (fun i => (i, zero_pos (m_axes m))) [1; 2; 3; 4; 5; 6; 7; 8; 9])) (Some 1) (st_offset (m_state m)))).
  assert (E2 : machine_pos c = machine_pos m2) by (unfold machine_pos, abs2work, coord_sys_offset, c, machine_copy, state_copy, m2; cbn [m_abs m_state coord_systems cur_coord_sys m_axes st_offset with_state]; rewrite D, KD; reflexivity).
  assert (S2 : sound m2).
  { pose proof S as (X1 & X2 & X3 & X4 & _ & X6). split; [exact X1|]. split; [exact X2|]. split; [exact X3|]. split; [exact X4|]. split; [|exact X6]. eexists. split; [reflexivity|]. split; [reflexivity|]. intros i p G. apply (dget_in _ _ _ Z.eqb_eq) in G. apply in_map_iff in G as (j & J & _). injection J as <- <-. split; [apply zero_pos_good|reflexivity]. }
  rewrite E2. destruct (machine_pos_spec m S) as (p & E & Gp & Ap & Up & Vp). destruct (machine_pos_spec m2 S2) as (q & F & Gq & Aq & Uq & Vq). rewrite E, F. f_equal. apply pos_ext; auto; try (rewrite Ap, Aq; reflexivity); try (rewrite Up, Uq; reflexivity).
  intros a Ha. assert (H : has (m_abs m) a) by (eapply has_axes; [|exact Ha]; rewrite Aq, Aa; reflexivity). rewrite (Vp a H), (Vq a H). unfold wpos_of. rewrite (Z a). assert (Z2 : system_offset m2 a = Q2Qc 0) by (apply zero_pos_val). rewrite Z2. reflexivity.
Qed.
Print Assumptions C51_copy_partial.
(** the copy of a machine with an offset in its coordinate system reads another position *)
Theorem C51_refuted : exists m, reachable (ar := binary64) m /\ pos_text m = [t "1"; t "2"; t "3"] /\ pos_text (machine_copy m) = [t "11"; t "22"; t "3"].
Proof.
  set (l := [SetSystem 1 (off 10 20 0); act_text "G0 X1 Y2 Z3"]).
  destruct (from_default (fun m => (pos_text (history (ar := binary64) l m), pos_text (machine_copy (history (ar := binary64) l m)))) ([t "1"; t "2"; t "3"], [t "11"; t "22"; t "3"])) as (m & D & E); [vm_compute; reflexivity|].
  apply pair_equal_spec in E as [E1 E2]. exists (history (ar := binary64) l m). split; [|auto]. exists xyz, false, default_mode_lines, m, l. split; [exact D|]. split; [|reflexivity]. constructor; [|constructor; [apply act_text_fits|constructor]].
  split; [|reflexivity]. apply mk_position_good. intros a x [I|[I|[I|[]]]]; injection I as <- <-; reflexivity.
Qed.
Print Assumptions C51_refuted.
(** the position of a copy whose coordinate system 9 was then selected cannot even be read *)
Theorem C51_index_refuted : exists m, reachable (ar := binary64) m /\ pos_text m = [t "0"; t "0"; t "0"] /\
  machine_pos (ar := binary64) (fst (process_str (ar := binary64) (t "G59.3") m)) <> Raise EIndexError /\ machine_pos (ar := binary64) (fst (process_str (ar := binary64) (t "G59.3") (machine_copy m))) = Raise EIndexError.
Proof.
  destruct (from_default (fun m => (pos_text m, match machine_pos (ar := binary64) (fst (process_str (ar := binary64) (t "G59.3") m)) with Ok _ => true | _ => false end, match machine_pos (ar := binary64) (fst (process_str (ar := binary64) (t "G59.3") (machine_copy m))) with Raise EIndexError => true | _ => false end)) ([t "0"; t "0"; t "0"], true, true)) as (m & D & E); [vm_compute; reflexivity|].
  apply pair_equal_spec in E as [E E3]. apply pair_equal_spec in E as [E1 E2]. exists m. split; [|split; [auto|]].
  - exists xyz, false, default_mode_lines, m, []. split; [exact D|]. split; [constructor|reflexivity].
  - split.
    + intros X. rewrite X in E2. discriminate E2.
    + revert E3. generalize (machine_pos (ar := binary64) (fst (process_str (ar := binary64) (t "G59.3") (machine_copy m)))). clear. intros [|[]]; intros Q; try discriminate Q. reflexivity.
Qed.
Print Assumptions C51_index_refuted.
Example C51_ex : exists m, default_machine (ar := binary64) = Ok m /\ (pos_text (machine_copy (history (ar := binary64) [SetOffset (off 0 0 5); act_text "G0 X1 Y2 Z3"] m)), mode_text (machine_copy (history (ar := binary64) [act_text "G1 X1 M3"] m))) =
  ([t "1"; t "2"; t "3"], t "G01 G17 G90 G91.1 G94 G21 G40 G49 G54 G61 G97 M03 M09 F0 S0 T0").
Proof. apply from_default. vm_compute. reflexivity. Qed.

(** ** C52 *)
(** missing: later coordinates are not read in the new unit (C52_refuted) *)
Theorem C52_units_partial : forall (ar : Arith) (m : machine) (g : gcode), sound m -> in_sync m -> gcode_wf g -> in_group MG_units g ->
  exists m', gcode_process g m = (m', Ok tt) /\ m_abs m' = m_abs m /\ m_state m' = m_state m /\ forall a x, pos_at m a x -> pos_at m' a x.
Proof.
  intros ar m g S Y W G. assert (K : process_kind (gcls g) = PNothing) by (revert G; unfold in_group; destruct (gcls g); vm_compute; intros; try discriminate; reflexivity).
  exists (set_for m g). rewrite process_own by (auto; apply W). unfold gcode_process_own. rewrite K. split; auto. destruct (set_for_pos m g) as (P1 & _). split; auto. assert (N : ~ in_group MG_coordinate_system g) by (unfold in_group in *; congruence). pose proof (set_for_sync m g Y N) as ST. split; auto.
  intros a x P. apply pos_at_iff in P as [H ->]; auto. apply pos_at_iff; [apply set_for_sound; auto|]. rewrite P1. split; auto. unfold wpos_of, system_offset, temp_offset. rewrite ST. reflexivity.
Qed.
Print Assumptions C52_units_partial.
(** after G20, "G1 X1" takes a machine at 0 to X = 1 mm, not to X = 1 inch *)
Theorem C52_refuted : exists m, reachable (ar := binary64) m /\ mode_text m = t "G00 G17 G90 G91.1 G94 G20 G40 G49 G54 G61 G97 M05 M09 F0 S0 T0" /\
  let p := m_abs (fst (process_str (ar := binary64) (t "G1 X1") m)) in punit p = UNIT_METRIC /\ pos_getattr p AX = Ok (q1 1 1).
Proof.
  set (l := [act_text "G20"]).
  destruct (from_default (fun m => let m1 := history (ar := binary64) l m in let p := m_abs (fst (process_str (ar := binary64) (t "G1 X1") m1)) in (mode_text m1, punit p, match pos_getattr p AX with Ok x => Qceqb x (q1 1 1) | _ => false end)) (t "G00 G17 G90 G91.1 G94 G20 G40 G49 G54 G61 G97 M05 M09 F0 S0 T0", UNIT_METRIC, true)) as (m & D & E); [vm_compute; reflexivity|].
  cbv zeta in E. apply pair_equal_spec in E as [E E3]. apply pair_equal_spec in E as [E1 E2]. exists (history (ar := binary64) l m). split; [|split; [auto|]].
  - exists xyz, false, default_mode_lines, m, l. split; [exact D|]. split; [constructor; [apply act_text_fits|constructor]|reflexivity].
  - cbv zeta. split; auto. revert E3. generalize (pos_getattr (m_abs (fst (process_str (ar := binary64) (t "G1 X1") (history (ar := binary64) l m)))) AX). intros [x|]; [|discriminate]. intros Q. apply Qceqb_eq in Q. congruence.
Qed.
Print Assumptions C52_refuted.
Example C52_ex : in_group MG_units (text_gcode "G20") /\ after [act_text "G0 X25.4"; act_text "G20"] pos_text = Ok [t "25.4"; t "0"; t "0"].
Proof. split; vm_compute; reflexivity. Qed.

(** ** C53 *)
(** what G92, G28 and the like do with axis words: they are the words of the current motion *)
Theorem C53_as_motion : forall (ar : Arith) (m : machine) (mo g : gcode) (ps : list word) (gs : list gcode),
  sound m -> m_ignore m = false -> gm_get (m_mode m) MG_motion = Some mo -> gparams mo = [] -> ps <> [] -> words2gcodes ps = Ok ([], ps) -> words2gcodes (gword mo :: ps) = Ok (gs, []) ->
  process_gcodes [g] ps m = process_gcodes (g :: gs) [] m.
Proof. intros ar m mo g ps gs S I E P NE B H. apply (C46_bare ar m mo ps [g] gs [] S I E P NE B H). Qed.
Print Assumptions C53_as_motion.
(** missing: with axis words the machine moves (C53_refuted). Without them it stays; without motion mode they are refused *)
Theorem C53_stays_partial : forall (ar : Arith) (m : machine) (g : gcode) (ps : list word), sound m -> m_ignore m = false -> gcode_wf g -> ~ is_move g -> ~ is_canned g -> words2gcodes ps = Ok ([], ps) ->
  ps = [] \/ gm_get (m_mode m) MG_motion = None -> m_abs (fst (process_gcodes [g] ps m)) = m_abs m.
Proof.
  intros ar m g ps S I W NM NC B C. destruct ps as [|p ps].
  - unfold process_gcodes. cbn [machine_modal_gcode app]. rewrite sort_one. cbn [map steps]. unfold then_step. destruct (C44_still ar m g S W NM NC) as (m' & E & A & _). rewrite E. auto.
  - destruct C as [C|C]; [discriminate|]. rewrite (C47_refused ar m [g] (p :: ps) S I B); auto. exists p. split; [left; auto|]. intros (mo & E & _). congruence.
Qed.
Print Assumptions C53_stays_partial.
Theorem C53_refuted : exists m m' x, reachable (ar := binary64) m /\ process_str (ar := binary64) (t "G92 X5") m = (m', Ok tt) /\ pos_getattr (m_abs m) AX = Ok (Q2Qc 0) /\ pos_getattr (m_abs m') AX = Ok x /\ x <> Q2Qc 0.
Proof.
  destruct (from_default (fun m => let (m', r) := process_str (ar := binary64) (t "G92 X5") m in (match r with Ok _ => true | _ => false end, match pos_getattr (m_abs m) AX with Ok x => Qceqb x (Q2Qc 0) | _ => false end, match pos_getattr (m_abs m') AX with Ok x => Qceqb x (Q2Qc 0) | _ => true end)) (true, true, false)) as (m & D & E); [vm_compute; reflexivity|].
  destruct (process_str (ar := binary64) (t "G92 X5") m) as [m' [[]|]] eqn:P; [|apply pair_equal_spec in E as [E _]; apply pair_equal_spec in E as [E _]; discriminate].
  apply pair_equal_spec in E as [E E3]. apply pair_equal_spec in E as [_ E2]. destruct (pos_getattr (m_abs m') AX) as [x|] eqn:X; [|discriminate]. exists m, m', x. split; [exists xyz, false, default_mode_lines, m, []; split; [exact D|]; split; [constructor|reflexivity]|]. split; auto. split; [|split; auto].
  - destruct (pos_getattr (m_abs m) AX) as [y|]; [|discriminate]. apply Qceqb_eq in E2. congruence.
  - intros ->. vm_compute in E3. discriminate E3.
Qed.
Print Assumptions C53_refuted.
Example C53_ex : after [act_text "G92 X5"] pos_text = Ok [t "5"; t "0"; t "0"] /\ after [act_text "G28 X1 Z3"] pos_text = Ok [t "1"; t "0"; t "3"] /\ after [act_text "G80"; act_text "G92 X5"] pos_text = Ok [t "0"; t "0"; t "0"] /\ after [act_text "G0 X2"; act_text "G92"] pos_text = Ok [t "2"; t "0"; t "0"].
Proof. split; [vm_compute; reflexivity|]. split; [vm_compute; reflexivity|]. split; vm_compute; reflexivity. Qed.

(** ** C48 *)
(** the words of "X10 G1" are those of "G1 X10", but X10 is then a word without gcode, done in the rapid motion mode before G1 is reached *)
Theorem C48_refuted : exists m ws ws' gs gs' ps ps', reachable (ar := binary64) m /\ Permutation ws ws' /\ words2gcodes (ar := binary64) ws = Ok (gs, ps) /\ words2gcodes (ar := binary64) ws' = Ok (gs', ps') /\
  snd (process_gcodes (ar := binary64) gs ps m) = Ok tt /\ snd (process_gcodes (ar := binary64) gs' ps' m) = Ok tt /\
  mode_text (fst (process_gcodes (ar := binary64) gs ps m)) <> mode_text (fst (process_gcodes (ar := binary64) gs' ps' m)).
Proof.
  set (x := Word LX (VFloat (q1 10 1))). set (g := Word LG (VFloat (q1 1 1))).
  assert (W1 : words2gcodes (ar := binary64) [g; x] = Ok ([MkGCode GCodeLinearMove g [(LX, x)] false], [])) by (vm_compute; reflexivity).
  assert (W2 : words2gcodes (ar := binary64) [x; g] = Ok ([MkGCode GCodeLinearMove g [] false], [x])) by (vm_compute; reflexivity).
  destruct (from_default (fun m => let a := process_gcodes (ar := binary64) [MkGCode GCodeLinearMove g [(LX, x)] false] [] m in let b := process_gcodes (ar := binary64) [MkGCode GCodeLinearMove g [] false] [x] m in
     (match snd a with Ok _ => true | _ => false end, match snd b with Ok _ => true | _ => false end, mode_text (fst a), mode_text (fst b)))
     (true, true, t "G01 G17 G90 G91.1 G94 G21 G40 G49 G54 G61 G97 M05 M09 F0 S0 T0", t "G00 G17 G90 G91.1 G94 G21 G40 G49 G54 G61 G97 M05 M09 F0 S0 T0")) as (m & D & E); [vm_compute; reflexivity|].
  cbv zeta in E. apply pair_equal_spec in E as [E E4]. apply pair_equal_spec in E as [E E3]. apply pair_equal_spec in E as [E1 E2].
  do 7 eexists. split; [exists xyz, false, default_mode_lines, m, []; split; [exact D|]; split; [constructor|reflexivity]|]. split; [apply (perm_swap x g [])|]. split; [exact W1|]. split; [exact W2|]. split; [|split].
  - revert E1. cbn [history fold_left]. generalize (snd (process_gcodes (ar := binary64) [MkGCode GCodeLinearMove g [(LX, x)] false] [] m)). clear. intros [[]|]; intros Q; [reflexivity|discriminate Q].
  - revert E2. cbn [history fold_left]. generalize (snd (process_gcodes (ar := binary64) [MkGCode GCodeLinearMove g [] false] [x] m)). clear. intros [[]|]; intros Q; [reflexivity|discriminate Q].
  - cbn [history fold_left]. rewrite E3, E4. clear. vm_compute. intros Q. discriminate Q.
Qed.
Print Assumptions C48_refuted.
