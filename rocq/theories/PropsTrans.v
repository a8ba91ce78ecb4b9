(** Properties C56, C57: absolute to incremental coordinates, omitting redundant motion words. *)
From Coq Require Import Ascii String List Bool Arith ZArith QArith Qcanon Permutation Lia.
From Verif Require Import Base Num Words GTable GCode Line Position Machine Transform BaseFacts WordOrder WordsSpec PrintSpec BlockSpec GCodeSpec GCodeProofs GCodeProofs2 PropsGCode ArithSpec Float64 PosSpec PosProofs ModeSpec ModeProofs PropsMode MachSpec MachProofs MachProofs2 MachProofs3 PropsMach PropsBlock TransSpec TransProofs TransProofs2.
Import ListNotations.
Open Scope Z_scope.

(** ** C56 *)
Lemma loop_path : forall gs m ma mi v last, ready (ar := exact_arith) m -> absolute m -> place (ar := exact_arith) m v ->
  ready (ar := exact_arith) ma -> absolute ma -> m_axes ma = m_axes m -> place (ar := exact_arith) ma v ->
  ready (ar := exact_arith) mi -> incremental mi -> m_axes mi = m_axes m -> place (ar := exact_arith) mi v ->
  Forall (gcode_wf (ar := exact_arith)) gs -> Forall (fun g => straight g \/ idle g) gs ->
  exists out va vi l ma' mi', abs2rel_loop (ar := exact_arith) m gs last = (out, last) /\
    visits (ar := exact_arith) ma gs va ma' /\ visits (ar := exact_arith) mi out vi mi' /\ without_stops v va l /\ without_stops v vi l /\
    Forall (fun x => (straight x /\ really_moves x) \/ idle x) out /\ Forall (gcode_wf (ar := exact_arith)) out /\ (Forall straight gs -> vi = l).
Proof.
  induction gs as [|g gs IH]; intros m ma mi v last R A P Ra Aa Xa Pa Ri Ii Xi Pi W T.
  - exists [], [], [], [], ma, mi. split; [reflexivity|]. do 6 (split; [constructor|]). auto.
  - inversion W as [|? ? Wg Ws]; subst. inversion T as [|? ? Tg Ts]; subst. cbn [abs2rel_loop]. rewrite process_one. pose proof P as (p & E & V). rewrite E.
    destruct Tg as [Tg|Tg].
    + pose proof (straight_move g Tg) as M. destruct (step_abs g m v R A P Wg M) as (m' & EM & R' & A' & X' & P'). destruct (step_abs g ma v Ra Aa Pa Wg M) as (ma' & EMa & Ra' & Aa' & Xa' & Pa').
      rewrite EM. pose proof P' as (q & E' & V'). rewrite E'. pose proof (move_group g M) as G. unfold in_group in G. rewrite G. rewrite (proj1 (straight_iff g) Tg).
      destruct (machine_pos_spec (ar := exact_arith) m (proj1 R)) as (p0 & Ep & Gp & Ap & _). rewrite E in Ep. injection Ep as <-. destruct (machine_pos_spec (ar := exact_arith) m' (proj1 R')) as (q0 & Eq & Gq & Aq & _). rewrite E' in Eq. injection Eq as <-.
      destruct (v9_dec (moved_abs g v) v) as [Q|Q].
      * rewrite (relative_none g p q) by (auto; congruence). rewrite Q in *. destruct (IH m' ma' mi v last) as (out & va & vi & l & m1 & m2 & H1 & H2 & H3 & H4 & H5 & H6 & H7 & H8); auto; try congruence.
        exists out, ((gcls g, v) :: va), vi, l, m1, m2. split; auto. split; [econstructor; eauto|]. split; auto. split; [constructor; auto|]. split; auto. split; auto. split; auto. intros Q8. inversion Q8; subst. auto.
      * destruct (relative_some g p q Wg Tg Gp Gq) as (x & Ex & Wx & Cx & Dx & Mx & RM); try congruence. rewrite Ex. rewrite V, V' in Mx.
        assert (Tx : straight x) by (unfold straight in *; rewrite Cx; auto). destruct (step_inc x mi v Ri Ii Pi Wx (straight_move x Tx)) as (mi' & EMi & Ri' & Ii' & Xi' & Pi'). rewrite Mx in Pi'.
        destruct (IH m' ma' mi' (moved_abs g v) last) as (out & va & vi & l & m1 & m2 & H1 & H2 & H3 & H4 & H5 & H6 & H7 & H8); auto; try congruence.
        rewrite H1. exists (x :: out), ((gcls g, moved_abs g v) :: va), ((gcls g, moved_abs g v) :: vi), ((gcls g, moved_abs g v) :: l), m1, m2. split; [reflexivity|]. split; [econstructor; eauto|]. split; [rewrite <- Cx; econstructor; eauto|]. split; [constructor; auto|]. split; [constructor; auto|]. split; [constructor; auto|]. split; [constructor; auto|]. intros Q8. inversion Q8; subst. rewrite H8; auto.
    + destruct (step_idle g m v R P Wg Tg) as (m' & EM & R' & D' & X' & P'). destruct (step_idle g ma v Ra Pa Wg Tg) as (ma' & EMa & Ra' & Da' & Xa' & Pa'). destruct (step_idle g mi v Ri Pi Wg Tg) as (mi' & EMi & Ri' & Di' & Xi' & Pi').
      rewrite EM. pose proof P' as (q & E' & V'). rewrite E'.
      destruct (IH m' ma' mi' v last) as (out & va & vi & l & m1 & m2 & H1 & H2 & H3 & H4 & H5 & H6 & H7 & H8); auto; try congruence; try (unfold absolute, incremental in *; rewrite ?D', ?Da', ?Di'; auto).
      rewrite H1. exists (g :: out), ((gcls g, v) :: va), ((gcls g, v) :: vi), l, m1, m2. split.
      { destruct Tg as (_ & _ & NG & _). unfold in_group in NG. destruct (modal_group (gcls g)) as [[]|]; auto; contradiction. }
      split; [econstructor; eauto|]. split; [econstructor; eauto|]. split; [constructor; auto|]. split; [constructor; auto|]. split; [constructor; auto|]. split; [constructor; auto|]. intros Q8. inversion Q8 as [|? ? F1 F2]; subst. destruct Tg as (NM & _). destruct (NM (straight_move g F1)).
Qed.
(** the path of the converted program in incremental mode is that of the original in absolute mode, each stretch by the same kind of motion, whatever the offsets of the two
    machines; every converted move moves *)
Theorem C56_path : forall (axes : axset) (start : position) (dist : option gclass) (ma mi : machine) (gs : list gcode) (last : result unit),
  good start -> paxes start = axes -> known_unit (punit start) -> (forall c, dist = Some c -> derives c GCodeIncrementalDistanceMode) ->
  ready (ar := exact_arith) ma -> absolute ma -> m_axes ma = axes -> place (ar := exact_arith) ma (pvals start) ->
  ready (ar := exact_arith) mi -> incremental mi -> m_axes mi = axes -> place (ar := exact_arith) mi (pvals start) ->
  Forall (gcode_wf (ar := exact_arith)) gs -> Forall (fun g => straight g \/ idle g) gs ->
  exists out va vi l ma' mi', gcodes_abs2rel (ar := exact_arith) start dist axes (gs, last) = (out, last) /\
    visits (ar := exact_arith) ma gs va ma' /\ visits (ar := exact_arith) mi out vi mi' /\
    without_stops (pvals start) va l /\ without_stops (pvals start) vi l /\
    Forall (fun x => (straight x /\ really_moves x) \/ idle x) out /\ Forall (gcode_wf (ar := exact_arith)) out.
Proof.
  intros axes start dist ma mi gs last G A U D Ra Aa Xa Pa Ri Ii Xi Pi W T. unfold gcodes_abs2rel.
  replace (match dist with None => true | Some c => subclass c GCodeIncrementalDistanceMode end) with true by (destruct dist as [c|]; auto; symmetry; apply subclass_derives, D; auto).
  destruct (absolute_machine_ok axes) as (m0 & E0 & A0). rewrite E0. destruct (new_machine_sound (ar := exact_arith) axes false [t "G90"] m0 E0) as (S0 & I0 & _ & X0 & _).
  destruct (C42_assign m0 start S0 G (eq_trans A (eq_sym X0)) U) as (m & E & PM). rewrite E. cbn [fst snd].
  destruct (set_pos_spec (ar := exact_arith) start m0 S0 G (eq_trans A (eq_sym X0)) U) as (m' & E' & F & S & _ & _ & I & _). rewrite E in E'. injection E' as <-. pose proof F as (F1 & F2 & F3 & _).
  assert (Y : in_sync m) by (apply (frame_sync m0 m F); intros x X; rewrite (proj1 A0) in X; discriminate X).
  destruct (loop_path gs m ma mi (pvals start) last) as (out & va & vi & l & ma' & mi' & H1 & H2 & H3 & H4 & H5 & H6 & H7 & _); auto; try congruence.
  - split; auto.
  - unfold absolute. rewrite F1. exact (proj2 A0).
  - exists start. auto.
  - exists out, va, vi, l, ma', mi'. auto 10.
Qed.
Print Assumptions C56_path.
(** in absolute mode nothing is converted *)
Theorem C56_absolute : forall (ar : Arith) (start : position) (c : gclass) (axes : axset) (src : gen), ~ derives c GCodeIncrementalDistanceMode ->
  gcodes_abs2rel start (Some c) axes src = src.
Proof.
  intros ar start c axes src N. unfold gcodes_abs2rel. destruct (subclass c GCodeIncrementalDistanceMode) eqn:E; auto. apply subclass_derives in E. contradiction.
Qed.
Print Assumptions C56_absolute.
(** other motions are refused *)
Theorem C56_refused : forall (ar : Arith) (m : machine) (g : gcode) (gs : list gcode) (last : result unit), sound m -> gcode_wf g -> is_move g -> ~ straight g ->
  abs2rel_loop m (g :: gs) last = ([], Raise ENotImplementedError).
Proof.
  intros ar m g gs last S W M N. cbn [abs2rel_loop]. destruct (machine_pos_spec m S) as (p & -> & _). rewrite process_one. destruct (move_pos g m S W M) as (m' & -> & _ & S' & _). destruct (machine_pos_spec m' S') as (q & -> & _).
  apply move_group in M. unfold in_group in M. rewrite M. rewrite straight_iff in N. destruct (_ || _); auto. destruct (N eq_refl).
Qed.
Print Assumptions C56_refused.

(** *** examples in exact arithmetic *)
Definition xgcodes (s : string) : list gcode := match text2gcodes (ar := exact_arith) (t s) with Ok l => l | Raise _ => [] end.
Lemma xgcodes_wf s : Forall (gcode_wf (ar := exact_arith)) (xgcodes s).
Proof.
  unfold xgcodes, text2gcodes. destruct (text2words (ar := exact_arith) (t s)) as [ws|] eqn:E; cbn [bind]; [|constructor]. apply text2words_wf in E. destruct (words2gcodes ws) as [[gs un]|] eqn:G; cbn [bind]; [|constructor]. destruct un; [|constructor].
  apply words2gcodes_wf in G; auto. apply G.
Qed.
Definition xafter (s : string) (m : machine) : machine := fst (steps (map (gcode_process (ar := exact_arith)) (xgcodes s)) m).
Definition in_sync_b (m : machine) : bool :=
  match gm_get (m_mode m) MG_coordinate_system with None => true | Some g => match coord_system_id (gcls g), cur_coord_sys (m_state m) with Some (Some i), Some j => Z.eqb i j | _, _ => false end end.
Lemma in_sync_ex m : in_sync_b m = true -> in_sync m.
Proof.
  unfold in_sync_b, in_sync. intros H g E. rewrite E in H. destruct (coord_system_id (gcls g)) as [[i|]|]; try discriminate H. destruct (cur_coord_sys (m_state m)); [|discriminate H]. apply Z.eqb_eq in H. congruence.
Qed.
Lemma xmachine {A} (s : string) (f : machine -> A) (x : A) : rmap (fun m => (in_sync_b m, f (xafter s m))) (default_machine (ar := exact_arith)) = Ok (true, x) -> exists m, ready (ar := exact_arith) m /\ m_axes m = xyz /\ f m = x.
Proof.
  unfold rmap. destruct (default_machine (ar := exact_arith)) as [m0|e] eqn:D; [|intros H; discriminate H]. intros H. assert (H' : (in_sync_b m0, f (xafter s m0)) = (true, x)) by congruence. clear H. apply pair_equal_spec in H' as [H1 H2]. unfold default_machine in D. destruct (new_machine_sound (ar := exact_arith) _ _ _ _ D) as (S & I & _ & X & _).
  destruct (steps_inv (ar := exact_arith) (xgcodes s) m0 S I (xgcodes_wf s)) as (S' & I' & Y & (X' & _)). exists (xafter s m0). unfold xafter in *. split; [split; [|split]; auto; apply Y, in_sync_ex; auto|]. split; congruence.
Qed.
Definition vals_b (m : machine) (v : v9 (option Qc)) : bool := match machine_pos (ar := exact_arith) m with Ok p => vals_eqb (pvals p) v | Raise _ => false end.
Lemma place_ex_b m v : vals_b m v = true -> place (ar := exact_arith) m v.
Proof.
  unfold vals_b, place. destruct (machine_pos (ar := exact_arith) m) as [p|]; [|intros H; discriminate H]. intros H. exists p. split; auto. apply v9_ext. intros a. unfold vals_eqb in H. rewrite vall_true in H. specialize (H a). destruct (vget (pvals p) a), (vget v a); try discriminate H; auto. apply Qceqb_eq in H. congruence.
Qed.
Definition gen_text (k : gen) : list string * result unit := (map string_of_list_ascii (map (gcode_str (ar := exact_arith)) (fst k)), snd k).
Definition start_ex : position := mk_position xyz UNIT_METRIC [(AX, frac 10 1); (AY, frac 20 1); (AZ, frac 3 1)].
Example C56_ex : gen_text (gcodes_abs2rel (ar := exact_arith) start_ex None xyz (xgcodes "G0 X0 Y30 Z3" ++ xgcodes "G1 X0 Y30 Z-5" ++ xgcodes "M8" ++ xgcodes "G1 Z-5 Y30" ++ xgcodes "G0 Z5", Ok tt))
    = (["G00 X-10 Y10"; "G01 Z-8"; "M08"; "G00 Z10"]%string, Ok tt)
  /\ exists ma mi, ready (ar := exact_arith) ma /\ absolute ma /\ m_axes ma = xyz /\ place (ar := exact_arith) ma (pvals start_ex) /\
     ready (ar := exact_arith) mi /\ incremental mi /\ m_axes mi = xyz /\ place (ar := exact_arith) mi (pvals start_ex).
Proof.
  split; [vm_compute; reflexivity|].
  destruct (xmachine "G0 X10 Y20 Z3" (fun m => (is_incremental m, vals_b m (pvals start_ex))) (false, true)) as (ma & R & X & E); [vm_compute; reflexivity|]. apply pair_equal_spec in E as [E1 E2].
  destruct (xmachine "G91 G0 X10 Y20 Z3" (fun m => (is_incremental m, vals_b m (pvals start_ex))) (true, true)) as (mi & R' & X' & E'); [vm_compute; reflexivity|]. apply pair_equal_spec in E' as [E1' E2'].
  exists ma, mi. split; auto. split; [apply absolute_iff; auto|]. split; auto. split; [apply place_ex_b; auto|]. split; auto. split; [apply is_incremental_iff; auto|]. split; auto. apply place_ex_b; auto.
Qed.
Example C56_hyp : Forall (gcode_wf (ar := exact_arith)) (xgcodes "G0 X0 Y30 Z3") /\ Forall (fun g => straight g \/ idle g) (xgcodes "G0 X0 Y30 Z3" ++ xgcodes "M8") /\ ~ straight (hd (text_gcode "G0") (xgcodes "G2 X1 R5")) /\ is_move (hd (text_gcode "G0") (xgcodes "G2 X1 R5")).
Proof.
  split; [apply xgcodes_wf|]. split; [|split].
  - assert (E : map (fun g => (subclass (gcls g) GCodeRapidMove || subclass (gcls g) GCodeLinearMove, (process_kind (gcls g), modal_group (gcls g)))) (xgcodes "G0 X0 Y30 Z3" ++ xgcodes "M8") = [(true, (PMove, Some MG_motion)); (false, (PNothing, Some MG_coolant))]) by (vm_compute; reflexivity).
    revert E. generalize (xgcodes "G0 X0 Y30 Z3" ++ xgcodes "M8"). intros [|a [|b [|c l]]] E; try discriminate E. injection E as E1 _ _ _ E2 E3. constructor; [left; apply straight_iff; auto|]. constructor; [|constructor]. right. split; [intros M; apply kind_move in M; congruence|]. split; [intros M; apply kind_canned in M; congruence|]. unfold in_group. rewrite E3. repeat split; discriminate.
  - rewrite straight_iff. vm_compute. discriminate.
  - apply kind_move. vm_compute. reflexivity.
Qed.

(** ** C57 *)
Lemma redundant_iff {ar : Arith} m a g : sound m -> gcode_wf g -> (forall w, a = Some w <-> exists mo, gm_get (m_mode m) MG_motion = Some mo /\ gword mo = w) ->
  redundant m g = true <-> in_group MG_motion g /\ a = Some (gword g).
Proof.
  intros S W H. unfold redundant, in_group. destruct (modal_group (gcls g)) as [mg|] eqn:E; [|split; [intros X; discriminate X|intros [X _]; discriminate X]].
  destruct (gm_get (m_mode m) mg) as [x|] eqn:G.
  - destruct (proj2 (proj2 (proj2 (proj2 (proj2 (proj2 S))))) _ _ G) as (_ & _ & WX & _). rewrite andb_true_iff, (word_eqb_eq _ _ WX (proj1 (proj2 (proj2 W)))), mgroup_eqb_eq. split.
    + intros [X ->]. split; auto. apply H. exists x. auto.
    + intros [X Y]. injection X as ->. split; auto. apply H in Y as (mo & Y & Z). congruence.
  - split; [intros X; discriminate X|]. intros [X Y]. injection X as ->. apply H in Y as (mo & Y & _). congruence.
Qed.
Lemma motion_track {ar : Arith} a g m : sound m -> gcode_wf g -> (forall w, a = Some w <-> exists mo, gm_get (m_mode m) MG_motion = Some mo /\ gword mo = w) ->
  exists b, motion_word a g b /\ forall w, b = Some w <-> exists mo, gm_get (m_mode (fst (gcode_process g m))) MG_motion = Some mo /\ gword mo = w.
Proof.
  intros S W H. rewrite gcode_process_mode; [|apply S|apply W]. destruct (derives_dec g) as [D|D].
  - exists None. split; [constructor; auto|]. intros w. rewrite effect_g80 by auto. split; [discriminate|]. intros (mo & X & _). discriminate X.
  - destruct (modal_group (gcls g)) as [mg|] eqn:E; [destruct (mgroup_eqb mg MG_motion) eqn:M; [apply mgroup_eqb_eq in M; subst|]|].
    + exists (Some (gword g)). split; [apply mw_set; auto|]. intros w. rewrite effect_in by auto. split; [intros X; injection X as <-; eexists; split; reflexivity|]. intros (mo & X & Y). injection X as <-. subst. reflexivity.
    + exists a. assert (N : ~ in_group MG_motion g). { unfold in_group. rewrite E. intros X. injection X as ->. discriminate M. } split; [apply mw_keep; auto|]. intros w. rewrite effect_other; auto. intros [Q|[_ Q]]; auto.
    + exists a. assert (N : ~ in_group MG_motion g). { unfold in_group. rewrite E. discriminate. } split; [apply mw_keep; auto|]. intros w. rewrite effect_other; auto. intros [Q|[_ Q]]; auto.
Qed.
Lemma white_process {ar : Arith} g m : legal g -> gcode_process (white g) m = gcode_process g m.
Proof.
  intros L. assert (X : forall md, mode_set md [white g] = mode_set md [g]). { intros md. unfold mode_set. rewrite !sort_one. cbn [mode_set_list]. unfold mode_set1. rewrite !modal_copy_spec; auto. }
  unfold gcode_process, then_step, machine_set_mode, atomic_step. rewrite X. reflexivity.
Qed.
Lemma omit_loop_spec {ar : Arith} last : forall gs m a out r, sound m -> inside m -> Forall gcode_wf gs -> (forall w, a = Some w <-> exists mo, gm_get (m_mode m) MG_motion = Some mo /\ gword mo = w) ->
  omit_loop m gs last = (out, r) ->
  exists done rest, gs = done ++ rest /\ hidden a done out /\ ((rest = [] /\ r = last) \/ exists g rest' e, rest = g :: rest' /\ is_canned g /\ r = Raise e).
Proof.
  induction gs as [|g gs IH]; intros m a out r S I W H O; cbn [omit_loop] in O.
  - injection O as <- <-. exists [], []. split; auto. split; [constructor|]. auto.
  - inversion W as [|? ? Wg Ws]; subst. rewrite process_one in O.
    assert (P : gcode_process (if redundant m g then white g else g) m = gcode_process g m) by (destruct (redundant m g); auto; apply white_process, Wg).
    rewrite P in O. destruct (gcode_process g m) as [m' [[]|e]] eqn:G.
    + destruct (process_keeps g m S I Wg) as [(S' & I' & _) _]. rewrite G in *. cbn [fst] in *.
      destruct (motion_track a g m S Wg H) as (b & M & HB). rewrite G in HB. cbn [fst] in HB.
      destruct (omit_loop m' gs last) as [out' r'] eqn:L. unfold gen_cons in O. cbn [fst snd] in O. injection O as <- <-.
      destruct (IH m' b out' r' S' I' Ws HB L) as (done & rest & -> & HD & T). exists (g :: done), rest. split; auto. split; auto.
      destruct (redundant m g) eqn:R.
      * apply (redundant_iff m a g S Wg H) in R as [R1 R2]. eapply hid_hide; eauto.
      * eapply hid_show; eauto. intros X. apply (redundant_iff m a g S Wg H) in X. congruence.
    + unfold gen_raise in O. injection O as <- <-. exists [], (g :: gs). split; auto. split; [constructor|]. right. exists g, gs, e. split; auto. split; auto.
      destruct (subclass (gcls g) GCodeCannedCycle) eqn:C; [apply subclass_derives; auto|]. exfalso.
      destruct (kept_letters _ C) as [_ K]. destruct (process_kind (gcls g)) eqn:PK; try congruence.
      * rewrite process_own in G; auto; [|apply Wg]. unfold gcode_process_own in G. rewrite PK in G. discriminate G.
      * destruct (process_move g m S Wg PK) as (m1 & X & _). congruence.
      * rewrite process_own in G; auto; [|apply Wg]. unfold gcode_process_own in G. rewrite PK in G. discriminate G.
Qed.
Lemma null_ok {ar : Arith} : exists m, null_machine = Ok m /\ sound m /\ inside m /\ m_mode m = gm_empty.
Proof.
  assert (E : exists m, null_machine = Ok m /\ m_mode m = gm_empty) by (eexists; split; reflexivity). destruct E as (m & E & M). exists m. split; auto. destruct (new_machine_sound _ _ _ _ E) as (S & I & _). auto.
Qed.
(** just the motion words already in force are hidden, up to a canned cycle that cannot be processed *)
Theorem C57_words : forall (ar : Arith) (gs out : list gcode) (last r : result unit), Forall gcode_wf gs -> omit_redundant_modes (gs, last) = (out, r) ->
  exists done rest, gs = done ++ rest /\ hidden None done out /\ ((rest = [] /\ r = last) \/ exists g rest' e, rest = g :: rest' /\ is_canned g /\ r = Raise e).
Proof.
  intros ar gs out last r W O. unfold omit_redundant_modes in O. destruct null_ok as (m & E & S & I & M). rewrite E in O. cbn [fst snd] in O.
  apply (omit_loop_spec last gs m None out r S I W); auto. intros w. rewrite M, gm_get_empty. split; [discriminate|]. intros (mo & X & _). discriminate X.
Qed.
Print Assumptions C57_words.
(** a canned cycle stops it, unless a plane was selected before: the private machine has no mode at all *)
Theorem C57_refuted : exists g, gcode_wf (ar := exact_arith) g /\ is_canned g /\ omit_redundant_modes (ar := exact_arith) ([g], Ok tt) = ([], Raise EAttributeError).
Proof.
  destruct (xgcodes "G81 X1 Y2 Z-3 R1") as [|g [|? ?]] eqn:E; try (vm_compute in E; discriminate E). pose proof (xgcodes_wf "G81 X1 Y2 Z-3 R1") as W. rewrite E in W. inversion W; subst. exists g. split; auto.
  assert (X : (map (fun g => subclass (gcls g) GCodeCannedCycle) (xgcodes "G81 X1 Y2 Z-3 R1"), gen_text (omit_redundant_modes (ar := exact_arith) (xgcodes "G81 X1 Y2 Z-3 R1", Ok tt))) = ([true], ([], Raise EAttributeError))) by (vm_compute; reflexivity).
  rewrite E in X. apply pair_equal_spec in X as [X1 X2]. split; [apply subclass_derives; cbn [map] in X1; congruence|].
  unfold gen_text in X2. destruct (omit_redundant_modes ([g], Ok tt)) as [o r]. cbn [fst snd] in X2. apply pair_equal_spec in X2 as [X2 ->]. destruct o; [reflexivity|discriminate X2].
Qed.
Print Assumptions C57_refuted.
(** the printed output, one gcode a line, does to a machine what the gcodes do *)
Definition rereadable {ar : Arith} (g : gcode) : Prop := gcode_wf g /\ gwhite g = false /\ Forall readable (gword g :: map snd (gparams g)).
Lemma hidden_run {ar : Arith} : accurate ar -> forall a gs out, hidden a gs out -> forall m, sound m -> inside m -> Forall rereadable gs -> Forall (fun g => ~ is_canned g) gs ->
  Forall (fun g => in_group MG_motion g -> gparams g <> []) gs -> (forall w, a = Some w -> exists mo, gm_get (m_mode m) MG_motion = Some mo /\ gword mo = w) ->
  steps (map process_str (map gcode_str out)) m = steps (map gcode_process gs) m.
Proof.
  intros acc a gs out H. induction H as [a|a g gs b out N MW H IH|a g gs b out N EA MW H IH]; intros m S I R C P K; auto;
    inversion R as [|? ? (Wg & WH & Rg) Rs]; subst; inversion C; subst; inversion P; subst; cbn [map steps].
  - unfold then_step. rewrite process_shown by auto. destruct (process_keeps g m S I Wg) as [(S' & I' & _) _]. pose proof (motion_after _ _ _ m S Wg MW K) as K'. destruct (gcode_process g m) as [m' [[]|e]]; [|reflexivity]. cbn [fst] in *. apply IH; auto.
  - unfold then_step. destruct (K _ eq_refl) as (mo & E & EW). rewrite (process_hidden g mo m); auto; [|inversion Rg; auto].
    destruct (process_keeps g m S I Wg) as [(S' & I' & _) _]. pose proof (motion_after _ _ _ m S Wg MW K) as K'. destruct (gcode_process g m) as [m' [[]|e]]; [|reflexivity]. cbn [fst] in *. apply IH; auto.
Qed.
Theorem C57_effect_partial : forall (ar : Arith) (gs : list gcode), accurate ar -> Forall rereadable gs -> Forall (fun g => ~ is_canned g) gs ->
  Forall (fun g => in_group MG_motion g -> gparams g <> []) gs ->
  exists out, omit_redundant_modes (gs, Ok tt) = (out, Ok tt) /\
    forall m, sound m -> inside m -> steps (map process_str (map gcode_str out)) m = steps (map gcode_process gs) m.
Proof.
  intros ar gs acc R C P. destruct (omit_redundant_modes (gs, Ok tt)) as [out r] eqn:O. assert (W : Forall gcode_wf gs) by (eapply Forall_impl; [|exact R]; intros g H; apply H).
  destruct (C57_words ar gs out (Ok tt) r W O) as (done & rest & E & H & [(-> & ->)|(g & rest' & e & -> & CG & _)]).
  - rewrite app_nil_r in E. subst done. exists out. split; auto. intros m S I. apply (hidden_run acc None); auto. discriminate.
  - exfalso. subst gs. rewrite Forall_forall in C. apply (C g); auto. apply in_app_iff. right. left. auto.
Qed.
Print Assumptions C57_effect_partial.
(** missing: canned cycles. There the claim is false: in incremental mode the hidden word brings back axis words of the cycle before *)
Definition lines_text (ls : list string) (m : machine) : list text := pos_text (fst (steps (map (fun s => process_str (ar := binary64) (t s)) ls) m)).
Theorem C57_canned_refuted : exists m, reachable (ar := binary64) m /\ 
  map (gcode_str (ar := binary64)) (fst (omit_redundant_modes (ar := binary64) (text_gcodes "G17" ++ text_gcodes "G91" ++ text_gcodes "G81 X1 Y1 Z-1 R1" ++ text_gcodes "G81 Y1 Z-1 R1", Ok tt)))
    = map t ["G17"; "G91"; "G81 R1 X1 Y1 Z-1"; "    R1 Y1 Z-1"]%string /\
  lines_text ["G17"; "G91"; "G81 R1 X1 Y1 Z-1"; "G81 R1 Y1 Z-1"]%string m = [t "1"; t "2"; t "0"] /\
  lines_text ["G17"; "G91"; "G81 R1 X1 Y1 Z-1"; "    R1 Y1 Z-1"]%string m = [t "2"; t "2"; t "0"].
Proof.
  destruct (from_default (fun m => (lines_text ["G17"; "G91"; "G81 R1 X1 Y1 Z-1"; "G81 R1 Y1 Z-1"]%string m, lines_text ["G17"; "G91"; "G81 R1 X1 Y1 Z-1"; "    R1 Y1 Z-1"]%string m)) ([t "1"; t "2"; t "0"], [t "2"; t "2"; t "0"])) as (m & D & E); [vm_compute; reflexivity|].
  apply pair_equal_spec in E as [E1 E2]. exists m. split; [exists xyz, false, default_mode_lines, m, []; split; auto|]. split; [vm_compute; reflexivity|]. split; auto.
Qed.
Print Assumptions C57_canned_refuted.
Definition readable_b {ar : Arith} (w : word) : bool :=
  match text2words (word_str w) with Ok [w'] => word_eqb w' w | _ => false end && match wvalue w with VStr _ => false | _ => true end.
Lemma readable_ex {ar : Arith} w : word_wf w -> readable_b w = true -> readable w.
Proof.
  intros W H. apply andb_true_iff in H as [H1 H2]. apply read_survives.
  - destruct (text2words (word_str w)) as [[|w' [|]]|] eqn:E; try discriminate H1. pose proof (text2words_wf _ _ E) as F. inversion F; subst. apply word_eqb_eq in H1; auto. congruence.
  - intros s E. rewrite E in H2. discriminate H2.
Qed.
Definition rereadable_b {ar : Arith} (g : gcode) : bool := negb (gwhite g) && forallb readable_b (gword g :: map snd (gparams g)).
Lemma rereadable_ex {ar : Arith} gs : Forall gcode_wf gs -> forallb rereadable_b gs = true -> Forall rereadable gs.
Proof.
  intros W H. rewrite forallb_forall in H. rewrite Forall_forall in *. intros g I. specialize (H g I). specialize (W g I). apply andb_true_iff in H as [H1 H2]. split; auto. split; [destruct (gwhite g); auto; discriminate H1|].
  rewrite forallb_forall in H2. apply Forall_forall. intros w J. apply readable_ex; auto. destruct J as [<-|J]; [apply W|]. apply in_map_iff in J as (kv & <- & J). destruct W as (_ & _ & _ & W). rewrite Forall_forall in W. auto.
Qed.
Definition ex57 : list gcode := xgcodes "G1 X1 Y2" ++ xgcodes "M8" ++ xgcodes "G1 Z-1.5" ++ xgcodes "G0 Z5" ++ xgcodes "G0 X0".
Example C57_ex : map (gcode_str (ar := exact_arith)) (fst (omit_redundant_modes (ar := exact_arith) (ex57, Ok tt))) = map t ["G01 X1 Y2"; "M08"; "    Z-1.5"; "G00 Z5"; "    X0"]%string /\
  Forall (rereadable (ar := exact_arith)) ex57 /\ Forall (fun g => ~ is_canned g) ex57 /\ Forall (fun g => in_group MG_motion g -> gparams g <> []) ex57.
Proof.
  split; [vm_compute; reflexivity|]. split; [apply rereadable_ex; [unfold ex57; repeat (apply Forall_app; split); apply xgcodes_wf|vm_compute; reflexivity]|].
  assert (E : forallb (fun g => negb (subclass (gcls g) GCodeCannedCycle) && match modal_group (gcls g), gparams g with Some MG_motion, [] => false | _, _ => true end) ex57 = true) by (vm_compute; reflexivity).
  rewrite forallb_forall in E. split; apply Forall_forall; intros g I; specialize (E g I); apply andb_true_iff in E as [E1 E2].
  - intros C. apply subclass_derives in C. rewrite C in E1. discriminate E1.
  - unfold in_group. intros M. rewrite M in E2. destruct (gparams g); [discriminate E2|discriminate].
Qed.
