(** Lemmas for C97: cycles, lines and files. *)
From Coq Require Import Ascii String List Bool Arith ZArith QArith Qcanon Qabs Permutation Lia Lqa.
From Verif Require Import Base Num Words GTable GCode Line Position Machine Transform BaseFacts NumFacts WordOrder ArithSpec WordsSpec LineSpec PrintSpec PrintProofs PrintProofs2 PropsPrint GCodeSpec GCodeProofs GCodeProofs2 PropsGCode BlockSpec BlockProofs Float64 PosSpec PosProofs ModeSpec ModeProofs MachSpec MachProofs MachProofs2 MachProofs3 PropsMach CannedProofs PropsCanned PropsMach2 SimSpec TransSpec TransProofs TransProofs2 ReadBackProofs
  DrillSpec DrillProofs DrillProofs2 DrillProofs3 DrillProofs4 PropsDrill Scripts ScriptArgs ScriptsSpec ScriptsSpec2 ScriptsSpec3 ScriptsSpec5 ScriptsSpec6 ScriptsSpec8 ScriptsSpec11 ScriptsProofs ScriptsProofs2 ScriptsProofs4 ScriptsProofs7 ScriptsProofs8 ScriptsProofs12 ScriptsProofs13 FloatArc FloatArcSpec FloatArcProofs FloatArcProofs2 ScriptsProofs16 ScriptsProofs19.
Import ListNotations.
Local Open Scope nat_scope.

Section WithArith.
Context {ar : Arith} (acc : accurate ar) (LA : laws).
Let ID : idempotent ar := proj1 (proj2 LA).
Lemma motion_only_f g m m1 : ready m -> gcode_wf g -> moving g = true -> gcode_process g m = (m1, Ok tt) ->
  (forall mg, mg <> MG_motion -> gm_get (m_mode m1) mg = gm_get (m_mode m) mg) /\ m_state m1 = m_state m /\ MachProofs2.keeps m m1 /\ ready m1.
Proof.
  intros R W M E. pose proof R as (S & I & Y). assert (G : modal_group (gcls g) = Some MG_motion) by (unfold moving in M; destruct (modal_group (gcls g)) as [[]|]; congruence).
  assert (K : process_kind (gcls g) <> PCancelMotion) by (intros K; apply cancel_class in K; rewrite K in G; discriminate).
  destruct (process_keeps g m S I W) as [IV KP]. pose proof (gcode_process_mode g m (proj1 (proj2 (proj2 (proj2 (proj2 (proj2 S)))))) (proj1 W)) as MD. rewrite E in IV, KP, MD. cbn [fst] in *. split; [|split; [|split; auto]].
  - intros mg N. rewrite MD. unfold mode_effect. destruct (process_kind (gcls g)); try contradiction; unfold set_effect; rewrite G; apply gm_get_set_other; congruence.
  - assert (NC : ~ in_group MG_coordinate_system g) by (unfold in_group; rewrite G; discriminate). rewrite <- (set_for_sync m g Y NC).
    destruct (process_cases g m S W) as [(e & E')|(cs & n & m' & E' & _ & [(_ & F & _)|(Z & _)])]; [congruence| |contradiction]. rewrite E in E'. injection E' as <-. apply F.
Qed.
Lemma distance_classes c : modal_group c = Some MG_distance -> derives c GCodeAbsoluteDistanceMode \/ derives c GCodeIncrementalDistanceMode.
Proof. intros G. destruct c; vm_compute in G; try discriminate G; [left|right]; apply subclass_derives; vm_compute; reflexivity. Qed.
Lemma absolute_mode m : sound m -> absolute m -> abs_mode (mode_class m MG_distance).
Proof.
  intros (_ & _ & _ & _ & _ & MW & _) A. unfold mode_class. destruct (gm_get (m_mode m) MG_distance) as [d|] eqn:E; [|left; reflexivity]. right. exists (gcls d). split; [reflexivity|]. destruct (MW _ _ E) as (G & _). unfold in_group in G. destruct (distance_classes _ G) as [D|D]; auto. destruct (A d E D).
Qed.
Lemma normal_plane m : normal m AZ -> xy_plane (mode_class m MG_plane_selection).
Proof. intros (pl & EQ & I). right. exists (gcls pl). unfold mode_class. rewrite EQ. split; auto. cbn in I. destruct I as [I|[I|[I|[]]]]; try discriminate I; injection I as <-; constructor. Qed.
Lemma xyz_axis m a : m_axes m = xyz -> vget (m_axes m) a = true <-> In a [AX; AY; AZ].
Proof. intros ->. split; [destruct a; vm_compute; intros Q; try discriminate Q; auto|intros [<-|[<-|[<-|[]]]]; reflexivity]. Qed.
Lemma xyz_has_iff m a : sound m -> m_axes m = xyz -> has (m_abs m) a <-> In a [AX; AY; AZ].
Proof. intros ((_ & A0 & _) & _) X. unfold has. rewrite A0. apply xyz_axis. auto. Qed.
Lemma passes_fun gs : forall m ms ms', passes m gs ms -> passes m gs ms' -> ms = ms'.
Proof. induction gs as [|g gs IH]; intros m ms ms' A B; inversion A; inversion B; subst; auto. match goal with H : gcode_process g m = (?x, _), K : gcode_process g m = (?y, _) |- _ => rewrite H in K; injection K as <- end. f_equal. eauto. Qed.

(** ** one cycle *)
Lemma cycle_moves fuel m g j n z0 : ready m -> no_offsets m -> gcode_wf g -> drill_ready fuel m g j n z0 ->
  exists p moves, machine_pos m = Ok p /\ simplify_canned_cycle fuel g p (mode_class m MG_plane_selection) (mode_class m MG_distance) None (m_axes m) = Some (moves, Ok tt) /\
    Forall dmove moves /\ moves <> [] /\ known (pvals p) /\ height (pvals p) z0 /\ lift (pvals p) = pvals p /\ rho (jr j) = jr j /\ rho (jd j) = jd j /\ rho z0 = z0 /\
    aend (pvals p) moves = with_z (top (jr j) (jx j) (jy j) (pvals p) n) z0 /\
    ((jd j <= z0)%Qc -> safe (jr j) (jd j) (pvals p) (jr j) (apath (pvals p) moves) /\ feeds_over j n (apath (pvals p) moves) /\ bottom_reached j n (map snd (apath (pvals p) moves))).
Proof.
  intros R O W (C & CO & AS & NP & JA & DR & NA & RR & RZ & BR & BD & BZ & AB & XY & NM & NR & p & moves & r & EP & HZ & E). pose proof R as (SD & IN & SY).
  destruct (machine_pos_spec m SD) as (p0 & EP' & GS & AXP & PU & _). rewrite EP in EP'. injection EP' as <-. assert (P : place m (pvals p)) by (exists p; auto).
  assert (KN : known (pvals p)). { assert (H : forall a, In a [AX; AY; AZ] -> vget (pvals p) a <> None) by (intros a J; apply (xyz_has_iff m a SD XY) in J; apply (place_has m (pvals p) a SD P) in J as [x ->]; discriminate). repeat split; apply H; cbn; auto. }
  pose proof JA as (x & y & NX & NY & NZ & NRW & JX). assert (Fr : float (jr j)) by (apply (survives_float LZ); [exact ID|apply RR]). assert (Fd : float (jd j)) by (apply (survives_float LZ); [exact ID|apply (NA AZ _ NZ)]).
  assert (EH : end_height None (pvals p) j z0) by (right; split; [left; reflexivity|exact HZ]).
  destruct (expand_absolute fuel g p _ _ None _ j n z0 z0 _ W C CO AS (normal_plane m NM) (absolute_mode m SD AB) JA HZ GS EH DR E) as (gs & EG & D). injection EG as <- ->.
  pose proof (step_down_nonpos g (jr j) (jd j) LA CO W DR) as SN.
  assert (RXY : forall k, readable (Word LX (VFloat (jx j k))) /\ readable (Word LY (VFloat (jy j k)))) by (intros k; destruct (JX k) as [-> ->]; split; [apply (NA AX _ NX)|apply (NA AY _ NY)]).
  assert (Z0 : rho z0 = z0) by (apply (rho_same acc LZ); auto using near_top). exists p, moves. split; auto. split; auto. split; [eapply (drilled_dmoves acc LA); eauto|]. split; [destruct D as [|? ? ? ? _ _]; [lia|]; destruct (Qcltb z0 (jr j)); discriminate|].
  split; auto. split; auto. split; [apply (lift_same _ z0); auto|]. split; [apply (rho_same acc LZ); auto using near_top|]. split; [apply (rho_same acc LZ); auto using near_top; apply (NA AZ _ NZ)|]. split; auto. split.
  - rewrite (drilled_end LA _ _ _ _ _ _ _ _ (or_intror eq_refl) _ _ _ D Fr Fd SN DR (pvals p) z0 KN HZ (or_introl eq_refl) NP). do 2 f_equal. lia.
  - intros DS. destruct (drilled_spec LA _ _ _ _ _ _ _ _ (or_intror eq_refl) _ _ _ D Fr Fd SN DR DS (pvals p) z0 (jr j) KN HZ (or_introl eq_refl) (Qcle_refl _)) as (S & OV & B & _). split; auto. split.
    + intros c v I L. destruct (OV c v I L) as (k & z & Q & ->). exists k. split; [lia|]. apply top_over; auto.
    + intros i Q. exists (with_z (top (jr j) (jx j) (jy j) (pvals p) i) (jd j)). split; [apply in_map_iff; exists (GCodeLinearMove, with_z (top (jr j) (jx j) (jy j) (pvals p) i) (jd j)); split; [reflexivity|apply B; lia]|]. split; [apply top_over; auto|apply with_z_height].
Qed.
Lemma as_read_all moves : Forall dmove moves -> Forall (fun g => plain_f g /\ forall a x, names g a x -> float x) (map as_read moves).
Proof. induction 1; cbn [map]; constructor; auto. apply (as_read_form acc LA); auto. Qed.
Lemma cycle_stands_f fuel m g j n z0 : ready m -> no_offsets m -> gcode_wf g -> drill_ready fuel m g j n z0 ->
  exists p moves, machine_pos m = Ok p /\ simplify_canned_cycle fuel g p (mode_class m MG_plane_selection) (mode_class m MG_distance) None (m_axes m) = Some (moves, Ok tt) /\ stands_for m g moves (map as_read moves).
Proof.
  intros R O W DY. destruct (cycle_moves fuel m g j n z0 R O W DY) as (p & moves & EP & E & DM & NE & KN & HZ & LV & _ & _ & Z0 & AE & _). exists p, moves. split; auto. split; auto.
  pose proof DY as (C & CO & AS & NP & JA & DR & NA & RR & RZ & BR & BD & BZ & AB & XY & NM & NR & _). pose proof JA as (x & y & NX & NY & NZ & NRW & JX). pose proof R as (SD & IN & SY). assert (P : place m (pvals p)) by (exists p; auto).
  split; [eapply Forall_impl; [|exact DM]; intros h H; apply (dmove_form acc); auto|]. split; [apply (reads_all acc); auto|].
  destruct (run_f LA (map as_read moves) (as_read_all moves DM) m (pvals p) R AB O P) as (ms & PS & FS & R2 & A2 & O2 & K2 & T2 & M2 & F2 & P2). cbn zeta in *. set (m2 := last ms m) in *.
  destruct (read_path moves DM (pvals p) KN) as [_ RE]. rewrite LV in RE. rewrite RE, AE, lift_with, Z0 in P2.
  assert (HZA : has (m_abs m) AZ) by (apply xyz_has_iff; cbn; auto). pose proof (asked_loops g n AS NP) as LO.
  destruct (C49_float ar m g AZ n ID SD SY O AB W C NM HZA LO (fun Q => False_ind _ (NR Q))) as (m1 & E1 & PX & PO & PZ & _). pose proof (canned_floating LA g m AZ n SD W C NM HZA LO NR) as FL. rewrite E1 in FL. cbn [fst] in FL.
  destruct (motion_only_f g m m1 R W (canned_motion g C) E1) as (M1 & T1 & K1 & R1). pose proof R1 as (S1 & _). pose proof R2 as (S2 & _). pose proof K1 as (K11 & K12 & _ & _ & K13). pose proof K2 as (K21 & K22 & _ & _ & K23).
  exists m1, ms. split; auto. split; auto. fold m2. split; [intros mg N; rewrite M1, M2; auto|]. split; [congruence|]. split; [|split; congruence].
  apply (same_abs_f LA m1 m2 (with_z (top (jr j) (jx j) (jy j) (pvals p) n) z0)); auto; try congruence; [apply (no_offsets_same m); auto|apply F2; destruct moves; [contradiction|discriminate]|].
  assert (X1 : m_axes m1 = xyz) by congruence. destruct (JX n) as [JXn JYn].
  apply place_intro; auto.
  - intros a Ha. apply (xyz_has_iff m1 a S1 X1) in Ha. assert (Hm : has (m_abs m) a) by (apply xyz_has_iff; auto). destruct Ha as [<-|[<-|[<-|[]]]].
    + exists x. split; [rewrite <- JXn; apply top_over; auto|]. apply PX; auto; [discriminate|]. apply (survives_float LX); [exact ID|apply (NA AX _ NX)].
    + exists y. split; [rewrite <- JYn; apply top_over; auto|]. apply PX; auto; [discriminate|]. apply (survives_float LY); [exact ID|apply (NA AY _ NY)].
    + exists z0. split; [apply with_z_height|]. apply PZ; auto. apply (place_at m (pvals p) SD P). exact HZ.
  - intros a Ha. assert (Hm : ~ has (m_abs m) a) by (intros Q; apply Ha; apply (xyz_has_iff m1 a S1 X1); apply (xyz_has_iff m a SD XY); auto).
    assert (N : ~ In a [AX; AY; AZ]) by (intros Q; apply Hm; apply xyz_has_iff; auto). assert (V : vget (pvals p) a = None) by (destruct (vget (pvals p) a) eqn:Q; auto; exfalso; apply Hm; apply (place_has m (pvals p) a SD P); eauto).
    rewrite <- V. unfold with_z, top, with_xy. rewrite !vget_vset. destruct a; cbn; auto; exfalso; apply N; cbn; auto.
Qed.
(** ** lines *)
Context (L : mathlib) (LW : lawful L).
Lemma arc_of_swapped o m g methods precision : expanding o -> gcode_wf g -> swapped o g -> arc_ready L methods precision m g -> o_linearize o <> None.
Proof.
  intros X W [[H _]|[_ N]] (D & _); auto. destruct X as (_ & _ & _ & _ & _ & _ & _ & _ & _ & _ & XC). destruct (canned_not_arc g (XC g W N) D).
Qed.
Lemma tractable_both methods precision o fuel s l m : expanding o -> (forall f, o_linearize o = Some f -> f = norm_linearize L methods precision) -> mk_line s = Ok l -> ready m -> (forall k, MachProofs2.keeps m k -> no_offsets k) ->
  replaceable L methods precision o fuel m l -> tractable o fuel m l.
Proof.
  intros X O ML R OK (gs & B & [H|(a & g & b & ms & E & SW & FI & MA & PA & AR)]); exists gs; split; auto. right. pose proof (modal_wf_any s l m gs ML (proj1 R) B) as W. rewrite E in W. apply Forall_app in W as [Wa W]. inversion W as [|? ? Wg Wb]; subst.
  pose proof (passes_ready_any a Wa m ms R PA) as RD. destruct AR as [AR|(j & n & z0 & DY)].
  - destruct (arc_stands acc ID L LW methods precision (last ms m) g RD Wg AR) as (moves & moves' & EM & ST). exists a, g, b, moves, moves', ms. split; auto. split; auto. split; auto. split; auto. split; auto. split; auto.
    left. split; [apply AR|]. exists (norm_linearize L methods precision). split; auto. pose proof (arc_of_swapped o (last ms m) g methods precision X Wg SW AR) as N. destruct (o_linearize o) as [f|]; [|congruence]. rewrite (O f eq_refl). reflexivity.
  - assert (OF : no_offsets (last ms m)). { apply OK. pose proof R as (S & IN & _). pose proof (passes_end _ _ _ PA) as PE. destruct (steps_inv a m S IN Wa) as (_ & _ & _ & KP). rewrite PE in KP. exact KP. }
    destruct (cycle_stands_f fuel (last ms m) g j n z0 RD OF Wg DY) as (p & moves & EP & SI & ST). exists a, g, b, moves, (map as_read moves), ms. split; auto. split; auto. split; auto. split; auto. split; auto. split; auto. right. split; [apply DY|]. exists p. auto.
Qed.
Lemma line_keeps s l m m1 : mk_line s = Ok l -> ready m -> process_block (lblock l) m = (m1, Ok tt) -> ready m1 /\ MachProofs2.keeps m m1.
Proof.
  intros ML (S & I & Y) P. destruct (mk_line_block _ _ ML) as (bs & MB). destruct (mk_block_wf _ _ _ MB) as [F0 W]. destruct (process_gcodes_inv (bgcodes (lblock l)) (bmodal (lblock l)) m S I F0 W) as (A & B & C & K). unfold process_block in P. rewrite P in A, B, C, K. cbn [fst] in *. split; auto. split; auto.
Qed.
Lemma tractable_both_reading methods precision o fuel file : expanding o -> (forall f, o_linearize o = Some f -> f = norm_linearize L methods precision) -> forall m tr, ready m -> (forall k, MachProofs2.keeps m k -> no_offsets k) -> reading m file tr ->
  Forall (fun x => replaceable L methods precision o fuel (fst x) (snd x)) (from_states m tr) -> Forall (fun x => tractable o fuel (fst x) (snd x)) (from_states m tr).
Proof.
  intros X O. induction file as [|s r IH]; intros m tr R OK RD F; [apply reading_empty in RD; subst; constructor|]. apply reading_step in RD as (l & m1 & tr1 & ML & P & RD & <-). cbn [from_states] in *. inversion F as [|? ? F1 F2]; subst. cbn [fst snd] in F1.
  constructor; [apply (tractable_both methods precision o fuel s l m); auto|]. destruct (line_keeps s l m m1 ML R P) as [R1 K1]. apply IH; auto. intros k K. apply OK. eapply MachProofs2.keeps_trans; eauto.
Qed.
(** ** the drilling as printed *)
Lemma place_resumed m n v : resumed m n -> place m v -> place n v.
Proof. intros (_ & ST & AB & AX3 & _) (p & E & V). exists p. split; auto. unfold machine_pos, abs2work, coord_sys_offset in *. rewrite <- ST, <- AB, <- AX3. exact E. Qed.
Lemma spots_along gs : forall v ms part, Forall2 (fun n (s : spot) => place n (snd s)) ms (apath v gs) -> Forall2 (fun n (y : line * machine) => resumed n (snd y)) ms part -> Forall2 (fun h (y : line * machine) => in_mode_of h (snd y)) gs part ->
  Forall2 (fun (z : line * machine) s => at_spot (snd z) s) part (apath v gs).
Proof.
  induction gs as [|g gs IH]; intros v ms part F R M; cbn [apath] in *; inversion M as [|? y ? part' M1 M2]; subst; constructor; inversion R as [|n0 y0 ms' p' R1 R2]; subst; inversion F as [|? ? ? ? F1 F2]; subst; [|eapply IH; eauto].
  split; [eapply place_resumed; eauto|]. destruct M1 as (mo & MO & CM & _). exists mo. auto.
Qed.
Lemma feeds_lift j n l : feeds_over j n l -> feeds_over j n (map lifted l).
Proof.
  intros F c v I D. apply in_map_iff in I as ([c' v'] & E & I). unfold lifted in E. cbn [fst snd] in E. injection E as <- <-. destruct (F c' v' I D) as (i & Q & OX & OY). exists i. split; auto. split; rewrite lift_other by discriminate; auto.
Qed.
Lemma bottom_lift j n l : rho (jd j) = jd j -> bottom_reached j n (map snd l) -> bottom_reached j n (map snd (map lifted l)).
Proof.
  intros E B i Q. destruct (B i Q) as (v & I & (OX & OY) & H). apply in_map_iff in I as ([c v'] & V & I). cbn [snd] in V. subst v'. exists (lift v). split; [apply in_map_iff; exists (c, lift v); split; auto; apply in_map_iff; exists (c, v); auto|].
  split; [split; rewrite lift_other by discriminate; auto|]. rewrite <- E. apply lift_at. auto.
Qed.
Lemma apath_last gs : gs <> [] -> forall v, exists b c, apath v gs = b ++ [(c, aend v gs)].
Proof.
  induction gs as [|g gs IH]; intros N v; [contradiction|]. cbn [apath aend]. destruct gs as [|h hs]; [exists [], (gcls g); reflexivity|]. destruct (IH ltac:(discriminate) (moved_abs g v)) as (b & c & E). exists ((gcls g, moved_abs g v) :: b), c. rewrite E. reflexivity.
Qed.
Lemma line_drilled o fuel m x part : ready m -> (forall k, MachProofs2.keeps m k -> no_offsets k) -> carried o fuel m x part -> drilled_line o fuel m x part.
Proof.
  intros R OK CA. destruct CA as [y SL RS _|a g b moves moves' before ms p1 y p2 p3 z part FG WW SW PA MF RM PS EP G1 GY RY FR FM G3 _ _ _ _]; [left; eauto|]. right. exists a, g, b, before, p1, y, p2, p3. repeat (split; [solve [auto]|]).
  intros j n z0 DY DS. apply Forall_app in WW as [WA WG]. inversion WG as [|? ? Wg _]; subst. pose proof (passes_ready_any a WA m before R PA) as RL.
  assert (OL : no_offsets (last before m)). { apply OK. pose proof R as (S & IN & _). pose proof (passes_end _ _ _ PA) as PE. destruct (steps_inv a m S IN WA) as (_ & _ & _ & KP). rewrite PE in KP. exact KP. }
  destruct (cycle_moves fuel (last before m) g j n z0 RL OL Wg DY) as (p & mv & EP & E & DM & NE & KN & HZ & LV & RR & RD & Z0 & AE & SF).
  assert (moves = mv). { destruct MF as [(D & _)|(_ & q & EQ & E')]; [destruct (canned_not_arc g (proj1 DY) D)|]. rewrite EP in EQ. injection EQ as <-. rewrite E in E'. injection E' as ->. reflexivity. } subst mv.
  pose proof (reads_only acc moves moves' DM RM) as EM. subst moves'. assert (P : place (last before m) (pvals p)) by (exists p; auto). pose proof DY as (_ & _ & _ & _ & _ & _ & _ & _ & _ & _ & _ & _ & AB & _).
  destruct (run_f LA (map as_read moves) (as_read_all moves DM) (last before m) (pvals p) RL AB OL P) as (ms' & PS' & FS & _). rewrite <- (passes_fun _ _ _ _ PS PS') in FS. clear ms' PS'.
  destruct (read_path moves DM (pvals p) KN) as [RP RE]. rewrite LV in RP, RE. destruct (SF DS) as (S & FO & BR).
  exists (pvals p), (map lifted (apath (pvals p) moves)). split; auto. split; [eapply place_resumed; eauto|]. split; auto. split; [rewrite <- RP; eapply spots_along; eauto|].
  split; [pose proof (safe_lift LA _ _ _ _ _ S) as SL; rewrite RR, RD, LV in SL; exact SL|]. split; [apply feeds_lift; auto|]. split; [apply bottom_lift; auto|].
  destruct (apath_last (map as_read moves) ltac:(destruct moves; [contradiction|discriminate]) (pvals p)) as (bf & c & EL). rewrite RP, RE, AE, lift_with, Z0 in EL. exists bf, c, (with_z (top (jr j) (jx j) (jy j) (pvals p) n) z0). split; auto. split; [apply top_over; auto|apply with_z_height].
Qed.
Lemma lines_drilled o fuel file : forall m tr parts, ready m -> (forall k, MachProofs2.keeps m k -> no_offsets k) -> reading m file tr -> carried_over o fuel m tr parts -> drilled_lines o fuel m tr parts.
Proof.
  induction file as [|s r IH]; intros m tr parts R OK RD CO; [apply reading_empty in RD; subst; inversion CO; constructor|]. apply reading_step in RD as (l & m1 & tr1 & ML & P & RD & <-). inversion CO as [|? ? ? ? part parts' CA CO']; subst.
  constructor; [eapply line_drilled; eauto|]. destruct (line_keeps s l m m1 ML R P) as [R1 K1]. apply IH; auto. intros k K. apply OK. eapply MachProofs2.keeps_trans; eauto.
Qed.
End WithArith.
