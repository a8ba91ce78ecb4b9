(** The moves that --arc_linearize prints for an arc lead where the arc leads. *)
From Coq Require Import Ascii String List Bool Arith ZArith QArith Qcanon Qabs Permutation Lia.
From Verif Require Import Base Num Words GTable GCode Line Position Machine Transform BaseFacts WordOrder ArithSpec WordsSpec LineSpec PrintSpec PrintProofs PrintProofs2 PropsPrint GCodeSpec GCodeProofs GCodeProofs2 PropsGCode BlockSpec BlockProofs Float64 PosSpec PosProofs ModeSpec ModeProofs MachSpec MachProofs MachProofs2 MachProofs3 PropsMach CannedProofs PropsMach2 SimSpec TransSpec TransProofs TransProofs2 ReadBackProofs
  Scripts ScriptArgs ScriptsSpec ScriptsSpec2 ScriptsSpec3 ScriptsSpec5 ScriptsSpec6 ScriptsSpec8 ScriptsProofs ScriptsProofs4 ScriptsProofs7 ScriptsProofs8 ScriptsProofs12 FloatArc FloatArcSpec FloatArcProofs FloatArcProofs2.
Import ListNotations.
Local Open Scope nat_scope.

Section WithArith.
Context {ar : Arith}.
Lemma modal_wf_any s l m gs : mk_line s = Ok l -> sound m -> block_modal_gcodes m (lblock l) = Ok gs -> Forall gcode_wf gs.
Proof.
  intros L S. destruct (mk_line_block _ _ L) as (bs & MB). destruct (mk_block_wf _ _ _ MB) as [F W]. unfold block_modal_gcodes. destruct (machine_modal_gcode m (bmodal (lblock l))) as [og|] eqn:E; cbn [bind]; [|discriminate]. intros Q. injection Q as <-.
  apply sort_wf. apply Forall_app. split; auto. destruct og as [g|]; constructor; auto. eapply modal_gcode_wf; eauto.
Qed.
Lemma passes_ready_any gs : Forall gcode_wf gs -> forall m ms, ready m -> passes m gs ms -> ready (last ms m).
Proof. intros F m ms (S & I & Y) P. apply passes_end in P. destruct (steps_inv gs m S I F) as (A & B & C & _). rewrite P in A, B, C. cbn [fst] in *. split; auto. Qed.

(** ** one move *)
Definition mover (g : gcode) : Prop := process_kind (gcls g) = PMove /\ in_group MG_motion g.
Lemma arc_mover g : derives (gcls g) GCodeArcMove -> mover g.
Proof. intros D. apply subclass_derives in D. unfold mover, in_group. revert D. destruct (gcls g); vm_compute; intros D; try discriminate D; split; reflexivity. Qed.
Lemma g1_mover v : mover (g1 v). Proof. split; reflexivity. Qed.
(** in absolute mode an axis ends where the word says, or where it was *)
Lemma mover_step g m : ready m -> gcode_wf g -> mover g -> absolute m -> exists m1, gcode_process g m = (m1, Ok tt) /\ ready m1 /\ keeps m m1 /\ m_state m1 = m_state m /\
  (forall mg, mg <> MG_motion -> gm_get (m_mode m1) mg = gm_get (m_mode m) mg) /\
  forall a, has (m_abs m) a -> (forall x, names g a x -> pval (m_abs m1) a = apos_of m a x) /\ ((forall x, ~ names g a x) -> pval (m_abs m1) a = apos_of m a (wpos_of m a (pval (m_abs m) a))).
Proof.
  intros R W (K & G) AB. pose proof R as (S & I & Y). destruct (process_move g m S W K) as (m1 & E & SF & S1 & U1 & V1 & I1 & _). exists m1. split; auto. destruct (process_keeps g m S I W) as [IV KP]. pose proof (gcode_process_mode g m (proj1 (proj2 (proj2 (proj2 (proj2 (proj2 S)))))) (proj1 W)) as MD. rewrite E in IV, KP, MD. cbn [fst] in *.
  assert (NC : ~ in_group MG_coordinate_system g) by (unfold in_group in *; rewrite G; discriminate). pose proof (set_for_sync m g Y NC) as ST. assert (ST1 : m_state m1 = m_state m) by (rewrite <- ST; apply SF).
  assert (MM : forall mg, mg <> MG_motion -> gm_get (m_mode m1) mg = gm_get (m_mode m) mg) by (intros mg N; rewrite MD; unfold mode_effect; rewrite K; unfold set_effect; rewrite G; apply gm_get_set_other; congruence).
  split; auto. split; auto. split; auto. split; auto.
  assert (SA : m_abs (set_for m g) = m_abs m) by apply set_for_pos. assert (SX : m_axes (set_for m g) = m_axes m) by apply set_for_pos.
  assert (OF : forall a x, apos_of (set_for m g) a x = apos_of m a x /\ wpos_of (set_for m g) a x = wpos_of m a x) by (intros a x; unfold apos_of, wpos_of, system_offset, temp_offset; rewrite ST; auto).
  assert (AI : is_incremental (set_for m g) = false).
  { apply absolute_iff. intros d D. apply (AB d). rewrite <- D, <- (MM MG_distance) by discriminate. destruct SF as (-> & _). reflexivity. }
  intros a Ha. specialize (V1 a). rewrite SA in V1. specialize (V1 Ha). unfold shift, target in V1. rewrite AI in V1. destruct (gcode_coords_spec (set_for m g) g W) as [_ CS].
  assert (HA : vget (m_axes m) a = true) by (pose proof S as ((_ & A0 & _) & _); unfold has in Ha; congruence). split.
  - intros x N. assert (C : coord_at (gcode_coords (set_for m g) g) a = Some x) by (apply CS; rewrite SX; auto). rewrite C in V1. rewrite V1. apply OF.
  - intros N. destruct (coord_at (gcode_coords (set_for m g) g) a) as [x|] eqn:C; [apply CS in C as [_ C]; destruct (N x C)|]. rewrite V1. rewrite (proj1 (OF a _)), (proj2 (OF a _)). reflexivity.
Qed.
Lemma absolute_kept m m1 : (forall mg, mg <> MG_motion -> gm_get (m_mode m1) mg = gm_get (m_mode m) mg) -> absolute m -> absolute m1.
Proof. intros E A g G. apply A. rewrite <- E by discriminate. exact G. Qed.
Lemma has_kept m m1 a : sound m -> sound m1 -> m_axes m1 = m_axes m -> has (m_abs m) a -> has (m_abs m1) a.
Proof. intros ((_ & A & _) & _) ((_ & A1 & _) & _) E. unfold has. congruence. Qed.
(** ** moves with X, Y and Z end where the last one says *)
Context (acc : accurate ar).
Lemma g1_wf v : gcode_wf (g1 v). Proof. apply (g1_linear acc v). Qed.
Lemma linear_passes vs : forall m, ready m -> absolute m -> exists ms, passes m (map g1 vs) ms /\ let m1 := last ms m in ready m1 /\ absolute m1 /\ keeps m m1 /\ m_state m1 = m_state m /\ (forall mg, mg <> MG_motion -> gm_get (m_mode m1) mg = gm_get (m_mode m) mg).
Proof.
  induction vs as [|v vs IH]; intros m R A; cbn [map].
  - exists []. split; [constructor|]. cbn [last]. split; auto. split; auto. split; auto using keeps_refl.
  - destruct (mover_step (g1 v) m R (g1_wf v) (g1_mover v) A) as (m1 & E & R1 & K1 & T1 & M1 & _). destruct (IH m1 R1 (absolute_kept _ _ M1 A)) as (ms & P & R2 & A2 & K2 & T2 & M2). exists (m1 :: ms). split; [econstructor; eauto|]. rewrite last_cons. cbn zeta in *.
    split; auto. split; auto. split; [eapply keeps_trans; eauto|]. split; [congruence|]. intros mg N. rewrite M2, M1; auto.
Qed.
(** what is read back *)
Lemma g1_word v : readable (gword (g1 v)).
Proof.
  split; [|intros x E; discriminate E]. change (gword (g1 v)) with (Word LG (VFloat (rnd (Qc_of_Z 1)))). replace (Qc_of_Z 1) with (tenths 10) by (apply Qceqb_eq; reflexivity). apply (code_survives acc); [reflexivity|lia].
Qed.
Lemma coord_reads a (x : Qc) : In a [AX; AY; AZ] -> (Qabs x <= 999999)%Q -> exists y, reads_as (Word (axis_letter a) (VFloat x)) (Word (axis_letter a) (VFloat y)).
Proof.
  intros I B. destruct (C06_error ar (axis_letter a) x acc) as (y & E & _); auto; [destruct a; reflexivity|]. exists y. split; [reflexivity|]. split; [exact E|]. intros s Q. discriminate Q.
Qed.
Lemma g1_read v w : (forall a, In a [AX; AY; AZ] -> reads_as (Word (axis_letter a) (VFloat (coord a v))) (Word (axis_letter a) (VFloat (coord a w)))) -> read_move (g1 v) (g1 w).
Proof.
  intros H. split; [reflexivity|]. split; [reflexivity|]. split; [reflexivity|]. split; [apply g1_word|]. cbn [gparams g1].
  constructor; [split; [reflexivity|exact (H AX ltac:(cbn; auto))]|]. constructor; [split; [reflexivity|exact (H AY ltac:(cbn; auto))]|]. constructor; [split; [reflexivity|exact (H AZ ltac:(cbn; auto))]|constructor].
Qed.
Lemma g1s_read vs : Forall (fun h => forall a x, names h a x -> (Qabs x <= 999999)%Q) (map g1 vs) -> exists ws, Forall2 read_move (map g1 vs) (map g1 ws).
Proof.
  induction vs as [|v vs IH]; intros F; cbn [map] in *; [exists []; constructor|]. inversion F as [|? ? F1 F2]; subst. destruct (IH F2) as (ws & R).
  assert (C : forall a, In a [AX; AY; AZ] -> exists y, reads_as (Word (axis_letter a) (VFloat (coord a v))) (Word (axis_letter a) (VFloat y))) by (intros a I; apply coord_reads; auto; apply (F1 a); apply g1_names; auto).
  destruct (C AX) as (x & X); [cbn; auto|]. destruct (C AY) as (y & Y); [cbn; auto|]. destruct (C AZ) as (z & Z); [cbn; auto|]. exists (FV x y z :: ws). cbn [map]. constructor; auto. apply g1_read. intros a [<-|[<-|[<-|[]]]]; auto.
Qed.
(** ** the arc and its moves *)
Context (ID : idempotent ar) (L : mathlib) (LW : lawful L).
Lemma arc_stands methods precision m g : ready m -> gcode_wf g -> arc_ready L methods precision m g -> exists moves moves', norm_linearize L methods precision m g = (moves, Ok tt) /\ stands_for m g moves moves'.
Proof.
  intros R W (D & AB & AX3 & RE & moves & E & BD). pose proof R as (S & I & Y). exists moves. destruct (machine_pos_spec m S) as (p & EP & GP & AXP & _ & VP). pose proof E as E0. unfold norm_linearize in E. rewrite EP in E. destruct (lin_method methods (gword g)) as [c|]; [|discriminate].
  assert (XYZ : forall a, In a [AX; AY; AZ] <-> vget (m_axes m) a = true) by (intros a; rewrite AX3; split; [intros [<-|[<-|[<-|[]]]]; reflexivity|destruct a; vm_compute; intros Q; try discriminate Q; auto]). assert (HAS : forall a, In a [AX; AY; AZ] -> has (m_abs m) a) by (intros a J; apply XYZ in J; pose proof S as ((_ & A0 & _) & _); unfold has; congruence).
  assert (PV : forall a, In a [AX; AY; AZ] -> vget (pvals p) a = Some (wpos_of m a (pval (m_abs m) a))).
  { intros a J. rewrite <- VP by auto. assert (HP : has p a) by (unfold has; rewrite AXP; apply XYZ; exact J). unfold pval. destruct (vget (pvals p) a) eqn:V; [reflexivity|]. exfalso. apply (GP a) in V. contradiction. }
  assert (FA : float_arc g p).
  { split.
    - intros a x J N. apply (survives_float (axis_letter a) x ID). apply (RE p a x EP J). left. exact N.
    - intros a x J V. rewrite PV in V by auto. injection V as <-. apply ID. }
  assert (DA : in_absolute (mode_class m MG_distance)).
  { unfold mode_class in *. destruct (gm_get (m_mode m) MG_distance) as [d|] eqn:MD; [|left; reflexivity]. right. exists (gcls d). split; [reflexivity|]. cbn [option_map] in E. unfold linearize_arc in E. destruct (_ || _) eqn:Q; [discriminate|]. apply orb_false_iff in Q as [Q _]. apply negb_false_iff in Q. apply andb_prop in Q as [Q _]. apply andb_prop in Q as [_ Q]. apply orb_prop in Q as [Q|Q]; apply subclass_derives in Q; auto. destruct (AB d MD Q). }
  destruct (absolute_end L acc LW g p _ _ _ _ _ _ W FA DA E) as (vs & v & EM & EX & EY & EZ). subst moves.
  assert (EN : forall a, In a [AX; AY; AZ] -> ends_at g p a (coord a v)) by (intros a [<-|[<-|[<-|[]]]]; auto). apply Forall_app in BD as [BD _]. destruct (g1s_read vs BD) as (ws & RM). exists (map g1 ws ++ [g1 v]). split; [exact E0|].
  assert (RL : read_move (g1 v) (g1 v)) by (apply g1_read; intros a J; apply readable_reads; apply (RE p a _ EP J (EN a J))).
  split; [|split; [apply Forall2_app; [exact RM|constructor; [exact RL|constructor]]|]].
  - change [g1 v] with (map g1 [v]). rewrite <- map_app. apply Forall_forall. intros h J. apply in_map_iff in J as (u & <- & _). split; [right; apply der_self|]. split; [discriminate|]. split; [apply g1_wf|reflexivity].
  - destruct (mover_step g m R W (arc_mover g D) AB) as (m1 & E1 & R1 & K1 & T1 & M1 & V1). destruct (linear_passes ws m R AB) as (ms & PS & R2 & A2 & K2 & T2 & M2). cbn zeta in *. set (n := last ms m) in *.
    destruct (mover_step (g1 v) n R2 (g1_wf v) (g1_mover v) A2) as (n1 & E3 & R3 & K3 & T3 & M3 & V3). exists m1, (ms ++ [n1]). split; auto. split; [|rewrite last_last].
    + clear -PS E3. subst n. revert m ms PS E3. induction (map g1 ws) as [|h hs IH]; intros m ms PS E3; inversion PS; subst; cbn [app]; [econstructor; [exact E3|constructor]|]. econstructor; [eassumption|]. apply IH; auto. rewrite last_cons in E3. exact E3.
    + pose proof K1 as (K11 & K12 & _ & _ & K13). pose proof K2 as (K21 & K22 & _ & _ & K23). pose proof K3 as (K31 & K32 & _ & _ & K33). split; [intros mg N; rewrite M1, M3, M2; auto|]. split; [congruence|].
      assert (AXE : m_axes m1 = m_axes n1) by congruence. split; [|split; [exact AXE|congruence]].
      pose proof (proj1 R1) as S1. pose proof (proj1 R3) as S3. pose proof S1 as ((G1 & A1 & _) & _). pose proof S3 as ((G3 & A3 & _) & _). apply pos_ext; auto; [congruence|congruence|]. intros a Ha. assert (J : In a [AX; AY; AZ]) by (apply XYZ; unfold has in Ha; congruence).
      assert (Hn : has (m_abs n) a) by (apply (has_kept m n a S (proj1 R2)); [congruence|auto]). destruct (V3 a Hn) as [V31 _]. rewrite (V31 (coord a v)) by (apply g1_names; auto).
      assert (AP : forall x, apos_of n a x = apos_of m a x) by (intros x; unfold apos_of, system_offset, temp_offset; rewrite T2; reflexivity). rewrite AP. destruct (V1 a (HAS a J)) as [V11 V12]. destruct (EN a J) as [N|[N V]]; [apply V11; exact N|]. rewrite (V12 N). rewrite PV in V by auto. injection V as <-. reflexivity.
Qed.
(** ** lines *)
Lemma tractable_arcs methods precision o fuel s l m : o_linearize o = Some (norm_linearize L methods precision) -> mk_line s = Ok l -> ready m -> linearizable L methods precision o m l -> tractable o fuel m l.
Proof.
  intros O ML R (gs & B & [H|(a & g & b & ms & E & SW & FI & MA & PA & AR)]); exists gs; split; auto. right. pose proof (modal_wf_any s l m gs ML (proj1 R) B) as W. rewrite E in W. apply Forall_app in W as [Wa W]. inversion W as [|? ? Wg Wb]; subst.
  pose proof (passes_ready_any a Wa m ms R PA) as RD. destruct (arc_stands methods precision (last ms m) g RD Wg AR) as (moves & moves' & EM & ST). exists a, g, b, moves, moves', ms. split; auto. split; auto. split; auto. split; auto. split; auto. split; auto.
  left. split; [apply AR|]. exists (norm_linearize L methods precision). auto.
Qed.
Lemma tractable_arcs_reading methods precision o fuel file : o_linearize o = Some (norm_linearize L methods precision) -> forall m tr, ready m -> reading m file tr ->
  Forall (fun x => linearizable L methods precision o (fst x) (snd x)) (from_states m tr) -> Forall (fun x => tractable o fuel (fst x) (snd x)) (from_states m tr).
Proof.
  intros O. induction file as [|s r IH]; intros m tr R RD F; [apply reading_empty in RD; subst; constructor|]. apply reading_step in RD as (l & m1 & tr1 & ML & P & RD & <-). cbn [from_states] in *. inversion F as [|? ? F1 F2]; subst. cbn [fst snd] in F1.
  constructor; [apply (tractable_arcs methods precision o fuel s l m); auto|]. apply IH; auto. destruct R as (S & I & Y). destruct (mk_line_block _ _ ML) as (bs & MB). destruct (mk_block_wf _ _ _ MB) as [F0 W]. destruct (process_gcodes_inv (bgcodes (lblock l)) (bmodal (lblock l)) m S I F0 W) as (A & B & C & _). unfold process_block in P. rewrite P in A, B, C. split; auto.
Qed.
End WithArith.
