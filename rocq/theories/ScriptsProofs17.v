(** The moves that --arc_linearize prints for an arc in incremental mode, in exact arithmetic, lead where the arc leads. *)
From Coq Require Import Ascii String List Bool Arith ZArith QArith Qcanon Qabs Permutation Lia Lqa.
From Verif Require Import Base Num Words GTable GCode Line Position Machine Transform BaseFacts NumFacts WordOrder ArithSpec WordsSpec LineSpec PrintSpec PrintProofs PrintProofs2 PropsPrint GCodeSpec GCodeProofs GCodeProofs2 PropsGCode BlockSpec BlockProofs Float64 PosSpec PosProofs ModeSpec ModeProofs MachSpec MachProofs MachProofs2 MachProofs3 PropsMach CannedProofs DrillProofs PropsMach2 SimSpec TransSpec TransProofs TransProofs2 ReadBackProofs
  Scripts ScriptArgs ScriptsSpec ScriptsSpec2 ScriptsSpec3 ScriptsSpec5 ScriptsSpec6 ScriptsSpec8 ScriptsSpec9 ScriptsProofs ScriptsProofs4 ScriptsProofs7 ScriptsProofs8 ScriptsProofs12 ScriptsProofs16 FloatArc FloatArcSpec FloatArcProofs FloatArcProofs2 PropsFloatArc PropsFloatArc3.
Import ListNotations.
Local Open Scope nat_scope.
Local Existing Instance exact_arith.

Lemma exact_places m a x y : apos_of m a (fadd (wpos_of m a x) y) = (x + y)%Qc.
Proof. unfold apos_of, wpos_of, fadd, fsub. change (@rnd exact_arith) with (fun z : Qc => z). cbn beta. ring. Qed.
(** in incremental mode an axis moves by what the word says, or not at all *)
Lemma mover_by g m : ready m -> gcode_wf g -> mover g -> incremental m -> exists m1, gcode_process g m = (m1, Ok tt) /\ ready m1 /\ keeps m m1 /\ m_state m1 = m_state m /\
  (forall mg, mg <> MG_motion -> gm_get (m_mode m1) mg = gm_get (m_mode m) mg) /\
  forall a x, has (m_abs m) a -> leads g a x -> pval (m_abs m1) a = (pval (m_abs m) a + x)%Qc.
Proof.
  intros R W (K & G) AB. pose proof R as (S & I & Y). destruct (process_move g m S W K) as (m1 & E & SF & S1 & U1 & V1 & I1 & _). exists m1. split; auto. destruct (process_keeps g m S I W) as [IV KP]. pose proof (gcode_process_mode g m (proj1 (proj2 (proj2 (proj2 (proj2 (proj2 S)))))) (proj1 W)) as MD. rewrite E in IV, KP, MD. cbn [fst] in *.
  assert (NC : ~ in_group MG_coordinate_system g) by (unfold in_group in *; rewrite G; discriminate). pose proof (set_for_sync m g Y NC) as ST. assert (ST1 : m_state m1 = m_state m) by (rewrite <- ST; apply SF).
  assert (MM : forall mg, mg <> MG_motion -> gm_get (m_mode m1) mg = gm_get (m_mode m) mg) by (intros mg N; rewrite MD; unfold mode_effect; rewrite K; unfold set_effect; rewrite G; apply gm_get_set_other; congruence).
  split; auto. split; auto. split; auto. split; auto.
  assert (SA : m_abs (set_for m g) = m_abs m) by apply set_for_pos. assert (SX : m_axes (set_for m g) = m_axes m) by apply set_for_pos.
  assert (AI : is_incremental (set_for m g) = true).
  { apply is_incremental_iff. destruct AB as (d & D & DD). exists d. split; auto. rewrite <- D, <- (MM MG_distance) by discriminate. destruct SF as (-> & _). reflexivity. }
  intros a x Ha LD. specialize (V1 a). rewrite SA in V1. specialize (V1 Ha). unfold shift, target in V1. rewrite AI, exact_places in V1. rewrite V1. f_equal. destruct (gcode_coords_spec (set_for m g) g W) as [_ CS].
  assert (HA : vget (m_axes m) a = true) by (pose proof S as ((_ & A0 & _) & _); unfold has in Ha; congruence). destruct LD as [N|[N ->]].
  - assert (C : coord_at (gcode_coords (set_for m g) g) a = Some x) by (apply CS; rewrite SX; auto). rewrite C. reflexivity.
  - destruct (coord_at (gcode_coords (set_for m g) g) a) as [x|] eqn:C; [apply CS in C as [_ C]; destruct (N x C)|]. reflexivity.
Qed.
Lemma incremental_kept m m1 : (forall mg, mg <> MG_motion -> gm_get (m_mode m1) mg = gm_get (m_mode m) mg) -> incremental m -> incremental m1.
Proof. intros E (g & G & D). exists g. split; auto. rewrite E by discriminate. exact G. Qed.
(** moves with X, Y and Z add up *)
Lemma steps_passes vs : forall m, ready m -> incremental m -> exists ms, passes m (map g1 vs) ms /\ let m1 := last ms m in ready m1 /\ keeps m m1 /\ m_state m1 = m_state m /\ (forall mg, mg <> MG_motion -> gm_get (m_mode m1) mg = gm_get (m_mode m) mg) /\
  forall a, In a [AX; AY; AZ] -> has (m_abs m) a -> pval (m_abs m1) a = (pval (m_abs m) a + sum1 (map (coord a) vs))%Qc.
Proof.
  induction vs as [|v vs IH]; intros m R A; cbn [map].
  - exists []. split; [constructor|]. cbn [last]. split; auto. split; auto using keeps_refl. split; auto. split; auto. intros a _ _. cbn [sum1]. change (Q2Qc 0) with 0%Qc. ring.
  - destruct (mover_by (g1 v) m R (g1_wf exact_accurate v) (g1_mover v) A) as (m1 & E & R1 & K1 & T1 & M1 & V1). destruct (IH m1 R1 (incremental_kept _ _ M1 A)) as (ms & P & R2 & K2 & T2 & M2 & V2). exists (m1 :: ms). split; [econstructor; eauto|]. rewrite last_cons. cbn zeta in *.
    split; auto. split; [eapply keeps_trans; eauto|]. split; [congruence|]. split; [intros mg N; rewrite M2, M1; auto|].
    intros a J Ha. pose proof K1 as (K11 & _). assert (Ha1 : has (m_abs m1) a) by (apply (has_kept m m1 a (proj1 R) (proj1 R1)); auto). rewrite (V2 a J Ha1). rewrite (V1 a (coord a v) Ha) by (left; apply g1_names; auto). cbn [sum1]. ring.
Qed.
Lemma param_named g a : gcode_wf g -> (exists x, names g a x) \/ forall x, ~ names g a x.
Proof.
  intros W. destruct (pget (gparams g) (axis_letter a)) as [[l v]|] eqn:P.
  - destruct v as [x| |] eqn:V; [left; exists x; eexists; split; [apply (pget_in g _ _ (proj1 W)); exact P|reflexivity]| |]; right; intros x (w & J & Q); apply (pget_in g _ _ (proj1 W)) in J; rewrite P in J; injection J as <-; discriminate Q.
  - right. intros x (w & J & _). apply (pget_in g _ _ (proj1 W)) in J. rewrite P in J. discriminate J.
Qed.
(** thousandths below 1000 are read back as they are *)
Lemma step_reads a n : In a [AX; AY; AZ] -> (Qabs (frac n 1000) < 1000)%Q -> readable (Word (axis_letter a) (VFloat (frac n 1000))).
Proof.
  intros I B. split; [|intros x Q; discriminate Q]. change (frac n 1000) with (rnd (thousandths n)). apply (float_survives exact_accurate); [destruct a; reflexivity|].
  rewrite this_frac in B. change (10 ^ 6)%Z with 1000000%Z. unfold Qabs, Qlt in B. cbn [Qnum Qden] in B. lia.
Qed.
Lemma steps_stand L methods precision m g : lawful L -> ready m -> gcode_wf g -> steps_ready L methods precision m g -> exists moves, norm_linearize L methods precision m g = (moves, Ok tt) /\ stands_for m g moves moves.
Proof.
  intros LW R W (D & AB & AX3 & TH & moves & E & BD). pose proof R as (S & I & Y). exists moves. split; auto. destruct (machine_pos_spec m S) as (p & EP & GP & AXP & _ & VP). unfold norm_linearize in E. rewrite EP in E. destruct (lin_method methods (gword g)) as [c|]; [|discriminate].
  assert (XYZ : forall a, In a [AX; AY; AZ] <-> vget (m_axes m) a = true) by (intros a; rewrite AX3; split; [intros [<-|[<-|[<-|[]]]]; reflexivity|destruct a; vm_compute; intros Q; try discriminate Q; auto]). assert (HAS : forall a, In a [AX; AY; AZ] -> has (m_abs m) a) by (intros a J; apply XYZ in J; pose proof S as ((_ & A0 & _) & _); unfold has; congruence).
  assert (PV : forall a, In a [AX; AY; AZ] -> exists x, vget (pvals p) a = Some x).
  { intros a J. assert (HP : has p a) by (unfold has; rewrite AXP; apply XYZ; exact J). destruct (vget (pvals p) a) as [x|] eqn:V; [eauto|]. exfalso. apply (GP a) in V. contradiction. }
  assert (DI : in_incremental (mode_class m MG_distance)). { destruct AB as (d & MD & DD). exists (gcls d). split; auto. unfold mode_class. rewrite MD. reflexivity. }
  destruct (moves_linear L g p _ _ _ _ _ _ _ E) as (vs & M).
  assert (LD : forall a, In a [AX; AY; AZ] -> exists n, leads g a (frac n 1000)).
  { intros a J. destruct (param_named g a W) as [(x & N)|N]; [|exists 0%Z; right; split; [exact N|apply Qceqb_eq; vm_compute; reflexivity]]. destruct (TH a x J N) as (n & ->). exists n. left. exact N. }
  assert (SM : forall a n, In a [AX; AY; AZ] -> leads g a (frac n 1000) -> sum1 (map (coord a) vs) = frac n 1000).
  { intros a n J H. destruct (PV a J) as (x & V). refine (C92_exact L g p _ _ _ _ _ moves a x n _ LW W DI E J V H _). rewrite M. apply total_sum; auto. }
  split; [|split].
  - rewrite M. apply Forall_forall. intros h J. apply in_map_iff in J as (u & <- & _). split; [right; apply der_self|]. split; [discriminate|]. split; [apply (g1_wf exact_accurate)|reflexivity].
  - assert (F : Forall (fun h => forall a x, In a [AX; AY; AZ] -> names h a x -> readable (Word (axis_letter a) (VFloat x))) moves).
    { apply Forall_forall. intros h J a x K N. rewrite Forall_forall in BD. pose proof (BD h J a x N) as B. destruct (C92_increments exact_arith L g p _ _ _ _ _ moves (Ok tt) a x DI E K) as (n & Q); [apply Exists_exists; eauto|]. rewrite Q in *. apply step_reads; auto. }
    rewrite M in F |- *. clear -F. induction vs as [|v vs IH]; cbn [map] in *; constructor; inversion F as [|? ? F1 F2]; subst; auto. apply (g1_read exact_accurate). intros a J. apply readable_reads. apply F1; auto. apply g1_names; auto.
  - destruct (mover_by g m R W (arc_mover g D) AB) as (m1 & E1 & R1 & K1 & T1 & M1 & V1). destruct (steps_passes vs m R AB) as (ms & PS & R2 & K2 & T2 & M2 & V2). cbn zeta in *. set (n := last ms m) in *. exists m1, ms. split; auto. split; [rewrite M; exact PS|]. fold n.
    pose proof K1 as (K11 & K12 & _ & _ & K13). pose proof K2 as (K21 & K22 & _ & _ & K23). split; [intros mg N; rewrite M1, M2; auto|]. split; [congruence|].
    assert (AXE : m_axes m1 = m_axes n) by congruence. split; [|split; [exact AXE|congruence]].
    pose proof (proj1 R1) as S1. pose proof (proj1 R2) as S3. pose proof S1 as ((G1 & A1 & _) & _). pose proof S3 as ((G3 & A3 & _) & _). apply pos_ext; auto; [congruence|congruence|]. intros a Ha. assert (J : In a [AX; AY; AZ]) by (apply XYZ; unfold has in Ha; congruence).
    destruct (LD a J) as (k & LK). rewrite (V1 a _ (HAS a J) LK), (V2 a J (HAS a J)), (SM a k J LK). reflexivity.
Qed.

(** ** lines *)
Lemma tractable_either L methods precision o fuel s l m : lawful L -> o_linearize o = Some (norm_linearize L methods precision) -> mk_line s = Ok l -> ready m -> linearizable_either L methods precision o m l -> tractable o fuel m l.
Proof.
  intros LW O ML R (gs & B & [H|(a & g & b & ms & E & SW & FI & MA & PA & AR)]); exists gs; split; auto. right. pose proof (modal_wf_any s l m gs ML (proj1 R) B) as W. rewrite E in W. apply Forall_app in W as [Wa W]. inversion W as [|? ? Wg Wb]; subst.
  pose proof (passes_ready_any a Wa m ms R PA) as RD. assert (ST : exists moves moves', norm_linearize L methods precision (last ms m) g = (moves, Ok tt) /\ stands_for (last ms m) g moves moves').
  { destruct AR as [AR|AR]; [apply (arc_stands exact_accurate exact_idempotent L LW methods precision (last ms m) g RD Wg AR)|]. destruct (steps_stand L methods precision (last ms m) g LW RD Wg AR) as (moves & A1 & A2). eauto. }
  assert (D : derives (gcls g) GCodeArcMove) by (destruct AR as [AR|AR]; apply AR).
  destruct ST as (moves & moves' & EM & ST). exists a, g, b, moves, moves', ms. split; auto. split; auto. split; auto. split; auto. split; auto. split; auto.
  left. split; [exact D|]. exists (norm_linearize L methods precision). auto.
Qed.
Lemma tractable_either_reading L methods precision o fuel file : lawful L -> o_linearize o = Some (norm_linearize L methods precision) -> forall m tr, ready m -> reading m file tr ->
  Forall (fun x => linearizable_either L methods precision o (fst x) (snd x)) (from_states m tr) -> Forall (fun x => tractable o fuel (fst x) (snd x)) (from_states m tr).
Proof.
  intros LW O. induction file as [|s r IH]; intros m tr R RD F; [apply reading_empty in RD; subst; constructor|]. apply reading_step in RD as (l & m1 & tr1 & ML & P & RD & <-). cbn [from_states] in *. inversion F as [|? ? F1 F2]; subst. cbn [fst snd] in F1.
  constructor; [apply (tractable_either L methods precision o fuel s l m); auto|]. apply IH; auto. destruct R as (S & I & Y). destruct (mk_line_block _ _ ML) as (bs & MB). destruct (mk_block_wf _ _ _ MB) as [F0 W]. destruct (process_gcodes_inv (bgcodes (lblock l)) (bmodal (lblock l)) m S I F0 W) as (A & B & C & _). unfold process_block in P. rewrite P in A, B, C. split; auto.
Qed.
