(** Drilling cycles: classes, termination, number of feed moves, machines. *)
From Coq Require Import List Bool Arith ZArith QArith Qround Qcanon Lia Lqa.
From Verif Require Import Base Num Words GTable GCode Line Position Machine BaseFacts WordsSpec PrintSpec PrintProofs BlockSpec GCodeSpec GCodeProofs GCodeProofs2 PropsGCode ArithSpec Float64 PosSpec PosProofs ModeSpec ModeProofs MachSpec MachProofs MachProofs2 MachProofs3 CannedProofs Transform TransSpec TransProofs DrillSpec DrillProofs.
Import ListNotations.

(** *** classes *)
Lemma canned_takes c : subclass c GCodeCannedCycle = true -> c <> GCodeCannedCycle ->
  accepts c LX = true /\ accepts c LY = true /\ accepts c LZ = true /\ accepts c LR = true /\ accepts c LL = true /\ (subclass c GCodeDrillingCyclePeck || subclass c GCodeDrillingCycleChipBreaking = true -> accepts c LQ = true).
Proof. destruct c; vm_compute; intros; try discriminate; try congruence; auto 10. Qed.
Section WithArith.
Context {ar : Arith}.
Lemma canned_proper g : gcode_wf g -> gcls g <> GCodeCannedCycle.
Proof. intros (_ & P & WW & _). unfold proper in P. intros Q. rewrite Q in P. apply word_class_claims1 in P. unfold claims in P. change (word_key GCodeCannedCycle) with (@None word) in P. destruct P as (f & P & _). vm_compute in P. discriminate P. Qed.
Lemma getattr_in g l w : gcode_wf g -> accepts (gcls g) l = true -> In (l, w) (gparams g) -> gcode_getattr g l = Ok (Some (wvalue w)).
Proof. intros W A I. unfold gcode_getattr. rewrite A. rewrite (proj2 (pget_in g l w (proj1 W)) I). reflexivity. Qed.
Lemma getattr_none g l : accepts (gcls g) l = true -> (forall w, ~ In (l, w) (gparams g)) -> gcode_getattr g l = Ok None.
Proof. intros A N. unfold gcode_getattr. rewrite A, pget_not; auto. Qed.
Lemma getattr_axis g a x : gcode_wf g -> accepts (gcls g) (axis_letter a) = true -> names g a x -> gcode_getattr g (axis_letter a) = Ok (Some (VFloat x)).
Proof. intros W A (w & I & V). rewrite (getattr_in _ _ w W A I). congruence. Qed.
Lemma asked_fun g n n' : gcode_wf g -> asked g n -> asked g n' -> n = n'.
Proof.
  intros W [(w & z & I & V & ->)|[N ->]] [(w' & z' & I' & V' & ->)|[N' ->]]; auto; try (exfalso; eapply N; eauto); try (exfalso; eapply N'; eauto).
  apply pget_in in I, I'; try apply W. congruence.
Qed.

(** *** what is yielded *)
Definition nfeeds (gs : list gcode) : nat := length (filter (fun g => subclass (gcls g) GCodeLinearMove) gs).
Lemma nfeeds_count gs : feed_count gs (nfeeds gs).
Proof.
  unfold nfeeds. induction gs as [|g gs IH]; cbn [filter]; [constructor|]. destruct (subclass (gcls g) GCodeLinearMove) eqn:E; [apply subclass_derives in E; constructor; auto|]. apply fc_other; auto. intros X. apply subclass_derives in X. congruence.
Qed.
Lemma nfeeds_app a b : nfeeds (a ++ b) = (nfeeds a + nfeeds b)%nat. Proof. unfold nfeeds. rewrite filter_app, app_length. auto. Qed.
Lemma nfeeds_rz z gs : nfeeds (rz z :: gs) = nfeeds gs. Proof. reflexivity. Qed.
Lemma nfeeds_if (b : bool) z : nfeeds (if b then [rz z] else []) = 0%nat. Proof. destruct b; reflexivity. Qed.
Lemma nfeeds_rxy x y gs : nfeeds (rxy x y :: gs) = nfeeds gs. Proof. reflexivity. Qed.
Lemma nfeeds_lz z gs : nfeeds (lz z :: gs) = S (nfeeds gs). Proof. reflexivity. Qed.

(** *** the function itself *)
Lemma abs_not_inc c : derives c GCodeAbsoluteDistanceMode -> subclass c GCodeIncrementalDistanceMode = false.
Proof. intros H. apply subclass_derives in H. revert H. destruct c; vm_compute; intros; try discriminate; auto. Qed.
Lemma inc_not_abs c : derives c GCodeIncrementalDistanceMode -> subclass c GCodeAbsoluteDistanceMode = false.
Proof. intros H. apply subclass_derives in H. revert H. destruct c; vm_compute; intros; try discriminate; auto. Qed.
Lemma ret_classes c : subclass c GCodeCannedCycleReturnToR = true \/ subclass c GCodeCannedCycleReturnPrevLevel = true -> subclass c GCodeCannedReturnMode = true /\ (subclass c GCodeCannedCycleReturnPrevLevel = true -> subclass c GCodeCannedCycleReturnToR = false).
Proof. destruct c; vm_compute; intros [H|H]; try discriminate; auto; split; auto; discriminate. Qed.
Lemma xy_plane_plane c : subclass c GCodeSelectXYPlane = true -> subclass c GCodePlaneSelect = true.
Proof. destruct c; vm_compute; intros; try discriminate; auto. Qed.
Definition dist_of (o : option gclass) := match o with Some c => c | None => GCodeAbsoluteDistanceMode end.
Lemma simplify_inner fuel g start plane dist ret axes (incr to_r : bool) n : is_canned g -> gcode_wf g -> asked g n -> xy_plane plane -> (if incr then inc_mode dist else abs_mode dist) -> (if to_r then to_r_mode ret else prev_mode ret) ->
  simplify_canned_cycle fuel g start plane dist ret axes = option_map (gcodes_abs2rel start (Some (dist_of dist)) axes) (holes fuel n g start incr to_r (pval start AX) (pval start AY)).
Proof.
  intros C W AS PL DI RE. unfold simplify_canned_cycle. fold (dist_of dist).
  set (pl := match plane with Some c => c | None => _ end). set (rt := match ret with Some c => c | None => _ end).
  assert (P1 : subclass pl GCodeSelectXYPlane = true). { unfold pl. destruct PL as [->|(p & -> & D)]; [reflexivity|apply subclass_derives; auto]. }
  assert (R1 : subclass rt GCodeCannedReturnMode = true /\ subclass rt GCodeCannedCycleReturnToR = to_r).
  { unfold rt. destruct to_r; [destruct RE as (p & -> & D)|destruct RE as [->|(p & -> & D)]]; try (split; reflexivity); apply subclass_derives in D.
    - destruct (ret_classes p (or_introl D)). auto.
    - destruct (ret_classes p (or_intror D)) as [A B]. auto. }
  destruct R1 as [R1 R2].
  assert (D1 : subclass (dist_of dist) GCodeAbsoluteDistanceMode = negb incr /\ subclass (dist_of dist) GCodeIncrementalDistanceMode = incr).
  { unfold dist_of. destruct incr; [destruct DI as (p & -> & D)|destruct DI as [->|(p & -> & D)]]; try (split; reflexivity).
    - split; [apply inc_not_abs; auto|apply subclass_derives; auto].
    - split; [apply subclass_derives; auto|apply abs_not_inc; auto]. }
  destruct D1 as [D1 D2]. pose proof C as C'. unfold is_canned in C'. apply subclass_derives in C'. rewrite C', (xy_plane_plane pl P1), P1, R1, R2, D1, D2.
  destruct (canned_takes (gcls g) C' (canned_proper g W)) as (_ & _ & _ & _ & AL & _).
  assert (N : (do l <- gcode_getattr g LL; do n0 <- match l with None => Ok 1%Z | Some (VInt z) => Ok z | Some _ => Raise ETypeError end; Ok (holes fuel (Z.to_nat n0) g start incr to_r (pval start AX) (pval start AY))) = Ok (holes fuel n g start incr to_r (pval start AX) (pval start AY))).
  { destruct AS as [(w & z & I & V & ->)|[N ->]]; [rewrite (getattr_in g LL w W AL I), V; reflexivity|rewrite (getattr_none g LL AL N); reflexivity]. }
  destruct incr; cbn [negb andb orb]; rewrite N; reflexivity.
Qed.
Lemma q_word_fun g q q' : gcode_wf g -> q_word g q -> q_word g q' -> q = q'.
Proof. intros W (w & I & V) (w' & I' & V'). apply pget_in in I, I'; try apply W. congruence. Qed.
Lemma names_fun g a x y : gcode_wf g -> names g a x -> names g a y -> x = y.
Proof. intros W A B. apply axis_value_iff in A, B; auto. congruence. Qed.
Lemma r_word_fun g x y : gcode_wf g -> r_word g x -> r_word g y -> x = y.
Proof. intros W (w & I & V) (w' & I' & V'). apply pget_in in I, I'; try apply W. congruence. Qed.
Lemma pecking_iff g : pecking g <-> subclass (gcls g) GCodeDrillingCyclePeck || subclass (gcls g) GCodeDrillingCycleChipBreaking = true.
Proof. unfold pecking. rewrite orb_true_iff, !subclass_derives. tauto. Qed.
(** the step down *)
Definition step_down (g : gcode) (r d : Qc) : Qc :=
  if subclass (gcls g) GCodeDrillingCyclePeck || subclass (gcls g) GCodeDrillingCycleChipBreaking then (- fabs (match pget (gparams g) LQ with Some w => match num_of_value (wvalue w) with Some q => q | None => Q2Qc 0 end | None => Q2Qc 0 end))%Qc else fsub d r.
Lemma step_down_q g r d q : gcode_wf g -> pecking g -> q_word g q -> step_down g r d = (- fabs q)%Qc.
Proof. intros W P (w & I & V). apply pecking_iff in P. unfold step_down. rewrite P. apply pget_in in I; [|apply W]. rewrite I, V. reflexivity. Qed.
Lemma step_down_plain g r d : ~ pecking g -> step_down g r d = fsub d r.
Proof. intros P. rewrite pecking_iff in P. unfold step_down. destruct (_ || _); auto. destruct P; auto. Qed.
Lemma fabs_nonneg q : (Q2Qc 0 <= fabs q)%Qc.
Proof. unfold fabs. destruct (Qcltb q (Q2Qc 0)) eqn:E; [apply Qcltb_lt in E; clear - E; qcl|apply Qcltb_ge in E; auto]. Qed.
Lemma fabs_pos q : q <> Q2Qc 0 -> (Q2Qc 0 < fabs q)%Qc.
Proof. intros N. unfold fabs. destruct (Qcltb q (Q2Qc 0)) eqn:E; [apply Qcltb_lt in E; clear - E; qcl|apply Qcltb_ge in E]. destruct (Qc_dec q (Q2Qc 0)) as [[L|L]|L]; auto; [exfalso; clear - E L; qcl|contradiction]. Qed.
Lemma step_down_nonpos g r d : laws -> complete g -> gcode_wf g -> (d <= r)%Qc -> (step_down g r d <= Q2Qc 0)%Qc.
Proof.
  intros LA CO W D. destruct (subclass (gcls g) GCodeDrillingCyclePeck || subclass (gcls g) GCodeDrillingCycleChipBreaking) eqn:P.
  - apply pecking_iff in P. destruct (proj2 CO P) as [q Q]. rewrite (step_down_q g r d q W P Q). pose proof (fabs_nonneg q) as F. clear - F. qcl.
  - rewrite step_down_plain by (rewrite pecking_iff; congruence). unfold fsub. rewrite <- (rnd_zero LA). destruct LA as (M & _). apply M. clear - D. qcl.
Qed.
(** running through the holes; [incr]: incremental distances *)
Section Job.
Variables (g : gcode) (start : position) (incr to_r : bool) (rr zz x y z0 : Qc) (X Y : nat -> Qc).
Hypotheses (W : gcode_wf g) (C : is_canned g) (CO : complete g) (NX : names g AX x) (NY : names g AY y) (NZ : names g AZ zz) (NR : r_word g rr) (PZ : pos_getattr start AZ = Ok z0)
  (HX0 : X 0%nat = pval start AX) (HY0 : Y 0%nat = pval start AY) (HX : forall i, X (S i) = if incr then fadd (X i) x else x) (HY : forall i, Y (S i) = if incr then fadd (Y i) y else y).
Let r := if incr then fadd z0 rr else rr.
Let d := if incr then fadd (fadd z0 rr) zz else zz.
Hypothesis DR : (d <= r)%Qc.
Let delta := step_down g r d.
Let chip := subclass (gcls g) GCodeDrillingCycleChipBreaking.
Let sz := if to_r then r else z0.
Lemma job_drilled fuel n G : holes fuel n g start incr to_r (pval start AX) (pval start AY) = Some G -> exists gs, G = (gs, Ok tt) /\ drilled chip r d delta z0 sz X Y 1 n gs.
Proof.
  pose proof C as C'. unfold is_canned in C'. apply subclass_derives in C'. destruct (canned_takes (gcls g) C' (canned_proper g W)) as (A1 & A2 & A3 & A4 & _ & A6).
  pose proof NR as (w & IR & VR). assert (GR : gcode_getattr g LR = Ok (Some (VFloat rr))) by (rewrite (getattr_in g LR w W A4 IR); congruence).
  refine (proj1 (holes_drilled chip r d delta z0 sz X Y g start incr to_r rr zz x y fuel GR (getattr_axis g AZ zz W A3 NZ) (getattr_axis g AX x W A1 NX) (getattr_axis g AY y W A2 NY) PZ eq_refl eq_refl DR eq_refl eq_refl _ _ HX HY n 0%nat (pval start AX) (pval start AY) _) G).
  - destruct (subclass (gcls g) GCodeDrillingCycleDwell) eqn:E; auto. apply subclass_derives in E. destruct (proj1 CO E).
  - destruct (subclass (gcls g) GCodeDrillingCyclePeck || _) eqn:E; [|apply step_down_plain; rewrite pecking_iff; congruence]. pose proof (proj2 (pecking_iff g) E) as P. destruct (proj2 CO P) as [q Q]. exists q. split; [|apply step_down_q; auto]. destruct Q as (u & IQ & VQ). rewrite (getattr_in g LQ u W (A6 eq_refl) IQ). congruence.
  - auto.
Qed.
Lemma job_some bs n : bores chip r d delta r bs -> exists f0, forall fuel, (f0 <= fuel)%nat -> holes fuel n g start incr to_r (pval start AX) (pval start AY) <> None.
Proof.
  intros B. destruct (bores_drill chip r d delta r bs B) as [f0 F]. exists f0. intros fuel L.
  pose proof C as C'. unfold is_canned in C'. apply subclass_derives in C'. destruct (canned_takes (gcls g) C' (canned_proper g W)) as (A1 & A2 & A3 & A4 & _ & A6).
  pose proof NR as (w & IR & VR). assert (GR : gcode_getattr g LR = Ok (Some (VFloat rr))) by (rewrite (getattr_in g LR w W A4 IR); congruence).
  refine (proj2 (holes_drilled chip r d delta z0 sz X Y g start incr to_r rr zz x y fuel GR (getattr_axis g AZ zz W A3 NZ) (getattr_axis g AX x W A1 NX) (getattr_axis g AY y W A2 NY) PZ eq_refl eq_refl DR eq_refl eq_refl _ _ HX HY n 0%nat (pval start AX) (pval start AY) _) bs f0 B F L).
  - destruct (subclass (gcls g) GCodeDrillingCycleDwell) eqn:E; auto. apply subclass_derives in E. destruct (proj1 CO E).
  - destruct (subclass (gcls g) GCodeDrillingCyclePeck || _) eqn:E; [|apply step_down_plain; rewrite pecking_iff; congruence]. pose proof (proj2 (pecking_iff g) E) as P. destruct (proj2 CO P) as [q Q]. exists q. split; [|apply step_down_q; auto]. destruct Q as (u & IQ & VQ). rewrite (getattr_in g LQ u W (A6 eq_refl) IQ). congruence.
  - auto.
Qed.
End Job.

(** *** the loop ends when every step goes down by [e] at least *)
Lemma bores_ex chip r d delta e : laws -> (Q2Qc 0 < e)%Qc -> float d -> (delta <= Q2Qc 0)%Qc -> (forall c, float c -> (c <= r)%Qc -> (d < fadd c delta)%Qc -> (fadd c delta <= c - e)%Qc) ->
  forall N c, float c -> (c <= r)%Qc -> (d <= c)%Qc -> (c - d <= Qc_of_Z (Z.of_nat N) * e)%Qc -> exists gs, bores chip r d delta c gs.
Proof.
  intros LA E Fd D S. induction N as [|N IH]; intros c Fc Cr Cd H.
  - exists ((if Qcltb (fadd c (flit 1 10)) r then [rz (fadd c (flit 1 10))] else []) ++ [lz d]). apply bore_last. assert (c = d). { change (Qc_of_Z (Z.of_nat 0)) with (Q2Qc 0) in H. replace (Q2Qc 0 * e)%Qc with (Q2Qc 0) in H by ring. clear - H Cd. qcl. } subst c.
    pose proof (fadd_down LA d delta Fd D) as L. destruct (Qcltb (fadd d delta) d) eqn:Q; auto. apply Qcltb_ge in Q. clear - L Q. qcl.
  - destruct (Qcltb d (fadd c delta)) eqn:Q.
    + apply Qcltb_lt in Q. pose proof (S c Fc Cr Q) as S1. pose proof (fadd_down LA c delta Fc D) as L. destruct (IH (fadd c delta)) as [gs B].
      * apply fadd_float; auto.
      * clear - L Cr. qcl.
      * apply Qclt_le_weak; auto.
      * rewrite Nat2Z.inj_succ in H. unfold Qcle in *. rewrite ?this_sub, ?this_mul, ?this_Z in *. unfold Z.succ in H. rewrite inject_Z_plus in H. change (inject_Z 1) with 1%Q in H. lra.
      * eexists. eapply bore_more; eauto.
    + apply Qcltb_ge in Q. eexists. apply bore_last. destruct (Qcltb (fadd c delta) d) eqn:Q2; auto. apply Qcltb_ge in Q2. clear - Q Q2. qcl.
Qed.
Lemma bores_fun chip r d delta c gs hs : bores chip r d delta c gs -> bores chip r d delta c hs -> gs = hs.
Proof.
  intros A. revert hs. induction A as [c E|c c' gs E L B IH]; intros hs H; inversion H as [c1 E1|c1 c1' gs1 E1 L1 B1]; subst; auto.
  - exfalso. destruct (Qcltb (fadd c delta) d) eqn:Q; [apply Qcltb_lt in Q; clear - Q L1; qcl|]. rewrite E in L1. clear - L1. qcl.
  - exfalso. destruct (Qcltb (fadd c delta) d) eqn:Q; [apply Qcltb_lt in Q; clear - Q L; qcl|]. rewrite E1 in L. clear - L. qcl.
  - rewrite (IH _ B1). auto.
Qed.
Lemma archimedes h e : (Q2Qc 0 < e)%Qc -> exists N : nat, (h <= Qc_of_Z (Z.of_nat N) * e)%Qc.
Proof.
  intros P. exists (Z.to_nat (Qceiling (h / e)%Qc)). unfold Qcle. rewrite this_mul, this_Z. pose proof (Qle_ceiling (this (h / e)%Qc)) as C.
  assert (H : (this (h / e)%Qc * this e == this h)%Q). { rewrite <- this_mul. apply qc_eq. field. intros Z. rewrite Z in P. revert P. vm_compute. discriminate. }
  rewrite <- H. apply Qmult_le_compat_r; [|apply Qlt_le_weak; exact P]. eapply Qle_trans; [exact C|]. rewrite <- Zle_Qle. lia.
Qed.
Lemma drilled_count chip r d delta z0 sz X Y k bs : bores chip r d delta r bs -> nfeeds bs = k -> forall i n gs, drilled chip r d delta z0 sz X Y i n gs -> nfeeds gs = (n * k)%nat.
Proof.
  intros B K i n gs H. induction H as [i|i n bs' gs B' H IH]; [reflexivity|]. rewrite (bores_fun _ _ _ _ _ _ _ B' B). rewrite !nfeeds_app, nfeeds_rxy, !nfeeds_app, nfeeds_rz, !nfeeds_if, K, IH. cbn. lia.
Qed.
End WithArith.

(** *** exact arithmetic *)
Section Exact.
Local Existing Instance exact_arith.
Lemma exact_laws : laws (ar := exact_arith).
Proof. split; [|split]; unfold monotone, idempotent, odd; cbn [rnd exact_arith]; auto. Qed.
Lemma exact_add a b : fadd (ar := exact_arith) a b = (a + b)%Qc. Proof. reflexivity. Qed.
(** the number of pecks *)
Lemma bores_count chip r d q : (Q2Qc 0 < q)%Qc -> forall N c, (Qc_of_Z (Z.of_nat N) * q < c - d)%Qc -> (c - d <= Qc_of_Z (Z.of_nat (S N)) * q)%Qc -> exists gs, bores chip r d (- q)%Qc c gs /\ nfeeds gs = S N.
Proof.
  intros P. induction N as [|N IH]; intros c H1 H2.
  - eexists. split; [apply bore_last|rewrite nfeeds_app, nfeeds_if; reflexivity]. rewrite exact_add. change (Qc_of_Z (Z.of_nat 1)) with (Q2Qc 1) in H2. replace (Q2Qc 1 * q)%Qc with q in H2 by ring.
    destruct (Qcltb (c + - q) d) eqn:Q; auto. apply Qcltb_ge in Q. clear - H2 Q. qcl.
  - destruct (IH (c + - q)%Qc) as (gs & B & F).
    + unfold Qclt in *. rewrite this_sub, this_add, this_opp. rewrite this_sub, this_mul, this_Z in H1. rewrite this_mul, this_Z. rewrite Nat2Z.inj_succ in H1. unfold Z.succ in H1. rewrite inject_Z_plus in H1. change (inject_Z 1) with 1%Q in H1. lra.
    + unfold Qcle in *. rewrite this_sub, this_add, this_opp. rewrite this_sub, this_mul, this_Z in H2. rewrite this_mul, this_Z. rewrite !Nat2Z.inj_succ in *. unfold Z.succ in *. rewrite !inject_Z_plus in *. change (inject_Z 1) with 1%Q in *. lra.
    + eexists. split; [eapply bore_more; [reflexivity| |exact B]|].
      * rewrite exact_add. assert (Z0 : (Q2Qc 0 <= Qc_of_Z (Z.of_nat N) * q)%Qc). { unfold Qcle. rewrite this_mul, this_Z. change (this (Q2Qc 0)) with 0%Q. apply Qmult_le_0_compat; [rewrite <- (Zle_Qle 0); lia|apply Qlt_le_weak; exact P]. }
        unfold Qclt, Qcle in *. change (this (Q2Qc 0)) with 0%Q in *. rewrite this_add, this_opp. rewrite this_sub, this_mul, this_Z in H1. rewrite this_mul, this_Z in Z0. rewrite Nat2Z.inj_succ in H1. unfold Z.succ in H1. rewrite inject_Z_plus in H1. change (inject_Z 1) with 1%Q in H1. lra.
      * rewrite !nfeeds_app, nfeeds_if, F. reflexivity.
Qed.
Lemma enough_ex q h : (Q2Qc 0 < q)%Qc -> (Q2Qc 0 < h)%Qc -> exists N, (Qc_of_Z (Z.of_nat N) * q < h)%Qc /\ (h <= Qc_of_Z (Z.of_nat (S N)) * q)%Qc.
Proof.
  intros P H. destruct (archimedes h q P) as [M L]. induction M as [|M IH].
  - exfalso. change (Qc_of_Z (Z.of_nat 0)) with (Q2Qc 0) in L. replace (Q2Qc 0 * q)%Qc with (Q2Qc 0) in L by ring. clear - H L. qcl.
  - destruct (Qcltb (Qc_of_Z (Z.of_nat M) * q) h) eqn:E; [apply Qcltb_lt in E; exists M; auto|]. apply IH. apply Qcltb_ge; auto.
Qed.
Lemma rz_wf z : gcode_wf (rz z).
Proof.
  split; [split; [constructor; [split; [reflexivity|apply accepts_iff; reflexivity]|constructor]|constructor; [intros []|constructor]]|]. split; [vm_compute; reflexivity|]. split; [exact I|]. constructor; [exact I|constructor].
Qed.
Lemma lz_wf z : gcode_wf (lz z).
Proof.
  split; [split; [constructor; [split; [reflexivity|apply accepts_iff; reflexivity]|constructor]|constructor; [intros []|constructor]]|]. split; [vm_compute; reflexivity|]. split; [exact I|]. constructor; [exact I|constructor].
Qed.
Lemma rxy_wf x y : gcode_wf (rxy x y).
Proof.
  split; [split; [constructor; [split; [reflexivity|apply accepts_iff; reflexivity]|constructor; [split; [reflexivity|apply accepts_iff; reflexivity]|constructor]]|constructor; [intros [X|[]]; discriminate X|constructor; [intros []|constructor]]]|].
  split; [vm_compute; reflexivity|]. split; [exact I|]. constructor; [exact I|constructor; [exact I|constructor]].
Qed.
Definition plain_move (g : gcode) : Prop := gcode_wf g /\ straight g.
Lemma rz_plain z : plain_move (rz z). Proof. split; [apply rz_wf|left; apply der_self]. Qed.
Lemma lz_plain z : plain_move (lz z). Proof. split; [apply lz_wf|right; apply der_self]. Qed.
Lemma rxy_plain x y : plain_move (rxy x y). Proof. split; [apply rxy_wf|left; apply der_self]. Qed.
Lemma if_plain (b : bool) z : Forall plain_move (if b then [rz z] else []). Proof. destruct b; constructor; auto using rz_plain. Qed.
Lemma bores_plain chip r d delta c gs : bores chip r d delta c gs -> Forall plain_move gs.
Proof. induction 1; repeat (apply Forall_app; split); auto using if_plain; repeat constructor; auto using rz_plain, lz_plain; apply rz_plain || apply lz_plain. Qed.
Lemma drilled_plain chip r d delta z0 sz X Y i n gs : drilled chip r d delta z0 sz X Y i n gs -> Forall plain_move gs.
Proof.
  induction 1 as [i|i n bs gs B H IH]; [constructor|]. apply Forall_app. split; [apply if_plain|]. constructor; [apply rxy_plain|]. apply Forall_app. split; [apply if_plain|]. apply Forall_app. split; [eapply bores_plain; eauto|]. constructor; auto using rz_plain.
Qed.
End Exact.
