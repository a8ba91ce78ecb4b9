(** Drilling cycles: the expansion as a whole. *)
From Coq Require Import String List Bool Arith ZArith QArith Qabs Qcanon Lia Lqa.
From Verif Require Import Base Num Words GTable GCode Line Position Machine BaseFacts WordsSpec PrintSpec PrintProofs BlockSpec GCodeSpec GCodeProofs GCodeProofs2 PropsGCode ArithSpec Float64 PosSpec PosProofs ModeSpec ModeProofs MachSpec MachProofs MachProofs2 MachProofs3 PropsMach CannedProofs PropsCanned Transform TransSpec TransProofs TransProofs2 PropsTrans DrillSpec DrillProofs DrillProofs2 DrillProofs3.
Import ListNotations.

Lemma modes_apart c : abs_mode c -> inc_mode c -> False.
Proof. intros A (p & -> & D). destruct A as [A|(q & A & D')]; [discriminate|]. injection A as <-. apply abs_not_inc in D'. apply subclass_derives in D. congruence. Qed.
Lemma returns_apart c : to_r_mode c -> prev_mode c -> False.
Proof.
  intros (p & -> & D) A. destruct A as [A|(q & A & D')]; [discriminate|]. injection A as <-. apply subclass_derives in D, D'. destruct (ret_classes p (or_introl D)) as [_ X]. rewrite (X D') in D. discriminate.
Qed.
Lemma getattr_z start z : good start -> height (pvals start) z -> pos_getattr start AZ = Ok z.
Proof.
  intros G H. unfold height in H. apply getattr_ok. destruct (has_dec start AZ) as [Ha|Ha]; [|rewrite (good_none start AZ G Ha) in H; discriminate]. split; auto. rewrite (good_some start AZ G Ha) in H. congruence.
Qed.
Lemma known_pval start a : good start -> vget (pvals start) a <> None -> vget (pvals start) a = Some (pval start a).
Proof. intros G N. destruct (has_dec start a) as [Ha|Ha]; [apply good_some; auto|rewrite (good_none start a G Ha) in N; contradiction]. Qed.
Lemma drilled_ext {ar : Arith} chip r d delta z0 sz X Y X' Y' i n gs : drilled chip r d delta z0 sz X Y i n gs -> (1 <= i)%nat -> (forall k, (1 <= k)%nat -> X k = X' k /\ Y k = Y' k) -> drilled chip r d delta z0 sz X' Y' i n gs.
Proof.
  induction 1 as [i|i n bs gs B H IH]; intros L E; [constructor|]. destruct (E i L) as [-> ->]. constructor; auto.
Qed.
Lemma succ_Qc i : Qc_of_Z (Z.of_nat (S i)) = (Qc_of_Z (Z.of_nat i) + Q2Qc 1)%Qc.
Proof. apply Qc_is_canon. rewrite this_add, !this_Z. rewrite Nat2Z.inj_succ. unfold Z.succ. rewrite inject_Z_plus. reflexivity. Qed.

Section Absolute.
Context {ar : Arith}.
Lemma expand_absolute fuel g start plane dist ret axes j n z0 sz G : gcode_wf g -> is_canned g -> complete g -> asked g n -> xy_plane plane -> abs_mode dist -> job_absolute g j -> height (pvals start) z0 -> good start ->
  end_height ret (pvals start) j sz -> (jd j <= jr j)%Qc -> simplify_canned_cycle fuel g start plane dist ret axes = Some G ->
  exists gs, G = (gs, Ok tt) /\ drilled (subclass (gcls g) GCodeDrillingCycleChipBreaking) (jr j) (jd j) (step_down g (jr j) (jd j)) z0 sz (jx j) (jy j) 1 n gs.
Proof.
  intros W C CO AS PL DI (x & y & NX & NY & NZ & NR & JX) HZ GS EH DR E.
  assert (exists to_r : bool, (if to_r then to_r_mode ret else prev_mode ret) /\ sz = (if to_r then jr j else z0)) as (to_r & RE & ->).
  { destruct EH as [[A ->]|[A H]]; [exists true|exists false]; split; auto. unfold height in *. congruence. }
  rewrite (simplify_inner fuel g start plane dist ret axes false to_r n C W AS PL DI RE) in E. destruct (holes fuel n g start false to_r (pval start AX) (pval start AY)) as [K|] eqn:HO; [|discriminate]. cbn [option_map] in E. injection E as <-.
  destruct (job_drilled g start false to_r (jr j) (jd j) x y z0 (fun i => match i with O => pval start AX | S _ => x end) (fun i => match i with O => pval start AY | S _ => y end) W C CO NX NY NZ NR (getattr_z _ _ GS HZ) eq_refl eq_refl (fun _ => eq_refl) (fun _ => eq_refl) DR fuel n K HO) as (gs & -> & D).
  exists gs. split.
  - unfold gcodes_abs2rel. assert (subclass (dist_of dist) GCodeIncrementalDistanceMode = false) as ->; auto. unfold dist_of. destruct DI as [->|(p & -> & DD)]; [reflexivity|apply abs_not_inc; auto].
  - eapply drilled_ext; [exact D|lia|]. intros [|k] L; [lia|]. destruct (JX (S k)) as [-> ->]. auto.
Qed.
Lemma drilled_fun chip r d delta z0 sz X Y i n gs hs : drilled chip r d delta z0 sz X Y i n gs -> drilled chip r d delta z0 sz X Y i n hs -> gs = hs.
Proof.
  intros A. revert hs. induction A as [i|i n bs gs B H IH]; intros hs D; inversion D as [|i' n' bs' gs' B' H']; subst; auto. rewrite (bores_fun _ _ _ _ _ _ _ B B'), (IH _ H'). auto.
Qed.
Lemma expand_some_absolute g start plane dist ret axes j n z0 bs : gcode_wf g -> is_canned g -> complete g -> asked g n -> xy_plane plane -> abs_mode dist -> job_absolute g j -> height (pvals start) z0 -> good start ->
  (to_r_mode ret \/ prev_mode ret) -> (jd j <= jr j)%Qc -> bores (subclass (gcls g) GCodeDrillingCycleChipBreaking) (jr j) (jd j) (step_down g (jr j) (jd j)) (jr j) bs ->
  exists f0, forall fuel, (f0 <= fuel)%nat -> exists G, simplify_canned_cycle fuel g start plane dist ret axes = Some G.
Proof.
  intros W C CO AS PL DI (x & y & NX & NY & NZ & NR & JX) HZ GS EH DR B. assert (exists to_r : bool, if to_r then to_r_mode ret else prev_mode ret) as (to_r & RE) by (destruct EH; [exists true|exists false]; auto).
  destruct (job_some g start false to_r (jr j) (jd j) x y z0 (fun i => match i with O => pval start AX | S _ => x end) (fun i => match i with O => pval start AY | S _ => y end) W C CO NX NY NZ NR (getattr_z _ _ GS HZ) eq_refl eq_refl (fun _ => eq_refl) (fun _ => eq_refl) DR bs n B) as [f0 F].
  exists f0. intros fuel L. specialize (F fuel L). rewrite (simplify_inner fuel g start plane dist ret axes false to_r n C W AS PL DI RE). destruct (holes fuel n g start false to_r (pval start AX) (pval start AY)); [|contradiction]. eexists. reflexivity.
Qed.
End Absolute.
Section Exact.
Local Existing Instance exact_arith.
Lemma expand_exact fuel g start plane dist ret j n z0 sz G m : gcode_wf g -> is_canned g -> complete g -> asked g n -> xy_plane plane -> drilling g (pvals start) dist j -> height (pvals start) z0 -> good start -> known_unit (punit start) ->
  knows_xyz (pvals start) -> end_height ret (pvals start) j sz -> (jd j <= jr j)%Qc -> ready m -> m_axes m = paxes start -> place m (pvals start) -> mode_fits m dist ->
  simplify_canned_cycle fuel g start plane dist ret (paxes start) = Some G ->
  exists gs out vs l m', G = (out, Ok tt) /\ drilled (subclass (gcls g) GCodeDrillingCycleChipBreaking) (jr j) (jd j) (step_down g (jr j) (jd j)) z0 sz (jx j) (jy j) 1 n gs /\
    visits m out vs m' /\ without_stops (pvals start) vs l /\ without_stops (pvals start) (apath (pvals start) gs) l /\ place m' (aend (pvals start) gs) /\
    gcodes_abs2rel start (Some (dist_of dist)) (paxes start) (gs, Ok tt) = (out, Ok tt) /\ (vs = l \/ vs = apath (pvals start) gs).
Proof.
  intros W C CO AS PL [(DI & JA)|(DI & JI)] HZ GS U KN EH DR R X P MF E.
  - destruct (expand_absolute fuel g start plane dist ret (paxes start) j n z0 sz G W C CO AS PL DI JA HZ GS EH DR E) as (gs & -> & D). assert (A : absolute m) by (destruct MF as [[_ A]|[I _]]; auto; destruct (modes_apart _ DI I)).
    destruct (run_abs gs (drilled_plain _ _ _ _ _ _ _ _ _ _ _ D) m _ R A P) as (m' & V & _ & _ & _ & P'). 
    assert (exists l, without_stops (pvals start) (apath (pvals start) gs) l) as [l L].
    { generalize (apath (pvals start) gs). generalize (pvals start). clear. intros v l. revert v. induction l as [|[c w] l IH]; intros v; [exists []; constructor|]. destruct (v9_dec w v) as [->|N]; [destruct (IH v) as [k K]; exists k; constructor; auto|]. destruct (IH w) as [k K]. exists ((c, w) :: k). constructor; auto. }
    exists gs, gs, (apath (pvals start) gs), l, m'. split; auto. split; auto. split; auto. split; auto. split; auto. split; auto. split; auto.
    unfold gcodes_abs2rel. assert (subclass (dist_of dist) GCodeIncrementalDistanceMode = false) as ->; auto. unfold dist_of. destruct DI as [->|(p & -> & DD)]; [reflexivity|apply abs_not_inc; auto].
  - destruct JI as (x0 & y0 & z1 & HX & HY & HZ1 & x & y & z & r & NX & NY & NZ & NR & JR & JD & JX). assert (z1 = z0) by (unfold height in HZ; congruence). subst z1.
    assert (I : incremental m) by (destruct MF as [[A _]|[_ I]]; auto; destruct (modes_apart _ A DI)).
    assert (exists to_r : bool, (if to_r then to_r_mode ret else prev_mode ret) /\ sz = (if to_r then jr j else z0)) as (to_r & RE & ->).
    { destruct EH as [[A ->]|[A H]]; [exists true|exists false]; split; auto. unfold height in *. congruence. }
    rewrite (simplify_inner fuel g start plane dist ret (paxes start) true to_r n C W AS PL DI RE) in E. destruct (holes fuel n g start true to_r (pval start AX) (pval start AY)) as [K|] eqn:HO; [|discriminate]. cbn [option_map] in E. injection E as <-.
    assert (PX : x0 = pval start AX). { pose proof (known_pval start AX GS) as Q. rewrite HX in Q. specialize (Q ltac:(discriminate)). congruence. }
    assert (PY : y0 = pval start AY). { pose proof (known_pval start AY GS) as Q. rewrite HY in Q. specialize (Q ltac:(discriminate)). congruence. }
    assert (DR' : (fadd (fadd z0 r) z <= fadd z0 r)%Qc) by (unfold fadd; cbn [rnd exact_arith]; rewrite <- JD, <- JR; auto).
    destruct (job_drilled g start true to_r r z x y z0 (jx j) (jy j) W C CO NX NY NZ NR (getattr_z _ _ GS HZ)) with (fuel := fuel) (n := n) (G := K) as (gs & -> & D); auto.
    + rewrite (proj1 (JX 0%nat)). change (Qc_of_Z (Z.of_nat 0)) with (Q2Qc 0). rewrite PX. ring.
    + rewrite (proj2 (JX 0%nat)). change (Qc_of_Z (Z.of_nat 0)) with (Q2Qc 0). rewrite PY. ring.
    + intros i. rewrite exact_add. rewrite (proj1 (JX (S i))), (proj1 (JX i)). rewrite succ_Qc. change (Q2Qc 1) with 1%Qc. ring.
    + intros i. rewrite exact_add. rewrite (proj2 (JX (S i))), (proj2 (JX i)). rewrite succ_Qc. change (Q2Qc 1) with 1%Qc. ring.
    + assert (EA : fadd (fadd z0 r) z = jd j) by (symmetry; exact JD). assert (EB : fadd z0 r = jr j) by (symmetry; exact JR). rewrite EA, EB in D.
      assert (DI' := DI). destruct DI' as (p & -> & DD). unfold dist_of.
      destruct (run_inc start p m gs GS U DD R I X P (drilled_plain _ _ _ _ _ _ _ _ _ _ _ D)) as (out & l & mi' & EO & V & L1 & L2 & PE).
      rewrite EO. exists gs, out, l, l, mi'. auto 12.
Qed.
Lemma expand_some g start plane dist ret axes j n z0 bs : gcode_wf g -> is_canned g -> complete g -> asked g n -> xy_plane plane -> drilling g (pvals start) dist j -> height (pvals start) z0 -> good start -> knows_xyz (pvals start) ->
  (to_r_mode ret \/ prev_mode ret) -> (jd j <= jr j)%Qc -> bores (subclass (gcls g) GCodeDrillingCycleChipBreaking) (jr j) (jd j) (step_down g (jr j) (jd j)) (jr j) bs ->
  exists f0, forall fuel, (f0 <= fuel)%nat -> exists G, simplify_canned_cycle fuel g start plane dist ret axes = Some G.
Proof.
  intros W C CO AS PL [(DI & JA)|(DI & JI)] HZ GS KN EH DR B; [eapply expand_some_absolute; eauto|].
  destruct JI as (x0 & y0 & z1 & HX & HY & HZ1 & x & y & z & r & NX & NY & NZ & NR & JR & JD & JX). assert (z1 = z0) by (unfold height in HZ; congruence). subst z1.
  assert (exists to_r : bool, if to_r then to_r_mode ret else prev_mode ret) as (to_r & RE) by (destruct EH; [exists true|exists false]; auto).
  assert (PX : x0 = pval start AX). { pose proof (known_pval start AX GS) as Q. rewrite HX in Q. specialize (Q ltac:(discriminate)). congruence. }
  assert (PY : y0 = pval start AY). { pose proof (known_pval start AY GS) as Q. rewrite HY in Q. specialize (Q ltac:(discriminate)). congruence. }
  assert (EA : fadd (fadd z0 r) z = jd j) by (symmetry; exact JD). assert (EB : fadd z0 r = jr j) by (symmetry; exact JR).
  destruct (job_some g start true to_r r z x y z0 (jx j) (jy j) W C CO NX NY NZ NR (getattr_z _ _ GS HZ)) with (bs := bs) (n := n) as (f0 & F).
  - rewrite (proj1 (JX 0%nat)). change (Qc_of_Z (Z.of_nat 0)) with (Q2Qc 0). rewrite PX. ring.
  - rewrite (proj2 (JX 0%nat)). change (Qc_of_Z (Z.of_nat 0)) with (Q2Qc 0). rewrite PY. ring.
  - intros i. rewrite exact_add. rewrite (proj1 (JX (S i))), (proj1 (JX i)). rewrite succ_Qc. change (Q2Qc 1) with 1%Qc. ring.
  - intros i. rewrite exact_add. rewrite (proj2 (JX (S i))), (proj2 (JX i)). rewrite succ_Qc. change (Q2Qc 1) with 1%Qc. ring.
  - cbv beta iota. rewrite EA, EB. auto.
  - cbv beta iota. rewrite EA, EB. auto.
  - exists f0. intros fuel L. specialize (F fuel L). rewrite (simplify_inner fuel g start plane dist ret axes true to_r n C W AS PL DI RE). destruct (holes fuel n g start true to_r (pval start AX) (pval start AY)); [|contradiction]. eexists. reflexivity.
Qed.
Lemma drilled_move chip r d q z0 sz X Y i n gs : sz = r \/ sz = z0 -> drilled chip r d (- q)%Qc z0 sz X Y i n gs -> (Q2Qc 0 < q)%Qc -> (d < r)%Qc -> forall v zc, known v -> height v zc -> zc = z0 \/ zc = sz -> feeds_move v (apath v gs).
Proof.
  intros SZ H Q D. assert (NQ : (- q <= Q2Qc 0)%Qc) by (clear - Q; qcl). assert (DR : (d <= r)%Qc) by (apply Qclt_le_weak; auto).
  induction H as [i|i n bs gs B HS IH]; intros v zc K HZ ZC; [exact I|]. rewrite drilled_hole.
  pose proof (bores_end exact_laws chip r d (- q)%Qc bs B eq_refl eq_refl NQ DR (top r X Y v i) (top_height r X Y v i)) as BE.
  destruct (hole_path r d z0 sz X Y SZ v zc i bs K HZ ZC BE) as [HP HE]. rewrite apath_app, feeds_move_app, fin_apath, HE, HP. split; [|apply (IH _ sz); auto using with_z_height].
  - rewrite !feeds_move_app. split; [apply rapids_move, entry_rapid|]. assert (FE : fin v (entry r z0 X Y v i) = top r X Y v i).
    { pose proof (hole_path r d z0 sz X Y SZ v zc i [] K HZ ZC) as HP0. clear - K HZ ZC SZ. unfold entry. rewrite <- (fin_apath v []) at 1. cbn [apath fin]. 
      destruct (Qcltb z0 r) eqn:Q1; destruct (Qcltb r z0) eqn:Q2; cbn [app fin]; auto.
      unfold top. f_equal. symmetry. apply with_z_same. replace r with zc; auto. apply Qcltb_ge in Q1, Q2. destruct ZC as [->| ->]; [|destruct SZ as [->| ->]]; auto; clear - Q1 Q2; qcl. }
    rewrite FE, fin_apath, BE. split; [apply (bores_move chip r d q r bs B Q D (Qcle_refl _) _ r); auto using top_height, Qcle_refl|]. apply rapids_move. constructor; auto.
  - apply known_z. unfold top. apply known_xy, known_z. auto.
Qed.
Lemma expand_count g start plane dist ret j n z0 sz m bs q : gcode_wf g -> is_canned g -> complete g -> asked g n -> xy_plane plane -> drilling g (pvals start) dist j -> height (pvals start) z0 -> good start -> known_unit (punit start) ->
  knows_xyz (pvals start) -> end_height ret (pvals start) j sz -> (jd j < jr j)%Qc -> ready m -> m_axes m = paxes start -> place m (pvals start) -> mode_fits m dist ->
  step_down g (jr j) (jd j) = (- q)%Qc -> (Q2Qc 0 < q)%Qc -> bores (subclass (gcls g) GCodeDrillingCycleChipBreaking) (jr j) (jd j) (step_down g (jr j) (jd j)) (jr j) bs ->
  exists f0 out, (forall fuel, (f0 <= fuel)%nat -> simplify_canned_cycle fuel g start plane dist ret (paxes start) = Some (out, Ok tt)) /\ nfeeds out = (n * nfeeds bs)%nat.
Proof.
  intros W C CO AS PL DI HZ GS U KN EH DR R X P MF SD Q B. assert (DR' := Qclt_le_weak _ _ DR). assert (RE : to_r_mode ret \/ prev_mode ret) by (destruct EH as [[A _]|[A _]]; auto).
  assert (SZ : sz = jr j \/ sz = z0). { destruct EH as [[_ ->]|[_ H']]; auto. right. unfold height in *. congruence. }
  assert (KV : known (pvals start)) by (split; [|split]; apply KN; cbn; auto).
  destruct (expand_some g start plane dist ret (paxes start) j n z0 bs W C CO AS PL DI HZ GS KN RE DR' B) as [f0 F]. destruct (F f0 (le_n _)) as [G E].
  destruct (expand_exact f0 g start plane dist ret j n z0 sz G m W C CO AS PL DI HZ GS U KN EH DR' R X P MF E) as (gs & out & vs & l & m' & -> & D & V & L1 & L2 & _ & AR & VL).
  exists f0, out. split.
  - intros fuel L. destruct (F fuel L) as [G' E']. rewrite E'. f_equal. destruct (expand_exact fuel g start plane dist ret j n z0 sz G' m W C CO AS PL DI HZ GS U KN EH DR' R X P MF E') as (gs' & out' & vs' & l' & m1 & -> & D' & _ & _ & _ & _ & AR' & _).
    rewrite (drilled_fun _ _ _ _ _ _ _ _ _ _ _ _ D D') in AR. congruence.
  - rewrite <- (visits_feeds _ _ _ _ V). rewrite SD in D. assert (FM := drilled_move _ _ _ _ _ _ _ _ _ _ _ SZ D Q DR (pvals start) z0 KV HZ (or_introl eq_refl)). rewrite <- SD in D.
    replace (sfeeds vs) with (sfeeds (apath (pvals start) gs)) by (destruct VL as [->| ->]; auto; symmetry; apply (ws_feeds _ _ _ L2 FM)). rewrite sfeeds_apath. apply (drilled_count _ _ _ _ _ _ _ _ _ bs B eq_refl _ _ _ D).
Qed.
End Exact.
(** *** rounding arithmetic: steps that are not too small go down *)
Section Rounding.
Context {ar : Arith}.
Lemma rnd_above x : monotone ar -> accurate ar -> (Qabs (this x) <= 2000000)%Q -> (this (rnd x) <= this x + (1 # 400000))%Q.
Proof.
  intros M (_ & A) B. destruct (Qlt_le_dec (Qabs (this x)) (1 # 1000000000)) as [S|L].
  - set (e := Q2Qc (1 # 1000000000)). assert (TE : (this e == 1 # 1000000000)%Q) by reflexivity. assert (X : (x <= e)%Qc). { unfold Qcle. rewrite TE. apply Qlt_le_weak. eapply Qle_lt_trans; [apply Qle_Qabs|exact S]. }
    apply M in X. assert (AE := A e). assert (QE : Qabs (this e) = this e) by reflexivity. rewrite QE in AE. rewrite TE in AE. specialize (AE (Qle_refl _)). rewrite this_sub in AE. apply Qabs_Qle_condition in AE as [_ AE]. rewrite TE in AE. unfold Qcle in X.
    apply Qabs_Qlt_condition in S as [S1 S2]. change ((1 # 1000000000) / 2 ^ 40)%Q with (1 # 1099511627776000000000)%Q in AE. lra.
  - specialize (A x L). rewrite this_sub in A. apply Qabs_Qle_condition in A as [_ A]. assert (D : (Qabs (this x) / 2 ^ 40 <= 1 # 400000)%Q). { unfold Qdiv. change (/ 2 ^ 40)%Q with (1 # 1099511627776)%Q. eapply Qle_trans; [apply Qmult_le_compat_r; [exact B|discriminate]|]. vm_compute. discriminate. } lra.
Qed.
Lemma bores_float chip r d delta : laws -> accurate ar -> float r -> float d -> (d <= r)%Qc -> within r -> within d -> (delta <= Qcopp (frac 1 2000))%Qc -> exists gs, bores chip r d delta r gs.
Proof.
  intros LA A Fr Fd DR Wr Wd D. pose proof LA as (M & _). assert (D0 : (delta <= Q2Qc 0)%Qc) by (clear - D; qcl).
  assert (E0 : (Q2Qc 0 < frac 1 4000)%Qc) by (unfold Qclt; rewrite this_frac; reflexivity). destruct (archimedes (r - d)%Qc _ E0) as [N H].
  apply (bores_ex chip r d delta (frac 1 4000) LA E0 Fd D0) with (N := N); auto using Qcle_refl. intros c Fc Cr Q.
  assert (X : (d < c + delta)%Qc). { destruct (Qcltb d (c + delta)) eqn:E; [apply Qcltb_lt; auto|]. apply Qcltb_ge in E. apply M in E. fold (fadd c delta) in E. rewrite Fd in E. exfalso. clear - E Q. qcl. }
  assert (B : (Qabs (this (c + delta)%Qc) <= 2000000)%Q). { apply Qabs_Qle_condition in Wr, Wd. apply Qabs_Qle_condition. unfold Qclt, Qcle in *. rewrite this_add in *. change (this (Q2Qc 0)) with 0%Q in D0. split; lra. }
  pose proof (rnd_above (c + delta)%Qc M A B) as U. fold (fadd c delta) in U. rewrite this_add in U. unfold Qcle in *. rewrite this_sub, this_frac. rewrite this_opp, this_frac in D. lra.
Qed.
Lemma step_down_coarse g r d : laws -> accurate ar -> gcode_wf g -> complete g -> within r -> within d -> (forall q, pecking g -> q_word g q -> (1 # 1000 <= Qabs (this q))%Q) -> (~ pecking g -> (frac 1 1000 <= r - d)%Qc) -> (step_down g r d <= Qcopp (frac 1 2000))%Qc.
Proof.
  intros LA A W CO Wr Wd HQ HP. destruct (subclass (gcls g) GCodeDrillingCyclePeck || subclass (gcls g) GCodeDrillingCycleChipBreaking) eqn:P.
  - apply pecking_iff in P. destruct (proj2 CO P) as [q Q]. rewrite (step_down_q g r d q W P Q). specialize (HQ q P Q). assert (F : (this (fabs q) == Qabs (this q))%Q).
    { unfold fabs. destruct (Qcltb q (Q2Qc 0)) eqn:E; [apply Qcltb_lt in E; rewrite this_opp; rewrite Qabs_neg; [reflexivity|apply Qlt_le_weak; exact E]|]. apply Qcltb_ge in E. rewrite Qabs_pos; [reflexivity|exact E]. }
    unfold Qcle. rewrite !this_opp, this_frac, F. lra.
  - assert (NP : ~ pecking g) by (rewrite pecking_iff; congruence). rewrite (step_down_plain g r d NP). specialize (HP NP). unfold fsub. destruct LA as (M & _). apply Qabs_Qle_condition in Wr, Wd. pose proof (rnd_above (d - r)%Qc M A) as U. rewrite this_sub in U. unfold Qcle in *. rewrite this_sub, this_frac in HP. rewrite this_opp, this_frac.
    assert (B : (Qabs (this d - this r) <= 2000000)%Q) by (apply Qabs_Qle_condition; split; lra). specialize (U B). lra.
Qed.
(** a step that is lost in rounding *)
Lemma bores_stuck chip r d delta c gs : fadd c delta = c -> (d < c)%Qc -> ~ bores chip r d delta c gs.
Proof.
  intros F L B. induction B as [c E|c c' gs E L' B IH].
  - rewrite F in E. destruct (Qcltb c d) eqn:Q; [apply Qcltb_lt in Q; clear - Q L; qcl|]. subst. clear - L. qcl.
  - rewrite F in E. subst c'. auto.
Qed.
End Rounding.
