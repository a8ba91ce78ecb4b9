(** Properties C58, C59, C60, C79: drilling cycles expanded into moves. *)
From Coq Require Import Ascii String List Bool Arith ZArith QArith Qabs Qcanon Lia Lqa.
From Verif Require Import Base Num Words GTable GCode Line Position Machine Transform BaseFacts WordOrder WordsSpec PrintSpec PrintProofs BlockSpec GCodeSpec GCodeProofs GCodeProofs2 PropsGCode ArithSpec Float64 PosSpec PosProofs ModeSpec ModeProofs PropsMode MachSpec MachProofs MachProofs2 MachProofs3 PropsMach CannedProofs PropsCanned TransSpec TransProofs TransProofs2 PropsTrans DrillSpec DrillProofs DrillProofs2 DrillProofs3 DrillProofs4.
Import ListNotations.

Lemma start_height start : good start -> knows_xyz (pvals start) -> exists z0, height (pvals start) z0.
Proof. intros G K. exists (pval start AZ). apply known_pval; auto. apply K. cbn. auto. Qed.
Lemma knows_known v : knows_xyz v -> known v.
Proof. intros K. split; [|split]; apply K; cbn; auto. Qed.
Lemma end_cases ret v j z0 sz : height v z0 -> end_height ret v j sz -> sz = jr j \/ sz = z0.
Proof. intros H [[_ ->]|[_ H']]; auto. right. unfold height in *. congruence. Qed.
(** ** C59: the expansion of a drilling cycle is safe *)
(** with any rounding arithmetic, in absolute distance mode: the commanded moves *)
Theorem C59_commands : forall (ar : Arith) (fuel : nat) (g : gcode) (start : position) (plane dist ret : option gclass) (axes : axset) (j : job) (n : nat) (sz : Qc) (G : gen),
  monotone ar -> idempotent ar -> odd ar -> gcode_wf g -> is_canned g -> complete g -> asked g n -> xy_plane plane -> abs_mode dist -> job_absolute g j ->
  good start -> knows_xyz (pvals start) -> end_height ret (pvals start) j sz -> (jd j <= jr j)%Qc -> (jd j <= sz)%Qc -> float (jr j) -> float (jd j) ->
  simplify_canned_cycle fuel g start plane dist ret axes = Some G ->
  exists out l, G = (out, Ok tt) /\ (forall l', commands (pvals start) out l' <-> l' = l) /\
    safe (jr j) (jd j) (pvals start) (jr j) l /\ feeds_over j n l /\ bottom_reached j n (map snd l).
Proof.
  intros ar fuel g start plane dist ret axes j n sz G M ID OD W C CO AS PL DI JA GS KN EH DR DS Fr Fd E. assert (LA : laws) by (split; auto). destruct (start_height start GS KN) as [z0 HZ].
  destruct (expand_absolute fuel g start plane dist ret axes j n z0 sz G W C CO AS PL DI JA HZ GS EH DR E) as (gs & -> & D).
  destruct (drilled_spec LA _ _ _ _ _ _ _ _ (end_cases _ _ _ _ _ HZ EH) _ _ _ D Fr Fd (step_down_nonpos g _ _ LA CO W DR) DR DS (pvals start) z0 (jr j) (knows_known _ KN) HZ (or_introl eq_refl) (Qcle_refl _)) as (S & O & B & _).
  exists gs, (apath (pvals start) gs). split; auto. split; [intros l'; apply commands_iff; eapply drilled_words; eauto|]. split; auto. split.
  - intros c v I L. destruct (O c v I L) as (k & z & Q & ->). exists k. split; [lia|]. apply top_over; auto.
  - intros i Q. exists (with_z (top (jr j) (jx j) (jy j) (pvals start) i) (jd j)). split; [apply in_map_iff; exists (GCodeLinearMove, with_z (top (jr j) (jx j) (jy j) (pvals start) i) (jd j)); split; [reflexivity|apply B; lia]|]. split; [apply top_over; auto|apply with_z_height].
Qed.
Print Assumptions C59_commands.
(** exact arithmetic, both distance modes: what a machine does that runs the result *)
Theorem C59_machine : forall (fuel : nat) (g : gcode) (start : position) (plane dist ret : option gclass) (j : job) (n : nat) (sz : Qc) (G : gen) (m : machine),
  gcode_wf (ar := exact_arith) g -> is_canned g -> complete g -> asked g n -> xy_plane plane -> drilling g (pvals start) dist j ->
  good start -> known_unit (punit start) -> knows_xyz (pvals start) -> end_height ret (pvals start) j sz -> (jd j <= jr j)%Qc -> (jd j <= sz)%Qc ->
  ready (ar := exact_arith) m -> m_axes m = paxes start -> place (ar := exact_arith) m (pvals start) -> mode_fits m dist ->
  simplify_canned_cycle (ar := exact_arith) fuel g start plane dist ret (paxes start) = Some G ->
  exists out vs l m', G = (out, Ok tt) /\ visits (ar := exact_arith) m out vs m' /\ without_stops (pvals start) vs l /\
    safe (jr j) (jd j) (pvals start) (jr j) l /\ feeds_over j n l /\ bottom_reached j n (pvals start :: map snd l).
Proof.
  intros fuel g start plane dist ret j n sz G m W C CO AS PL DI GS U KN EH DR DS R X P MF E. destruct (start_height start GS KN) as [z0 HZ]. pose proof exact_laws as LA.
  destruct (expand_exact fuel g start plane dist ret j n z0 sz G m W C CO AS PL DI HZ GS U KN EH DR R X P MF E) as (gs & out & vs & l & m' & -> & D & V & L1 & L2 & _).
  destruct (drilled_spec LA _ _ _ _ _ _ _ _ (end_cases _ _ _ _ _ HZ EH) _ _ _ D eq_refl eq_refl (step_down_nonpos (ar := exact_arith) g _ _ LA CO W DR) DR DS (pvals start) z0 (jr j) (knows_known _ KN) HZ (or_introl eq_refl) (Qcle_refl _)) as (S & O & B & _).
  exists out, vs, l, m'. split; auto. split; auto. split; auto. split; [|split].
  - eapply safe_stops_first; eauto using Qcle_refl. clear - D. destruct D as [i|i n bs gs B H]; cbn [apath]; auto. destruct (Qcltb z0 (jr j)); cbn [app apath]; apply der_self.
  - intros c v I Li. destruct (O c v (ws_in _ _ _ _ L2 I) Li) as (k & z & Q & ->). exists k. split; [lia|]. apply top_over; auto.
  - intros i Q. exists (with_z (top (jr j) (jx j) (jy j) (pvals start) i) (jd j)). split; [eapply ws_reach; [exact L2|]; right; apply in_map_iff; exists (GCodeLinearMove, with_z (top (jr j) (jx j) (jy j) (pvals start) i) (jd j)); split; [reflexivity|apply B; lia]|]. split; [apply top_over; auto|apply with_z_height].
Qed.
Print Assumptions C59_machine.

(** ** C58: it ends where the machine model says the cycle ends *)
Definition return_fits (m : machine) (ret : option gclass) : Prop := (to_r_mode ret /\ returns_to_r m) \/ (prev_mode ret /\ ~ returns_to_r m).
Lemma asked_loops g n : asked g n -> (0 < n)%nat -> loops g n.
Proof. intros [(w & z & I & V & ->)|H] L; [left; exists w, z; split; auto; split; auto; lia|right; auto]. Qed.
Theorem C58_ends_partial : forall (fuel : nat) (g : gcode) (start : position) (plane dist ret : option gclass) (j : job) (n : nat) (sz : Qc) (G : gen) (m : machine),
  gcode_wf (ar := exact_arith) g -> is_canned g -> complete g -> asked g n -> (0 < n)%nat -> (forall a x, names g a x -> In a [AX; AY; AZ]) -> (inc_mode dist -> to_r_mode ret -> n = 1%nat) ->
  xy_plane plane -> drilling g (pvals start) dist j ->
  good start -> known_unit (punit start) -> knows_xyz (pvals start) -> end_height ret (pvals start) j sz -> (jd j <= jr j)%Qc ->
  ready (ar := exact_arith) m -> m_axes m = paxes start -> place (ar := exact_arith) m (pvals start) -> mode_fits m dist -> return_fits m ret -> normal m AZ ->
  simplify_canned_cycle (ar := exact_arith) fuel g start plane dist ret (paxes start) = Some G ->
  exists out vs m1 m2 v, G = (out, Ok tt) /\ gcode_process (ar := exact_arith) g m = (m1, Ok tt) /\ place (ar := exact_arith) m1 v /\ visits (ar := exact_arith) m out vs m2 /\ place (ar := exact_arith) m2 v.
Proof.
  intros fuel g start plane dist ret j n sz G m W C CO AS NP NA N1 PL DI GS U KN EH DR R X P MF RF NM E. destruct (start_height start GS KN) as [z0 HZ]. pose proof exact_laws as LA.
  destruct (expand_exact fuel g start plane dist ret j n z0 sz G m W C CO AS PL DI HZ GS U KN EH DR R X P MF E) as (gs & out & vs & l & m' & -> & D & V & L1 & L2 & PE & _).
  assert (AE : aend (pvals start) gs = with_z (top (jr j) (jx j) (jy j) (pvals start) n) sz).
  { rewrite (drilled_end LA _ _ _ _ _ _ _ _ (end_cases _ _ _ _ _ HZ EH) _ _ _ D eq_refl eq_refl (step_down_nonpos (ar := exact_arith) g _ _ LA CO W DR) DR (pvals start) z0 (knows_known _ KN) HZ (or_introl eq_refl) NP). do 2 f_equal. lia. }
  assert (RR : returns_to_r m -> exists r, r_word g r). { intros _. destruct DI as [(_ & x & y & _ & _ & _ & NR & _)|(_ & x0 & y0 & z1 & _ & _ & _ & x & y & z & r & _ & _ & _ & NR & _)]; eauto. }
  pose proof R as (SD & IN & SY). assert (HB : has (m_abs m) AZ) by (apply (place_has (ar := exact_arith) m (pvals start) AZ SD P); eauto).
  destruct (C49_ends m g AZ n SD SY W C NM HB (asked_loops g n AS NP) RR) as (m1 & E1 & A1 & A2 & A3 & A4 & A5). destruct (process_ready (ar := exact_arith) g m R W) as [R1 X1]. rewrite E1 in R1, X1. cbn [fst] in R1, X1.
  exists out, vs, m1, m', (aend (pvals start) gs). split; auto. split; auto. split; [|auto]. rewrite AE. apply place_intro; [apply R1| |].
  - intros a Ha. apply (same_axes_has (ar := exact_arith) m m1 a SD (proj1 R1) X1) in Ha. pose proof Ha as Ha'. apply (place_has (ar := exact_arith) m (pvals start) a SD P) in Ha' as [v0 V0]. assert (PA := proj2 (place_at (ar := exact_arith) m (pvals start) SD P a v0) V0).
    assert (VG : forall x, (a = AX -> x = jx j n) -> (a = AY -> x = jy j n) -> (a = AZ -> x = sz) -> (a <> AX -> a <> AY -> a <> AZ -> x = v0) -> vget (with_z (top (jr j) (jx j) (jy j) (pvals start) n) sz) a = Some x).
    { intros x Q1 Q2 Q3 Q4. unfold with_z, top, with_xy. rewrite !vget_vset. destruct a; cbn [axis_eqb]; try (rewrite Q1 by auto; reflexivity); try (rewrite Q2 by auto; reflexivity); try (rewrite Q3 by auto; reflexivity); rewrite Q4 by discriminate; exact V0. }
    assert (OTH : a <> AX -> a <> AY -> a <> AZ -> pos_at (ar := exact_arith) m1 a v0). { intros Q1 Q2 Q3. apply A3; auto. intros x N. apply NA in N. cbn in N. intuition. }
    assert (PX : pos_at (ar := exact_arith) m1 a (match a with AX => jx j n | AY => jy j n | AZ => sz | _ => v0 end)).
    { destruct DI as [(DM & x & y & NX & NY & NZ & NR & JX)|(DM & x0 & y0 & z1 & HX & HY & HZ1 & x & y & z & r & NX & NY & NZ & NR & JR & JD & JX)].
      - assert (AB : absolute m) by (destruct MF as [[_ AB]|[I _]]; auto; destruct (modes_apart _ DM I)). destruct (JX n) as [JXn JYn].
        destruct a; try (apply OTH; discriminate); [rewrite JXn; apply A1; auto; discriminate|rewrite JYn; apply A1; auto; discriminate|].
        destruct EH as [[TR ->]|[PV H]].
        + destruct RF as [[_ RT]|[PV _]]; [|destruct (returns_apart _ TR PV)]. apply (A5 RT _ NR); auto.
        + destruct RF as [[TR _]|[_ RT]]; [destruct (returns_apart _ TR PV)|]. apply A4; auto. apply (place_at (ar := exact_arith) m (pvals start) SD P). auto.
      - assert (IC : incremental m) by (destruct MF as [[AB _]|[_ I]]; auto; destruct (modes_apart _ AB DM)). destruct (JX n) as [JXn JYn].
        destruct a; try (apply OTH; discriminate).
        + rewrite JXn. apply (A2 AX x x0); auto; [discriminate|]. apply (place_at (ar := exact_arith) m (pvals start) SD P). auto.
        + rewrite JYn. apply (A2 AY y y0); auto; [discriminate|]. apply (place_at (ar := exact_arith) m (pvals start) SD P). auto.
        + destruct EH as [[TR ->]|[PV H]].
          * destruct RF as [[_ RT]|[PV _]]; [|destruct (returns_apart _ TR PV)]. rewrite (N1 DM TR) in A5. destruct (A5 RT _ NR) as [_ A6]. replace (jr j) with (z1 + times 1 r)%Qc. { apply A6; auto. apply (place_at (ar := exact_arith) m (pvals start) SD P). auto. } rewrite times_S, times_0, JR. ring.
          * destruct RF as [[TR _]|[_ RT]]; [destruct (returns_apart _ TR PV)|]. apply A4; auto. apply (place_at (ar := exact_arith) m (pvals start) SD P). auto. }
    eexists. split; [apply VG|exact PX]; intros; subst; auto; destruct a; congruence.
  - intros a Ha. assert (Ha' : ~ has (m_abs m) a) by (intros Q; apply Ha; apply (same_axes_has (ar := exact_arith) m m1 a SD (proj1 R1) X1); auto).
    assert (V0 : vget (pvals start) a = None). { destruct (vget (pvals start) a) as [x|] eqn:Q; auto. destruct Ha'. apply (place_has (ar := exact_arith) m (pvals start) a SD P). eauto. }
    unfold with_z, top, with_xy. rewrite !vget_vset. destruct a; cbn [axis_eqb]; auto; exfalso; refine (KN _ _ V0); cbn; auto.
Qed.
Print Assumptions C58_ends_partial.
(** under G91 G99 with several holes the expansion returns to R above the start, the machine model climbs R at each hole *)
Theorem C58_return_differs : forall (fuel : nat) (g : gcode) (start : position) (plane dist ret : option gclass) (j : job) (n : nat) (r : Qc) (G : gen) (m : machine),
  gcode_wf (ar := exact_arith) g -> is_canned g -> complete g -> asked g n -> (1 < n)%nat -> inc_mode dist -> to_r_mode ret -> r_word g r -> r <> Q2Qc 0 ->
  xy_plane plane -> drilling g (pvals start) dist j ->
  good start -> known_unit (punit start) -> knows_xyz (pvals start) -> (jd j <= jr j)%Qc ->
  ready (ar := exact_arith) m -> m_axes m = paxes start -> place (ar := exact_arith) m (pvals start) -> incremental m -> returns_to_r m -> normal m AZ ->
  simplify_canned_cycle (ar := exact_arith) fuel g start plane dist ret (paxes start) = Some G ->
  exists out vs m1 m2 v1 v2, G = (out, Ok tt) /\ gcode_process (ar := exact_arith) g m = (m1, Ok tt) /\ place (ar := exact_arith) m1 v1 /\ visits (ar := exact_arith) m out vs m2 /\ place (ar := exact_arith) m2 v2 /\ v1 <> v2.
Proof.
  intros fuel g start plane dist ret j n r G m W C CO AS NP IM TR NR RN PL DI GS U KN DR R X P IC RT NM E. destruct (start_height start GS KN) as [z0 HZ]. pose proof exact_laws as LA. assert (EH : end_height ret (pvals start) j (jr j)) by (left; auto).
  destruct (expand_exact fuel g start plane dist ret j n z0 (jr j) G m W C CO AS PL DI HZ GS U KN EH DR R X P (or_intror (conj IM IC)) E) as (gs & out & vs & l & m' & -> & D & V & L1 & L2 & PE & _).
  assert (AE : aend (pvals start) gs = with_z (top (jr j) (jx j) (jy j) (pvals start) n) (jr j)).
  { rewrite (drilled_end LA _ _ _ _ _ _ _ _ (end_cases _ _ _ _ _ HZ EH) _ _ _ D eq_refl eq_refl (step_down_nonpos (ar := exact_arith) g _ _ LA CO W DR) DR (pvals start) z0 (knows_known _ KN) HZ (or_introl eq_refl) ltac:(lia)). do 2 f_equal. lia. }
  destruct DI as [(AM & _)|(_ & x0 & y0 & z1 & _ & _ & HZ1 & x & y & z & r' & _ & _ & _ & NR' & JR & _)]; [destruct (modes_apart _ AM IM)|]. assert (r' = r) by (eapply r_word_fun; eauto). subst r'. assert (z1 = z0) by (unfold height in HZ; congruence). subst z1.
  pose proof R as (SD & IN & SY). assert (HB : has (m_abs m) AZ) by (apply (place_has (ar := exact_arith) m (pvals start) AZ SD P); eauto).
  destruct (C49_ends m g AZ n SD SY W C NM HB (asked_loops g n AS ltac:(lia)) (fun _ => ex_intro _ r NR)) as (m1 & E1 & _ & _ & _ & _ & A5). destruct (process_ready (ar := exact_arith) g m R W) as [R1 X1]. rewrite E1 in R1, X1. cbn [fst] in R1, X1.
  destruct (place_ex (ar := exact_arith) m1 (proj1 R1)) as [v1 P1]. exists out, vs, m1, m', v1, (aend (pvals start) gs). split; auto. split; auto. split; auto. split; auto. split; auto. intros Q.
  destruct (A5 RT r NR) as [_ A6]. specialize (A6 IC z0 (proj2 (place_at (ar := exact_arith) m (pvals start) SD P AZ z0) HZ)). apply (place_at (ar := exact_arith) m1 v1 (proj1 R1) P1) in A6. rewrite Q, AE in A6. pose proof (with_z_height (top (jr j) (jx j) (jy j) (pvals start) n) (jr j)) as H. unfold height in H. rewrite A6 in H. injection H as H. rewrite JR in H.
  apply RN. destruct n as [|[|k]]; [lia|lia|]. assert (T0 : (times (S k) r = Q2Qc 0)%Qc). { rewrite times_S in H. replace (times (S k) r) with (z0 + (r + times (S k) r) - z0 - r)%Qc by ring. rewrite H. change (Q2Qc 0) with 0%Qc. ring. }
  unfold times in T0. apply Qcmult_integral in T0 as [T0|T0]; auto. exfalso. apply qc_eq in T0. clear - T0. rewrite this_Z in T0. unfold Qeq in T0. cbn in T0. discriminate T0.
Qed.
Print Assumptions C58_return_differs.
(** L0: the expansion does nothing, the machine model drills once *)
Theorem C58_zero_differs : forall (fuel : nat) (g : gcode) (start : position) (plane dist ret : option gclass) (x : Qc) (m : machine),
  gcode_wf (ar := exact_arith) g -> is_canned g -> asked g 0 -> names g AX x -> xy_plane plane -> abs_mode dist -> (to_r_mode ret \/ prev_mode ret) ->
  good start -> vget (pvals start) AX <> Some x -> has (m_abs m) AX -> has (m_abs m) AZ ->
  ready (ar := exact_arith) m -> place (ar := exact_arith) m (pvals start) -> absolute m -> (returns_to_r m -> exists r, r_word g r) -> normal m AZ ->
  exists m1 v1, simplify_canned_cycle (ar := exact_arith) fuel g start plane dist ret (paxes start) = Some ([], Ok tt) /\
    gcode_process (ar := exact_arith) g m = (m1, Ok tt) /\ place (ar := exact_arith) m1 v1 /\ place (ar := exact_arith) m (pvals start) /\ v1 <> pvals start.
Proof.
  intros fuel g start plane dist ret x m W C AS NX PL DI RE GS NE HX HB R P AB RR NM.
  assert (LO : loops g 1). { destruct AS as [(w & z & I & V & Q)|[_ Q]]; [|discriminate Q]. left. exists w, z. split; auto. split; auto. lia. }
  pose proof R as (SD & IN & SY). destruct (C49_ends m g AZ 1 SD SY W C NM HB LO RR) as (m1 & E1 & A1 & _). destruct (process_ready (ar := exact_arith) g m R W) as [R1 X1]. rewrite E1 in R1, X1. cbn [fst] in R1, X1.
  destruct (place_ex (ar := exact_arith) m1 (proj1 R1)) as [v1 P1]. exists m1, v1. split.
  - assert (exists to_r : bool, if to_r then to_r_mode ret else prev_mode ret) as [to_r T] by (destruct RE; [exists true|exists false]; auto).
    rewrite (simplify_inner (ar := exact_arith) fuel g start plane dist ret (paxes start) false to_r 0 C W AS PL DI T). cbn [holes option_map]. unfold gcodes_abs2rel. assert (subclass (dist_of dist) GCodeIncrementalDistanceMode = false) as ->; auto. unfold dist_of. destruct DI as [->|(p & -> & DD)]; [reflexivity|apply abs_not_inc; auto].
  - split; auto. split; auto. split; auto. intros Q. apply NE. rewrite <- Q. apply (place_at (ar := exact_arith) m1 v1 (proj1 R1) P1). apply A1; auto. discriminate.
Qed.
Print Assumptions C58_zero_differs.

(** ** C60: the expansion ends *)
(** exact arithmetic: always when Q is not zero, with just as many pecks as the depth needs; [a]: the size of Q *)
Theorem C60_pecks_partial : forall (g : gcode) (start : position) (plane dist ret : option gclass) (j : job) (n : nat) (sz q a : Qc) (m : machine),
  gcode_wf (ar := exact_arith) g -> is_canned g -> complete g -> asked g n -> xy_plane plane -> drilling g (pvals start) dist j ->
  good start -> known_unit (punit start) -> knows_xyz (pvals start) -> end_height ret (pvals start) j sz -> (jd j < jr j)%Qc ->
  ready (ar := exact_arith) m -> m_axes m = paxes start -> place (ar := exact_arith) m (pvals start) -> mode_fits m dist ->
  pecking g -> q_word g q -> (Q2Qc 0 < a)%Qc -> q = a \/ q = (- a)%Qc ->
  exists f0 out N, enough a (jr j - jd j)%Qc N /\ feed_count out (n * N) /\
    forall fuel, (f0 <= fuel)%nat -> simplify_canned_cycle (ar := exact_arith) fuel g start plane dist ret (paxes start) = Some (out, Ok tt).
Proof.
  intros g start plane dist ret j n sz q a m W C CO AS PL DI GS U KN EH DR R X P MF PK QW AP QA. destruct (start_height start GS KN) as [z0 HZ].
  assert (FQ : fabs q = a). { unfold fabs. destruct QA as [->| ->]; destruct (Qcltb _ (Q2Qc 0)) eqn:E; try reflexivity; [apply Qcltb_lt in E; exfalso; clear - E AP; qcl|ring|apply Qcltb_ge in E; exfalso; clear - E AP; qcl]. }
  assert (SD : step_down (ar := exact_arith) g (jr j) (jd j) = (- a)%Qc) by (rewrite (step_down_q g _ _ q W PK QW), FQ; auto).
  destruct (enough_ex a (jr j - jd j)%Qc AP) as (N & N1 & N2); [clear - DR; qcl|]. destruct (bores_count (subclass (gcls g) GCodeDrillingCycleChipBreaking) (jr j) (jd j) a AP N (jr j) N1 N2) as (bs & B & NB). rewrite <- SD in B.
  destruct (expand_count g start plane dist ret j n z0 sz m bs a W C CO AS PL DI HZ GS U KN EH DR R X P MF SD AP B) as (f0 & out & F & K). exists f0, out, (S N). split; [|split; auto].
  - split; auto. replace (Z.of_nat (S N) - 1)%Z with (Z.of_nat N) by lia. auto.
  - rewrite <- NB. rewrite <- K. apply nfeeds_count.
Qed.
Print Assumptions C60_pecks_partial.
(** ** C79: a plain cycle feeds once into each hole *)
Theorem C79_once_partial : forall (g : gcode) (start : position) (plane dist ret : option gclass) (j : job) (n : nat) (sz : Qc) (m : machine),
  gcode_wf (ar := exact_arith) g -> is_canned g -> complete g -> asked g n -> xy_plane plane -> drilling g (pvals start) dist j ->
  good start -> known_unit (punit start) -> knows_xyz (pvals start) -> end_height ret (pvals start) j sz -> (jd j < jr j)%Qc ->
  ready (ar := exact_arith) m -> m_axes m = paxes start -> place (ar := exact_arith) m (pvals start) -> mode_fits m dist -> ~ pecking g ->
  exists f0 out, feed_count out n /\ forall fuel, (f0 <= fuel)%nat -> simplify_canned_cycle (ar := exact_arith) fuel g start plane dist ret (paxes start) = Some (out, Ok tt).
Proof.
  intros g start plane dist ret j n sz m W C CO AS PL DI GS U KN EH DR R X P MF NP. destruct (start_height start GS KN) as [z0 HZ].
  assert (SD : step_down (ar := exact_arith) g (jr j) (jd j) = (- (jr j - jd j))%Qc). { rewrite (step_down_plain g _ _ NP). unfold fsub. cbn [rnd exact_arith]. ring. }
  assert (AP : (Q2Qc 0 < jr j - jd j)%Qc) by (clear - DR; qcl). destruct (bores_count (subclass (gcls g) GCodeDrillingCycleChipBreaking) (jr j) (jd j) (jr j - jd j)%Qc AP 0 (jr j)) as (bs & B & NB).
  - change (Qc_of_Z (Z.of_nat 0)) with (Q2Qc 0). replace (Q2Qc 0 * (jr j - jd j))%Qc with (Q2Qc 0) by ring. auto.
  - change (Qc_of_Z (Z.of_nat 1)) with (Q2Qc 1). replace (Q2Qc 1 * (jr j - jd j))%Qc with (jr j - jd j)%Qc by ring. apply Qcle_refl.
  - rewrite <- SD in B. destruct (expand_count g start plane dist ret j n z0 sz m bs (jr j - jd j)%Qc W C CO AS PL DI HZ GS U KN EH DR R X P MF SD AP B) as (f0 & out & F & K). exists f0, out. split; auto. rewrite NB in K. replace n with (n * 1)%nat by lia. rewrite <- K. apply nfeeds_count.
Qed.
Print Assumptions C79_once_partial.
(** rounding arithmetic, absolute distances: it ends whenever the step (Q, or the whole depth) is a thousandth of a unit or more and the hole within a million units *)
Theorem C60_float_partial : forall (ar : Arith) (g : gcode) (start : position) (plane dist ret : option gclass) (axes : axset) (j : job) (n : nat),
  monotone ar -> idempotent ar -> odd ar -> accurate ar -> gcode_wf g -> is_canned g -> complete g -> asked g n -> xy_plane plane -> abs_mode dist -> job_absolute g j ->
  good start -> knows_xyz (pvals start) -> to_r_mode ret \/ prev_mode ret -> (jd j <= jr j)%Qc -> float (jr j) -> float (jd j) -> within (jr j) -> within (jd j) ->
  (forall q, pecking g -> q_word g q -> (1 # 1000 <= Qabs (this q))%Q) -> (~ pecking g -> (frac 1 1000 <= jr j - jd j)%Qc) ->
  exists f0 out, forall fuel, (f0 <= fuel)%nat -> simplify_canned_cycle fuel g start plane dist ret axes = Some (out, Ok tt).
Proof.
  intros ar g start plane dist ret axes j n M ID OD AC W C CO AS PL DI JA GS KN RE DR Fr Fd Wr Wd HQ HP. assert (LA : laws) by (split; auto). destruct (start_height start GS KN) as [z0 HZ].
  destruct (bores_float (subclass (gcls g) GCodeDrillingCycleChipBreaking) (jr j) (jd j) _ LA AC Fr Fd DR Wr Wd (step_down_coarse g _ _ LA AC W CO Wr Wd HQ HP)) as [bs B].
  destruct (expand_some_absolute g start plane dist ret axes j n z0 bs W C CO AS PL DI JA HZ GS RE DR B) as [f0 F].
  assert (exists sz, end_height ret (pvals start) j sz) as [sz EH] by (destruct RE; [exists (jr j); left|exists z0; right]; auto).
  destruct (F f0 (le_n _)) as [G E]. destruct (expand_absolute f0 g start plane dist ret axes j n z0 sz G W C CO AS PL DI JA HZ GS EH DR E) as (gs & -> & D).
  exists f0, gs. intros fuel L. destruct (F fuel L) as [G' E']. rewrite E'. f_equal. destruct (expand_absolute fuel g start plane dist ret axes j n z0 sz G' W C CO AS PL DI JA HZ GS EH DR E') as (gs' & -> & D'). f_equal. eapply drilled_fun; eauto.
Qed.
Print Assumptions C60_float_partial.
(** it never ends when the step is zero or lost in rounding at the height R *)
Theorem C60_stuck : forall (ar : Arith) (fuel : nat) (g : gcode) (start : position) (plane dist ret : option gclass) (axes : axset) (j : job) (n : nat) (q a : Qc),
  gcode_wf g -> is_canned g -> complete g -> asked g n -> (0 < n)%nat -> xy_plane plane -> abs_mode dist -> job_absolute g j ->
  good start -> knows_xyz (pvals start) -> to_r_mode ret \/ prev_mode ret -> (jd j < jr j)%Qc -> pecking g -> q_word g q -> (Q2Qc 0 <= a)%Qc -> q = a \/ q = (- a)%Qc -> fsub (jr j) a = jr j ->
  simplify_canned_cycle fuel g start plane dist ret axes = None.
Proof.
  intros ar fuel g start plane dist ret axes j n q a W C CO AS NP PL DI JA GS KN RE DR PK QW AP QA ST. destruct (start_height start GS KN) as [z0 HZ].
  destruct (simplify_canned_cycle fuel g start plane dist ret axes) as [G|] eqn:E; auto. exfalso.
  assert (exists sz, end_height ret (pvals start) j sz) as [sz EH] by (destruct RE; [exists (jr j); left|exists z0; right]; auto).
  destruct (expand_absolute fuel g start plane dist ret axes j n z0 sz G W C CO AS PL DI JA HZ GS EH (Qclt_le_weak _ _ DR) E) as (gs & -> & D). inversion D as [|i n' bs gs' B D']; subst; [lia|]. revert B.
  apply bores_stuck; auto. rewrite (step_down_q g _ _ q W PK QW). replace (fabs q) with a; [exact ST|]. unfold fabs. destruct QA as [->| ->]; destruct (Qcltb _ (Q2Qc 0)) eqn:Q; auto; [apply Qcltb_lt in Q; exfalso; clear - Q AP; qcl|ring|apply Qcltb_ge in Q; clear - Q AP; qcl].
Qed.
Print Assumptions C60_stuck.

(** *** examples *)
Definition agcode (ar : Arith) (s : string) : gcode := hd (MkGCode GCode (Word LG (VInt 0)) [] false) (match text2gcodes (ar := ar) (t s) with Ok l => l | Raise _ => [] end).
Definition value_of (g : gcode) (l : letter) : Qc := match pget (gparams g) l with Some (Word _ (VFloat x)) => x | _ => Q2Qc 0 end.
Definition float_word (g : gcode) (l : letter) : bool := match pget (gparams g) l with Some (Word _ (VFloat x)) => true | _ => false end.
Definition cycle_b (g : gcode) : bool :=
  subclass (gcls g) GCodeCannedCycle && negb (subclass (gcls g) GCodeDrillingCycleDwell) && float_word g LX && float_word g LY && float_word g LZ && float_word g LR &&
  (negb (subclass (gcls g) GCodeDrillingCyclePeck || subclass (gcls g) GCodeDrillingCycleChipBreaking) || float_word g LQ).
Definition job_of (g : gcode) : job := Job (value_of g LR) (value_of g LZ) (fun _ => value_of g LX) (fun _ => value_of g LY).
Lemma agcode_wf ar s : gcls (agcode ar s) <> GCode -> gcode_wf (ar := ar) (agcode ar s).
Proof.
  unfold agcode, text2gcodes. destruct (text2words (ar := ar) (t s)) as [ws|] eqn:E; cbn [bind]; [|intros N; destruct (N eq_refl)]. apply text2words_wf in E. destruct (words2gcodes ws) as [[gs un]|] eqn:G; cbn [bind]; [|intros N; destruct (N eq_refl)]. destruct un; [|intros N; destruct (N eq_refl)].
  apply words2gcodes_wf in G; auto. destruct G as [G _]. destruct gs as [|g gs]; [intros N; destruct (N eq_refl)|]. intros _. inversion G; auto.
Qed.
Lemma float_word_in g l : legal g -> float_word g l = true -> exists w, In (l, w) (gparams g) /\ wvalue w = VFloat (value_of g l).
Proof.
  intros L. unfold float_word, value_of. destruct (pget (gparams g) l) as [w|] eqn:E; [|discriminate]. apply pget_in in E; auto. destruct w as [l' [x|z|x]]; try discriminate. intros _. eexists. split; [exact E|reflexivity].
Qed.
Lemma cycle_ex {ar : Arith} g : gcode_wf g -> cycle_b g = true -> is_canned g /\ complete g /\ job_absolute g (job_of g) /\ (subclass (gcls g) GCodeDrillingCyclePeck || subclass (gcls g) GCodeDrillingCycleChipBreaking = true -> pecking g /\ q_word g (value_of g LQ)).
Proof.
  intros W. unfold cycle_b. rewrite !andb_true_iff. intros ((((((A & B) & X) & Y) & Z) & R) & Q). destruct W as (L & _). split; [apply subclass_derives; auto|]. assert (PQ : pecking g -> q_word g (value_of g LQ)).
  { intros P. apply pecking_iff in P. rewrite P in Q. apply float_word_in; auto. }
  split; [|split].
  - split; [intros D; apply subclass_derives in D; rewrite D in B; discriminate B|]. eauto.
  - exists (value_of g LX), (value_of g LY). split; [apply (float_word_in g LX); auto|]. split; [apply (float_word_in g LY); auto|]. split; [apply (float_word_in g LZ); auto|]. split; [apply (float_word_in g LR); auto|]. intros i. auto.
  - intros P. apply pecking_iff in P. auto.
Qed.
Lemma asked_one g : pget (gparams g) LL = None -> gcode_wf (ar := binary64) g \/ gcode_wf (ar := exact_arith) g -> asked g 1.
Proof. intros E W. right. split; auto. intros w I. apply pget_in in I; [congruence|]. destruct W as [W|W]; apply W. Qed.
Lemma start_good axes u cs : forallb (fun c => vget axes (fst c)) cs = true -> good (mk_position axes u cs).
Proof. intros H. apply mk_position_good. intros a x I. rewrite forallb_forall in H. apply (H _ I). Qed.
Definition out_text (ar : Arith) (G : option gen) : option (list string * result unit) := option_map (fun k => (map string_of_list_ascii (map (gcode_str (ar := ar)) (fst k)), snd k)) G.
Definition safe_b (r d : Qc) : where_ -> Qc -> list spot -> bool :=
  fix go (v : where_) (f : Qc) (l : list spot) : bool :=
    match l with
    | [] => true
    | (c, v') :: l =>
        match vget v' AZ with
        | None => false
        | Some z' =>
            let vert := forallb (fun a => match vget v a, vget v' a with Some x, Some y => Qceqb x y | None, None => true | _, _ => false end) [AX; AY] in
            let z := match vget v AZ with Some z => z | None => Q2Qc 0 end in
            (subclass c GCodeRapidMove && vert && negb (Qcltb z' f) && go v' f l) ||
            (subclass c GCodeRapidMove && Qceqb z z' && negb (Qcltb z' r) && go v' r l) ||
            (subclass c GCodeLinearMove && vert && negb (Qcltb z z') && negb (Qcltb z' d) && go v' (if Qcltb z' f then z' else f) l)
        end
    end.
Lemma vertical_b v v' : vertical v v' -> forallb (fun a => match vget v a, vget v' a with Some x, Some y => Qceqb x y | None, None => true | _, _ => false end) [AX; AY] = true.
Proof.
  intros V. apply forallb_forall. intros a I. rewrite (V a); [|intros ->; cbn in I; intuition discriminate]. destruct (vget v a); auto. apply Qceqb_eq; auto.
Qed.
Lemma le_b a b : (a <= b)%Qc -> negb (Qcltb b a) = true.
Proof. intros L. destruct (Qcltb b a) eqn:E; auto. apply Qcltb_lt in E. exfalso. clear - L E. qcl. Qed.
Lemma safe_safe_b r d v f l : safe r d v f l -> safe_b r d v f l = true.
Proof.
  induction 1 as [v f|v f c v' z l C V H F S IH|v f c v' z l C H H' F S IH|v f c v' z z' l C V H H' F D S IH]; auto; apply subclass_derives in C; unfold height in *; cbn [safe_b]; fold (safe_b r d).
  - rewrite H, C, (vertical_b _ _ V), IH, (le_b _ _ F). auto.
  - rewrite H, H', C, IH, (le_b _ _ F). replace (Qceqb z z) with true by (symmetry; apply Qceqb_eq; auto). cbn. apply orb_true_iff. left. apply orb_true_r.
  - rewrite H, H', C, (vertical_b _ _ V), IH, (le_b _ _ F), (le_b _ _ D). cbn. apply orb_true_r.
Qed.
Definition xcycle (s : string) (p : position) (dist ret : option gclass) : option gen := simplify_canned_cycle (ar := exact_arith) 100 (agcode exact_arith s) p None dist ret xyz.
Definition low_ex : position := mk_position xyz UNIT_METRIC [(AX, frac 10 1); (AY, frac 20 1); (AZ, frac (-5) 1)].
Lemma low_good : good low_ex /\ knows_xyz (pvals low_ex).
Proof. split; [apply start_good; vm_compute; reflexivity|]. intros a I. cbn in I. destruct I as [<-|[<-|[<-|[]]]]; discriminate. Qed.
Lemma start_ex_good : good start_ex /\ knows_xyz (pvals start_ex).
Proof. split; [apply start_good; vm_compute; reflexivity|]. intros a I. cbn in I. destruct I as [<-|[<-|[<-|[]]]]; discriminate. Qed.
(** started below the bottom of the hole, G98 sends the tool back down there with a rapid move *)
Theorem C59_refuted : exists (g : gcode) (start : position) (j : job) (out : list gcode) (l : list spot),
  gcode_wf (ar := exact_arith) g /\ is_canned g /\ complete g /\ asked g 1 /\ job_absolute g j /\ (jd j < jr j)%Qc /\ good start /\ knows_xyz (pvals start) /\
  simplify_canned_cycle (ar := exact_arith) 100 g start None None None xyz = Some (out, Ok tt) /\ commands (pvals start) out l /\ ~ safe (jr j) (jd j) (pvals start) (jr j) l.
Proof.
  pose (g := agcode exact_arith "G81 X1 Y2 Z-3 R1").
  assert (W : gcode_wf (ar := exact_arith) g) by (apply agcode_wf; vm_compute; discriminate).
  destruct (cycle_ex g W) as (C & CO & J & _); [vm_compute; reflexivity|]. destruct low_good as [GS KN].
  assert (AS : asked g 1) by (apply asked_one; [vm_compute; reflexivity|auto]).
  assert (DR : (jd (job_of g) < jr (job_of g))%Qc) by (apply Qcltb_lt; vm_compute; reflexivity).
  destruct (simplify_canned_cycle (ar := exact_arith) 100 g low_ex None None None xyz) as [G|] eqn:E; [|vm_compute in E; discriminate E].
  destruct (start_height low_ex GS KN) as [z0 HZ]. assert (EH : end_height None (pvals low_ex) (job_of g) z0) by (right; split; [left|]; auto).
  destruct (expand_absolute 100 g low_ex None None None xyz (job_of g) 1 z0 z0 G W C CO AS (or_introl eq_refl) (or_introl eq_refl) J HZ GS EH (Qclt_le_weak _ _ DR) E) as (gs & -> & D).
  exists g, low_ex, (job_of g), gs, (apath (pvals low_ex) gs). do 9 (split; [auto|]). split; [apply commands_iff; auto; eapply drilled_words; eauto|].
  intros S. apply safe_safe_b in S. assert (X : match simplify_canned_cycle (ar := exact_arith) 100 g low_ex None None None xyz with Some (gs, _) => safe_b (jr (job_of g)) (jd (job_of g)) (pvals low_ex) (jr (job_of g)) (apath (pvals low_ex) gs) | None => true end = false) by (vm_compute; reflexivity).
  rewrite E in X. congruence.
Qed.
Print Assumptions C59_refuted.
Example C59_ex : let g := agcode binary64 "G83 X1 Y2 Z-3 R1.5 Q1.8" in gcode_wf (ar := binary64) g /\ is_canned g /\ complete g /\ asked g 1 /\ job_absolute g (job_of g) /\ pecking g /\ q_word g (value_of g LQ) /\
  good start_ex /\ knows_xyz (pvals start_ex) /\ (jd (job_of g) < jr (job_of g))%Qc /\ float (ar := binary64) (jr (job_of g)) /\ float (ar := binary64) (jd (job_of g)) /\ within (jr (job_of g)) /\ within (jd (job_of g)) /\
  (1 # 1000 <= Qabs (this (value_of g LQ)))%Q /\
  out_text binary64 (simplify_canned_cycle (ar := binary64) 100 g start_ex None None None xyz) =
    Some (["G00 X1 Y2"; "G00 Z1.5"; "G01 Z-0.3"; "G00 Z1.5"; "G00 Z-0.2"; "G01 Z-2.1"; "G00 Z1.5"; "G00 Z-2"; "G01 Z-3"; "G00 Z3"]%string, Ok tt).
Proof.
  intros g. assert (W : gcode_wf (ar := binary64) g) by (apply agcode_wf; vm_compute; discriminate).
  destruct (cycle_ex g W) as (C & CO & J & P); [vm_compute; reflexivity|]. destruct P as [P Q]; [vm_compute; reflexivity|]. destruct start_ex_good as [GS KN].
  split; auto. split; auto. split; auto. split; [apply asked_one; [vm_compute; reflexivity|auto]|]. split; auto. split; auto. split; auto. split; auto. split; auto. split; [apply Qcltb_lt; vm_compute; reflexivity|].
  split; [apply Qceqb_eq; vm_compute; reflexivity|]. split; [apply Qceqb_eq; vm_compute; reflexivity|]. split; [vm_compute; discriminate|]. split; [vm_compute; discriminate|]. split; [vm_compute; discriminate|]. vm_compute. reflexivity.
Qed.
(** machines at the start, in the wanted modes *)
Definition plane_b (m : machine) : bool := match gm_get (m_mode m) MG_plane_selection with Some pl => existsb (fun c => match gcls pl, c with GCodeSelectXYPlane, (GCodeSelectXYPlane, AZ) => true | _, _ => false end) planes | None => false end.
Definition to_r_b (m : machine) : bool := match gm_get (m_mode m) MG_canned_cycles_return with Some g => subclass (gcls g) GCodeCannedCycleReturnToR | None => false end.
Lemma plane_b_normal m : plane_b m = true -> normal m AZ.
Proof.
  unfold plane_b, normal. destruct (gm_get (m_mode m) MG_plane_selection) as [pl|]; [|intros H; discriminate H]. intros H. exists pl. split; auto. apply existsb_exists in H as ([c b] & I & H). destruct (gcls pl); try discriminate H. destruct c; try discriminate H. destruct b; try discriminate H. auto.
Qed.
Lemma to_r_b_iff m : to_r_b m = true <-> returns_to_r m.
Proof.
  unfold to_r_b, returns_to_r. split.
  - destruct (gm_get (m_mode m) MG_canned_cycles_return) as [g|]; [|intros H; discriminate H]. intros H. exists g. split; auto. apply subclass_derives; auto.
  - intros (g & -> & D). apply subclass_derives; auto.
Qed.
Lemma drill_machine s (i r : bool) : rmap (fun m => (in_sync_b m, (fun m => (is_incremental m, vals_b m (pvals start_ex), plane_b m, to_r_b m)) (xafter s m))) (default_machine (ar := exact_arith)) = Ok (true, (i, true, true, r)) ->
  exists m, ready (ar := exact_arith) m /\ m_axes m = paxes start_ex /\ place (ar := exact_arith) m (pvals start_ex) /\ (if i then incremental m else absolute m) /\ normal m AZ /\ (if r then returns_to_r m else ~ returns_to_r m).
Proof.
  intros H. apply xmachine in H as (m & R & X & E). exists m. split; auto. split; auto. apply pair_equal_spec in E as [E E4]. apply pair_equal_spec in E as [E E3]. apply pair_equal_spec in E as [E1 E2].
  split; [apply place_ex_b; auto|]. split; [destruct i; [apply is_incremental_iff; auto|apply absolute_iff; auto]|]. split; [apply plane_b_normal; auto|]. destruct r; [apply to_r_b_iff; auto|]. rewrite <- to_r_b_iff. congruence.
Qed.
Lemma asked_l g z n : gcode_wf (ar := exact_arith) g -> match pget (gparams g) LL with Some (Word _ (VInt z')) => Z.eqb z z' | _ => false end = true -> n = Z.to_nat z -> asked g n.
Proof.
  intros W. destruct (pget (gparams g) LL) as [[l [x|y|x]]|] eqn:E; intros H; try discriminate H. intros ->. apply Z.eqb_eq in H as ->. left. apply pget_in in E; [|apply W]. exists (Word l (VInt y)), y. auto.
Qed.
(** the job of an incremental cycle started at [start_ex] *)
Definition inc_job (g : gcode) : job := Job (frac 3 1 + value_of g LR)%Qc (frac 3 1 + value_of g LR + value_of g LZ)%Qc (fun i => frac 10 1 + Qc_of_Z (Z.of_nat i) * value_of g LX)%Qc (fun i => frac 20 1 + Qc_of_Z (Z.of_nat i) * value_of g LY)%Qc.
Lemma inc_job_ex {ar : Arith} g : gcode_wf g -> cycle_b g = true -> drilling g (pvals start_ex) (Some GCodeIncrementalDistanceMode) (inc_job g).
Proof.
  intros W. unfold cycle_b. rewrite !andb_true_iff. intros ((((((A & B) & X) & Y) & Z) & R) & Q). destruct W as (L & _). right. split; [eexists; split; [reflexivity|apply subclass_derives; reflexivity]|].
  exists (frac 10 1), (frac 20 1), (frac 3 1). split; [reflexivity|]. split; [reflexivity|]. split; [reflexivity|]. exists (value_of g LX), (value_of g LY), (value_of g LZ), (value_of g LR).
  split; [apply (float_word_in g LX); auto|]. split; [apply (float_word_in g LY); auto|]. split; [apply (float_word_in g LZ); auto|]. split; [apply (float_word_in g LR); auto|]. split; [reflexivity|]. split; [reflexivity|]. intros i. split; reflexivity.
Qed.
Lemma inc_some : inc_mode (Some GCodeIncrementalDistanceMode). Proof. eexists. split; [reflexivity|apply subclass_derives; reflexivity]. Qed.
Lemma to_r_some : to_r_mode (Some GCodeCannedCycleReturnToR). Proof. eexists. split; [reflexivity|apply subclass_derives; reflexivity]. Qed.
Definition xyz_only (g : gcode) : bool := forallb (fun a => match pget (gparams g) (axis_letter a) with None => true | Some _ => existsb (fun b => axis_eqb a b) [AX; AY; AZ] end) all_axes.
(** G91 G99 with two holes: the machine model and the expansion end at different heights *)
Theorem C58_refuted : exists (g : gcode) (m m1 m2 : machine) (out : list gcode) (vs : list (gclass * where_)) (v1 v2 : where_),
  gcode_wf (ar := exact_arith) g /\ is_canned g /\ complete g /\ asked g 2 /\ ready (ar := exact_arith) m /\ incremental m /\ returns_to_r m /\ place (ar := exact_arith) m (pvals start_ex) /\
  simplify_canned_cycle (ar := exact_arith) 100 g start_ex None (Some GCodeIncrementalDistanceMode) (Some GCodeCannedCycleReturnToR) xyz = Some (out, Ok tt) /\
  gcode_process (ar := exact_arith) g m = (m1, Ok tt) /\ place (ar := exact_arith) m1 v1 /\ visits (ar := exact_arith) m out vs m2 /\ place (ar := exact_arith) m2 v2 /\ v1 <> v2.
Proof.
  pose (g := agcode exact_arith "G81 X1 Y2 Z-3 R-1 L2").
  assert (W : gcode_wf (ar := exact_arith) g) by (apply agcode_wf; vm_compute; discriminate).
  destruct (cycle_ex g W) as (C & CO & _ & _); [vm_compute; reflexivity|]. pose proof (inc_job_ex g W eq_refl) as J. destruct start_ex_good as [GS KN].
  assert (AS : asked g 2) by (apply (asked_l g 2); auto; vm_compute; reflexivity).
  destruct (drill_machine "G91 G99 G0 X10 Y20 Z3" true true) as (m & R & X & P & I & N & T); [vm_compute; reflexivity|].
  destruct (simplify_canned_cycle (ar := exact_arith) 100 g start_ex None (Some GCodeIncrementalDistanceMode) (Some GCodeCannedCycleReturnToR) xyz) as [G|] eqn:E; [|vm_compute in E; discriminate E].
  destruct (C58_return_differs 100 g start_ex None _ _ (inc_job g) 2 (value_of g LR) G m W C CO AS ltac:(lia) inc_some to_r_some) as (out & vs & m1 & m2 & v1 & v2 & -> & A1 & A2 & A3 & A4 & A5); auto.
  - destruct W as [L _]. apply (float_word_in g LR); auto; vm_compute; reflexivity.
  - intros Q. apply Qceqb_eq in Q. vm_compute in Q. discriminate Q.
  - left. auto.
  - unfold known_unit. cbn. auto.
  - apply Qclt_le_weak, Qcltb_lt. vm_compute. reflexivity.
  - exists g, m, m1, m2, out, vs, v1, v2. do 13 (split; [auto|]). auto.
Qed.
Print Assumptions C58_refuted.
(** the same two modes with one hole, and absolute mode with three: within [C58_ends_partial] and [C59_machine] *)
Example C58_ex : (exists m, let g := agcode exact_arith "G81 X1 Y2 Z-3 R-1" in gcode_wf (ar := exact_arith) g /\ is_canned g /\ complete g /\ asked g 1 /\ drilling g (pvals start_ex) (Some GCodeIncrementalDistanceMode) (inc_job g) /\ (forall a x, names g a x -> In a [AX; AY; AZ]) /\
     end_height (Some GCodeCannedCycleReturnToR) (pvals start_ex) (inc_job g) (jr (inc_job g)) /\ (jd (inc_job g) < jr (inc_job g))%Qc /\
     ready (ar := exact_arith) m /\ m_axes m = paxes start_ex /\ place (ar := exact_arith) m (pvals start_ex) /\ mode_fits m (Some GCodeIncrementalDistanceMode) /\ return_fits m (Some GCodeCannedCycleReturnToR) /\ normal m AZ /\
     out_text exact_arith (xcycle "G81 X1 Y2 Z-3 R-1" start_ex (Some GCodeIncrementalDistanceMode) (Some GCodeCannedCycleReturnToR)) = Some (["G00 X1 Y2"; "G00 Z-1"; "G01 Z-3"; "G00 Z3"]%string, Ok tt)) /\
  (exists m, let g := agcode exact_arith "G83 X1 Y2 Z-3 R1 Q1.5 L3" in gcode_wf (ar := exact_arith) g /\ is_canned g /\ complete g /\ asked g 3 /\ drilling g (pvals start_ex) None (job_of g) /\ (forall a x, names g a x -> In a [AX; AY; AZ]) /\
     end_height None (pvals start_ex) (job_of g) (frac 3 1) /\ (jd (job_of g) < jr (job_of g))%Qc /\ (jd (job_of g) < frac 3 1)%Qc /\ pecking g /\ q_word g (value_of g LQ) /\ (Q2Qc 0 < value_of g LQ)%Qc /\
     ready (ar := exact_arith) m /\ m_axes m = paxes start_ex /\ place (ar := exact_arith) m (pvals start_ex) /\ mode_fits m None /\ return_fits m None /\ normal m AZ /\
     out_text exact_arith (xcycle "G83 X1 Y2 Z-3 R1 Q1.5" start_ex None None) = Some (["G00 X1 Y2"; "G00 Z1"; "G01 Z-0.5"; "G00 Z1"; "G00 Z-0.4"; "G01 Z-2"; "G00 Z1"; "G00 Z-1.9"; "G01 Z-3"; "G00 Z3"]%string, Ok tt)).
Proof.
  assert (XO : forall g, gcode_wf (ar := exact_arith) g -> xyz_only g = true -> forall a x, names g a x -> In a [AX; AY; AZ]).
  { intros g W H a x (w & I & V). unfold xyz_only in H. rewrite forallb_forall in H. specialize (H a). apply pget_in in I; [|apply W]. rewrite I in H. assert (E : existsb (fun b => axis_eqb a b) [AX; AY; AZ] = true) by (apply H; destruct a; cbn; tauto).
    apply existsb_exists in E as (b & J & E). destruct a, b; try discriminate E; auto. }
  split.
  - destruct (drill_machine "G91 G99 G0 X10 Y20 Z3" true true) as (m & R & X & P & I & N & T); [vm_compute; reflexivity|]. exists m. intros g.
    assert (W : gcode_wf (ar := exact_arith) g) by (apply agcode_wf; vm_compute; discriminate). destruct (cycle_ex g W) as (C & CO & _ & _); [vm_compute; reflexivity|]. pose proof (inc_job_ex g W eq_refl) as J.
    split; auto. split; auto. split; auto. split; [apply asked_one; auto; vm_compute; reflexivity|]. split; auto. split; [apply XO; auto; vm_compute; reflexivity|]. split; [left; split; auto; apply to_r_some|]. split; [apply Qcltb_lt; vm_compute; reflexivity|]. split; auto. split; auto. split; auto. split; [right; split; auto; apply inc_some|]. split; [left; split; auto; apply to_r_some|]. split; [auto|]. vm_compute. reflexivity.
  - destruct (drill_machine "G0 X10 Y20 Z3" false false) as (m & R & X & P & I & N & T); [vm_compute; reflexivity|]. exists m. intros g.
    assert (W : gcode_wf (ar := exact_arith) g) by (apply agcode_wf; vm_compute; discriminate). destruct (cycle_ex g W) as (C & CO & J & PQ); [vm_compute; reflexivity|]. destruct PQ as [PQ QQ]; [vm_compute; reflexivity|].
    split; auto. split; auto. split; auto. split; [apply (asked_l g 3); auto; vm_compute; reflexivity|]. split; [left; split; [left|]; auto|]. split; [apply XO; auto; vm_compute; reflexivity|]. split; [right; split; [left; auto|reflexivity]|]. split; [apply Qcltb_lt; vm_compute; reflexivity|]. split; [apply Qcltb_lt; vm_compute; reflexivity|]. split; auto. split; auto. split; [apply Qcltb_lt; vm_compute; reflexivity|].
    split; auto. split; auto. split; auto. split; [left; split; [left|]; auto|]. split; [right; split; [left|]; auto|]. split; [auto|]. vm_compute. reflexivity.
Qed.
(** with a zero step, or one that is lost in rounding, the expansion never ends *)
Theorem C60_refuted : (exists g, gcode_wf (ar := exact_arith) g /\ is_canned g /\ complete g /\ asked g 1 /\ job_absolute g (job_of g) /\ (jd (job_of g) < jr (job_of g))%Qc /\ value_of g LQ = Q2Qc 0 /\
    forall fuel, simplify_canned_cycle (ar := exact_arith) fuel g start_ex None None None xyz = None) /\
  (exists g, gcode_wf (ar := binary64) g /\ is_canned g /\ complete g /\ asked g 1 /\ job_absolute g (job_of g) /\ (jd (job_of g) < jr (job_of g))%Qc /\ value_of g LQ = Q2Qc 1 /\
    forall fuel, simplify_canned_cycle (ar := binary64) fuel g start_ex None None None xyz = None).
Proof.
  destruct start_ex_good as [GS KN]. split.
  - pose (g := agcode exact_arith "G83 X1 Y2 Z-3 R1 Q0"). assert (W : gcode_wf (ar := exact_arith) g) by (apply agcode_wf; vm_compute; discriminate). destruct (cycle_ex g W) as (C & CO & J & PQ); [vm_compute; reflexivity|]. destruct PQ as [PQ QQ]; [vm_compute; reflexivity|].
    assert (AS : asked g 1) by (apply asked_one; auto; vm_compute; reflexivity). assert (DR : (jd (job_of g) < jr (job_of g))%Qc) by (apply Qcltb_lt; vm_compute; reflexivity). assert (QZ : value_of g LQ = Q2Qc 0) by (apply Qceqb_eq; vm_compute; reflexivity).
    exists g. do 7 (split; [auto|]). intros fuel. apply (C60_stuck exact_arith fuel g start_ex None None None xyz (job_of g) 1 (value_of g LQ) (Q2Qc 0)); auto; try (left; reflexivity); [right; left; reflexivity|apply Qcle_refl].
  - pose (g := agcode binary64 "G83 X1 Y2 Z-3 R10000000000000000 Q1"). assert (W : gcode_wf (ar := binary64) g) by (apply agcode_wf; vm_compute; discriminate). destruct (cycle_ex g W) as (C & CO & J & PQ); [vm_compute; reflexivity|]. destruct PQ as [PQ QQ]; [vm_compute; reflexivity|].
    assert (AS : asked g 1) by (apply asked_one; auto; vm_compute; reflexivity). assert (DR : (jd (job_of g) < jr (job_of g))%Qc) by (apply Qcltb_lt; vm_compute; reflexivity). assert (QZ : value_of g LQ = Q2Qc 1) by (apply Qceqb_eq; vm_compute; reflexivity).
    exists g. do 7 (split; [auto|]). intros fuel. apply (C60_stuck binary64 fuel g start_ex None None None xyz (job_of g) 1 (value_of g LQ) (Q2Qc 1)); auto; try (left; reflexivity); [right; left; reflexivity|apply Qclt_le_weak, Qcltb_lt; vm_compute; reflexivity].
Qed.
Print Assumptions C60_refuted.
(** a plain drilling cycle for one hole with two feeds: the rounded step stops short of the bottom *)
Theorem C79_refuted : exists (g : gcode) (out : list gcode), gcode_wf (ar := binary64) g /\ is_canned g /\ complete g /\ asked g 1 /\ ~ pecking g /\ job_absolute g (job_of g) /\ (jd (job_of g) < jr (job_of g))%Qc /\
  simplify_canned_cycle (ar := binary64) 100 g start_ex None None None xyz = Some (out, Ok tt) /\ feed_count out 2.
Proof.
  pose (g := agcode binary64 "G81 X0 Y0 Z-4 R0.1"). assert (W : gcode_wf (ar := binary64) g) by (apply agcode_wf; vm_compute; discriminate). destruct (cycle_ex g W) as (C & CO & J & _); [vm_compute; reflexivity|].
  assert (E : match simplify_canned_cycle (ar := binary64) 100 g start_ex None None None xyz with Some (out, Ok _) => Nat.eqb (nfeeds out) 2 | _ => false end = true) by (vm_compute; reflexivity).
  destruct (simplify_canned_cycle (ar := binary64) 100 g start_ex None None None xyz) as [[out [[]|]]|] eqn:Q; try discriminate E. exists g, out. do 3 (split; [auto|]). split; [apply asked_one; auto; vm_compute; reflexivity|]. split; [rewrite pecking_iff; vm_compute; discriminate|]. split; auto. split; [apply Qcltb_lt; vm_compute; reflexivity|]. split; auto.
  apply Nat.eqb_eq in E. rewrite <- E. apply nfeeds_count.
Qed.
Print Assumptions C79_refuted.
Example C79_ex : out_text binary64 (simplify_canned_cycle (ar := binary64) 100 (agcode binary64 "G81 X0 Y0 Z-4 R0.1") start_ex None None None xyz) = Some (["G00 X0 Y0"; "G00 Z0.1"; "G01 Z-4"; "G00 Z0.1"; "G00 Z-3.9"; "G01 Z-4"; "G00 Z3"]%string, Ok tt).
Proof. vm_compute. reflexivity. Qed.
