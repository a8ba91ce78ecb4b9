(** Machines that differ in the motion mode and the recorded range only. *)
From Coq Require Import Ascii String List Bool Arith ZArith QArith Qcanon Permutation Lia.
From Verif Require Import Base Num Words GTable GCode Line Position Machine Transform BaseFacts ArithSpec WordsSpec PrintSpec GCodeSpec GCodeProofs GCodeProofs2 PosSpec PosProofs BlockSpec BlockProofs ModeSpec ModeProofs MachSpec MachProofs MachProofs2 SimSpec SimProofs TransSpec TransProofs TransProofs2
  Scripts ScriptsSpec ScriptsSpec2 ScriptsSpec3 ScriptsProofs ScriptsProofs4.
Import ListNotations.
Local Open Scope nat_scope.

Section WithArith.
Context {ar : Arith}.
Definition near (b : bool) (m m' : machine) : Prop :=
  (forall mg, mg <> MG_motion \/ b = true -> gm_get (m_mode m) mg = gm_get (m_mode m') mg) /\
  m_state m = m_state m' /\ m_abs m = m_abs m' /\ m_axes m = m_axes m' /\ m_ignore m = m_ignore m'.
Lemma near_get b m m' mg : near b m m' -> mg <> MG_motion -> gm_get (m_mode m) mg = gm_get (m_mode m') mg.
Proof. intros (A & _) N. apply A. auto. Qed.
Lemma near_incremental b m m' : near b m m' -> is_incremental m = is_incremental m'.
Proof. intros N. unfold is_incremental. rewrite (near_get b m m' MG_distance N) by discriminate. auto. Qed.
Lemma near_shift b m m' cs a x : near b m m' -> shift m cs a x = shift m' cs a x.
Proof. intros N. pose proof (near_incremental b m m' N) as I. destruct N as (_ & S & _). unfold shift, apos_of, target, wpos_of, system_offset, temp_offset. rewrite I, S. auto. Qed.
Lemma near_coords b m m' cs : near b m m' -> good_coords m cs -> good_coords m' cs.
Proof. intros N. pose proof (near_incremental b m m' N) as I. destruct N as (_ & _ & _ & A & _). unfold good_coords. rewrite I, A. auto. Qed.
Lemma near_frame b m m' m1 m1' : near b m m' -> same_frame m m1 -> same_frame m' m1' -> m_abs m1 = m_abs m1' -> near b m1 m1'.
Proof. intros (A & B & C & D & E) (F1 & F2 & F3 & F4) (G1 & G2 & G3 & G4) M. split; [intros mg H; rewrite F1, G1; auto|]. repeat split; congruence. Qed.
Lemma move_near b cs m m' m1 : sound m -> sound m' -> near b m m' -> NoDup (map fst cs) -> move_to cs m = (m1, Ok tt) ->
  exists m1', move_to cs m' = (m1', Ok tt) /\ near b m1 m1' /\ sound m1 /\ sound m1'.
Proof.
  intros S S' N ND E. destruct (move_to_cases cs m S ND) as [(G & x & E' & F & S1 & U1 & V1 & _)|(_ & e & E')]; [|congruence]. rewrite E in E'. injection E' as <-.
  destruct (move_to_cases cs m' S' ND) as [(_ & x & E' & F' & S1' & U1' & V1' & _)|(X & _)]; [|exfalso; apply X; eapply near_coords; eauto].
  exists x. split; auto. split; [|auto]. apply (near_frame b m m'); auto. pose proof S1 as ((G1 & A1 & _) & _). pose proof S1' as ((G1' & A1' & _) & _). pose proof S as ((_ & A0 & _) & _). pose proof N as (_ & _ & NA & NX & _).
  assert (AX : m_axes m1 = m_axes m /\ m_axes x = m_axes m') by (split; [apply F|apply F']). destruct AX as [AX AX'].
  apply pos_ext; auto; [congruence|congruence|]. intros a Ha. assert (Hm : has (m_abs m) a) by (unfold has in *; congruence). rewrite V1, V1' by congruence. rewrite NA. apply near_shift with (b := b); auto.
Qed.
Lemma repeat_near b n cs : NoDup (map fst cs) -> forall m m' m1, sound m -> sound m' -> near b m m' -> repeat_step n (move_to cs) m = (m1, Ok tt) ->
  exists m1', repeat_step n (move_to cs) m' = (m1', Ok tt) /\ near b m1 m1' /\ sound m1 /\ sound m1'.
Proof.
  intros ND. induction n as [|n IH]; intros m m' m1 S S' N; cbn [repeat_step].
  - unfold ok_step. intros E. injection E as <-. exists m'. auto.
  - unfold then_step. destruct (move_to cs m) as [x [[]|e]] eqn:E; [|discriminate]. destruct (move_near b cs m m' x S S' N ND E) as (x' & -> & N1 & S1 & S1'). eauto.
Qed.
Lemma canned_near b g m m' m1 : gcode_wf g -> sound m -> sound m' -> near b m m' -> canned_process g m = (m1, Ok tt) ->
  exists m1', canned_process g m' = (m1', Ok tt) /\ near b m1 m1' /\ sound m1 /\ sound m1'.
Proof.
  intros W S S' N. destruct (gcode_coords_spec m g W) as [(_ & ND & _) _]. unfold canned_process. rewrite <- (near_get b m m' MG_canned_cycles_return N), <- (near_get b m m' MG_plane_selection N) by discriminate. rewrite <- (coords_axes m m' g) by apply N.
  destruct (gm_get (m_mode m) MG_plane_selection) as [pl|]; [|discriminate]. destruct (normal_axis (gcls pl)) as [na|]; [|discriminate].
  destruct (match gm_get (m_mode m) MG_canned_cycles_return with Some r => subclass (gcls r) GCodeCannedCycleReturnToR | None => false end).
  - destruct (gcode_getattr g LR) as [r|]; [|discriminate]. destruct na as [l|]; [|destruct (gcode_getattr g LL); discriminate]. destruct (axis_of_letter l) as [a|]; [|discriminate]. destruct (gcode_getattr g LL); [|discriminate].
    apply repeat_near; auto. apply (dset_nodup _ _ _ axis_eqb_eq); auto.
  - destruct (gcode_getattr g LL); [|discriminate]. apply repeat_near; auto. destruct na as [l|]; auto. destruct (axis_of_letter l); auto. apply dpop_nodup; auto.
Qed.
Local Transparent set_for.
Lemma set_for_near b g m m' : near b m m' -> near (b || match modal_group (gcls g) with Some MG_motion => true | _ => false end) (set_for m g) (set_for m' g).
Proof.
  intros N. assert (ME : forall mg, mg <> MG_motion \/ b || match modal_group (gcls g) with Some MG_motion => true | _ => false end = true -> gm_get (set_effect (m_mode m) g) mg = gm_get (set_effect (m_mode m') g) mg).
  { intros mg H. destruct N as (A & _). unfold set_effect. destruct (modal_group (gcls g)) as [mg'|].
    - rewrite !gm_get_set. destruct (mgroup_eqb mg' mg) eqn:Q; auto. apply A. destruct H as [H|H]; auto. apply orb_true_iff in H as [H|H]; auto. left. intros ->. destruct mg'; discriminate.
    - apply A. destruct H as [H|H]; auto. rewrite orb_false_r in H. auto. }
  unfold set_for, after_mode. rewrite <- (ME MG_coordinate_system) by (left; discriminate). destruct N as (A & B & C & D & E).
  destruct (gm_get (set_effect (m_mode m) g) MG_coordinate_system) as [x|]; [destruct (coord_system_id (gcls x))|]; (split; [exact ME|]); repeat split; auto. cbn [with_state m_state]. rewrite B. auto.
Qed.
Lemma process_near b g m m' m1 : gcode_wf g -> sound m -> sound m' -> near b m m' -> gcode_process g m = (m1, Ok tt) ->
  exists m1', gcode_process g m' = (m1', Ok tt) /\ near (b || match modal_group (gcls g) with Some MG_motion => true | _ => false end) m1 m1' /\ sound m1 /\ sound m1'.
Proof.
  intros W S S' N. rewrite !process_own by (auto; apply W). pose proof (set_for_near b g m m' N) as N2. pose proof (set_for_sound m g S W) as S2. pose proof (set_for_sound m' g S' W) as S2'. set (b2 := b || _) in *.
  unfold gcode_process_own. destruct (process_kind (gcls g)) eqn:K.
  - intros E. injection E as <-. eauto.
  - rewrite (coords_axes (set_for m' g) (set_for m g) g) by (symmetry; apply N2). apply move_near; auto. destruct (gcode_coords_spec (set_for m g) g W) as [(_ & ND & _) _]. auto.
  - apply canned_near; auto.
  - intros E. injection E as <-. eexists. split; [reflexivity|]. split; [|split; apply clear_sound; auto]. destruct N2 as (A & B & C & D & E). split; [|repeat split; auto]. intros mg H. cbn [with_mode m_mode]. rewrite !gm_get_set. destruct (mgroup_eqb MG_motion mg); auto.
Qed.
Lemma steps_near gs : Forall gcode_wf gs -> forall b m m' m1, sound m -> sound m' -> near b m m' -> steps (map gcode_process gs) m = (m1, Ok tt) ->
  exists m1', steps (map gcode_process gs) m' = (m1', Ok tt) /\ near (b || existsb (fun g => match modal_group (gcls g) with Some MG_motion => true | _ => false end) gs) m1 m1' /\ sound m1 /\ sound m1'.
Proof.
  induction gs as [|g gs IH]; intros F b m m' m1 S S' N; cbn [map steps existsb].
  - unfold ok_step. intros E. injection E as <-. exists m'. rewrite orb_false_r. auto.
  - inversion F; subst. unfold then_step. destruct (gcode_process g m) as [x [[]|e]] eqn:E; [|discriminate]. destruct (process_near b g m m' x H1 S S' N E) as (x' & -> & N1 & S1 & S1'). rewrite orb_assoc. eauto.
Qed.
(** a block with leftover words needs the same motion mode *)
Lemma process_gcodes_near b gs ps m m' m1 : Forall gcode_wf gs -> Forall word_wf ps -> (b = true \/ ps = []) -> sound m -> sound m' -> near b m m' -> process_gcodes gs ps m = (m1, Ok tt) ->
  exists m1', process_gcodes gs ps m' = (m1', Ok tt) /\ near (b || existsb (fun g => match modal_group (gcls g) with Some MG_motion => true | _ => false end) gs) m1 m1' /\ sound m1 /\ sound m1'.
Proof.
  intros F W B S S' N. unfold process_gcodes. assert (E : machine_modal_gcode m' ps = machine_modal_gcode m ps).
  { destruct B as [-> | ->]; [|reflexivity]. unfold machine_modal_gcode. rewrite (proj1 N MG_motion) by auto. destruct N as (_ & _ & _ & _ & ->). reflexivity. }
  rewrite E. destruct (machine_modal_gcode m ps) as [og|] eqn:O; [|discriminate]. intros P.
  assert (WF : Forall gcode_wf (sort_gcodes (gs ++ match og with Some g => [g] | None => [] end))).
  { apply sort_wf, Forall_app. split; auto. destruct og as [g|]; constructor; auto. eapply modal_gcode_wf; eauto. }
  destruct (steps_near _ WF b m m' m1 S S' N P) as (m1' & P' & N' & S1 & S1'). exists m1'. split; auto. split; auto.
  destruct N' as (A & R). split; auto. intros mg [H|H]; apply A; auto. right. apply orb_true_iff in H as [->|H]; auto. apply orb_true_iff. right. apply existsb_exists in H as (g & I & H). apply existsb_exists. exists g. split; auto.
  eapply Permutation_in; [symmetry; apply sort_perm|]. apply in_app_iff. auto.
Qed.
End WithArith.

(** ** lines kept by pygcode-crop *)
Section Kept.
Context {ar : Arith}.
Definition like (b : bool) (m m' : machine) : Prop := resumed m m' /\ (b = true -> alike m m').
Lemma like_between b m m' : sound m -> inside m -> sound m' -> like b m m' -> exists n, same_machine m n /\ near b n m' /\ sound n /\ inside n.
Proof.
  intros S I S' (R & Al). set (md := if b then m_mode m' else gm_set (m_mode m') MG_motion (gm_get (m_mode m) MG_motion)). exists (with_mode m md).
  assert (MD : forall mg, gm_get md mg = if b then gm_get (m_mode m') mg else if mgroup_eqb MG_motion mg then gm_get (m_mode m) MG_motion else gm_get (m_mode m') mg) by (intros mg; unfold md; destruct b; auto; rewrite gm_get_set; auto).
  destruct R as (A & B & C & D & E). pose proof S as (s1 & s2 & s3 & s4 & s5 & W & T). pose proof S' as (_ & _ & _ & _ & _ & W' & T').
  split; [split; [|repeat split; auto]|].
  { intros mg. cbn [with_mode m_mode]. rewrite MD. destruct b.
    - destruct (mgroup_eqb MG_motion mg) eqn:Q; [apply mgroup_eqb_eq in Q; subst; apply Al; auto|]. apply A. intros ->. discriminate Q.
    - destruct (mgroup_eqb MG_motion mg) eqn:Q; [apply mgroup_eqb_eq in Q; subst; destruct (gm_get (m_mode m) MG_motion); auto; apply same_gcode_refl|]. apply A. intros ->. discriminate Q. }
  split; [split; [|repeat split; auto]|].
  { intros mg H. cbn [with_mode m_mode]. rewrite MD. destruct b; auto. destruct (mgroup_eqb MG_motion mg) eqn:Q; auto. apply mgroup_eqb_eq in Q. destruct H as [H|H]; [congruence|discriminate]. }
  split; [|exact I]. split; [exact s1|]. split; [exact s2|]. split; [exact s3|]. split; [exact s4|]. split; [exact s5|]. cbn [with_mode m_mode]. split; intros mg g; rewrite MD; destruct b; eauto; destruct (mgroup_eqb MG_motion mg) eqn:Q; eauto; apply mgroup_eqb_eq in Q; subst; eauto.
Qed.
Lemma same_near b m n m' : same_machine m n -> near b n m' -> like b m m'.
Proof.
  intros (A & B & C & _ & _ & D & E) (A' & B' & C' & D' & E'). assert (R : resumed m m').
  { split; [|repeat split; congruence]. intros mg H. unfold same_entry. rewrite <- A' by auto. apply A. }
  split; auto. intros ->. split; auto. unfold same_entry. rewrite <- A' by auto. apply A.
Qed.
Lemma kept_line b s l m m' m1 : accurate ar -> sound m -> inside m -> sound m' -> inside m' -> like b m m' -> mk_line s = Ok l -> faithful l -> (b = true \/ bmodal (lblock l) = []) -> process_block (lblock l) m = (m1, Ok tt) ->
  exists l' m1', mk_line (line_str l) = Ok l' /\ same_line l l' /\ process_block (lblock l') m' = (m1', Ok tt) /\ sound m1 /\ inside m1 /\ sound m1' /\ inside m1' /\
    like (b || existsb (fun g => match modal_group (gcls g) with Some MG_motion => true | _ => false end) (bgcodes (lblock l))) m1 m1'.
Proof.
  intros acc S I S' I' LK L F B P. destruct (faithful_line s l acc L F) as (l' & L' & SL & _). destruct (like_between b m m' S I S' LK) as (n & SM & NR & Sn & In_).
  pose proof (process_block_same l l' s m n L SL S I Sn In_ SM) as [X Y]. rewrite P in X, Y. destruct (process_block (lblock l') n) as [n1 r] eqn:Pn. cbn [fst snd] in X, Y. subst r.
  destruct (mk_line_block _ _ L') as (bs & MB). destruct (mk_block_wf _ _ _ MB) as [WF WW]. assert (B' : b = true \/ bmodal (lblock l') = []) by (destruct B as [B|B]; auto; right; destruct SL as (_ & -> & _); auto).
  destruct (process_gcodes_near b (bgcodes (lblock l')) (bmodal (lblock l')) n m' n1 WF WW B' Sn S' NR Pn) as (m1' & P' & N' & _ & _). exists l', m1'. split; auto. split; auto. split; [exact P'|].
  destruct (line_keeps l s m m1 L S I P) as [S1 I1]. destruct (line_keeps l' _ m' m1' L' S' I' P') as [S1' I1']. do 4 (split; auto). eapply same_near; [exact Y|].
  replace (existsb (fun g => match modal_group (gcls g) with Some MG_motion => true | _ => false end) (bgcodes (lblock l))) with (existsb (fun g => match modal_group (gcls g) with Some MG_motion => true | _ => false end) (bgcodes (lblock l'))); auto.
  destruct SL as (G & _). clear -G. induction G as [|g h gs hs (E & _) G IH]; cbn [existsb]; auto. rewrite IH, E. auto.
Qed.
Lemma motion_exists gs : (exists g, In g gs /\ in_group MG_motion g) -> existsb (fun g => match modal_group (gcls g) with Some MG_motion => true | _ => false end) gs = true.
Proof. intros (g & I & E). apply existsb_exists. exists g. split; auto. unfold in_group in E. rewrite E. auto. Qed.
(** the lines read back: the same with the same motion mode *)
Lemma kept_alike file : accurate ar -> forall m m' tr, sound m -> inside m -> sound m' -> inside m' -> alike m m' -> reading m file tr -> Forall (fun x => faithful (fst x)) tr ->
  exists tr', reading m' (map (fun x => line_str (fst x)) tr) tr' /\ Forall2 (fun x y => same_line (fst x) (fst y) /\ alike (snd x) (snd y)) tr tr'.
Proof.
  intros acc. induction file as [|s r IH]; intros m m' tr S I S' I' Al R F.
  - apply reading_empty in R. subst. exists []. split; constructor.
  - apply reading_step in R as (l & m1 & tr1 & L & P & R & <-). inversion F as [|? ? F1 F2]; subst. cbn [fst] in F1.
    destruct (kept_line true s l m m' m1 acc S I S' I') as (l' & m1' & L' & SL & P' & S1 & I1 & S1' & I1' & LK); auto; [split; auto; apply Al|]. specialize (proj2 LK eq_refl) as A1.
    destruct (IH m1 m1' tr1 S1 I1 S1' I1' A1 R F2) as (tr' & R' & SR). exists ((l', m1') :: tr'). split; [cbn [map fst]; econstructor; eauto|]. constructor; auto.
Qed.
Lemma alike_after (tr tr' : list (line * machine)) : Forall2 (fun x y => same_line (fst x) (fst y) /\ alike (snd x) (snd y)) tr tr' -> forall m m', alike m m' -> alike (after m tr) (after m' tr').
Proof. induction 1 as [|x y tr tr' (_ & A) F IH]; intros m m' B; [exact B|]. rewrite !after_cons. apply IH; auto. Qed.
(** the same up to the motion mode when the lines name it *)
Lemma kept_resumed file : accurate ar -> forall m m' tr, sound m -> inside m -> sound m' -> inside m' -> resumed m m' -> reading m file tr -> Forall (fun x => faithful (fst x)) tr -> names_motion (map fst tr) ->
  exists tr', reading m' (map (fun x => line_str (fst x)) tr) tr' /\ Forall2 (fun x y => same_line (fst x) (fst y) /\ resumed (snd x) (snd y)) tr tr' /\
    (motion_named (map fst tr) -> alike (after m tr) (after m' tr')).
Proof.
  intros acc. induction file as [|s r IH]; intros m m' tr S I S' I' Al R F NM.
  - apply reading_empty in R. subst. exists []. split; [constructor|]. split; [constructor|]. intros (l & g & [] & _).
  - apply reading_step in R as (l & m1 & tr1 & L & P & R & <-). inversion F as [|? ? F1 F2]; subst. cbn [fst] in F1. cbn [map fst] in NM.
    assert (BM : bmodal (lblock l) = []) by (inversion NM; auto).
    destruct (kept_line false s l m m' m1 acc S I S' I') as (l' & m1' & L' & SL & P' & S1 & I1 & S1' & I1' & LK); auto; [split; auto; discriminate|].
    assert (X : exists tr', reading m1' (map (fun x => line_str (fst x)) tr1) tr' /\ Forall2 (fun x y => same_line (fst x) (fst y) /\ resumed (snd x) (snd y)) tr1 tr' /\ (motion_named (l :: map fst tr1) -> alike (after m1 tr1) (after m1' tr'))).
    { cbn [orb] in LK. destruct (existsb (fun g => match modal_group (gcls g) with Some MG_motion => true | _ => false end) (bgcodes (lblock l))) eqn:EX.
      - destruct (kept_alike r acc m1 m1' tr1 S1 I1 S1' I1' (proj2 LK eq_refl) R F2) as (tr' & R' & SR). exists tr'. split; auto. split; [|intros _; apply alike_after; auto; exact (proj2 LK eq_refl)]. eapply Forall2_impl_in; [|exact SR]. intros x y _ (A & B & _). auto.
      - inversion NM as [|? ? _ HM|? ? _ NL]; subst; [rewrite (motion_exists _ HM) in EX; discriminate EX|]. destruct (IH m1 m1' tr1 S1 I1 S1' I1' (proj1 LK) R F2 NL) as (tr' & R' & SR & AE). exists tr'. split; auto. split; auto.
        intros (k & g & [<-|Ik] & Ig & G); [|apply AE; exists k, g; auto]. rewrite (motion_exists (bgcodes (lblock l))) in EX; [discriminate EX|eauto]. }
    destruct X as (tr' & R' & SR & AE). exists ((l', m1') :: tr'). split; [cbn [map fst]; econstructor; eauto|]. split; [constructor; auto; split; auto; exact (proj1 LK)|]. rewrite !after_cons. exact AE.
Qed.
End Kept.
