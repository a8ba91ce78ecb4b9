(** Canned cycles on the machine. *)
From Coq Require Import List Bool Arith ZArith QArith Qcanon Permutation Lia.
From Verif Require Import Base Num Words GTable GCode Line Position Machine BaseFacts WordOrder WordsSpec GCodeSpec GCodeProofs GCodeProofs2 GTableProofs PropsGCode ArithSpec PosSpec PosProofs ModeSpec ModeProofs MachSpec MachProofs MachProofs2 MachProofs3.
Import ListNotations.
Open Scope Z_scope.
Section WithArith.
Context {ar : Arith}.

Lemma normal_axis_spec c b : In (c, b) planes -> normal_axis c = Some (Some (axis_letter b)) /\ modal_group c = Some MG_plane_selection.
Proof. intros I. cbn [planes In] in I. repeat (destruct I as [I|I]; [injection I as <- <-; split; reflexivity|]). destruct I. Qed.
Lemma pget_in g l w : legal g -> pget (gparams g) l = Some w <-> In (l, w) (gparams g).
Proof. intros [_ N]. unfold pget. split; [apply (dget_in _ _ _ letter_eqb_eq)|intros I; apply (in_dget _ _ _ letter_eqb_eq); auto]. Qed.
Lemma pget_not g l : (forall w, ~ In (l, w) (gparams g)) -> pget (gparams g) l = None.
Proof. intros N. unfold pget. destruct (dget letter_eqb (gparams g) l) as [w|] eqn:E; auto. apply (dget_in _ _ _ letter_eqb_eq) in E. destruct (N w E). Qed.
Lemma coord_at_iff cs a x : NoDup (map fst cs) -> coord_at cs a = Some x <-> In (a, Some x) cs.
Proof.
  intros N. unfold coord_at. rewrite <- some_coords_in. split; [apply (dget_in _ _ _ axis_eqb_eq)|apply (in_dget _ _ _ axis_eqb_eq)]. apply some_coords_nodup. auto.
Qed.
Lemma coord_at_dpop cs b a : NoDup (map fst cs) -> coord_at (dpop axis_eqb cs b) a = if axis_eqb a b then None else coord_at cs a.
Proof.
  intros N. assert (N' : NoDup (map fst (dpop axis_eqb cs b))) by (apply dpop_nodup; auto).
  assert (K : forall x, coord_at (dpop axis_eqb cs b) a = Some x <-> axis_eqb a b = false /\ coord_at cs a = Some x).
  { intros x. rewrite !coord_at_iff by auto. assert (Q : forall d, NoDup (map fst d) -> In (a, Some x) d <-> dget axis_eqb d a = Some (Some x)) by (intros d Nd; split; [apply (in_dget _ _ _ axis_eqb_eq); auto|apply (dget_in _ _ _ axis_eqb_eq)]). rewrite !Q by auto. rewrite (dget_dpop _ _ _ axis_eqb_eq) by auto. destruct (axis_eqb a b); split; intuition congruence. }
  destruct (coord_at (dpop axis_eqb cs b) a) as [x|] eqn:E.
  - destruct (proj1 (K x) eq_refl) as [-> ->]. auto.
  - destruct (axis_eqb a b); auto. destruct (coord_at cs a) as [x|] eqn:F; auto. exfalso. assert (X : None = Some x) by (apply K; auto). discriminate.
Qed.
Lemma coord_at_dset cs b r a : NoDup (map fst cs) -> coord_at (dset axis_eqb cs b (Some r)) a = if axis_eqb a b then Some r else coord_at cs a.
Proof.
  intros N. assert (N' : NoDup (map fst (dset axis_eqb cs b (Some r)))) by (apply (dset_nodup _ _ _ axis_eqb_eq); auto).
  assert (K : forall x, coord_at (dset axis_eqb cs b (Some r)) a = Some x <-> if axis_eqb a b then x = r else coord_at cs a = Some x).
  { intros x. rewrite !coord_at_iff by auto. assert (Q : forall d, NoDup (map fst d) -> In (a, Some x) d <-> dget axis_eqb d a = Some (Some x)) by (intros d Nd; split; [apply (in_dget _ _ _ axis_eqb_eq); auto|apply (dget_in _ _ _ axis_eqb_eq)]). rewrite !Q by auto. rewrite (dget_dset _ _ _ axis_eqb_eq). destruct (axis_eqb a b); [split; intros Z; congruence|rewrite ?coord_at_iff, ?Q by auto; tauto]. }
  destruct (coord_at (dset axis_eqb cs b (Some r)) a) as [x|] eqn:E.
  - pose proof (proj1 (K x) eq_refl) as Q. destruct (axis_eqb a b); congruence.
  - destruct (axis_eqb a b) eqn:F; [exfalso; assert (X : None = Some r) by (apply K; auto); discriminate|]. destruct (coord_at cs a) as [x|] eqn:F'; auto. exfalso. assert (X : None = Some x) by (apply K; auto). discriminate.
Qed.

Lemma word_class_claims1 w c : word_gcode_class w = Some c -> claims c w.
Proof.
  unfold word_gcode_class. destruct (negb (gcode_letter (wletter w))); [discriminate|]. destruct (find _ subclasses) as [c0|] eqn:F.
  - intros E. injection E as <-. apply find_some in F as [_ F]. unfold claims. destruct (word_key c0); [auto|discriminate].
  - destruct (find _ function_list) as [[f c0]|] eqn:F2; [|discriminate]. intros E. injection E as <-. apply find_some in F2 as [I M].
    unfold function_list in I. apply in_flat_map in I as (c1 & _ & I). unfold claims.
    destruct (word_key c1) eqn:K; [contradiction|]. destruct (word_matches c1) eqn:WM; [|contradiction]. destruct I as [I|[]]. injection I as <- <-. rewrite K. eauto.
Qed.
(** what a canned cycle does: [n] moves to (or by) the axis words, the normal axis aside *)
Lemma canned_moves g m b n : sound m -> gcode_wf g -> is_canned g -> normal m b -> has (m_abs m) b -> loops g n -> (returns_to_r m -> exists r, r_word g r) ->
  exists m' cs, gcode_process g m = (m', Ok tt) /\ (0 < n)%nat /\ moved_n (set_for m g) m' cs n /\
    (forall a, a <> b -> coord_at cs a = coord_at (gcode_coords (set_for m g) g) a) /\
    (returns_to_r m -> forall r, r_word g r -> coord_at cs b = Some r) /\ (~ returns_to_r m -> coord_at cs b = None).
Proof.
  intros S W C (pl & PE & PI) Hb LO RR. pose proof (set_for_sound m g S W) as S1. destruct (set_for_pos m g) as (A1 & _ & _ & X1 & _).
  pose proof (proj2 (kind_canned g) C) as K. pose proof (canned_group g C) as G.
  assert (NC : gcls g <> GCodeCannedCycle). { destruct W as (_ & P & WW & _). unfold proper in P. intros Q. rewrite Q in P. apply word_class_claims1 in P. unfold claims in P. change (word_key GCodeCannedCycle) with (@None word) in P. destruct P as (f & P & _). vm_compute in P. discriminate P. }
  destruct (canned_letters (gcls g) K NC) as [AL AR]. pose proof (proj1 W) as LG.
  rewrite process_own by (auto; apply W). unfold gcode_process_own. rewrite K. unfold canned_process.
  rewrite !set_for_get by (unfold in_group in *; rewrite G; discriminate). rewrite PE. destruct (normal_axis_spec _ _ PI) as [-> _].
  rewrite axis_of_axis_letter. unfold gcode_getattr. rewrite AL, AR.
  destruct (gcode_coords_spec (set_for m g) g W) as [(GC & ND & GI) _]. set (cs0 := gcode_coords (set_for m g) g) in *.
  assert (LN : Z.to_nat match option_map wvalue (pget (gparams g) LL) with Some (VInt z) => if z <=? 0 then 1 else z | _ => 1 end = n /\ (0 < n)%nat).
  { destruct LO as [(w & z & I & V & ->)|[N ->]].
    - apply pget_in in I; auto. rewrite I. cbn [option_map]. rewrite V. destruct (Z.leb_spec z 0); split; lia.
    - rewrite pget_not by auto. cbn [option_map]. split; lia. }
  destruct LN as [LN NP].
  assert (RD : (match gm_get (m_mode m) MG_canned_cycles_return with Some r => subclass (gcls r) GCodeCannedCycleReturnToR | None => false end = true <-> returns_to_r m)).
  { unfold returns_to_r. destruct (gm_get (m_mode m) MG_canned_cycles_return) as [r|]; [|split; [discriminate|intros (x & X & _); discriminate]]. rewrite subclass_derives. split; [eauto|]. intros (x & X & Y). congruence. }
  assert (Vb : vget (m_axes (set_for m g)) b = true) by (rewrite X1; apply sound_axes; auto).
  destruct (match gm_get (m_mode m) MG_canned_cycles_return with Some r => subclass (gcls r) GCodeCannedCycleReturnToR | None => false end).
  - destruct (RR (proj1 RD eq_refl)) as (r & w & I & V). pose proof I as I'. apply pget_in in I; auto. rewrite I. cbn [option_map]. rewrite V. cbn [num_of_value]. rewrite LN.
    set (cs := dset axis_eqb cs0 b (Some r)).
    assert (N : NoDup (map fst cs)) by (apply (dset_nodup _ _ _ axis_eqb_eq); auto).
    assert (GD : forall c, In c cs -> vget (m_axes (set_for m g)) (fst c) = true /\ exists x, snd c = Some x).
    { intros [a o] X. cbn [fst snd]. apply (in_dget _ _ _ axis_eqb_eq) in X; auto. unfold cs in X. rewrite (dget_dset _ _ _ axis_eqb_eq) in X. destruct (axis_eqb a b) eqn:AB; [apply axis_eqb_eq in AB; subst; injection X as <-; eauto|]. apply (dget_in _ _ _ axis_eqb_eq) in X. apply (GI _ X). }
    destruct (repeat_spec n cs (set_for m g) S1 N) as (m' & E & M); [split; intros; apply GD; auto|]. exists m', cs. split; auto. split; auto. split; auto. split; [|split].
    + intros a Na. unfold cs. rewrite coord_at_dset by auto. rewrite axis_eqb_neq; auto.
    + intros _ r' (w' & I2 & V2). apply pget_in in I2; auto. assert (w = w') by congruence. subst. assert (r = r') by congruence. subst. unfold cs. rewrite coord_at_dset, axis_eqb_refl by auto. reflexivity.
    + intros Q. destruct Q. apply RD. auto.
  - rewrite LN. set (cs := dpop axis_eqb cs0 b).
    assert (N : NoDup (map fst cs)) by (apply dpop_nodup; auto).
    assert (GD : forall c, In c cs -> vget (m_axes (set_for m g)) (fst c) = true /\ exists x, snd c = Some x) by (intros c X; apply GI; eapply dpop_sub; eauto).
    destruct (repeat_spec n cs (set_for m g) S1 N) as (m' & E & M); [split; intros; apply GD; auto|]. exists m', cs. split; auto. split; auto. split; auto. split; [|split].
    + intros a Na. unfold cs. rewrite coord_at_dpop by auto. rewrite axis_eqb_neq; auto.
    + intros Q. apply RD in Q. discriminate.
    + intros _. unfold cs. rewrite coord_at_dpop, axis_eqb_refl by auto. reflexivity.
Qed.
Lemma canned_pos g m b n : sound m -> gcode_wf g -> is_canned g -> normal m b -> has (m_abs m) b -> loops g n -> (returns_to_r m -> exists r, r_word g r) -> in_sync m ->
  exists m' cs, gcode_process g m = (m', Ok tt) /\ sound m' /\ m_state m' = m_state m /\ (0 < n)%nat /\
    (forall a, has (m_abs m) a -> pos_at m' a (wpos_of m a (iter n (fun x => apos_of m a (if is_incremental m then fadd (wpos_of m a x) (oval (coord_at cs a)) else match coord_at cs a with Some y => y | None => wpos_of m a x end)) (pval (m_abs m) a)))) /\
    (forall a x, a <> b -> has (m_abs m) a -> names g a x -> coord_at cs a = Some x) /\ (forall a, a <> b -> (forall x, ~ names g a x) -> coord_at cs a = None) /\
    (returns_to_r m -> forall r, r_word g r -> coord_at cs b = Some r) /\ (~ returns_to_r m -> coord_at cs b = None).
Proof.
  intros S W C NM Hb LO RR Y. destruct (canned_moves g m b n S W C NM Hb LO RR) as (m' & cs & E & NP & (F & S' & U & V & _) & C1 & C2 & C3). exists m', cs. pose proof (canned_group g C) as G.
  assert (N1 : ~ in_group MG_coordinate_system g) by (unfold in_group in *; rewrite G; discriminate). assert (N2 : ~ in_group MG_distance g) by (unfold in_group in *; rewrite G; discriminate). pose proof (set_for_sync m g Y N1) as ST. destruct (set_for_pos m g) as (A1 & _ & _ & X1 & _).
  pose proof (set_for_sound m g S W) as S1. split; auto. split; auto. split; [destruct F as (_ & FS & _); congruence|]. split; auto. split; [|split; [|split; [|split]]]; auto.
  - intros a Ha. assert (H1 : has (m_abs (set_for m g)) a) by (rewrite A1; auto). apply pos_at_iff; auto. split; [apply (sound_has (set_for m g) m'); auto|]. rewrite V by auto. rewrite A1.
    assert (WP : forall x, wpos_of m' a x = wpos_of m a x). { intros x. destruct (frame_offsets (set_for m g) m' a F) as [O1 O2]. unfold wpos_of. rewrite O1, O2. unfold system_offset, temp_offset. rewrite ST. auto. }
    rewrite WP. f_equal. apply iter_ext. intros x. unfold shift, target. rewrite set_for_incremental by auto. unfold apos_of, wpos_of, system_offset, temp_offset. rewrite ST. reflexivity.
  - intros a x Na Ha N. rewrite C1 by auto. apply coord_at_named; auto. rewrite X1. apply sound_axes; auto.
  - intros a Na N. rewrite C1 by auto. apply coord_at_other; auto.
Qed.
End WithArith.
