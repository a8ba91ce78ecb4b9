(** The order of parameters, and of gcodes executed at the same stage, does not matter. *)
From Coq Require Import Bool Arith ZArith QArith Qcanon Lia Permutation Sorted String List.
From Verif Require Import Base Num Regex Words GTable GCode Line Position Machine BaseFacts WordOrder WordsSpec GCodeSpec GCodeProofs GCodeProofs2 PropsGCode ArithSpec PosSpec PosProofs ModeSpec ModeProofs MachSpec MachProofs MachProofs2 MachProofs3 PropsMach PropsMach2 Transform TransSpec TransProofs TransProofs2 BlockSpec BlockProofs SimSpec.
Import ListNotations.
Open Scope Z_scope.

Lemma dict_perm {K V} (eqb : K -> K -> bool) (eqb_eq : forall a b, eqb a b = true <-> a = b) (d d' : dict K V) : NoDup (map fst d) -> NoDup (map fst d') ->
  (forall k, dget eqb d k = dget eqb d' k) -> Permutation d d'.
Proof.
  intros N N' H. apply NoDup_Permutation.
  - eapply NoDup_map_inv; eauto.
  - eapply NoDup_map_inv; eauto.
  - intros [k v]. split; intros I.
    + apply (dget_in _ _ _ eqb_eq). rewrite <- H. apply (in_dget _ _ _ eqb_eq); auto.
    + apply (dget_in _ _ _ eqb_eq). rewrite H. apply (in_dget _ _ _ eqb_eq); auto.
Qed.
Lemma dget_perm {K V} (eqb : K -> K -> bool) (eqb_eq : forall a b, eqb a b = true <-> a = b) (d d' : dict K V) k : NoDup (map fst d) -> Permutation d d' -> dget eqb d k = dget eqb d' k.
Proof.
  intros N P. assert (N' : NoDup (map fst d')) by (eapply Permutation_NoDup; [apply Permutation_map; eauto|auto]).
  destruct (dget eqb d k) as [v|] eqn:E.
  - symmetry. apply (in_dget _ _ _ eqb_eq); auto. eapply Permutation_in; [exact P|]. apply (dget_in _ _ _ eqb_eq); auto.
  - symmetry. apply (dget_none _ _ _ eqb_eq). apply (dget_none _ _ _ eqb_eq) in E. intros I. apply E. eapply Permutation_in; [symmetry; apply Permutation_map; exact P|auto].
Qed.
Lemma same_gcode_refl g : same_gcode g g. Proof. repeat split; auto. Qed.
Lemma same_gcode_sym g h : same_gcode g h -> same_gcode h g. Proof. intros (A & B & C). split; auto. split; auto. symmetry; auto. Qed.
Lemma same_gcode_trans a b c : same_gcode a b -> same_gcode b c -> same_gcode a c.
Proof. intros (A & B & C) (A' & B' & C'). split; [congruence|]. split; [congruence|]. etransitivity; eauto. Qed.
Lemma same_mode_refl a : same_mode a a. Proof. intros mg. destruct (gm_get a mg); auto. apply same_gcode_refl. Qed.
Lemma same_mode_trans a b c : same_mode a b -> same_mode b c -> same_mode a c.
Proof. intros H H' mg. specialize (H mg). specialize (H' mg). destruct (gm_get a mg), (gm_get b mg), (gm_get c mg); auto; try contradiction. eapply same_gcode_trans; eauto. Qed.
Lemma same_mode_sym a b : same_mode a b -> same_mode b a.
Proof. intros H mg. specialize (H mg). destruct (gm_get a mg), (gm_get b mg); auto. apply same_gcode_sym; auto. Qed.
Lemma same_machine_refl m : same_machine m m. Proof. split; [apply same_mode_refl|]. repeat split. Qed.
Lemma same_machine_trans a b c : same_machine a b -> same_machine b c -> same_machine a c.
Proof. intros (A & B) (A' & B'). split; [eapply same_mode_trans; eauto|]. intuition congruence. Qed.
Lemma same_machine_sym a b : same_machine a b -> same_machine b a.
Proof. intros (A & B). split; [apply same_mode_sym; auto|]. intuition congruence. Qed.
Lemma same_outcome_refl a : same_outcome a a. Proof. split; auto. apply same_machine_refl. Qed.
Lemma same_outcome_trans a b c : same_outcome a b -> same_outcome b c -> same_outcome a c.
Proof. intros (A & B) (A' & B'). split; [congruence|]. eapply same_machine_trans; eauto. Qed.
Lemma same_outcome_sym a b : same_outcome a b -> same_outcome b a.
Proof. intros (A & B). split; [congruence|]. apply same_machine_sym; auto. Qed.
Lemma same_legal g h : legal g -> same_gcode g h -> legal h.
Proof.
  intros [F N] (A & B & P). split.
  - rewrite <- A. eapply Permutation_Forall; eauto.
  - eapply Permutation_NoDup; [apply Permutation_map; eauto|auto].
Qed.
Lemma same_with m m' : same_machine m m' -> m' = with_mode m (m_mode m').
Proof. destruct m, m'. intros (_ & A & B & C & D & E & F). cbn in *. unfold with_mode. cbn. congruence. Qed.
Lemma same_class m m' mg : same_machine m m' -> option_map gcls (gm_get (m_mode m) mg) = option_map gcls (gm_get (m_mode m') mg).
Proof. intros (S & _). specialize (S mg). destruct (gm_get (m_mode m) mg), (gm_get (m_mode m') mg); try contradiction; auto. cbn. f_equal. apply S. Qed.
Lemma same_incremental m m' : same_machine m m' -> is_incremental m = is_incremental m'.
Proof. intros S. pose proof (same_class m m' MG_distance S) as C. unfold is_incremental. destruct (gm_get (m_mode m) MG_distance), (gm_get (m_mode m') MG_distance); cbn in C; try discriminate C; auto. congruence. Qed.

Local Transparent set_for.
Section WithArith.
Context {ar : Arith}.
Lemma same_wf g h : gcode_wf g -> same_gcode g h -> gcode_wf h.
Proof.
  intros (L & P & W & F) S. split; [eapply same_legal; eauto|]. destruct S as (A & B & Q). split; [unfold proper; rewrite <- A, <- B; auto|]. split; [rewrite <- B; auto|]. eapply Permutation_Forall; eauto.
Qed.
Lemma set_pos_mode p m md : set_pos p (with_mode m md) = (with_mode (fst (set_pos p m)) md, snd (set_pos p m)).
Proof.
  unfold set_pos, then_step, atomic_step. change (work2abs (with_mode m md) p) with (work2abs m p). destruct (work2abs m p) as [a|]; cbn [bind]; [|reflexivity].
  change (m_abs (with_abs (with_mode m md) a)) with a. change (m_abs (with_abs m a)) with a. change (m_min (with_abs (with_mode m md) a)) with (m_min m). change (m_min (with_abs m a)) with (m_min m).
  destruct (pos_min a (m_min m)) as [x|]; cbn [bind]; [|reflexivity].
  change (m_abs (with_min (with_abs (with_mode m md) a) x)) with a. change (m_abs (with_min (with_abs m a) x)) with a. change (m_max (with_min (with_abs (with_mode m md) a) x)) with (m_max m). change (m_max (with_min (with_abs m a) x)) with (m_max m).
  destruct (pos_max a (m_max m)) as [y|]; reflexivity.
Qed.
Lemma move_to_mode cs m md : is_incremental (with_mode m md) = is_incremental m -> move_to cs (with_mode m md) = (with_mode (fst (move_to cs m)) md, snd (move_to cs m)).
Proof.
  intros I. unfold move_to. rewrite I. change (machine_pos (with_mode m md)) with (machine_pos m). change (m_axes (with_mode m md)) with (m_axes m). destruct (machine_pos m) as [p|]; [|reflexivity].
  destruct (is_incremental m).
  - match goal with |- context [existsb ?f cs] => destruct (existsb f cs) end; [reflexivity|]. destruct (pos_add p _); [apply set_pos_mode|reflexivity].
  - match goal with |- context [if existsb ?f cs then _ else _] => destruct (existsb f cs) end; [reflexivity|]. match goal with |- context [if existsb ?f cs then _ else _] => destruct (existsb f cs) end; [reflexivity|]. destruct (pos_update p _); [apply set_pos_mode|reflexivity].
Qed.
Lemma same_mode_with m md x : same_mode (m_mode m) md -> same_frame m x -> same_machine x (with_mode x md).
Proof. intros S (F & _). split; [cbn [with_mode m_mode]; rewrite F; auto|]. repeat split. Qed.
Lemma move_to_same cs cs' m m' : same_machine m m' -> Permutation cs cs' -> NoDup (map fst cs) -> same_outcome (move_to cs m) (move_to cs' m').
Proof.
  intros S P N. rewrite (move_to_perm cs cs' m P N). pose proof (same_incremental m m' S) as I. rewrite (same_with m m' S) in *. rewrite move_to_mode by auto. split; auto. cbn [fst]. apply (same_mode_with m); [apply S|apply move_to_frame].
Qed.
Lemma repeat_same n cs cs' : Permutation cs cs' -> NoDup (map fst cs) -> forall m m', same_machine m m' -> same_outcome (repeat_step n (move_to cs) m) (repeat_step n (move_to cs') m').
Proof.
  intros P N. induction n as [|n IH]; intros m m' S; cbn [repeat_step]; [split; auto|]. unfold then_step. destruct (move_to_same cs cs' m m' S P N) as [A B].
  destruct (move_to cs m) as [x [[]|e]], (move_to cs' m') as [x' [[]|e']]; cbn [fst snd] in *; try discriminate A; [apply IH; auto|]. split; auto.
Qed.
Lemma coords_axes m m' g : m_axes m = m_axes m' -> gcode_coords m g = gcode_coords m' g.
Proof. intros E. unfold gcode_coords, axis_letters. rewrite E. reflexivity. Qed.
Lemma getattr_same g h l : legal g -> same_gcode g h -> gcode_getattr g l = gcode_getattr h l.
Proof. intros L (A & B & P). unfold gcode_getattr. rewrite <- A. unfold pget. rewrite (dget_perm _ letter_eqb_eq _ _ l (proj2 L) P). reflexivity. Qed.
Lemma dset_perm (d d' : list coord) a v : NoDup (map fst d) -> Permutation d d' -> Permutation (dset axis_eqb d a v) (dset axis_eqb d' a v).
Proof.
  intros N P. assert (N' : NoDup (map fst d')) by (eapply Permutation_NoDup; [apply Permutation_map; eauto|auto]).
  apply (dict_perm axis_eqb axis_eqb_eq); [apply (dset_nodup _ _ _ axis_eqb_eq); auto|apply (dset_nodup _ _ _ axis_eqb_eq); auto|].
  intros k. rewrite !(dget_dset _ _ _ axis_eqb_eq), (dget_perm _ axis_eqb_eq d d') by auto. reflexivity.
Qed.
Lemma dpop_perm (d d' : list coord) a : NoDup (map fst d) -> Permutation d d' -> Permutation (dpop axis_eqb d a) (dpop axis_eqb d' a).
Proof.
  intros N P. assert (N' : NoDup (map fst d')) by (eapply Permutation_NoDup; [apply Permutation_map; eauto|auto]).
  apply (dict_perm axis_eqb axis_eqb_eq); [apply dpop_nodup; auto|apply dpop_nodup; auto|].
  intros k. rewrite !(dget_dpop _ _ _ axis_eqb_eq), (dget_perm _ axis_eqb_eq d d') by auto. reflexivity.
Qed.
Lemma canned_same g h m m' : gcode_wf g -> same_gcode g h -> same_machine m m' -> same_outcome (canned_process g m) (canned_process h m').
Proof.
  intros W S SM. pose proof (proj1 W) as L. pose proof (same_legal g h L S) as L'. unfold canned_process.
  pose proof (same_class m m' MG_canned_cycles_return SM) as C1. pose proof (same_class m m' MG_plane_selection SM) as C2.
  rewrite <- (coords_axes m m' h) by apply SM. rewrite <- !(getattr_same g h) by auto.
  pose proof (coords_perm m g h L L' (proj2 (proj2 S))) as P. destruct (gcode_coords_spec m g W) as [(_ & N & _) _]. revert P N. generalize (gcode_coords m g) (gcode_coords m h). intros cs cs' P N.
  assert (SO : forall r : result unit, same_outcome (m, r) (m', r)) by (intros r; split; auto).
  replace (match gm_get (m_mode m') MG_canned_cycles_return with Some r => subclass (gcls r) GCodeCannedCycleReturnToR | None => false end)
    with (match gm_get (m_mode m) MG_canned_cycles_return with Some r => subclass (gcls r) GCodeCannedCycleReturnToR | None => false end)
    by (destruct (gm_get (m_mode m) MG_canned_cycles_return), (gm_get (m_mode m') MG_canned_cycles_return); cbn in C1; try discriminate C1; auto; congruence).
  destruct (gm_get (m_mode m) MG_plane_selection) as [pl|], (gm_get (m_mode m') MG_plane_selection) as [pl'|]; cbn in C2; try discriminate C2; auto. injection C2 as C2. rewrite <- C2.
  destruct (normal_axis (gcls pl)) as [na|]; auto. destruct (match gm_get (m_mode m) MG_canned_cycles_return with Some r => _ | None => _ end).
  - destruct (gcode_getattr g LR) as [r|]; auto. destruct na as [l|]; [|destruct (gcode_getattr g LL); auto]. destruct (axis_of_letter l) as [a|]; auto. destruct (gcode_getattr g LL) as [v|]; auto. apply repeat_same; auto; [apply dset_perm; auto|apply (dset_nodup _ _ _ axis_eqb_eq); auto].
  - destruct (gcode_getattr g LL) as [v|]; auto. apply repeat_same; auto; destruct na as [l|]; auto; destruct (axis_of_letter l) as [a|]; auto; [apply dpop_perm; auto|apply dpop_nodup; auto].
Qed.
Lemma modal_of_same g h : same_gcode g h -> same_gcode (modal_of g) (modal_of h).
Proof. intros (A & B & P). split; auto. split; auto. cbn [modal_of gparams]. rewrite <- A. apply filter_perm. auto. Qed.
Lemma set_effect_same md md' g h : same_mode md md' -> same_gcode g h -> same_mode (set_effect md g) (set_effect md' h).
Proof.
  intros S G. unfold set_effect. rewrite <- (proj1 G). destruct (modal_group (gcls g)) as [mg|]; auto. intros mg'. rewrite !gm_get_set. destruct (mgroup_eqb mg mg'); [apply modal_of_same; auto|apply S].
Qed.
Lemma after_mode_same m m' md md' : same_machine m m' -> same_mode md md' -> same_machine (after_mode m md) (after_mode m' md').
Proof.
  intros (S & A & B & C & D & E & F) M. unfold after_mode. pose proof (M MG_coordinate_system) as Q. destruct (gm_get md MG_coordinate_system), (gm_get md' MG_coordinate_system); try contradiction.
  - rewrite <- (proj1 Q). destruct (coord_system_id (gcls g)).
    + repeat split; auto. cbn [with_state m_state]. rewrite A. reflexivity.
    + repeat split; auto.
  - repeat split; auto.
Qed.
Lemma process_sim g h m m' : sound m -> gcode_wf g -> same_gcode g h -> sound m' -> same_machine m m' -> same_outcome (gcode_process g m) (gcode_process h m').
Proof.
  intros S W G S' M. rewrite !process_own; auto; [|eapply same_legal; eauto; apply W|apply W].
  assert (M2 : same_machine (set_for m g) (set_for m' h)) by (unfold set_for; apply after_mode_same; auto; apply set_effect_same; auto; apply M).
  unfold gcode_process_own. rewrite <- (proj1 G). destruct (process_kind (gcls g)); [split; auto| | |].
  - apply move_to_same; auto; [|apply gcode_coords_spec; auto]. rewrite <- (coords_axes (set_for m g) (set_for m' h) h) by apply M2. apply coords_perm; auto; [apply W|eapply same_legal; eauto; apply W|apply G].
  - apply canned_same; auto.
  - split; auto. cbn [fst]. destruct M2 as (A & B). split; [|exact B]. intros mg. cbn [with_mode m_mode]. rewrite !gm_get_set. destruct (mgroup_eqb MG_motion mg); auto. apply A.
Qed.
Lemma steps_sim gs hs : Forall2 same_gcode gs hs -> forall m m', sound m -> inside m -> Forall gcode_wf gs -> sound m' -> inside m' -> same_machine m m' ->
  same_outcome (steps (map gcode_process gs) m) (steps (map gcode_process hs) m').
Proof.
  induction 1 as [|g h gs hs G F IH]; intros m m' S I W S' I' M; cbn [map steps]; [split; auto|]. inversion W; subst. unfold then_step.
  destruct (process_sim g h m m') as [A B]; auto. destruct (process_keeps g m S I H1) as [(S1 & I1 & _) _]. destruct (process_keeps h m' S' I' (same_wf _ _ H1 G)) as [(S2 & I2 & _) _].
  destruct (gcode_process g m) as [x [[]|e]], (gcode_process h m') as [x' [[]|e']]; cbn [fst snd] in *; try discriminate A; [apply IH; auto|]. split; auto.
Qed.

(** *** gcodes executed at the same stage *)
Lemma order_motion a : exec_order a = 242 -> modal_group a = Some MG_motion.
Proof. destruct a; vm_compute; intros X; auto; discriminate X. Qed.
Lemma order_cancel a : exec_order a = 241 -> a = GCodeCancelCannedCycle.
Proof. destruct a; vm_compute; intros X; auto; discriminate X. Qed.
Lemma order_kind a : process_kind a = PNothing \/ exec_order a = 241 \/ exec_order a = 242.
Proof. destruct a; vm_compute; auto. Qed.
Lemma effect_commute md a b : (modal_group (gcls a) = modal_group (gcls b) -> modal_group (gcls a) = None) -> set_effect (set_effect md a) b = set_effect (set_effect md b) a.
Proof.
  intros D. unfold set_effect. destruct (modal_group (gcls a)) as [x|], (modal_group (gcls b)) as [y|]; auto. apply gm_ext. intros mg. rewrite !gm_get_set.
  destruct (mgroup_eqb y mg) eqn:E, (mgroup_eqb x mg) eqn:E2; auto. apply mgroup_eqb_eq in E, E2. subst. specialize (D eq_refl). discriminate D.
Qed.
Lemma machine_eta m md : with_mode (with_mode m md) md = with_mode m md. Proof. reflexivity. Qed.
Lemma set_for_commute m a b : sound m -> gcode_wf a -> gcode_wf b -> (modal_group (gcls a) = modal_group (gcls b) -> modal_group (gcls a) = None) -> set_for (set_for m a) b = set_for (set_for m b) a.
Proof.
  intros S A B D. pose proof (set_for_sound (set_for m a) b (set_for_sound m a S A) B) as S2. destruct S2 as (_ & _ & _ & _ & _ & W & _).
  pose proof (effect_commute (m_mode m) a b D) as C. unfold set_for. unfold set_for in W. rewrite after_mode_mode in *. rewrite after_mode_mode in *.
  rewrite <- C. revert W. set (md := set_effect (set_effect (m_mode m) a) b) in *. intros W.
  assert (N : forall x y, gm_get (set_effect x y) MG_coordinate_system = None -> gm_get x MG_coordinate_system = None).
  { intros x y. unfold set_effect. destruct (modal_group (gcls y)); auto. rewrite gm_get_set. destruct (mgroup_eqb m0 _); auto. discriminate. }
  unfold after_mode at 1 3. destruct (gm_get md MG_coordinate_system) as [g|] eqn:E.
  - destruct (coord_class (gcls g)) as [i E2]; [apply (W _ _ E)|]. rewrite E2. unfold after_mode. destruct (gm_get (set_effect (m_mode m) a) _) as [g1|]; [destruct (coord_system_id (gcls g1))|]; (destruct (gm_get (set_effect (m_mode m) b) _) as [g2|]; [destruct (coord_system_id (gcls g2))|]); reflexivity.
  - unfold after_mode. pose proof E as E'. unfold md in E. apply N in E. rewrite C in E'. apply N in E'. rewrite E, E'. reflexivity.
Qed.
Lemma tie_commute m a b : sound m -> inside m -> gcode_wf a -> gcode_wf b -> compatible a b -> gorder a = gorder b ->
  then_step (gcode_process a) (gcode_process b) m = then_step (gcode_process b) (gcode_process a) m.
Proof.
  intros S I A B [_ C] O. unfold gorder in O.
  assert (D : modal_group (gcls a) = modal_group (gcls b) -> modal_group (gcls a) = None).
  { intros E. destruct (modal_group (gcls a)) as [x|] eqn:X; auto. exfalso. apply C. exists x. auto. }
  assert (K : (process_kind (gcls a) = PNothing /\ process_kind (gcls b) = PNothing) \/ (gcls a = GCodeCancelCannedCycle /\ gcls b = GCodeCancelCannedCycle)).
  { destruct (order_kind (gcls a)) as [Ka|[Ka|Ka]], (order_kind (gcls b)) as [Kb|[Kb|Kb]]; auto; try (right; split; apply order_cancel; congruence); exfalso; apply C; exists MG_motion; split; apply order_motion; congruence. }
  assert (P : forall g x, sound x -> gcode_wf g -> process_kind (gcls g) = PNothing -> gcode_process g x = (set_for x g, Ok tt)).
  { intros g x Sx Wg E. rewrite process_own by (auto; apply Wg). unfold gcode_process_own. rewrite E. reflexivity. }
  unfold then_step. destruct K as [[Ka Kb]|[Ka Kb]].
  - rewrite !P by auto. rewrite !P by (auto; apply set_for_sound; auto). rewrite set_for_commute; auto.
  - assert (Q : forall g x, sound x -> gcode_wf g -> gcls g = GCodeCancelCannedCycle -> gcode_process g x = (with_mode (after_mode x (m_mode x)) (gm_set (m_mode x) MG_motion None), Ok tt)).
    { intros g x Sx Wg E. rewrite process_own by (auto; apply Wg). unfold gcode_process_own. rewrite E. cbn [process_kind]. change (process_kind GCodeCancelCannedCycle) with PCancelMotion. cbv iota beta. unfold set_for, set_effect. rewrite E. change (modal_group GCodeCancelCannedCycle) with (@None mgroup). cbv iota beta. unfold atomic_step. rewrite ?after_mode_mode. reflexivity. }
    assert (QQ : forall x, sound x -> gcode_process a x = gcode_process b x) by (intros x Sx; rewrite !Q; auto).
    destruct (process_keeps b m S I B) as [(S1 & _) _]. rewrite QQ by auto. destruct (gcode_process b m) as [x [[]|e]]; auto. symmetry. apply QQ. auto.
Qed.

(** *** sorting *)
Section Sort.
Context {A : Type} (key : A -> Z).
Lemma insert_front a (l : list A) : match l with [] => True | y :: _ => key a <= key y end -> insert key a l = a :: l.
Proof. destruct l as [|y l]; auto. intros H. cbn [insert]. destruct (key a <=? key y) eqn:E; auto. apply Z.leb_gt in E. lia. Qed.
Lemma insert_adj a x y l1 l2 : key x = key y -> exists k1 k2, insert key a (l1 ++ y :: x :: l2) = k1 ++ y :: x :: k2 /\ insert key a (l1 ++ x :: y :: l2) = k1 ++ x :: y :: k2.
Proof.
  intros E. induction l1 as [|z l1 IH]; cbn [app insert].
  - rewrite E. destruct (key a <=? key y) eqn:L; [exists [a], l2; auto|]. exists [], (insert key a l2). auto.
  - destruct (key a <=? key z); [exists (a :: z :: l1), l2; auto|]. destruct IH as (k1 & k2 & H1 & H2). exists (z :: k1), k2. rewrite H1, H2. auto.
Qed.
Lemma insert_pair x y l : key x = key y -> exists l1 l2, insert key y (insert key x l) = l1 ++ y :: x :: l2 /\ insert key x (insert key y l) = l1 ++ x :: y :: l2.
Proof.
  intros E. induction l as [|z l IH]; cbn [insert].
  - rewrite E, Z.leb_refl. exists [], []. auto.
  - rewrite E. destruct (key y <=? key z) eqn:L.
    + exists [], (z :: l). cbn [insert]. rewrite E, Z.leb_refl. auto.
    + cbn [insert]. rewrite E, L. destruct IH as (l1 & l2 & H1 & H2). exists (z :: l1), l2. rewrite H1, H2. auto.
Qed.
Lemma sort_adj x y l1 l2 : key x = key y -> exists k1 k2, sort key (l1 ++ y :: x :: l2) = k1 ++ y :: x :: k2 /\ sort key (l1 ++ x :: y :: l2) = k1 ++ x :: y :: k2.
Proof.
  intros E. induction l1 as [|a l1 IH].
  - cbn [app sort]. apply insert_pair; auto.
  - cbn [app sort]. destruct IH as (k1 & k2 & H1 & H2). rewrite H1, H2. apply insert_adj; auto.
Qed.
Lemma sort_swap x y l1 l2 : key x <> key y -> sort key (l1 ++ y :: x :: l2) = sort key (l1 ++ x :: y :: l2).
Proof.
  intros D. apply (sorted_unique _ key); [apply sort_sorted|apply sort_sorted|]. intros k. rewrite !sort_stable, !filter_app. f_equal. cbn [filter].
  destruct (key y =? k) eqn:E1, (key x =? k) eqn:E2; auto. apply Z.eqb_eq in E1, E2. congruence.
Qed.
End Sort.
Lemma steps_app l l' m : steps (l ++ l') m = then_step (steps l) (steps l') m.
Proof.
  revert m. induction l as [|f l IH]; intros m; cbn [app steps]; [reflexivity|]. unfold then_step. destruct (f m) as [x [[]|e]]; auto. rewrite IH. reflexivity.
Qed.
Lemma compatible_sym a b : compatible a b -> compatible b a.
Proof. intros [A B]. split; auto. intros (x & H1 & H2). apply B. eauto. Qed.
Lemma pairs_swap (l1 l2 : list gcode) x y : ForallOrdPairs compatible (l1 ++ y :: x :: l2) -> ForallOrdPairs compatible (l1 ++ x :: y :: l2) /\ compatible y x.
Proof.
  induction l1 as [|a l1 IH]; cbn [app]; intros F.
  - inversion F as [|? ? F1 F2]; subst. inversion F2 as [|? ? F3 F4]; subst. inversion F1; subst. split; auto. constructor; [constructor; auto; apply compatible_sym; auto|]. constructor; auto.
  - inversion F as [|? ? F1 F2]; subst. destruct (IH F2) as [G C]. split; auto. constructor; auto. eapply Permutation_Forall; [|exact F1]. apply Permutation_app_head. constructor.
Qed.
Lemma steps_perm gs gs' : Permutation gs gs' -> forall tl m, sound m -> inside m -> Forall gcode_wf gs -> Forall gcode_wf tl -> ForallOrdPairs compatible gs ->
  ForallOrdPairs compatible gs' /\ steps (map gcode_process (sort_gcodes (gs ++ tl))) m = steps (map gcode_process (sort_gcodes (gs' ++ tl))) m.
Proof.
  intros P tl m S I. revert P. apply (Permutation_ind_transp (fun gs gs' => Forall gcode_wf gs -> Forall gcode_wf tl -> ForallOrdPairs compatible gs -> ForallOrdPairs compatible gs' /\ steps (map gcode_process (sort_gcodes (gs ++ tl))) m = steps (map gcode_process (sort_gcodes (gs' ++ tl))) m)); auto.
  - intros x y l1 l2 F T C. destruct (pairs_swap l1 l2 x y C) as [C' XY]. split; auto.
    rewrite <- !app_assoc. cbn [app]. unfold sort_gcodes. destruct (Z.eq_dec (gorder x) (gorder y)) as [E|E]; [|rewrite sort_swap; auto].
    destruct (sort_adj gorder x y l1 (l2 ++ tl) E) as (k1 & k2 & H1 & H2).
    assert (W : Forall gcode_wf (k1 ++ y :: x :: k2)).
    { rewrite <- H1. eapply Permutation_Forall; [symmetry; apply sort_perm|]. change (y :: x :: l2 ++ tl) with ((y :: x :: l2) ++ tl). rewrite app_assoc. apply Forall_app. auto. }
    rewrite H1, H2. rewrite !map_app. cbn [map]. rewrite !steps_app. unfold then_step at 1 2. apply Forall_app in W as [W1 W2]. inversion W2 as [|? ? Wy W3]; subst. inversion W3 as [|? ? Wx W4]; subst.
    destruct (steps_inv k1 m S I W1) as (S1 & I1 & _). destruct (steps (map gcode_process k1) m) as [m1 [[]|e]]; cbn [fst] in *; auto.
    cbn [steps]. pose proof (tie_commute m1 y x S1 I1 Wy Wx XY (eq_sym E)) as T2. unfold then_step in *.
    destruct (gcode_process y m1) as [my [[]|ey]], (gcode_process x m1) as [mx [[]|ex]]; try rewrite T2; auto; try rewrite <- T2; auto.
  - intros l l' l'' P1 H1 P2 H2 F T C. destruct (H1 F T C) as [C1 E1]. destruct (H2 (Permutation_Forall P1 F) T C1) as [C2 E2]. split; auto. congruence.
Qed.
Lemma insert_sim g h : same_gcode g h -> forall gs hs, Forall2 same_gcode gs hs -> Forall2 same_gcode (insert gorder g gs) (insert gorder h hs).
Proof.
  intros G gs hs. induction 1 as [|a b gs hs A F IH]; cbn [insert]; [constructor; auto|]. unfold gorder. rewrite <- (proj1 G), <- (proj1 A). fold (gorder g) (gorder a). destruct (gorder g <=? gorder a); constructor; auto.
Qed.
Lemma sort_sim gs hs : Forall2 same_gcode gs hs -> Forall2 same_gcode (sort_gcodes gs) (sort_gcodes hs).
Proof. unfold sort_gcodes. induction 1; cbn [sort]; auto. apply insert_sim; auto. Qed.
Lemma dget_words ps l : dget letter_eqb (rev (map (fun w => (wletter w, w)) ps)) l = find (fun w => letter_eqb l (wletter w)) (rev ps).
Proof. rewrite <- map_rev. induction (rev ps) as [|w x IH]; cbn [map dget find]; auto. destruct (letter_eqb l (wletter w)); auto. Qed.
Lemma updated_perm mo ps ps' : legal mo -> NoDup (map wletter ps) -> Permutation ps ps' -> Permutation (updated mo ps) (updated mo ps').
Proof.
  intros L N P. apply (dict_perm letter_eqb letter_eqb_eq); [apply updated_nodup; auto|apply updated_nodup; auto|].
  intros k. unfold updated. rewrite !(dget_dupdate _ _ _ letter_eqb_eq). rewrite (dget_perm _ letter_eqb_eq _ (rev (map (fun w => (wletter w, w)) ps'))); auto.
  - rewrite map_rev. apply NoDup_rev. rewrite map_map. auto.
  - rewrite <- !Permutation_rev. apply Permutation_map. auto.
Qed.
Lemma modal_sim m ps ps' : sound m -> bare ps -> NoDup (map wletter ps) -> Permutation ps ps' ->
  match machine_modal_gcode m ps, machine_modal_gcode m ps' with
  | Ok (Some g), Ok (Some h) => same_gcode g h /\ gcls g = gcls h
  | Ok None, Ok None => True
  | Raise e, Raise e' => e = e'
  | _, _ => False
  end.
Proof.
  intros S B N P. pose proof S as (_ & _ & _ & _ & _ & W & T). destruct ps as [|p ps].
  { apply Permutation_nil in P. subst. cbn. auto. }
  assert (NE : ps' <> []) by (intros ->; symmetry in P; apply Permutation_nil in P; discriminate P).
  assert (B' : bare ps') by (eapply Permutation_Forall; eauto).
  destruct (gm_get (m_mode m) MG_motion) as [mo|] eqn:E.
  - assert (L : legal mo) by apply (W _ _ E). assert (Q : proper mo) by apply (T _ _ E).
    rewrite !(modal_gcode_spec m mo) by (auto; discriminate). rewrite <- (existsb_perm (unfit (gcls mo)) _ _ P). destruct (_ && _); auto. split; [|reflexivity].
    split; [reflexivity|]. split; [reflexivity|]. cbn [gparams]. apply filter_perm. apply updated_perm; auto.
  - rewrite !modal_gcode_none by (auto; discriminate). destruct (m_ignore m); auto.
Qed.
Lemma process_gcodes_sim gs hs ps ps' m : sound m -> inside m -> Forall gcode_wf gs -> Forall word_wf ps -> ForallOrdPairs compatible gs -> same_gcodes gs hs ->
  bare ps -> NoDup (map wletter ps) -> Permutation ps ps' -> same_outcome (process_gcodes gs ps m) (process_gcodes hs ps' m).
Proof.
  intros S I F W C (l & P & R) B N Q. unfold process_gcodes. pose proof (modal_sim m ps ps' S B N Q) as M.
  assert (MW : forall g, machine_modal_gcode m ps = Ok (Some g) -> gcode_wf g) by (intros g; apply modal_gcode_wf; auto).
  assert (G : forall tl tl', Forall gcode_wf tl -> Forall2 same_gcode tl tl' -> same_outcome (steps (map gcode_process (sort_gcodes (gs ++ tl))) m) (steps (map gcode_process (sort_gcodes (hs ++ tl'))) m)).
  { intros tl tl' Ft R'. destruct (steps_perm gs l P tl m S I F Ft C) as [_ ->]. apply steps_sim; auto.
    - apply sort_sim. apply Forall2_app; auto.
    - apply sort_wf. apply Forall_app. split; auto. eapply Permutation_Forall; eauto.
    - apply same_machine_refl. }
  destruct (machine_modal_gcode m ps) as [[g|]|e], (machine_modal_gcode m ps') as [[h|]|e']; try contradiction; [| |subst; apply same_outcome_refl].
  - apply G; [constructor; auto|constructor; auto; apply M].
  - apply G; constructor.
Qed.

(** ** equality of gcodes *)
Lemma params_eqb_iff (a b : dict letter word) : Forall (fun kv => word_wf (snd kv)) a -> Forall (fun kv => word_wf (snd kv)) b -> NoDup (map fst a) -> NoDup (map fst b) -> params_eqb a b = true <-> Permutation a b.
Proof.
  intros W W' N N'. unfold params_eqb. rewrite andb_true_iff, Nat.eqb_eq, forallb_forall. rewrite Forall_forall in W, W'. split.
  - intros [L F]. apply NoDup_Permutation_bis; [eapply NoDup_map_inv; eauto|lia|].
    intros [k w] I. specialize (F _ I). cbn [fst snd] in F. destruct (dget letter_eqb b k) as [w'|] eqn:E; [|discriminate F]. apply (dget_in _ _ _ letter_eqb_eq) in E. apply word_eqb_eq in F; [subst; auto|apply (W _ I)|apply (W' _ E)].
  - intros P. split; [apply Permutation_length; auto|]. intros [k w] I. cbn [fst snd]. assert (E : dget letter_eqb b k = Some w) by (apply (in_dget _ _ _ letter_eqb_eq); auto; eapply Permutation_in; eauto).
    rewrite E. apply word_eqb_eq; auto; apply (W _ I).
Qed.
Lemma gcode_eqb_iff a b : gcode_wf a -> gcode_wf b -> gcode_eqb a b = true <-> same_gcode a b.
Proof.
  intros (L & P & W & F) (L' & P' & W' & F'). unfold gcode_eqb. rewrite andb_true_iff, word_eqb_eq, params_eqb_iff; auto; try apply L; try apply L'. split.
  - intros [E Q]. split; auto. unfold proper in *. rewrite E in P. congruence.
  - intros (E1 & E2 & Q). split; auto.
Qed.
Lemma same_str a b : legal a -> same_gcode a b -> gwhite a = gwhite b -> gcode_str a = gcode_str b.
Proof.
  intros L (A & B & P) W. unfold gcode_str. rewrite B, W.
  assert (E : sorted_params (gparams a) = sorted_params (gparams b)).
  { unfold sorted_params. apply (sorted_unique _ (fun kv : letter * word => Z.of_nat (lnum (fst kv)))); [apply sort_sorted|apply sort_sorted|]. intros k. rewrite !sort_stable.
    set (f := fun y : letter * word => (Z.of_nat (lnum (fst y)) =? k)%Z).
    assert (U : forall d : dict letter word, NoDup (map fst d) -> (List.length (filter f d) <= 1)%nat).
    { induction d as [|kv d IH]; intros N; cbn [filter length map] in *; auto. inversion N; subst. destruct (f kv) eqn:E1; [|auto]. cbn [length].
      replace (filter f d) with (@nil (letter * word)); auto. symmetry. destruct (filter f d) as [|y l] eqn:E2; auto. exfalso. assert (I : In y (filter f d)) by (rewrite E2; left; auto). apply filter_In in I as [I E3].
      unfold f in E1, E3. apply Z.eqb_eq in E1, E3. apply H1. replace (fst kv) with (fst y); [apply in_map; auto|apply lnum_inj; lia]. }
    pose proof (filter_perm f _ _ P) as Q. specialize (U _ (proj2 L)). destruct (filter f (gparams a)) as [|x [|]]; [apply Permutation_nil in Q; auto|apply Permutation_length_1_inv in Q; auto|cbn [length] in U; lia]. }
  apply Permutation_length in P. destruct (gparams a) eqn:X, (gparams b) eqn:Y; auto; [discriminate P|discriminate P|]. rewrite E. reflexivity.
Qed.

(** *** permuted words *)
Definition has_class (w : word) : bool := match word_gcode_class w with Some _ => true | None => false end.
Lemma filter_flat {A B} (f : B -> bool) (h : A -> list B) l : filter f (flat_map h l) = flat_map (fun x => filter f (h x)) l.
Proof. induction l; cbn [flat_map]; auto. rewrite filter_app, IHl. auto. Qed.
Lemma flat_map_ext_in {A B} (f g : A -> list B) l : (forall x, In x l -> f x = g x) -> flat_map f l = flat_map g l.
Proof. induction l; cbn [flat_map]; intros H; auto. rewrite H, IHl; auto; [|left; auto]. intros x I. apply H. right; auto. Qed.
Lemma flat_single {A B} (f : A -> B) l : flat_map (fun x => [f x]) l = map f l. Proof. induction l; cbn; congruence. Qed.
Lemma flat_one {A B} (key : A -> B) (f : A -> list B) l g : NoDup (map key l) -> In g l -> (forall x, In x l -> key x <> key g -> f x = []) -> flat_map f l = f g.
Proof.
  induction l as [|a l IH]; intros N I H; [destruct I|]. cbn [map flat_map] in *. inversion N; subst. destruct I as [->|I].
  - assert (E : forall l', (forall x, In x l' -> In x l) -> flat_map f l' = []).
    { induction l' as [|b l' IHl]; intros J; auto. cbn [flat_map]. rewrite IHl by (intros x X; apply J; right; auto). rewrite H; auto; [right; apply J; left; auto|]. intros E. apply H2. rewrite <- E. apply in_map, J. left; auto. }
    rewrite E by auto. apply app_nil_r.
  - rewrite (H a); [|left; auto|intros E; apply H2; rewrite E; apply in_map; auto]. apply IH; auto. intros x X. apply H. right; auto.
Qed.
Lemma filter_false {A} (f : A -> bool) l : (forall x, In x l -> f x = false) -> filter f l = [].
Proof. induction l; cbn [filter]; intros H; auto. rewrite H by (left; auto). apply IHl. intros x I. apply H. right; auto. Qed.
Lemma grouped_heads ws gs rest : clear_words ws -> grouped ws gs rest -> Permutation (filter has_class ws) (map gr_word gs).
Proof.
  intros C G. pose proof (grouped_perm _ _ _ G) as P. pose proof (grouped_rest_class _ _ _ G) as R. pose proof (grouped_takes _ _ _ G) as T. rewrite (filter_perm has_class _ _ P), filter_app, filter_flat.
  rewrite (filter_false has_class rest). 2: { intros x I. rewrite Forall_forall in R. unfold has_class. rewrite (R x I). auto. }
  rewrite app_nil_r. rewrite <- flat_single. erewrite flat_map_ext_in; [reflexivity|]. intros g I. cbn beta. unfold group_words. cbn [filter]. unfold has_class at 1. rewrite (grouped_proper _ _ _ _ G I). f_equal. apply filter_false. intros x X. unfold has_class.
  rewrite Forall_forall in T. destruct (C (gr_word g) (gr_class g) x) as [-> _]; auto.
  - eapply grouped_words_in; eauto.
  - eapply grouped_proper; eauto.
  - eapply Permutation_in; [symmetry; exact P|]. apply in_app_iff. left. apply in_flat_map. exists g. split; auto. right; auto.
Qed.
Lemma grouped_params ws gs rest g : clear_words ws -> grouped ws gs rest -> NoDup (map gr_word gs) -> In g gs -> Permutation (filter (fit (gr_class g)) ws) (gr_params g ++ filter (fit (gr_class g)) rest).
Proof.
  intros C G N I. pose proof (grouped_perm _ _ _ G) as P. pose proof (grouped_takes _ _ _ G) as T. rewrite Forall_forall in T. rewrite (filter_perm _ _ _ P), filter_app, filter_flat. apply Permutation_app_tail.
  assert (IW : forall h x, In h gs -> In x (group_words h) -> In x ws). { intros h x Ih X. eapply Permutation_in; [symmetry; exact P|]. apply in_app_iff. left. apply in_flat_map. exists h. auto. }
  assert (NH : forall h, In h gs -> fit (gr_class g) (gr_word h) = false).
  { intros h Ih. unfold fit. apply accepts_false. intros X. destruct (C (gr_word g) (gr_class g) (gr_word h)) as [E _]; auto; [apply (IW g); auto; left; auto|eapply grouped_proper; eauto|apply (IW h); auto; left; auto|]. rewrite (grouped_proper _ _ _ _ G Ih) in E. discriminate E. }
  rewrite (flat_one gr_word (fun x => filter (fit (gr_class g)) (group_words x)) gs g); auto.
  - unfold group_words. cbn [filter]. rewrite NH by auto. rewrite filter_all; auto. intros x X. unfold fit. apply accepts_iff. apply T; auto.
  - intros h Ih D. unfold group_words. cbn [filter]. rewrite NH by auto. apply filter_false. intros x X. unfold fit. apply accepts_false. intros TX. apply D.
    destruct (C (gr_word g) (gr_class g) x) as [_ U]; auto; [apply (IW g); auto; left; auto|eapply grouped_proper; eauto|apply (IW h); auto; right; auto|]. apply (U (gr_word h) (gr_class h)); [apply (IW h); auto; left; auto|eapply grouped_proper; eauto|apply T; auto].
Qed.
Lemma grouped_same ws ws' gs gs' rest rest' : Permutation ws ws' -> clear_words ws -> NoDup (map gr_word gs) -> grouped ws gs rest -> grouped ws' gs' rest' -> Permutation rest rest' ->
  same_gcodes (map built gs) (map built gs').
Proof.
  intros P C N G G' R.
  assert (C' : clear_words ws'). { intros g c w I1 E I2 T. symmetry in P. destruct (C g c w) as [A B]; [eauto using Permutation_in|auto|eauto using Permutation_in|auto|]. split; auto. intros g' c' I'. apply B. eauto using Permutation_in. }
  assert (Q : Permutation (map gr_word gs) (map gr_word gs')) by (rewrite <- (grouped_heads ws gs rest), <- (grouped_heads ws' gs' rest') by auto; apply filter_perm; auto).
  assert (N' : NoDup (map gr_word gs')) by (eapply Permutation_NoDup; eauto).
  apply Permutation_sym in Q. destruct (Permutation_map_inv gr_word gs Q) as (l & E & PL). exists (map built l). split; [apply Permutation_map; auto|].
  assert (IL : forall g, In g l -> In g gs) by (intros g; apply Permutation_in; symmetry; auto). assert (IG : forall g, In g gs' -> In g gs') by auto. revert E IL IG. generalize gs' at 1 2 4. clear PL Q. induction l as [|g l IH]; intros [|g' gl] E IL IG; cbn [map] in *; try discriminate E; constructor.
  - injection E as E _. specialize (IL g (or_introl eq_refl)). specialize (IG g' (or_introl eq_refl)). assert (EC : gr_class g = gr_class g') by (pose proof (grouped_proper _ _ _ _ G IL); pose proof (grouped_proper _ _ _ _ G' IG); congruence).
    split; auto. split; auto. cbn [built gparams]. apply Permutation_map. pose proof (grouped_params _ _ _ _ C G N IL) as H. pose proof (grouped_params _ _ _ _ C' G' N' IG) as H'. rewrite <- EC in H'. rewrite <- (filter_perm _ _ _ P) in H'. rewrite H in H'. rewrite (filter_perm _ _ _ R) in H'. apply Permutation_app_inv_r in H'. auto.
  - apply IH; [congruence|intros x X; apply IL; right; auto|intros x X; apply IG; right; auto].
Qed.
End WithArith.
