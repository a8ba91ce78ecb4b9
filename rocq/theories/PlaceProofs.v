(** Where a machine is does not matter to what it does. *)
From Coq Require Import Ascii String List Bool Arith ZArith QArith Qcanon Lia Permutation.
From Verif Require Import Base Num Words GTable GCode Line Position Machine BaseFacts WordOrder WordsSpec GCodeSpec GCodeProofs GCodeProofs2 PropsGCode ArithSpec
  PosSpec PosProofs ModeSpec ModeProofs MachSpec MachProofs MachProofs2 MachProofs3 StopSpec StopProofs ScriptsProofs4 SimProofs PlaceSpec.
Import ListNotations.

Section WithArith.
Context {ar : Arith}.
Lemma alike_frame m m' : alike m m' <-> same_frame m m'. Proof. reflexivity. Qed.
Lemma alike_sym m m' : same_frame m m' -> same_frame m' m. Proof. unfold same_frame. intuition congruence. Qed.
Lemma alike_inc m m' : same_frame m m' -> is_incremental m' = is_incremental m.
Proof. intros (M & _). unfold is_incremental. rewrite M. reflexivity. Qed.
(** the error of a move that cannot be made *)
Lemma move_to_error cs m : sound m -> NoDup (map fst cs) -> ~ good_coords m cs ->
  move_to cs m = (m, Raise (if is_incremental m then ETypeError else if existsb (fun c => negb (vget (m_axes m) (fst c))) cs then EMachineInvalidAxis else ETypeError)).
Proof.
  intros S N NG. destruct (move_to_cases cs m S N) as [[G _]|[_ (e & E)]]; [contradiction|]. rewrite E. f_equal. f_equal. revert E. destruct (machine_pos_spec m S) as (p & EP & Gp & Ap & Up & Vp). unfold move_to. rewrite EP. destruct (is_incremental m) eqn:INC.
  - match goal with |- context [if ?b then _ else _] => destruct b eqn:B end; [congruence|]. intros _. exfalso. apply NG. split; [|congruence]. intros c I H. destruct (snd c) as [x|] eqn:C; [eauto|]. exfalso.
    assert (K : existsb (fun c : axis * option Qc => match snd c with Some _ => false | None => match vget (pvals p) (fst c) with Some _ => true | None => false end end) cs = true); [|congruence].
    apply existsb_exists. exists c. split; auto. rewrite C. rewrite (good_some p (fst c)); auto. unfold has. rewrite Ap. auto.
  - rewrite Ap. match goal with |- context [if ?b then _ else _] => destruct b eqn:B end; [congruence|]. match goal with |- context [if ?b then _ else _] => destruct b eqn:B' end; [congruence|]. intros _. exfalso. apply NG. split.
    + intros c I _. destruct (snd c) as [x|] eqn:C; [eauto|]. exfalso. assert (K : existsb (fun c : axis * option Qc => match snd c with Some _ => false | None => true end) cs = true); [|congruence]. apply existsb_exists. exists c. split; auto. rewrite C. auto.
    + intros _ c I. destruct (vget (m_axes m) (fst c)) eqn:Q; auto. exfalso. assert (K : existsb (fun c : axis * option Qc => negb (vget (m_axes m) (fst c))) cs = true); [|congruence]. apply existsb_exists. exists c. split; auto. rewrite Q. auto.
Qed.
(** both go the same way *)
Definition both (m m' : machine) (cs : list coord) (n : nat) (r r' : machine * result unit) : Prop :=
  exists m1 m1', r = (m1, Ok tt) /\ r' = (m1', Ok tt) /\ moved_n m m1 cs n /\ moved_n m' m1' cs n.
Definition fail (m m' : machine) (r r' : machine * result unit) : Prop := exists e, r = (m, Raise e) /\ r' = (m', Raise e).
Lemma good_coords_dec m cs : sound m -> NoDup (map fst cs) -> good_coords m cs \/ ~ good_coords m cs.
Proof. intros S N. destruct (move_to_cases cs m S N) as [[G _]|[G _]]; auto. Qed.
Lemma repeat_twin n cs m m' : (0 < n)%nat -> sound m -> sound m' -> same_frame m m' -> NoDup (map fst cs) ->
  fail m m' (repeat_step n (move_to cs) m) (repeat_step n (move_to cs) m') \/ both m m' cs n (repeat_step n (move_to cs) m) (repeat_step n (move_to cs) m').
Proof.
  intros P S S' F N. destruct (good_coords_dec m cs S N) as [G|G].
  - right. destruct (repeat_spec n cs m S N G) as (m1 & E & M). destruct (repeat_spec n cs m' S' N (frame_coords _ _ _ F G)) as (m1' & E' & M'). exists m1, m1'. auto.
  - left. destruct n as [|n]; [lia|]. cbn [repeat_step]. unfold then_step. assert (G' : ~ good_coords m' cs) by (intros X; apply G; eapply frame_coords; [apply alike_sym; exact F|auto]).
    rewrite (move_to_error cs m S N G), (move_to_error cs m' S' N G'). rewrite (alike_inc _ _ F). destruct F as (_ & _ & A & _). rewrite A. eexists. split; reflexivity.
Qed.
Lemma canned_twin g m m' : sound m -> sound m' -> gcode_wf g -> same_frame m m' ->
  fail m m' (canned_process g m) (canned_process g m') \/ exists cs n, both m m' cs n (canned_process g m) (canned_process g m').
Proof.
  intros S S' W F. destruct (gcode_coords_spec m g W) as [(GC & ND & GI) _]. unfold canned_process. rewrite (coords_axes m' m g) by apply F. rewrite (proj1 F).
  assert (FA : forall e, fail m m' (m, Raise e) (m', Raise e)) by (intros e; exists e; auto).
  destruct (gm_get (m_mode m) MG_plane_selection) as [pl|]; [|auto]. destruct (normal_axis (gcls pl)) as [na|]; [|auto].
  assert (K : forall cs, NoDup (map fst cs) -> let r (m : machine) := match gcode_getattr g LL with Raise e => (m, Raise e) | Ok l =>
    repeat_step (Z.to_nat match l with Some (VInt z) => if (z <=? 0)%Z then 1 else z | _ => 1 end) (move_to cs) m end in fail m m' (r m) (r m') \/ exists cs n, both m m' cs n (r m) (r m')).
  { intros cs N. destruct (gcode_getattr g LL) as [l|e]; cbn zeta; [|auto]. set (n := Z.to_nat _). assert (P : (0 < n)%nat).
    { unfold n. destruct l as [[]|]; try lia. match goal with |- context [(?z <=? 0)%Z] => destruct (Z.leb_spec z 0) end; lia. }
    destruct (repeat_twin n cs m m' P S S' F N); eauto. }
  destruct (match gm_get (m_mode m) MG_canned_cycles_return with Some r => subclass (gcls r) GCodeCannedCycleReturnToR | None => false end).
  - destruct (gcode_getattr g LR) as [r|e]; [|auto]. destruct na as [l|].
    + destruct (axis_of_letter l); [|auto]. apply K. apply (dset_nodup _ _ _ axis_eqb_eq). auto.
    + destruct (gcode_getattr g LL); auto.
  - destruct na as [l|]; [destruct (axis_of_letter l)|]; apply K; auto. apply dpop_nodup. auto.
Qed.
Local Transparent set_for.
Lemma set_for_twin g m m' : same_frame m m' -> same_frame (set_for m g) (set_for m' g).
Proof.
  intros (M & S & A & I). unfold set_for. rewrite M. generalize (set_effect (m_mode m) g). intros md. unfold after_mode. destruct (gm_get md MG_coordinate_system) as [x|]; [destruct (coord_system_id (gcls x))|]; unfold same_frame; cbn; rewrite ?S; auto.
Qed.
Local Opaque set_for.
Definition along (g : gcode) (m m' m1 m1' : machine) (cs : list coord) (n : nat) : Prop :=
  same_frame m1 m1' /\ sound m1 /\ sound m1' /\ (inside m -> inside m1) /\ (inside m' -> inside m1') /\
  (forall a, has (m_abs m) a -> pval (m_abs m1) a = iter n (shift (set_for m g) cs a) (pval (m_abs m) a) /\ pval (m_abs m1') a = iter n (shift (set_for m g) cs a) (pval (m_abs m') a)) /\
  (process_kind (gcls g) = PMove -> cs = gcode_coords (set_for m g) g /\ n = 1%nat).
Lemma moved_along g m m' m1 m1' cs n : sound m -> sound m' -> same_frame m m' -> moved_n (set_for m g) m1 cs n -> moved_n (set_for m' g) m1' cs n -> (process_kind (gcls g) = PMove -> cs = gcode_coords (set_for m g) g /\ n = 1%nat) -> along g m m' m1 m1' cs n.
Proof.
  intros S S' F (F1 & S1 & _ & V1 & I1 & _) (F1' & S1' & _ & V1' & I1' & _) K. pose proof (set_for_twin g m m' F) as FS. split; [|split; [auto|split; [auto|split; [|split; [|split; [|exact K]]]]]].
  - eapply same_frame_trans; [apply alike_sym; exact F1|]. eapply same_frame_trans; [exact FS|exact F1'].
  - intros I. apply I1. apply set_for_range. auto.
  - intros I. apply I1'. apply set_for_range. auto.
  - intros a H. destruct (set_for_pos m g) as (A & _). destruct (set_for_pos m' g) as (A' & _). rewrite A in V1. rewrite A' in V1'. split; [apply V1; auto|]. rewrite V1' by (eapply sound_has; [exact S| |exact F|]; auto). apply iter_ext. intros x. apply frame_shift. auto.
Qed.
Lemma process_twin g m m' : sound m -> sound m' -> gcode_wf g -> same_frame m m' ->
  (exists e, gcode_process g m = (set_for m g, Raise e) /\ gcode_process g m' = (set_for m' g, Raise e)) \/
  (exists cs n m1 m1', gcode_process g m = (m1, Ok tt) /\ gcode_process g m' = (m1', Ok tt) /\ along g m m' m1 m1' cs n).
Proof.
  intros S S' W F. pose proof (set_for_sound m g S W) as S1. pose proof (set_for_sound m' g S' W) as S1'. pose proof (set_for_twin g m m' F) as FS. destruct (process_kind (gcls g)) eqn:K.
  - right. exists [], O, (set_for m g), (set_for m' g). rewrite !process_own by (auto; apply W). unfold gcode_process_own. rewrite K. split; auto. split; auto. apply moved_along; auto; [apply goes_nothing; auto|apply goes_nothing; auto|congruence].
  - right. destruct (process_move g m S W K) as (m1 & E & M). destruct (process_move g m' S' W K) as (m1' & E' & M'). rewrite (coords_axes (set_for m' g) (set_for m g)) in M' by apply FS. exists (gcode_coords (set_for m g) g), 1%nat, m1, m1'. split; auto. split; auto. apply moved_along; auto using moved_once.
  - rewrite !process_own by (auto; apply W). unfold gcode_process_own. rewrite K. destruct (canned_twin g (set_for m g) (set_for m' g) S1 S1' W FS) as [(e & E & E')|(cs & n & m1 & m1' & E & E' & M & M')]; [left; eauto|]. right. exists cs, n, m1, m1'. split; auto. split; auto. apply moved_along; auto. congruence.
  - right. rewrite !process_own by (auto; apply W). unfold gcode_process_own. rewrite K. exists [], O. eexists. eexists. split; [reflexivity|]. split; [reflexivity|]. split; [|split; [apply clear_sound; auto|split; [apply clear_sound; auto|split; [exact (set_for_range m g)|split; [exact (set_for_range m' g)|split; [|congruence]]]]]].
    + destruct FS as (A & B & C & D). unfold same_frame. cbn. rewrite A. auto.
    + intros a _. cbn [with_mode m_abs iter]. rewrite (proj1 (set_for_pos m g)), (proj1 (set_for_pos m' g)). auto.
Qed.
(** a relation between the machines that every command keeps is kept by a program; [P]: what is known of its commands *)
Section Keep.
Variable R : machine -> machine -> Prop.
Variable P : gcode -> Prop.
Hypothesis Rgood : forall m m', R m m' -> sound m /\ inside m /\ sound m' /\ inside m' /\ same_frame m m'.
Hypothesis Rmove : forall g m m' m1 m1' cs n, R m m' -> gcode_wf g -> P g -> gcode_process g m = (m1, Ok tt) -> along g m m' m1 m1' cs n -> R m1 m1'.
Hypothesis Rset : forall g m m', R m m' -> gcode_wf g -> P g -> R (set_for m g) (set_for m' g).
Lemma steps_twin gs : Forall gcode_wf gs -> Forall P gs -> forall m m', R m m' -> let r := steps (map gcode_process gs) m in let r' := steps (map gcode_process gs) m' in snd r = snd r' /\ R (fst r) (fst r').
Proof.
  induction 1 as [|g gs W WS IH]; intros FP m m' H; cbn [map steps]; cbv zeta; [auto|]. inversion FP; subst. destruct (Rgood _ _ H) as (S & I & S' & I' & F). unfold then_step.
  destruct (process_twin g m m' S S' W F) as [(e & E & E')|(cs & n & m1 & m1' & E & E' & A)]; rewrite E, E'; cbn [fst snd]; [split; auto|]. apply IH; auto. eapply Rmove; eauto.
Qed.
Lemma modal_twin m m' ps : same_frame m m' -> machine_modal_gcode m' ps = machine_modal_gcode m ps.
Proof. intros (M & _ & _ & I). unfold machine_modal_gcode. rewrite M, I. reflexivity. Qed.
Lemma str_twin s m m' : R m m' -> (forall l gs, mk_line s = Ok l -> block_modal_gcodes m (lblock l) = Ok gs -> Forall P gs) -> let r := process_str s m in let r' := process_str s m' in snd r = snd r' /\ R (fst r) (fst r').
Proof.
  intros H FP. cbv zeta. destruct (Rgood _ _ H) as (S & I & S' & I' & F). unfold process_str. destruct (mk_line s) as [l|e] eqn:L; [|auto]. specialize (FP l). unfold block_modal_gcodes in FP. unfold process_block, process_gcodes. rewrite (modal_twin m m' _ F). destruct (line_bare s l L) as (_ & WG & WW).
  destruct (machine_modal_gcode m (bmodal (lblock l))) as [og|e] eqn:E; [|auto]. cbn [bind] in FP. specialize (FP _ eq_refl eq_refl). apply steps_twin; auto. eapply Permutation_Forall; [symmetry; apply sort_perm|]. apply Forall_app. split; auto. destruct og as [g|]; constructor; auto. exact (modal_gcode_wf m _ g S WW E).
Qed.
Lemma lines_twin ls : (forall s l, In s ls -> mk_line s = Ok l -> forall m m' gs, R m m' -> block_modal_gcodes m (lblock l) = Ok gs -> Forall P gs) ->
  forall m m', R m m' -> let r := steps (map process_str ls) m in let r' := steps (map process_str ls) m' in snd r = snd r' /\ R (fst r) (fst r').
Proof.
  induction ls as [|s ls IH]; intros FP m m' H; cbn [map steps]; cbv zeta; [auto|]. unfold then_step. destruct (str_twin s m m' H ltac:(intros l gs L; apply (FP s l (or_introl eq_refl) L m m' gs H))) as [E F]. cbv zeta in *. destruct (process_str s m) as [m1 r1], (process_str s m') as [m1' r1']. cbn [fst snd] in E, F. subst r1'.
  destruct r1 as [[]|e]; [|auto]. apply IH; auto. intros s0 l0 I0. apply FP. cbn. auto.
Qed.
End Keep.
End WithArith.
