From Coq Require Import List Bool Arith ZArith QArith Qcanon Lia Permutation Sorted.
From Verif Require Import Base Num Regex Words GTable GCode Line Position Machine BaseFacts WordOrder WordsSpec GCodeSpec GCodeProofs GCodeProofs2 PropsGCode ArithSpec PosSpec PosProofs ModeSpec ModeProofs MachSpec MachProofs MachProofs2.
Import ListNotations.
Open Scope Z_scope.

(** ** Facts about the class table *)
Lemma kind_spec c : match process_kind c with
  | PMove => subclass c GCodeMotion = true /\ subclass c GCodeCancelCannedCycle = false /\ subclass c GCodeDwell = false /\ modal_group c = Some MG_motion /\ exec_order c = 242
  | PCanned => subclass c GCodeCannedCycle = true /\ modal_group c = Some MG_motion /\ exec_order c = 242
  | PCancelMotion => c = GCodeCancelCannedCycle
  | PNothing => (subclass c GCodeMotion = true -> subclass c GCodeDwell = true) /\ subclass c GCodeCannedCycle = false
  end.
Proof. destruct c; vm_compute; repeat split; try discriminate; auto. Qed.
Lemma canned_not_motion c : subclass c GCodeCannedCycle = true -> subclass c GCodeMotion = false.
Proof. destruct c; vm_compute; auto. Qed.
Lemma not_derives c b : subclass c b = false -> ~ derives c b. Proof. intros H D. apply subclass_derives in D. congruence. Qed.
Lemma kind_move g : process_kind (gcls g) = PMove <-> is_move g.
Proof.
  pose proof (kind_spec (gcls g)) as K. unfold is_move, is_g80. rewrite <- !subclass_derives. split.
  - intros E. rewrite E in K. destruct K as (A & B & C & _). rewrite A, B, C. repeat split; discriminate.
  - intros (A & B & C). destruct (process_kind (gcls g)) eqn:E; auto.
    + destruct K as [K _]. destruct (C (K A)).
    + destruct K as (K & _). apply canned_not_motion in K. congruence.
    + exfalso. apply B. rewrite K. reflexivity.
Qed.
Lemma kind_canned g : process_kind (gcls g) = PCanned <-> is_canned g.
Proof.
  pose proof (kind_spec (gcls g)) as K. unfold is_canned. rewrite <- subclass_derives. split.
  - intros E. rewrite E in K. apply K.
  - intros A. destruct (process_kind (gcls g)) eqn:E; auto.
    + destruct K. congruence.
    + apply canned_not_motion in A. destruct K as [K _]. congruence.
    + rewrite K in A. vm_compute in A. discriminate.
Qed.
Lemma move_group g : is_move g -> in_group MG_motion g.
Proof. intros M. apply kind_move in M. pose proof (kind_spec (gcls g)) as K. rewrite M in K. apply K. Qed.
Lemma canned_group g : is_canned g -> in_group MG_motion g.
Proof. intros M. apply kind_canned in M. pose proof (kind_spec (gcls g)) as K. rewrite M in K. apply K. Qed.
Lemma systems_spec c i : In (c, i) systems -> coord_system_id c = Some (Some i) /\ modal_group c = Some MG_coordinate_system /\ process_kind c = PNothing /\ 1 <= i <= 9.
Proof. intros I. repeat (destruct I as [I|I]; [injection I as <- <-; vm_compute; repeat split; discriminate|]). destruct I. Qed.
Lemma group_not g mg mg' : in_group mg g -> mg <> mg' -> ~ in_group mg' g. Proof. unfold in_group. congruence. Qed.

Section WithArith.
Context {ar : Arith}.
Lemma names_unique g a x y : legal g -> names g a x -> names g a y -> x = y.
Proof.
  intros [_ ND] (w & I & X) (v & J & Y). assert (w = v); [|congruence]. apply (in_dget _ _ _ letter_eqb_eq) in I; auto. apply (in_dget _ _ _ letter_eqb_eq) in J; auto. congruence.
Qed.
Lemma is_incremental_iff m : is_incremental m = true <-> incremental m.
Proof.
  unfold is_incremental, incremental. destruct (gm_get (m_mode m) MG_distance) as [g|].
  - rewrite subclass_derives. split; [eauto|]. intros (x & X & D). congruence.
  - split; [discriminate|]. intros (x & X & _). discriminate.
Qed.
Lemma absolute_iff m : is_incremental m = false <-> absolute m.
Proof.
  split.
  - intros E g G D. assert (is_incremental m = true) by (apply is_incremental_iff; exists g; auto). congruence.
  - intros A. destruct (is_incremental m) eqn:E; auto. apply is_incremental_iff in E as (g & G & D). destruct (A g G D).
Qed.
Lemma set_for_incremental m g : ~ in_group MG_distance g -> is_incremental (set_for m g) = is_incremental m.
Proof. intros N. unfold is_incremental. rewrite set_for_get by auto. auto. Qed.
(** reading back a coordinate that was just set *)
Definition back (m : machine) (a : axis) (x : Qc) : Qc := wpos_of m a (apos_of m a x).
Lemma frame_back m m' a x : same_frame m m' -> back m' a x = back m a x.
Proof. intros F. destruct (frame_offsets m m' a F) as [O1 O2]. unfold back, wpos_of, apos_of. rewrite O1, O2. auto. Qed.
Lemma coord_at_named m g a x : gcode_wf g -> vget (m_axes m) a = true -> names g a x -> coord_at (gcode_coords m g) a = Some x.
Proof. intros W H N. apply gcode_coords_spec; auto. Qed.
Lemma coord_at_other m g a : gcode_wf g -> (forall x, ~ names g a x) -> coord_at (gcode_coords m g) a = None.
Proof. intros W N. destruct (coord_at (gcode_coords m g) a) as [x|] eqn:E; auto. apply gcode_coords_spec in E as [_ E]; auto. destruct (N x E). Qed.
Lemma sound_axes m a : sound m -> has (m_abs m) a <-> vget (m_axes m) a = true.
Proof. intros ((_ & A & _) & _). unfold has. rewrite A. tauto. Qed.
Lemma move_pos g m : sound m -> gcode_wf g -> is_move g -> exists m', gcode_process g m = (m', Ok tt) /\ same_frame (set_for m g) m' /\ sound m' /\
  forall a, has (m_abs m) a -> pos_at m' a (back (set_for m g) a (target (set_for m g) (gcode_coords (set_for m g) g) a (pval (m_abs m) a))).
Proof.
  intros S W M. apply kind_move in M. destruct (process_move g m S W M) as (m' & E & F & S' & U & V & I & R). exists m'. split; auto. split; auto. split; auto.
  intros a Ha. pose proof (set_for_sound m g S W) as S1. destruct (set_for_pos m g) as (A1 & _ & _ & X1 & _).
  assert (H1 : has (m_abs (set_for m g)) a) by (rewrite A1; auto). apply pos_at_iff; auto. split; [apply (sound_has (set_for m g) m'); auto|]. rewrite V by auto. unfold shift. rewrite A1. destruct (frame_offsets (set_for m g) m' a F) as [O1 O2]. generalize (target (set_for m g) (gcode_coords (set_for m g) g) a (pval (m_abs m) a)). intros x. unfold back, wpos_of. rewrite O1, O2. reflexivity.
Qed.
(** when reading back is exact, so are moves *)
Lemma move_pos_exact g m : sound m -> gcode_wf g -> is_move g -> in_sync m ->
  (forall a x, has (m_abs m) a -> names g a x -> absolute m -> back m a x = x) ->
  (forall a x, has (m_abs m) a -> names g a x -> incremental m -> forall y, pos_at m a y -> back m a (fadd y x) = fadd y x) ->
  (forall a y, pos_at m a y -> back m a y = y) -> (incremental m -> forall a y, pos_at m a y -> fadd y (Q2Qc 0) = y) ->
  exists m', gcode_process g m = (m', Ok tt) /\ m_state m' = m_state m /\
    (forall a x, has (m_abs m) a -> names g a x -> absolute m -> pos_at m' a x) /\
    (forall a x y, names g a x -> incremental m -> pos_at m a y -> pos_at m' a (fadd y x)) /\
    (forall a y, (forall x, ~ names g a x) -> pos_at m a y -> pos_at m' a y).
Proof.
  intros S W M Y B1 B2 B3 B4. destruct (move_pos g m S W M) as (m' & E & F & S' & P). pose proof (move_group g M) as G. assert (N1 : ~ in_group MG_coordinate_system g) by (eapply group_not; [exact G|discriminate]). assert (N2 : ~ in_group MG_distance g) by (eapply group_not; [exact G|discriminate]).
  assert (ST : m_state (set_for m g) = m_state m) by (apply set_for_sync; auto). exists m'. split; auto. split; [destruct F as (_ & FS & _); congruence|].
  assert (BK : forall a x, back (set_for m g) a x = back m a x) by (intros a x; unfold back, wpos_of, apos_of, system_offset, temp_offset; rewrite ST; auto).
  assert (WP : forall a x, wpos_of (set_for m g) a x = wpos_of m a x) by (intros a x; unfold wpos_of, system_offset, temp_offset; rewrite ST; auto).
  destruct (set_for_pos m g) as (_ & _ & _ & X1 & _).
  assert (T : forall a x, has (m_abs m) a -> target (set_for m g) (gcode_coords (set_for m g) g) a x = if is_incremental m then fadd (wpos_of m a x) (oval (coord_at (gcode_coords (set_for m g) g) a)) else match coord_at (gcode_coords (set_for m g) g) a with Some y => y | None => wpos_of m a x end).
  { intros a x Ha. unfold target. rewrite set_for_incremental by auto. rewrite WP. auto. }
  assert (V : forall a, has (m_abs m) a -> vget (m_axes (set_for m g)) a = true) by (intros a Ha; rewrite X1; apply sound_axes; auto).
  split; [|split].
  - intros a x Ha N A. specialize (P a Ha). rewrite BK, T in P by auto. rewrite (coord_at_named _ _ _ _ W (V a Ha) N) in P. rewrite (proj2 (absolute_iff m) A) in P. rewrite B1 in P; auto.
  - intros a x y N I PA. pose proof PA as PA'. apply pos_at_iff in PA' as [Ha ->]; auto. specialize (P a Ha). rewrite BK, T in P by auto. rewrite (coord_at_named _ _ _ _ W (V a Ha) N) in P. rewrite (proj2 (is_incremental_iff m) I) in P. cbn [oval] in P. rewrite B2 in P; auto.
  - intros a y N PA. pose proof PA as PA'. apply pos_at_iff in PA' as [Ha ->]; auto. specialize (P a Ha). rewrite BK, T in P by auto. rewrite (coord_at_other _ _ _ W N) in P. cbn [oval] in P. destruct (is_incremental m) eqn:INC; [|rewrite B3 in P; auto].
    rewrite (B4 (proj1 (is_incremental_iff m) INC) a _ PA) in P. rewrite B3 in P; auto.
Qed.
(** no offsets: reading back a float is exact *)
Lemma back_float m a x : idempotent ar -> no_offsets m -> float x -> back m a x = x.
Proof.
  intros ID O F. destruct (O a) as [O1 O2]. unfold back, wpos_of, apos_of, fadd, fsub. rewrite O1, O2. unfold float in F.
  assert (K1 : forall y, (y + Q2Qc 0)%Qc = y) by (intros; ring). assert (K2 : forall y, (y - Q2Qc 0)%Qc = y) by (intros; ring). rewrite !K1, !K2, !F. auto.
Qed.
Lemma fadd_float x y : idempotent ar -> float (fadd x y). Proof. intros ID. apply ID. Qed.
Lemma pos_at_float m a x : idempotent ar -> sound m -> pos_at m a x -> float x.
Proof. intros ID S P. apply pos_at_iff in P as [_ ->]; auto. apply ID. Qed.

(** ** Ranges *)
Lemma ranged_trans m m1 m' : (forall a, has (m_abs m) a -> has (m_abs m1) a) -> ranged m m1 -> ranged m1 m' -> forall a, has (m_abs m) a ->
  pval (m_min m') a = qmin (pval (m_abs m') a) (qmin (pval (m_abs m1) a) (pval (m_min m) a)) /\ pval (m_max m') a = qmax (pval (m_abs m') a) (qmax (pval (m_abs m1) a) (pval (m_max m) a)).
Proof. intros H R1 R2 a Ha. destruct (R1 a Ha) as [<- <-]. apply R2. auto. Qed.
Lemma process_ranged g m m1 : monotone ar -> sound m -> inside m -> gcode_wf g -> gcode_process g m = (m1, Ok tt) ->
  ranged m m1 /\ sound m1 /\ inside m1 /\ m_axes m1 = m_axes m /\ punit (m_abs m1) = punit (m_abs m).
Proof.
  intros M S I W E. destruct (process_keeps g m S I W) as [(S1 & I1 & _) (A1 & _ & _ & _ & U1)]. rewrite E in *. cbn [fst] in *. split; [|auto].
  pose proof (set_for_range m g I) as I0. pose proof (set_for_sound m g S W) as S0. destruct (set_for_pos m g) as (P1 & P2 & P3 & _).
  assert (N : ranged m m).
  { intros a Ha. destruct (inside_val m a S I Ha). rewrite qmin_r, qmax_r; auto. }
  destruct (process_cases g m S W) as [(e & E')|(cs & n & m' & E' & _ & [(_ & X)|(_ & X)])]; rewrite E in E'.
  - discriminate.
  - injection E' as <-. destruct X as (_ & _ & _ & _ & _ & R). specialize (R M I0). unfold ranged in *. rewrite P1, P2, P3 in R. auto.
  - injection E' as ->. subst m'. unfold ranged. cbn [with_mode m_abs m_min m_max]. rewrite P1, P2, P3. apply N.
Qed.
Lemma path_box m gs ps m' : monotone ar -> path m gs ps m' -> sound m -> inside m -> Forall gcode_wf gs -> forall a, has (m_abs m) a ->
  has (m_min m') a /\ has (m_max m') a /\
  (forall p, In p ps -> has p a /\ punit p = punit (m_abs m) /\ (pval (m_min m') a <= pval p a)%Qc /\ (pval p a <= pval (m_max m') a)%Qc) /\
  (pval (m_min m') a <= pval (m_min m) a)%Qc /\ (pval (m_max m) a <= pval (m_max m') a)%Qc /\
  (pval (m_min m') a = pval (m_min m) a \/ exists p, In p ps /\ pval p a = pval (m_min m') a) /\
  (pval (m_max m') a = pval (m_max m) a \/ exists p, In p ps /\ pval p a = pval (m_max m') a).
Proof.
  intros M P. induction P as [m|m g gs m1 ps m2 E P IH]; intros S I F a Ha.
  - pose proof S as (_ & (_ & Hm & _) & (_ & Hx & _) & _). split; auto. split; auto. split; [intros p []|]. split; [apply Qcle_refl|]. split; [apply Qcle_refl|]. auto.
  - inversion F; subst. destruct (process_ranged g m m1 M S I H1 E) as (R & S1 & I1 & A1 & U1). assert (H1' : has (m_abs m1) a) by (apply sound_axes; auto; rewrite A1; apply sound_axes; auto).
    destruct (IH S1 I1 H2 a H1') as (B1 & B2 & B3 & B4 & B5 & B6 & B7). destruct (R a Ha) as [R1 R2]. destruct (inside_val m1 a S1 I1 H1') as [L1 L2].
    split; auto. split; auto. split.
    { intros p [<-|Ip].
      - split; auto. split; auto. split; eapply Qcle_trans; eauto.
      - destruct (B3 p Ip) as (C1 & C2 & C3). split; auto. split; [congruence|auto]. }
    destruct (qmin_spec (pval (m_abs m1) a) (pval (m_min m) a)) as (Q1 & Q2 & Q3). destruct (qmax_spec (pval (m_abs m1) a) (pval (m_max m) a)) as (T1 & T2 & T3). rewrite <- R1 in *. rewrite <- R2 in *.
    split; [eapply Qcle_trans; eauto|]. split; [eapply Qcle_trans; eauto|]. split.
    + destruct B6 as [B6|(p & Ip & B6)]; [|right; exists p; split; auto; right; auto]. rewrite B6. destruct Q3 as [Q3|Q3]; [right; exists (m_abs m1); split; [left; auto|auto]|left; auto].
    + destruct B7 as [B7|(p & Ip & B7)]; [|right; exists p; split; auto; right; auto]. rewrite B7. destruct T3 as [T3|T3]; [right; exists (m_abs m1); split; [left; auto|auto]|left; auto].
Qed.

(** ** Canned cycles *)
Lemma canned_letters c : process_kind c = PCanned -> c <> GCodeCannedCycle -> accepts c LL = true /\ accepts c LR = true.
Proof. destruct c; vm_compute; intros; try discriminate; auto; congruence. Qed.
Lemma iter_id {A} n (f : A -> A) x : f x = x -> iter n f x = x. Proof. intros H. induction n; cbn [iter]; auto. rewrite H. auto. Qed.
Lemma iter_const {A} n (f : A -> A) x y : (0 < n)%nat -> (forall z, f z = y) -> iter n f x = y.
Proof. intros P H. destruct n; [lia|]. rewrite iter_end. auto. Qed.
End WithArith.
