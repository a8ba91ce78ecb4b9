From Coq Require Import List Bool Arith ZArith QArith Qcanon Lia Lqa Permutation.
From Verif Require Import Base Num Words GTable GCode Line Position Machine BaseFacts WordOrder WordsSpec GCodeSpec GCodeProofs GCodeProofs2 ArithSpec PosSpec PosProofs ModeSpec ModeProofs MachSpec.
Import ListNotations.
Open Scope Z_scope.

Section WithArith.
Context {ar : Arith}.

(** ** The frame of reference *)
Definition wpos_of (m : machine) (a : axis) (x : Qc) : Qc := fsub (fsub x (system_offset m a)) (temp_offset m a).
Definition apos_of (m : machine) (a : axis) (x : Qc) : Qc := fadd (fadd x (temp_offset m a)) (system_offset m a).

Lemma zero_pos_good axes : good (zero_pos axes). Proof. apply mk_position_good. intros a x []. Qed.
Lemma zero_pos_val axes a : pval (zero_pos axes) a = Q2Qc 0.
Proof. unfold pval, zero_pos, mk_position. cbn [pvals fold_left]. rewrite vget_vfun. destruct (vget axes a); reflexivity. Qed.
Lemma offset_ok m : sound m -> exists o, coord_sys_offset m = Ok o /\ good o /\ paxes o = m_axes m /\ forall a, pval o a = system_offset m a.
Proof.
  intros (_ & _ & _ & _ & (d & D & _ & H) & _). unfold coord_sys_offset, system_offset. rewrite D.
  destruct (cur_coord_sys (m_state m)) as [i|].
  - destruct (dget Z.eqb d i) as [p|] eqn:E.
    + exists p. destruct (H i p E). auto.
    + exists (zero_pos (m_axes m)). split; auto. split; [apply zero_pos_good|]. split; auto. apply zero_pos_val.
  - exists (zero_pos (m_axes m)). split; auto. split; [apply zero_pos_good|]. split; auto. apply zero_pos_val.
Qed.
Lemma has_axes p q a : paxes p = paxes q -> has p a -> has q a. Proof. unfold has. intros ->. auto. Qed.
Lemma abs2work_spec m p : sound m -> good p -> paxes p = m_axes m ->
  exists q, abs2work m p = Ok q /\ good q /\ paxes q = m_axes m /\ punit q = punit p /\ forall a, has p a -> pval q a = wpos_of m a (pval p a).
Proof.
  intros S G A. destruct (offset_ok m S) as (o & E & Go & Ao & Vo). pose proof S as (_ & _ & _ & (Gt & At) & _). unfold abs2work. rewrite E. cbn [bind].
  destruct (pos_sub p o) as [q|e] eqn:E1; cbn [bind].
  2: { exfalso. apply sub_error in E1 as [_ (a & H & N)]. apply N. unfold has in *. rewrite A, <- Ao. auto. }
  apply sub_spec in E1 as (_ & Gq & Aq & Uq & Vq); auto. destruct (pos_sub q (st_offset (m_state m))) as [r|e] eqn:E2.
  2: { exfalso. apply sub_error in E2 as [_ (a & H & N)]. apply N. unfold has in *. rewrite Aq, A, <- At. auto. }
  apply sub_spec in E2 as (_ & Gr & Ar & Ur & Vr); auto. exists r. split; auto. split; auto. split; [congruence|]. split; [congruence|].
  intros a Ha. assert (Hq : has q a) by (eapply has_axes; [|exact Ha]; congruence). destruct (Vr a Hq) as [Vr1 _]. rewrite Vr1 by (eapply has_axes; [|exact Ha]; congruence).
  destruct (Vq a Ha) as [Vq1 _]. rewrite Vq1 by (eapply has_axes; [|exact Ha]; congruence). rewrite Vo. reflexivity.
Qed.
Lemma work2abs_spec m p : sound m -> good p -> paxes p = m_axes m ->
  exists q, work2abs m p = Ok q /\ good q /\ paxes q = m_axes m /\ punit q = punit p /\ forall a, has p a -> pval q a = apos_of m a (pval p a).
Proof.
  intros S G A. destruct (offset_ok m S) as (o & E & Go & Ao & Vo). pose proof S as (_ & _ & _ & (Gt & At) & _). unfold work2abs. rewrite E. cbn [bind].
  destruct (pos_add p (st_offset (m_state m))) as [q|e] eqn:E1; cbn [bind].
  2: { exfalso. apply add_error in E1 as [_ N]. congruence. }
  apply add_spec in E1 as (_ & Gq & Aq & Uq & Vq); auto. destruct (pos_add q o) as [r|e] eqn:E2.
  2: { exfalso. apply add_error in E2 as [_ N]. congruence. }
  apply add_spec in E2 as (_ & Gr & Ar & Ur & Vr); auto. exists r. split; auto. split; auto. split; [congruence|]. split; [congruence|].
  intros a Ha. rewrite Vr, Vq by (eapply has_axes; [|exact Ha]; congruence). rewrite Vo. reflexivity.
Qed.
Lemma machine_pos_spec m : sound m -> exists q, machine_pos m = Ok q /\ good q /\ paxes q = m_axes m /\ punit q = punit (m_abs m) /\ forall a, has (m_abs m) a -> pval q a = wpos_of m a (pval (m_abs m) a).
Proof. intros S. pose proof S as ((G & A & U) & _). apply abs2work_spec; auto. Qed.
Lemma pos_at_iff m a x : sound m -> pos_at m a x <-> has (m_abs m) a /\ x = wpos_of m a (pval (m_abs m) a).
Proof.
  intros S. destruct (machine_pos_spec m S) as (q & E & Gq & Aq & _ & V). pose proof S as ((G & A & U) & _). split.
  - intros (p & E' & X). assert (p = q) by congruence. subst. apply getattr_ok in X as [H ->]. assert (Ha : has (m_abs m) a) by (eapply has_axes; [|exact H]; congruence). auto.
  - intros [H ->]. exists q. split; auto. apply getattr_ok. split; [eapply has_axes; [|exact H]; congruence|]. symmetry. auto.
Qed.

(** ** Setting the position *)
Definition ranged (m m' : machine) : Prop :=
  forall a, has (m_abs m) a -> pval (m_min m') a = qmin (pval (m_abs m') a) (pval (m_min m) a) /\ pval (m_max m') a = qmax (pval (m_abs m') a) (pval (m_max m) a).
Lemma set_pos_spec p m : sound m -> good p -> paxes p = m_axes m -> known_unit (punit p) ->
  exists m', set_pos p m = (m', Ok tt) /\ same_frame m m' /\ sound m' /\ punit (m_abs m') = punit p /\
    (forall a, has p a -> pval (m_abs m') a = apos_of m a (pval p a)) /\ inside m' /\ (punit p = punit (m_abs m) -> ranged m m').
Proof.
  intros S G A U. destruct (work2abs_spec m p S G A) as (q & E & Gq & Aq & Uq & Vq).
  pose proof S as ((Ga & Aa & Ua) & (Gm & Am & Um) & (Gx & Ax & Ux) & (Gt & At) & (d & D & Kd & Hd) & W).
  assert (CMP : forall key r, good r -> (forall a, has (m_abs m) a -> has r a) -> punit r = punit (m_abs m) ->
    exists z, pos_cmp key q r = Ok z /\ good z /\ paxes z = full_axes /\ punit z = punit p /\ (punit p = punit (m_abs m) -> forall a, has p a -> pval z a = key (pval q a) (pval r a)) /\ forall a, has p a -> exists y, pval z a = key (pval q a) y).
  { intros key r Gr Hr Ur. destruct (cmp_spec key q r Gq Gr) as (z & Z & Gz & Az & Uz & V).
    { intros a Ha. apply Hr. eapply has_axes; [|exact Ha]. congruence. }
    assert (K : forall a, has p a -> pval z a = key (pval q a) (pval r a)).
    { intros a Ha. rewrite V. assert (Hq : has q a) by (eapply has_axes; [|exact Ha]; congruence). unfold has in Hq. rewrite Hq. auto. }
    exists z. split; auto. split; auto. split; auto. split; [congruence|]. split; eauto. }
  destruct (CMP qmin (m_min m) Gm Am Um) as (lo & El & Gl & Al & Ul & Vl & Yl). destruct (CMP qmax (m_max m) Gx Ax Ux) as (hi & Eh & Gh & Ah & Uh & Vh & Yh).
  unfold set_pos, then_step, atomic_step. rewrite E. cbn [bind]. unfold pos_min, pos_max. cbn [with_abs m_abs m_min m_max with_min]. rewrite El. cbn [bind with_abs m_abs m_min m_max with_min]. rewrite Eh. cbn [bind].
  eexists. split; [reflexivity|]. cbn [with_abs with_min with_max m_abs m_min m_max m_mode m_state m_axes m_ignore].
  split; [repeat split|]. assert (F : forall r a, paxes r = full_axes -> has r a) by (intros r a F; unfold has; rewrite F; unfold full_axes; apply vget_vfun).
  split.
  { unfold sound. cbn [with_abs with_min with_max m_abs m_min m_max m_axes m_state m_mode]. split; [split; [auto|split; [auto|rewrite Uq; auto]]|]. split; [split; [auto|split; [intros; apply F; auto|congruence]]|]. split; [split; [auto|split; [intros; apply F; auto|congruence]]|].
    split; [auto|]. split; [exists d; auto|auto]. }
  split; auto. split; [intros a Ha; apply Vq; auto|]. split.
  { intros a x l h X L H. cbn [with_abs with_min with_max m_abs m_min m_max] in *. apply getattr_ok in X as [Hx ->], L as [_ ->], H as [_ ->]. assert (Hp : has p a) by (eapply has_axes; [|exact Hx]; congruence).
    destruct (Yl a Hp) as [y ->]. destruct (Yh a Hp) as [y' ->]. split; [apply qmin_spec|apply qmax_spec]. }
  intros UU a Ha. cbn [m_abs m_min m_max]. assert (Hp : has p a) by (eapply has_axes; [|exact Ha]; congruence). split; [apply Vl|apply Vh]; auto.
Qed.

(** ** Moving *)
Definition coord_at (cs : list coord) (a : axis) : option Qc := dget axis_eqb (some_coords cs) a.
Definition target (m : machine) (cs : list coord) (a : axis) (x : Qc) : Qc :=
  if is_incremental m then fadd (wpos_of m a x) (oval (coord_at cs a)) else match coord_at cs a with Some y => y | None => wpos_of m a x end.
(** the absolute coordinate after a move *)
Definition shift (m : machine) (cs : list coord) (a : axis) (x : Qc) : Qc := apos_of m a (target m cs a x).
Definition good_coords (m : machine) (cs : list coord) : Prop :=
  (forall c, In c cs -> vget (m_axes m) (fst c) = true -> exists x, snd c = Some x) /\ (is_incremental m = false -> forall c, In c cs -> vget (m_axes m) (fst c) = true).
Definition moved (m m' : machine) (cs : list coord) : Prop :=
  same_frame m m' /\ sound m' /\ punit (m_abs m') = punit (m_abs m) /\
  (forall a, has (m_abs m) a -> pval (m_abs m') a = shift m cs a (pval (m_abs m) a)) /\ inside m' /\ ranged m m'.
Lemma some_coords_keys cs : (forall c, In c cs -> exists x, snd c = Some x) -> map fst (some_coords cs) = map fst cs.
Proof.
  induction cs as [|[a o] cs IH]; intros H; cbn [some_coords flat_map map]; auto. destruct (H (a, o) (or_introl eq_refl)) as [x E]. cbn [snd] in E. subst. cbn. f_equal. apply IH. intros; apply H; right; auto.
Qed.
Lemma some_coords_in cs a x : In (a, x) (some_coords cs) <-> In (a, Some x) cs.
Proof.
  unfold some_coords. rewrite in_flat_map. split.
  - intros (c & I & J). destruct c as [b [y|]]; cbn [fst snd] in J; [|contradiction]. destruct J as [J|[]]. injection J as -> ->. auto.
  - intros I. exists (a, Some x). split; auto. left. auto.
Qed.
Lemma some_coords_nodup cs : NoDup (map fst cs) -> NoDup (map fst (some_coords cs)).
Proof.
  induction cs as [|[a [x|]] cs IH]; cbn [map fst some_coords flat_map snd app]; intros N; inversion N; subst; [constructor|constructor|]; auto.
  intros I. apply H1. apply in_map_iff in I as ([b y] & <- & I). apply some_coords_in in I. apply (in_map fst) in I. auto.
Qed.
Lemma mk_position_val axes u cs : NoDup (map fst cs) -> forall a, pval (mk_position axes u cs) a = oval (dget axis_eqb cs a).
Proof.
  intros ND a. unfold pval, mk_position. cbn [pvals].
  assert (K : forall cs v, NoDup (map fst cs) -> vget (fold_left (fun (v : v9 (option Qc)) (kx : axis * Qc) => vset v (fst kx) (Some (snd kx))) cs v) a = match dget axis_eqb cs a with Some x => Some x | None => vget v a end).
  { clear. induction cs as [|[b x] cs IH]; intros v ND; cbn [fold_left dget]; auto. inversion ND as [|? ? N1 N2]; subst. cbn [fst snd] in *. rewrite IH by auto. rewrite vget_vset.
    destruct (axis_eqb a b) eqn:E.
    - apply axis_eqb_eq in E. subst. rewrite axis_eqb_refl. destruct (dget axis_eqb cs b) eqn:D; auto. exfalso. apply N1. apply (dget_in _ _ _ axis_eqb_eq) in D. apply (in_map fst) in D. auto.
    - destruct (dget axis_eqb cs a); auto. rewrite axis_eqb_neq; auto. intros ->. rewrite axis_eqb_refl in E. discriminate. }
  rewrite K by auto. destruct (dget axis_eqb cs a); auto. rewrite vget_vfun. destruct (vget axes a); reflexivity.
Qed.
Lemma add_ok p q r : good p -> pos_add p q = Ok r -> good r /\ paxes r = paxes p /\ punit r = punit p /\ forall a, has p a -> pval r a = fadd (pval p a) (pval q a).
Proof.
  intros Gp. unfold pos_add. destruct (axset_eqb (paxes p) (paxes q)) eqn:E; cbn [negb]; [|discriminate].
  intros H. injection H as <-. split; [apply good_map; auto|]. split; auto. split; auto. intros a Ha. unfold pval at 1. cbn [pvals]. rewrite vget_vfun, (good_some p a) by auto. reflexivity.
Qed.
Lemma move_to_cases cs m : sound m -> NoDup (map fst cs) ->
  (good_coords m cs /\ exists m', move_to cs m = (m', Ok tt) /\ moved m m' cs) \/ (~ good_coords m cs /\ exists e, move_to cs m = (m, Raise e)).
Proof.
  intros S ND. destruct (machine_pos_spec m S) as (p & E & Gp & Ap & Up & Vp). pose proof S as ((Ga & Aa & Ua) & _).
  pose proof (some_coords_nodup cs ND) as ND'. unfold moved, good_coords.
  unfold move_to. rewrite E. unfold shift, target. destruct (is_incremental m) eqn:INC.
  - match goal with |- context [if ?b then _ else _] => destruct b eqn:B end.
    { right. split; [|eauto]. intros [H _]. apply existsb_exists in B as (c & I & B). destruct (snd c) eqn:C; [discriminate|]. destruct (vget (pvals p) (fst c)) eqn:V; [|discriminate].
      destruct (H c I) as [x X]; [|congruence]. destruct (vget (m_axes m) (fst c)) eqn:Q; auto. exfalso. assert (N : vget (pvals p) (fst c) = None) by (apply Gp; unfold has; rewrite Ap; congruence). congruence. }
    left. split.
    { split; [|discriminate]. intros c I H. destruct (snd c) as [x|] eqn:C; [eauto|]. exfalso. assert (K : existsb (fun c : axis * option Qc => match snd c with Some _ => false | None => match vget (pvals p) (fst c) with Some _ => true | None => false end end) cs = true); [|congruence].
      apply existsb_exists. exists c. split; auto. rewrite C. rewrite (good_some p (fst c)); auto. unfold has. rewrite Ap. auto. }
    set (q := mk_position (m_axes m) default_unit (some_coords cs)).
    destruct (pos_add p q) as [r|e] eqn:R; [|exfalso; apply add_error in R as [_ N]; apply N; rewrite Ap; reflexivity].
    apply add_ok in R as (Gr & Ar & Ur & Vr); auto. destruct (set_pos_spec r m S Gr) as (m' & E' & SF & S' & U' & V' & IR & R'); [congruence|rewrite Ur, Up; auto|].
    exists m'. split; auto. split; auto. split; auto. split; [congruence|]. split; [|split; [auto|apply R'; congruence]]. intros a Ha. assert (Hp : has p a) by (eapply has_axes; [|exact Ha]; congruence).
    rewrite V' by (eapply has_axes; [|exact Ha]; congruence). f_equal. rewrite Vr by auto. rewrite Vp by auto. f_equal. unfold q. apply mk_position_val; auto.
  - match goal with |- context [if ?b then _ else _] => destruct b eqn:B end.
    { right. split; [|eauto]. intros [_ H]. apply existsb_exists in B as (c & I & B). rewrite Ap, (H eq_refl c I) in B. discriminate. }
    assert (F : forall c, In c cs -> vget (m_axes m) (fst c) = true).
    { intros c I. destruct (vget (m_axes m) (fst c)) eqn:Q; auto. exfalso. assert (K : existsb (fun c : axis * option Qc => negb (vget (paxes p) (fst c))) cs = true); [|congruence]. apply existsb_exists. exists c. split; auto. rewrite Ap, Q. auto. }
    match goal with |- context [if ?b then _ else _] => destruct b eqn:B' end.
    { right. split; [|eauto]. intros [H _]. apply existsb_exists in B' as (c & I & B'). destruct (H c I (F c I)) as [x X]. rewrite X in B'. discriminate. }
    left. split.
    { split; [|auto]. intros c I _. destruct (snd c) as [x|] eqn:C; [eauto|]. exfalso. assert (K : existsb (fun c : axis * option Qc => match snd c with Some _ => false | None => true end) cs = true); [|congruence]. apply existsb_exists. exists c. split; auto. rewrite C. auto. }
    destruct (update_spec (some_coords cs) p Gp) as (r & R & Gr & Ar & Ur & Vr).
    { apply Forall_forall. intros [a x] I. unfold has. rewrite Ap. apply some_coords_in in I. apply (F _ I). }
    rewrite R. destruct (set_pos_spec r m S Gr) as (m' & E' & SF & S' & U' & V' & IR & R'); [congruence|rewrite Ur, Up; auto|].
    exists m'. split; auto. split; auto. split; auto. split; [congruence|]. split; [|split; [auto|apply R'; congruence]]. intros a Ha. assert (Hp : has p a) by (eapply has_axes; [|exact Ha]; congruence).
    rewrite V' by (eapply has_axes; [|exact Ha]; congruence). f_equal. destruct (Vr a Hp) as [V1 V2]. unfold coord_at. destruct (dget axis_eqb (some_coords cs) a) as [x|] eqn:D.
    + apply V1. apply (dget_in _ _ _ axis_eqb_eq) in D. apply in_split in D as (l & r' & D). exists l, r'. split; auto. intros y I. rewrite D, map_app in ND'. cbn [map] in ND'.
      apply NoDup_remove_2 in ND'. apply ND'. apply in_app_iff. right. apply (in_map fst) in I. auto.
    + rewrite V2; [auto|]. intros x I. apply (dget_none _ _ _ axis_eqb_eq) in D. apply D. apply (in_map fst) in I. auto.
Qed.
Lemma frame_offsets m m' a : same_frame m m' -> system_offset m' a = system_offset m a /\ temp_offset m' a = temp_offset m a.
Proof. intros (_ & S & _). unfold system_offset, temp_offset. rewrite S. auto. Qed.
Lemma frame_shift m m' cs a x : same_frame m m' -> shift m' cs a x = shift m cs a x.
Proof.
  intros F. destruct (frame_offsets m m' a F) as [O1 O2]. destruct F as (M & _ & _ & _). unfold shift, apos_of, target, wpos_of. rewrite O1, O2. unfold is_incremental. rewrite M. auto.
Qed.
Lemma frame_coords m m' cs : same_frame m m' -> good_coords m cs -> good_coords m' cs.
Proof. intros (M & _ & A & _). unfold good_coords, is_incremental. rewrite A, M. auto. Qed.

(** ** Repeated moves *)
Fixpoint iter {A} (n : nat) (f : A -> A) (x : A) : A := match n with O => x | S k => iter k f (f x) end.
Lemma iter_ext {A} n (f g : A -> A) x : (forall x, f x = g x) -> iter n f x = iter n g x.
Proof. intros H. revert x. induction n; intros x; cbn [iter]; auto. rewrite H. auto. Qed.
Lemma iter_end {A} n (f : A -> A) x : iter (S n) f x = f (iter n f x).
Proof. revert x. induction n as [|n IH]; intros x; auto. cbn [iter] in *. rewrite <- IH. auto. Qed.
Lemma sound_has m m' a : sound m -> sound m' -> same_frame m m' -> has (m_abs m) a -> has (m_abs m') a.
Proof. intros ((_ & A & _) & _) ((_ & A' & _) & _) (_ & _ & X & _) H. unfold has in *. rewrite A', X, <- A. auto. Qed.
Lemma inside_val m a : sound m -> inside m -> has (m_abs m) a -> (pval (m_min m) a <= pval (m_abs m) a)%Qc /\ (pval (m_abs m) a <= pval (m_max m) a)%Qc.
Proof.
  intros (_ & (_ & Hm & _) & (_ & Hx & _) & _) R H. apply (R a); apply getattr_ok; auto.
Qed.
(** a monotone map leaves and never comes back: the iterates lie between the first and the last *)
Lemma iter_up (f : Qc -> Qc) (M : forall x y, (x <= y)%Qc -> (f x <= f y)%Qc) n : forall x, (x <= f x)%Qc -> (x <= iter n f x)%Qc.
Proof. induction n as [|n IH]; intros x H; cbn [iter]; [apply Qcle_refl|]. eapply Qcle_trans; [exact H|]. apply IH. apply M. auto. Qed.
Lemma iter_down (f : Qc -> Qc) (M : forall x y, (x <= y)%Qc -> (f x <= f y)%Qc) n : forall x, (f x <= x)%Qc -> (iter n f x <= x)%Qc.
Proof. induction n as [|n IH]; intros x H; cbn [iter]; [apply Qcle_refl|]. eapply Qcle_trans; [|exact H]. apply IH. apply M. auto. Qed.
Lemma qmin_l x y : (x <= y)%Qc -> qmin x y = x.
Proof. intros H. destruct (qmin_spec x y) as (A & B & [C|C]); auto. rewrite C in *. apply Qcle_antisym; auto. Qed.
Lemma qmin_r x y : (y <= x)%Qc -> qmin x y = y.
Proof. intros H. destruct (qmin_spec x y) as (A & B & [C|C]); auto. rewrite C in *. apply Qcle_antisym; auto. Qed.
Lemma qmax_l x y : (y <= x)%Qc -> qmax x y = x.
Proof. intros H. destruct (qmax_spec x y) as (A & B & [C|C]); auto. rewrite C in *. apply Qcle_antisym; auto. Qed.
Lemma qmax_r x y : (x <= y)%Qc -> qmax x y = y.
Proof. intros H. destruct (qmax_spec x y) as (A & B & [C|C]); auto. rewrite C in *. apply Qcle_antisym; auto. Qed.
Lemma Qcle_total x y : (x <= y)%Qc \/ (y <= x)%Qc.
Proof. destruct (Qclt_le_dec y x) as [H|H]; auto. right. apply Qclt_le_weak. auto. Qed.
Lemma fadd_mono x y z : monotone ar -> (x <= y)%Qc -> (fadd x z <= fadd y z)%Qc.
Proof. intros M H. apply M. apply Qcplus_le_compat; auto. apply Qcle_refl. Qed.
Lemma fsub_mono x y z : monotone ar -> (x <= y)%Qc -> (fsub x z <= fsub y z)%Qc.
Proof. intros M H. apply M. apply Qcplus_le_compat; auto. apply Qcle_refl. Qed.
Lemma shift_mono m cs a : monotone ar -> forall x y, (x <= y)%Qc -> (shift m cs a x <= shift m cs a y)%Qc.
Proof.
  intros M x y H. unfold shift, apos_of. apply fadd_mono; auto. apply fadd_mono; auto. unfold target, wpos_of. destruct (is_incremental m).
  - apply fadd_mono; auto. apply fsub_mono; auto. apply fsub_mono; auto.
  - destruct (coord_at cs a); [apply Qcle_refl|]. apply fsub_mono; auto. apply fsub_mono; auto.
Qed.
Definition moved_n (m m' : machine) (cs : list coord) (n : nat) : Prop :=
  same_frame m m' /\ sound m' /\ punit (m_abs m') = punit (m_abs m) /\
  (forall a, has (m_abs m) a -> pval (m_abs m') a = iter n (shift m cs a) (pval (m_abs m) a)) /\
  (inside m -> inside m') /\ (monotone ar -> inside m -> ranged m m').
Lemma repeat_spec n cs : forall m, sound m -> NoDup (map fst cs) -> good_coords m cs ->
  exists m', repeat_step n (move_to cs) m = (m', Ok tt) /\ moved_n m m' cs n.
Proof.
  induction n as [|n IH]; intros m S N C; cbn [repeat_step].
  - exists m. split; [reflexivity|]. split; [apply same_frame_refl|]. split; auto. split; auto. split; auto. split; auto. intros _ R a Ha. destruct (inside_val m a S R Ha). rewrite qmin_r, qmax_r; auto.
  - unfold then_step. destruct (move_to_cases cs m S N) as [(_ & m1 & E & F & S1 & U1 & V1 & R1 & G1)|(X & _)]; [|contradiction]. rewrite E. destruct (IH m1 S1 N (frame_coords _ _ _ F C)) as (m2 & E2 & F2 & S2 & U2 & V2 & R2 & G2).
    exists m2. split; auto. split; [eapply same_frame_trans; eauto|]. split; auto. split; [congruence|].
    assert (V : forall a, has (m_abs m) a -> pval (m_abs m2) a = iter (Datatypes.S n) (shift m cs a) (pval (m_abs m) a)).
    { intros a Ha. rewrite V2 by (apply (sound_has m m1 a S S1 F Ha)). cbn [iter]. rewrite V1 by auto. apply iter_ext. intros x. apply frame_shift; auto. }
    split; auto. split; auto. intros M R a Ha. pose proof (G2 M R1 a (sound_has m m1 a S S1 F Ha)) as [L2 H2]. destruct (G1 a Ha) as [L1 H1]. rewrite L2, H2, L1, H1. destruct (inside_val m a S R Ha) as [lo hi].
    set (x0 := pval (m_abs m) a) in *. set (x1 := pval (m_abs m1) a) in *. set (x2 := pval (m_abs m2) a) in *. set (l := pval (m_min m) a) in *. set (h := pval (m_max m) a) in *.
    assert (X1 : x1 = shift m cs a x0) by (apply V1; auto). assert (X2 : x2 = iter n (shift m cs a) x1) by (rewrite X1; apply V; auto).
    pose proof (shift_mono m cs a M) as MO. destruct (Qcle_total x0 x1) as [Q|Q].
    + assert (K : (x1 <= x2)%Qc) by (rewrite X2; apply iter_up; auto; apply (Qcle_trans _ (shift m cs a x0)); [rewrite <- X1; apply Qcle_refl|apply MO; auto]).
      rewrite (qmin_r x1 l) by (eapply Qcle_trans; eauto). split; auto. destruct (Qcle_total x2 h) as [Z|Z].
      * rewrite (qmax_r x1 h) by (eapply Qcle_trans; eauto). auto.
      * rewrite (qmax_l x2 h) by auto. apply qmax_l. destruct (qmax_spec x1 h) as (_ & _ & [-> | ->]); auto.
    + assert (K : (x2 <= x1)%Qc) by (rewrite X2; apply iter_down; auto; apply (Qcle_trans _ (shift m cs a x0)); [apply MO; auto|rewrite <- X1; apply Qcle_refl]).
      rewrite (qmax_r x1 h) by (eapply Qcle_trans; eauto). split; auto. destruct (Qcle_total l x2) as [Z|Z].
      * rewrite (qmin_r x1 l) by (eapply Qcle_trans; eauto). auto.
      * rewrite (qmin_l x2 l) by auto. apply qmin_l. destruct (qmin_spec x1 l) as (_ & _ & [-> | ->]); auto.
Qed.

(** ** The axis words of a gcode *)
Lemma axis_float a w : word_wf w -> wletter w = axis_letter a -> exists x, wvalue w = VFloat x.
Proof. unfold word_wf. intros H E. rewrite E in H. destruct a; cbn in H; destruct (wvalue w); try contradiction; eauto. Qed.
Lemma in_axis_letters m l : existsb (letter_eqb l) (axis_letters m) = true <-> exists a, axis_of_letter l = Some a /\ vget (m_axes m) a = true.
Proof.
  unfold axis_letters. rewrite existsb_exists. split.
  - intros (x & I & E). apply letter_eqb_eq in E. subst. apply in_map_iff in I as (a & <- & I). apply filter_In in I as [_ I]. exists a. split; auto. apply axis_of_axis_letter.
  - intros (a & E & H). exists l. split; [|apply letter_eqb_refl]. apply in_map_iff. exists a. split; [apply axis_letter_of; auto|]. apply filter_In. split; auto. apply all_axes_in.
Qed.
Lemma param_dict_legal g ls : legal g -> get_param_dict g (Some ls) = map (fun kv => (fst kv, wvalue (snd kv))) (filter (fun kv => existsb (letter_eqb (fst kv)) ls) (gparams g)).
Proof.
  intros [F ND]. unfold get_param_dict. set (l := filter _ (gparams g)). assert (L : l = filter (fun kv => existsb (letter_eqb (fst kv)) ls) (gparams g)).
  { unfold l. apply filter_ext_in. intros kv I. rewrite Forall_forall in F. destruct (F kv I) as [-> _]. auto. }
  rewrite <- L. assert (E : map (fun kv => (wletter (snd kv), wvalue (snd kv))) l = map (fun kv => (fst kv, wvalue (snd kv))) l).
  { apply map_ext_in. intros kv I. unfold l in I. apply filter_In in I as [I _]. rewrite Forall_forall in F. destruct (F kv I) as [-> _]. auto. }
  rewrite E. rewrite (dupdate_distinct _ _ _ letter_eqb_eq); auto. cbn [map app]. rewrite map_map. cbn [fst]. unfold l. apply NoDup_map_filter. auto.
Qed.
Lemma gcode_coords_spec m g : gcode_wf g -> (good_coords m (gcode_coords m g) /\ NoDup (map fst (gcode_coords m g)) /\ forall c, In c (gcode_coords m g) -> vget (m_axes m) (fst c) = true /\ exists x, snd c = Some x) /\
  forall a x, coord_at (gcode_coords m g) a = Some x <-> vget (m_axes m) a = true /\ names g a x.
Proof.
  intros (L & _ & _ & WF). unfold gcode_coords. rewrite param_dict_legal by auto. set (ps := filter _ (gparams g)).
  assert (IN : forall kv, In kv ps <-> In kv (gparams g) /\ exists a, axis_of_letter (fst kv) = Some a /\ vget (m_axes m) a = true).
  { intros kv. unfold ps. rewrite filter_In, in_axis_letters. tauto. }
  assert (ND : NoDup (map fst ps)) by (unfold ps; apply NoDup_map_filter; apply L).
  assert (VAL : forall kv, In kv ps -> exists x, wvalue (snd kv) = VFloat x).
  { intros kv I. apply IN in I as [I (a & A & _)]. rewrite Forall_forall in WF. apply (axis_float a); auto. destruct L as [F _]. rewrite Forall_forall in F. destruct (F kv I) as [<- _]. symmetry. apply axis_letter_of; auto. }
  set (cs := flat_map _ _).
  assert (INC : forall c, In c cs <-> exists kv x, In kv ps /\ axis_of_letter (fst kv) = Some (fst c) /\ wvalue (snd kv) = VFloat x /\ snd c = Some x).
  { intros c. unfold cs. rewrite in_flat_map. split.
    - intros (kv & I & J). apply in_map_iff in I as (kv' & <- & I). cbn [fst snd] in J. destruct (axis_of_letter (fst kv')) as [a|] eqn:A; [|contradiction]. destruct J as [<-|[]]. destruct (VAL kv' I) as [x X]. exists kv', x. rewrite X. auto.
    - intros (kv & x & I & A & X & C). exists (fst kv, wvalue (snd kv)). split; [apply in_map_iff; exists kv; auto|]. cbn [fst snd]. rewrite A, X. left. destruct c. cbn [fst snd] in *. rewrite C. auto. }
  assert (GC : Forall (fun c => vget (m_axes m) (fst c) = true /\ exists x, snd c = Some x) cs /\ NoDup (map fst cs)).
  { split.
    - apply Forall_forall. intros c I. apply INC in I as (kv & x & I & A & X & C). apply IN in I as [I (a & A' & H)]. assert (a = fst c) by congruence. subst. eauto.
    - unfold cs. clear INC. assert (NN : forall kv, In kv ps -> exists a, axis_of_letter (fst kv) = Some a) by (intros kv I; apply IN in I as [_ (a & A & _)]; eauto).
      clear IN VAL cs. induction ps as [|kv ps IH]; cbn [map flat_map]; [constructor|]. cbn [map] in ND. inversion ND as [|? ? N1 N2]; subst. destruct (NN kv (or_introl eq_refl)) as [a A]. cbn [fst snd]. rewrite A. cbn [app map fst]. constructor; [|apply IH; auto; intros; apply NN; right; auto].
      intros I. apply N1. apply in_map_iff in I as (c & C & I). apply in_flat_map in I as (kv' & I & J). apply in_map_iff in I as (kv2 & <- & I). cbn [fst snd] in J. destruct (axis_of_letter (fst kv2)) as [b|] eqn:B; [|contradiction]. destruct J as [<-|[]]. cbn [fst] in C. subst b.
      apply in_map_iff. exists kv2. split; auto. apply axis_letter_of in A. apply axis_letter_of in B. congruence. }
  destruct GC as [GF GN]. rewrite Forall_forall in GF. split; [split; [split; intros; apply GF; auto|split; auto]|]. intros a x. unfold coord_at.
  assert (E : dget axis_eqb (some_coords cs) a = Some x <-> In (a, Some x) cs).
  { rewrite <- some_coords_in. split; [apply (dget_in _ _ _ axis_eqb_eq)|]. intros I. apply (in_dget _ _ _ axis_eqb_eq); auto. apply some_coords_nodup. auto. }
  rewrite E, INC. cbn [fst snd]. split.
  - intros (kv & y & I & A & X & C). apply IN in I as [I (b & B & H)]. assert (b = a) by congruence. subst. split; auto. exists (snd kv). split; [|congruence]. rewrite (axis_letter_of _ _ A). destruct kv; auto.
  - intros [H (w & I & X)]. exists (axis_letter a, w), x. cbn [fst snd]. split; [apply IN; split; auto; exists a; split; auto; apply axis_of_axis_letter|]. split; [apply axis_of_axis_letter|]. auto.
Qed.

(** ** Processing a gcode: its mode first *)
Lemma after_mode_sound m md : sound m -> mode_wf md -> (forall mg g, gm_get md mg = Some g -> gcode_wf g) -> sound (after_mode m md).
Proof.
  intros (A & B & C & D & E & _) W T. unfold after_mode. destruct (gm_get md MG_coordinate_system) as [g|]; [destruct (coord_system_id (gcls g))|]; (split; [exact A|]; split; [exact B|]; split; [exact C|]; split; [exact D|]; split; [exact E|exact (conj W T)]).
Qed.
Lemma set_effect_typed md g : (forall mg g, gm_get md mg = Some g -> gcode_wf g) -> gcode_wf g -> forall mg x, gm_get (set_effect md g) mg = Some x -> gcode_wf x.
Proof.
  intros T (L & P & Q & W) mg x. unfold set_effect. destruct (modal_group (gcls g)) as [mg'|]; [|apply T]. rewrite gm_get_set. destruct (mgroup_eqb mg' mg); [|apply T]. intros H. injection H as <-. split; [apply modal_of_legal; auto|]. split; auto. split; auto.
  cbn [modal_of gparams]. rewrite Forall_forall in *. intros kv I. apply filter_In in I as [I _]. auto.
Qed.
Lemma set_effects_typed gs : forall md, (forall mg g, gm_get md mg = Some g -> gcode_wf g) -> Forall gcode_wf gs -> forall mg x, gm_get (fold_left set_effect gs md) mg = Some x -> gcode_wf x.
Proof. induction gs as [|g gs IH]; intros md T F; cbn [fold_left]; auto. inversion F; subst. apply IH; auto. apply set_effect_typed; auto. Qed.
Lemma after_mode_pos m md : m_abs (after_mode m md) = m_abs m /\ m_min (after_mode m md) = m_min m /\ m_max (after_mode m md) = m_max m /\ m_axes (after_mode m md) = m_axes m /\ m_ignore (after_mode m md) = m_ignore m.
Proof. unfold after_mode. destruct (gm_get md MG_coordinate_system) as [g|]; [destruct (coord_system_id (gcls g))|]; repeat split. Qed.
(** the machine once the gcode's mode is set *)
Definition set_for (m : machine) (g : gcode) : machine := after_mode m (set_effect (m_mode m) g).
Lemma set_for_pos m g : m_abs (set_for m g) = m_abs m /\ m_min (set_for m g) = m_min m /\ m_max (set_for m g) = m_max m /\ m_axes (set_for m g) = m_axes m /\ m_ignore (set_for m g) = m_ignore m.
Proof. apply after_mode_pos. Qed.
Lemma set_for_sound m g : sound m -> gcode_wf g -> sound (set_for m g).
Proof. intros S L. pose proof S as (_ & _ & _ & _ & _ & W & T). apply after_mode_sound; auto; [apply set_effect_wf; auto; apply L|apply set_effect_typed; auto]. Qed.
Lemma set_for_range m g : inside m -> inside (set_for m g).
Proof. unfold inside. destruct (after_mode_pos m (set_effect (m_mode m) g)) as (A & B & C & _). unfold set_for. rewrite A, B, C. auto. Qed.
Lemma process_own g m : sound m -> legal g -> gcode_process g m = gcode_process_own g (set_for m g).
Proof. intros S L. pose proof S as (_ & _ & _ & _ & _ & W & _). unfold gcode_process, then_step. rewrite machine_set_mode_spec by auto. reflexivity. Qed.
(** in a machine in sync, a gcode of another group does not change the frame of reference *)
Lemma set_for_sync m g : in_sync m -> ~ in_group MG_coordinate_system g -> m_state (set_for m g) = m_state m.
Proof.
  intros Y N. assert (E : gm_get (set_effect (m_mode m) g) MG_coordinate_system = gm_get (m_mode m) MG_coordinate_system).
  { unfold set_effect. destruct (modal_group (gcls g)) as [mg|] eqn:G; auto. apply gm_get_set_other. intros ->. apply N. exact G. }
  unfold set_for, after_mode. rewrite E. destruct (gm_get (m_mode m) MG_coordinate_system) as [x|] eqn:X; auto. rewrite (Y x X). cbn. destruct (m_state m); reflexivity.
Qed.
Lemma after_mode_in_sync m md : mode_wf md -> in_sync (after_mode m md).
Proof.
  intros W. unfold in_sync, after_mode. destruct (gm_get md MG_coordinate_system) as [g|] eqn:E.
  - intros g'. destruct (coord_class (gcls g) (proj1 (W _ _ E))) as [i I]. rewrite I. cbn [with_state with_mode m_mode m_state cur_coord_sys]. rewrite E. intros H. injection H as <-. auto.
  - intros g'. cbn [with_mode m_mode]. congruence.
Qed.
Lemma frame_sync m m' : same_frame m m' -> in_sync m -> in_sync m'.
Proof. intros (M & S & _). unfold in_sync. rewrite M, S. auto. Qed.

Lemma dpop_sub {V} (d : dict axis V) a kv : In kv (dpop axis_eqb d a) -> In kv d.
Proof. induction d as [|[k v] d IH]; cbn [dpop]; auto. destruct (axis_eqb a k); intros I; [right; auto|]. destruct I as [I|I]; [left|right]; auto. Qed.
Lemma dpop_nodup {V} (d : dict axis V) a : NoDup (map fst d) -> NoDup (map fst (dpop axis_eqb d a)).
Proof.
  induction d as [|[k v] d IH]; cbn [dpop map fst]; auto. intros N. inversion N; subst. destruct (axis_eqb a k); auto. cbn [map fst]. constructor; auto. intros I. apply H1. apply in_map_iff in I as (kv & <- & I). apply in_map. eapply dpop_sub; eauto.
Qed.
(** canned cycles: some moves, all to the same coordinates *)
Lemma canned_cases g m : sound m -> gcode_wf g -> (exists e, canned_process g m = (m, Raise e)) \/
  exists cs n, (0 < n)%nat /\ NoDup (map fst cs) /\ good_coords m cs /\ exists m', canned_process g m = (m', Ok tt) /\ repeat_step n (move_to cs) m = (m', Ok tt) /\ moved_n m m' cs n.
Proof.
  intros S W. unfold canned_process. destruct (gm_get (m_mode m) MG_plane_selection) as [pl|]; [|eauto]. destruct (normal_axis (gcls pl)) as [na|]; [|eauto].
  destruct (gcode_coords_spec m g W) as [(GC & ND & GI) _].
  assert (K : forall cs, NoDup (map fst cs) -> let r := match gcode_getattr g LL with Raise e => (m, Raise e) | Ok l =>
    repeat_step (Z.to_nat match l with Some (VInt z) => if z <=? 0 then 1 else z | _ => 1 end) (move_to cs) m end in (exists e, r = (m, Raise e)) \/
    exists cs n, (0 < n)%nat /\ NoDup (map fst cs) /\ good_coords m cs /\ exists m', r = (m', Ok tt) /\ repeat_step n (move_to cs) m = (m', Ok tt) /\ moved_n m m' cs n).
  { intros cs N. destruct (gcode_getattr g LL) as [l|e]; cbn zeta; [|eauto]. set (n := Z.to_nat _). assert (P : (0 < n)%nat).
    { unfold n. destruct l as [[]|]; try lia. match goal with |- context [?z <=? 0] => destruct (Z.leb_spec z 0) end; lia. }
    destruct (move_to_cases cs m S N) as [[G _]|[_ (e & E)]].
    - right. exists cs, n. split; auto. split; auto. split; auto. destruct (repeat_spec n cs m S N G) as (m' & E & M). exists m'. split; auto.
    - left. exists e. destruct n as [|n]; [lia|]. cbn [repeat_step]. unfold then_step. rewrite E. auto. }
  destruct (match gm_get (m_mode m) MG_canned_cycles_return with Some r => subclass (gcls r) GCodeCannedCycleReturnToR | None => false end).
  - destruct (gcode_getattr g LR) as [r|e]; [|eauto]. destruct na as [l|].
    + destruct (axis_of_letter l); [|eauto]. apply K. apply (dset_nodup _ _ _ axis_eqb_eq). auto.
    + destruct (gcode_getattr g LL); eauto.
  - destruct na as [l|]; [destruct (axis_of_letter l)|]; apply K; auto. apply dpop_nodup. auto.
Qed.

(** one gcode: it fails leaving only its mode, or it moves some number of times *)
Definition goes (m m' : machine) (cs : list coord) (n : nat) : Prop := moved_n m m' cs n /\ NoDup (map fst cs) /\ good_coords m cs.
Lemma moved_once m m' cs : moved m m' cs -> moved_n m m' cs 1.
Proof. intros (A & B & C & D & E & F). exact (conj A (conj B (conj C (conj D (conj (fun _ => E) (fun _ _ => F)))))). Qed.
Lemma goes_nothing m : sound m -> moved_n m m [] 0.
Proof.
  intros S. split; [apply same_frame_refl|]. split; auto. split; auto. split; auto. split; auto. intros _ R a Ha. destruct (inside_val m a S R Ha). rewrite qmin_r, qmax_r; auto.
Qed.
Lemma process_move g m : sound m -> gcode_wf g -> process_kind (gcls g) = PMove ->
  exists m', gcode_process g m = (m', Ok tt) /\ moved (set_for m g) m' (gcode_coords (set_for m g) g).
Proof.
  intros S W K. rewrite process_own by (auto; apply W). unfold gcode_process_own. rewrite K. pose proof (set_for_sound m g S W) as S1. destruct (gcode_coords_spec (set_for m g) g W) as [(GC & ND & GI) _].
  destruct (move_to_cases (gcode_coords (set_for m g) g) (set_for m g) S1 ND) as [(_ & X)|[X _]]; [exact X|contradiction].
Qed.
Lemma process_cases g m : sound m -> gcode_wf g ->
  (exists e, gcode_process g m = (set_for m g, Raise e)) \/
  (exists cs n m', gcode_process g m = (m', Ok tt) /\ ((process_kind (gcls g) = PNothing \/ process_kind (gcls g) = PCancelMotion) -> n = O) /\
     ((process_kind (gcls g) <> PCancelMotion /\ moved_n (set_for m g) m' cs n) \/
      (process_kind (gcls g) = PCancelMotion /\ m' = with_mode (set_for m g) (gm_set (m_mode (set_for m g)) MG_motion None)))).
Proof.
  intros S W. pose proof (set_for_sound m g S W) as S1. destruct (process_kind (gcls g)) eqn:K.
  - right. exists [], O, (set_for m g). rewrite process_own by (auto; apply W). unfold gcode_process_own. rewrite K. split; auto. split; auto. left. split; [discriminate|]. apply goes_nothing; auto.
  - right. destruct (process_move g m S W K) as (m' & E & M). exists (gcode_coords (set_for m g) g), 1%nat, m'. split; auto. split; [intros [X|X]; discriminate|]. left. split; [discriminate|]. apply moved_once; auto.
  - rewrite process_own by (auto; apply W). unfold gcode_process_own. rewrite K. destruct (canned_cases g (set_for m g) S1 W) as [E|(cs & n & P & N & G & m' & E & R & M)]; [left; auto|].
    right. exists cs, n, m'. split; auto. split; [intros [X|X]; discriminate|]. left. split; [discriminate|auto].
  - right. rewrite process_own by (auto; apply W). unfold gcode_process_own. rewrite K. exists [], O. eexists. split; [reflexivity|]. split; auto.
Qed.
Lemma clear_sound m : sound m -> sound (with_mode m (gm_set (m_mode m) MG_motion None)).
Proof.
  intros (A & B & C & D & E & W & T). split; [exact A|]. split; [exact B|]. split; [exact C|]. split; [exact D|]. split; [exact E|]. cbn [with_mode m_mode]. split.
  - intros mg g. rewrite gm_get_set. destruct (mgroup_eqb _ _); [discriminate|apply W].
  - intros mg g. rewrite gm_get_set. destruct (mgroup_eqb _ _); [discriminate|apply T].
Qed.
(** invariants of executing one gcode, whether it succeeds or not *)
Definition inv (m : machine) : Prop := sound m /\ inside m /\ in_sync m.
Lemma process_inv g m : sound m -> inside m -> gcode_wf g -> inv (fst (gcode_process g m)) /\ m_axes (fst (gcode_process g m)) = m_axes m /\ m_ignore (fst (gcode_process g m)) = m_ignore m /\
  coord_systems (m_state (fst (gcode_process g m))) = coord_systems (m_state m) /\ st_offset (m_state (fst (gcode_process g m))) = st_offset (m_state m) /\ punit (m_abs (fst (gcode_process g m))) = punit (m_abs m).
Proof.
  intros S R W. pose proof (set_for_sound m g S W) as S1. pose proof (set_for_range m g R) as R1. pose proof S as (_ & _ & _ & _ & _ & MW & _).
  assert (Y1 : in_sync (set_for m g)) by (apply after_mode_in_sync; apply set_effect_wf; auto; apply W).
  assert (C1 : m_axes (set_for m g) = m_axes m /\ m_ignore (set_for m g) = m_ignore m /\ coord_systems (m_state (set_for m g)) = coord_systems (m_state m) /\ st_offset (m_state (set_for m g)) = st_offset (m_state m) /\ punit (m_abs (set_for m g)) = punit (m_abs m)).
  { unfold set_for, after_mode. destruct (gm_get _ MG_coordinate_system) as [x|]; [destruct (coord_system_id (gcls x))|]; repeat split. }
  destruct (process_cases g m S W) as [(e & ->)|(cs & n & m' & -> & _ & [(_ & F & S2 & U2 & V2 & R2 & G2)|(_ & ->)])]; cbn [fst].
  - split; auto. split; auto.
  - split; [split; [auto|split; [auto|eapply frame_sync; eauto]]|]. destruct F as (_ & FS & FA & FI). rewrite FS, FA, FI, U2. auto.
  - split; [|exact C1]. split; [apply clear_sound; auto|]. split; [exact R1|]. intros x. cbn [with_mode m_mode m_state]. rewrite gm_get_set_other by discriminate. apply Y1.
Qed.
Lemma set_for_state m g : coord_systems (m_state (set_for m g)) = coord_systems (m_state m) /\ st_offset (m_state (set_for m g)) = st_offset (m_state m).
Proof. unfold set_for, after_mode. destruct (gm_get _ MG_coordinate_system) as [x|]; [destruct (coord_system_id (gcls x))|]; split; reflexivity. Qed.
Lemma set_for_cur m g i : coord_system_id (gcls g) = Some i -> modal_group (gcls g) = Some MG_coordinate_system -> cur_coord_sys (m_state (set_for m g)) = i.
Proof. intros I G. unfold set_for, after_mode, set_effect. rewrite G. rewrite gm_get_set_same. cbn [modal_of gcls]. rewrite I. reflexivity. Qed.
Lemma set_for_get m g mg : ~ in_group mg g -> gm_get (m_mode (set_for m g)) mg = gm_get (m_mode m) mg.
Proof.
  intros N. unfold set_for. rewrite after_mode_mode. unfold set_effect. destruct (modal_group (gcls g)) as [mg'|] eqn:G; auto. apply gm_get_set_other. intros ->. apply N. exact G.
Qed.
End WithArith.
Global Opaque set_for.
