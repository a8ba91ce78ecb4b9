(** Property C49: where canned cycles leave the machine. *)
From Coq Require Import Ascii String List Bool Arith ZArith QArith Qcanon Permutation Lia.
From Verif Require Import Base Num Words GTable GCode Line Position Machine BaseFacts WordOrder WordsSpec GCodeSpec GCodeProofs GCodeProofs2 PropsGCode ArithSpec Float64 PosSpec PosProofs PropsPos ModeSpec ModeProofs PropsMode MachSpec MachProofs MachProofs2 MachProofs3 PropsMach CannedProofs.
Import ListNotations.
Open Scope Z_scope.

Definition times (n : nat) (x : Qc) : Qc := (Qc_of_Z (Z.of_nat n) * x)%Qc.
Lemma times_S n x : times (S n) x = (x + times n x)%Qc.
Proof. unfold times. rewrite Nat2Z.inj_succ. unfold Z.succ. assert (E : Qc_of_Z (Z.of_nat n + 1) = (Qc_of_Z (Z.of_nat n) + 1)%Qc). { apply Qc_is_canon. unfold Qc_of_Z, Qcplus, Q2Qc. cbn [this]. rewrite !Qred_correct. rewrite inject_Z_plus. reflexivity. } rewrite E. ring. Qed.
Lemma times_0 x : times 0 x = Q2Qc 0. Proof. unfold times. change (Qc_of_Z (Z.of_nat 0)) with (Q2Qc 0). ring. Qed.
Lemma iter_times n (x v : Qc) : iter n (fun z => (z + v)%Qc) x = (x + times n v)%Qc.
Proof. revert x. induction n; intros x; cbn [iter]; [rewrite times_0; ring|]. rewrite IHn, times_S. ring. Qed.

(** exact arithmetic, any offsets, any of the planes G17, G18, G19; [b]: the axis normal to the plane; [n]: the number of repetitions *)
Theorem C49_ends : forall (m : machine) (g : gcode) (b : axis) (n : nat), sound (ar := exact_arith) m -> in_sync m -> gcode_wf (ar := exact_arith) g -> is_canned g ->
  normal m b -> has (m_abs m) b -> loops g n -> (returns_to_r m -> exists r, r_word g r) ->
  exists m', gcode_process (ar := exact_arith) g m = (m', Ok tt) /\
    (forall a x, a <> b -> has (m_abs m) a -> names g a x -> absolute m -> pos_at (ar := exact_arith) m' a x) /\
    (forall a x y, a <> b -> names g a x -> incremental m -> pos_at (ar := exact_arith) m a y -> pos_at (ar := exact_arith) m' a (y + times n x)%Qc) /\
    (forall a y, a <> b -> (forall x, ~ names g a x) -> pos_at (ar := exact_arith) m a y -> pos_at (ar := exact_arith) m' a y) /\
    (~ returns_to_r m -> forall y, pos_at (ar := exact_arith) m b y -> pos_at (ar := exact_arith) m' b y) /\
    (returns_to_r m -> forall r, r_word g r -> (absolute m -> pos_at (ar := exact_arith) m' b r) /\
       (incremental m -> forall y, pos_at (ar := exact_arith) m b y -> pos_at (ar := exact_arith) m' b (y + times n r)%Qc)).
Proof.
  intros m g b n S Y W C NM Hb LO RR. destruct (canned_pos (ar := exact_arith) g m b n S W C NM Hb LO RR Y) as (m' & cs & E & S' & ST & NP & P & C1 & C2 & C3 & C4). exists m'. split; auto.
  assert (WA : forall a x, wpos_of (ar := exact_arith) m a (apos_of (ar := exact_arith) m a x) = x) by (intros; apply (back_exact m a)).
  assert (PN : forall a y, coord_at cs a = None -> pos_at (ar := exact_arith) m a y -> pos_at (ar := exact_arith) m' a y).
  { intros a y N Q. apply pos_at_iff in Q as [Ha ->]; auto. pose proof (P a Ha) as Q. rewrite N in Q. rewrite iter_id in Q; auto. assert (Z : forall x, apos_of (ar := exact_arith) m a (wpos_of (ar := exact_arith) m a x) = x) by (intros x; unfold apos_of, wpos_of, fadd, fsub; cbn [rnd exact_arith]; ring).
    destruct (is_incremental m); cbn [oval]; [|apply Z]. rewrite fadd_exact. replace (_ + Q2Qc 0)%Qc with (wpos_of (ar := exact_arith) m a (pval (m_abs m) a)) by ring. apply Z. }
  assert (PA : forall a x, coord_at cs a = Some x -> has (m_abs m) a -> absolute m -> pos_at (ar := exact_arith) m' a x).
  { intros a x N Ha A. apply absolute_iff in A. pose proof (P a Ha) as Q. rewrite N, A in Q. rewrite iter_const with (y := apos_of (ar := exact_arith) m a x) in Q; auto. rewrite WA in Q. auto. }
  assert (PI : forall a x y, coord_at cs a = Some x -> incremental m -> pos_at (ar := exact_arith) m a y -> pos_at (ar := exact_arith) m' a (y + times n x)%Qc).
  { intros a x y N I Q. apply is_incremental_iff in I. apply pos_at_iff in Q as [Ha ->]; auto. pose proof (P a Ha) as Q. rewrite N, I in Q. cbn [oval] in Q.
    erewrite iter_ext in Q. 2: { intros z. instantiate (1 := fun z => (z + x)%Qc). unfold apos_of, wpos_of, fadd, fsub. cbn [rnd exact_arith]. ring. }
    rewrite iter_times in Q. replace (wpos_of (ar := exact_arith) m a (pval (m_abs m) a) + times n x)%Qc with (wpos_of (ar := exact_arith) m a (pval (m_abs m) a + times n x)%Qc); auto. unfold wpos_of, fsub. cbn [rnd exact_arith]. ring. }
  split; [intros; apply PA; auto|]. split; [intros a x y N1 N2 I Q; apply PI; auto; apply C1; auto; apply pos_at_iff in Q; auto; apply Q|]. split; [intros; apply PN; auto|]. split; [intros; apply PN; auto|].
  intros R r RW. split; [intros; apply PA; auto|intros; apply PI; auto].
Qed.
Print Assumptions C49_ends.
(** with rounding arithmetic, in absolute mode and without offsets *)
Theorem C49_float : forall (ar : Arith) (m : machine) (g : gcode) (b : axis) (n : nat), idempotent ar -> sound m -> in_sync m -> no_offsets m -> absolute m -> gcode_wf g -> is_canned g ->
  normal m b -> has (m_abs m) b -> loops g n -> (returns_to_r m -> exists r, r_word g r) ->
  exists m', gcode_process g m = (m', Ok tt) /\
    (forall a x, a <> b -> has (m_abs m) a -> names g a x -> float x -> pos_at m' a x) /\
    (forall a y, a <> b -> (forall x, ~ names g a x) -> pos_at m a y -> pos_at m' a y) /\
    (~ returns_to_r m -> forall y, pos_at m b y -> pos_at m' b y) /\
    (returns_to_r m -> forall r, r_word g r -> float r -> pos_at m' b r).
Proof.
  intros ar m g b n ID S Y O A W C NM Hb LO RR. destruct (canned_pos g m b n S W C NM Hb LO RR Y) as (m' & cs & E & S' & ST & NP & P & C1 & C2 & C3 & C4). exists m'. split; auto. apply absolute_iff in A. rewrite A in P.
  assert (WA : forall a x, float x -> wpos_of m a (apos_of m a x) = x) by (intros; apply (back_float m a); auto).
  assert (PN : forall a y, coord_at cs a = None -> pos_at m a y -> pos_at m' a y).
  { intros a y N Q. pose proof (pos_at_float m a y ID S Q) as FL. apply pos_at_iff in Q as [Ha ->]; auto. pose proof (P a Ha) as Q. rewrite N in Q. destruct n as [|n]; [lia|]. 
    assert (K : forall k, wpos_of m a (iter k (fun x => apos_of m a (wpos_of m a x)) (pval (m_abs m) a)) = wpos_of m a (pval (m_abs m) a)) by (induction k as [|k IH]; auto; rewrite iter_end; rewrite WA; [auto|rewrite IH; auto]).
    rewrite K in Q. auto. }
  assert (PA : forall a x, coord_at cs a = Some x -> has (m_abs m) a -> float x -> pos_at m' a x).
  { intros a x N Ha F. pose proof (P a Ha) as Q. rewrite N in Q. rewrite iter_const with (y := apos_of m a x) in Q; auto. rewrite WA in Q; auto. }
  split; [intros; apply PA; auto|]. split; [intros; apply PN; auto|]. split; [intros; apply PN; auto|]. intros; apply PA; auto.
Qed.
Print Assumptions C49_float.
(** without R the return to R fails, and nothing moves; any other plane selection has no normal axis in the code *)
Theorem C49_no_r : forall (ar : Arith) (m : machine) (g : gcode) (b : axis), sound m -> gcode_wf g -> is_canned g -> normal m b -> has (m_abs m) b -> returns_to_r m -> (forall w, ~ In (LR, w) (gparams g)) ->
  exists m', gcode_process g m = (m', Raise ETypeError) /\ m_abs m' = m_abs m.
Proof.
  intros ar m g b S W C (pl & PE & PI) Hb (r & RE & RD) NR. pose proof (set_for_sound m g S W) as S1. destruct (set_for_pos m g) as (A1 & _ & _ & X1 & _). pose proof (proj2 (kind_canned g) C) as K. pose proof (canned_group g C) as G.
  assert (NC : gcls g <> GCodeCannedCycle). { destruct W as (_ & P & WW & _). unfold proper in P. intros Q. rewrite Q in P. apply word_class_claims1 in P. unfold claims in P. change (word_key GCodeCannedCycle) with (@None word) in P. destruct P as (f & P & _). vm_compute in P. discriminate P. }
  destruct (canned_letters (gcls g) K NC) as [AL AR]. exists (set_for m g). split; auto. rewrite process_own by (auto; apply W). unfold gcode_process_own. rewrite K. unfold canned_process.
  rewrite !set_for_get by (unfold in_group in *; rewrite G; discriminate). rewrite PE, RE. destruct (normal_axis_spec _ _ PI) as [-> _]. rewrite (proj2 (subclass_derives _ _) RD). rewrite axis_of_axis_letter. unfold gcode_getattr. rewrite AL, AR. rewrite (pget_not g LR) by auto. cbn [option_map].
  destruct (gcode_coords_spec (set_for m g) g W) as [(GC & ND & GI) _]. set (cs := dset axis_eqb (gcode_coords (set_for m g) g) b None). match goal with |- repeat_step (Z.to_nat ?z) _ _ = _ => set (n := z) end.
  assert (P : (0 < Z.to_nat n)%nat). { unfold n. destruct (option_map wvalue (pget (gparams g) LL)) as [[]|]; try lia. match goal with |- context [?z <=? 0] => destruct (Z.leb_spec z 0) end; lia. }
  destruct (Z.to_nat n) as [|k]; [lia|]. cbn [repeat_step]. unfold then_step.
  assert (IC : In (b, None) cs) by (apply (dget_in _ _ _ axis_eqb_eq); unfold cs; rewrite (dget_dset _ _ _ axis_eqb_eq), axis_eqb_refl; auto).
  assert (MT : move_to cs (set_for m g) = (set_for m g, Raise ETypeError)); [|rewrite MT; auto]. unfold move_to. destruct (machine_pos_spec (set_for m g) S1) as (p & E & Gp & Ap & Up & Vp). rewrite E.
  assert (Hp : has p b) by (eapply has_axes; [|exact Hb]; destruct S as ((_ & Aa & _) & _); congruence).
  destruct (is_incremental (set_for m g)).
  - replace (existsb _ cs) with true; auto. symmetry. apply existsb_exists. exists (b, None). split; auto. cbn [fst snd]. rewrite (good_some p b) by auto. reflexivity.
  - replace (existsb (fun c : axis * option Qc => negb (vget (paxes p) (fst c))) cs) with false.
    + replace (existsb _ cs) with true; auto. symmetry. apply existsb_exists. exists (b, None). auto.
    + symmetry. apply existsb_false, forallb_forall. intros [a o] I. cbn [fst]. rewrite negb_involutive. apply (in_dget _ _ _ axis_eqb_eq) in I; [|apply (dset_nodup _ _ _ axis_eqb_eq); auto]. unfold cs in I. rewrite (dget_dset _ _ _ axis_eqb_eq) in I. destruct (axis_eqb a b) eqn:AB; [apply axis_eqb_eq in AB; subst; exact Hp|]. apply (dget_in _ _ _ axis_eqb_eq) in I. rewrite Ap. apply (GI _ I).
Qed.
Print Assumptions C49_no_r.
Example C49_ex : after [act_text "G0 Z10"; act_text "G81 X1 Y2 Z-5 R3"] pos_text = Ok [t "1"; t "2"; t "10"] /\
  after [act_text "G0 Z10"; act_text "G99 G83 X1 Y2 Z-5 R3 Q1"] pos_text = Ok [t "1"; t "2"; t "3"] /\
  after [act_text "G0 X1 Z10"; act_text "G91 G81 X4 Y2 Z-5 R-3 L3"] pos_text = Ok [t "13"; t "6"; t "10"] /\
  after [act_text "G0 X1 Z10"; act_text "G18 G81 X4 Y-5 R3"] pos_text = Ok [t "4"; t "0"; t "10"].
Proof. split; [vm_compute; reflexivity|]. split; [vm_compute; reflexivity|]. split; vm_compute; reflexivity. Qed.
