(** C95: the circle linearize_arc works with, in all three planes. *)
From Coq Require Import Ascii String List Bool ZArith QArith Qcanon Qabs Qround Qreals Reals Lia Lra.
From Verif Require Import Base Num Words GTable GCode Position Machine Transform BaseFacts NumFacts WordOrder PrintSpec PrintProofs GCodeSpec PropsGCode ArithSpec Float64 MachSpec MachProofs CannedProofs DrillProofs PropsDrill Arc ArcSpec ArcProofs2 ArcProofs3.
From Verif Require Import FloatArc FloatArcSpec FloatArcSpec2 FloatArcSpec3 FloatArcProofs FloatArcProofs5 FloatArcProofs7 FloatArcProofs8 FloatArcProofs13 FloatArcProofs14 FloatArcProofs15 Root64 PropsFloatArc PropsFloatArc2 PropsFloatArc4 Lib64.
Import ListNotations.
Open Scope R_scope.

(** in each of G17, G18 and G19 the centre and the radius are those the words of the gcode ask for, but for the rounding errors, and the
    centre is in the plane through the origin *)
Theorem C95_center : forall (ar : Arith) (L : mathlib) (u i M : R) (g : gcode) (start : position) (c : gclass) (relative : bool) (e : Qc) (p q : vec) (a : fvec) (arc : farc),
  accurate ar -> idempotent ar -> odd ar -> lawful L -> (forall x, float (l_square L x)) -> close_to_real ar L u i -> 0 < u <= / 1000000 -> 0 < i <= u ->
  gcode_wf g -> is_arc g -> all_floats g start -> at_point start p -> target true g p q -> arc_plane c ->
  1 <= M -> FloatArcSpec3.inside M p -> FloatArcSpec3.inside M q -> (forall x, ArcSpec.reads g LR x -> Rabs x <= M) -> (forall o, lacks g LR -> given_center relative g p o -> apart c p o <= M /\ apart c q o <= M) ->
  2000 * u * M <= apart c p q ->
  arc_of L g start c true relative e = Ok (a, arc) ->
  nearly_circle g c relative p q (real3 (fa_center arc)) (Qc2R (fa_radius arc)) (165 * u * M) (10 * R_sqrt.sqrt u * M) /\ ph c (real3 (fa_center arc)) = 0.
Proof.
  intros ar L u i M g s c relative e p q a arc acc ID OD LW SF C U I W IA (F1 & F2) AT TG PL M1 PM QM RM GM AP AO. unfold arc_of in AO.
  destruct (ends_of g s true) as [[a' b]|] eqn:EN; [|discriminate]. cbn [bind] in AO. destruct (normal_of c) as [n|] eqn:N; [|discriminate]. destruct (FloatArc.circle_of L g a' b n relative e) as [[[[P P'] o] r]|] eqn:CO; [|discriminate]. cbn [bind] in AO. injection AO as <- <-. cbn [fa_center fa_radius mk_farc].
  destruct (ends_real g s p q a' b W AT TG EN) as [-> ->]. destruct (start_ok s _ F2 AT) as (a1 & VA & FA). rewrite (ends_start _ _ _ _ _ EN) in VA. injection VA as <-.
  assert (FL : float_arc g s) by (split; auto; intros x y _ (w & J & V); eauto). destruct (ends_absolute g s a' b W FL EN) as (FB & _).
  assert (ZQ : forall x, x = zero -> Qc2R x = 0) by (intros x ->; apply q_zero).
  assert (D : c = GCodeSelectXYPlane \/ turned_plane c) by (destruct PL as [<-|[<-|[<-|[]]]]; unfold turned_plane; auto). destruct D as [-> | T].
  - injection N as <-. destruct (circle_near L u i C U I LW acc ID g a' b relative e P P' o r M W F1 FA FB M1 PM QM AP RM GM CO) as (_ & _ & ZC & NC & _). split; [exact NC|]. apply ZQ. exact ZC.
  - apply (circle_of_flat L LW acc ID OD SF c T g n a' b relative e P P' o r N W F1 FA FB) in CO.
    assert (FF : forall v, float3 v -> float3 (flat c v)) by (intros v (A & B & D); destruct T as [-> | ->]; repeat split; auto).
    destruct (circle_near L u i C U I LW acc ID (flat_gcode c g) (flat c a') (flat c b) relative e (flat c P) (flat c P') (flat c o) r M) as (_ & _ & ZC & NC & _); auto.
    + apply flat_wf; auto.
    + apply floats_flat; auto.
    + rewrite real_flat. apply inside_flat; auto.
    + rewrite real_flat. apply inside_flat; auto.
    + rewrite !real_flat, apart_flat by auto. exact AP.
    + intros x H. rewrite <- (fl_R c) in H. apply RM. apply (proj1 (reads_flat c g LR x)). exact H.
    + intros o' H G. rewrite <- (fl_R c) in H. apply (proj1 (lacks_flat c g LR)) in H. destruct (flat_onto c o' T) as [o1 ->]. rewrite real_flat in G. apply (proj1 (given_flat c g relative _ o1 T)) in G. rewrite !real_flat, !apart_flat by auto. auto.
    + rewrite !real_flat in NC. split; [exact (circle_flat c g relative _ _ _ _ _ _ T NC)|]. destruct T as [-> | ->]; apply ZQ; exact ZC.
Qed.
Print Assumptions C95_center.
(** ** a quarter circle in the ZX plane, from (0, 0, 0) to X-1 Z1 around X-1 *)
Definition quarter_zx : gcode := agcode binary64 "G2 X-1 Z1 I-1".
Definition circle_b (L : mathlib) (g : gcode) (c : gclass) (x y z r : Qc) : bool :=
  match ends_of (ar := binary64) g from_zero true, normal_of c with
  | Ok (a, b), Some n => match FloatArc.circle_of (ar := binary64) L g a b n true (frac 1 100) with Ok (_, _, o, r') => Qceqb (fx o) x && Qceqb (fy o) y && Qceqb (fz o) z && Qceqb r' r | Raise _ => false end
  | _, _ => false
  end.
Lemma circle_ex L g c x y z r : circle_b L g c x y z r = true -> exists a arc, arc_of (ar := binary64) L g from_zero c true true (frac 1 100) = Ok (a, arc) /\ fa_center arc = FV x y z /\ fa_radius arc = r.
Proof.
  unfold circle_b, arc_of. destruct (ends_of (ar := binary64) g from_zero true) as [[a b]|]; [|discriminate]. destruct (normal_of c) as [n|]; [|discriminate]. cbn [bind]. destruct (FloatArc.circle_of (ar := binary64) L g a b n true (frac 1 100)) as [[[[P P'] o] r']|]; [|discriminate]. cbn [bind]. intros E.
  apply andb_prop in E as [E E4]. apply andb_prop in E as [E E3]. apply andb_prop in E as [E1 E2]. apply Qceqb_eq in E1, E2, E3, E4. eexists _, _. split; [reflexivity|]. cbn [fa_center fa_radius mk_farc]. destruct o as [o1 o2 o3]. cbn [fx fy fz] in *. subst. auto.
Qed.
Example C95_center_ex : let p := V3 0 0 0 in let q := V3 (-1) 0 1 in let c := GCodeSelectZXPlane in let g := quarter_zx in
  odd binary64 /\ (forall x, float (ar := binary64) (l_square lib64 x)) /\ gcode_wf (ar := binary64) g /\ is_arc g /\ all_floats (ar := binary64) g from_zero /\ at_point from_zero p /\ target true g p q /\ arc_plane c /\
  FloatArcSpec3.inside 1 p /\ FloatArcSpec3.inside 1 q /\ (forall x, ArcSpec.reads g LR x -> Rabs x <= 1) /\ (forall o, lacks g LR -> given_center true g p o -> apart c p o <= 1 /\ apart c q o <= 1) /\ 2000 * u64 * 1 <= apart c p q /\
  exists a arc, arc_of (ar := binary64) lib64 g from_zero c true true (frac 1 100) = Ok (a, arc) /\ fa_center arc = FV (frac (-9007199254740991) 9007199254740992) (frac 0 1) (frac 1 9007199254740992) /\ fa_radius arc = frac 1 1.
Proof.
  intros p q c g. assert (W : gcode_wf (ar := binary64) g) by (apply agcode_wf; vm_compute; discriminate).
  destruct (word_is _ g LX (frac (-1) 1) W) as [X X']; [vm_compute; reflexivity|]. destruct (word_is _ g LZ (frac 1 1) W) as [Z Z']; [vm_compute; reflexivity|]. destruct (without_is _ g LY W) as [Y Y']; [vm_compute; reflexivity|].
  destruct (word_is _ g LI (frac (-1) 1) W) as [I I']; [vm_compute; reflexivity|]. destruct (without_is _ g LK W) as [K K']; [vm_compute; reflexivity|]. destruct (without_is _ g LR W) as [_ R']; [vm_compute; reflexivity|].
  rewrite (q_lit 1 1 1) in Z, Z' by lra. rewrite (q_lit (-1) 1 (-1)) in X, X', I, I' by lra.
  assert (NL : forall l z, ArcSpec.reads g l z -> ~ lacks g l) by (intros l z (w & k & J & _) N; exact (N w J)).
  split; [exact binary64_odd|]. split; [intros x; exact (binary64_idempotent (x * x)%Qc)|]. split; [exact W|]. split; [apply subclass_derives; vm_compute; reflexivity|]. split; [apply all_floats_ex; vm_compute; reflexivity|].
  split; [exists (frac 0 1), (frac 0 1), (frac 0 1); split; [reflexivity|]; split; [reflexivity|]; split; [reflexivity|]; rewrite (q_lit 0 1 0) by lra; reflexivity|].
  split. { intros l f [E|[E|[E|[]]]]; injection E as <- <-; (split; [intros z H|intros H]); cbn [vx vy vz p q]; auto. - symmetry. apply X, H. - destruct (NL _ _ X' H). - destruct (Y' _ H). - symmetry. apply Z, H. - destruct (NL _ _ Z' H). }
  split; [cbn; auto|]. split; [unfold FloatArcSpec3.inside, p; cbn; rewrite Rabs_R0; lra|]. split; [unfold FloatArcSpec3.inside, q; cbn [vx vy vz]; rewrite Rabs_R0, Rabs_R1, (Rabs_left (-1)) by lra; lra|].
  split; [intros x H; destruct (R' x H)|]. split.
  { intros o _ G. destruct (G LI vx ltac:(cbn; auto)) as [A _]. destruct (G LK vz ltac:(cbn; auto)) as [_ B]. pose proof (A _ I') as OX. pose proof (B K) as OZ. cbn in OX, OZ. rewrite !apart_len. cbn [pu pv c p q vx vy vz]. rewrite OX, OZ. split; right; apply len_eq; lra. }
  split. { rewrite apart_len. cbn [pu pv c p q vx vy vz]. pose proof (len_x (0 - 1) (0 - -1)) as H. rewrite Rabs_left in H by lra. unfold u64. lra. }
  apply circle_ex. vm_compute. reflexivity.
Qed.
