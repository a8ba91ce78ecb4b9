(** C93: what stops linearize_arc in floating point; C81: half circles it takes for impossible. *)
From Coq Require Import Ascii String List Bool ZArith QArith Qcanon Qabs Qround Lia Lqa.
From Verif Require Import Base Num Words GTable GCode Position Machine Transform BaseFacts NumFacts WordOrder PrintSpec PrintProofs GCodeSpec PropsGCode ArithSpec Float64 MachSpec MachProofs CannedProofs DrillProofs PropsDrill FloatArc FloatArcSpec FloatArcSpec2 FloatArcProofs FloatArcProofs2 FloatArcProofs3 Root64 PropsFloatArc.
From Verif Require Arc.
Import ListNotations.
Open Scope Z_scope.

(** words that make no sense are reported before anything is generated; with words that do, whatever rounding and the functions of [math]
    (roots aside) return, there are no domain errors: only an end out of reach and divisions by zero stop the generator *)
Theorem C93_outcome : forall (ar : Arith) (L : mathlib) (g : gcode) (p : position) (plane : option gclass) (meth : Arc.arc_method) (dist adist : option gclass) (e : Qc),
  accurate ar -> monotone ar -> idempotent ar -> odd ar -> right_square L -> root_sign L -> gcode_wf g -> (forall x, radius_is g x -> float x) -> derives (gcls g) GCodeArcMove -> in_order p plane dist adist e ->
  (posed g -> forall moves x, linearize_arc L g p plane (Some meth) dist adist e = (moves, Raise x) -> x = EGCodeParameterError \/ x = EZeroDivisionError) /\
  (~ posed g -> linearize_arc L g p plane (Some meth) dist adist e = ([], Raise ENameError)).
Proof. intros ar L g p plane meth dist adist e acc MO ID OD SQ SN W FR A O. exact (outcome L acc MO ID OD SQ SN g p plane meth dist adist e W FR A O). Qed.
Print Assumptions C93_outcome.

(** ** a library with the square roots of binary64 *)
Definition right64 : mathlib := MathLib root64 (fun x => rnd64 (x * x)%Qc) (fun _ => frac 1 2) (fun x => x) (fun x => x) quarter_angle
  (fun x y => (x - y * Qc_of_Z (Qfloor (this (x / y)%Qc)))%Qc) (frac 2 1) (fun k n v => Nat.iter (Z.to_nat (Qfloor (this k) mod 4)) (quarter_turn n) v) (fun _ v => v).
Lemma right64_square : right_square (ar := binary64) right64. Proof. intros x. reflexivity. Qed.
Lemma right64_root : right_root (ar := binary64) right64. Proof. intros x s X S. exact (root64_right x s X S). Qed.
Lemma root_nonneg {ar : Arith} L : accurate ar -> right_root L -> root_sign L.
Proof.
  intros acc R x X. destruct (R x zero X) as [H _]; [apply Qcle_refl|]. rewrite (r0 acc) in H. apply H. replace (zero * zero)%Qc with zero by (unfold zero; ring). exact X.
Qed.
Lemma right_lawful {ar : Arith} L : accurate ar -> right_square L -> right_root L -> lawful L.
Proof.
  intros acc SQ R. split; [|split].
  - fold one. assert (P : (zero <= one)%Qc) by discriminate. destruct (R one one P P) as [A B]. rewrite (r1 acc) in A, B. replace (one * one)%Qc with one in A, B by (unfold one; ring). apply Qcle_antisym; [apply B|apply A]; apply Qcle_refl.
  - rewrite SQ. replace (Q2Qc 0 * Q2Qc 0)%Qc with zero by (unfold zero; ring). exact (r0 acc).
  - rewrite SQ. replace (Q2Qc 1 * Q2Qc 1)%Qc with one by (unfold one; ring). exact (r1 acc).
Qed.
(** ** a half circle out of reach *)
Definition root_b {ar : Arith} (X s1 s2 h : Qc) : bool := Qcleb zero X && Qcleb zero s1 && Qcleb zero s2 && Qcleb (s1 * s1)%Qc X && Qcleb X (s2 * s2)%Qc && Qceqb (rnd s1) h && Qceqb (rnd s2) h.
Lemma root_is {ar : Arith} L X s1 s2 h : right_root L -> root_b X s1 s2 h = true -> sqrt L X = Ok h.
Proof.
  intros R B. unfold root_b in B. apply andb_prop in B as [B B7]. apply andb_prop in B as [B B6]. apply andb_prop in B as [B B5]. apply andb_prop in B as [B B4]. apply andb_prop in B as [B B3]. apply andb_prop in B as [B1 B2]. apply Qcleb_le in B1, B2, B3, B4, B5. apply Qceqb_eq in B6, B7.
  unfold sqrt. rewrite (ltb_false _ _ B1). f_equal. destruct (R X s1 B1 B2) as [P _]. destruct (R X s2 B1 B3) as [_ Q]. specialize (P B4). specialize (Q B5). rewrite B6 in P. rewrite B7 in Q. apply Qcle_antisym; auto.
Qed.
(** from X0.01 to X0.09 around X0.05 *)
Definition half_start : position := mk_position xyz UNIT_METRIC [(AX, rnd64 (frac 1 100)); (AY, frac 0 1); (AZ, frac 0 1)].
Definition half_arc : gcode := agcode binary64 "G2 X0.09 I0.04".
Definition near (h : Qc) (v : fvec) : bool := root_b (ar := binary64) (fadd (ar := binary64) (fadd (ar := binary64) (rnd64 (fx v * fx v)%Qc) (rnd64 (fy v * fy v)%Qc)) (rnd64 (fz v * fz v)%Qc)) (h - Q2Qc (3 # 2 ^ 60))%Qc (h + Q2Qc (3 # 2 ^ 60))%Qc h.
Lemma magnitude_is L h v : right_square (ar := binary64) L -> right_root (ar := binary64) L -> near h v = true -> magnitude (ar := binary64) L v = Ok h.
Proof. intros SQ R N. unfold magnitude. rewrite !SQ. exact (root_is (ar := binary64) L _ _ _ _ R N). Qed.
Lemma half_out L meth e : right_square (ar := binary64) L -> right_root (ar := binary64) L -> (zero < e)%Qc -> linearize_arc (ar := binary64) L half_arc half_start None (Some meth) None None e = ([], Raise EGCodeParameterError).
Proof.
  intros SQ R E. pose proof (right_lawful (ar := binary64) L binary64_accurate SQ R) as LW. assert (SZ : Qcleb e zero = false). { unfold Qcleb. unfold Qclt in E. change (this zero) with 0%Q in *. destruct (Qcompare_spec (this e) 0); auto; lra. }
  assert (A : arc_of (ar := binary64) L half_arc half_start GCodeSelectXYPlane true true e = Raise EGCodeParameterError).
  { unfold arc_of. set (n := FV zero zero one). set (a := FV (rnd64 (frac 1 100)) (frac 0 1) (frac 0 1)).
    pose (b := match ends_of (ar := binary64) half_arc half_start true with Ok (_, b) => b | _ => n end).
    assert (EN : ends_of (ar := binary64) half_arc half_start true = Ok (a, b)).
    { unfold b, ends_of. change (vector_of half_start) with (Ok a). cbn [bind]. destruct (param_value half_arc LX) as [x|] eqn:PX; [|vm_compute in PX; discriminate PX]. destruct (param_value half_arc LY) as [y|] eqn:PY; [|vm_compute in PY; discriminate PY]. destruct (param_value half_arc LZ) as [z|] eqn:PZ; [|vm_compute in PZ; discriminate PZ]. reflexivity. }
    rewrite EN. cbn [bind normal_of]. fold n. unfold circle_of.
    assert (PR : forall v, projection (ar := binary64) L v n = Ok (sub3 (ar := binary64) v (scale3 (ar := binary64) n (dot3 (ar := binary64) v n)))) by (intros v; unfold projection; rewrite (unit_normal (ar := binary64) L binary64_accurate LW GCodeSelectXYPlane n eq_refl); reflexivity).
    rewrite !PR. cbn [bind]. assert (CK : check_params half_arc = Ok tt) by (vm_compute; reflexivity). rewrite CK. cbn [bind]. assert (RN : param_value half_arc LR = Ok None) by (vm_compute; reflexivity). rewrite RN. cbn [bind].
    destruct (param_value half_arc LI) as [i|] eqn:PI; [|vm_compute in PI; discriminate PI]. destruct (param_value half_arc LJ) as [j|] eqn:PJ; [|vm_compute in PJ; discriminate PJ]. destruct (param_value half_arc LK) as [k|] eqn:PK; [|vm_compute in PK; discriminate PK]. cbn [bind]. rewrite PR. cbn [bind].
    assert (EI : i = match param_value half_arc LI with Ok o => o | _ => None end) by (rewrite PI; reflexivity). assert (EJ : j = match param_value half_arc LJ with Ok o => o | _ => None end) by (rewrite PJ; reflexivity). assert (EK : k = match param_value half_arc LK with Ok o => o | _ => None end) by (rewrite PK; reflexivity). clear PI PJ PK CK RN.
    set (h1 := rnd64 (frac 4 100)). set (h2 := (rnd64 (frac 4 100) - Q2Qc (1 # 2 ^ 57))%Qc).
    rewrite (magnitude_is L h1) by (auto; subst; unfold b; vm_compute; reflexivity).
    rewrite (magnitude_is L h2) by (auto; subst; unfold b; vm_compute; reflexivity). cbn [bind]. unfold middle.
    rewrite (magnitude_is L h1) by (auto; subst; unfold b; vm_compute; reflexivity). cbn [bind].
    match goal with |- context [Qcltb ?a ?b] => replace (Qcltb a b) with true by (subst; unfold b; vm_compute; reflexivity) end. reflexivity. }
  unfold linearize_arc. change (subclass (gcls half_arc) GCodeArcMove) with true. cbn [subclass]. rewrite SZ. change (subclass GCodeAbsoluteDistanceMode GCodeAbsoluteDistanceMode) with true. change (subclass GCodeIncrementalArcDistanceMode GCodeIncrementalArcDistanceMode) with true. rewrite A. reflexivity.
Qed.
Lemma posed_center g l l' : gcode_wf (ar := binary64) g -> In l [LX; LY; LZ] -> In l' [LI; LJ; LK] -> Arc.pin (gparams g) l = true -> Arc.pin (gparams g) l' = true -> Arc.pin (gparams g) LR = false -> posed g.
Proof.
  intros W I J A B C. assert (AL : forall k, In k [LX; LY; LZ] \/ In k [LI; LJ; LK] -> arc_letter k) by (intros k [H|H]; cbn in *; intuition). split; [exists l; split; auto; apply (pin_worded (ar := binary64)); auto|]. left. split; [exists l'; split; auto; apply (pin_worded (ar := binary64)); auto|].
  intros H. apply (pin_worded (ar := binary64) g LR W) in H; [congruence|cbn; auto 10].
Qed.
Lemma start_in_order p e : (forall a, In a [AX; AY; AZ] -> exists x, vget (pvals p) a = Some x) -> (zero < e)%Qc -> in_order p None None None e.
Proof. intros P E. split; auto. Qed.
Lemma no_radius g : gcode_wf (ar := binary64) g -> Arc.pin (gparams g) LR = false -> forall x, radius_is g x -> float (ar := binary64) x.
Proof. intros W C x (w & I & _). assert (H : worded g LR) by (exists w; auto). apply (pin_worded (ar := binary64) g LR W) in H; [congruence|cbn; auto 10]. Qed.
(** "G2 X0.09 I0.04" at X0.01: with squares and roots that are as right as they can be, whatever the method and the precision, the
    generator takes the end for out of reach: (|start - centre| + |end - centre|) / 2 comes out smaller than |end - start| / 2 *)
Theorem C81_half_circle_refuted : exists g p, gcode_wf (ar := binary64) g /\ derives (gcls g) GCodeArcMove /\ posed g /\ forall L meth e, right_square (ar := binary64) L -> right_root (ar := binary64) L -> (zero < e)%Qc ->
  in_order p None None None e /\ linearize_arc (ar := binary64) L g p None (Some meth) None None e = ([], Raise EGCodeParameterError).
Proof.
  exists half_arc, half_start. assert (W : gcode_wf (ar := binary64) half_arc) by (apply agcode_wf; vm_compute; discriminate). split; auto. split; [apply subclass_derives; vm_compute; reflexivity|]. split; [apply (posed_center half_arc LX LI); auto; cbn; auto; vm_compute; reflexivity|].
  intros L meth e SQ R E. split; [|apply half_out; auto]. apply start_in_order; auto. intros a [<-|[<-|[<-|[]]]]; eexists; reflexivity.
Qed.
Print Assumptions C81_half_circle_refuted.
(** the theorems apply to binary64 with its squares and roots *)
Example C81_half_circle_ex : right_square (ar := binary64) right64 /\ right_root (ar := binary64) right64 /\ snd (linearize_arc (ar := binary64) right64 half_arc half_start None (Some Arc.Inside) None None (frac 1 100)) = Raise EGCodeParameterError.
Proof. split; [exact right64_square|]. split; [exact right64_root|]. vm_compute. reflexivity. Qed.
(** C93: an arc without end point; one that becomes two moves; one whose precision vanishes beside its radius *)
Definition tiny : Qc := Q2Qc (1 # 2 ^ 60).
Definition to_two (e : Qc) : gen := linearize_arc (ar := binary64) (MathLib root64 (fun x => rnd64 (x * x)%Qc) (fun x => if Qceqb x one then zero else frac 1 2) (fun x => x) (fun x => x) quarter_angle
  (fun x y => (x - y * Qc_of_Z (Qfloor (this (x / y)%Qc)))%Qc) (frac 2 1) (fun k n v => Nat.iter (Z.to_nat (Qfloor (this k) mod 4)) (quarter_turn n) v) (fun _ v => v)) (agcode binary64 "G2 X2 I1") from_zero None (Some Arc.Inside) None None e.
Example C93_ex : accurate binary64 /\ monotone binary64 /\ idempotent binary64 /\ odd binary64 /\ right_square (ar := binary64) right64 /\ root_sign right64 /\ in_order from_zero None None None (frac 1 100) /\
  (let g := agcode binary64 "G2 X2 I1" in gcode_wf (ar := binary64) g /\ (forall x, radius_is g x -> float (ar := binary64) x) /\ derives (gcls g) GCodeArcMove /\ posed g) /\
  (let g := agcode binary64 "G2 I1" in gcode_wf (ar := binary64) g /\ ~ posed g /\ linearize_arc (ar := binary64) right64 g from_zero None (Some Arc.Inside) None None (frac 1 100) = ([], Raise ENameError)) /\
  texts binary64 (to_two (frac 1 100)) = (["G01 X1 Y1 Z0"; "G01 X2 Y0 Z0"]%string, true) /\ to_two tiny = ([], Raise EZeroDivisionError).
Proof.
  split; [exact binary64_accurate|]. split; [exact binary64_monotone|]. split; [exact binary64_idempotent|]. split; [exact binary64_odd|]. split; [exact right64_square|]. split; [exact (root_nonneg (ar := binary64) right64 binary64_accurate right64_root)|].
  assert (IO : in_order from_zero None None None (frac 1 100)) by (apply start_in_order; [intros a [<-|[<-|[<-|[]]]]; eexists; reflexivity|reflexivity]). split; [exact IO|]. split; [|split].
  - intros g. assert (W : gcode_wf (ar := binary64) g) by (apply agcode_wf; vm_compute; discriminate). split; auto. split; [apply no_radius; auto; vm_compute; reflexivity|]. split; [apply subclass_derives; vm_compute; reflexivity|]. apply (posed_center g LX LI); auto; cbn; auto; vm_compute; reflexivity.
  - intros g. assert (W : gcode_wf (ar := binary64) g) by (apply agcode_wf; vm_compute; discriminate). split; auto. assert (NP : ~ posed g). { intros [(l & I & H) _]. apply (pin_worded (ar := binary64) g l W) in H; [|cbn in *; intuition]. destruct I as [<-|[<-|[<-|[]]]]; vm_compute in H; discriminate H. }
    split; [exact NP|]. refine (proj2 (C93_outcome binary64 right64 g from_zero None Arc.Inside None None (frac 1 100) binary64_accurate binary64_monotone binary64_idempotent binary64_odd right64_square _ W _ _ IO) NP); [exact (root_nonneg (ar := binary64) right64 binary64_accurate right64_root)|apply no_radius; auto; vm_compute; reflexivity|apply subclass_derives; vm_compute; reflexivity].
  - split; vm_compute; reflexivity.
Qed.
