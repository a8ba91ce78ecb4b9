(** C92: in incremental mode the decimals of the moves add up to those of the arc. *)
From Coq Require Import Ascii String List Bool ZArith QArith Qcanon Qabs Lia Lqa.
From Verif Require Import Base Num Words GTable GCode Position Machine Transform BaseFacts NumFacts WordOrder PrintSpec PrintProofs GCodeSpec PropsGCode ArithSpec Float64 MachSpec MachProofs CannedProofs DrillProofs PropsDrill FloatArc FloatArcSpec FloatArcSpec2 FloatArcProofs FloatArcProofs2 FloatArcProofs4 Root64 PropsFloatArc PropsFloatArc2.
From Verif Require Arc.
Import ListNotations.
Open Scope Z_scope.

(** an arc that leads so many thousandths: whatever rounding and the functions of [math], the thousandths of the moves add up to them *)
Theorem C92_decimal : forall (ar : Arith) (L : mathlib) (B u : Q) (g : gcode) (p : position) (plane : option gclass) (meth : option Arc.arc_method) (dist adist : option gclass) (e : Qc) (moves : list gcode) (a : axis) (c : Qc) (n : Z),
  accurate ar -> monotone ar -> idempotent ar -> rounds_within ar B u -> lawful L -> gcode_wf g -> in_incremental dist -> linearize_arc L g p plane meth dist adist e = (moves, Ok tt) ->
  In a [AX; AY; AZ] -> vget (pvals p) a = Some c -> leads g a (rnd (frac n 1000)) ->
  (Qabs (c + rnd (frac n 1000))%Qc <= B / 2 - 1)%Q -> (forall before after t, moves = before ++ after -> total before a t -> Qabs (c + t)%Qc <= B / 2 - 1)%Q ->
  ((inject_Z (Z.of_nat (List.length moves)) + 3) * u <= 1 # 8000)%Q ->
  counts moves a n.
Proof.
  intros ar L B u g p plane meth dist adist e moves a c n acc MO ID WI LW W D E I V LD BD BP K.
  exact (decimal_end L acc LW MO B u WI g p plane meth dist adist e moves a c n ID W D E I V LD BD BP K).
Qed.
(** without rounding, however far it leads, they add up to what the arc leads *)
Theorem C92_exact : forall (L : mathlib) (g : gcode) (p : position) (plane : option gclass) (meth : option Arc.arc_method) (dist adist : option gclass) (e : Qc) (moves : list gcode) (a : axis) (c : Qc) (n : Z) (s : Qc),
  lawful L -> gcode_wf (ar := exact_arith) g -> in_incremental dist -> linearize_arc (ar := exact_arith) L g p plane meth dist adist e = (moves, Ok tt) ->
  In a [AX; AY; AZ] -> vget (pvals p) a = Some c -> leads g a (frac n 1000) -> total moves a s -> s = frac n 1000.
Proof.
  intros L g p plane meth dist adist e moves a c n s LW W D E I V LD T.
  destruct (moves_linear (ar := exact_arith) L g p plane meth dist adist e moves (Ok tt) E) as (vs & M).
  assert (BP : exists b, (0 <= b)%Q /\ forall before after t, moves = before ++ after -> total before a t -> (Qabs (c + t)%Qc <= b)%Q).
  { rewrite M. generalize c. clear -I. induction vs as [|v vs IH]; intros c.
    - exists (Qabs c). split; [apply Qabs_nonneg|]. intros before after t Q T. cbn [map] in Q. symmetry in Q. apply app_eq_nil in Q as [-> ->]. inversion T; subst. rewrite this_add. change (this (Q2Qc 0)) with 0%Q. rewrite Qplus_0_r. apply Qle_refl.
    - destruct (IH (c + coord a v)%Qc) as (b & P & H). exists (Qabs c + b)%Q. split; [pose proof (Qabs_nonneg c); lra|]. intros [|h before] after t Q T.
      + inversion T; subst. rewrite this_add. change (this (Q2Qc 0)) with 0%Q. rewrite Qplus_0_r. lra.
      + cbn [map app] in Q. injection Q as <- Q. assert (NM : names (g1 (ar := exact_arith) v) a (coord a v)) by (apply (g1_names (ar := exact_arith)); auto).
        inversion T as [|? ? ? y r Y R|? ? ? r Y R]; subst; [|elim (Y _ NM)]. apply (g1_names (ar := exact_arith)) in Y; auto. subst y.
        replace (c + (coord a v + r))%Qc with (c + coord a v + r)%Qc by ring. pose proof (H before after r Q R). pose proof (Qabs_nonneg c). lra. }
  destruct BP as (b & B0 & BP). set (B := (2 * (b + Qabs (c + frac n 1000)%Qc + 1))%Q). pose proof (Qabs_nonneg (c + frac n 1000)%Qc) as N0.
  assert (BH : (B / 2 - 1 == b + Qabs (c + frac n 1000)%Qc)%Q) by (unfold B; field).
  assert (CT : counts (ar := exact_arith) moves a n).
  { refine (C92_decimal exact_arith L B 0 g p plane meth dist adist e moves a c n exact_accurate exact_monotone exact_idempotent (exact_within B) LW W D E I V LD _ _ _).
    - rewrite BH. change (rnd (frac n 1000)) with (frac n 1000). lra.
    - intros before after t Q1 Q2. rewrite BH. pose proof (BP before after t Q1 Q2). lra.
    - rewrite Qmult_0_r. discriminate. }
  clear -T CT M I. revert n s T CT. rewrite M. clear M moves. induction vs as [|v vs IH]; intros n s T CT; cbn [map] in *.
  - inversion T; subst. inversion CT; subst. apply Qceqb_eq. vm_compute. reflexivity.
  - inversion CT as [|? ? ? k m NK CM]; subst. change (rnd (frac k 1000)) with (frac k 1000) in NK. inversion T as [|? ? ? y r Y R|? ? ? r Y R]; subst; [|elim (Y _ NK)].
    apply (g1_names (ar := exact_arith)) in NK; auto. apply (g1_names (ar := exact_arith)) in Y; auto. rewrite (IH m r R CM). rewrite Y, <- NK. apply Qc_is_canon. rewrite this_add, !this_thousandth, inject_Z_plus. ring.
Qed.
Print Assumptions C92_decimal.
Print Assumptions C92_exact.
(** half a circle of 0.117 in two moves: 59 and 58 thousandths, though the sum of the two floats is another float than 0.117 *)
Definition half_117 : string := "G2 X0.117 I0.0585".
Local Notation incremental_moves g := (linearize_arc (ar := binary64) right64 g from_zero None (Some Arc.Inside) (Some GCodeIncrementalDistanceMode) None (frac 1 100)).
Lemma counts64 L g p plane meth dist adist e a c n : let G := linearize_arc (ar := binary64) L g p plane meth dist adist e in lawful L -> gcode_wf (ar := binary64) g -> in_incremental dist -> snd G = Ok tt ->
  In a [AX; AY; AZ] -> vget (pvals p) a = Some c -> leads g a (rnd (Arith := binary64) (frac n 1000)) -> (Qabs (c + rnd (Arith := binary64) (frac n 1000))%Qc <= 1048576 / 2 - 1)%Q -> (forall before after t, fst G = before ++ after -> total before a t -> Qabs (c + t)%Qc <= 1048576 / 2 - 1)%Q ->
  ((inject_Z (Z.of_nat (List.length (fst G))) + 3) * (1 # 8589934592) <= 1 # 8000)%Q -> counts (ar := binary64) (fst G) a n.
Proof.
  intros G LW W D R I V LD BD BP K. refine (C92_decimal binary64 L 1048576 (1 # 8589934592) g p plane meth dist adist e (fst G) a c n binary64_accurate binary64_monotone binary64_idempotent binary64_within LW W D _ I V LD BD BP K). rewrite <- R. apply surjective_pairing.
Qed.
Example C92_decimal_ex : let g := agcode binary64 half_117 in let c := frac 0 1 in let x := rnd (Arith := binary64) (frac 117 1000) in
  gcode_wf (ar := binary64) g /\ lawful right64 /\ in_incremental (Some GCodeIncrementalDistanceMode) /\ snd (incremental_moves g) = Ok tt /\ vget (pvals from_zero) AX = Some c /\ leads g AX x /\
  (Qabs (c + x)%Qc <= 1048576 / 2 - 1)%Q /\ (forall before after t, fst (incremental_moves g) = before ++ after -> total before AX t -> (Qabs (c + t)%Qc <= 1048576 / 2 - 1)%Q) /\ ((inject_Z (Z.of_nat (List.length (fst (incremental_moves g)))) + 3) * (1 # 8589934592) <= 1 # 8000)%Q /\
  texts binary64 (incremental_moves g) = (["G01 X0.059 Y0.059 Z0"; "G01 X0.058 Y-0.059 Z0"]%string, true) /\ counts (ar := binary64) (fst (incremental_moves g)) AX 117.
Proof.
  intros g c x. assert (W : gcode_wf (ar := binary64) g) by (apply agcode_wf; vm_compute; discriminate). split; [exact W|].
  assert (LW : lawful right64) by exact (right_lawful (ar := binary64) right64 binary64_accurate right64_square right64_root). split; [exact LW|].
  assert (D : in_incremental (Some GCodeIncrementalDistanceMode)) by (exists GCodeIncrementalDistanceMode; split; [reflexivity|constructor]). split; [exact D|].
  assert (R : snd (incremental_moves g) = Ok tt) by (vm_compute; reflexivity). split; [exact R|]. split; [reflexivity|].
  assert (LD : leads g AX x) by (left; apply (names_ex binary64); [auto|vm_compute; reflexivity]). split; [exact LD|].
  assert (BD : (Qabs (c + x)%Qc <= 1048576 / 2 - 1)%Q) by (vm_compute; discriminate). split; [exact BD|].
  destruct (total_ex binary64 right64 g from_zero None (Some Arc.Inside) (Some GCodeIncrementalDistanceMode) None (frac 1 100) AX c (rnd64 (frac 59 1000) + rnd64 (frac 58 1000))%Qc (frac 524287 1) binary64_accurate (or_introl eq_refl)) as [T1 T2]; [vm_compute; reflexivity|].
  assert (BP : forall before after t, fst (incremental_moves g) = before ++ after -> total before AX t -> (Qabs (c + t)%Qc <= 1048576 / 2 - 1)%Q) by (intros before after t E T; eapply Qle_trans; [exact (T2 before after t E T)|vm_compute; discriminate]). split; [exact BP|].
  assert (K : ((inject_Z (Z.of_nat (List.length (fst (incremental_moves g)))) + 3) * (1 # 8589934592) <= 1 # 8000)%Q) by (vm_compute; discriminate). split; [exact K|]. split; [vm_compute; reflexivity|].
  clear T1 T2. clearbody g. exact (counts64 right64 g from_zero None (Some Arc.Inside) (Some GCodeIncrementalDistanceMode) None (frac 1 100) AX c 117 LW W D R (or_introl eq_refl) eq_refl LD BD BP K).
Qed.
