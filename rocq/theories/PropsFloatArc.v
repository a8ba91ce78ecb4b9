(** C92: in floating point too, a linearized arc ends where the arc ends. *)
From Coq Require Import Ascii String List Bool ZArith QArith Qcanon Qabs Qround Lia Lqa.
From Verif Require Import Base Num Words GTable GCode Position Machine Transform BaseFacts NumFacts WordOrder PrintSpec PrintProofs GCodeSpec PropsGCode ArithSpec Float64 MachSpec MachProofs CannedProofs DrillProofs PropsDrill FloatArc FloatArcSpec FloatArcProofs FloatArcProofs2.
From Verif Require Arc.
Import ListNotations.
Open Scope Z_scope.

(** whatever the functions of [math] return, and also when an exception follows, only G1 with X, Y and Z is generated *)
Theorem C92_moves : forall (ar : Arith) (L : mathlib) (g : gcode) (p : position) (plane : option gclass) (meth : option Arc.arc_method) (dist adist : option gclass) (e : Qc) (moves : list gcode) (r : result unit),
  accurate ar -> linearize_arc L g p plane meth dist adist e = (moves, r) -> Forall (fun h => exists x y z, linear_to h x y z) moves.
Proof.
  intros ar L g p plane meth dist adist e moves r acc E. destruct (moves_linear L g p plane meth dist adist e moves r E) as (vs & ->).
  apply Forall_forall. intros h I. apply in_map_iff in I as (v & <- & _). exists (fx v), (fy v), (fz v). apply g1_linear. exact acc.
Qed.
(** absolute mode: the last move goes exactly to the end of the arc *)
Theorem C92_absolute : forall (ar : Arith) (L : mathlib) (g : gcode) (p : position) (plane : option gclass) (meth : option Arc.arc_method) (dist adist : option gclass) (e : Qc) (moves : list gcode),
  accurate ar -> lawful L -> gcode_wf g -> float_arc g p -> in_absolute dist -> linearize_arc L g p plane meth dist adist e = (moves, Ok tt) ->
  exists before h x y z, moves = before ++ [h] /\ linear_to h x y z /\ ends_at g p AX x /\ ends_at g p AY y /\ ends_at g p AZ z.
Proof.
  intros ar L g p plane meth dist adist e moves acc LW W F D E. destruct (absolute_end L acc LW g p plane meth dist adist e moves W F D E) as (vs & v & -> & X & Y & Z).
  exists (map g1 vs), (g1 v), (fx v), (fy v), (fz v). split; auto. split; [apply g1_linear; auto|auto].
Qed.
(** incremental mode: the increments, thousandths (rounded to floats), add up to what the arc leads, to half a thousandth and the
    rounding errors of the additions *)
Theorem C92_incremental : forall (ar : Arith) (L : mathlib) (B u : Q) (g : gcode) (p : position) (plane : option gclass) (meth : option Arc.arc_method) (dist adist : option gclass) (e : Qc) (moves : list gcode) (a : axis) (c d s : Qc),
  accurate ar -> idempotent ar -> rounds_within ar B u -> lawful L -> gcode_wf g -> in_incremental dist -> linearize_arc L g p plane meth dist adist e = (moves, Ok tt) ->
  In a [AX; AY; AZ] -> vget (pvals p) a = Some c -> leads g a d -> total moves a s ->
  (Qabs (c + d)%Qc <= B / 2 - 1)%Q -> (forall before after t, moves = before ++ after -> total before a t -> Qabs (c + t)%Qc <= B / 2 - 1)%Q ->
  (inject_Z (Z.of_nat (List.length moves)) * u <= 1 # 4)%Q ->
  (Qabs (s - d)%Qc <= (1 # 2000) + (inject_Z (Z.of_nat (List.length moves)) + 3) * u)%Q.
Proof.
  intros ar L B u g p plane meth dist adist e moves a c d s acc ID WI LW W D E I V LD T BD BP K.
  exact (incremental_end L acc LW B u WI g p plane meth dist adist e moves a c d s ID W D E I V LD T BD BP K).
Qed.
Theorem C92_increments : forall (ar : Arith) (L : mathlib) (g : gcode) (p : position) (plane : option gclass) (meth : option Arc.arc_method) (dist adist : option gclass) (e : Qc) (moves : list gcode) (r : result unit) (a : axis) (x : Qc),
  in_incremental dist -> linearize_arc L g p plane meth dist adist e = (moves, r) -> In a [AX; AY; AZ] -> Exists (fun h => names h a x) moves -> exists n, x = rnd (thousandths n).
Proof.
  intros ar L g p plane meth dist adist e moves r a x D E I X. destruct (arc_form _ _ _ _ _ _ _ _ _ _ E) as [->|(ab & ai & pl & a0 & f & m & -> & AB & AR & A & R & ->)]; [inversion X|].
  rewrite dist_incremental in AB by auto. subst ab. apply Exists_exists in X as (h & J & N). apply in_map_iff in J as (v & <- & J). apply g1_names in N; auto. subst x.
  revert J. generalize (fst (line_ends L m f)) as vs. intros vs. generalize a0. induction vs as [|w vs IH]; intros b; [intros []|]. cbn [deltas]. intros [<-|J]; [|eauto].
  unfold rounded. destruct I as [<-|[<-|[<-|[]]]]; cbn [coord fx fy fz]; unfold round3; eexists; reflexivity.
Qed.
(** the error bounds of the two arithmetics *)
Theorem binary64_within : rounds_within binary64 1048576 (1 # 8589934592).
Proof.
  intros x Hx. cbn [rnd binary64]. unfold rnd64. destruct (Qnum (this x) =? 0) eqn:E0.
  { assert (Z1 : (this (x - x)%Qc == 0)%Q) by (rewrite this_sub; ring). rewrite Z1. discriminate. }
  assert (Hq : ~ (this x == 0)%Q). { intros E. apply Z.eqb_neq in E0. apply E0. unfold Qeq in E. cbn in E. lia. }
  set (e := Z.max (qlog2 (this x) - 52) (-1074)). set (z := zpow2 e). set (q := this x) in *.
  assert (Z1 : (0 < z)%Q) by (unfold z; rewrite zpow2_p2; apply p2_pos).
  assert (LQ' : qlog2 q < 21). { apply p2_lt_inv. eapply Qle_lt_trans; [apply (qlog2_low q Hq)|]. eapply Qle_lt_trans; [exact Hx|]. reflexivity. }
  assert (Z2 : (z <= 1 # 4294967296)%Q). { unfold z. rewrite zpow2_p2. change (1 # 4294967296)%Q with (p2 (-32)). apply p2_le. unfold e. lia. }
  rewrite this_sub. cbn [this Q2Qc]. rewrite Qred_correct. fold q. pose proof (rhe_err (q / z)) as [R1 R2]. assert (QZ : (q / z * z == q)%Q) by (field; lra).
  set (r := inject_Z (rhe (q / z))) in *. set (y := (q / z)%Q) in *. apply Qabs_bounds. assert (X : (- ((1 # 2) * z) <= r * z - q <= (1 # 2) * z)%Q) by (rewrite <- QZ; split; nra). lra.
Qed.
Theorem exact_within : forall B, rounds_within exact_arith B 0.
Proof. intros B x _. cbn [rnd exact_arith]. assert (Z1 : (this (x - x)%Qc == 0)%Q) by (rewrite this_sub; ring). rewrite Z1. discriminate. Qed.
Print Assumptions C92_moves.
Print Assumptions C92_absolute.
Print Assumptions C92_incremental.
Print Assumptions C92_increments.
Print Assumptions binary64_within.
Print Assumptions exact_within.

(** ** cases *)
(** functions that measure angles in quarters of a turn and are right on quarters *)
Definition whole_sqrt (x : Qc) : Qc := Q2Qc (Z.sqrt (Qnum (this x)) # Pos.sqrt (Qden (this x))).
Definition sgn (x : Qc) : Z := if Qcltb x zero then -1 else if Qceqb x zero then 0 else 1.
Definition quarter_angle (y x : Qc) : Qc := match sgn y, sgn x with 0, -1 => frac 2 1 | 1, 0 => frac 1 1 | -1, 0 => frac (-1) 1 | _, _ => zero end.
(** a quarter turn about [n], counterclockwise seen from its tip *)
Definition quarter_turn (n v : fvec) : fvec := add3 (ar := exact_arith) (cross3 (ar := exact_arith) n v) (scale3 (ar := exact_arith) n (dot3 (ar := exact_arith) n v)).
Definition quarters : mathlib := MathLib whole_sqrt (fun x => x * x)%Qc (fun _ => frac 1 2) (fun x => x) (fun x => x) quarter_angle
  (fun x y => (x - y * Qc_of_Z (Qfloor (this (x / y)%Qc)))%Qc) (frac 2 1) (fun k n v => Nat.iter (Z.to_nat (Qfloor (this k) mod 4)) (quarter_turn n) v) (fun _ v => v).
Lemma quarters_lawful : lawful quarters. Proof. split; [|split]; apply Qceqb_eq; vm_compute; reflexivity. Qed.
Definition from_zero : position := mk_position xyz UNIT_METRIC [(AX, frac 0 1); (AY, frac 0 1); (AZ, frac 0 1)].
Definition round64 (s : string) (dist : option gclass) : gen := linearize_arc (ar := binary64) quarters (agcode binary64 s) from_zero None (Some Arc.Inside) dist None (frac 1 100).
Definition roundx (s : string) (dist : option gclass) : gen := linearize_arc (ar := exact_arith) quarters (agcode exact_arith s) from_zero None (Some Arc.Inside) dist None (frac 1 100).
Definition texts (ar : Arith) (G : gen) : list string * bool := (map (fun g => string_of_list_ascii (gcode_str (ar := ar) g)) (fst G), match snd G with Ok _ => true | _ => false end).
(** deciding the hypotheses *)
Definition float_arc_b (ar : Arith) (g : gcode) (p : position) : bool :=
  forallb (fun kv => match wvalue (snd kv) with VFloat x => Qceqb (rnd x) x | _ => true end) (gparams g) && forallb (fun a => match vget (pvals p) a with Some x => Qceqb (rnd x) x | None => true end) [AX; AY; AZ].
Lemma float_arc_ex ar g p : float_arc_b ar g p = true -> float_arc (ar := ar) g p.
Proof.
  intros E. apply andb_prop in E as [E1 E2]. rewrite forallb_forall in E1, E2. split.
  - intros a x _ (w & I & V). specialize (E1 _ I). cbn [snd] in E1. rewrite V in E1. apply Qceqb_eq. exact E1.
  - intros a x I V. specialize (E2 a I). rewrite V in E2. apply Qceqb_eq. exact E2.
Qed.
Definition names_b (g : gcode) (a : axis) (x : Qc) : bool := match pget (gparams g) (axis_letter a) with Some (Word _ (VFloat y)) => Qceqb x y | _ => false end.
Lemma names_ex ar g a x : gcode_wf (ar := ar) g -> names_b g a x = true -> names g a x.
Proof. intros W. unfold names_b. destruct (pget (gparams g) (axis_letter a)) as [[l [|y|]]|] eqn:P; try discriminate. intros E. apply Qceqb_eq in E. subst. eexists. split; [apply (pget_in g _ _ (proj1 W)); exact P|reflexivity]. Qed.
Lemma not_named ar g a : gcode_wf (ar := ar) g -> match pget (gparams g) (axis_letter a) with None => true | _ => false end = true -> forall x, ~ names g a x.
Proof. intros W E x (w & I & _). apply (pget_in g _ _ (proj1 W)) in I. rewrite I in E. discriminate. Qed.
Definition targets (G : gen) : list fvec := map (fun g => FV (value_of g LX) (value_of g LY) (value_of g LZ)) (fst G).
Lemma targets_g1 ar vs r : targets (map (g1 (ar := ar)) vs, r) = vs.
Proof. unfold targets. cbn [fst]. rewrite map_map. induction vs as [|[x y z] vs IH]; [reflexivity|]. cbn [map]. rewrite IH. reflexivity. Qed.
(** the total of the increments and the bounds on the way *)
Definition total_b (G : gen) (a : axis) (c s M : Qc) : bool :=
  Qceqb s (sum1 (map (coord a) (targets G))) && forallb (fun k => Qcleb (c + sum1 (firstn k (map (coord a) (targets G))))%Qc M && Qcleb (- M)%Qc (c + sum1 (firstn k (map (coord a) (targets G))))%Qc) (seq 0 (S (List.length (targets G)))).
Lemma total_ex ar L g p plane meth dist adist e a c s M : accurate ar -> In a [AX; AY; AZ] -> let G := linearize_arc (ar := ar) L g p plane meth dist adist e in total_b G a c s M = true ->
  total (fst G) a s /\ forall before after t, fst G = before ++ after -> total before a t -> (Qabs (c + t)%Qc <= this M)%Q.
Proof.
  intros acc I G. unfold total_b. destruct G as [moves r] eqn:E. destruct (moves_linear L g p plane meth dist adist e moves r E) as (vs & ->). rewrite targets_g1. cbn [fst]. intros T. apply andb_prop in T as [T1 T2]. apply Qceqb_eq in T1. rewrite forallb_forall in T2. split; [apply total_sum; auto|].
  intros before after t EQ TB. assert (Q : before = map g1 (firstn (List.length before) vs)). { rewrite <- firstn_map, EQ, firstn_app, Nat.sub_diag, firstn_all. cbn [firstn]. symmetry. apply app_nil_r. }
  rewrite Q in TB. apply total_sum in TB; auto. rewrite <- firstn_map in TB. assert (LE : (List.length before <= List.length vs)%nat). { rewrite <- (map_length g1 vs), EQ, app_length. lia. }
  assert (X := T2 (List.length before) ltac:(apply in_seq; lia)). rewrite <- TB in X. apply andb_prop in X as [X1 X2]. apply Qcleb_le in X1, X2. unfold Qcle in X1, X2. rewrite this_opp in X2. apply Qabs_bounds. split; auto.
Qed.
(** half a circle down a helix: over the top, to the end *)
Example C92_ex : let g := agcode binary64 "G2 X2 Y0 Z-1 I1" in gcode_wf (ar := binary64) g /\ float_arc (ar := binary64) g from_zero /\ lawful quarters /\ in_absolute None /\
  (exists moves, round64 "G2 X2 Y0 Z-1 I1" None = (moves, Ok tt)) /\ texts binary64 (round64 "G2 X2 Y0 Z-1 I1" None) = (["G01 X1 Y1 Z-0.5"; "G01 X2 Y0 Z-1"]%string, true).
Proof.
  intros g. split; [apply agcode_wf; vm_compute; discriminate|]. split; [apply float_arc_ex; vm_compute; reflexivity|]. split; [exact quarters_lawful|]. split; [left; reflexivity|]. split; [|vm_compute; reflexivity].
  exists (fst (round64 "G2 X2 Y0 Z-1 I1" None)). assert (E : snd (round64 "G2 X2 Y0 Z-1 I1" None) = Ok tt) by (vm_compute; reflexivity). rewrite <- E. apply surjective_pairing.
Qed.
(** incrementally, the ends a third of a thousandth aside: within the bound, not exactly there *)
Definition aside : string := "G2 X2.0004 Y0 Z-1 I1.0002".
Example C92_incremental_ex : let g := agcode binary64 aside in let G := round64 aside (Some GCodeIncrementalDistanceMode) in
  gcode_wf (ar := binary64) g /\ in_incremental (Some GCodeIncrementalDistanceMode) /\ snd G = Ok tt /\ vget (pvals from_zero) AX = Some (frac 0 1) /\ leads g AX (value_of g LX) /\ total (fst G) AX (frac 2 1) /\
  (Qabs (frac 0 1 + value_of g LX)%Qc <= 1048576 / 2 - 1)%Q /\ (forall before after t, fst G = before ++ after -> total before AX t -> (Qabs (frac 0 1 + t)%Qc <= 1048576 / 2 - 1)%Q) /\
  texts binary64 G = (["G01 X1 Y1 Z-0.5"; "G01 X1 Y-1 Z-0.5"]%string, true).
Proof.
  intros g G. assert (W : gcode_wf (ar := binary64) g) by (apply agcode_wf; vm_compute; discriminate). split; auto. split; [exists GCodeIncrementalDistanceMode; split; [reflexivity|constructor]|]. split; [vm_compute; reflexivity|]. split; [reflexivity|]. split; [left; apply (names_ex binary64); [auto|vm_compute; reflexivity]|].
  destruct (total_ex binary64 quarters g from_zero None (Some Arc.Inside) (Some GCodeIncrementalDistanceMode) None (frac 1 100) AX (frac 0 1) (frac 2 1) (frac 524287 1) binary64_accurate (or_introl eq_refl)) as [T1 T2]; [vm_compute; reflexivity|].
  split; [exact T1|]. split; [vm_compute; discriminate|]. split; [intros before after t E T; eapply Qle_trans; [exact (T2 before after t E T)|vm_compute; discriminate]|]. vm_compute. reflexivity.
Qed.
(** so, in incremental mode, the end is not reached exactly, even with exact arithmetic *)
Theorem C92_inexact : exists (L : mathlib) (g : gcode) (p : position) (plane : option gclass) (meth : option Arc.arc_method) (dist adist : option gclass) (e : Qc) (moves : list gcode) (d s : Qc),
  lawful L /\ gcode_wf (ar := exact_arith) g /\ in_incremental dist /\ linearize_arc (ar := exact_arith) L g p plane meth dist adist e = (moves, Ok tt) /\ leads g AX d /\ total moves AX s /\ s <> d.
Proof.
  pose (g := agcode exact_arith aside). assert (W : gcode_wf (ar := exact_arith) g) by (apply agcode_wf; vm_compute; discriminate).
  destruct (total_ex exact_arith quarters g from_zero None (Some Arc.Inside) (Some GCodeIncrementalDistanceMode) None (frac 1 100) AX (frac 0 1) (frac 2 1) (frac 524287 1) exact_accurate (or_introl eq_refl)) as [T1 _]; [vm_compute; reflexivity|].
  exists quarters, g, from_zero, None, (Some Arc.Inside), (Some GCodeIncrementalDistanceMode), None, (frac 1 100), (fst (roundx aside (Some GCodeIncrementalDistanceMode))), (value_of g LX), (frac 2 1).
  split; [exact quarters_lawful|]. split; [exact W|]. split; [exists GCodeIncrementalDistanceMode; split; [reflexivity|constructor]|]. split.
  - assert (E : snd (roundx aside (Some GCodeIncrementalDistanceMode)) = Ok tt) by (vm_compute; reflexivity). rewrite <- E. apply surjective_pairing.
  - split; [left; apply (names_ex exact_arith); [auto|vm_compute; reflexivity]|]. split; [exact T1|]. intros E. apply (f_equal (fun x => Qceqb x (frac 2 1))) in E. vm_compute in E. discriminate.
Qed.
Print Assumptions C92_inexact.
