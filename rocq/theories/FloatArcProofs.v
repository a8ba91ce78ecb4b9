(** linearize_arc on floats: its moves, and the last of them. *)
From Coq Require Import List Bool ZArith QArith Qcanon Qabs Lia.
From Verif Require Import Base Num Words GTable GCode Position Machine Transform BaseFacts PrintSpec PrintProofs GCodeSpec GCodeProofs PropsGCode ArithSpec MachSpec MachProofs CannedProofs FloatArc FloatArcSpec.
From Verif Require Arc.
Import ListNotations.
Open Scope Z_scope.

Section WithArith.
Context {ar : Arith} (L : mathlib).
Definition g1 (v : fvec) : gcode :=
  MkGCode GCodeLinearMove (match default_word GCodeLinearMove with Ok w => w | Raise _ => Word LG (VInt 0) end) [(LX, Word LX (VFloat (fx v))); (LY, Word LY (VFloat (fy v))); (LZ, Word LZ (VFloat (fz v)))] false.
Lemma linear_xyz_ok v : linear_xyz v = Ok (g1 v). Proof. reflexivity. Qed.
Lemma absolute_all vs last : absolute_moves vs last = (map g1 vs, last).
Proof. induction vs as [|v vs IH]; cbn [absolute_moves map]; auto. rewrite linear_xyz_ok, IH. reflexivity. Qed.
(** the increments *)
Definition rounded (d : fvec) : fvec := FV (round3 (fx d)) (round3 (fy d)) (round3 (fz d)).
Fixpoint deltas (cur : fvec) (vs : list fvec) : list fvec :=
  match vs with [] => [] | v :: vs => let d := rounded (sub3 v cur) in d :: deltas (add3 cur d) vs end.
Lemma relative_all vs last : forall cur, relative_moves cur vs last = (map g1 (deltas cur vs), last).
Proof. induction vs as [|v vs IH]; intros cur; cbn [relative_moves deltas map]; auto. rewrite linear_xyz_ok, IH. reflexivity. Qed.

(** ** the last line *)
Lemma turns_last m a outer w count n : forall k vs, turns L m a outer w count n k = (vs, Ok tt) -> exists before, vs = before ++ [add3 (fa_end a) (fa_hend a)].
Proof.
  induction n as [|n IH]; intros k vs; cbn [turns].
  - intros E. injection E as <-. exists []. auto.
  - destruct (Arc.phase_offset m || (k <? count)).
    + destruct (vertex_at L a outer _) as [v|]; [|discriminate]. destruct (turns L m a outer w count n (k + 1)) as [vs' r] eqn:T. cbn [fst snd]. intros E. apply pair_equal_spec in E as [E1 E2]. subst. destruct (IH _ _ T) as (b & ->). exists (v :: b). auto.
    + intros E. injection E as <-. exists []. auto.
Qed.
Lemma line_ends_last m a vs : line_ends L m a = (vs, Ok tt) -> exists before, vs = before ++ [add3 (fa_end a) (fa_hend a)].
Proof.
  unfold line_ends. destruct (bind _ _) as [[outer n]|]; [|discriminate]. destruct (n <=? 0).
  - intros E. injection E as <-. exists []. auto.
  - destruct (wedge_of L m a); [|discriminate]. apply turns_last.
Qed.
(** ** projections *)
Context (acc : accurate ar) (LW : lawful L).
Lemma r0 : rnd zero = zero. Proof. exact (rnd_zero acc). Qed.
Lemma r1 : rnd one = one. Proof. destruct acc as [A _]. apply (A 1). reflexivity. Qed.
Lemma add_0l x : float x -> fadd zero x = x. Proof. intros F. unfold fadd, zero. rewrite Qcplus_0_l. exact F. Qed.
Lemma add_0r x : float x -> fadd x zero = x. Proof. intros F. unfold fadd, zero. rewrite Qcplus_comm, Qcplus_0_l. exact F. Qed.
Lemma mul_0l x : fmul zero x = zero. Proof. unfold fmul. replace (zero * x)%Qc with zero by (unfold zero; ring). exact r0. Qed.
Lemma mul_0r x : fmul x zero = zero. Proof. unfold fmul. replace (x * zero)%Qc with zero by (unfold zero; ring). exact r0. Qed.
Lemma mul_1l x : float x -> fmul one x = x. Proof. intros F. unfold fmul. replace (one * x)%Qc with x by (unfold one; ring). exact F. Qed.
Lemma mul_1r x : float x -> fmul x one = x. Proof. intros F. unfold fmul. replace (x * one)%Qc with x by (unfold one; ring). exact F. Qed.
Lemma sub_0r x : float x -> fsub x zero = x. Proof. intros F. unfold fsub. replace (x - zero)%Qc with x by (unfold zero; ring). exact F. Qed.
Lemma sub_self x : fsub x x = zero. Proof. unfold fsub. replace (x - x)%Qc with zero by (unfold zero; ring). exact r0. Qed.
Lemma div_1 x : float x -> fdiv x one = x.
Proof. intros F. unfold fdiv. replace (x / one)%Qc with x; [exact F|]. unfold one, Qcdiv. replace (/ Q2Qc 1)%Qc with 1%Qc by (apply Qc_is_canon; reflexivity). ring. Qed.
Lemma f0 : float zero. Proof. exact r0. Qed.
Lemma f1 : float one. Proof. exact r1. Qed.
Hint Resolve f0 f1 : fl.
Ltac fl := repeat match goal with
  | |- context [fmul zero ?x] => rewrite (mul_0l x)
  | |- context [fmul ?x zero] => rewrite (mul_0r x)
  | |- context [fmul one ?x] => rewrite (mul_1l x) by auto with fl
  | |- context [fmul ?x one] => rewrite (mul_1r x) by auto with fl
  | |- context [fadd zero ?x] => rewrite (add_0l x) by auto with fl
  | |- context [fadd ?x zero] => rewrite (add_0r x) by auto with fl
  | |- context [fsub ?x ?x] => rewrite (sub_self x)
  | |- context [fsub ?x zero] => rewrite (sub_0r x) by auto with fl
  | |- context [fdiv ?x one] => rewrite (div_1 x) by auto with fl
  end.
Lemma unit_normal c n : normal_of c = Some n -> unit3 L n = Ok n.
Proof.
  destruct LW as (S1 & Q0 & Q1). fold one zero in S1, Q0, Q1. assert (X : Qcltb one zero = false) by reflexivity. assert (Y : Qceqb one zero = false) by reflexivity.
  assert (M : forall x y z, fadd (fadd (l_square L x) (l_square L y)) (l_square L z) = one -> unit3 L (FV x y z) = Ok (FV (fdiv x one) (fdiv y one) (fdiv z one))).
  { intros x y z E. unfold unit3, magnitude. cbn [fx fy fz]. rewrite E. unfold sqrt. rewrite X, S1. cbn [bind]. rewrite Y. reflexivity. }
  destruct c; cbn [normal_of]; intros E; try discriminate E; injection E as <-; rewrite M; rewrite ?Q0, ?Q1; fl; auto.
Qed.
Definition float3 (v : fvec) : Prop := float (fx v) /\ float (fy v) /\ float (fz v).
Lemma end_point c n b : normal_of c = Some n -> float3 b -> exists q, projection L b n = Ok q /\ add3 q (scale3 n (dot3 b n)) = b.
Proof.
  intros E (X & Y & Z). unfold projection. rewrite (unit_normal c n E). cbn [bind]. eexists. split; [reflexivity|].
  destruct b as [x y z]. cbn [fx fy fz] in *. destruct c; cbn [normal_of] in E; try discriminate E; injection E as <-; unfold add3, sub3, scale3, dot3; cbn [fx fy fz]; fl; reflexivity.
Qed.
(** ** the ends *)
Lemma xyz_value g l x : gcode_wf g -> In l [LX; LY; LZ] -> param_value g l = Ok x ->
  match x with Some v => exists a, axis_letter a = l /\ names g a v | None => exists a, axis_letter a = l /\ forall y, ~ names g a y end.
Proof.
  intros W I E. assert (exists a, axis_letter a = l) as (a & A) by (destruct I as [<-|[<-|[<-|[]]]]; [exists AX|exists AY|exists AZ]; reflexivity). subst l.
  unfold param_value in E. destruct (pget (gparams g) (axis_letter a)) as [w|] eqn:P.
  - apply (pget_in g _ _ (proj1 W)) in P. destruct W as ((LE & _) & _ & _ & WF). rewrite Forall_forall in LE, WF. pose proof (LE _ P) as [EL _]. cbn [fst snd] in EL. destruct (axis_float a w) as (v & V); [apply (WF _ P)|congruence|]. rewrite V in E. cbn [num_of_value] in E. injection E as <-. exists a. split; auto. exists w. auto.
  - injection E as <-. exists a. split; auto. intros y (w & J & _). apply (pget_in g _ _ (proj1 W)) in J. congruence.
Qed.
Lemma letter_axis a b : axis_letter a = axis_letter b -> a = b. Proof. destruct a, b; cbn; congruence. Qed.
Lemma xyz_end g p a l x d : gcode_wf g -> axis_letter a = l -> In a [AX; AY; AZ] -> param_value g l = Ok x -> vget (pvals p) a = Some d -> ends_at g p a (or_else x d).
Proof.
  intros W E I P V. assert (J : In l [LX; LY; LZ]) by (subst l; destruct I as [<-|[<-|[<-|[]]]]; cbn; auto). pose proof (xyz_value g l x W J P) as H. destruct x as [v|]; destruct H as (b & B & H); assert (b = a) by (apply letter_axis; congruence); subst b; cbn [or_else]; [left|right]; auto.
Qed.
Lemma xyz_lead g a l x : gcode_wf g -> axis_letter a = l -> In a [AX; AY; AZ] -> param_value g l = Ok x -> leads g a (or_else x zero).
Proof.
  intros W E I P. assert (J : In l [LX; LY; LZ]) by (subst l; destruct I as [<-|[<-|[<-|[]]]]; cbn; auto). pose proof (xyz_value g l x W J P) as H. destruct x as [v|]; destruct H as (b & B & H); assert (b = a) by (apply letter_axis; congruence); subst b; cbn [or_else]; [left|right]; auto.
Qed.
Lemma ends_absolute g p a b : gcode_wf g -> float_arc g p -> ends_of g p true = Ok (a, b) ->
  float3 b /\ ends_at g p AX (fx b) /\ ends_at g p AY (fy b) /\ ends_at g p AZ (fz b).
Proof.
  intros W (F1 & F2). unfold ends_of, vector_of. destruct (vget (pvals p) AX) as [x|] eqn:X; [|discriminate]. destruct (vget (pvals p) AY) as [y|] eqn:Y; [|discriminate]. destruct (vget (pvals p) AZ) as [z|] eqn:Z; [|discriminate]. cbn [bind].
  destruct (param_value g LX) as [x'|] eqn:PX; [|discriminate]. destruct (param_value g LY) as [y'|] eqn:PY; [|discriminate]. destruct (param_value g LZ) as [z'|] eqn:PZ; [|discriminate]. cbn [bind fx fy fz]. intros E. injection E as <- <-. cbn [fx fy fz].
  assert (EX : ends_at g p AX (or_else x' x)) by (apply (xyz_end g p AX LX); cbn; auto). assert (EY : ends_at g p AY (or_else y' y)) by (apply (xyz_end g p AY LY); cbn; auto). assert (EZ : ends_at g p AZ (or_else z' z)) by (apply (xyz_end g p AZ LZ); cbn; auto).
  assert (FE : forall a v, In a [AX; AY; AZ] -> ends_at g p a v -> float v) by (intros a v I [H|[_ H]]; eauto). split; [|auto]. repeat split; cbn [fx fy fz]; eapply FE; try eassumption; cbn; auto.
Qed.
Lemma ends_incremental g p a b : gcode_wf g -> ends_of g p false = Ok (a, b) ->
  vector_of p = Ok a /\ exists x y z, leads g AX x /\ leads g AY y /\ leads g AZ z /\ b = add3 a (FV x y z).
Proof.
  intros W. unfold ends_of. destruct (vector_of p) as [v|] eqn:V; [|discriminate]. cbn [bind].
  destruct (param_value g LX) as [x'|] eqn:PX; [|discriminate]. destruct (param_value g LY) as [y'|] eqn:PY; [|discriminate]. destruct (param_value g LZ) as [z'|] eqn:PZ; [|discriminate]. cbn [bind]. intros E. injection E as <- <-.
  split; auto. exists (or_else x' zero), (or_else y' zero), (or_else z' zero). split; [apply (xyz_lead g AX LX); cbn; auto|]. split; [apply (xyz_lead g AY LY); cbn; auto|]. split; [apply (xyz_lead g AZ LZ); cbn; auto|reflexivity].
Qed.
Lemma circle_ends g a b n ai e p q c r : circle_of L g a b n ai e = Ok (p, q, c, r) -> projection L b n = Ok q.
Proof.
  unfold circle_of. destruct (projection L a n) as [p'|]; [|discriminate]. destruct (projection L b n) as [q'|]; [|discriminate]. cbn [bind]. destruct (check_params g); [|discriminate]. cbn [bind]. destruct (param_value g LR) as [[ro|]|]; [| |discriminate]; cbn [bind].
  - destruct (magnitude L _) as [d|]; [|discriminate]. cbn [bind]. destruct (Qcltb d e); [discriminate|]. destruct (middle L _ _ _ _ _) as [[mid tc]|]; [|discriminate]. cbn [bind]. congruence.
  - destruct (param_value g LI) as [i|]; [|discriminate]. destruct (param_value g LJ) as [j|]; [|discriminate]. destruct (param_value g LK) as [k|]; [|discriminate]. cbn [bind]. destruct (projection L _ n) as [c0|]; [|discriminate]. cbn [bind].
    destruct (magnitude L (sub3 p' c0)); [|discriminate]. destruct (magnitude L (sub3 q' c0)); [|discriminate]. cbn [bind]. destruct (middle L _ _ _ _ _) as [[mid tc]|]; [|discriminate]. cbn [bind]. destruct (magnitude L _); [|discriminate]. destruct (magnitude L _); [|discriminate]. cbn [bind]. congruence.
Qed.
(** the arc ends in its end *)
Lemma arc_of_end g p plane ab ai e a f : (forall a b, ends_of g p ab = Ok (a, b) -> float3 b) -> arc_of L g p plane ab ai e = Ok (a, f) ->
  exists b, ends_of g p ab = Ok (a, b) /\ add3 (fa_end f) (fa_hend f) = b.
Proof.
  intros F. unfold arc_of. destruct (ends_of g p ab) as [[a' b]|] eqn:E; [|discriminate]. cbn [bind]. destruct (normal_of plane) as [n|] eqn:N; [|discriminate]. destruct (circle_of L g a' b n ai e) as [[[[p' q] c] r]|] eqn:C; [|discriminate]. cbn [bind]. intros X. injection X as <- <-.
  exists b. split; auto. unfold mk_farc. cbn [fa_end fa_hend]. apply circle_ends in C. destruct (end_point plane n b N (F _ _ eq_refl)) as (q' & Q & A). rewrite C in Q. injection Q as <-. exact A.
Qed.
End WithArith.
