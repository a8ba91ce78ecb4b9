(** What stops linearize_arc in floating point. *)
From Coq Require Import List Bool ZArith QArith Qcanon Qabs Qround Lia Lqa.
From Verif Require Import Base Num Words GTable GCode Position Machine Transform BaseFacts NumFacts WordOrder PrintSpec PrintProofs GCodeSpec PropsGCode ArithSpec Float64 MachSpec MachProofs CannedProofs DrillProofs PropsDrill FloatArc FloatArcSpec FloatArcSpec2 FloatArcProofs FloatArcProofs2.
From Verif Require Arc.
Import ListNotations.
Open Scope Z_scope.

Section WithArith.
Context {ar : Arith} (L : mathlib) (acc : accurate ar) (MO : monotone ar) (ID : idempotent ar) (OD : odd ar) (SQ : right_square L) (SN : root_sign L).
Lemma ltb_false a b : (b <= a)%Qc -> Qcltb a b = false.
Proof. intros H. unfold Qcltb. unfold Qcle in H. destruct (Qcompare_spec (this a) (this b)); auto; lra. Qed.
Lemma rnd_pos x : (zero <= x)%Qc -> (zero <= rnd x)%Qc.
Proof. intros H. rewrite <- (r0 acc). apply MO. exact H. Qed.
Lemma square_pos (x : Qc) : (zero <= x * x)%Qc.
Proof. unfold Qcle. rewrite this_mul. change (this zero) with 0%Q. nra. Qed.
Lemma add_pos a b : (zero <= a)%Qc -> (zero <= b)%Qc -> (zero <= a + b)%Qc.
Proof. unfold Qcle. rewrite this_add. change (this zero) with 0%Q. lra. Qed.
Lemma magnitude_ok v : exists d, magnitude L v = Ok d /\ (zero <= d)%Qc.
Proof.
  unfold magnitude, sqrt. set (X := fadd _ _). assert (P : (zero <= X)%Qc). { apply rnd_pos, add_pos; [apply rnd_pos, add_pos|]; rewrite SQ; apply rnd_pos, square_pos. } rewrite (ltb_false _ _ P). eexists. split; [reflexivity|]. apply SN. exact P.
Qed.
Lemma unit_ok v : exists u, unit3 L v = Ok u.
Proof. unfold unit3. destruct (magnitude_ok v) as (d & -> & _). cbn [bind]. destruct (Qceqb d zero); eauto. Qed.
Lemma projection_ok v n : exists u, projection L v n = Ok u.
Proof. unfold projection. destruct (unit_ok n) as (u & ->). cbn [bind]. eauto. Qed.
Lemma squares_le a b : (zero <= a)%Qc -> (a <= b)%Qc -> (a * a <= b * b)%Qc.
Proof. unfold Qcle. rewrite !this_mul. change (this zero) with 0%Q. intros. nra. Qed.
Lemma middle_ok g n p q r : (zero <= r)%Qc -> middle L g n p q r = Raise EGCodeParameterError \/ exists m c, middle L g n p q r = Ok (m, c).
Proof.
  intros R. unfold middle. set (mid := scale3 _ _). destruct (magnitude_ok mid) as (h & E & H). rewrite E. cbn [bind]. destruct (Qcltb r h) eqn:Q; [auto|]. destruct (unit_ok mid) as (u & ->). cbn [bind].
  assert (HR : (h <= r)%Qc) by (unfold Qcltb in Q; unfold Qcle; destruct (Qcompare_spec (this r) (this h)); try discriminate Q; lra).
  unfold sqrt. rewrite ltb_false; [cbn [bind]; eauto|]. unfold fsub. apply rnd_pos. rewrite !SQ. pose proof (MO _ _ (squares_le h r H HR)) as M. unfold Qcle in *. rewrite this_sub. change (this zero) with 0%Q. lra.
Qed.
(** ** words *)
Definition arc_letter (l : letter) : Prop := In l [LX; LY; LZ; LI; LJ; LK; LR].
Lemma param_ok g l : gcode_wf g -> arc_letter l -> (param_value g l = Ok None /\ ~ worded g l /\ Arc.pin (gparams g) l = false) \/
  exists w x, In (l, w) (gparams g) /\ wvalue w = VFloat x /\ param_value g l = Ok (Some x) /\ Arc.pin (gparams g) l = true.
Proof.
  intros W A. unfold param_value, Arc.pin. destruct (pget (gparams g) l) as [w|] eqn:P.
  - right. apply (pget_in g _ _ (proj1 W)) in P. pose proof W as ((LE & _) & _ & _ & WF). rewrite Forall_forall in LE, WF. pose proof (LE _ P) as [EL _]. cbn [fst snd] in EL. pose proof (WF _ P) as WW. cbn [snd] in WW.
    assert (F : letter_class (wletter w) = CFloat) by (rewrite <- EL; repeat destruct A as [<-|A]; try reflexivity; destruct A). unfold word_wf in WW. rewrite F in WW. destruct (wvalue w) as [x| |] eqn:V; [|destruct WW|destruct WW]. exists w, x. auto.
  - left. split; auto. split; auto. intros (w & I). apply (pget_in g _ _ (proj1 W)) in I. congruence.
Qed.
Lemma pin_worded g l : gcode_wf g -> arc_letter l -> (Arc.pin (gparams g) l = true <-> worded g l).
Proof. intros W A. destruct (param_ok g l W A) as [(_ & N & ->)|(w & x & I & _ & _ & ->)]; [split; intros H; [discriminate H|destruct (N H)]|split; intros H; [exists w; auto|reflexivity]]. Qed.
Lemma some_worded g ls : gcode_wf g -> (forall l, In l ls -> arc_letter l) -> (existsb (fun l => Arc.pin (gparams g) l) ls = true <-> exists l, In l ls /\ worded g l).
Proof. intros W A. rewrite existsb_exists. split; intros (l & I & H); exists l; split; auto; apply (pin_worded g l W (A l I)); auto. Qed.
Lemma check_ok g : gcode_wf g -> (posed g -> check_params g = Ok tt) /\ (~ posed g -> check_params g = Raise ENameError).
Proof.
  intros W. assert (AR : arc_letter LR) by (cbn; auto 10). pose proof (some_worded g [LX; LY; LZ] W) as SX. pose proof (some_worded g [LI; LJ; LK] W) as SI. specialize (SX ltac:(intros l I; cbn in *; intuition)). specialize (SI ltac:(intros l I; cbn in *; intuition)).
  unfold check_params. destruct (existsb _ [LX; LY; LZ]) eqn:X; cbn [negb].
  2:{ split; auto. intros [H _]. apply SX in H. discriminate H. }
  destruct (existsb _ [LI; LJ; LK]) eqn:I; cbn [andb orb negb].
  - destruct (param_ok g LR W AR) as [(P & N & Q)|(w & x & J & V & P & Q)]; rewrite Q; cbn [andb orb negb].
    + rewrite P. cbn [bind]. split; auto. intros H. destruct H. split; [apply SX; auto|]. left. split; [apply SI; auto|auto].
    + split; auto. intros [_ [[_ H]|[H _]]]; [destruct H; exists w; auto|]. assert (E : exists l, In l [LI; LJ; LK] /\ worded g l) by (apply SI; auto). destruct E as (l & A & B). destruct (H l A B).
  - assert (NI : forall l, In l [LI; LJ; LK] -> ~ worded g l) by (intros l A B; assert (E : false = true) by (apply SI; eauto); discriminate E). destruct (param_ok g LR W AR) as [(P & N & Q)|(w & x & J & V & P & Q)]; rewrite Q; cbn [andb orb negb].
    + split; auto. intros [_ [[(l & A & B) _]|[_ (x & (w & J & _) & _)]]]; [destruct (NI l A B)|]. destruct N. exists w. auto.
    + rewrite P. cbn [bind]. assert (U : forall y, radius_is g y -> y = x). { intros y (w' & J' & V'). apply (pget_in g _ _ (proj1 W)) in J, J'. congruence. }
      destruct (Qceqb x zero) eqn:Z; split; auto; intros H.
      * destruct H as [_ [[(l & A & B) _]|[_ (y & Y & NZ)]]]; [destruct (NI l A B)|]. apply Qceqb_eq in Z. destruct NZ. rewrite (U y Y). exact Z.
      * destruct H. split; [apply SX; auto|]. right. split; auto. exists x. split; [exists w; auto|]. intros ->. discriminate Z.
Qed.
Lemma abs_float x : float x -> float (qc_abs x).
Proof. unfold qc_abs, float. intros F. destruct (Qcltb x zero); auto. rewrite OD, F. reflexivity. Qed.
Lemma abs_pos x : (zero <= qc_abs x)%Qc.
Proof. unfold qc_abs, Qcltb, Qcle. destruct (Qcompare_spec (this x) (this zero)); rewrite ?this_opp; change (this zero) with 0%Q in *; lra. Qed.
Lemma circle_ok g a b n ai e : gcode_wf g -> (forall x, radius_is g x -> float x) -> posed g ->
  circle_of L g a b n ai e = Raise EGCodeParameterError \/ exists p q c r, circle_of L g a b n ai e = Ok (p, q, c, r) /\ (zero <= r)%Qc /\ float r.
Proof.
  intros W FR P. unfold circle_of. destruct (projection_ok a n) as (p & ->). destruct (projection_ok b n) as (q & ->). cbn [bind]. rewrite (proj1 (check_ok g W) P). cbn [bind].
  destruct (param_ok g LR W ltac:(cbn; auto 10)) as [(E & _)|(w & x & J & V & E & _)]; rewrite E; cbn [bind].
  - assert (PO : forall l, In l [LI; LJ; LK] -> exists o, param_value g l = Ok o) by (intros l I; destruct (param_ok g l W) as [(-> & _)|(w & x & _ & _ & -> & _)]; eauto; cbn in *; intuition).
    destruct (PO LI) as (i & ->); [cbn; auto|]. destruct (PO LJ) as (j & ->); [cbn; auto|]. destruct (PO LK) as (k & ->); [cbn; auto|]. cbn [bind]. set (c1 := if ai then _ else _). destruct (projection_ok c1 n) as (c0 & ->). cbn [bind].
    destruct (magnitude_ok (sub3 p c0)) as (d1 & -> & D1). destruct (magnitude_ok (sub3 q c0)) as (d2 & -> & D2). cbn [bind]. set (r := fdiv _ _).
    assert (R0 : (zero <= r)%Qc). { unfold r, fdiv. apply rnd_pos. assert (S0 : (zero <= fadd d1 d2)%Qc) by (apply rnd_pos, add_pos; auto). unfold Qcdiv. replace (/ Q2Qc 2)%Qc with (frac 1 2) by (apply Qc_is_canon; reflexivity). unfold Qcle in *. rewrite this_mul, this_frac. change (this zero) with 0%Q in *. apply Qmult_le_0_compat; [exact S0|discriminate]. }
    destruct (middle_ok g n p q r R0) as [->|(mid & tc & ->)]; cbn [bind]; [auto|]. right. match goal with |- context [magnitude L ?v] => destruct (magnitude_ok v) as (e1 & -> & _) end. cbn [bind]. match goal with |- context [magnitude L ?v] => destruct (magnitude_ok v) as (e2 & -> & _) end. cbn [bind]. do 4 eexists. split; [reflexivity|]. split; auto. unfold r, fdiv. apply ID.
  - destruct (magnitude_ok (sub3 p q)) as (d & -> & _). cbn [bind]. destruct (Qcltb d e); [auto|]. destruct (middle_ok g n p q (qc_abs x) (abs_pos x)) as [->|(mid & tc & ->)]; cbn [bind]; [auto|]. right. do 4 eexists. split; [reflexivity|]. split; [apply abs_pos|]. apply abs_float, FR. exists w. auto.
Qed.
(** ** the loop *)
Definition halts {A} (r : result A) : Prop := r = Raise EZeroDivisionError \/ exists v, r = Ok v.
Lemma halts_ok {A} (v : A) : halts (Ok v). Proof. right. eauto. Qed.
Lemma halts_bind {A B} (r : result A) (k : A -> result B) : halts r -> (forall v, r = Ok v -> halts (k v)) -> halts (bind r k).
Proof. intros [->|(v & ->)] H; cbn [bind]; [left; reflexivity|apply H; reflexivity]. Qed.
Lemma div_halts a b : halts (div a b). Proof. unfold div. destruct (Qceqb b zero); [left|right]; eauto. Qed.
Lemma acos_ok x : (- one <= x)%Qc -> (x <= one)%Qc -> exists y, acos L x = Ok y.
Proof. intros A B. unfold acos. rewrite (ltb_false x), (ltb_false one) by auto. cbn [orb]. eauto. Qed.
Lemma quotient a b v : (zero <= a)%Qc -> (a <= b)%Qc -> div a b = Ok v -> exists y, acos L v = Ok y.
Proof.
  intros A B. unfold div. destruct (Qceqb b zero) eqn:Z; [discriminate|]. intros E. injection E as <-. unfold fdiv.
  assert (BP : (0 < this b)%Q). { unfold Qcle in *. change (this zero) with 0%Q in *. destruct (Qeq_dec (this b) 0) as [H|H]; [|lra]. exfalso. assert (b = zero) by (apply Qc_is_canon; exact H). apply Qceqb_eq in H0. congruence. }
  assert (Q0 : (zero <= a / b)%Qc /\ (a / b <= one)%Qc).
  { assert (T : (this (a / b)%Qc == this a / this b)%Q) by (unfold Qcdiv; rewrite this_mul; unfold Qcinv; cbn [this Q2Qc]; rewrite Qred_correct; reflexivity). unfold Qcle in *. rewrite T. change (this zero) with 0%Q in *. change (this one) with 1%Q. split; [apply Qle_shift_div_l; lra|apply Qle_shift_div_r; lra]. }
  destruct Q0 as [Q0 Q1]. apply acos_ok.
  - eapply Qcle_trans; [|apply rnd_pos; exact Q0]. discriminate.
  - rewrite <- (r1 acc). apply MO. exact Q1.
Qed.
(** radius and precision of an arc as made *)
Definition arc_fit (a : farc) : Prop := (zero <= fa_radius a)%Qc /\ float (fa_radius a) /\ (zero <= fa_error a)%Qc /\ (fa_error a <= fa_radius a)%Qc.
Lemma sub_between r e : float r -> (zero <= e)%Qc -> (e <= r)%Qc -> (zero <= fsub r e)%Qc /\ (fsub r e <= r)%Qc.
Proof.
  intros F A B. split.
  - apply rnd_pos. unfold Qcle in *. rewrite this_sub. change (this zero) with 0%Q. lra.
  - unfold fsub. rewrite <- F at 2. apply MO. unfold Qcle in *. rewrite this_sub. change (this zero) with 0%Q in *. lra.
Qed.
Lemma add_above r e : float r -> (zero <= e)%Qc -> (r <= fadd r e)%Qc.
Proof. intros F A. unfold fadd. rewrite <- F at 1. apply MO. unfold Qcle in *. rewrite this_add. change (this zero) with 0%Q in *. lra. Qed.
Lemma max_wedge_halts m a : arc_fit a -> halts (max_wedge L m a).
Proof.
  intros (R0 & RF & E0 & ER). unfold max_wedge. destruct m.
  - apply halts_bind; [apply div_halts|]. intros x X. destruct (sub_between _ _ RF E0 ER). destruct (quotient _ _ _ H H0 X) as (y & ->). apply halts_ok.
  - apply halts_bind; [apply div_halts|]. intros x X. destruct (quotient _ _ _ R0 (add_above _ _ RF E0) X) as (y & ->). apply halts_ok.
  - set (d := fdiv (fa_error a) (Q2Qc 2)). assert (HD : (zero <= fa_error a / Q2Qc 2)%Qc /\ (fa_error a / Q2Qc 2 <= fa_radius a)%Qc).
    { unfold Qcdiv. replace (/ Q2Qc 2)%Qc with (frac 1 2) by (apply Qc_is_canon; reflexivity). unfold Qcle in *. rewrite this_mul, this_frac. change (this zero) with 0%Q in *. lra. }
    destruct HD as [H1 H2]. assert (D0 : (zero <= d)%Qc) by (apply rnd_pos; exact H1). assert (DR : (d <= fa_radius a)%Qc) by (unfold d, fdiv; rewrite <- RF; apply MO; exact H2).
    apply halts_bind; [apply div_halts|]. intros x X. destruct (sub_between _ _ RF D0 DR) as [S0 S1]. destruct (quotient _ _ _ S0 (Qcle_trans _ _ _ S1 (add_above _ _ RF D0)) X) as (y & ->). apply halts_ok.
Qed.
Lemma wedges_halts m a : arc_fit a -> halts (wedges_of L m a).
Proof. intros F. apply halts_bind; [apply max_wedge_halts; auto|]. intros w _. apply halts_bind; [apply div_halts|]. intros q _. apply halts_ok. Qed.
Lemma wedge_halts m a : arc_fit a -> halts (wedge_of L m a).
Proof. intros F. apply halts_bind; [apply wedges_halts; auto|]. intros w _. apply div_halts. Qed.
Lemma outer_halts m a : arc_fit a -> halts (outer_of L m a).
Proof.
  intros F. destruct m; cbn [outer_of]; [apply halts_ok| |]; (apply halts_bind; [apply wedge_halts; auto|]); intros w _; [|apply halts_ok]. apply halts_bind; [apply div_halts|]. intros q _. apply halts_ok.
Qed.
Lemma turns_halts m a outer w count n : forall k, halts (snd (turns L m a outer w count n k)).
Proof.
  induction n as [|n IH]; intros k; cbn [turns]; [apply halts_ok|]. destruct (_ || _); [|apply halts_ok]. assert (V : forall c, halts (vertex_at L a outer c)) by (intros c; apply halts_bind; [apply div_halts|intros q _; apply halts_ok]).
  match goal with |- context [vertex_at L a outer ?c] => destruct (V c) as [->|(v & ->)] end; cbn [snd]; [left; reflexivity|apply IH].
Qed.
Lemma line_ends_halts m a : arc_fit a -> halts (snd (line_ends L m a)).
Proof.
  intros F. unfold line_ends. destruct (unit_ok (sub3 (fa_start a) (fa_center a))) as (u & ->). cbn [bind]. destruct (outer_halts m a F) as [->|(r & ->)]; cbn [bind]; [left; reflexivity|]. destruct (wedges_halts m a F) as [->|(n & ->)]; cbn [bind]; [left; reflexivity|].
  destruct (n <=? 0); [apply halts_ok|]. destruct (wedge_halts m a F) as [->|(w & ->)]; [left; reflexivity|apply turns_halts].
Qed.
Lemma mk_fit e n s p c r th hs he : (zero < e)%Qc -> (zero <= r)%Qc -> float r -> arc_fit (mk_farc e n s p c r th hs he).
Proof.
  intros E R F. unfold mk_farc, arc_fit. cbn [fa_radius fa_error]. split; auto. split; auto. unfold Qcltb. unfold Qcle, Qclt in *. change (this zero) with 0%Q in *. destruct (Qcompare_spec (this r) (this e)); lra.
Qed.
(** ** all of it *)
Lemma outcome g p plane meth dist adist e : gcode_wf g -> (forall x, radius_is g x -> float x) -> derives (gcls g) GCodeArcMove -> in_order p plane dist adist e ->
  (posed g -> forall moves x, linearize_arc L g p plane (Some meth) dist adist e = (moves, Raise x) -> x = EGCodeParameterError \/ x = EZeroDivisionError) /\
  (~ posed g -> linearize_arc L g p plane (Some meth) dist adist e = ([], Raise ENameError)).
Proof.
  intros W FR A (PV & PL & DI & AD & EP). unfold linearize_arc. set (pl := match plane with Some c => c | None => GCodeSelectXYPlane end). set (di := match dist with Some c => c | None => GCodeAbsoluteDistanceMode end). set (ad := match adist with Some c => c | None => GCodeIncrementalArcDistanceMode end).
  assert (C1 : subclass (gcls g) GCodeArcMove = true) by (apply subclass_derives; auto). assert (C2 : subclass pl GCodePlaneSelect = true /\ exists n, normal_of pl = Some n) by (unfold pl; destruct PL as [->|(c & -> & [<-|[<-|[<-|[]]]])]; (split; [reflexivity|eexists; reflexivity])).
  assert (C3 : subclass di GCodeAbsoluteDistanceMode || subclass di GCodeIncrementalDistanceMode = true) by (unfold di; destruct DI as [->|(c & -> & [H|H])]; [reflexivity| |]; apply subclass_derives in H; rewrite H; auto using orb_true_r).
  assert (C4 : subclass ad GCodeAbsoluteArcDistanceMode || subclass ad GCodeIncrementalArcDistanceMode = true) by (unfold ad; destruct AD as [->|(c & -> & [H|H])]; [reflexivity| |]; apply subclass_derives in H; rewrite H; auto using orb_true_r).
  destruct C2 as [C2 (n & NO)]. rewrite C1, C2, C3, C4. cbn [andb negb orb]. assert (C5 : Qcleb e zero = false). { unfold Qcleb. unfold Qclt in EP. change (this (Q2Qc 0)) with 0%Q in EP. change (this zero) with 0%Q. destruct (Qcompare_spec (this e) 0); auto; lra. } rewrite C5. cbn [orb].
  unfold arc_of. assert (EN : exists a b, ends_of g p (subclass di GCodeAbsoluteDistanceMode) = Ok (a, b)).
  { unfold ends_of, vector_of. destruct (PV AX) as (x & ->); [cbn; auto|]. destruct (PV AY) as (y & ->); [cbn; auto|]. destruct (PV AZ) as (z & ->); [cbn; auto|]. cbn [bind].
    assert (PO : forall l, In l [LX; LY; LZ] -> exists o, param_value g l = Ok o) by (intros l I; destruct (param_ok g l W) as [(-> & _)|(w & v & _ & _ & -> & _)]; eauto; cbn in *; intuition).
    destruct (PO LX) as (x' & ->); [cbn; auto|]. destruct (PO LY) as (y' & ->); [cbn; auto|]. destruct (PO LZ) as (z' & ->); [cbn; auto|]. cbn [bind]. destruct (subclass di GCodeAbsoluteDistanceMode); eauto. }
  destruct EN as (a & b & ->). cbn [bind]. rewrite NO. split; intros P.
  - intros moves x. destruct (circle_ok g a b n (subclass ad GCodeIncrementalArcDistanceMode) e W FR P) as [->|(p' & q & c & r & -> & R0 & RF)]; cbn [bind]; [intros E; apply pair_equal_spec in E as [_ E]; left; congruence|].
    match goal with |- context [line_ends L meth ?f] => pose proof (line_ends_halts meth f (mk_fit _ _ _ _ _ _ _ _ _ EP R0 RF)) as H; set (k := line_ends L meth f) in * end.
    destruct (subclass di GCodeAbsoluteDistanceMode); [rewrite absolute_all|rewrite relative_all]; intros E; apply pair_equal_spec in E as [_ E]; destruct H as [H|(v & H)]; rewrite H in E; try discriminate E; right; congruence.
  - unfold circle_of. destruct (projection_ok a n) as (p' & ->). destruct (projection_ok b n) as (q & ->). cbn [bind]. rewrite (proj2 (check_ok g W) P). reflexivity.
Qed.
End WithArith.
