(** Lemmas for C95: linearize_arc as a whole. *)
From Coq Require Import List Bool ZArith QArith Qcanon Qreals Reals Lia Lra.
From Verif Require Import Base Num Words GTable GCode Position Machine Transform BaseFacts NumFacts WordOrder PrintSpec PrintProofs GCodeSpec PropsGCode ArithSpec MachSpec MachProofs CannedProofs Arc ArcSpec ArcProofs2 ArcProofs3.
From Verif Require Import FloatArc FloatArcSpec FloatArcSpec3 FloatArcProofs FloatArcProofs2 FloatArcProofs3 FloatArcProofs5 FloatArcProofs6 FloatArcProofs7 FloatArcProofs8 FloatArcProofs12.
Import ListNotations.
Open Scope R_scope.
Section Laws.
Context {ar : Arith} (L : mathlib) (u i : R) (C : close_to_real ar L u i) (U : 0 < u <= / 1000000) (I : 0 < i <= u) (LW : lawful L) (acc : accurate ar) (ID : idempotent ar).
Notation q := Qc2R.
Notation up := (FV zero zero one).
Notation XY := GCodeSelectXYPlane.
(** the ends *)
Lemma ends_real g s p0 q0 a b : gcode_wf g -> at_point s p0 -> target true g p0 q0 -> ends_of g s true = Ok (a, b) -> p0 = real3 a /\ q0 = real3 b.
Proof.
  intros W AT TG E. destruct (ends_spec g s p0 true W AT) as (q1 & E1 & _ & UN). rewrite (UN _ TG). clear UN TG q0. destruct AT as (x & y & z & X & Y & Z & ->). revert E E1. unfold ends_of, vector_of, arc_ends, pos_vector. rewrite X, Y, Z. cbn [bind].
  destruct (param_value g LX) as [x'|] eqn:PX; [|discriminate]. destruct (param_value g LY) as [y'|] eqn:PY; [|discriminate]. destruct (param_value g LZ) as [z'|] eqn:PZ; [|discriminate]. cbn [bind].
  destruct (word_value g LX x' W ltac:(cbn; auto 10) PX) as [-> _]. destruct (word_value g LY y' W ltac:(cbn; auto 10) PY) as [-> _]. destruct (word_value g LZ z' W ltac:(cbn; auto 10) PZ) as [-> _]. cbn [bind].
  intros E E1. injection E as <- <-. injection E1 as <-. split; auto. destruct x', y', z'; reflexivity.
Qed.
Lemma start_ok s p0 : (forall a x, In a [AX; AY; AZ] -> vget (pvals s) a = Some x -> float x) -> at_point s p0 -> exists a, vector_of s = Ok a /\ float3 a.
Proof. intros F (x & y & z & X & Y & Z & _). unfold vector_of. rewrite X, Y, Z. eexists. split; [reflexivity|]. repeat split; cbn [fx fy fz]; eapply F; eauto; cbn; auto. Qed.
Lemma ends_start g s ab a b : ends_of g s ab = Ok (a, b) -> vector_of s = Ok a.
Proof. unfold ends_of. destruct (vector_of s); [|discriminate]. cbn [bind]. destruct (param_value g LX); [|discriminate]. destruct (param_value g LY); [|discriminate]. destruct (param_value g LZ); [|discriminate]. cbn [bind]. destruct ab; intros E; injection E as <- _; reflexivity. Qed.
(** no point is far away *)
Lemma rising_below : forall a ths A, rising a ths A -> forall th, In th ths -> a < th <= A.
Proof.
  induction 1 as [a b H|a b l A H R IH]; intros th J; [destruct J as [<-|[]]; lra|]. destruct J as [<-|J]; [|specialize (IH th J); lra]. split; auto. destruct l as [|y l]; [inversion R|]. specialize (IH y ltac:(left; reflexivity)). lra.
Qed.
Lemma pieces_last (P : vec -> Prop) : forall vs p, Forall (fun pq => forall x, between (fst pq) (snd pq) x -> P x) (pieces p vs) -> Forall P vs.
Proof.
  induction vs as [|v vs IH]; intros p F; cbn [pieces] in F; [constructor|]. inversion F as [|? ? F1 F2]; subst. cbn [fst snd] in F1. constructor; [|apply (IH v); exact F2]. apply F1. exists 1. split; [lra|]. repeat split; ring.
Qed.
Lemma allowed_upto m r e d x : 0 <= e -> 0 <= d -> nearly_allowed m r e d x -> x <= r + e + d.
Proof. intros E D. destruct m; cbn; lra. Qed.
Lemma points_inside cw m a b c r e M A ths vs : 1 <= M -> 0 <= e -> inside M a -> inside M b -> 0 <= r <= 101 / 100 * M -> Rabs (vx c) <= 22 / 10 * M -> Rabs (vy c) <= 22 / 10 * M -> 0 < A -> rising 0 ths A ->
  Forall2 (near_helix XY cw c a b A (1500 * u * M)) ths vs -> Forall (fun pq => forall x, between (fst pq) (snd pq) x -> nearly_allowed m r e (1500 * u * M) (apart XY x c)) (pieces a vs) -> Forall (inside (4 * M + e)) vs.
Proof.
  intros M1 E0 (_ & _ & AZ) (_ & _ & BZ) RB CX CY A0 RI FH FP. apply pieces_last in FP. apply Forall_forall. intros v J. rewrite Forall_forall in FP. pose proof (FP v J) as AL.
  assert (D0 : 0 <= 1500 * u * M <= 15 / 10000 * M) by nra. apply allowed_upto in AL; [|lra|lra].
  assert (NX : Rabs (vx v - vx c) <= apart XY v c /\ Rabs (vy v - vy c) <= apart XY v c).
  { unfold apart. cbn [pu pv]. set (x := vx v - vx c). set (y := vy v - vy c). pose proof (Rle_0_sqr x). pose proof (Rle_0_sqr y). unfold Rsqr in *. split; rewrite <- (sqrt_Rsqr_abs); apply sqrt_le_1_alt; unfold Rsqr; lra. }
  destruct (In_nth vs v v J) as (k & KL & KN). assert (LE : length ths = length vs) by (clear -FH; induction FH; cbn; auto). assert (HN : near_helix XY cw c a b A (1500 * u * M) (nth k ths 0) v).
  { clear -FH KL KN. revert k KL KN. induction FH as [|th w ths ws H FH IH]; intros k KL KN; [cbn in KL; lia|]. destruct k; cbn [nth] in *; [subst; auto|]. apply IH; auto. cbn in KL. lia. }
  destruct HN as (_ & _ & _ & _ & _ & HZ). cbn [ph] in HZ. assert (TH : 0 < nth k ths 0 <= A) by (apply (rising_below 0 ths A RI); apply nth_In; lia). set (th := nth k ths 0) in *.
  assert (TA : 0 <= th / A <= 1). { split; [apply Rmult_le_pos; [lra|left; apply Rinv_0_lt_compat; lra]|]. apply (Rmult_le_reg_r A); [lra|]. unfold Rdiv. rewrite Rmult_assoc, Rinv_l by lra. lra. }
  set (s := th / A) in *.
  assert (AB : forall x y, Rabs x <= y -> - y <= x <= y) by (intros x y Q; pose proof (Rle_abs x); pose proof (Rle_abs (- x)) as Q2; rewrite Rabs_Ropp in Q2; lra).
  destruct NX as [NX NY]. apply AB in NX, NY, HZ, CX, CY, AZ, BZ. repeat split; apply Rabs_le; [lra|lra|]. nra.
Qed.
(** the points, whatever the mode *)
Lemma points_near g s ab m e a b f vs relative M : gcode_wf g -> (forall l w x, In (l, w) (gparams g) -> wvalue w = VFloat x -> float x) -> float3 a -> float3 b -> 1 <= M -> inside M (real3 a) -> inside M (real3 b) -> (forall x, reads g LR x -> Rabs x <= M) ->
  (forall o, lacks g LR -> given_center relative g (real3 a) o -> apart XY (real3 a) o <= M /\ apart XY (real3 b) o <= M) -> 2000 * u * M <= apart XY (real3 a) (real3 b) -> 2000 * u * M <= q e ->
  ends_of g s ab = Ok (a, b) -> arc_of L g s XY ab relative e = Ok (a, f) -> line_ends L m f = (vs, Ok tt) ->
  exists o r A ths, (exists before, vs = before ++ [b]) /\ nearly_circle g XY relative (real3 a) (real3 b) o r (165 * u * M) (10 * R_sqrt.sqrt u * M) /\ 0 < A < 2 * PI /\ rising 0 ths A /\
    Forall2 (near_helix XY (clockwise g) o (real3 a) (real3 b) A (1500 * u * M)) ths (map real3 vs) /\
    Forall (fun pq => forall x, between (fst pq) (snd pq) x -> nearly_allowed m r (q e) (1500 * u * M) (apart XY x o)) (pieces (real3 a) (map real3 vs)) /\ Forall (inside (4 * M + q e)) (map real3 vs).
Proof.
  intros W FW FA FB M1 PM QM RM GM AP EL EN AO LE. unfold arc_of in AO. rewrite EN in AO. cbn [bind normal_of] in AO. destruct (circle_of L g a b _ _ e) as [[[[p p'] c] r]|] eqn:CO; [|discriminate]. cbn [bind] in AO. injection AO as <-.
  destruct (circle_near L u i C U I LW acc ID g a b relative e p p' c r M W FW FA FB M1 PM QM AP RM GM CO) as (-> & -> & ZC & NC & RB & CX & CY). pose proof NC as (R1 & R2 & _).
  destruct (lines_near L u i C U I LW acc ID (clockwise g) m a b c r e M M1 FA FB PM QM ZC R1 R2 (proj1 RB) (proj2 RB) CX CY AP EL vs LE) as (PB & _ & ths & RI & FH & FP).
  exists (real3 c), (q r), (Rabs (q (fa_angle (arc L (clockwise g) a b c r e)))), ths. split; [|split; [exact NC|split; [exact PB|split; [exact RI|split; [exact FH|split; [exact FP|]]]]]].
  - destruct (line_ends_last L m _ vs LE) as (bs & ->). exists bs. do 3 f_equal. exact (last_point L u acc (clockwise g) a b c r e M FB QM R2 AP).
  - assert (UM : 0 <= u * M) by nra. exact (points_inside (clockwise g) m (real3 a) (real3 b) (real3 c) (q r) (q e) M _ ths _ M1 ltac:(lra) PM QM ltac:(lra) CX CY (proj1 PB) RI FH FP).
Qed.
Lemma relative_mode adist relative : arc_dist_is adist relative -> subclass (match adist with Some c => c | None => GCodeIncrementalArcDistanceMode end) GCodeIncrementalArcDistanceMode = relative.
Proof. intros AD. destruct relative; [destruct AD as [->|(c & -> & D)]; [reflexivity|apply subclass_derives; exact D]|]. destruct AD as (c & -> & D). apply subclass_derives in D. destruct c; revert D; vm_compute; congruence. Qed.
Lemma path_near g s plane m dist adist e moves p0 q0 relative M : gcode_wf g -> all_floats g s -> at_point s p0 -> target true g p0 q0 -> plane_is plane XY -> in_absolute dist -> arc_dist_is adist relative ->
  1 <= M -> inside M p0 -> inside M q0 -> (forall x, reads g LR x -> Rabs x <= M) -> (forall o, lacks g LR -> given_center relative g p0 o -> apart XY p0 o <= M /\ apart XY q0 o <= M) ->
  2000 * u * M <= apart XY p0 q0 -> 2000 * u * M <= q e -> linearize_arc L g s plane (Some m) dist adist e = (moves, Ok tt) ->
  exists o r A vs ths, Forall2 goes_to moves vs /\ (exists before, vs = before ++ [q0]) /\ nearly_circle g XY relative p0 q0 o r (165 * u * M) (10 * R_sqrt.sqrt u * M) /\ 0 < A < 2 * PI /\ rising 0 ths A /\
    Forall2 (near_helix XY (clockwise g) o p0 q0 A (1500 * u * M)) ths vs /\ Forall (fun pq => forall x, between (fst pq) (snd pq) x -> nearly_allowed m r (q e) (1500 * u * M) (apart XY x o)) (pieces p0 vs) /\ Forall (inside (4 * M + q e)) vs.
Proof.
  intros W (F1 & F2) AT TG PL DI AD M1 PM QM RM GM AP EL. unfold linearize_arc. rewrite dist_absolute by auto.
  assert (PE : match plane with Some c => c | None => XY end = XY) by (destruct PL as [->|[-> _]]; reflexivity). rewrite PE. clear PE PL. rewrite (relative_mode adist relative AD).
  destruct (_ || _); [discriminate|]. destruct (arc_of L g s _ _ _ _) as [[a f]|] eqn:AO; [|discriminate]. rewrite absolute_all. destruct (line_ends L m f) as [vs r0] eqn:LE. cbn [fst snd]. intros E. apply pair_equal_spec in E as [<- ->].
  assert (EN : exists b, ends_of g s true = Ok (a, b)) by (unfold arc_of in AO; destruct (ends_of g s true) as [[a' b]|]; [|discriminate]; cbn [bind normal_of] in AO; destruct (circle_of L g a' b _ _ e) as [[[[p p'] c] r]|]; [|discriminate]; cbn [bind] in AO; injection AO as <- _; eauto).
  destruct EN as (b & EN). destruct (ends_real g s p0 q0 a b W AT TG EN) as [-> ->]. destruct (start_ok s _ F2 AT) as (a1 & VA & FA). rewrite (ends_start _ _ _ _ _ EN) in VA. injection VA as <-.
  assert (FL : float_arc g s) by (split; auto; intros x y _ (w & J & V); eauto). destruct (ends_absolute g s a b W FL EN) as (FB & _).
  destruct (points_near g s true m e a b f vs relative M W F1 FA FB M1 PM QM RM GM AP EL EN AO LE) as (o & r & A & ths & (bs & LA) & NC & PB & RI & FH & FP & FI).
  exists o, r, A, (map real3 vs), ths. split; [|split; [exists (map real3 bs); rewrite LA, map_app; reflexivity|split; [exact NC|split; [exact PB|split; [exact RI|split; [exact FH|split; [exact FP|exact FI]]]]]]].
  clear -acc. induction vs as [|v vs IH]; cbn [map]; constructor; auto. exists (fx v), (fy v), (fz v). split; [apply g1_linear; exact acc|reflexivity].
Qed.
End Laws.
