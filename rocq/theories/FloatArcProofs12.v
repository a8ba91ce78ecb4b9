(** Lemmas for C95: the corners and the lines. *)
From Coq Require Import List Bool ZArith QArith Qcanon Qabs Qround Qreals Reals Lia Lra Psatz.
From Verif Require Import Base Num Words GTable GCode Position Machine Transform BaseFacts NumFacts WordOrder PrintSpec PrintProofs PosProofs ArithSpec Float64 DrillProofs Arc ArcSpec ArcProofs2.
From Verif Require Import FloatArc FloatArcSpec FloatArcSpec3 FloatArcProofs FloatArcProofs5 FloatArcProofs6 FloatArcProofs7 FloatArcProofs9 FloatArcProofs10 FloatArcProofs11.
Import ListNotations.
Open Scope R_scope.
Definition lo (m : arc_method) (r e : R) : R := match m with Inside => r - e | Outside => r | Mid => r - e / 2 end.
Definition hi (m : arc_method) (r e : R) : R := match m with Inside => r | Outside => r + e | Mid => r + e / 2 end.
Lemma nearly_range m r e d x : nearly_allowed m r e d x <-> lo m r e - d <= x <= hi m r e + d. Proof. unfold nearly_allowed, lo, hi. destruct m; tauto. Qed.
Lemma range_more m r e e' : e' <= e -> lo m r e <= lo m r e' /\ hi m r e' <= hi m r e. Proof. unfold lo, hi. destruct m; lra. Qed.

Section Laws.
Context {ar : Arith} (L : mathlib) (u i : R) (C : close_to_real ar L u i) (U : 0 < u <= / 1000000) (I : 0 < i <= u) (LW : lawful L) (acc : accurate ar) (ID : idempotent ar).
Notation q := Qc2R.
Notation up := (FV zero zero one).
Notation XY := GCodeSelectXYPlane.
Lemma axis_down : neg3 up = FV (Q2Qc 0) (Q2Qc 0) (- Q2Qc 1)%Qc.
Proof. unfold neg3. cbn [fx fy fz]. f_equal; apply Qc_is_canon; reflexivity. Qed.
Lemma float_add x y : float (fadd x y). Proof. apply ID. Qed.
Lemma height v : float3 v -> scale3 up (dot3 v up) = FV zero zero (fz v).
Proof. intros (X & Y & Z). unfold scale3, dot3. cbn [fx fy fz]. rewrite !(mul_0r acc), (mul_1r (fz v) Z), (add_0l zero (r0 acc)), (add_0l (fz v) Z), (mul_0l acc), (mul_1l (fz v) Z). reflexivity. Qed.

Section Arc.
Context (cw : bool) (m : arc_method) (A B c : fvec) (rq e : Qc) (M : R) (M1 : 1 <= M) (FA : float3 A) (FB : float3 B) (AM : inside M (real3 A)) (BM : inside M (real3 B)) (ZC : fz c = zero)
  (R1 : Rabs (apart XY (real3 A) (real3 c) - q rq) <= 165 * u * M) (R2 : Rabs (apart XY (real3 B) (real3 c) - q rq) <= 165 * u * M) (RL : 900 * u * M <= q rq) (RH : q rq <= 101 / 100 * M)
  (CX : Rabs (q (fx c)) <= 22 / 10 * M) (CY : Rabs (q (fy c)) <= 22 / 10 * M) (AP : 2000 * u * M <= apart XY (real3 A) (real3 B)) (EL : 2000 * u * M <= q e).
Definition pA := FV (fx A) (fy A) zero.
Definition pB := FV (fx B) (fy B) zero.
Definition arc : farc := mk_farc e up pA pB c rq (angle_of L cw XY (sub3 pA c) (sub3 pB c)) (scale3 up (dot3 A up)) (scale3 up (dot3 B up)).
Notation r := (q rq).
Notation T := (q (fa_angle arc)).
Notation phi := (Rabs (q (fa_angle arc))).
Notation o := (real3 c).
Notation N := (len (q (fx A) - q (fx c)) (q (fy A) - q (fy c))).
Notation N' := (len (q (fx B) - q (fx c)) (q (fy B) - q (fy c))).
Notation dx := ((q (fx A) - q (fx c)) / N).
Notation dy := ((q (fy A) - q (fy c)) / N).
Lemma uM0 : 0 < u * M /\ u <= u * M /\ u * M <= / 1000000 * M /\ u * (u * M) <= / 1000000 * (u * M) /\ u * (i * i) <= / 1000000 * (u * M).
Proof.
  assert (P : 0 < u * M) by (apply Rmult_lt_0_compat; lra). split; auto. split; [assert (u * 1 <= u * M) by (apply Rmult_le_compat_l; lra); lra|]. split; [apply Rmult_le_compat_r; lra|]. split; [apply Rmult_le_compat_r; lra|].
  pose proof (ii u i U I). replace (/ 1000000 * (u * M)) with (u * (/ 1000000 * M)) by ring. apply Rmult_le_compat_l; lra.
Qed.
Lemma N_near : Rabs (N - r) <= 165 * (u * M) /\ Rabs (N' - r) <= 165 * (u * M) /\ 700 * (u * M) <= N <= 102 / 100 * M /\ 700 * (u * M) <= N' <= 102 / 100 * M.
Proof. rewrite apart_len in R1, R2. cbn [pu pv real3 vx vy] in R1, R2. pose proof uM0 as (P & P1 & P2 & _). pose proof (proj1 (ab _ _) R1). pose proof (proj1 (ab _ _) R2). split; [apply Rle_trans with (1 := R1); lra|]. split; [apply Rle_trans with (1 := R2); lra|]. lra. Qed.
Lemma unit_len (X Y : R) : 0 < len X Y -> Rabs (X / len X Y) <= 1 /\ Rabs (Y / len X Y) <= 1 /\ X / len X Y * (X / len X Y) + Y / len X Y * (Y / len X Y) = 1.
Proof.
  intros P. assert (G : forall z, Rabs z <= len X Y -> Rabs (z / len X Y) <= 1) by (intros z ZN; unfold Rdiv; rewrite Rabs_mult, (Rabs_right (/ len X Y)) by (apply Rle_ge; left; apply Rinv_0_lt_compat; auto); apply Rmult_le_reg_r with (len X Y); auto; rewrite Rmult_assoc, Rinv_l by lra; lra).
  split; [apply G, len_x|]. split; [apply G, len_y|]. pose proof (len_sq X Y) as E. transitivity ((X * X + Y * Y) / (len X Y * len X Y)); [field; lra|]. rewrite <- E. field. lra.
Qed.
Lemma dxy : Rabs dx <= 1 /\ Rabs dy <= 1 /\ dx * dx + dy * dy = 1. Proof. apply unit_len. pose proof N_near. pose proof uM0. lra. Qed.
Lemma turn : 0 <= phi <= 2 * PI + 9 * u /\ T = (if cw then phi else - phi) /\ Rabs (rx dx dy T - (q (fx B) - q (fx c)) / N') <= 70 * u /\ Rabs (ry dx dy T - (q (fy B) - q (fy c)) / N') <= 70 * u.
Proof.
  pose proof N_near as (_ & _ & NB & NB'). pose proof uM0 as (P & P1 & _). destruct (angle_near L u i C U I acc cw pA pB c eq_refl eq_refl ZC ltac:(cbn [pA pB fx fy]; lra) ltac:(cbn [pA pB fx fy]; lra)) as (phi' & PB & TE & X & Y). cbn [pA pB fx fy] in TE, X, Y. unfold arc at 1 2 3 4 5 6. unfold mk_farc. cbn [fa_angle].
  assert (E : Rabs (q (angle_of L cw XY (sub3 pA c) (sub3 pB c))) = phi'). { change (FV (fx A) (fy A) zero) with pA in TE. change (FV (fx B) (fy B) zero) with pB in TE. rewrite TE. destruct cw; [|rewrite Rabs_Ropp]; apply Rabs_right; lra. }
  rewrite E. split; auto.
Qed.
Lemma turn_far (k : Z) : 290 * u <= Rabs (T - 2 * PI * IZR k).
Proof.
  destruct turn as (PB & _ & X & Y). pose proof N_near as (NR & NR' & NB & NB'). pose proof uM0 as (P & P1 & P2 & _). destruct dxy as (D1 & D2 & _). destruct (unit_len (q (fx B) - q (fx c)) (q (fy B) - q (fy c)) ltac:(lra)) as (D1' & D2' & _). destruct (rot_angle dx dy (2 * PI * IZR k) T 1 D1 D2) as [AX AY]. assert (CK : cos (2 * PI * IZR k) = 1) by (rewrite <- (Rplus_0_l (2 * PI * IZR k)), cos_Z; apply cos_0). assert (SK : sin (2 * PI * IZR k) = 0) by (rewrite <- (Rplus_0_l (2 * PI * IZR k)), sin_Z; apply sin_0). replace (rx dx dy (2 * PI * IZR k)) with dx in AX by (unfold rx; rewrite CK, SK; ring). replace (ry dx dy (2 * PI * IZR k)) with dy in AY by (unfold ry; rewrite CK, SK; ring). set (psi := Rabs (T - 2 * PI * IZR k)) in *.
  set (bx := (q (fx B) - q (fx c)) / N') in *. set (by_ := (q (fy B) - q (fy c)) / N') in *. assert (N0 : 0 < N) by lra. assert (N0' : 0 < N') by lra. assert (EBX : q (fx B) - q (fx c) = N' * bx) by (unfold bx; field; lra). assert (EBY : q (fy B) - q (fy c) = N' * by_) by (unfold by_; field; lra). assert (EAX : q (fx A) - q (fx c) = N * dx) by (field; lra). assert (EAY : q (fy A) - q (fy c) = N * dy) by (field; lra).
  assert (DN : Rabs (N' - N) <= 330 * (u * M)) by (apply ab in NR, NR'; apply ab; lra).
  assert (G : forall z w, Rabs z <= 1 -> Rabs (w - z) <= 70 * u + 2 * psi -> Rabs (N' * w - N * z) <= 402 * (u * M) + 204 / 100 * (M * psi)).
  { intros z w Z W. replace (N' * w - N * z) with (N' * (w - z) + (N' - N) * z) by ring. eapply Rle_trans; [apply Rabs_triang|]. rewrite !Rabs_mult, (Rabs_right N') by lra. assert (N' * Rabs (w - z) <= 102 / 100 * M * (70 * u + 2 * psi)) by (apply Rmult_le_compat; try lra; apply ab_pos). assert (Rabs (N' - N) * Rabs z <= 330 * (u * M) * 1) by (apply Rmult_le_compat; auto using ab_pos). lra. }
  pose proof (G dx bx D1) as GX. pose proof (G dy by_ D2) as GY. rewrite <- EBX, <- EAX in GX. rewrite <- EBY, <- EAY in GY. assert (WX : Rabs (bx - dx) <= 70 * u + 2 * psi) by (apply ab in X, AX; apply ab; lra). assert (WY : Rabs (by_ - dy) <= 70 * u + 2 * psi) by (apply ab in Y, AY; apply ab; lra). specialize (GX WX). specialize (GY WY).
  rewrite apart_len in AP. cbn [pu pv real3 vx vy] in AP. pose proof (len_sum (q (fx A) - q (fx B)) (q (fy A) - q (fy B))) as S. replace (q (fx B) - q (fx c) - (q (fx A) - q (fx c))) with (- (q (fx A) - q (fx B))) in GX by ring. replace (q (fy B) - q (fy c) - (q (fy A) - q (fy c))) with (- (q (fy A) - q (fy B))) in GY by ring. rewrite Rabs_Ropp in GX, GY.
  apply Rmult_le_reg_l with M; [lra|]. lra.
Qed.
Lemma phi_low : 290 * u <= phi. Proof. pose proof (turn_far 0) as H. rewrite Rmult_0_r, Rminus_0_r in H. exact H. Qed.
Lemma phi_high : phi <= 2 * PI - 290 * u.
Proof.
  destruct turn as (PB & TE & _). destruct cw.
  - pose proof (turn_far 1) as H. rewrite TE in H at 1. unfold Rabs at 1 in H. destruct (Rcase_abs _) in H; lra.
  - pose proof (turn_far (-1)) as H. rewrite TE in H at 1. unfold Rabs at 1 in H. destruct (Rcase_abs _) in H; lra.
Qed.
(** the arc as [max_wedge] and so on need it *)
Lemma error_ok : 900 * u * M <= q (fa_error arc) /\ q (fa_error arc) <= r /\ q (fa_error arc) <= q e.
Proof. unfold arc, mk_farc. cbn [fa_error]. pose proof uM0. destruct (Qcltb rq e) eqn:E; [apply q_lt in E|apply q_ge in E]; lra. Qed.
(** ** the ends of the arc *)
Lemma sides : 0 < r /\ u * r <= 101 / 100 * (u * M). Proof. pose proof uM0. split; [lra|]. replace (101 / 100 * (u * M)) with (u * (101 / 100 * M)) by ring. apply Rmult_le_compat_l; lra. Qed.
Lemma start_vert : vert o dx dy r 0 (600 * (u * M)) (real3 A).
Proof.
  pose proof N_near as (NR & _ & NB & _). pose proof uM0 as (P & _). destruct dxy as (D1 & D2 & _). unfold vert. cbn [real3 vx vy]. replace (rx dx dy 0) with dx by (unfold rx; rewrite cos_0, sin_0; ring). replace (ry dx dy 0) with dy by (unfold ry; rewrite cos_0, sin_0; ring). assert (N0 : 0 < N) by lra.
  assert (G : forall z, Rabs (z / N) <= 1 -> Rabs (z - r * (z / N)) <= 600 * (u * M)). { intros z Z. replace (z - r * (z / N)) with ((N - r) * (z / N)) by (field; lra). rewrite Rabs_mult. assert (Rabs (N - r) * Rabs (z / N) <= 165 * (u * M) * 1) by (apply Rmult_le_compat; auto using ab_pos). lra. }
  split; apply G; auto.
Qed.
Lemma end_vert : vert o dx dy r T (600 * (u * M)) (real3 B).
Proof.
  destruct turn as (_ & _ & X & Y). pose proof N_near as (_ & NR & _ & NB). pose proof uM0 as (P & P1 & P2 & _). destruct sides as [RP UR]. destruct (unit_len (q (fx B) - q (fx c)) (q (fy B) - q (fy c)) ltac:(lra)) as (D1 & D2 & _). unfold vert. cbn [real3 vx vy]. assert (N0 : 0 < N') by lra.
  assert (G : forall z w, Rabs (z / N') <= 1 -> Rabs (w - z / N') <= 70 * u -> Rabs (z - r * w) <= 600 * (u * M)). { intros z w Z W. replace (z - r * w) with ((N' - r) * (z / N') + - (r * (w - z / N'))) by (field; lra). eapply Rle_trans; [apply Rabs_triang|]. rewrite Rabs_Ropp, !Rabs_mult, (Rabs_right r) by lra. assert (Rabs (N' - r) * Rabs (z / N') <= 165 * (u * M) * 1) by (apply Rmult_le_compat; auto using ab_pos). assert (r * Rabs (w - z / N') <= r * (70 * u)) by (apply Rmult_le_compat_l; lra). lra. }
  split; apply G; auto.
Qed.
Definition sg (t : R) : R := if cw then t else - t.
Lemma sg_T : sg phi = T. Proof. destruct turn as (_ & E & _). unfold sg. symmetry. exact E. Qed.
Lemma helix_of rho t v : 0 < rho -> vert o dx dy rho (sg t) (600 * (u * M)) v -> Rabs (vz v - (q (fz A) + (q (fz B) - q (fz A)) * (t / phi))) <= 60 * (u * M) -> near_helix XY cw o (real3 A) (real3 B) phi (1500 * u * M) t v.
Proof.
  intros RP [VX VY] VZ. pose proof N_near as (_ & _ & NB & _). pose proof uM0 as (P & _). assert (N0 : 0 < N) by lra. exists (rho / N), (V3 (q (fx c) + rho * rx dx dy (sg t)) (q (fy c) + rho * ry dx dy (sg t)) 0). split; [apply Rmult_lt_0_compat; [auto|apply Rinv_0_lt_compat; auto]|]. split.
  - apply rot_turned. cbn [real3 vx vy]. fold (sg t). destruct (rot_scale N dx dy (sg t)) as [SX SY]. replace (N * dx) with (q (fx A) - q (fx c)) in SX, SY by (field; lra). replace (N * dy) with (q (fy A) - q (fy c)) in SX, SY by (field; lra). rewrite SX, SY. split; field; lra.
  - split; [|cbn [ph real3 vz]; lra]. rewrite apart_len. cbn [pu pv vx vy real3] in *. eapply Rle_trans; [apply len_sum|]. replace (vx v - (q (fx c) + rho * rx dx dy (sg t))) with (vx v - q (fx c) - rho * rx dx dy (sg t)) by ring. replace (vy v - (q (fy c) + rho * ry dx dy (sg t))) with (vy v - q (fy c) - rho * ry dx dy (sg t)) by ring. lra.
Qed.
Lemma last_point : add3 (fa_end arc) (fa_hend arc) = B.
Proof. change (add3 pB (scale3 up (dot3 B up)) = B). rewrite (height B FB). destruct FB as (X & Y & Z). unfold add3, pB. cbn [fx fy fz]. rewrite (add_0r _ X), (add_0r _ Y), (add_0l _ Z). destruct B; reflexivity. Qed.
Section Count.
Context (n : Z) (EN : wedges_of L m arc = Ok n).
Notation D := (T / IZR n).
Notation delta := (phi / IZR n).
Notation h := (cos (delta / 2)).
Notation rch := (reach m arc n).
Lemma lawsA : 900 * u * M <= q (fa_error arc) /\ q (fa_error arc) <= q (fa_radius arc) /\ q (fa_radius arc) <= 101 / 100 * M /\ 290 * u <= phi /\ phi <= 631 / 100.
Proof. split; [apply error_ok|]. split; [apply error_ok|]. split; [exact RH|]. split; [apply phi_low|]. pose proof phi_high. pose proof pi_bounds. lra. Qed.
Section Corner.
Context (ro : Qc) (ER : outer_of L m arc = Ok ro) (un : fvec) (EU : unit3 L (sub3 pA c) = Ok un).
Lemma ro_near : Rabs (q ro - rch) <= 55 * (u * r) /\ 99 / 100 * r <= q ro <= 214 / 100 * M.
Proof.
  destruct lawsA as (E1 & E2 & E3 & E4 & E5). pose proof (outer_near L u i C U I m arc M M1 E3 E1 E2 E4 E5 n EN ro ER) as O. pose proof (reach_ok L u i C U I m arc M M1 E3 E1 E2 E4 E5 n EN) as [K _]. change (q (fa_radius arc)) with r in *. pose proof uM0 as (P & P1 & P2 & _). split; auto. assert (u * r <= / 1000000 * r) by (apply Rmult_le_compat_r; lra). apply ab in O. lra.
Qed.
Lemma corner_near cur th v : Rabs (q cur - th) <= 10 * (u * phi) -> Rabs th <= phi -> vertex_at L arc (scale3 un ro) cur = Ok v ->
  vert o dx dy (q ro) th (380 * (u * M)) (real3 v) /\ Rabs (vz (real3 v) - (q (fz A) + (q (fz B) - q (fz A)) * (th / T))) <= 60 * (u * M).
Proof.
  intros CT TH. destruct ro_near as [_ [OL OH]]. pose proof uM0 as (P & P1 & P2 & P3 & P4). destruct dxy as (D1 & D2 & DD). destruct turn as (PB' & _). assert (PB : 0 <= phi <= 631 / 100) by (pose proof pi_bounds; lra). clear PB'. pose proof phi_low as PL. pose proof N_near as (_ & _ & NB & _). pose proof (ii u i U I) as II. assert (RO : 0 < q ro) by lra. assert (IRO : i * i <= / 1000 * q ro) by lra. assert (URO : 0 < u * q ro) by (apply Rmult_lt_0_compat; lra). assert (UUR : u * (u * q ro) <= / 1000000 * (u * q ro)) by (apply Rmult_le_compat_r; lra). assert (UIR : u * (i * i) <= / 1000 * (u * q ro)) by (replace (/ 1000 * (u * q ro)) with (u * (/ 1000 * q ro)) by ring; apply Rmult_le_compat_l; lra). assert (URM : u * q ro <= 214 / 100 * (u * M)) by (replace (214 / 100 * (u * M)) with (u * (214 / 100 * M)) by ring; apply Rmult_le_compat_l; lra).
  assert (N2 : 2 * i <= len (q (fx pA) - q (fx c)) (q (fy pA) - q (fy c))) by (cbn [pA fx fy]; lra). destruct (direction_near L u i C U I LW acc pA c un N2 eq_refl ZC EU) as (UX & UY & UZ). cbn [pA fx fy] in UX, UY.
  assert (RN : Rabs (q ro - q ro) <= 0) by (rewrite Rminus_diag_eq, Rabs_R0; lra). set (out := scale3 un ro) in *.
  assert (OC : forall z f, Rabs z <= 1 -> Rabs (q f - z) <= 19 * u -> Rabs (q (fmul f ro) - z * q ro) <= 201 / 10 * (u * q ro)).
  { intros z f Z F. pose proof (f_mul_near L u i C U _ _ _ _ _ _ F RN) as G. rewrite (Rabs_right (q ro)) in G by lra. apply Rle_trans with (1 := G). assert (u * (Rabs z * q ro) <= u * (1 * q ro)) by (apply Rmult_le_compat_l; [lra|]; apply Rmult_le_compat_r; lra). lra. }
  pose proof (OC _ _ D1 UX) as OX. pose proof (OC _ _ D2 UY) as OY. change (fmul (fx un) ro) with (fx out) in OX. change (fmul (fy un) ro) with (fy out) in OY. assert (OZ : fz out = zero) by (unfold out, scale3; cbn [fz]; rewrite UZ; apply (mul_0l acc)).
  assert (UR6 : u * q ro <= / 1000000 * q ro) by (apply Rmult_le_compat_r; lra). assert (SZ : size out <= 201 / 100 * q ro). { unfold size. rewrite OZ, q_zero, Rabs_R0. assert (K : forall z f, Rabs z <= 1 -> Rabs (q f - z * q ro) <= 201 / 10 * (u * q ro) -> Rabs (q f) <= 1001 / 1000 * q ro). { intros z f Z F. assert (Rabs (z * q ro) <= 1 * q ro) by (rewrite Rabs_mult, (Rabs_right (q ro)) by lra; apply Rmult_le_compat_r; lra). apply ab in H, F. apply ab. lra. } pose proof (K _ _ D1 OX). pose proof (K _ _ D2 OY). lra. }
  assert (UP : u * phi <= u * (631 / 100)) by (apply Rmult_le_compat_l; lra). assert (UPP : 0 < u * phi) by (apply Rmult_lt_0_compat; lra). assert (CB : Rabs (q cur) <= 10) by (apply ab in CT, TH; apply ab; lra). pose proof (near_rotate _ _ _ _ C cur out CB) as RT. cbv zeta in RT. rewrite <- axis_down in RT. unfold vertex_at. change (fa_normal arc) with up. set (rot := l_rotate L cur (neg3 up) out) in *. destruct RT as (TX & TY & TZ).
  assert (EB : u * (size out + i * i) <= 202 / 100 * (u * q ro)). { replace (202 / 100 * (u * q ro)) with (u * (202 / 100 * q ro)) by ring. apply Rmult_le_compat_l; lra. }
  destruct (rot_vec (dx * q ro) (dy * q ro) (q (fx out)) (q (fy out)) (q cur) _ OX OY) as [VX VY]. assert (K1 : Rabs (dx * q ro) <= q ro) by (rewrite Rabs_mult, (Rabs_right (q ro)) by lra; rewrite <- (Rmult_1_l (q ro)) at 2; apply Rmult_le_compat_r; lra). assert (K2 : Rabs (dy * q ro) <= q ro) by (rewrite Rabs_mult, (Rabs_right (q ro)) by lra; rewrite <- (Rmult_1_l (q ro)) at 2; apply Rmult_le_compat_r; lra).
  destruct (rot_angle (dx * q ro) (dy * q ro) th (q cur) (q ro) K1 K2) as [WX WY]. assert (WB : 2 * q ro * Rabs (q cur - th) <= 1262 / 10 * (u * q ro)). { assert (2 * q ro * Rabs (q cur - th) <= 2 * q ro * (631 / 10 * u)) by (apply Rmult_le_compat_l; lra). lra. }
  rewrite (Rmult_comm dx (q ro)), (Rmult_comm dy (q ro)) in VX, VY, WX, WY. destruct (rot_scale (q ro) dx dy th) as [SX SY]. rewrite SX in WX. rewrite SY in WY.
  assert (GX : Rabs (q (fx rot) - q ro * rx dx dy th) <= 169 * (u * q ro)). { fold (rx (q (fx out)) (q (fy out)) (q cur)) in TX. assert (TX' := Rle_trans _ _ _ TX EB). assert (WX' := Rle_trans _ _ _ WX WB). apply ab in TX', VX, WX'. apply ab. lra. }
  assert (GY : Rabs (q (fy rot) - q ro * ry dx dy th) <= 169 * (u * q ro)). { fold (ry (q (fx out)) (q (fy out)) (q cur)) in TY. assert (TY' := Rle_trans _ _ _ TY EB). assert (WY' := Rle_trans _ _ _ WY WB). apply ab in TY', VY, WY'. apply ab. lra. }
  destruct (rot_one dx dy th DD) as [RX1 RY1].
  assert (AC : forall f g z, Rabs z <= 1 -> Rabs (q g) <= 22 / 10 * M -> Rabs (q f - q ro * z) <= 169 * (u * q ro) -> Rabs (q (fadd f g) - q g - q ro * z) <= 380 * (u * M)).
  { intros f g z Z G F. assert (GN : Rabs (q g - q g) <= 0) by (rewrite Rminus_diag_eq, Rabs_R0; lra). pose proof (f_add_near L u i C U _ _ _ _ _ _ F GN) as H. assert (ZB : Rabs (q ro * z) <= 214 / 100 * M). { rewrite Rabs_mult, (Rabs_right (q ro)) by lra. apply Rle_trans with (q ro * 1); [apply Rmult_le_compat_l; lra|lra]. } assert (HB : Rabs (q ro * z + q g) <= 45 / 10 * M) by (apply ab in ZB, G; apply ab; lra).
    assert (u * (Rabs (q ro * z + q g) + i * i) <= 46 / 10 * (u * M)). { replace (46 / 10 * (u * M)) with (u * (46 / 10 * M)) by ring. apply Rmult_le_compat_l; lra. } replace (q (fadd f g) - q g - q ro * z) with (q (fadd f g) - (q ro * z + q g)) by ring. apply Rle_trans with (1 := H). lra. }
  destruct (div cur (fa_angle arc)) as [qq|] eqn:ED; [|discriminate]. cbn [bind]. intros E. injection E as <-. apply div_ok in ED. destruct ED as [TNZ ->]. rewrite (height A FA), (height B FB). unfold vert. cbn [add3 sub3 scale3 fx fy fz real3 vx vy vz].
  set (qq := fdiv cur (fa_angle arc)) in *. rewrite (sub_self acc zero), (mul_0l acc), (add_0l zero (r0 acc)). rewrite !(add_0r _ (float_add _ _)). split; [split; apply AC; auto|].
  (* the height *)
  destruct AM as (_ & _ & AZ). destruct BM as (_ & _ & BZ). cbn [real3 vz] in AZ, BZ. rewrite OZ, q_zero, Rminus_0_r in TZ. rewrite ZC. set (z1 := fz rot) in *. assert (Z1 : Rabs (q z1 - 0) <= 44 / 10 * (u * M)) by (rewrite Rminus_0_r; lra). assert (Z0 : Rabs (q zero - 0) <= 0) by (rewrite q_zero, Rminus_0_r, Rabs_R0; lra).
  pose proof (f_add_near L u i C U _ _ _ _ _ _ Z1 Z0) as ZL. rewrite Rplus_0_r, Rabs_R0 in ZL. assert (ZL' : Rabs (q (fadd z1 zero) - 0) <= 45 / 10 * (u * M)) by (rewrite Rplus_0_r in ZL; apply Rle_trans with (1 := ZL); lra).
  assert (TP : 0 < phi) by lra. assert (TA : Rabs (th / T) <= 1). { unfold Rdiv. rewrite Rabs_mult, Rabs_inv. apply Rmult_le_reg_r with phi; auto. rewrite Rmult_assoc, Rinv_l by lra. lra. }
  assert (QN : Rabs (q qq - th / T) <= 111 / 10 * u). { pose proof (f_div L u i C cur (fa_angle arc) TNZ) as F. fold qq in F. assert (E1 : Rabs (q cur / T - th / T) <= 10 * u). { replace (q cur / T - th / T) with ((q cur - th) / T) by (unfold Rdiv; ring). unfold Rdiv. rewrite Rabs_mult, Rabs_inv. apply Rmult_le_reg_r with phi; auto. rewrite Rmult_assoc, Rinv_l by lra. lra. } assert (E2 : Rabs (q cur / T) <= 1001 / 1000) by (apply ab in E1, TA; apply ab; lra). assert (u * (Rabs (q cur / T) + i * i) <= u * (11 / 10)) by (apply Rmult_le_compat_l; lra). apply ab in F, E1. apply ab. lra. }
  pose proof (f_sub L u i C (fz B) (fz A)) as FS. set (H := q (fz B) - q (fz A)) in *. assert (HM : Rabs H <= 2 * M) by (unfold H; apply ab in AZ, BZ; apply ab; lra). assert (FS' : Rabs (q (fsub (fz B) (fz A)) - H) <= 21 / 10 * (u * M)). { apply Rle_trans with (1 := FS). replace (21 / 10 * (u * M)) with (u * (21 / 10 * M)) by ring. apply Rmult_le_compat_l; lra. }
  pose proof (f_mul_near L u i C U _ _ _ _ _ _ FS' QN) as FM. assert (FM' : Rabs (q (fmul (fsub (fz B) (fz A)) qq) - H * (th / T)) <= 27 * (u * M)).
  { apply Rle_trans with (1 := FM). assert (X1 : 21 / 10 * (u * M) * Rabs (th / T) <= 21 / 10 * (u * M) * 1) by (apply Rmult_le_compat_l; lra). assert (X2 : Rabs H * (111 / 10 * u) <= 2 * M * (111 / 10 * u)) by (apply Rmult_le_compat_r; lra). assert (X3 : u * (Rabs H * Rabs (th / T)) <= u * (2 * M * 1)) by (apply Rmult_le_compat_l; [lra|]; apply Rmult_le_compat; auto using ab_pos).
    set (s := 21 / 10 * (u * M) * Rabs (th / T) + Rabs H * (111 / 10 * u) + 21 / 10 * (u * M) * (111 / 10 * u)). assert (SB : s <= 2431 / 100 * (u * M)) by (unfold s; lra). assert (u * s <= u * (2431 / 100 * (u * M))) by (apply Rmult_le_compat_l; lra). lra. }
  assert (AN : Rabs (q (fz A) - q (fz A)) <= 0) by (rewrite Rminus_diag_eq, Rabs_R0; lra). pose proof (f_add_near L u i C U _ _ _ _ _ _ AN FM') as FA'. assert (HT : Rabs (H * (th / T)) <= 2 * M) by (rewrite Rabs_mult; apply Rle_trans with (2 * M * 1); [apply Rmult_le_compat; auto using ab_pos|lra]). assert (ST : Rabs (q (fz A) + H * (th / T)) <= 3 * M) by (apply ab in AZ, HT; apply ab; lra).
  assert (UB : u * (Rabs (q (fz A) + H * (th / T)) + i * i) <= 31 / 10 * (u * M)). { replace (31 / 10 * (u * M)) with (u * (31 / 10 * M)) by ring. apply Rmult_le_compat_l; lra. } assert (FA'' : Rabs (q (fadd (fz A) (fmul (fsub (fz B) (fz A)) qq)) - (q (fz A) + H * (th / T))) <= 302 / 10 * (u * M)) by (apply Rle_trans with (1 := FA'); lra).
  pose proof (f_add_near L u i C U _ _ _ _ _ _ ZL' FA'') as FZ. rewrite Rplus_0_l in FZ. apply Rle_trans with (1 := FZ). lra.
Qed.
(** ** the lines *)
Notation e' := (q (fa_error arc)).
Definition lowb : R := lo m r e' - 120 * (u * r).
Definition highb : R := hi m r e' + 120 * (u * r).
Definition sh : R := if phase_offset m then / 2 else 0.
Lemma limits : lowb <= q ro * h /\ lowb <= r * cos ((/ 2 - sh) * D) /\ q ro <= highb /\ r <= highb.
Proof.
  destruct lawsA as (E1 & E2 & E3 & E4 & E5). destruct ro_near as [O _]. pose proof (reach_ok L u i C U I m arc M M1 E3 E1 E2 E4 E5 n EN) as [K1 K2]. pose proof (hh_D L u i C U I m arc M M1 E3 E1 E2 E4 E5 n EN) as HD. unfold hh in HD, K2. change (q (fa_radius arc)) with r in *. destruct sides as [RP _]. assert (URP : 0 < u * r) by (apply Rmult_lt_0_compat; lra). pose proof (COS_bound (delta / 2)) as CB. pose proof uM0 as (UMP & _).
  assert (HO : Rabs ((q ro - rch) * h) <= 55 * (u * r)). { rewrite Rabs_mult. assert (Rabs h <= 1) by (apply ab; lra). assert (Rabs (q ro - rch) * Rabs h <= 55 * (u * r) * 1) by (apply Rmult_le_compat; auto using ab_pos). lra. }
  apply ab in O, HO. unfold lowb, highb, lo, hi, sh. destruct m; cbn [phase_offset]; rewrite ?cos_0.
  - destruct K2 as [K2 K3]. replace ((/ 2 - 0) * D) with (D / 2) by (unfold Rdiv; ring). rewrite HD. rewrite K2 in *. lra.
  - replace ((/ 2 - / 2) * D) with 0 by ring. rewrite cos_0. lra.
  - replace ((/ 2 - / 2) * D) with 0 by ring. rewrite cos_0. lra.
Qed.
Lemma line_ok v v' rho rho' th th' beta : 0 <= rho <= highb -> 0 <= rho' <= highb -> vert o dx dy rho th (600 * (u * M)) v -> vert o dx dy rho' th' (600 * (u * M)) v' -> lowb <= rho * cos (th - beta) -> lowb <= rho' * cos (th' - beta) ->
  forall x, between v v' x -> nearly_allowed m r (q e) (1500 * u * M) (apart XY x o).
Proof.
  intros P P' V V' H H' x BX. destruct dxy as (_ & _ & DD). pose proof (line_bounds o dx dy DD rho th rho' th' _ v v' beta lowb highb x P P' V V' H H' BX) as K. apply nearly_range. destruct error_ok as (_ & _ & EE). pose proof (range_more m r (q e) e' EE) as [R3 R4]. unfold lowb, highb in K. destruct sides as [_ UR]. pose proof uM0 as (P0 & _). lra.
Qed.
Context (w : Qc) (EW : wedge_of L m arc = Ok w).
Lemma sg_D x : D * x = sg (x * delta).
Proof. rewrite <- sg_T at 1. unfold sg. destruct cw; unfold Rdiv; ring. Qed.
Lemma frac_D x : D * x / T = x * delta / phi.
Proof.
  pose proof phi_low as PL. pose proof sg_T as ST. unfold sg in ST. assert (TZ : T <> 0) by (intros Z; rewrite Z, Rabs_R0 in PL; lra). destruct lawsA as (E1 & E2 & E3 & E4 & E5). pose proof (n_pos L u i C U I m arc M M1 E3 E1 E2 E4 E5 n EN) as NP. transitivity (x / IZR n); [field; split; lra|]. field. split; lra.
Qed.
Lemma turns_near : forall nn k prev rho th tp vs, (1 <= k)%Z -> (k + Z.of_nat nn = n + 1)%Z -> (phase_offset m = false -> (k <= n)%Z) -> 0 <= rho <= highb -> vert o dx dy rho th (600 * (u * M)) prev -> lowb <= rho * cos (th - (IZR k - / 2 - sh) * D) ->
  tp < (IZR k - sh) * delta -> tp < phi -> turns L m arc (scale3 un ro) w n nn k = (vs, Ok tt) ->
  exists ths, rising tp ths phi /\ Forall2 (near_helix XY cw o (real3 A) (real3 B) phi (1500 * u * M)) ths (map real3 vs) /\ Forall (fun pq => forall x, between (fst pq) (snd pq) x -> nearly_allowed m r (q e) (1500 * u * M) (apart XY x o)) (pieces prev (map real3 vs)).
Proof.
  destruct lawsA as (E1 & E2 & E3 & E4 & E5). pose proof (n_pos L u i C U I m arc M M1 E3 E1 E2 E4 E5 n EN) as NP. pose proof (delta_pos L u i C U I m arc M M1 E3 E1 E2 E4 E5 n EN) as DP. pose proof (delta_phi L u i C U I m arc M M1 E3 E1 E2 E4 E5 n EN) as DE. pose proof (hh_D L u i C U I m arc M M1 E3 E1 E2 E4 E5 n EN) as HD. unfold hh in HD. destruct limits as (LM1 & LM2 & LM3 & LM4). destruct sides as [RP UR]. destruct ro_near as [_ [OL OH]]. pose proof uM0 as (UMP & _). assert (P0 : 0 < phi) by lra. assert (TN : T = IZR n * D) by (field; lra).
  assert (LAST : forall k prev rho th tp, 0 <= rho <= highb -> vert o dx dy rho th (600 * (u * M)) prev -> lowb <= rho * cos (th - (IZR k - / 2 - sh) * D) -> tp < phi -> IZR k = IZR n + 2 * sh ->
    exists ths, rising tp ths phi /\ Forall2 (near_helix XY cw o (real3 A) (real3 B) phi (1500 * u * M)) ths (map real3 [add3 (fa_end arc) (fa_hend arc)]) /\ Forall (fun pq => forall x, between (fst pq) (snd pq) x -> nearly_allowed m r (q e) (1500 * u * M) (apart XY x o)) (pieces prev (map real3 [add3 (fa_end arc) (fa_hend arc)]))).
  { intros k prev rho th tp RB V LB TP KN. rewrite last_point. exists [phi]. cbn [map pieces]. split; [constructor; auto|]. split.
    - constructor; [|constructor]. apply (helix_of r); [lra|rewrite sg_T; apply end_vert|]. cbn [real3 vz]. replace (phi / phi) with 1 by (field; lra). replace (q (fz B) - (q (fz A) + (q (fz B) - q (fz A)) * 1)) with 0 by ring. rewrite Rabs_R0. lra.
    - constructor; [|constructor]. cbn [fst snd]. apply (line_ok prev (real3 B) rho r th T ((IZR k - / 2 - sh) * D)); auto; [lra|apply end_vert|]. replace (T - (IZR k - / 2 - sh) * D) with ((/ 2 - sh) * D) by (rewrite KN; transitivity (IZR n * D - (IZR n + 2 * sh - / 2 - sh) * D); [ring|rewrite <- TN; reflexivity]). exact LM2. }
  induction nn as [|nn IH]; intros k prev rho th tp vs K1 KN KP RB V LB T1 T2; cbn [turns].
  - intros E. injection E as <-. apply (LAST k prev rho th tp); auto. rewrite Nat2Z.inj_0, Z.add_0_r in KN. subst k. unfold sh. destruct (phase_offset m) eqn:PH; [rewrite plus_IZR; lra|specialize (KP eq_refl); lia].
  - rewrite Nat2Z.inj_succ in KN. destruct (phase_offset m || (k <? n)%Z) eqn:PC.
    + destruct (vertex_at L arc (scale3 un ro) _) as [v|] eqn:EV; [|discriminate]. destruct (turns L m arc (scale3 un ro) w n nn (k + 1)) as [vs' res] eqn:ET. cbn [fst snd]. intros E. apply pair_equal_spec in E as [E' E'']. subst vs res.
      assert (KB : (1 <= k <= n)%Z) by lia. assert (K1R : 1 <= IZR k) by (apply (IZR_le 1); lia). assert (KNR : IZR k <= IZR n) by (apply IZR_le; lia).
      assert (CN : vert o dx dy (q ro) (D * (IZR k - sh)) (380 * (u * M)) (real3 v) /\ Rabs (vz (real3 v) - (q (fz A) + (q (fz B) - q (fz A)) * (D * (IZR k - sh) / T))) <= 60 * (u * M)).
      { unfold sh in *. destruct (phase_offset m).
        - destruct (turn_half L u i C U I m arc M M1 E3 E1 E2 E4 E5 n EN w EW k KB) as [A1 A2]. apply (corner_near _ _ _ A1 A2 EV).
        - destruct (turn_at L u i C U I m arc M M1 E3 E1 E2 E4 E5 n EN w EW k KB) as [A1 A2]. rewrite Rminus_0_r. assert (UP : 0 < u * phi) by (apply Rmult_lt_0_compat; lra). assert (A1' : Rabs (q (fmul w (float_of_int k)) - D * IZR k) <= 10 * (u * phi)) by lra. apply (corner_near _ _ _ A1' A2 EV). }
      destruct CN as [CV CZ]. assert (CV6 : vert o dx dy (q ro) (D * (IZR k - sh)) (600 * (u * M)) (real3 v)) by (apply (vert_more _ _ _ _ _ (380 * (u * M))); auto; lra).
      assert (SH : 0 <= sh <= / 2) by (unfold sh; destruct (phase_offset m); lra). assert (LT : (IZR k - sh) * delta < phi). { apply Rlt_le_trans with (IZR n * delta); [|lra]. apply Rmult_lt_compat_r; auto. unfold sh in *. destruct (phase_offset m); [lra|]. cbn [orb] in PC. apply Z.ltb_lt in PC. assert (IZR k + 1 <= IZR n) by (rewrite <- plus_IZR; apply IZR_le; lia). lra. }
      destruct (IH (k + 1)%Z (real3 v) (q ro) (D * (IZR k - sh)) ((IZR k - sh) * delta) vs') as (ths & RI & FH & FP); auto; try lia; try lra.
      * intros PF. rewrite PF in PC. cbn [orb] in PC. apply Z.ltb_lt in PC. lia.
      * rewrite plus_IZR. replace (D * (IZR k - sh) - (IZR k + 1 - / 2 - sh) * D) with (- (D / 2)) by (unfold Rdiv; lra). rewrite cos_neg, HD. exact LM1.
      * rewrite plus_IZR. apply Rmult_lt_compat_r; lra.
      * exists ((IZR k - sh) * delta :: ths). cbn [map pieces]. split; [constructor; auto|]. split.
        -- constructor; auto. apply (helix_of (q ro)); [lra|rewrite <- sg_D; auto|]. rewrite <- frac_D. exact CZ.
        -- constructor; auto. cbn [fst snd]. apply (line_ok prev (real3 v) rho (q ro) th (D * (IZR k - sh)) ((IZR k - / 2 - sh) * D)); auto; [lra|]. replace (D * (IZR k - sh) - (IZR k - / 2 - sh) * D) with (D / 2) by (unfold Rdiv; lra). rewrite HD. exact LM1.
    + apply orb_false_iff in PC. destruct PC as [PC1 PC2]. apply Z.ltb_ge in PC2. intros E. injection E as <-. apply (LAST k prev rho th tp); auto. specialize (KP PC1). assert (k = n) by lia. subst k. unfold sh. rewrite PC1. lra.
Qed.
End Corner.
End Count.
Lemma lines_near vs : line_ends L m arc = (vs, Ok tt) -> 0 < phi < 2 * PI /\ T = (if cw then phi else - phi) /\
  exists ths, rising 0 ths phi /\ Forall2 (near_helix XY cw o (real3 A) (real3 B) phi (1500 * u * M)) ths (map real3 vs) /\ Forall (fun pq => forall x, between (fst pq) (snd pq) x -> nearly_allowed m r (q e) (1500 * u * M) (apart XY x o)) (pieces (real3 A) (map real3 vs)).
Proof.
  intros LE. pose proof phi_low as PL. pose proof phi_high as PH. split; [lra|]. split; [apply turn|]. revert LE. unfold line_ends. change (fa_start arc) with pA. change (fa_center arc) with c.
  destruct (unit3 L (sub3 pA c)) as [un|] eqn:EU; [|discriminate]. cbn [bind]. destruct (outer_of L m arc) as [ro|] eqn:EO; [|discriminate]. cbn [bind]. destruct (wedges_of L m arc) as [n|] eqn:EN; [|discriminate]. cbn [bind].
  destruct lawsA as (E1 & E2 & E3 & E4 & E5). destruct (count_near L u i C U I m arc M M1 E3 E1 E2 E4 E5 n EN) as (N1 & _). destruct (n <=? 0)%Z eqn:NZ; [apply Z.leb_le in NZ; lia|]. destruct (wedge_of L m arc) as [w|] eqn:EW; [|discriminate]. intros E. destruct sides as [RP _]. pose proof (delta_pos L u i C U I m arc M M1 E3 E1 E2 E4 E5 n EN) as DP. destruct (limits n EN ro EO) as (LM1 & LM2 & LM3 & LM4).
  apply (turns_near n EN ro EO un EU w EW (Z.to_nat n) 1 (real3 A) r 0 0 vs); auto; try lia; try lra.
  - apply start_vert.
  - replace (0 - (1 - / 2 - sh) * (T / IZR n)) with (- ((/ 2 - sh) * (T / IZR n))) by lra. rewrite cos_neg. exact LM2.
  - apply Rmult_lt_0_compat; auto. unfold sh. destruct (phase_offset m); lra.
Qed.
End Arc.
End Laws.
