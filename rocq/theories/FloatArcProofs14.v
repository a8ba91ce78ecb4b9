(** Lemmas for C95 and C96: paths close to a path that is close to an arc. *)
From Coq Require Import List Bool ZArith QArith Qcanon Qreals Reals Lia Lra.
From Verif Require Import Base Num Words GTable GCode Position Machine Transform BaseFacts NumFacts WordOrder PrintSpec PrintProofs GCodeSpec PropsGCode ArithSpec MachSpec MachProofs CannedProofs Arc ArcSpec ArcProofs2 ArcProofs3.
From Verif Require Import FloatArc FloatArcSpec FloatArcSpec3 FloatArcProofs FloatArcProofs2 FloatArcProofs3 FloatArcProofs5 FloatArcProofs6 FloatArcProofs7 FloatArcProofs8 FloatArcProofs12 FloatArcProofs13.
Import ListNotations.
Open Scope R_scope.
Notation XY := GCodeSelectXYPlane.

Lemma apart_each c h v w : arc_plane c -> by_each h v w -> apart c w v <= 3 / 2 * h.
Proof.
  intros P (X & Y & Z). assert (H0 : 0 <= h) by (pose proof (Rabs_pos (vx w - vx v)); lra).
  assert (UV : Rabs (pu c w - pu c v) <= h /\ Rabs (pv c w - pv c v) <= h) by (destruct P as [<-|[<-|[<-|[]]]]; cbn [pu pv]; auto). destruct UV as [A B]. unfold apart.
  rewrite <- (R_sqrt.sqrt_square (3 / 2 * h)) by lra. apply sqrt_le_1_alt.
  set (a := pu c w - pu c v) in *. set (b := pv c w - pv c v) in *. assert (SQ : forall x, Rabs x <= h -> x * x <= h * h). { intros x Q. rewrite <- (Rabs_pos_eq (x * x)) by nra. rewrite Rabs_mult. pose proof (Rabs_pos x). nra. }
  pose proof (SQ a A). pose proof (SQ b B). nra.
Qed.
Lemma apart_triangle c p q r : apart c p r <= apart c p q + apart c q r.
Proof.
  unfold apart. set (a := pu c p - pu c q). set (b := pv c p - pv c q). set (a' := pu c q - pu c r). set (b' := pv c q - pv c r).
  replace (pu c p - pu c r) with (a + a') by (unfold a, a'; ring). replace (pv c p - pv c r) with (b + b') by (unfold b, b'; ring).
  set (x := a * a + b * b). set (y := a' * a' + b' * b'). assert (X : 0 <= x) by (unfold x; nra). assert (Y : 0 <= y) by (unfold y; nra).
  assert (CS : a * a' + b * b' <= R_sqrt.sqrt x * R_sqrt.sqrt y).
  { rewrite <- sqrt_mult by auto. apply Rle_trans with (R_sqrt.sqrt ((a * a' + b * b') * (a * a' + b * b'))); [fold (Rsqr (a * a' + b * b')); rewrite sqrt_Rsqr_abs; apply Rle_abs|]. apply sqrt_le_1_alt. unfold x, y. pose proof (Rle_0_sqr (a * b' - b * a')) as Q. unfold Rsqr in Q. lra. }
  pose proof (sqrt_pos x). pose proof (sqrt_pos y). rewrite <- (R_sqrt.sqrt_square (R_sqrt.sqrt x + R_sqrt.sqrt y)) by lra. apply sqrt_le_1_alt. pose proof (sqrt_sqrt x X). pose proof (sqrt_sqrt y Y). unfold x, y in *. nra.
Qed.
Lemma apart_sym c p q : apart c p q = apart c q p. Proof. unfold apart. f_equal. ring. Qed.
Lemma helix_each c cw o p q A d h th v w : arc_plane c -> by_each h v w -> near_helix c cw o p q A d th v -> near_helix c cw o p q A (d + 3 / 2 * h) th w.
Proof.
  intros P N (k & v' & K & T & D & Z). assert (H0 : 0 <= h) by (destruct N as (X & _); pose proof (Rabs_pos (vx w - vx v)); lra). exists k, v'. split; auto. split; auto. split.
  - pose proof (apart_triangle c w v v'). pose proof (apart_each c h v w P N). lra.
  - assert (PH : Rabs (ph c w - ph c v) <= h) by (destruct N as (X & Y & V), P as [<-|[<-|[<-|[]]]]; cbn [ph]; auto).
    set (x := ph c p + _) in *. replace (ph c w - x) with ((ph c w - ph c v) + (ph c v - x)) by ring. eapply Rle_trans; [apply Rabs_triang|]. lra.
Qed.
Lemma allowed_each m r e d h x y : Rabs (y - x) <= h -> nearly_allowed m r e d x -> nearly_allowed m r e (d + h) y.
Proof. intros H. pose proof (Rle_abs (y - x)); pose proof (Rle_abs (- (y - x))) as B; rewrite Rabs_Ropp in B. destruct m; cbn; lra. Qed.
(** points between moved points *)
Lemma between_each h p q p' q' x' : by_each h p p' -> by_each h q q' -> between p' q' x' -> exists x, between p q x /\ by_each h x x'.
Proof.
  intros (PX & PY & PZ) (QX & QY & QZ) (t & T & X & Y & Z). exists (V3 ((1 - t) * vx p + t * vx q) ((1 - t) * vy p + t * vy q) ((1 - t) * vz p + t * vz q)). split; [exists t; auto|].
  assert (G : forall a b a' b', Rabs (a' - a) <= h -> Rabs (b' - b) <= h -> Rabs ((1 - t) * a' + t * b' - ((1 - t) * a + t * b)) <= h).
  { intros a b a' b' A B. replace ((1 - t) * a' + t * b' - ((1 - t) * a + t * b)) with ((1 - t) * (a' - a) + t * (b' - b)) by ring. eapply Rle_trans; [apply Rabs_triang|]. rewrite !Rabs_mult, (Rabs_pos_eq t), (Rabs_pos_eq (1 - t)) by lra. nra. }
  unfold by_each. cbn [vx vy vz]. rewrite X, Y, Z. repeat split; apply G; auto.
Qed.
Lemma pieces_each c m r e d h o : arc_plane c -> forall vs ws p p', by_each h p p' -> Forall2 (by_each h) vs ws -> Forall (fun pq => forall x, between (fst pq) (snd pq) x -> nearly_allowed m r e d (apart c x o)) (pieces p vs) ->
  Forall (fun pq => forall x, between (fst pq) (snd pq) x -> nearly_allowed m r e (d + 3 / 2 * h) (apart c x o)) (pieces p' ws).
Proof.
  intros P. induction vs as [|v vs IH]; intros ws p p' N F; inversion F as [|? w ? ws' V F']; subst; cbn [pieces]; intros Q; [constructor|]. inversion Q as [|? ? Q1 Q2]; subst. cbn [fst snd] in Q1. constructor; [|apply (IH ws' v w); auto].
  cbn [fst snd]. intros x' B. destruct (between_each h p v p' w x' N V B) as (x & B' & E). apply (allowed_each m r e d _ (apart c x o)); [|apply Q1; auto].
  pose proof (apart_each c h x x' P E) as A. pose proof (apart_triangle c x' x o). pose proof (apart_triangle c x x' o). rewrite (apart_sym c x x') in *. apply Rabs_le. lra.
Qed.
Lemma each_refl h v : 0 <= h -> by_each h v v.
Proof. intros H. unfold by_each. rewrite !Rminus_diag_eq by reflexivity. rewrite Rabs_R0. auto. Qed.

Section Laws.
Context {ar : Arith} (L : mathlib) (u i : R) (C : close_to_real ar L u i) (U : 0 < u <= / 1000000) (I : 0 < i <= u) (LW : lawful L) (acc : accurate ar) (ID : idempotent ar).
Notation q := Qc2R.
(** ** relative moves *)
Lemma round3_near y : Rabs (q (round3 y) - q y) <= / 2000 + u * (Rabs (q y) + 1).
Proof.
  unfold round3. set (j := rhe (this y * 1000)). assert (B : Rabs (q (frac j 1000) - q y) <= / 2000).
  { pose proof (rhe_err (this y * 1000)) as [R1 R2]. fold j in R1, R2. 
    assert (Z1 : (- (1 # 2000) <= this (frac j 1000) - this y /\ this (frac j 1000) - this y <= 1 # 2000)%Q).
    { rewrite this_frac. assert (X : (j # 1000 == inject_Z j * (1 # 1000))%Q) by (unfold Qeq; simpl; lia). rewrite X. split; Lqa.lra. }
    destruct Z1 as [Z1 Z2]. apply Qle_Rle in Z1, Z2. rewrite Q2R_minus in Z1, Z2. unfold Qc2R. apply ab. replace (Q2R (- (1 # 2000))) with (- / 2000) in Z1 by (unfold Q2R; cbn; lra). replace (Q2R (1 # 2000)) with (/ 2000) in Z2 by (unfold Q2R; cbn; lra). lra. }
  pose proof (near_rnd _ _ _ _ C (frac j 1000)) as N. unfold off in N. assert (II : i * i <= / 1000000) by nra. pose proof (Rabs_pos (q y)). apply ab in B. 
  assert (T : Rabs (q (frac j 1000)) <= Rabs (q y) + / 2000) by (replace (q (frac j 1000)) with (q y + (q (frac j 1000) - q y)) by ring; eapply Rle_trans; [apply Rabs_triang|]; apply Rplus_le_compat_l, ab, B).
  assert (NB : Rabs (q (rnd (frac j 1000)) - q (frac j 1000)) <= u * (Rabs (q y) + 1)) by (eapply Rle_trans; [exact N|]; apply Rmult_le_compat_l; lra). apply ab in NB. apply ab. lra.
Qed.
Section Steps.
Context (N : R) (N1 : 1 <= N) (NU : 10000 * u * (N + 1) <= 1).
Notation delta := (u * (N + 1)).
Lemma step1 (x cur : Qc) (c K : R) : Rabs (q x) <= N -> Rabs (q cur) <= N + 1 -> Rabs (q cur - c) <= K -> let d := round3 (fsub x cur) in
  Rabs (c + q d - q x) <= / 2000 + 6 * delta + K /\ Rabs (q (fadd cur d)) <= N + 1 /\ Rabs (q (fadd cur d) - (c + q d)) <= K + 2 * delta.
Proof.
  intros X CU K0 d. assert (II : 0 <= i * i <= / 1000000) by nra. apply ab in X, CU, K0. assert (D0 : 0 <= delta <= / 10000) by nra.
  pose proof (near_rnd _ _ _ _ C (x - cur)%Qc) as S. unfold off in S. rewrite q_sub in S. fold (fsub x cur) in S.
  assert (S1 : Rabs (q x - q cur) <= 2 * N + 1) by (apply ab; lra). assert (S2 : Rabs (q (fsub x cur) - (q x - q cur)) <= 2 * delta) by (eapply Rle_trans; [exact S|]; replace (2 * delta) with (u * (2 * N + 2)) by ring; apply Rmult_le_compat_l; lra).
  apply ab in S1, S2. assert (S3 : Rabs (q (fsub x cur)) <= 2 * N + 1 + / 1000) by (apply ab; lra).
  pose proof (round3_near (fsub x cur)) as T. fold d in T. assert (T1 : Rabs (q d - q (fsub x cur)) <= / 2000 + 3 * delta) by (eapply Rle_trans; [exact T|]; apply Rplus_le_compat_l; replace (3 * delta) with (u * (3 * N + 3)) by ring; apply Rmult_le_compat_l; lra). apply ab in T1.
  pose proof (near_rnd _ _ _ _ C (cur + d)%Qc) as F. unfold off in F. rewrite q_add in F. fold (fadd cur d) in F. assert (F1 : Rabs (q cur + q d) <= N + / 1000) by (apply ab; lra).
  assert (F2 : Rabs (q (fadd cur d) - (q cur + q d)) <= delta) by (eapply Rle_trans; [exact F|]; apply Rmult_le_compat_l; lra). apply ab in F1, F2. repeat split; apply ab; lra.
Qed.
Lemma deltas_near vs : forall cur p k, Forall (inside N) (map real3 vs) -> inside (N + 1) (real3 cur) -> 0 <= k -> by_each (k * delta) p (real3 cur) ->
  exists ws, walks p (map g1 (deltas cur vs)) ws /\ Forall2 (by_each (/ 2000 + (k + 2 * INR (length vs) + 6) * delta)) (map real3 vs) ws.
Proof.
  induction vs as [|v vs IH]; intros cur p k F CU K0 B; [exists []; split; constructor|]. cbn [map] in *. inversion F as [|? ? (X & Y & Z) F']; subst. destruct CU as (CX & CY & CZ), B as (BX & BY & BZ). cbn [real3 vx vy vz] in *.
  destruct (step1 (fx v) (fx cur) (vx p) (k * delta) X CX BX) as (X1 & X2 & X3). destruct (step1 (fy v) (fy cur) (vy p) (k * delta) Y CY BY) as (Y1 & Y2 & Y3). destruct (step1 (fz v) (fz cur) (vz p) (k * delta) Z CZ BZ) as (Z1 & Z2 & Z3). cbn [deltas map].
  set (d := rounded (sub3 v cur)). set (p' := V3 (vx p + q (fx d)) (vy p + q (fy d)) (vz p + q (fz d))).
  destruct (IH (add3 cur d) p' (k + 2)) as (ws & WK & FW); auto; [repeat split; assumption|lra|replace ((k + 2) * delta) with (k * delta + 2 * delta) by ring; repeat split; assumption|].
  assert (D0 : 0 <= delta) by nra. pose proof (pos_INR (length vs)) as LN. cbn [length]. rewrite S_INR. exists (p' :: ws). split.
  - apply (walks_on p (g1 d) (map g1 (deltas (add3 cur d) vs)) (real3 d) p' ws); auto. exists (fx d), (fy d), (fz d). split; [apply g1_linear; exact acc|reflexivity].
  - constructor; [|replace (k + 2 * (INR (length vs) + 1) + 6) with (k + 2 + 2 * INR (length vs) + 6) by ring; exact FW]. assert (Q : / 2000 + 6 * delta + k * delta <= / 2000 + (k + 2 * (INR (length vs) + 1) + 6) * delta) by nra. unfold p', by_each. cbn [real3 vx vy vz]. repeat split; (eapply Rle_trans; [eassumption|exact Q]).
Qed.
End Steps.
(** ** larger bounds *)
Lemma apart_pos c p p' : 0 <= apart c p p'. Proof. apply sqrt_pos. Qed.
Lemma circle_weaken g c rel p p' o r d d2 d' d2' : d <= d' -> d2 <= d2' -> nearly_circle g c rel p p' o r d d2 -> nearly_circle g c rel p p' o r d' d2'.
Proof.
  intros D D2 (A & B & H). pose proof (apart_pos c p p') as P. split; [lra|]. split; [lra|]. destruct H as [(x & X & R & H)|(LK & o0 & G & R & H)].
  - left. exists x. split; auto. split; auto. destruct (Bool.eqb _ _); nra.
  - right. split; auto. exists o0. split; auto. split; [lra|]. intros o' Q1 Q2. specialize (H o' Q1 Q2). lra.
Qed.
Lemma helix_weaken c cw o p p' A d d' th v : d <= d' -> near_helix c cw o p p' A d th v -> near_helix c cw o p p' A d' th v.
Proof. intros D (k & v' & K & T & X & Y). exists k, v'. split; auto. split; auto. split; lra. Qed.
Lemma allowed_weaken m r e d d' x : d <= d' -> nearly_allowed m r e d x -> nearly_allowed m r e d' x.
Proof. intros D. destruct m; cbn; lra. Qed.
(** ** the ends in incremental mode *)
Lemma ends_real_inc g s p0 q0 a b M : gcode_wf g -> at_point s p0 -> target false g p0 q0 -> 1 <= M -> inside M q0 -> ends_of g s false = Ok (a, b) -> p0 = real3 a /\ by_each (11 / 10 * u * M) q0 (real3 b) /\ float3 b.
Proof.
  intros W AT TG M1 QM E. destruct (ends_spec g s p0 false W AT) as (q1 & E1 & _ & UN). specialize (UN _ TG). subst q1. destruct AT as (x & y & z & X & Y & Z & ->). revert E E1. unfold ends_of, vector_of, arc_ends, pos_vector. rewrite X, Y, Z. cbn [bind].
  destruct (param_value g LX) as [x'|] eqn:PX; [|discriminate]. destruct (param_value g LY) as [y'|] eqn:PY; [|discriminate]. destruct (param_value g LZ) as [z'|] eqn:PZ; [|discriminate]. cbn [bind].
  destruct (word_value g LX x' W ltac:(cbn; auto 10) PX) as [-> _]. destruct (word_value g LY y' W ltac:(cbn; auto 10) PY) as [-> _]. destruct (word_value g LZ z' W ltac:(cbn; auto 10) PZ) as [-> _]. cbn [bind].
  intros E E1. injection E as <- <-. injection E1 as <-. split; [reflexivity|]. split; [|repeat split; apply ID]. destruct QM as (QX & QY & QZ).
  assert (G : forall v v' : Qc, Rabs (q v + q v') <= M -> Rabs (q (fadd v v') - (q v + q v')) <= 11 / 10 * u * M).
  { intros v v' B. pose proof (near_rnd _ _ _ _ C (v + v')%Qc) as N. unfold off in N. rewrite q_add in N. fold (fadd v v') in N. eapply Rle_trans; [exact N|]. assert (i * i <= / 1000000) by nra. replace (11 / 10 * u * M) with (u * (11 / 10 * M)) by ring. apply Rmult_le_compat_l; lra. }
  assert (O : forall o : option Qc, match option_map q o with Some v => v | None => 0 end = q (or_else o zero)) by (intros [o|]; cbn; [reflexivity|symmetry; apply q_zero]).
  unfold by_each, real3, add3 in *. cbn [vx vy vz fx fy fz] in *. split; [|split].
  all: match goal with |- Rabs (q (fadd ?v (or_else ?o zero)) - ?z) <= _ => replace z with (q v + q (or_else o zero)) in * by (destruct o; cbn; rewrite ?q_zero; ring) end.
  all: apply G; assumption.
Qed.
Lemma path_increments g s plane m dist adist e moves p0 q0 relative M : gcode_wf g -> all_floats g s -> at_point s p0 -> target false g p0 q0 -> plane_is plane XY -> in_incremental dist -> arc_dist_is adist relative ->
  1 <= M -> inside M p0 -> inside M q0 -> (forall x, reads g LR x -> Rabs x <= M) -> (forall o, lacks g LR -> given_center relative g p0 o -> apart XY p0 o <= M /\ apart XY q0 o <= M) ->
  2010 * u * M <= apart XY p0 q0 -> 2010 * u * M <= q e -> 10000 * u * (5 * M + q e + 1) <= 1 -> linearize_arc L g s plane (Some m) dist adist e = (moves, Ok tt) ->
  let h := / 2000 + (2 * INR (length moves) + 6) * (u * (5 * M + q e + 1)) in let d := 1501 * u * M + 3 / 2 * h in
  exists o r A ws ths p1, walks p0 moves ws /\ by_each (2 * u * M) q0 p1 /\ (exists before w, ws = before ++ [w] /\ by_each h p1 w) /\ nearly_circle g XY relative p0 p1 o r (166 * u * M) (11 * R_sqrt.sqrt u * M) /\ 0 < A < 2 * PI /\ rising 0 ths A /\
    Forall2 (near_helix XY (clockwise g) o p0 p1 A d) ths ws /\ Forall (fun pq => forall x, between (fst pq) (snd pq) x -> nearly_allowed m r (q e) d (apart XY x o)) (pieces p0 ws).
Proof.
  intros W (F1 & F2) AT TG PL DI AD M1 PM QM RM GM AP EL NU. unfold linearize_arc. rewrite dist_incremental by auto.
  assert (PE : match plane with Some c => c | None => XY end = XY) by (destruct PL as [->|[-> _]]; reflexivity). rewrite PE. clear PE PL. rewrite (relative_mode adist relative AD).
  destruct (_ || _); [discriminate|]. destruct (arc_of L g s _ _ _ _) as [[a f]|] eqn:AO; [|discriminate]. rewrite relative_all. destruct (line_ends L m f) as [vs r0] eqn:LE. cbn [fst snd]. intros E. apply pair_equal_spec in E as [<- ->].
  assert (EN : exists b, ends_of g s false = Ok (a, b)) by (unfold arc_of in AO; destruct (ends_of g s false) as [[a' b]|]; [|discriminate]; cbn [bind normal_of] in AO; destruct (circle_of L g a' b _ _ e) as [[[[p p'] c] r]|]; [|discriminate]; cbn [bind] in AO; injection AO as <- _; eauto).
  destruct EN as (b & EN). destruct (ends_real_inc g s p0 q0 a b M W AT TG M1 QM EN) as (-> & QB & FB). destruct (start_ok s _ F2 AT) as (a1 & VA & FA). rewrite (ends_start _ _ _ _ _ EN) in VA. injection VA as <-.
  set (M' := M + 2 * u * M). assert (UM : 0 < u * M <= / 1000000 * M) by nra. assert (MM : M <= M' <= 101 / 100 * M) by (unfold M'; lra).
  pose proof (apart_each XY _ _ _ ltac:(cbn; auto) QB) as QA. pose proof (apart_triangle XY (real3 a) (real3 b) q0) as TR. pose proof QB as (BX & BY & BZ).
  assert (QM' : inside M' (real3 b)). { destruct QM as (QX & QY & QZ). apply ab in BX, BY, BZ, QX, QY, QZ. unfold M'. repeat split; apply ab; lra. }
  assert (PM' : inside M' (real3 a)) by (destruct PM as (PX & PY & PZ); repeat split; lra).
  assert (AP' : 2000 * u * M' <= apart XY (real3 a) (real3 b)). { assert (2000 * u * M' <= 2001 * u * M) by (unfold M'; nra). lra. }
  assert (EL' : 2000 * u * M' <= q e). { assert (2000 * u * M' <= 2001 * u * M) by (unfold M'; nra). lra. }
  destruct (points_near L u i C U I LW acc ID g s false m e a b f vs relative M' W F1 FA FB ltac:(lra) PM' QM') as (o & r & A & ths & (bs & LA) & NC & PB & RI & FH & FP & FI); auto.
  { intros x X. specialize (RM x X). lra. }
  { intros o LK GC. destruct (GM o LK GC) as [G1 G2]. split; [lra|]. pose proof (apart_triangle XY (real3 b) q0 o). unfold M'. lra. }
  set (N := 5 * M + q e). assert (FN : Forall (inside N) (map real3 vs)). { eapply Forall_impl; [|exact FI]. intros v (X & Y & Z). unfold N. repeat split; lra. }
  assert (N1 : 1 <= N) by (unfold N; lra). destruct (deltas_near N N1 NU vs a (real3 a) 0) as (ws & WK & FW); [exact FN|destruct PM as (PX & PY & PZ); unfold N; repeat split; lra|lra|apply each_refl; lra|].
  cbn zeta. rewrite map_length. assert (DL : forall (x : fvec) l, length (deltas x l) = length l) by (intros x l; revert x; induction l as [|y l IH]; intros x; cbn [deltas length]; auto). rewrite DL. rewrite Rplus_0_l in FW. fold N. set (h := / 2000 + _) in *.
  exists o, r, A, ws, ths, (real3 b). split; [exact WK|]. split; [destruct QB as (? & ? & ?); repeat split; lra|]. split.
  { rewrite LA, map_app in FW. apply Forall2_app_inv_l in FW as (w1 & w2 & _ & FW2 & ->). cbn [map] in FW2. inversion FW2 as [|? w ? w3 BW F3]; subst. inversion F3; subst. exists w1, w. auto. }
  assert (SU : 0 <= R_sqrt.sqrt u) by apply sqrt_pos. split; [apply (circle_weaken _ _ _ _ _ _ _ (165 * u * M') (10 * R_sqrt.sqrt u * M')); [unfold M'; nra|assert (R_sqrt.sqrt u * M' <= R_sqrt.sqrt u * (101 / 100 * M)) by (apply Rmult_le_compat_l; lra); nra|exact NC]|].
  split; [exact PB|]. split; [exact RI|]. assert (DD : 1500 * u * M' <= 1501 * u * M) by (unfold M'; nra). split.
  - clear -FH FW DD. revert ths FH. induction FW as [|v w vs' ws' B FW IH]; intros ths FH; inversion FH; subst; constructor; [|apply IH; auto]. apply (helix_each XY _ _ _ _ _ _ h _ v); [cbn; auto|exact B|]. eapply helix_weaken; [exact DD|assumption].
  - apply (pieces_each XY m r (q e) (1501 * u * M) h o ltac:(cbn; auto) (map real3 vs) ws (real3 a)); [apply each_refl; pose proof (pos_INR (length vs)); assert (0 <= u * (N + 1)) by nra; unfold h; nra|exact FW|]. eapply Forall_impl; [|exact FP]. intros pq H x X. eapply allowed_weaken; [exact DD|apply H; exact X].
Qed.
End Laws.
