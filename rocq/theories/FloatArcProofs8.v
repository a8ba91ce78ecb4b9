(** Lemmas for C95: the circle of an arc in the XY plane, from its words. *)
From Coq Require Import List Bool ZArith QArith Qcanon Qabs Qreals Reals Lia Lra Psatz.
From Verif Require Import Base Num Words GTable GCode Position Machine Transform BaseFacts NumFacts WordOrder PrintSpec PrintProofs PosProofs ArithSpec Float64 DrillProofs GCodeSpec PropsGCode MachSpec MachProofs CannedProofs Arc ArcSpec ArcProofs2 ArcProofs3.
From Verif Require Import FloatArc FloatArcSpec FloatArcSpec2 FloatArcSpec3 FloatArcProofs FloatArcProofs3 FloatArcProofs5 FloatArcProofs6 FloatArcProofs7.
Import ListNotations.
Open Scope R_scope.

Section Laws.
Context {ar : Arith} (L : mathlib) (u i : R) (C : close_to_real ar L u i) (U : 0 < u <= / 1000000) (I : 0 < i <= u) (LW : lawful L) (acc : accurate ar) (ID : idempotent ar).
Notation q := Qc2R.
Notation up := (FV zero zero one).
Notation XY := GCodeSelectXYPlane.
Lemma word_value g l x : gcode_wf g -> arc_letter l -> param_value g l = Ok x -> Arc.real_param g l = Ok (option_map q x) /\ match x with Some v => reads g l (q v) /\ exists w, In (l, w) (gparams g) /\ wvalue w = VFloat v | None => lacks g l end.
Proof.
  intros W A E. destruct (param_ok g l W A) as [(E' & N & P)|(w & v & J & V & E' & P)]; rewrite E in E'; injection E' as ->; unfold Arc.real_param, param_value in *.
  - destruct (pget (gparams g) l) as [w|] eqn:G; [unfold Arc.pin in P; rewrite G in P; discriminate P|]. split; auto. intros w J. apply N. exists w. auto.
  - destruct (pget (gparams g) l) as [w'|] eqn:G; [|discriminate E]. apply (CannedProofs.pget_in g _ _ (proj1 W)) in J. rewrite G in J. injection J as ->. apply (CannedProofs.pget_in g _ _ (proj1 W)) in G. rewrite V. cbn [option_map]. split; auto. split; [exists w, v; auto|exists w; auto].
Qed.
Lemma given_or x d : given (option_map q x) (q d) = q (or_else x d). Proof. destruct x; reflexivity. Qed.
Lemma zero_float : float zero. Proof. exact (r0 acc). Qed.
(** *** the circle *)
Lemma circle_near (g : gcode) (a b : fvec) (ai : bool) (e : Qc) (p p' c : fvec) (r : Qc) (M : R) : gcode_wf g -> (forall l w x, In (l, w) (gparams g) -> wvalue w = VFloat x -> float x) -> float3 a -> float3 b -> 1 <= M -> inside M (real3 a) -> inside M (real3 b) ->
  2000 * u * M <= apart XY (real3 a) (real3 b) -> (forall x, reads g LR x -> Rabs x <= M) -> (forall o, lacks g LR -> given_center ai g (real3 a) o -> apart XY (real3 a) o <= M /\ apart XY (real3 b) o <= M) ->
  circle_of L g a b up ai e = Ok (p, p', c, r) ->
  p = FV (fx a) (fy a) zero /\ p' = FV (fx b) (fy b) zero /\ fz c = zero /\ nearly_circle g XY ai (real3 a) (real3 b) (real3 c) (q r) (165 * u * M) (10 * R_sqrt.sqrt u * M) /\ 900 * u * M <= q r <= 101 / 100 * M /\ Rabs (q (fx c)) <= 22 / 10 * M /\ Rabs (q (fy c)) <= 22 / 10 * M.
Proof.
  intros W FW FA FB M1 (AX & AY & AZ) (BX & BY & BZ) NB RB GB. cbn [real3 vx vy vz] in AX, AY, AZ, BX, BY, BZ. unfold circle_of. rewrite (proj_xy L LW acc a FA), (proj_xy L LW acc b FB). cbn [bind]. destruct (check_params g); [|discriminate]. cbn [bind].
  set (P := FV (fx a) (fy a) zero). set (P' := FV (fx b) (fy b) zero). assert (UM : 0 < u * M) by (apply Rmult_lt_0_compat; lra). assert (UM1 : u <= u * M) by (assert (u * 1 <= u * M) by (apply Rmult_le_compat_l; lra); lra). pose proof (ii u i U I) as II.
  assert (UI : u * (i * i) <= / 1000000 * (u * M)). { replace (/ 1000000 * (u * M)) with (u * (/ 1000000 * M)) by ring. apply Rmult_le_compat_l; lra. } assert (UUM : u * (u * M) <= / 1000000 * (u * M)) by (apply Rmult_le_compat_r; lra).
  assert (NB' : 2000 * u * M <= len (q (fx P') - q (fx P)) (q (fy P') - q (fy P))). { rewrite apart_len in NB. cbn [pu pv real3 vx vy fx fy P P'] in *. replace (len (q (fx b) - q (fx a)) (q (fy b) - q (fy a))) with (len (q (fx a) - q (fx b)) (q (fy a) - q (fy b))) by (unfold len; f_equal; ring). exact NB. }
  assert (NE : len (q (fx P') - q (fx P)) (q (fy P') - q (fy P)) = apart XY (real3 a) (real3 b)) by (rewrite apart_len; cbn [pu pv real3 vx vy fx fy P P']; unfold len; f_equal; ring).
  (* a centre of either kind *)
  assert (SIZE : forall k s c, k * k = 1 -> 0 <= q r -> q r <= 101 / 100 * M -> - (u * i) <= s <= 11 / 10 * q r -> center_at u M P P' k s c -> Rabs (q (fx c)) <= 22 / 10 * M /\ Rabs (q (fy c)) <= 22 / 10 * M).
  { intros k s c' KK R0 RM SB (_ & CX & CY). unfold across_x, across_y in CX, CY. pose proof (span_unit u i U I M P P' M1 NB') as (XN & YN & _). set (X := q (fx P') - q (fx P)) in *. set (Y := q (fy P') - q (fy P)) in *. set (N := len X Y) in *.
    assert (K1 : Rabs k = 1) by (assert (E : (k - 1) * (k + 1) = 0) by lra; apply Rmult_integral in E; destruct E; [rewrite Rabs_right|rewrite Rabs_left]; lra). assert (UI1 : u * i <= / 1000000 * i) by (apply Rmult_le_compat_r; lra). assert (UI0 : 0 <= u * i) by (apply Rmult_le_pos; lra). assert (SA : Rabs s <= 112 / 100 * M) by (apply ab; lra).
    assert (PR : forall z, Rabs z <= 1 -> Rabs (k * (z * s)) <= 112 / 100 * M). { intros z Z1. rewrite !Rabs_mult, K1, Rmult_1_l. apply Rle_trans with (1 * Rabs s); [apply Rmult_le_compat_r; [apply ab_pos|auto]|lra]. }
    pose proof (PR _ XN) as PX. pose proof (PR _ YN) as PY. assert (UM2 : u * M <= / 1000000 * M) by (apply Rmult_le_compat_r; lra). apply ab in PX, PY, CX, CY, AX, AY, BX, BY. cbn [P P' fx fy] in *. subst X Y. cbn [P P' fx fy] in *. split; apply ab; lra. }
  destruct (param_value g LR) as [ro|] eqn:ER; [|discriminate]. cbn [bind]. destruct (word_value g LR ro W ltac:(cbn; auto 10) ER) as [_ VR]. destruct ro as [x|].
  - destruct VR as [RX (w & JX & VX)]. destruct (magnitude L (sub3 P P')) as [d|]; [|discriminate]. cbn [bind]. destruct (Qcltb d e); [discriminate|]. destruct (middle L g up P P' (qc_abs x)) as [[mid tc]|] eqn:EM; [|discriminate]. cbn [bind]. intros E. injection E as <- <- <- <-.
    pose proof (RB _ RX) as RM. rewrite q_abs in *. destruct (centers_near L u i C U I LW acc M P P' M1 AX AY BX BY eq_refl eq_refl NB' g (qc_abs x) mid tc EM ltac:(rewrite q_abs; lra)) as (s & S1 & S2 & S3 & C1 & C2). pose proof S2 as S2'. rewrite q_abs in S2'.
    assert (G : forall k c', k * k = 1 -> center_at u M P P' k s c' -> (if Bool.eqb (subclass (gcls g) GCodeArcMoveCW) (Qcltb x zero) then k = -1 else k = 1) ->
      fz c' = zero /\ nearly_circle g XY ai (real3 a) (real3 b) (real3 c') (Rabs (q x)) (165 * u * M) (10 * R_sqrt.sqrt u * M) /\ 900 * u * M <= Rabs (q x) <= 101 / 100 * M /\ Rabs (q (fx c')) <= 22 / 10 * M /\ Rabs (q (fy c')) <= 22 / 10 * M).
    { intros k c' KK CA SG. split; [apply CA|]. split; [|split; [|apply (SIZE k s c'); auto; [apply ab_pos|lra]]].
      - destruct (ends_apart u i U I M P P' M1 NB' (qc_abs x) s k c' ltac:(rewrite q_abs; lra) S1 S3 KK CA) as [A B]. rewrite q_abs in A, B. split; [exact A|]. split; [exact B|]. left. exists (q x). split; auto. split; auto.
        pose proof (center_side u i U I M P P' M1 NB' (qc_abs x) s k c' S2 KK CA) as CS. rewrite NE in CS. change (leftness XY (real3 P) (real3 P') (real3 c')) with (leftness XY (real3 a) (real3 b) (real3 c')) in CS.
        replace (if Rlt_dec (q x) 0 then true else false) with (Qcltb x zero). 2:{ destruct (Qcltb x zero) eqn:E; [apply q_lt in E; rewrite q_zero in E; destruct (Rlt_dec (q x) 0); [auto|lra]|apply q_ge in E; rewrite q_zero in E; destruct (Rlt_dec (q x) 0); [lra|auto]]. }
        assert (AP : 0 <= u * M * apart XY (real3 a) (real3 b)) by (apply Rmult_le_pos; [lra|apply apart_nonneg]).
        destruct (Bool.eqb _ _); subst k; destruct (Rlt_dec 0 _); lra.
      - pose proof (r_big u i U I M P P' M1 NB' (qc_abs x) S3) as RBG. rewrite q_abs in RBG. lra. }
    split; [reflexivity|]. split; [reflexivity|]. destruct (Bool.eqb _ _) eqn:EB; [apply (G (-1))|apply (G 1)]; auto; lra.
  - destruct (param_value g LI) as [oi|] eqn:EI; [|discriminate]. destruct (param_value g LJ) as [oj|] eqn:EJ; [|discriminate]. destruct (param_value g LK) as [ok|] eqn:EK; [|discriminate]. cbn [bind].
    destruct (word_value g LI oi W ltac:(cbn; auto 10) EI) as [RI VI]. destruct (word_value g LJ oj W ltac:(cbn; auto 10) EJ) as [RJ VJ]. destruct (word_value g LK ok W ltac:(cbn; auto 10) EK) as [RK VK].
    destruct (given_spec g (real3 a) ai W) as (ri & rj & rk & GI & GJ & GK & GC & _). rewrite RI in GI. rewrite RJ in GJ. rewrite RK in GK. injection GI as <-. injection GJ as <-. injection GK as <-. rewrite <- q_zero, !given_or in GC.
    assert (FO : forall o, match o with Some v => reads g LI (q v) \/ True | None => True end -> True) by auto. clear FO.
    assert (FI : float (or_else oi zero)) by (destruct oi; [destruct VI as [_ (w & J & V)]; eauto|apply zero_float]). assert (FJ : float (or_else oj zero)) by (destruct oj; [destruct VJ as [_ (w & J & V)]; eauto|apply zero_float]). assert (FK : float (or_else ok zero)) by (destruct ok; [destruct VK as [_ (w & J & V)]; eauto|apply zero_float]).
    set (ijk := FV (or_else oi zero) (or_else oj zero) (or_else ok zero)) in *. set (o0 := if ai then vadd _ _ else _) in GC. destruct (GB o0 VR GC) as [GA GB']. 
    set (cc := if ai then add3 ijk a else ijk). assert (FC : float3 cc) by (unfold cc; destruct ai; [unfold float3, add3; cbn [fx fy fz]; unfold fadd; repeat split; apply ID|repeat split; auto]). rewrite (proj_xy L LW acc cc FC). cbn [bind]. set (c0 := FV (fx cc) (fy cc) zero).
    assert (O0 : Rabs (vx o0) <= 2 * M /\ Rabs (vy o0) <= 2 * M). { rewrite apart_len in GA. cbn [pu pv real3 vx vy] in GA. pose proof (len_x (q (fx a) - vx o0) (q (fy a) - vy o0)) as E1. pose proof (len_y (q (fx a) - vx o0) (q (fy a) - vy o0)) as E2. assert (E3 : Rabs (q (fx a) - vx o0) <= M) by lra. assert (E4 : Rabs (q (fy a) - vy o0) <= M) by lra. apply ab in E3, E4, AX, AY. split; apply ab; lra. }
    destruct O0 as [O0X O0Y]. assert (CX : Rabs (q (fx c0) - vx o0) <= 21 / 10 * (u * M) /\ Rabs (q (fy c0) - vy o0) <= 21 / 10 * (u * M)).
    { unfold c0, cc, o0 in *. destruct ai; cbn [fx fy add3 vadd vx vy real3 ijk] in *.
      - pose proof (f_add L u i C (or_else oi zero) (fx a)) as F1. pose proof (f_add L u i C (or_else oj zero) (fy a)) as F2. split; [apply Rle_trans with (1 := F1)|apply Rle_trans with (1 := F2)].
        + assert (u * Rabs (q (or_else oi zero) + q (fx a)) <= u * (2 * M)) by (apply Rmult_le_compat_l; lra). lra.
        + assert (u * Rabs (q (or_else oj zero) + q (fy a)) <= u * (2 * M)) by (apply Rmult_le_compat_l; lra). lra.
      - rewrite !Rminus_diag_eq, Rabs_R0 by auto. lra. }
    destruct CX as [CX CY]. destruct (magnitude L (sub3 P c0)) as [d1|] eqn:M1'; [|discriminate]. destruct (magnitude L (sub3 P' c0)) as [d2|] eqn:M2'; [|discriminate]. cbn [bind].
    assert (DN : forall v d, fz v = zero -> len (q (fx v) - vx o0) (q (fy v) - vy o0) <= 101 / 10 * M -> magnitude L (sub3 v c0) = Ok d -> Rabs (q d - len (q (fx v) - vx o0) (q (fy v) - vy o0)) <= (15 * u * len (q (fx v) - vx o0) (q (fy v) - vy o0)) + 13 * (u * M)).
    { intros v d ZV LB EM. pose proof (distance_any L u i C U I LW acc v c0 d ZV eq_refl EM) as D. cbv zeta in D. assert (DD : Rabs (len (q (fx v) - q (fx c0)) (q (fy v) - q (fy c0)) - len (q (fx v) - vx o0) (q (fy v) - vy o0)) <= 42 / 10 * (u * M)). { replace (42 / 10 * (u * M)) with (21 / 10 * (u * M) + 21 / 10 * (u * M)) by lra. apply len_diff; [replace (q (fx v) - q (fx c0) - (q (fx v) - vx o0)) with (- (q (fx c0) - vx o0)) by ring|replace (q (fy v) - q (fy c0) - (q (fy v) - vy o0)) with (- (q (fy c0) - vy o0)) by ring]; rewrite Rabs_Ropp; auto. }
      set (l := len (q (fx v) - q (fx c0)) (q (fy v) - q (fy c0))) in *. set (l0 := len (q (fx v) - vx o0) (q (fy v) - vy o0)) in *. apply ab in DD, D. assert (u * l <= u * (l0 + 42 / 10 * (u * M))) by (apply Rmult_le_compat_l; lra). apply ab. lra. }
    assert (D1 : Rabs (q d1 - apart XY (real3 a) o0) <= 28 * (u * M)). { rewrite apart_len in *. cbn [pu pv real3 vx vy] in *. pose proof (DN P d1 eq_refl ltac:(cbn [P fx fy]; lra) M1') as D. cbn [P fx fy] in D. assert (u * len (q (fx a) - vx o0) (q (fy a) - vy o0) <= u * M) by (apply Rmult_le_compat_l; lra). apply Rle_trans with (1 := D). lra. }
    assert (D2 : Rabs (q d2 - apart XY (real3 b) o0) <= 28 * (u * M)). { rewrite apart_len in *. cbn [pu pv real3 vx vy] in *. pose proof (DN P' d2 eq_refl ltac:(cbn [P' fx fy]; lra) M2') as D. cbn [P' fx fy] in D. assert (u * len (q (fx b) - vx o0) (q (fy b) - vy o0) <= u * M) by (apply Rmult_le_compat_l; lra). apply Rle_trans with (1 := D). lra. }
    set (ra := fdiv (fadd d1 d2) (Q2Qc 2)). pose proof (apart_nonneg XY (real3 a) o0) as A0. pose proof (apart_nonneg XY (real3 b) o0) as B0. assert (RN : Rabs (q ra - (apart XY (real3 a) o0 + apart XY (real3 b) o0) / 2) <= 32 * (u * M)).
    { pose proof (f_add_near L u i C U _ _ _ _ _ _ D1 D2) as F. set (S := apart XY (real3 a) o0 + apart XY (real3 b) o0) in *. rewrite (Rabs_right S) in F by (unfold S; lra). assert (US : u * S <= u * (2 * M)) by (apply Rmult_le_compat_l; unfold S; lra). assert (F' : Rabs (q (fadd d1 d2) - S) <= 581 / 10 * (u * M)) by (apply Rle_trans with (1 := F); lra).
      pose proof (f_div L u i C (fadd d1 d2) (Q2Qc 2) ltac:(rewrite q_two; lra)) as G. fold ra in G. rewrite q_two in G. apply ab in F'. assert (UM2 : u * M <= / 1000000 * M) by (apply Rmult_le_compat_r; lra). assert (HS : Rabs (q (fadd d1 d2) / 2) <= 101 / 100 * M) by (apply ab; unfold S in *; lra). assert (u * Rabs (q (fadd d1 d2) / 2) <= u * (101 / 100 * M)) by (apply Rmult_le_compat_l; lra). apply ab in G. apply ab. lra. }
    assert (UM2 : u * M <= / 1000000 * M) by (apply Rmult_le_compat_r; lra). assert (RM : q ra <= 101 / 100 * M) by (pose proof (proj1 (ab _ _) RN); lra).
    destruct (middle L g up P P' ra) as [[mid tc]|] eqn:EM; [|discriminate]. cbn [bind]. set (half := add3 P mid). destruct (magnitude L (sub3 (sub3 half tc) c0)) as [e1|] eqn:ME1; [|discriminate]. destruct (magnitude L (sub3 (add3 half tc) c0)) as [e2|] eqn:ME2; [|discriminate]. cbn [bind]. intros E. injection E as <- <- <- <-.
    destruct (centers_near L u i C U I LW acc M P P' M1 AX AY BX BY eq_refl eq_refl NB' g ra mid tc EM RM) as (s & S1 & S2 & S3 & C1 & C2). fold half in C1, C2. pose proof (r_pos u i U I M P P' M1 NB' ra S3) as RP. split; [reflexivity|]. split; [reflexivity|].
    (* the chosen centre *)
    assert (CH : exists k, k * k = 1 /\ center_at u M P P' k s (if Qcltb e1 e2 then sub3 half tc else add3 half tc) /\ let D v := len (q (fx v) - vx o0) (q (fy v) - vy o0) in
       D (if Qcltb e1 e2 then sub3 half tc else add3 half tc) <= D (if Qcltb e1 e2 then add3 half tc else sub3 half tc) + 300 * (u * M) /\ center_at u M P P' (- k) s (if Qcltb e1 e2 then add3 half tc else sub3 half tc)).
    { assert (LB : forall k c', k * k = 1 -> center_at u M P P' k s c' -> len (q (fx c') - vx o0) (q (fy c') - vy o0) <= 85 / 10 * M). { intros k c' KK CA. destruct (SIZE k s c' KK ltac:(lra) RM S2 CA) as [X1 X2]. eapply Rle_trans; [apply len_sum|]. assert (T : forall z w, Rabs z <= 22 / 10 * M -> Rabs w <= 2 * M -> Rabs (z - w) <= 425 / 100 * M) by (intros z w Z1 W1; apply ab in Z1, W1; apply ab; lra). pose proof (T _ _ X1 O0X). pose proof (T _ _ X2 O0Y). lra. }
      pose proof (LB 1 _ ltac:(lra) C1) as L1. pose proof (LB (-1) _ ltac:(lra) C2) as L2. pose proof (DN _ _ (proj1 C2) ltac:(lra) ME1) as T1. pose proof (DN _ _ (proj1 C1) ltac:(lra) ME2) as T2.
      assert (UL1 : u * len (q (fx (add3 half tc)) - vx o0) (q (fy (add3 half tc)) - vy o0) <= u * (85 / 10 * M)) by (apply Rmult_le_compat_l; lra). assert (UL2 : u * len (q (fx (sub3 half tc)) - vx o0) (q (fy (sub3 half tc)) - vy o0) <= u * (85 / 10 * M)) by (apply Rmult_le_compat_l; lra). apply ab in T1, T2.
      destruct (Qcltb e1 e2) eqn:LT.
      - apply q_lt in LT. exists (-1). split; [lra|]. split; auto. cbv zeta. split; [lra|]. replace (- -1) with 1 by lra. exact C1.
      - apply q_ge in LT. exists 1. split; [lra|]. split; auto. cbv zeta. split; [lra|]. replace (- (1)) with (-1) by lra. exact C2. }
    destruct CH as (k & KK & CA & DD & CA'). cbv zeta in DD. set (c' := if Qcltb e1 e2 then sub3 half tc else add3 half tc) in *. set (c'' := if Qcltb e1 e2 then add3 half tc else sub3 half tc) in *. split; [apply CA|]. split; [|split; [pose proof (r_big u i U I M P P' M1 NB' ra S3); lra|apply (SIZE k s c'); auto; lra]].
    destruct (ends_apart u i U I M P P' M1 NB' ra s k c' RM S1 S3 KK CA) as [A B]. split; [exact A|]. split; [exact B|]. right. split; auto. exists o0. split; auto. split; [apply Rle_trans with (1 := RN); lra|]. intros o' OA OB.
    destruct (only_two u i U I M P P' M1 NB' ra s RM S1 S2 S3 o' OA OB) as (k' & KK' & ON). 
    assert (NEAR : forall z v, center_at u M P P' z s v -> z = k' -> len (q (fx v) - vx o0) (q (fy v) - vy o0) <= len (vx o' - vx o0) (vy o' - vy o0) + 9 * R_sqrt.sqrt u * M + 100 * (u * M)).
    { intros z v (_ & VX & VY) ->. pose proof (len_near (q (fx v) - vx o0) (q (fy v) - vy o0) (vx o' - vx o0) (vy o' - vy o0)) as T. replace (q (fx v) - vx o0 - (vx o' - vx o0)) with ((q (fx v) - across_x P P' k' s) + (across_x P P' k' s - vx o')) in T by ring. replace (q (fy v) - vy o0 - (vy o' - vy o0)) with ((q (fy v) - across_y P P' k' s) + (across_y P P' k' s - vy o')) in T by ring.
      pose proof (len_add (q (fx v) - across_x P P' k' s) (q (fy v) - across_y P P' k' s) (across_x P P' k' s - vx o') (across_y P P' k' s - vy o')) as T2. pose proof (len_sum (q (fx v) - across_x P P' k' s) (q (fy v) - across_y P P' k' s)) as T3. replace (len (across_x P P' k' s - vx o') (across_y P P' k' s - vy o')) with (len (vx o' - across_x P P' k' s) (vy o' - across_y P P' k' s)) in T2 by (unfold len; f_equal; ring). apply ab in T. lra. }
    assert (KEQ : k' = k \/ k' = - k). { assert (Z : (k' - k) * (k' + k) = 0) by (transitivity (k' * k' - k * k); [ring|lra]). apply Rmult_integral in Z. destruct Z; [left|right]; lra. }
    pose proof (sqrt_pos u) as SP. pose proof (sqrt_sqrt u ltac:(lra)) as SS. assert (V3 : R_sqrt.sqrt u <= / 1000) by (apply sq_le; [lra|]; rewrite SS; lra). set (v := R_sqrt.sqrt u) in *. assert (SM : 400 * (u * M) <= v * M). { rewrite <- SS. replace (400 * (v * v * M)) with (400 * v * (v * M)) by ring. rewrite <- (Rmult_1_l (v * M)) at 2. apply Rmult_le_compat_r; [apply Rmult_le_pos; lra|lra]. }
    rewrite !apart_len. cbn [pu pv real3 vx vy]. destruct KEQ as [KE|KE].
    + pose proof (NEAR k c' CA (eq_sym KE)) as T. lra.
    + pose proof (NEAR (- k) c'' CA' (eq_sym KE)) as T. lra.
Qed.
End Laws.
