(** Linearized arcs: the results. *)
From Coq Require Import List Bool ZArith QArith Qcanon Qreals Reals Lra Lia Psatz.
From Verif Require Import Base Num Words GTable GCode Position Arc GCodeSpec GCodeProofs GCodeProofs2 PropsGCode MachSpec DrillSpec DrillProofs2 DrillProofs4 CannedProofs ArcSpec ArcProofs ArcProofs2 ArcProofs3 ArcProofs4 ArcProofs5.
Import ListNotations.
Open Scope R_scope.

Lemma plane_has_normal c : arc_plane c -> exists n, plane_normal c = Some n.
Proof. intros PL. by_plane PL; eexists; reflexivity. Qed.
Lemma angle_sign (cw : bool) k u v : exists x, 0 <= x < 2 * PI /\ arc_angle cw k u v = if cw then x else - x.
Proof. unfold arc_angle. destruct cw; eexists; (split; [|reflexivity]); apply rmod_spec, tau_pos. Qed.
Lemma allowed_more m r e e' d : e <= e' -> allowed m r e d -> allowed m r e' d.
Proof. destruct m; cbn; lra. Qed.
Lemma good_more c o m r e e' l : e <= e' -> Forall (good_piece c o m r e) l -> Forall (fun s => forall x, between (fst s) (snd s) x -> allowed m r e' (apart c x o)) l.
Proof. intros L F. eapply Forall_impl; [|exact F]. intros s G x B. eapply allowed_more; eauto. Qed.
Lemma pieces_snd p l : map snd (pieces p l) = l.
Proof. revert p. induction l as [|x l IH]; intros p; cbn; auto. rewrite IH. auto. Qed.
Lemma on_way_helix c (cw : bool) o p q A x th v : 0 < x -> A = (if cw then x else - x) -> on_way c o p q A th v -> on_helix c cw o p q x th v.
Proof.
  intros P E (k & K & T & H). exists k. split; auto. split.
  - apply turned_cos. destruct cw; subst A; destruct (Rlt_dec _ _); auto; lra.
  - rewrite H. f_equal. f_equal. f_equal. subst A. destruct cw; [|rewrite Rabs_Ropp]; rewrite Rabs_right; lra.
Qed.
(** the vertices of an arc whose ends differ *)
Lemma arc_vertices_spec {ar : Arith} g start c m absolute relative e p q l : gcode_wf g -> arc_plane c -> at_point start p -> target absolute g p q -> 0 < e -> ~ same_spot c p q ->
  arc_vertices g start c m absolute relative e = (l, Ok tt) ->
  exists o r A vs ths, circle_of g c relative p q o r /\ 0 < r /\ 0 <= A < 2 * PI /\ l = pieces p (vs ++ [q]) /\ Forall2 (on_helix c (clockwise g) o p q A) ths vs /\ (A = 0 -> ths = []) /\ (0 < A -> rising 0 (ths ++ [A]) A) /\
    Forall (fun s => forall x, between (fst s) (snd s) x -> allowed m r e (apart c x o)) (pieces p vs) /\
    (c = GCodeSelectXYPlane -> 0 < A /\ sweep c (clockwise g) o p q A /\ Forall (fun s => forall x, between (fst s) (snd s) x -> allowed m r e (apart c x o)) (pieces p (vs ++ [q]))).
Proof.
  intros W PL AT TG EP NS. destruct (plane_has_normal c PL) as [n PN]. unfold arc_vertices. destruct (arc_circle g start c absolute relative e) as [C|] eqn:EC; cbn [bind]; [|discriminate].
  destruct (circle_spec g start c n absolute relative e p q C W PL PN AT TG EP EC) as (_ & _ & _ & _ & _ & C6 & C7 & _). destruct (C7 NS) as [CO RP].
  destruct (arc_fields g start c n absolute relative e p q W PL PN AT TG EP C EC) as (k & a & EK & EA & F1 & F2 & F3 & F4 & F5 & F6 & F7 & F8 & F9 & F10). rewrite EA. specialize (F8 RP).
  destruct (angle_sign (clockwise g) k (vsub (plane_projection p n) (c_center C)) (vsub (plane_projection q n) (c_center C))) as (x & XB & EX). rewrite EX in F10. pose proof CO as (CP & CQ & _). intros EI.
  destruct (Req_EM_T (a_angle a) 0) as [Z|NZ].
  - assert (X0 : x = 0) by (destruct (clockwise g); lra). subst x. rewrite (no_angle m a Z F8) in EI. destruct (phase_offset m); [discriminate|]. rewrite F6, F4 in EI. replace (vadd (c_center C) (vsub (a_start a) (c_center C))) with (a_start a) in EI by (destruct (c_center C), (a_start a); unfold vadd, vsub; cbn; f_equal; ring). rewrite F2, F3, F5, !(lift c n PL PN) in EI.
    exists (c_center C), (c_radius C), 0, [], []. split; auto. split; auto. split; auto. split; [injection EI as <-; reflexivity|]. split; [constructor|]. split; auto. split; [lra|]. split; [constructor|]. intros ->. exfalso. destruct (angle_xy g (c_center C) p q n PN) as (th & S & P & E); [congruence|auto|]. rewrite quat_xy in EK. injection EK as <-. rewrite E in EX. destruct (clockwise g); lra.
  - assert (XP : 0 < x) by (destruct XB as [[|E0] _]; auto; exfalso; apply NZ; rewrite F10, <- E0; destruct (clockwise g); ring). assert (AR : apart c p (a_center a) = a_radius a) by (rewrite F6, F7; auto). rewrite <- F6 in C6.
    destruct (iter_spec c n p q m a PL PN F1 F2 F3 F4 F5 C6 AR F8 NZ) as (l' & vs & ths & E & EL & FA & RI & G1 & G2). rewrite E in EI. injection EI as <-. rewrite F6, F7 in *. assert (AX : Rabs (a_angle a) = x) by (rewrite F10; destruct (clockwise g); [|rewrite Rabs_Ropp]; rewrite Rabs_right; lra). rewrite AX in RI.
    exists (c_center C), (c_radius C), x, vs, ths. split; auto. split; auto. split; auto. split; auto. split; [eapply forall2_imp; [|exact FA]; intros th v; apply on_way_helix; auto|]. split; [lra|]. split; auto. split; [eapply good_more; eauto|]. intros ->.
    destruct (angle_xy g (c_center C) p q n PN) as (th & S & P & Eth); [congruence|auto|]. rewrite quat_xy in EK. injection EK as <-. rewrite EX in Eth. assert (TX : th = x) by (destruct (clockwise g); lra). subst th. split; auto. split; auto. eapply good_more; eauto. apply G2. destruct S as [_ T]. rewrite F10. apply turned_cos in T. auto.
Qed.
(** it does not fail in the XY plane *)
Lemma arc_vertices_runs {ar : Arith} g start m absolute relative e p q : gcode_wf g -> at_point start p -> target absolute g p q -> 0 < e -> ~ same_spot GCodeSelectXYPlane p q -> well_posed g GCodeSelectXYPlane e p q ->
  exists l, arc_vertices g start GCodeSelectXYPlane m absolute relative e = (l, Ok tt).
Proof.
  set (c := GCodeSelectXYPlane). intros W AT TG EP NS WP. assert (PL : arc_plane c) by (left; reflexivity). destruct (plane_has_normal c PL) as [n PN]. unfold arc_vertices. destruct (posed_circle g start c n absolute relative e p q W PL PN AT TG WP) as [C EC]. rewrite EC. cbn [bind].
  destruct (circle_spec g start c n absolute relative e p q C W PL PN AT TG EP EC) as (_ & _ & _ & _ & _ & C6 & C7 & _). destruct (C7 NS) as [CO RP].
  destruct (arc_fields g start c n absolute relative e p q W PL PN AT TG EP C EC) as (k & a & EK & EA & F1 & F2 & F3 & F4 & F5 & F6 & F7 & F8 & F9 & F10). rewrite EA. specialize (F8 RP). pose proof CO as (CP & CQ & _).
  destruct (angle_xy g (c_center C) p q n PN) as (th & S & P & E); [unfold c in *; congruence|auto|]. unfold c in EK. rewrite quat_xy in EK. injection EK as <-. rewrite E in F10. assert (NZ : a_angle a <> 0) by (rewrite F10; destruct (clockwise g); lra). assert (AR : apart c p (a_center a) = a_radius a) by (rewrite F6, F7; auto). rewrite <- F6 in C6.
  destruct (iter_spec c n p q m a PL PN F1 F2 F3 F4 F5 C6 AR F8 NZ) as (l' & vs & ths & EL & _). eauto.
Qed.
(** full circles collapse *)
Lemma atan2_zero : atan2 0 0 = 0.
Proof. unfold atan2. destruct (Rlt_dec 0 0); [lra|]. destruct (Rlt_dec 0 0); [lra|]. destruct (Rlt_dec 0 0); [lra|auto]. Qed.
Lemma rmod_zero : rmod 0 (2 * PI) = 0.
Proof. destruct (rmod_spec 0 (2 * PI) tau_pos) as [B _]. unfold rmod in *. replace (0 / (2 * PI)) with 0 in * by (pose proof tau_pos; field; lra). destruct (base_Int_part 0) as [L1 L2]. assert (Int_part 0 = 0)%Z by (apply le_IZR in L1; assert (-1 < Int_part 0)%Z by (apply lt_IZR; lra); lia). rewrite H. ring. Qed.
Lemma qrot_zero k : qrot k (V3 0 0 0) = V3 0 0 0.
Proof. assert (E : V3 0 0 0 = vscale (V3 0 0 0) 0) by (unfold vscale; cbn; f_equal; ring). rewrite E at 1. rewrite qrot_scale. unfold vscale. f_equal; ring. Qed.
Lemma full_circle {ar : Arith} g start c m absolute relative e p q o : gcode_wf g -> arc_plane c -> at_point start p -> target absolute g p q -> 0 < e -> same_spot c p q -> well_posed g c e p q -> given_center relative g p o -> ~ same_spot c p o ->
  arc_vertices g start c m absolute relative e = if phase_offset m then ([], Raise EZeroDivisionError) else ([(p, q)], Ok tt).
Proof.
  intros W PL AT TG EP SS WP GC NO. destruct (plane_has_normal c PL) as [n PN]. unfold arc_vertices. destruct (posed_circle g start c n absolute relative e p q W PL PN AT TG WP) as [C EC]. rewrite EC. cbn [bind].
  destruct (circle_spec g start c n absolute relative e p q C W PL PN AT TG EP EC) as (_ & _ & _ & _ & _ & C6 & _ & C8). destruct (C8 SS) as (LL & SC & o0 & G0 & R0). assert (EO : o0 = o). { destruct (given_spec g p relative W) as (i & j & k & _ & _ & _ & _ & U). rewrite (U _ G0), (U _ GC). auto. } subst o0.
  destruct (arc_fields g start c n absolute relative e p q W PL PN AT TG EP C EC) as (k & a & EK & EA & F1 & F2 & F3 & F4 & F5 & F6 & F7 & F8 & F9 & F10). rewrite EA.
  assert (RP : 0 < c_radius C). { rewrite R0. destruct (apart_nonneg c p o); auto. exfalso. apply NO, apart_zero. auto. } specialize (F8 RP).
  assert (Z1 : vsub (plane_projection p n) (c_center C) = V3 0 0 0). { apply (frame_ext c); auto; rewrite ?pu_sub, ?pv_sub, ?ph_sub, ?(pu_proj c n PL PN), ?(pv_proj c n PL PN), ?(ph_proj c n PL PN); destruct SC as [S1 S2]; [rewrite S1|rewrite S2|rewrite C6]; clear - PL; by_plane PL; cbn; lra. }
  assert (Z2 : vsub (plane_projection q n) (c_center C) = V3 0 0 0). { rewrite <- Z1. f_equal. destruct SS as [S1 S2]. apply (frame_ext c); auto; rewrite ?(pu_proj c n PL PN), ?(pv_proj c n PL PN), ?(ph_proj c n PL PN); auto. }
  assert (AZ : a_angle a = 0). { rewrite F10, Z1, Z2. unfold arc_angle. rewrite qrot_zero. cbn [vx vy]. rewrite atan2_zero, Rminus_0_r, rmod_zero, Ropp_0. destruct (clockwise g); auto. }
  rewrite (no_angle m a AZ F8). destruct (phase_offset m); auto. rewrite F2, F3, F4, F5. replace (vadd (a_center a) (vsub (plane_projection p n) (a_center a))) with (plane_projection p n) by (destruct (a_center a), (plane_projection p n); unfold vadd, vsub; cbn; f_equal; ring). rewrite !(lift c n PL PN). auto.
Qed.

(** *** the number of lines *)
Lemma wedges_length m a outer w count k : forall j s l, count = (j + Z.of_nat k - 1)%Z -> (phase_offset m = false -> (1 <= k)%nat) -> wedges m a outer w count k j s = (l, Ok tt) -> length l = (if phase_offset m then S k else k).
Proof.
  induction k as [|k IH]; intros j s l EC IN; cbn [wedges].
  - destruct (phase_offset m); [|specialize (IN eq_refl); lia]. intros H. injection H as <-. auto.
  - destruct (phase_offset m || (j <? count)%Z) eqn:GO.
    + destruct (vertex a outer _) as [v|]; [|discriminate]. destruct (wedges m a outer w count k (j + 1) v) as [l' r'] eqn:E. unfold ycons. cbn [fst snd]. intros H. injection H as <- ->. cbn [length]. apply IH in E; [rewrite E; destruct (phase_offset m); auto|lia|]. intros OF; rewrite OF in GO; cbn in GO; apply Z.ltb_lt in GO; lia.
    + apply orb_false_iff in GO as [OF GO]. rewrite OF. apply Z.ltb_ge in GO. intros H. injection H as <-. cbn. lia.
Qed.
Lemma tan_lt_half x y : 0 <= x -> x < y -> y < PI / 2 -> tan x * tan x < tan y * tan y.
Proof. intros A B C. assert (0 <= tan x) by (destruct A as [A| <-]; [left; apply tan_gt_0; lra|rewrite tan_0; lra]). assert (tan x < tan y) by (apply tan_increasing; lra). apply Rmult_le_0_lt_compat; auto. Qed.
Lemma coarse m r e w W : 0 < e <= r -> 0 < W <= PI -> cos (W / 2) = ratio m r e -> W < w -> w < 2 * PI -> too_coarse m r e w.
Proof.
  intros B [W0 WP] C L T. destruct m; cbn [too_coarse ratio] in *.
  - assert (D : cos (w / 2) < cos (W / 2)) by (apply cos_decreasing_1; lra). rewrite C in D. apply Rmult_lt_compat_l with (r := r) in D; [|lra]. replace (r * ((r - e) / r)) with (r - e) in D by (field; lra). lra.
  - destruct (Rle_dec PI w) as [|N]; auto. right. apply Rnot_le_lt in N. assert (D : cos (w / 2) < cos (W / 2)) by (apply cos_decreasing_1; lra). assert (P : 0 < cos (w / 2)) by (apply cos_gt_0; lra). rewrite C in D.
    apply Rmult_lt_compat_l with (r := r + e) in D; [|lra]. replace ((r + e) * (r / (r + e))) with r in D by (field; lra). apply Rmult_lt_reg_r with (cos (w / 2)); auto. unfold Rdiv. rewrite Rmult_minus_distr_r, Rmult_assoc, Rinv_l, Rmult_1_r by lra. lra.
  - right. destruct (tan_quarter W ltac:(rewrite Rabs_right; lra)) as [S0 S1]. cbv zeta in *. assert (TL : tan (W / 4) * tan (W / 4) < tan (w / 4) * tan (w / 4)) by (apply tan_lt_half; lra). rewrite C in S1. set (s := tan (W / 4) * tan (W / 4)) in *.
    assert (K : (r - e / 2) * (1 + s) = (1 - s) * (r + e / 2)) by (rewrite <- S1; field; lra). assert (RS : r * s = e / 2) by lra. rewrite <- RS. apply Rmult_lt_compat_l; lra.
Qed.
Lemma count_lines {ar : Arith} g start m absolute relative e p q l : let c := GCodeSelectXYPlane in gcode_wf g -> at_point start p -> target absolute g p q -> 0 < e -> ~ same_spot c p q ->
  arc_vertices g start c m absolute relative e = (l, Ok tt) ->
  exists o r A n, circle_of g c relative p q o r /\ sweep c (clockwise g) o p q A /\ (1 <= n)%nat /\ length l = (if phase_offset m then S n else n) /\ forall k, (1 <= k < n)%nat -> too_coarse m r (Rmin e r) (A / INR k).
Proof.
  intros c W AT TG EP NS. assert (PL : arc_plane c) by (left; reflexivity). destruct (plane_has_normal c PL) as [n PN]. unfold arc_vertices. destruct (arc_circle g start c absolute relative e) as [C|] eqn:EC; cbn [bind]; [|discriminate].
  destruct (circle_spec g start c n absolute relative e p q C W PL PN AT TG EP EC) as (_ & _ & _ & _ & _ & C6 & C7 & _). destruct (C7 NS) as [CO RP].
  destruct (arc_fields g start c n absolute relative e p q W PL PN AT TG EP C EC) as (k & a & EK & EA & F1 & F2 & F3 & F4 & F5 & F6 & F7 & F8 & F9 & F10). rewrite EA. specialize (F8 RP). pose proof CO as (CP & CQ & _).
  assert (AE : a_error a = Rmin e (c_radius C)). { unfold circle_arc in EA. rewrite EK in EA. cbn [bind] in EA. injection EA as <-. unfold mk_arc. cbn [a_error]. unfold Rmin. destruct (Rlt_dec _ _), (Rle_dec _ _); lra. }
  destruct (angle_xy g (c_center C) p q n PN) as (th & S & P & E); [unfold c in *; congruence|auto|]. unfold c in EK. rewrite quat_xy in EK. injection EK as <-. rewrite E in F10. assert (NZ : a_angle a <> 0) by (rewrite F10; destruct (clockwise g); lra).
  assert (AX : Rabs (a_angle a) = th) by (rewrite F10; destruct (clockwise g); [|rewrite Rabs_Ropp]; rewrite Rabs_right; lra).
  destruct (count_spec m a F8 NZ) as (N & w & W0 & ECN & K1 & EW & WK & [WP WL] & WM & CW & LAST). pose proof (wedge_bound m a w W0 F8 WL WM CW) as BO.
  unfold iter_vertices. rewrite (outer_spec m a w F8 EW BO), ECN, EW. assert (L : (N <=? 0)%Z = false) by (apply Z.leb_gt; lia). rewrite L. intros HW. apply wedges_length in HW; [|lia|lia].
  exists (c_center C), (c_radius C), th, (Z.to_nat N). split; auto. split; auto. split; [lia|]. split; auto. intros j J. rewrite <- AE. rewrite <- F7. apply coarse with W0; auto; [lra| |].
  - rewrite AX in LAST. assert (JP : 0 < INR j) by (apply lt_0_INR; lia). assert (JN : INR j <= IZR N - 1). { rewrite INR_IZR_INZ, <- minus_IZR. apply IZR_le. lia. } apply Rmult_lt_reg_r with (INR j); auto. unfold Rdiv. rewrite Rmult_assoc, Rinv_l by lra. rewrite Rmult_1_r. apply Rle_lt_trans with ((IZR N - 1) * W0); auto. rewrite Rmult_comm. apply Rmult_le_compat_r; lra.
  - destruct S as [SB _]. assert (JP : 1 <= INR j) by (change 1 with (INR 1); apply le_INR; lia). apply Rle_lt_trans with th; [|lra]. apply Rmult_le_reg_r with (INR j); [lra|]. unfold Rdiv. rewrite Rmult_assoc, Rinv_l by lra. rewrite Rmult_1_r, <- (Rmult_1_r th) at 1. apply Rmult_le_compat_l; lra.
Qed.
