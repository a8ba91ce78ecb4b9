(** The circle of an arc. *)
From Coq Require Import List Bool ZArith QArith Qcanon Qreals Reals Lra Lia Psatz.
From Verif Require Import Base Num Words GTable GCode Position Machine Arc GCodeSpec MachSpec CannedProofs ArcSpec ArcProofs ArcProofs2.
Import ListNotations.
Open Scope R_scope.

(** *** parameters *)
Lemma param_cases {ar : Arith} g l : gcode_wf g -> letter_class l = CFloat ->
  (exists x, real_param g l = Ok (Some x) /\ pin (gparams g) l = true /\ reads g l x /\ (forall y, reads g l y -> y = x) /\ ~ lacks g l) \/
  (real_param g l = Ok None /\ pin (gparams g) l = false /\ lacks g l /\ forall y, ~ reads g l y).
Proof.
  intros (L & _ & _ & F) CL. unfold real_param, pin, reads, lacks. destruct (pget (gparams g) l) as [w|] eqn:E.
  - left. assert (E' := E). apply pget_in in E; auto. rewrite Forall_forall in F. specialize (F _ E). destruct L as [L ND]. rewrite Forall_forall in L. destruct (L _ E) as [Q _]. cbn [fst snd] in *. unfold word_wf in F. rewrite <- Q, CL in F.
    destruct (wvalue w) as [x| |] eqn:V; try contradiction. exists (Qc2R x). split; auto. split; auto. split; [eauto 6|]. split; [|eauto].
    intros y (w' & q & I & V' & ->). apply pget_in in I; [|split; auto; apply Forall_forall; auto]. congruence.
  - right. split; auto. split; auto. assert (N : forall w, ~ In (l, w) (gparams g)). { intros w I. apply pget_in in I; auto. congruence. } split; auto. intros y (w & q & I & _). apply (N w I).
Qed.
Lemma ends_spec {ar : Arith} g start p absolute : gcode_wf g -> at_point start p -> exists q, arc_ends g start absolute = Ok (p, q) /\ target absolute g p q /\ forall q', target absolute g p q' -> q' = q.
Proof.
  intros W (x & y & z & X & Y & Z & ->). unfold arc_ends, pos_vector. rewrite X, Y, Z. cbn [bind].
  assert (K : forall l, In l [LX; LY; LZ] -> exists o, real_param g l = Ok o /\ ((exists v, o = Some v /\ reads g l v /\ (forall v', reads g l v' -> v' = v) /\ ~ lacks g l) \/ (o = None /\ lacks g l /\ forall v, ~ reads g l v))).
  { intros l I. destruct (param_cases g l W) as [(v & A & _ & B & C & D)|(A & _ & B & C)]; [cbn in I; intuition (subst; reflexivity)| |]; eexists; (split; [exact A|]); [left; eauto|right; auto]. }
  destruct (K LX) as (ox & EX & CX); [cbn; auto|]. destruct (K LY) as (oy & EY & CY); [cbn; auto|]. destruct (K LZ) as (oz & EZ & CZ); [cbn; auto|]. rewrite EX, EY, EZ. cbn [bind].
  assert (T : forall l (f : vec -> R) o (q p : vec), ((exists v, o = Some v /\ reads g l v /\ (forall v', reads g l v' -> v' = v) /\ ~ lacks g l) \/ (o = None /\ lacks g l /\ forall v, ~ reads g l v)) ->
    (((forall x, reads g l x -> f q = if absolute then x else f p + x) /\ (lacks g l -> f q = f p)) <-> f q = if absolute then given o (f p) else f p + given o 0)).
  { clear. intros l f o q p [(v & -> & A & B & C)|(-> & A & B)]; cbn [given]; split.
    - intros [H _]. apply H; auto.
    - intros H. split; [intros x' D; rewrite (B _ D); auto|intros D; contradiction].
    - intros [_ H]. rewrite (H A). destruct absolute; ring.
    - intros H. split; [intros x' D; destruct (B _ D)|intros _; rewrite H; destruct absolute; ring]. }
  assert (TT : forall p q, target absolute g p q <-> (vx q = (if absolute then given ox (vx p) else vx p + given ox 0) /\ vy q = (if absolute then given oy (vy p) else vy p + given oy 0) /\ vz q = (if absolute then given oz (vz p) else vz p + given oz 0))).
  { intros p q. unfold target. rewrite <- (T LX vx ox q p CX), <- (T LY vy oy q p CY), <- (T LZ vz oz q p CZ). split.
    - intros H. repeat split; intros; try (apply (H LX vx); cbn; auto; fail); try (apply (H LY vy); cbn; auto; fail); try (apply (H LZ vz); cbn; auto; fail).
    - intros (A & B & C) l f I. cbn in I. destruct I as [I|[I|[I|[]]]]; injection I as <- <-; auto. }
  destruct absolute; eexists; (split; [reflexivity|]); (split; [apply TT; cbn; auto|]); intros q' H; apply TT in H; cbn in H; apply vec_ext; cbn; tauto.
Qed.
Lemma given_spec {ar : Arith} g (p : vec) (relative : bool) : gcode_wf g -> exists i j k, real_param g LI = Ok i /\ real_param g LJ = Ok j /\ real_param g LK = Ok k /\
  let o := if relative then vadd (V3 (given i 0) (given j 0) (given k 0)) p else V3 (given i 0) (given j 0) (given k 0) in given_center relative g p o /\ forall o', given_center relative g p o' -> o' = o.
Proof.
  intros W.
  assert (K : forall l, In l [LI; LJ; LK] -> exists o, real_param g l = Ok o /\ ((exists v, o = Some v /\ reads g l v /\ (forall v', reads g l v' -> v' = v) /\ ~ lacks g l) \/ (o = None /\ lacks g l /\ forall v, ~ reads g l v))).
  { intros l I. destruct (param_cases g l W) as [(v & A & _ & B & C & D)|(A & _ & B & C)]; [cbn in I; intuition (subst; reflexivity)| |]; eexists; (split; [exact A|]); [left; eauto|right; auto]. }
  destruct (K LI) as (ox & EX & CX); [cbn; auto|]. destruct (K LJ) as (oy & EY & CY); [cbn; auto|]. destruct (K LK) as (oz & EZ & CZ); [cbn; auto|]. exists ox, oy, oz. split; auto. split; auto. split; auto.
  assert (T : forall l (f : vec -> R) o (q : vec), ((exists v, o = Some v /\ reads g l v /\ (forall v', reads g l v' -> v' = v) /\ ~ lacks g l) \/ (o = None /\ lacks g l /\ forall v, ~ reads g l v)) ->
    (((forall x, reads g l x -> f q = if relative then f p + x else x) /\ (lacks g l -> f q = if relative then f p else 0)) <-> f q = if relative then given o 0 + f p else given o 0)).
  { clear. intros l f o q [(v & -> & A & B & C)|(-> & A & B)]; cbn [given]; split.
    - intros [H _]. rewrite (H _ A). destruct relative; ring.
    - intros H. split; [intros x' D; rewrite (B _ D), H; destruct relative; ring|intros D; contradiction].
    - intros [_ H]. rewrite (H A). destruct relative; ring.
    - intros H. split; [intros x' D; destruct (B _ D)|intros _; rewrite H; destruct relative; ring]. }
  assert (TT : forall q, given_center relative g p q <-> (vx q = (if relative then given ox 0 + vx p else given ox 0) /\ vy q = (if relative then given oy 0 + vy p else given oy 0) /\ vz q = (if relative then given oz 0 + vz p else given oz 0))).
  { intros q. unfold given_center. rewrite <- (T LI vx ox q CX), <- (T LJ vy oy q CY), <- (T LK vz oz q CZ). split.
    - intros H. repeat split; intros; try (apply (H LI vx); cbn; auto; fail); try (apply (H LJ vy); cbn; auto; fail); try (apply (H LK vz); cbn; auto; fail).
    - intros (A & B & C) l f I. cbn in I. destruct I as [I|[I|[I|[]]]]; injection I as <- <-; auto. }
  cbv zeta. destruct relative; (split; [apply TT; cbn; auto|]); intros q' H; apply TT in H; cbn in H; apply vec_ext; cbn; tauto.
Qed.

(** *** points at a given distance of two points *)
Section Circle.
Variables (c : gclass) (n : vec).
Hypotheses (PL : arc_plane c) (PN : plane_normal c = Some n).
Lemma flat_apart v w : ph c v = 0 -> ph c w = 0 -> norm (vsub v w) = apart c v w.
Proof. intros V W. rewrite (flat_norm c n PL PN); [|rewrite ph_sub, V, W; ring]. rewrite pu_sub, pv_sub. reflexivity. Qed.
Lemma apart_proj_r v w : apart c v (plane_projection w n) = apart c v w.
Proof. unfold apart. rewrite (pu_proj c n PL PN), (pv_proj c n PL PN). reflexivity. Qed.
Lemma apart_proj_l v w : apart c (plane_projection v n) w = apart c v w.
Proof. unfold apart. rewrite (pu_proj c n PL PN), (pv_proj c n PL PN). reflexivity. Qed.
Variables (p q : vec).
Let P := plane_projection p n.
Let Q := plane_projection q n.
Let du := (pu c q - pu c p) / 2.
Let dv := (pv c q - pv c p) / 2.
Let L := norm (span_mid P Q).
Lemma mid_frame : pu c (span_mid P Q) = du /\ pv c (span_mid P Q) = dv /\ ph c (span_mid P Q) = 0.
Proof. unfold span_mid. rewrite pu_scale, pv_scale, ph_scale, pu_sub, pv_sub, ph_sub. subst P Q. rewrite !(pu_proj c n PL PN), !(pv_proj c n PL PN), !(ph_proj c n PL PN). unfold du, dv. repeat split; field. Qed.
Lemma mid_norm : L * L = du * du + dv * dv.
Proof. unfold L. rewrite norm_sq, (dot_frame c n PL PN). destruct mid_frame as (-> & -> & ->). ring. Qed.
Lemma mid_half : L = apart c p q / 2.
Proof.
  assert (E : apart c p q = 2 * L). { apply apart_eq; [pose proof (norm_nonneg (span_mid P Q)); unfold L; lra|]. transitivity (4 * (L * L)); [rewrite mid_norm; unfold du, dv; field|ring]. } rewrite E. field.
Qed.
Variable r : R.
Hypotheses (RL : L <= r) (LP : L <> 0).
Let s := sqrt (r * r - L * L).
Lemma s_sq : s * s = r * r - L * L.
Proof. apply sqrt_sqrt. pose proof (norm_nonneg (span_mid P Q)) as N. fold L in N. assert (L * L <= r * r) by (apply Rmult_le_compat; lra). lra. Qed.
Lemma vect_frame : pu c (mid_vect n P Q r) = dv / L * s /\ pv c (mid_vect n P Q r) = - (du / L * s) /\ ph c (mid_vect n P Q r) = 0.
Proof.
  unfold mid_vect. fold L. fold s. rewrite pu_scale, pv_scale, ph_scale, (pu_cross c n PL PN), (pv_cross c n PL PN), (ph_cross c n PL PN). unfold normalized. fold L. destruct (Req_EM_T L 0); [contradiction|].
  destruct mid_frame as (A & B & _). revert A B. generalize (span_mid P Q). intros v A B. rewrite <- A, <- B. assert (U : pu c (V3 (vx v / L) (vy v / L) (vz v / L)) = pu c v / L) by (destruct c; reflexivity). assert (V : pv c (V3 (vx v / L) (vy v / L) (vz v / L)) = pv c v / L) by (destruct c; reflexivity). rewrite U, V. repeat split; field; auto.
Qed.
(** the two candidates: [k] is 1 or -1 *)
Definition cand (k : R) : vec := vadd (vadd P (span_mid P Q)) (vscale (mid_vect n P Q r) k).
Lemma cand_frame k : pu c (cand k) = (pu c p + du) + k * (dv / L * s) /\ pv c (cand k) = (pv c p + dv) - k * (du / L * s) /\ ph c (cand k) = 0.
Proof.
  unfold cand. rewrite !pu_add, !pv_add, !ph_add, !pu_scale, !pv_scale, !ph_scale. destruct mid_frame as (-> & -> & ->). destruct vect_frame as (-> & -> & ->). subst P. rewrite (pu_proj c n PL PN), (pv_proj c n PL PN), (ph_proj c n PL PN). repeat split; ring.
Qed.
Lemma r_nonneg : 0 <= r. Proof. pose proof (norm_nonneg (span_mid P Q)) as N. fold L in N. lra. Qed.
Lemma unit_frame : (du / L) * (du / L) + (dv / L) * (dv / L) = 1.
Proof. transitivity ((du * du + dv * dv) / (L * L)); [field; auto|]. rewrite <- mid_norm. field. auto. Qed.
Lemma cand_apart k : k * k = 1 -> apart c p (cand k) = r /\ apart c q (cand k) = r.
Proof.
  intros K. destruct (cand_frame k) as (A & B & _). pose proof unit_frame as U. pose proof s_sq as S. pose proof r_nonneg as RN. pose proof mid_norm as M.
  assert (E : du * du + dv * dv + s * s = r * r) by lra.
  split; apply apart_eq; auto; rewrite A, B; rewrite <- E.
  - transitivity (du * du + dv * dv + k * k * (s * s) * ((du / L) * (du / L) + (dv / L) * (dv / L))); [field; auto|rewrite U, K; ring].
  - replace (pu c q) with (pu c p + 2 * du) by (unfold du; field). replace (pv c q) with (pv c p + 2 * dv) by (unfold dv; field). transitivity (du * du + dv * dv + k * k * (s * s) * ((du / L) * (du / L) + (dv / L) * (dv / L))); [field; auto|rewrite U, K; ring].
Qed.
Lemma cand_only o : apart c p o = r -> apart c q o = r -> same_spot c o (cand 1) \/ same_spot c o (cand (-1)).
Proof.
  intros A B. apply (f_equal (fun x => x * x)) in A, B. rewrite apart_sq in A, B. destruct (cand_frame 1) as (U1 & V1 & _). destruct (cand_frame (-1)) as (U2 & V2 & _). pose proof s_sq as S. pose proof mid_norm as M. pose proof unit_frame as UF.
  set (x := pu c o - (pu c p + du)). set (y := pv c o - (pv c p + dv)).
  assert (A' : (du + x) * (du + x) + (dv + y) * (dv + y) = r * r). { rewrite <- A. unfold x, y. ring. }
  assert (B' : (du - x) * (du - x) + (dv - y) * (dv - y) = r * r). { rewrite <- B. unfold x, y, du, dv. field. }
  assert (D : du * x + dv * y = 0) by lra. assert (N : x * x + y * y = s * s) by lra.
  (* coordinate along the normal of the span *)
  set (k := (dv / L) * x - (du / L) * y).
  assert (X : x = k * (dv / L)). { unfold k. transitivity (x * ((du / L) * (du / L) + (dv / L) * (dv / L)) - (du / L) * ((du * x + dv * y) / L)); [rewrite UF, D; field; auto|field; auto]. }
  assert (Y : y = - (k * (du / L))). { unfold k. transitivity (y * ((du / L) * (du / L) + (dv / L) * (dv / L)) - (dv / L) * ((du * x + dv * y) / L)); [rewrite UF, D; field; auto|field; auto]. }
  assert (KS : (k - s) * (k + s) = 0). { transitivity (k * k * ((du / L) * (du / L) + (dv / L) * (dv / L)) - s * s); [rewrite UF; ring|]. rewrite <- N. rewrite X at 1 2. rewrite Y. ring. }
  apply Rmult_integral in KS. destruct KS as [KS|KS]; [left|right]; split; rewrite ?U1, ?V1, ?U2, ?V2.
  - replace (pu c o) with (x + (pu c p + du)) by (unfold x; ring). rewrite X. replace k with s by lra. ring.
  - replace (pv c o) with (y + (pv c p + dv)) by (unfold y; ring). rewrite Y. replace k with s by lra. ring.
  - replace (pu c o) with (x + (pu c p + du)) by (unfold x; ring). rewrite X. replace k with (- s) by lra. ring.
  - replace (pv c o) with (y + (pv c p + dv)) by (unfold y; ring). rewrite Y. replace k with (- s) by lra. ring.
Qed.
(** the side: around candidate [k] the arc is at most half a turn clockwise if k is 1, at least if k is -1 *)
Lemma cand_side k cw th : k * k = 1 -> 0 < r -> sweep c cw (cand k) p q th ->
  (0 <= (if cw then k else - k) -> th <= PI) /\ ((if cw then k else - k) <= 0 -> PI <= th).
Proof.
  intros K RP [B T]. destruct (cand_apart k K) as [AP AQ]. destruct (turned_cossin _ _ _ _ _ _ T) as [CS SN]. cbv zeta in *. destruct (cand_frame k) as (U & V & _). rewrite AP, U, V in SN. pose proof s_sq as S. pose proof (norm_nonneg (span_mid P Q)) as NP. fold L in NP. pose proof mid_norm as M.
  assert (SP : 0 <= s) by apply sqrt_pos.
  assert (E : r * r * sin th = (if cw then k else - k) * (2 * L * s)).
  { rewrite SN. replace (pu c q) with (pu c p + 2 * du) by (unfold du; field). replace (pv c q) with (pv c p + 2 * dv) by (unfold dv; field). assert (ML : (du * du + dv * dv) / L = L) by (rewrite <- M; field; auto). destruct cw.
    - transitivity (2 * k * s * ((du * du + dv * dv) / L)); [field; auto|rewrite ML; ring].
    - transitivity (- (2 * k * s) * ((du * du + dv * dv) / L)); [field; auto|rewrite ML; ring]. }
  assert (RR : 0 < r * r) by (apply Rmult_lt_0_compat; auto). assert (LS : 0 <= 2 * L * s) by (apply Rmult_le_pos; lra). split; intros H.
  - destruct (Rle_dec th PI) as [|C]; auto. exfalso. assert (sin th < 0) by (apply sin_lt_0; lra). assert (0 <= r * r * sin th) by (rewrite E; apply Rmult_le_pos; auto). assert (r * r * sin th < 0) by (rewrite <- (Rmult_0_r (r * r)); apply Rmult_lt_compat_l; auto). lra.
  - destruct (Rle_dec PI th) as [|C]; auto. exfalso. destruct (Req_EM_T th 0) as [Z|Z].
    + subst th. destruct T as [T1 T2]. cbv zeta in *. rewrite cos_0, sin_0 in *. apply LP. rewrite mid_half. replace (apart c p q) with 0; [field|]. symmetry. apply apart_zero. destruct cw; split; lra.
    + assert (0 < sin th) by (apply sin_gt_0; lra). assert (r * r * sin th <= 0). { rewrite E. replace 0 with ((if cw then k else - k) * 0) by ring. apply Rmult_le_compat_neg_l; auto. } assert (0 < r * r * sin th) by (apply Rmult_lt_0_compat; auto). lra.
Qed.
End Circle.

Lemma params_ok {ar : Arith} g : gcode_wf g -> assert_params g = Ok tt ->
  (exists x, real_param g LR = Ok (Some x) /\ reads g LR x /\ x <> 0) \/ (real_param g LR = Ok None /\ lacks g LR).
Proof.
  intros W. unfold assert_params. destruct (negb _); [discriminate|]. destruct (_ && _); [discriminate|]. destruct (negb _); [discriminate|]. destruct (param_cases g LR W eq_refl) as [(x & RP & _ & RD & _)|(RP & _ & RL & _)]; rewrite RP; cbn [bind].
  - destruct (Req_EM_T x 0); [discriminate|]. intros _. left. eauto.
  - auto.
Qed.
Lemma cand_plus n p q r : cand n p q r 1 = vadd (vadd (plane_projection p n) (span_mid (plane_projection p n) (plane_projection q n))) (mid_vect n (plane_projection p n) (plane_projection q n) r).
Proof. unfold cand. f_equal. unfold vscale. apply vec_ext; cbn; ring. Qed.
Lemma cand_minus n p q r : cand n p q r (-1) = vsub (vadd (plane_projection p n) (span_mid (plane_projection p n) (plane_projection q n))) (mid_vect n (plane_projection p n) (plane_projection q n) r).
Proof. unfold cand, vsub. apply vec_ext; cbn; ring. Qed.
Lemma same_spot_apart c o o' v : same_spot c o o' -> apart c o v = apart c o' v.
Proof. intros [A B]. unfold apart. rewrite A, B. reflexivity. Qed.
(** no point of the plane between: half the span is never longer than the mean of the two radii *)
Lemma triangle c p q o : apart c p q <= apart c p o + apart c q o.
Proof.
  pose proof (apart_sq c p q) as PQ. pose proof (apart_sq c p o) as PO. pose proof (apart_sq c q o) as QO. pose proof (apart_nonneg c p q). pose proof (apart_nonneg c p o). pose proof (apart_nonneg c q o).
  set (a := pu c p - pu c o) in *. set (b := pv c p - pv c o) in *. set (u := pu c q - pu c o) in *. set (v := pv c q - pv c o) in *.
  assert (E : apart c p q * apart c p q = (a - u) * (a - u) + (b - v) * (b - v)) by (rewrite PQ; unfold a, b, u, v; ring).
  apply Rsqr_incr_0_var; [|lra]. unfold Rsqr. rewrite E. assert (C : (a * u + b * v) * (a * u + b * v) <= (apart c p o * apart c q o) * (apart c p o * apart c q o)).
  { replace ((apart c p o * apart c q o) * (apart c p o * apart c q o)) with ((apart c p o * apart c p o) * (apart c q o * apart c q o)) by ring. rewrite PO, QO. pose proof (Rle_0_sqr (a * v - b * u)) as S. unfold Rsqr in S. lra. }
  assert (D : - (a * u + b * v) <= apart c p o * apart c q o). { apply Rsqr_incr_0_var; [unfold Rsqr; lra|apply Rmult_le_pos; auto]. }
  replace ((apart c p o + apart c q o) * (apart c p o + apart c q o)) with (apart c p o * apart c p o + 2 * (apart c p o * apart c q o) + apart c q o * apart c q o) by ring. rewrite PO, QO. lra.
Qed.
Lemma circle_spec {ar : Arith} g start c n absolute relative e p q C : gcode_wf g -> arc_plane c -> plane_normal c = Some n -> at_point start p -> target absolute g p q -> 0 < e ->
  arc_circle g start c absolute relative e = Ok C ->
  c_normal C = n /\ c_from C = p /\ c_to C = q /\ c_pfrom C = plane_projection p n /\ c_pto C = plane_projection q n /\ ph c (c_center C) = 0 /\
  (~ same_spot c p q -> circle_of g c relative p q (c_center C) (c_radius C) /\ 0 < c_radius C) /\
  (same_spot c p q -> lacks g LR /\ same_spot c (c_center C) p /\ exists o0, given_center relative g p o0 /\ c_radius C = apart c p o0).
Proof.
  intros W PL PN AT TG EP. unfold arc_circle. destruct (ends_spec g start p absolute W AT) as (q' & E & _ & U). rewrite (U q TG) in *. clear U TG. rename q' into b. rewrite E. cbn [bind]. rewrite PN.
  destruct (assert_params g) as [[]|] eqn:AP; cbn [bind]; [|discriminate]. set (P := plane_projection p n). set (Q := plane_projection b n).
  assert (HN : norm (span_mid P Q) = apart c p b / 2) by (apply (mid_half c n PL PN)).
  destruct (params_ok g W AP) as [(x & RX & RD & NZ)|(RX & LK)]; rewrite RX; cbn [bind].
  - unfold P, Q. rewrite (proj_apart c n PL PN). fold P Q. destruct (Rlt_dec (apart c p b) e) as [|FE]; [discriminate|]. destruct (Rlt_dec (Rabs x) (norm (span_mid P Q))) as [|RL]; [discriminate|]. apply Rnot_lt_le in RL. intros H. injection H as <-. cbn [c_normal c_from c_to c_pfrom c_pto c_center c_radius].
    assert (LP : norm (span_mid P Q) <> 0) by (rewrite HN; apply Rnot_lt_le in FE; lra). assert (RP : 0 < Rabs x) by (apply Rabs_pos_lt; auto).
    assert (K : exists k, k * k = 1 /\ (if Bool.eqb (subclass (gcls g) GCodeArcMoveCW) (if Rlt_dec x 0 then true else false) then vsub (vadd P (span_mid P Q)) (mid_vect n P Q (Rabs x)) else vadd (vadd P (span_mid P Q)) (mid_vect n P Q (Rabs x))) = cand n p b (Rabs x) k /\
        (0 < x -> 0 <= (if subclass (gcls g) GCodeArcMoveCW then k else - k)) /\ (x < 0 -> (if subclass (gcls g) GCodeArcMoveCW then k else - k) <= 0)).
    { destruct (subclass (gcls g) GCodeArcMoveCW), (Rlt_dec x 0); cbn [Bool.eqb]; [exists (-1)|exists 1|exists 1|exists (-1)]; (split; [ring|]); rewrite ?cand_plus, ?cand_minus; (split; [reflexivity|]); split; intros; lra. }
    destruct K as (k & KK & EC & S1 & S2). rewrite EC. do 5 (split; [reflexivity|]). split; [apply (cand_frame c n PL PN p b (Rabs x) LP)|]. split.
    + intros NS. split; auto. destruct (cand_apart c n PL PN p b (Rabs x) RL LP k KK) as [AP' AQ]. split; auto. split; auto. left. exists x. split; auto. split; auto. pose proof (true_angle_sweep c (subclass (gcls g) GCodeArcMoveCW) (cand n p b (Rabs x) k) p b) as SW. eexists. split; [apply SW; congruence|].
      destruct (cand_side c n PL PN p b (Rabs x) RL LP k _ _ KK RP (SW ltac:(congruence))) as [T1 T2]. split; auto.
    + intros SS. apply apart_zero in SS. lra.
  - destruct (given_spec g p relative W) as (i & j & kk & EI & EJ & EK & GC & GU). rewrite EI, EJ, EK. cbn [bind]. cbv zeta in GC, GU. revert GC GU. generalize (if relative then vadd (V3 (given i 0) (given j 0) (given kk 0)) p else V3 (given i 0) (given j 0) (given kk 0)). intros o0 GC GU.
    unfold P, Q. rewrite !(proj_apart c n PL PN). fold P Q. set (r := (apart c p o0 + apart c b o0) / 2). destruct (Rlt_dec r (norm (span_mid P Q))) as [|RL]; [discriminate|]. apply Rnot_lt_le in RL. intros H. injection H as <-. cbn [c_normal c_from c_to c_pfrom c_pto c_center c_radius]. do 5 (split; [reflexivity|]).
    set (half := vadd P (span_mid P Q)). set (m := mid_vect n P Q r). set (c0 := plane_projection o0 n).
    destruct (Req_EM_T (norm (span_mid P Q)) 0) as [Z|LP].
    + assert (SS : same_spot c p b) by (apply apart_zero; lra). assert (MZ : m = V3 0 0 0). { unfold m, mid_vect. rewrite (norm_zero _ Z), normalized_zero. unfold cross, vscale. cbn. f_equal; ring. }
      assert (EH : forall x, x = vsub half m \/ x = vadd half m -> x = P). { intros y [-> | ->]; rewrite MZ; unfold half; rewrite (norm_zero _ Z); destruct P; unfold vsub, vadd; cbn; f_equal; ring. }
      assert (CP : (if Rlt_dec (norm (vsub (vsub half m) c0)) (norm (vsub (vadd half m) c0)) then vsub half m else vadd half m) = P) by (apply EH; destruct (Rlt_dec _ _); auto). rewrite CP. split; [apply (ph_proj c n PL PN)|]. split; [intros NS; contradiction|]. intros _. split; auto. split; [unfold P; split; [apply (pu_proj c n PL PN)|apply (pv_proj c n PL PN)]|].
      exists o0. split; auto. unfold r. rewrite <- (same_spot_apart _ _ _ o0 SS). field.
    + assert (NS : ~ same_spot c p b) by (rewrite <- apart_zero; intros F; apply LP; rewrite HN, F; field).
      assert (HP : 0 < norm (span_mid P Q)) by (pose proof (norm_nonneg (span_mid P Q)); lra). destruct (cand_frame c n PL PN p b r LP 1) as (_ & _ & F1). destruct (cand_frame c n PL PN p b r LP (-1)) as (_ & _ & F2).
      pose proof (cand_plus n p b r) as C1. pose proof (cand_minus n p b r) as C2. fold P in C1, C2. fold Q in C1, C2. fold half in C1, C2. fold m in C1, C2. rewrite <- C1, <- C2. unfold c0. assert (G0 : ph c (plane_projection o0 n) = 0) by (apply (ph_proj c n PL PN)). rewrite !(flat_apart c n PL PN) by auto. rewrite !(apart_proj_r c n PL PN).
      destruct (cand_apart c n PL PN p b r RL LP 1 ltac:(ring)) as [A1 B1]. destruct (cand_apart c n PL PN p b r RL LP (-1) ltac:(ring)) as [A2 B2].
      assert (MIN : forall o', apart c p o' = r -> apart c b o' = r -> apart c (if Rlt_dec (apart c (cand n p b r (-1)) o0) (apart c (cand n p b r 1) o0) then cand n p b r (-1) else cand n p b r 1) o0 <= apart c o' o0).
      { intros o' A B. destruct (cand_only c n PL PN p b r RL LP o' A B) as [S|S]; rewrite (same_spot_apart _ _ _ o0 S); destruct (Rlt_dec _ _); lra. }
      revert MIN. destruct (Rlt_dec _ _) as [LT|LT]; intros MIN; (split; [auto|]); (split; [|intros; contradiction]); intros _; (split; [|lra]); split; auto; split; auto; right; split; auto; exists o0; auto.
Qed.
