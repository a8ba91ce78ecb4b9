(** Linearized arcs: from the gcode to the moves. *)
From Coq Require Import List Bool ZArith QArith Qcanon Qreals Reals Lra Lia Psatz.
From Verif Require Import Base Num Words GTable GCode Position Arc GCodeSpec GCodeProofs GCodeProofs2 PropsGCode MachSpec DrillSpec DrillProofs2 DrillProofs4 CannedProofs ArcSpec ArcProofs ArcProofs2 ArcProofs3 ArcProofs4.
Import ListNotations.
Open Scope R_scope.

(** *** the arguments *)
Lemma arc_dist_apart c : derives c GCodeAbsoluteArcDistanceMode -> subclass c GCodeIncrementalArcDistanceMode = false.
Proof. intros A. apply subclass_derives in A. revert A. destruct c; vm_compute; try discriminate; auto. Qed.
Lemma inc_abs_false c : derives c GCodeIncrementalDistanceMode -> subclass c GCodeAbsoluteDistanceMode = false.
Proof. intros A. apply subclass_derives in A. revert A. destruct c; vm_compute; try discriminate; auto. Qed.
Definition moved (absolute : bool) (places : Z) (p : vec) (k : ygen (vec * vec)) : ygen vec := if absolute then (map snd (fst k), snd k) else (increments places p (fst k), snd k).
Lemma at_vector start p : at_point start p -> pos_vector start = Ok p.
Proof. intros (x & y & z & X & Y & Z & ->). unfold pos_vector. rewrite X, Y, Z. reflexivity. Qed.
Lemma linearize_args g start plane m dist arc_dist e places c absolute relative p : is_arc g -> plane_is plane c -> arc_plane c -> dist_is dist absolute -> arc_dist_is arc_dist relative -> at_point start p -> 0 < e ->
  linearize_arc g start plane (Some m) dist arc_dist e places = moved absolute places p (arc_vertices g start c m absolute relative e).
Proof.
  intros AR PI PL DI AD AT EP. unfold linearize_arc. apply subclass_derives in AR. rewrite AR. cbn [andb].
  assert (E : match plane with Some c => c | None => GCodeSelectXYPlane end = c) by (destruct PI as [->|[-> ->]]; reflexivity). rewrite E. assert (S : subclass c GCodePlaneSelect = true) by (destruct PL as [<-|[<-|[<-|[]]]]; reflexivity). rewrite S. cbn [andb]. clear E S.
  set (d := match dist with Some c => c | None => GCodeAbsoluteDistanceMode end). assert (D : subclass d GCodeAbsoluteDistanceMode = absolute /\ (subclass d GCodeAbsoluteDistanceMode || subclass d GCodeIncrementalDistanceMode) = true).
  { unfold d, dist_is in *. destruct absolute; [destruct DI as [->|(x & -> & D)]; [split; reflexivity|]|destruct DI as (x & -> & D)].
    - apply subclass_derives in D. rewrite D. auto.
    - rewrite (inc_abs_false _ D). apply subclass_derives in D. rewrite D. auto. }
  destruct D as [D1 D2]. rewrite D2, D1. set (ad := match arc_dist with Some c => c | None => GCodeIncrementalArcDistanceMode end).
  assert (A : subclass ad GCodeIncrementalArcDistanceMode = relative /\ (subclass ad GCodeAbsoluteArcDistanceMode || subclass ad GCodeIncrementalArcDistanceMode) = true).
  { unfold ad, arc_dist_is in *. destruct relative; [destruct AD as [->|(x & -> & D)]; [split; reflexivity|]|destruct AD as (x & -> & D)].
    - apply subclass_derives in D. rewrite D. split; auto. apply orb_true_r.
    - rewrite (arc_dist_apart _ D). apply subclass_derives in D. rewrite D. auto. }
  destruct A as [A1 A2]. rewrite A2, A1. cbn [andb negb orb]. destruct (Rlt_dec 0 e); [|contradiction]. unfold moved. destruct absolute; auto. rewrite (at_vector _ _ AT). reflexivity.
Qed.

(** *** rounded increments *)
Lemma rround_near x : Rabs (IZR (rround x) - x) <= / 2.
Proof.
  unfold rround. destruct (base_fp x) as [B0 B1]. assert (E : x = IZR (Int_part x) + frac_part x) by (unfold frac_part; ring). set (f := frac_part x) in *. set (i := Int_part x) in *. assert (P : IZR (i + 1) = IZR i + 1) by apply plus_IZR.
  destruct (Rlt_dec f (1 / 2)); [|destruct (Rlt_dec (1 / 2) f); [|destruct (Z.even i)]]; apply Rabs_le; rewrite ?P, E; lra.
Qed.
Lemma power_pos places : 0 < powerRZ 10 places. Proof. apply powerRZ_lt. lra. Qed.
Lemma round_near x places : Rabs (round_places x places - x) <= / (2 * powerRZ 10 places).
Proof.
  unfold round_places. pose proof (power_pos places) as P. generalize dependent (powerRZ 10 places). intros u P. pose proof (rround_near (x * u)) as N. replace (IZR (rround (x * u)) / u - x) with ((IZR (rround (x * u)) - x * u) * / u) by (field; lra).
  rewrite Rabs_mult, (Rabs_right (/ u)) by (apply Rle_ge; left; apply Rinv_0_lt_compat; auto). rewrite Rinv_mult. apply Rmult_le_compat_r; auto. left. apply Rinv_0_lt_compat. auto.
Qed.
Lemma increments_keep places l : forall p, keeps places p (increments places p l) (map snd l).
Proof.
  induction l as [|[x v] l IH]; intros p; cbn [increments map]; [constructor|]. set (d := V3 (round_places (vx (vsub v p)) places) (round_places (vy (vsub v p)) places) (round_places (vz (vsub v p)) places)).
  apply keeps_on with (vadd p d); auto; try (destruct p; reflexivity). cbn [snd]. unfold close. cbv zeta. pose proof (round_near (vx (vsub v p)) places) as X. pose proof (round_near (vy (vsub v p)) places) as Y. pose proof (round_near (vz (vsub v p)) places) as Z. cbn in *.
  repeat split; [replace (_ - _) with (round_places (vx v - vx p) places - (vx v - vx p)) by ring; auto|replace (_ - _) with (round_places (vy v - vy p) places - (vy v - vy p)) by ring; auto|replace (_ - _) with (round_places (vz v - vz p) places - (vz v - vz p)) by ring; auto].
Qed.
Lemma moved_follows absolute places p l r out : moved absolute places p (l, r) = (out, Ok tt) -> r = Ok tt /\ follows absolute places p out (map snd l).
Proof. unfold moved, follows. destruct absolute; cbn [fst snd]; intros H; injection H as <- ->; split; auto. apply increments_keep. Qed.
Lemma moved_ok absolute places p l : exists out, moved absolute places p (l, Ok tt) = (out, Ok tt).
Proof. unfold moved. destruct absolute; cbn; eauto. Qed.

(** *** when there is a circle *)
Section Gcode.
Context {ar : Arith}.
Variables (g : gcode) (start : position) (c : gclass) (n : vec) (absolute relative : bool) (e : R) (p q : vec).
Hypotheses (W : gcode_wf g) (PL : arc_plane c) (PN : plane_normal c = Some n) (AT : at_point start p) (TG : target absolute g p q) (EP : 0 < e).
Lemma ends_are : arc_ends g start absolute = Ok (p, q).
Proof. destruct (ends_spec g start p absolute W AT) as (q' & E & _ & U). rewrite (U q TG). auto. Qed.
Lemma pin_lacks l : letter_class l = CFloat -> (pin (gparams g) l = true <-> ~ lacks g l) /\ (pin (gparams g) l = false <-> lacks g l).
Proof. intros C. destruct (param_cases g l W C) as [(x & _ & -> & _ & _ & N)|(_ & -> & L & _)]; split; split; auto; try discriminate; intros; contradiction. Qed.
Lemma reads_not_lacks l x : reads g l x -> ~ lacks g l.
Proof. intros (w & v & I & _) L. apply (L w I). Qed.
Lemma posed_circle : well_posed g c e p q -> exists C, arc_circle g start c absolute relative e = Ok C.
Proof.
  intros [(l & I & NL) RC]. unfold arc_circle. rewrite ends_are. cbn [bind]. rewrite PN.
  assert (EX : existsb (fun l => pin (gparams g) l) [LX; LY; LZ] = true). { apply existsb_exists. exists l. split; auto. apply pin_lacks; auto. cbn in I. intuition (subst; reflexivity). }
  assert (AP : assert_params g = Ok tt). { unfold assert_params. rewrite EX. cbn [negb]. destruct RC as [(x & RX & NZ & _ & LI3)|(LR0 & l' & I' & NL')].
    - assert (E1 : existsb (fun l => pin (gparams g) l) [LI; LJ; LK] = false). { cbn [existsb]. rewrite !orb_false_iff. repeat split; apply pin_lacks; auto; apply LI3; cbn; auto. } rewrite E1. destruct (param_cases g LR W eq_refl) as [(y & R1 & R2 & R3 & R4 & _)|(_ & _ & LL & _)]; [|destruct (reads_not_lacks _ _ RX LL)]. rewrite R1, R2. cbn [andb orb negb bind]. rewrite (R4 _ RX) in *. destruct (Req_EM_T y 0); [contradiction|auto].
    - assert (E1 : existsb (fun l => pin (gparams g) l) [LI; LJ; LK] = true). { apply existsb_exists. exists l'. split; auto. apply pin_lacks; auto. cbn in I'. intuition (subst; reflexivity). } rewrite E1. destruct (param_cases g LR W eq_refl) as [(y & _ & _ & _ & _ & N)|(R1 & R2 & _)]; [contradiction|]. rewrite R1, R2. reflexivity. }
  rewrite AP. cbn [bind]. destruct RC as [(x & RX & NZ & [L1 L2] & LI3)|(LR0 & _)].
  - destruct (param_cases g LR W eq_refl) as [(y & R1 & _ & _ & R4 & _)|(_ & _ & LL & _)]; [|destruct (reads_not_lacks _ _ RX LL)]. rewrite R1. rewrite (R4 _ RX) in *. cbn [bind]. rewrite (proj_apart c n PL PN). destruct (Rlt_dec (apart c p q) e); [lra|]. rewrite (mid_half c n PL PN). destruct (Rlt_dec _ _); [lra|eauto].
  - destruct (param_cases g LR W eq_refl) as [(y & _ & _ & _ & _ & N)|(R1 & _)]; [contradiction|]. rewrite R1. cbn [bind]. destruct (given_spec g p relative W) as (i & j & k & EI & EJ & EK & _). rewrite EI, EJ, EK. cbn [bind]. rewrite !(proj_apart c n PL PN), (mid_half c n PL PN).
    match goal with |- context [Rlt_dec ?a ?b] => destruct (Rlt_dec a b) as [L|L] end; [exfalso|eauto]. match type of L with (apart c p ?o + _) / 2 < _ => pose proof (triangle c p q o) end. lra.
Qed.
(** what the arc consists of *)
Lemma arc_fields C : arc_circle g start c absolute relative e = Ok C -> exists k a, plane_quat c = Ok k /\ circle_arc g c e C = Ok a /\ a_normal a = n /\ a_start a = plane_projection p n /\ a_end a = plane_projection q n /\ a_hstart a = vscale n (dot p n) /\ a_hend a = vscale n (dot q n) /\
  a_center a = c_center C /\ a_radius a = c_radius C /\ (0 < c_radius C -> 0 < a_error a <= a_radius a) /\ a_error a <= e /\ a_angle a = arc_angle (clockwise g) k (vsub (plane_projection p n) (c_center C)) (vsub (plane_projection q n) (c_center C)).
Proof.
  intros EC. destruct (circle_spec g start c n absolute relative e p q C W PL PN AT TG EP EC) as (C1 & C2 & C3 & C4 & C5 & _). unfold circle_arc.
  assert (K : exists k, plane_quat c = Ok k). { destruct PL as [<-|[<-|[<-|[]]]]; [eexists; apply quat_xy|destruct quat_zx as (k & E & _); eauto|destruct quat_yz as (k & E & _); eauto]. }
  destruct K as [k EK]. rewrite EK. cbn [bind]. exists k. eexists. split; [auto|]. split; [reflexivity|]. cbn [mk_arc a_normal a_start a_end a_hstart a_hend a_center a_radius a_angle a_error]. rewrite C1, C2, C3, C4, C5. repeat (split; [reflexivity|]). split; [destruct (Rlt_dec _ _); lra|]. split; [destruct (Rlt_dec _ _); lra|reflexivity].
Qed.
End Gcode.

(** *** the angle *)
Lemma turned_start c cw o p q : turned c cw o p 0 1 q -> same_spot c p q.
Proof. unfold turned, same_spot. rewrite sin_0, cos_0. cbv zeta. destruct cw; intros [A B]; split; lra. Qed.
Lemma turned_proj c n cw o p q th k : arc_plane c -> plane_normal c = Some n -> turned c cw o (plane_projection p n) th k (plane_projection q n) <-> turned c cw o p th k q.
Proof. intros PL PN. unfold turned. rewrite !(pu_proj c n PL PN), !(pv_proj c n PL PN). tauto. Qed.
Lemma angle_xy g o p q n : plane_normal GCodeSelectXYPlane = Some n -> let c := GCodeSelectXYPlane in apart c p o = apart c q o -> ~ same_spot c p q ->
  exists th, sweep c (clockwise g) o p q th /\ 0 < th /\ arc_angle (clockwise g) quat_one (vsub (plane_projection p n) o) (vsub (plane_projection q n) o) = (if clockwise g then th else - th).
Proof.
  intros PN c AP NS. assert (PL : arc_plane c) by (left; reflexivity). rewrite arc_angle_xy. fold c. set (th := true_angle c (clockwise g) o (plane_projection p n) (plane_projection q n)). exists th.
  assert (S : sweep c (clockwise g) o p q th). { unfold th. destruct (true_angle_sweep c (clockwise g) o (plane_projection p n) (plane_projection q n)) as [B T]; [rewrite !(apart_proj_l c n PL PN); auto|]. split; auto. apply (turned_proj c n (clockwise g) o p q _ 1 PL PN). exact T. }
  split; auto. split; auto. destruct S as [[[L|L] _] T]; auto. exfalso. rewrite <- L in T. apply NS, (turned_start _ _ _ _ _ T).
Qed.
(** in the other planes it is a number of quarter turns *)
Definition quarters (x : R) : Prop := exists k : Z, x = IZR k * (PI / 2).
Lemma quarters_sub x y : quarters x -> quarters y -> quarters (x - y).
Proof. intros [a ->] [b ->]. exists (a - b)%Z. rewrite minus_IZR. ring. Qed.
Lemma quarters_opp x : quarters x -> quarters (- x).
Proof. intros [a ->]. exists (- a)%Z. rewrite opp_IZR. ring. Qed.
Lemma quarters_mod x : quarters x -> quarters (rmod x (2 * PI)).
Proof. intros [a ->]. destruct (rmod_spec (IZR a * (PI / 2)) (2 * PI) tau_pos) as [_ [k ->]]. exists (a + 4 * k)%Z. rewrite plus_IZR, mult_IZR. field. Qed.
Lemma quarters_zero_x y : quarters (atan2 y 0).
Proof. unfold atan2. destruct (Rlt_dec 0 0); [lra|]. destruct (Rlt_dec 0 0); [lra|]. destruct (Rlt_dec 0 y); [exists 1%Z; ring|]. destruct (Rlt_dec y 0); [exists (-1)%Z; lra|exists 0%Z; ring]. Qed.
Lemma quarters_zero_y x : quarters (atan2 0 x).
Proof. unfold atan2. assert (A : atan (0 / x) = 0) by (unfold Rdiv; rewrite Rmult_0_l; apply atan_0). rewrite A. destruct (Rlt_dec 0 x); [exists 0%Z; ring|]. destruct (Rlt_dec x 0); [destruct (Rle_dec 0 0); [exists 2%Z; field|exists (-2)%Z; lra]|]. destruct (Rlt_dec 0 0); [lra|]. exists 0%Z; ring. Qed.
Lemma angle_quarters cw k from to : (forall v, qrot k v = V3 (vy v) (vz v) (vx v)) /\ vy from = 0 /\ vy to = 0 \/ (forall v, qrot k v = V3 (vz v) (vx v) (vy v)) /\ vx from = 0 /\ vx to = 0 -> quarters (arc_angle cw k from to).
Proof.
  intros [(Q & A & B)|(Q & A & B)]; unfold arc_angle; rewrite !Q; cbn [vx vy]; rewrite A, B; destruct cw; try apply quarters_opp; apply quarters_mod, quarters_sub; try apply quarters_zero_x; apply quarters_zero_y.
Qed.
(** no angle: a single line, or an exception *)
Lemma no_angle m a : a_angle a = 0 -> 0 < a_error a <= a_radius a -> iter_vertices m a = if phase_offset m then ([], Raise EZeroDivisionError) else ([(vadd (vadd (a_center a) (vsub (a_start a) (a_center a))) (a_hstart a), vadd (a_end a) (a_hend a))], Ok tt).
Proof.
  intros Z B. destruct (max_wedge_spec m a B) as (W0 & E & [P _] & _). assert (C : wedge_count m a = Ok 0%Z). { unfold wedge_count. rewrite E. cbn [bind]. rewrite rdiv_ok by lra. cbn [bind]. rewrite Z, Rabs_R0. replace (0 / W0) with 0 by (field; lra). f_equal. unfold rceil. rewrite Ropp_0. destruct (base_Int_part 0) as [L1 L2]. assert (Int_part 0 = 0)%Z by (apply le_IZR in L1; assert (-1 < Int_part 0)%Z by (apply lt_IZR; lra); lia). rewrite H. reflexivity. }
  unfold iter_vertices, outer_radius, wedge_angle. rewrite C. cbn [bind]. assert (RD : rdiv (a_angle a) 0 = Raise EZeroDivisionError) by (unfold rdiv; destruct (Req_EM_T 0 0); [auto|lra]). destruct m; cbn [phase_offset]; rewrite ?RD; cbn [bind]; auto.
Qed.
