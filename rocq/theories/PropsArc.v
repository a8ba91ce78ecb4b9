(** Properties C61 to C69, C80, C81, C82: arcs replaced by straight moves, projections, alignments. Real numbers. *)
From Coq Require Import Ascii String List Bool ZArith QArith Qcanon Qreals Reals Lra Lia.
From Verif Require Import Base Num Words GTable GCode Position Machine Arc GCodeSpec GCodeProofs GCodeProofs2 PropsGCode ArithSpec PosSpec MachSpec DrillSpec CannedProofs PropsTrans PropsDrill ArcSpec ArcProofs ArcProofs2 ArcProofs3 ArcProofs4 ArcProofs5 ArcProofs6.
Import ListNotations.
Open Scope R_scope.

(** ** C61: the lines start, end and are connected *)
(** the pieces, in every plane *)
Theorem C61_connected : forall (ar : Arith) (g : gcode) (start : position) (c : gclass) (m : arc_method) (absolute relative : bool) (e : R) (p q : vec) (l : list (vec * vec)),
  gcode_wf g -> arc_plane c -> at_point start p -> target absolute g p q -> 0 < e ->
  arc_vertices g start c m absolute relative e = (l, Ok tt) -> chained p l q.
Proof.
  intros ar g start c m absolute relative e p q l W PL AT TG EP. destruct (plane_has_normal c PL) as [n PN]. unfold arc_vertices. destruct (arc_circle g start c absolute relative e) as [C|] eqn:EC; cbn [bind]; [|discriminate].
  destruct (arc_fields g start c n absolute relative e p q W PL PN AT TG EP C EC) as (k & a & EK & EA & F1 & F2 & F3 & F4 & F5 & _). rewrite EA. intros H. apply iter_chained in H. rewrite F2, F3, F4, F5, !(lift c n PL PN) in H. auto.
Qed.
Print Assumptions C61_connected.
(** the moves: absolute ones reach the end exactly, relative ones within half a unit of the last place on each axis *)
Theorem C61_ends : forall (ar : Arith) (g : gcode) (start : position) (plane : option gclass) (m : arc_method) (dist arc_dist : option gclass) (e : R) (places : Z) (c : gclass) (absolute relative : bool) (p q : vec) (out : list vec),
  gcode_wf g -> is_arc g -> plane_is plane c -> arc_plane c -> dist_is dist absolute -> arc_dist_is arc_dist relative -> at_point start p -> target absolute g p q -> 0 < e ->
  linearize_arc g start plane (Some m) dist arc_dist e places = (out, Ok tt) ->
  exists vs, follows absolute places p out (vs ++ [q]).
Proof.
  intros ar g start plane m dist arc_dist e places c absolute relative p q out W IA PI PL DI AD AT TG EP. rewrite (linearize_args g start plane m dist arc_dist e places c absolute relative p) by auto.
  destruct (arc_vertices g start c m absolute relative e) as [l r] eqn:E. intros H. apply moved_follows in H as [-> F]. apply (C61_connected ar) with (p := p) (q := q) in E; auto. apply chained_last in E as [vs E]. rewrite E in F. eauto.
Qed.
Print Assumptions C61_ends.
(** in the XY plane it does not fail when the parameters make sense and the ends differ *)
Theorem C61_runs : forall (ar : Arith) (g : gcode) (start : position) (plane : option gclass) (m : arc_method) (dist arc_dist : option gclass) (e : R) (places : Z) (absolute relative : bool) (p q : vec),
  gcode_wf g -> is_arc g -> plane_is plane GCodeSelectXYPlane -> dist_is dist absolute -> arc_dist_is arc_dist relative -> at_point start p -> target absolute g p q -> 0 < e ->
  ~ same_spot GCodeSelectXYPlane p q -> well_posed g GCodeSelectXYPlane e p q ->
  exists out, linearize_arc g start plane (Some m) dist arc_dist e places = (out, Ok tt).
Proof.
  intros ar g start plane m dist arc_dist e places absolute relative p q W IA PI DI AD AT TG EP NS WP. rewrite (linearize_args g start plane m dist arc_dist e places GCodeSelectXYPlane absolute relative p) by (auto; left; reflexivity).
  destruct (arc_vertices_runs g start m absolute relative e p q W AT TG EP NS WP) as [l E]. rewrite E. apply moved_ok.
Qed.
Print Assumptions C61_runs.

(** ** C62: the lines stay within the error *)
(** missing: the last line in the planes other than XY *)
Theorem C62_error_partial : forall (ar : Arith) (g : gcode) (start : position) (plane : option gclass) (m : arc_method) (dist arc_dist : option gclass) (e : R) (places : Z) (c : gclass) (absolute relative : bool) (p q : vec) (out : list vec),
  gcode_wf g -> is_arc g -> plane_is plane c -> arc_plane c -> dist_is dist absolute -> arc_dist_is arc_dist relative -> at_point start p -> target absolute g p q -> 0 < e -> ~ same_spot c p q ->
  linearize_arc g start plane (Some m) dist arc_dist e places = (out, Ok tt) ->
  exists o r vs, circle_of g c relative p q o r /\ 0 < r /\ follows absolute places p out (vs ++ [q]) /\
    (forall a b x, In (a, b) (pieces p vs) -> between a b x -> allowed m r e (apart c x o)) /\
    (c = GCodeSelectXYPlane -> forall a b x, In (a, b) (pieces p (vs ++ [q])) -> between a b x -> allowed m r e (apart c x o)).
Proof.
  intros ar g start plane m dist arc_dist e places c absolute relative p q out W IA PI PL DI AD AT TG EP NS. rewrite (linearize_args g start plane m dist arc_dist e places c absolute relative p) by auto.
  destruct (arc_vertices g start c m absolute relative e) as [l k] eqn:E. intros H. apply moved_follows in H as [-> F]. destruct (arc_vertices_spec g start c m absolute relative e p q l W PL AT TG EP NS E) as (o & r & A & vs & ths & CO & RP & _ & EL & _ & _ & _ & G1 & G2).
  exists o, r, vs. split; auto. split; auto. split; [rewrite EL, pieces_snd in F; auto|]. split; [intros a b x I B; rewrite Forall_forall in G1; apply (G1 _ I x B)|]. intros EC a b x I B. destruct (G2 EC) as (_ & _ & G3). rewrite Forall_forall in G3. apply (G3 _ I x B).
Qed.
Print Assumptions C62_error_partial.

(** ** C63: the circle is the one asked for *)
Theorem C63_circle : forall (ar : Arith) (g : gcode) (start : position) (c : gclass) (absolute relative : bool) (e : R) (p q : vec) (C : circle),
  gcode_wf g -> arc_plane c -> at_point start p -> target absolute g p q -> 0 < e -> ~ same_spot c p q ->
  arc_circle g start c absolute relative e = Ok C -> circle_of g c relative p q (c_center C) (c_radius C).
Proof. intros ar g start c absolute relative e p q C W PL AT TG EP NS EC. destruct (plane_has_normal c PL) as [n PN]. apply (circle_spec g start c n absolute relative e p q C W PL PN AT TG EP EC). auto. Qed.
Print Assumptions C63_circle.
(** a centre that fits is used *)
Theorem C63_given_centre : forall (ar : Arith) (g : gcode) (start : position) (c : gclass) (absolute relative : bool) (e : R) (p q o : vec) (C : circle),
  gcode_wf g -> arc_plane c -> at_point start p -> target absolute g p q -> 0 < e -> ~ same_spot c p q -> lacks g LR -> given_center relative g p o -> apart c p o = apart c q o ->
  arc_circle g start c absolute relative e = Ok C -> same_spot c (c_center C) o /\ c_radius C = apart c p o.
Proof.
  intros ar g start c absolute relative e p q o C W PL AT TG EP NS LL GC EQ EC. destruct (C63_circle ar g start c absolute relative e p q C W PL AT TG EP NS EC) as (A & B & [(x & (w & v & I & _) & _)|(_ & o0 & G0 & R0 & MIN)]); [destruct (LL _ I)|].
  destruct (given_spec g p relative W) as (i & j & k & _ & _ & _ & _ & U). rewrite (U _ GC) in *. rewrite (U _ G0) in *. clear U. set (o1 := if relative then _ else _) in *. assert (R1 : c_radius C = apart c p o1) by (rewrite R0; lra). split; auto. apply apart_zero. specialize (MIN o1 ltac:(lra) ltac:(lra)). assert (Z : apart c o1 o1 = 0) by (apply apart_zero; split; auto). pose proof (apart_nonneg c (c_center C) o1). lra.
Qed.
Print Assumptions C63_given_centre.

(** ** C64: the angle *)
(** missing: the planes ZX and YZ, where it is wrong *)
Theorem C64_angle_partial : forall (ar : Arith) (g : gcode) (start : position) (absolute relative : bool) (e : R) (p q : vec) (C : circle) (a : arc), let c := GCodeSelectXYPlane in
  gcode_wf g -> at_point start p -> target absolute g p q -> 0 < e -> ~ same_spot c p q ->
  arc_circle g start c absolute relative e = Ok C -> circle_arc g c e C = Ok a ->
  sweep c (clockwise g) (c_center C) p q (if clockwise g then a_angle a else - a_angle a).
Proof.
  intros ar g start absolute relative e p q C a c W AT TG EP NS EC EA. assert (PL : arc_plane c) by (left; reflexivity). destruct (plane_has_normal c PL) as [n PN]. destruct (circle_spec g start c n absolute relative e p q C W PL PN AT TG EP EC) as (_ & _ & _ & _ & _ & _ & C7 & _). destruct (C7 NS) as [(CP & CQ & _) RP].
  destruct (arc_fields g start c n absolute relative e p q W PL PN AT TG EP C EC) as (k & a' & EK & EA' & _ & _ & _ & _ & _ & _ & _ & _ & _ & F10). assert (a' = a) by congruence. subst a'. destruct (angle_xy g (c_center C) p q n PN) as (th & S & P & E); [unfold c in *; congruence|auto|]. unfold c in EK. rewrite quat_xy in EK. injection EK as <-. rewrite E in F10. rewrite F10. destruct (clockwise g); rewrite ?Ropp_involutive; auto.
Qed.
Print Assumptions C64_angle_partial.
(** in the other planes only quarter turns come out *)
Theorem C64_quarters : forall (ar : Arith) (g : gcode) (start : position) (c : gclass) (absolute relative : bool) (e : R) (p q : vec) (C : circle) (a : arc),
  In c [GCodeSelectZXPlane; GCodeSelectYZPlane] -> gcode_wf g -> at_point start p -> target absolute g p q -> 0 < e ->
  arc_circle g start c absolute relative e = Ok C -> circle_arc g c e C = Ok a -> exists k : Z, a_angle a = IZR k * (PI / 2).
Proof.
  intros ar g start c absolute relative e p q C a I W AT TG EP EC EA. assert (PL : arc_plane c) by (right; exact I). destruct (plane_has_normal c PL) as [n PN]. destruct (circle_spec g start c n absolute relative e p q C W PL PN AT TG EP EC) as (_ & _ & _ & _ & _ & C6 & _).
  destruct (arc_fields g start c n absolute relative e p q W PL PN AT TG EP C EC) as (k & a' & EK & EA' & _ & _ & _ & _ & _ & _ & _ & _ & _ & F10). assert (a' = a) by congruence. subst a'. rewrite F10.
  assert (H : forall v, ph c (vsub (plane_projection v n) (c_center C)) = 0) by (intros v; rewrite ph_sub, (ph_proj c n PL PN), C6; ring). apply angle_quarters. destruct I as [<-|[<-|[]]].
  - left. destruct quat_zx as (k' & EK' & Q). assert (k' = k) by congruence. subst k'. split; [exact Q|]. split; apply H.
  - right. destruct quat_yz as (k' & EK' & Q). assert (k' = k) by congruence. subst k'. split; [exact Q|]. split; apply H.
Qed.
Print Assumptions C64_quarters.

(** ** C65: full circles are not made: a single line, or an exception *)
Theorem C65_collapse : forall (ar : Arith) (g : gcode) (start : position) (plane : option gclass) (m : arc_method) (dist arc_dist : option gclass) (e : R) (places : Z) (c : gclass) (absolute relative : bool) (p q o : vec),
  gcode_wf g -> is_arc g -> plane_is plane c -> arc_plane c -> dist_is dist absolute -> arc_dist_is arc_dist relative -> at_point start p -> target absolute g p q -> 0 < e ->
  same_spot c p q -> well_posed g c e p q -> given_center relative g p o -> ~ same_spot c p o ->
  match m with
  | Inside => exists v, follows absolute places p [v] [q] /\ linearize_arc g start plane (Some m) dist arc_dist e places = ([v], Ok tt)
  | _ => linearize_arc g start plane (Some m) dist arc_dist e places = ([], Raise EZeroDivisionError)
  end.
Proof.
  intros ar g start plane m dist arc_dist e places c absolute relative p q o W IA PI PL DI AD AT TG EP SS WP GC NO. rewrite (linearize_args g start plane m dist arc_dist e places c absolute relative p) by auto.
  rewrite (full_circle g start c m absolute relative e p q o) by auto. destruct m; cbn [phase_offset]; [|unfold moved; destruct absolute; reflexivity|unfold moved; destruct absolute; reflexivity].
  pose proof (increments_keep places [(p, q)] p) as K. unfold moved, follows. destruct absolute; cbn [fst snd map] in *; eexists; (split; [|reflexivity]); auto.
Qed.
Print Assumptions C65_collapse.

(** ** C66: heights in proportion to the angle *)
(** missing: in the planes other than XY the whole angle [A] is the one the code computes, not the one to the end point *)
Theorem C66_helix_partial : forall (ar : Arith) (g : gcode) (start : position) (plane : option gclass) (m : arc_method) (dist arc_dist : option gclass) (e : R) (places : Z) (c : gclass) (absolute relative : bool) (p q : vec) (out : list vec),
  gcode_wf g -> is_arc g -> plane_is plane c -> arc_plane c -> dist_is dist absolute -> arc_dist_is arc_dist relative -> at_point start p -> target absolute g p q -> 0 < e -> ~ same_spot c p q ->
  linearize_arc g start plane (Some m) dist arc_dist e places = (out, Ok tt) ->
  exists o r A vs ths, circle_of g c relative p q o r /\ follows absolute places p out (vs ++ [q]) /\ Forall2 (on_helix c (clockwise g) o p q A) ths vs /\
    (vs = [] \/ 0 < A /\ rising 0 (ths ++ [A]) A) /\ (c = GCodeSelectXYPlane -> 0 < A /\ sweep c (clockwise g) o p q A).
Proof.
  intros ar g start plane m dist arc_dist e places c absolute relative p q out W IA PI PL DI AD AT TG EP NS. rewrite (linearize_args g start plane m dist arc_dist e places c absolute relative p) by auto.
  destruct (arc_vertices g start c m absolute relative e) as [l k] eqn:E. intros H. apply moved_follows in H as [-> F]. destruct (arc_vertices_spec g start c m absolute relative e p q l W PL AT TG EP NS E) as (o & r & A & vs & ths & CO & RP & AB & EL & F2 & A0 & A1 & _ & G2).
  exists o, r, A, vs, ths. split; auto. split; [rewrite EL, pieces_snd in F; auto|]. split; auto. split; [|intros EC; destruct (G2 EC) as (X & Y & _); auto]. destruct AB as [[AP|AZ] _]; [right; auto|left]. rewrite (A0 (eq_sym AZ)) in F2. inversion F2. auto.
Qed.
Print Assumptions C66_helix_partial.

(** ** C67: the rounding does not add up *)
Theorem C67_rounding : forall (ar : Arith) (g : gcode) (start : position) (plane : option gclass) (m : arc_method) (dist arc_dist : option gclass) (e : R) (places : Z) (c : gclass) (relative : bool) (p : vec) (out : list vec),
  gcode_wf g -> is_arc g -> plane_is plane c -> arc_plane c -> inc_mode dist -> arc_dist_is arc_dist relative -> at_point start p -> 0 < e ->
  linearize_arc g start plane (Some m) dist arc_dist e places = (out, Ok tt) ->
  exists l, arc_vertices g start c m false relative e = (l, Ok tt) /\ keeps places p out (map snd l).
Proof.
  intros ar g start plane m dist arc_dist e places c relative p out W IA PI PL DI AD AT EP. rewrite (linearize_args g start plane m dist arc_dist e places c false relative p) by auto.
  destruct (arc_vertices g start c m false relative e) as [l k] eqn:E. intros H. apply moved_follows in H as [-> F]. exists l. split; auto.
Qed.
Print Assumptions C67_rounding.

(** ** C82: no more lines than needed *)
Theorem C82_few_lines : forall (ar : Arith) (g : gcode) (start : position) (plane : option gclass) (m : arc_method) (dist arc_dist : option gclass) (e : R) (places : Z) (absolute relative : bool) (p q : vec) (out : list vec), let c := GCodeSelectXYPlane in
  gcode_wf g -> is_arc g -> plane_is plane c -> dist_is dist absolute -> arc_dist_is arc_dist relative -> at_point start p -> target absolute g p q -> 0 < e -> ~ same_spot c p q ->
  linearize_arc g start plane (Some m) dist arc_dist e places = (out, Ok tt) ->
  exists o r A n, circle_of g c relative p q o r /\ sweep c (clockwise g) o p q A /\ length out = (match m with Inside => n | _ => S n end) /\
    forall k, (1 <= k < n)%nat -> too_coarse m r (Rmin e r) (A / INR k).
Proof.
  intros ar g start plane m dist arc_dist e places absolute relative p q out c W IA PI DI AD AT TG EP NS. rewrite (linearize_args g start plane m dist arc_dist e places c absolute relative p) by (auto; left; reflexivity).
  destruct (arc_vertices g start c m absolute relative e) as [l k] eqn:E. intros H. assert (L : length out = length l). { unfold moved in H. destruct absolute; cbn [fst snd] in H; injection H as <- _; [apply map_length|]. clear. revert p. induction l as [|[a b] l IH]; intros p; cbn; auto. }
  apply moved_follows in H as [-> _]. destruct (count_lines g start m absolute relative e p q l W AT TG EP NS E) as (o & r & A & n & CO & S & _ & LN & TC). exists o, r, A, n. split; auto. split; auto. split; auto. rewrite L, LN. destruct m; reflexivity.
Qed.
Print Assumptions C82_few_lines.

(** ** C68: projections *)
Theorem C68_projection : forall v n : vec, n <> V3 0 0 0 -> let w := plane_projection v n in
  dot w n = 0 /\ (exists k, v = vadd w (vscale n k)) /\ plane_projection w n = w /\ (forall u, dot u n = 0 -> norm (vsub v w) <= norm (vsub v u)).
Proof.
  intros v n N w. assert (NN : norm n <> 0). { intros Z. apply N. pose proof (norm_sq n) as S. rewrite Z in S. unfold dot in S. pose proof (Rle_0_sqr (vx n)). pose proof (Rle_0_sqr (vy n)). pose proof (Rle_0_sqr (vz n)). unfold Rsqr in *. destruct n; cbn in *. f_equal; apply Rsqr_0_uniq; unfold Rsqr; lra. }
  pose proof (normalized_unit n NN) as U. pose proof (normalized_scale n) as SC. set (k := norm n) in *. assert (PW : forall x, dot x n = 0 -> dot x (normalized n) = 0). { intros x X. rewrite SC in X. apply Rmult_eq_reg_r with k; auto. rewrite Rmult_0_l, <- X. unfold dot, vscale; cbn. ring. }
  assert (D : dot w (normalized n) = 0). { unfold w, plane_projection. set (u := normalized n) in *. transitivity (dot v u * (1 - dot u u)); [unfold dot, vsub, vscale; cbn; ring|]. rewrite U. ring. }
  assert (DN : dot w n = 0). { rewrite SC. transitivity (dot w (normalized n) * k); [unfold dot, vscale; cbn; ring|]. rewrite D. ring. }
  split; auto. split; [|split].
  - exists (dot v (normalized n) / k). assert (EQ : forall d, vscale n (d / k) = vscale (normalized n) d) by (intros d; rewrite SC at 1; destruct (normalized n); unfold vscale; cbn; f_equal; field; auto). rewrite EQ. unfold w, plane_projection. destruct (normalized n), v. unfold vadd, vsub, vscale; cbn. f_equal; ring.
  - unfold plane_projection. rewrite D. destruct w. unfold vsub, vscale; cbn. f_equal; ring.
  - intros u X. apply PW in X. set (b := normalized n) in *. assert (P : dot v b = dot (vsub v u) b) by (transitivity (dot v b - dot u b); [rewrite X; ring|unfold dot, vsub; cbn; ring]).
    assert (E1 : vsub v w = vscale b (dot v b)) by (unfold w, plane_projection; fold b; destruct v, b; unfold vsub, vscale; cbn; f_equal; ring). rewrite E1.
    pose proof (norm_sq (vscale b (dot v b))) as S1. pose proof (norm_sq (vsub v u)) as S2. set (y := vsub v u) in *. rewrite P in S1 |- *. set (t := dot y b) in *. assert (ES : dot (vscale b t) (vscale b t) = t * t) by (transitivity (t * t * dot b b); [unfold dot, vscale; cbn; ring|rewrite U; ring]). rewrite ES in S1.
    apply Rsqr_incr_0_var; [|unfold norm; apply sqrt_pos]. unfold Rsqr. rewrite S1, S2. assert (Q : 0 <= dot (vsub y (vscale b t)) (vsub y (vscale b t))) by (unfold dot; pose proof (Rle_0_sqr (vx (vsub y (vscale b t)))); pose proof (Rle_0_sqr (vy (vsub y (vscale b t)))); pose proof (Rle_0_sqr (vz (vsub y (vscale b t)))); unfold Rsqr in *; lra).
    assert (EQ : dot (vsub y (vscale b t)) (vsub y (vscale b t)) = dot y y - 2 * t * dot y b + t * t * dot b b) by (unfold dot, vsub, vscale; cbn; ring). rewrite EQ, U in Q. fold t in Q. lra.
Qed.
Print Assumptions C68_projection.

(** ** C69: alignments *)
(** [a] and [b] point in the same direction *)
Definition same_way (a b : vec) : Prop := exists k, 0 < k /\ a = vscale b k.
Lemma norm_pos a : a <> V3 0 0 0 -> 0 < norm a.
Proof.
  intros N. assert (P : 0 <= norm a) by apply sqrt_pos. destruct P as [P|Z]; auto. exfalso. apply N. pose proof (norm_sq a) as S. rewrite <- Z in S. unfold dot in S. pose proof (Rle_0_sqr (vx a)). pose proof (Rle_0_sqr (vy a)). pose proof (Rle_0_sqr (vz a)). unfold Rsqr in *. destruct a; cbn in *. f_equal; apply Rsqr_0_uniq; unfold Rsqr; lra.
Qed.
Lemma normalized_way a : a <> V3 0 0 0 -> same_way (normalized a) a /\ same_way a (normalized a).
Proof.
  intros N. pose proof (norm_pos a N) as P. split.
  - exists (/ norm a). split; [apply Rinv_0_lt_compat; auto|]. unfold normalized. destruct (Req_EM_T (norm a) 0); [lra|]. destruct a; reflexivity.
  - exists (norm a). split; auto. apply normalized_scale.
Qed.
Lemma same_way_trans a b d : same_way a b -> same_way b d -> same_way a d.
Proof. intros (k & K & ->) (j & J & ->). exists (j * k). split; [apply Rmult_lt_0_compat; auto|]. destruct d; unfold vscale; cbn; f_equal; ring. Qed.
Lemma same_way_rot q a b : same_way a b -> same_way (qrot q a) (qrot q b).
Proof. intros (k & K & ->). exists k. split; auto. apply qrot_scale. Qed.
Lemma opposite_way u v : dot u u = 1 -> dot v v = 1 -> dot u v = -1 -> u = vneg v.
Proof.
  intros U V D. assert (S : dot (vadd u v) (vadd u v) = 0) by (transitivity (dot u u + 2 * dot u v + dot v v); [unfold dot, vadd; cbn; ring|rewrite U, V, D; ring]). unfold dot in S. pose proof (Rle_0_sqr (vx (vadd u v))) as A. pose proof (Rle_0_sqr (vy (vadd u v))) as B. pose proof (Rle_0_sqr (vz (vadd u v))) as C. unfold Rsqr in *.
  assert (X : vx (vadd u v) = 0) by (apply Rsqr_0_uniq; unfold Rsqr; lra). assert (Y : vy (vadd u v) = 0) by (apply Rsqr_0_uniq; unfold Rsqr; lra). assert (Z : vz (vadd u v) = 0) by (apply Rsqr_0_uniq; unfold Rsqr; lra). destruct u, v; cbn in *; unfold vneg; cbn; f_equal; lra.
Qed.
Lemma not_opposite a b : a <> V3 0 0 0 -> b <> V3 0 0 0 -> ~ same_way a (vneg b) -> dot (normalized a) (normalized b) <> -1.
Proof.
  intros NA NB NO D. apply NO. pose proof (norm_pos a NA). pose proof (norm_pos b NB). apply opposite_way in D; try (apply normalized_unit; lra). destruct (normalized_way a NA) as [_ (k & K & E)]. destruct (normalized_way b NB) as [(j & J & F) _]. exists (j * k). split; [apply Rmult_lt_0_compat; auto|]. rewrite E, D, F. destruct b; unfold vneg, vscale; cbn; f_equal; ring.
Qed.
(** [quat2align] with its default, [normalize]: a rotation that turns the one onto the direction of the other *)
Theorem C69_align_partial : forall a b : vec, a <> V3 0 0 0 -> b <> V3 0 0 0 -> ~ same_way a (vneg b) ->
  exists q, quat2align a b true = Ok q /\ same_way (qrot q a) b /\ (forall u v, dot (qrot q u) (qrot q v) = dot u v) /\ (forall u v, cross (qrot q u) (qrot q v) = qrot q (cross u v)).
Proof.
  intros a b NA NB NO. pose proof (norm_pos a NA). pose proof (norm_pos b NB). destruct (align_spec (normalized a) (normalized b)) as (q & E & R & U & _); [apply normalized_unit; lra|apply normalized_unit; lra|apply not_opposite; auto|].
  exists q. split; [exact E|]. split; [|split; [intros u v; apply (qrot_iso _ _ _ U)|intros u v; apply (qrot_cross _ _ _ U)]]. apply same_way_trans with (normalized b); [rewrite <- R; apply same_way_rot|]; apply normalized_way; auto.
Qed.
Print Assumptions C69_align_partial.
(** [quat2coord_system]: perpendicular pairs; the first step does not turn a vector into the opposite of its target, nor does the second *)
Theorem C69_coord_system_partial : forall o1 o2 a1 a2 : vec, o1 <> V3 0 0 0 -> o2 <> V3 0 0 0 -> a1 <> V3 0 0 0 -> a2 <> V3 0 0 0 -> dot o1 o2 = 0 -> dot a1 a2 = 0 -> ~ same_way o1 (vneg a1) ->
  (forall q1, quat2align o1 a1 true = Ok q1 -> ~ same_way (qrot q1 o2) (vneg a2)) ->
  exists q, quat2coord_system o1 o2 a1 a2 = Ok q /\ same_way (qrot q o1) a1 /\ same_way (qrot q o2) a2 /\ forall u v, dot (qrot q u) (qrot q v) = dot u v.
Proof.
  intros o1 o2 a1 a2 N1 N2 M1 M2 DO DA NO NS. pose proof (norm_pos _ N1). pose proof (norm_pos _ N2). pose proof (norm_pos _ M1). pose proof (norm_pos _ M2).
  assert (DZ : forall a b, a <> V3 0 0 0 -> b <> V3 0 0 0 -> dot a b = 0 -> dot (normalized a) (normalized b) = 0). { intros a b A B D. destruct (normalized_way a A) as [(k & _ & ->) _]. destruct (normalized_way b B) as [(j & _ & ->) _]. transitivity (dot a b * (k * j)); [unfold dot, vscale; cbn; ring|rewrite D; ring]. }
  assert (U : forall a, 0 < norm a -> dot (normalized a) (normalized a) = 1) by (intros a P; apply normalized_unit; lra).
  destruct (coord_system_spec (normalized o1) (normalized o2) (normalized a1) (normalized a2)) as (q & E & R1 & R2 & UQ); auto.
  - apply not_opposite; auto.
  - intros q1 E1 D. apply (NS q1 E1). destruct (align_spec (normalized o1) (normalized a1)) as (q1' & E1' & _ & U1 & _); auto; [apply not_opposite; auto|]. assert (q1' = q1) by congruence. subst q1'.
    apply opposite_way in D; [|rewrite (qrot_iso _ _ _ U1); auto|auto]. apply same_way_trans with (qrot q1 (normalized o2)); [apply same_way_rot, normalized_way; auto|]. rewrite D. destruct (normalized_way a2 M2) as [(k & K & ->) _]. exists k. split; auto. destruct a2; unfold vneg, vscale; cbn; f_equal; ring.
  - exists q. split; [unfold quat2coord_system in *; rewrite !(normalized_id (normalized _)) in E by auto; exact E|]. split; [|split; [|intros u v; apply (qrot_iso _ _ _ UQ)]].
    + apply same_way_trans with (normalized a1); [rewrite <- R1; apply same_way_rot|]; apply normalized_way; auto.
    + apply same_way_trans with (normalized a2); [rewrite <- R2; apply same_way_rot|]; apply normalized_way; auto.
Qed.
Print Assumptions C69_coord_system_partial.
(** opposite vectors: what comes back is no rotation, it turns everything into the null vector *)
Theorem C69_align_refuted : exists a b q, a <> V3 0 0 0 /\ b <> V3 0 0 0 /\ quat2align a b true = Ok q /\ ~ same_way (qrot q a) b /\ forall v, qrot q v = V3 0 0 0.
Proof.
  assert (U : dot ex ex = 1) by (unfold dot; cbn; ring). destruct (align_opposite ex U) as (q & E & Z). exists ex, (vneg ex), q. split; [intros H; injection H; lra|]. split; [intros H; injection H; lra|]. split.
  - unfold quat2align in *. rewrite !normalized_id; auto. unfold dot, vneg; cbn; ring.
  - split; auto. rewrite Z. intros (k & K & H). injection H. intros. cbn in *. lra.
Qed.
Print Assumptions C69_align_refuted.
Example C69_ex : ex <> V3 0 0 0 /\ V3 0 2 0 <> V3 0 0 0 /\ ~ same_way ex (vneg (V3 0 2 0)).
Proof. split; [intros H; injection H; lra|]. split; [intros H; injection H; lra|]. intros (k & K & H). injection H. intros. cbn in *. lra. Qed.
Example C69_coord_ex : dot ex ey = 0 /\ dot ey ez = 0 /\ ~ same_way ex (vneg ey) /\ forall q1, quat2align ex ey true = Ok q1 -> ~ same_way (qrot q1 ey) (vneg ez).
Proof.
  assert (UX : dot ex ex = 1) by (unfold dot; cbn; ring). assert (UY : dot ey ey = 1) by (unfold dot; cbn; ring). split; [unfold dot; cbn; ring|]. split; [unfold dot; cbn; ring|]. split; [intros (k & K & H); injection H; intros; cbn in *; lra|].
  intros q1 E (k & K & H). unfold quat2align in E. rewrite !normalized_id in E by auto. destruct (align_spec ex ey) as (q & E' & _ & U & F); auto; [unfold dot; cbn; lra|]. assert (q = q1) by (unfold quat2align in E'; congruence). subst q. assert (Z : qrot q1 ez = ez) by (apply F; unfold dot; cbn; ring). assert (D : dot (qrot q1 ey) (qrot q1 ez) = 0) by (rewrite (qrot_iso _ _ _ U); unfold dot; cbn; ring). rewrite Z, H in D. unfold dot in D; cbn in D. lra.
Qed.
Example C68_ex : V3 0 3 4 <> V3 0 0 0. Proof. intros H; injection H; lra. Qed.

(** *** examples *)
Definition zpos (x y z : Z) : position := mk_position xyz UNIT_METRIC [(AX, frac x 1); (AY, frac y 1); (AZ, frac z 1)].
Lemma frac_real x : Qc2R (frac x 1) = IZR x.
Proof. unfold Qc2R, frac. transitivity (Q2R (x # 1)); [apply Qeq_eqR; cbn [this]; apply Qred_correct|]. unfold Q2R. cbn. field. Qed.
Lemma zpos_at x y z : at_point (zpos x y z) (V3 (IZR x) (IZR y) (IZR z)).
Proof. exists (frac x 1), (frac y 1), (frac z 1). rewrite !frac_real. repeat split. Qed.
Definition wval (g : gcode) (l : letter) : option Q := match pget (gparams g) l with Some (Word _ (VFloat x)) => Some (this x) | _ => None end.
Lemma wval_some {ar : Arith} g l x : gcode_wf g -> letter_class l = CFloat -> wval g l = Some (x # 1) -> real_param g l = Ok (Some (IZR x)) /\ reads g l (IZR x) /\ ~ lacks g l.
Proof.
  intros W CL. unfold wval. destruct (pget (gparams g) l) as [[l' [v|z|v]]|] eqn:E; try discriminate. intros H. injection H as H. assert (EV : Qc2R v = IZR x) by (unfold Qc2R; rewrite H; unfold Q2R; cbn; field).
  assert (RP : real_param g l = Ok (Some (IZR x))) by (unfold real_param; rewrite E; cbn; rewrite EV; auto). destruct (param_cases g l W CL) as [(y & A & _ & B & _ & D)|(A & _)]; [|congruence]. assert (y = IZR x) by congruence. subst y. auto.
Qed.
Lemma wval_none {ar : Arith} g l : gcode_wf g -> letter_class l = CFloat -> pin (gparams g) l = false -> real_param g l = Ok None /\ lacks g l.
Proof. intros W CL P. destruct (param_cases g l W CL) as [(y & _ & A & _)|(A & _ & B & _)]; [congruence|auto]. Qed.
Notation xg s := (agcode exact_arith s).
(** half a turn to the left around the origin, climbing by 2 *)
Definition half_turn : gcode := xg "G3 X-1 Z2 I-1".
Lemma half_turn_wf : gcode_wf (ar := exact_arith) half_turn. Proof. apply agcode_wf. vm_compute. discriminate. Qed.
Lemma half_turn_ex : let p := V3 1 0 0 in let q := V3 (-1) 0 2 in is_arc half_turn /\ at_point (zpos 1 0 0) p /\ target true half_turn p q /\ ~ same_spot GCodeSelectXYPlane p q /\ (forall c e, well_posed half_turn c e p q) /\
  given_center true half_turn p (V3 0 0 0) /\ lacks half_turn LR /\ clockwise half_turn = false.
Proof.
  intros p q. pose proof half_turn_wf as W. split; [apply subclass_derives; vm_compute; reflexivity|]. assert (AT : at_point (zpos 1 0 0) p) by apply zpos_at. split; auto.
  destruct (wval_some (ar := exact_arith) half_turn LX (-1) W eq_refl) as (X1 & X2 & X3); [vm_compute; reflexivity|]. destruct (wval_none (ar := exact_arith) half_turn LY W eq_refl) as (Y1 & Y2); [vm_compute; reflexivity|]. destruct (wval_some (ar := exact_arith) half_turn LZ 2 W eq_refl) as (Z1 & Z2 & Z3); [vm_compute; reflexivity|].
  destruct (wval_some (ar := exact_arith) half_turn LI (-1) W eq_refl) as (I1 & I2 & I3); [vm_compute; reflexivity|]. destruct (wval_none (ar := exact_arith) half_turn LJ W eq_refl) as (J1 & J2); [vm_compute; reflexivity|]. destruct (wval_none (ar := exact_arith) half_turn LK W eq_refl) as (K1 & K2); [vm_compute; reflexivity|]. destruct (wval_none (ar := exact_arith) half_turn LR W eq_refl) as (R1 & R2); [vm_compute; reflexivity|].
  split. { destruct (ends_spec (ar := exact_arith) half_turn (zpos 1 0 0) p true W AT) as (q' & E & T & _). unfold arc_ends in E. rewrite (at_vector _ _ AT) in E. cbn [bind] in E. rewrite X1, Y1, Z1 in E. cbn in E. injection E as <-. exact T. }
  split; [intros [H _]; cbn in H; lra|]. split; [intros c e; split; [exists LX; split; [left; reflexivity|auto]|right; split; auto; exists LI; split; [left; reflexivity|auto]]|]. split; [|split; auto].
  destruct (given_spec (ar := exact_arith) half_turn p true W) as (i & j & k & EI & EJ & EK & GC & _). rewrite I1 in EI. rewrite J1 in EJ. rewrite K1 in EK. injection EI as <-. injection EJ as <-. injection EK as <-. cbn in GC. replace (V3 0 0 0) with (vadd (V3 (-1) 0 0) p) by (unfold vadd, p; cbn; f_equal; ring). exact GC.
Qed.
Example C61_ex : forall m, exists out, linearize_arc half_turn (zpos 1 0 0) None (Some m) None None (1 / 100) 4 = (out, Ok tt).
Proof.
  intros m. destruct half_turn_ex as (A & B & C & D & E & _). eapply C61_runs with (p := V3 1 0 0) (q := V3 (-1) 0 2) (absolute := true) (relative := true); eauto using half_turn_wf; [right; auto|left; auto|left; auto|lra].
Qed.
(** ** C80: the default method is a name that is not defined; an arc that every method linearizes fails without one *)
Theorem C80_default_refuted : exists g start p q e, gcode_wf (ar := exact_arith) g /\ is_arc g /\ at_point start p /\ target true g p q /\ ~ same_spot GCodeSelectXYPlane p q /\ well_posed g GCodeSelectXYPlane e p q /\
  (forall m, exists out, linearize_arc g start None (Some m) None None e 4 = (out, Ok tt)) /\ linearize_arc g start None None None None e 4 = ([], Raise ENameError).
Proof.
  destruct half_turn_ex as (A & B & C & D & E & _). exists half_turn, (zpos 1 0 0), (V3 1 0 0), (V3 (-1) 0 2), (1 / 100). split; [apply half_turn_wf|]. split; auto. split; auto. split; auto. split; auto. split; auto. split; [apply C61_ex|reflexivity].
Qed.
Print Assumptions C80_default_refuted.
(** hypotheses of C62, C66, C82 met, and of C63, C64 *)
Example C63_ex : exists C a, arc_circle half_turn (zpos 1 0 0) GCodeSelectXYPlane true true (1 / 100) = Ok C /\ circle_arc half_turn GCodeSelectXYPlane (1 / 100) C = Ok a /\ apart GCodeSelectXYPlane (V3 1 0 0) (V3 0 0 0) = apart GCodeSelectXYPlane (V3 (-1) 0 2) (V3 0 0 0).
Proof.
  destruct half_turn_ex as (A & B & C & D & E & _). destruct (posed_circle (ar := exact_arith) half_turn (zpos 1 0 0) GCodeSelectXYPlane ez true true (1 / 100) (V3 1 0 0) (V3 (-1) 0 2) half_turn_wf (or_introl eq_refl) eq_refl B C (E _ _)) as [k EK].
  destruct (arc_fields (ar := exact_arith) half_turn (zpos 1 0 0) GCodeSelectXYPlane ez true true (1 / 100) (V3 1 0 0) (V3 (-1) 0 2) half_turn_wf (or_introl eq_refl) eq_refl B C ltac:(lra) k EK) as (kk & a & _ & EA & _). exists k, a. split; auto. split; auto. unfold apart; cbn. f_equal. ring.
Qed.
(** a quarter turn given by its radius *)
Example C63_radius_ex : let g := xg "G2 X0 Y1 R1" in gcode_wf (ar := exact_arith) g /\ exists C, arc_circle g (zpos 1 0 0) GCodeSelectXYPlane true true (1 / 100) = Ok C.
Proof.
  intros g. assert (W : gcode_wf (ar := exact_arith) g) by (apply agcode_wf; vm_compute; discriminate). split; auto. pose proof (zpos_at 1 0 0) as AT. destruct (ends_spec (ar := exact_arith) g (zpos 1 0 0) _ true W AT) as (q & E & T & _).
  destruct (wval_some (ar := exact_arith) g LX 0 W eq_refl) as (X1 & X2 & X3); [vm_compute; reflexivity|]. destruct (wval_some (ar := exact_arith) g LY 1 W eq_refl) as (Y1 & Y2 & Y3); [vm_compute; reflexivity|]. destruct (wval_none (ar := exact_arith) g LZ W eq_refl) as (Z1 & Z2); [vm_compute; reflexivity|]. destruct (wval_some (ar := exact_arith) g LR 1 W eq_refl) as (R1 & R2 & R3); [vm_compute; reflexivity|].
  unfold arc_ends in E. rewrite (at_vector _ _ AT) in E. cbn [bind] in E. rewrite X1, Y1, Z1 in E. cbn in E. injection E as <-.
  apply (posed_circle (ar := exact_arith) g (zpos 1 0 0) GCodeSelectXYPlane ez true true (1 / 100) (V3 1 0 0) (V3 0 1 0) W (or_introl eq_refl) eq_refl AT T). split; [exists LX; split; [left; reflexivity|auto]|]. left. exists 1. split; [exact R2|]. split; [lra|]. split.
  - rewrite Rabs_R1. assert (A2 : apart GCodeSelectXYPlane (V3 1 0 0) (V3 0 1 0) * apart GCodeSelectXYPlane (V3 1 0 0) (V3 0 1 0) = 2) by (rewrite apart_sq; cbn; ring). pose proof (apart_nonneg GCodeSelectXYPlane (V3 1 0 0) (V3 0 1 0)) as NN. split; [apply sq_le; lra|apply sq_le; lra].
  - intros l I. assert (P : pin (gparams g) l = false) by (destruct I as [<-|[<-|[<-|[]]]]; vm_compute; reflexivity). apply (wval_none (ar := exact_arith) g l W); auto. destruct I as [<-|[<-|[<-|[]]]]; reflexivity.
Qed.
(** relative moves *)
Example C67_ex : inc_mode (Some GCodeIncrementalDistanceMode) /\ exists out, linearize_arc half_turn (zpos 1 0 0) None (Some Mid) (Some GCodeIncrementalDistanceMode) None (1 / 100) 3 = (out, Ok tt).
Proof.
  assert (IM : inc_mode (Some GCodeIncrementalDistanceMode)) by (exists GCodeIncrementalDistanceMode; split; auto; constructor). split; auto. pose proof half_turn_wf as W. destruct half_turn_ex as (A & B & _ & _ & E & _). destruct (ends_spec (ar := exact_arith) half_turn (zpos 1 0 0) _ false W B) as (q & EE & T & _).
  destruct (wval_some (ar := exact_arith) half_turn LX (-1) W eq_refl) as (X1 & _); [vm_compute; reflexivity|]. destruct (wval_none (ar := exact_arith) half_turn LY W eq_refl) as (Y1 & _); [vm_compute; reflexivity|]. destruct (wval_some (ar := exact_arith) half_turn LZ 2 W eq_refl) as (Z1 & _); [vm_compute; reflexivity|].
  unfold arc_ends in EE. rewrite (at_vector _ _ B) in EE. cbn [bind] in EE. rewrite X1, Y1, Z1 in EE. cbn in EE. injection EE as <-.
  eapply (C61_runs exact_arith half_turn (zpos 1 0 0) None Mid (Some GCodeIncrementalDistanceMode) None (1 / 100) 3 false true (V3 1 0 0)); eauto; [right; auto|left; auto|lra|intros [H _]; cbn in H; lra|].
  destruct (E GCodeSelectXYPlane (1 / 100)) as [E1 [(x & E2 & _)|E2]]; [|split; auto]. exfalso. destruct (wval_none (ar := exact_arith) half_turn LR W eq_refl) as [_ L]; [vm_compute; reflexivity|]. destruct E2 as (w & v & I & _). apply (L w I).
Qed.

(** *** C62, C64: refuted in the ZX plane: half a turn comes out as no turn at all *)
Definition zx_turn : gcode := xg "G3 X-1 I-1".
Lemma zx_turn_wf : gcode_wf (ar := exact_arith) zx_turn. Proof. apply agcode_wf. vm_compute. discriminate. Qed.
Lemma zx_turn_ex : let p := V3 1 0 0 in let q := V3 (-1) 0 0 in is_arc zx_turn /\ at_point (zpos 1 0 0) p /\ target true zx_turn p q /\ ~ same_spot GCodeSelectZXPlane p q /\ (forall c e, well_posed zx_turn c e p q) /\
  given_center true zx_turn p (V3 0 0 0) /\ lacks zx_turn LR /\ clockwise zx_turn = false.
Proof.
  intros p q. pose proof zx_turn_wf as W. split; [apply subclass_derives; vm_compute; reflexivity|]. assert (AT : at_point (zpos 1 0 0) p) by apply zpos_at. split; auto.
  destruct (wval_some (ar := exact_arith) zx_turn LX (-1) W eq_refl) as (X1 & X2 & X3); [vm_compute; reflexivity|]. destruct (wval_none (ar := exact_arith) zx_turn LY W eq_refl) as (Y1 & Y2); [vm_compute; reflexivity|]. destruct (wval_none (ar := exact_arith) zx_turn LZ W eq_refl) as (Z1 & Z2); [vm_compute; reflexivity|].
  destruct (wval_some (ar := exact_arith) zx_turn LI (-1) W eq_refl) as (I1 & I2 & I3); [vm_compute; reflexivity|]. destruct (wval_none (ar := exact_arith) zx_turn LJ W eq_refl) as (J1 & J2); [vm_compute; reflexivity|]. destruct (wval_none (ar := exact_arith) zx_turn LK W eq_refl) as (K1 & K2); [vm_compute; reflexivity|]. destruct (wval_none (ar := exact_arith) zx_turn LR W eq_refl) as (R1 & R2); [vm_compute; reflexivity|].
  split. { destruct (ends_spec (ar := exact_arith) zx_turn (zpos 1 0 0) p true W AT) as (q' & E & T & _). unfold arc_ends in E. rewrite (at_vector _ _ AT) in E. cbn [bind] in E. rewrite X1, Y1, Z1 in E. cbn in E. injection E as <-. exact T. }
  split; [intros [_ H]; cbn in H; lra|]. split; [intros c e; split; [exists LX; split; [left; reflexivity|auto]|right; split; auto; exists LI; split; [left; reflexivity|auto]]|]. split; [|split; auto].
  destruct (given_spec (ar := exact_arith) zx_turn p true W) as (i & j & k & EI & EJ & EK & GC & _). rewrite I1 in EI. rewrite J1 in EJ. rewrite K1 in EK. injection EI as <-. injection EJ as <-. injection EK as <-. cbn in GC. replace (V3 0 0 0) with (vadd (V3 (-1) 0 0) p) by (unfold vadd, p; cbn; f_equal; ring). exact GC.
Qed.
Lemma zx_turn_arc : let c := GCodeSelectZXPlane in exists C a, arc_circle zx_turn (zpos 1 0 0) c true true (1 / 10) = Ok C /\ circle_arc zx_turn c (1 / 10) C = Ok a /\ a_angle a = 0 /\ arc_vertices zx_turn (zpos 1 0 0) c Inside true true (1 / 10) = ([(V3 1 0 0, V3 (-1) 0 0)], Ok tt).
Proof.
  intros c. pose proof zx_turn_wf as W. destruct zx_turn_ex as (A & B & T & D & E & G & L & CL). set (p := V3 1 0 0) in *. set (q := V3 (-1) 0 0) in *. assert (PL : arc_plane c) by (right; left; reflexivity). assert (PN : plane_normal c = Some ey) by reflexivity. assert (EP : 0 < 1 / 10) by lra.
  destruct (posed_circle (ar := exact_arith) zx_turn (zpos 1 0 0) c ey true true (1 / 10) p q W PL PN B T (E _ _)) as [C EC]. destruct (circle_spec (ar := exact_arith) zx_turn (zpos 1 0 0) c ey true true (1 / 10) p q C W PL PN B T EP EC) as (_ & _ & _ & _ & _ & C6 & C7 & _). destruct (C7 D) as [CO RP].
  destruct (arc_fields (ar := exact_arith) zx_turn (zpos 1 0 0) c ey true true (1 / 10) p q W PL PN B T EP C EC) as (k & a & EK & EA & F1 & F2 & F3 & F4 & F5 & F6 & F7 & F8 & F9 & F10). specialize (F8 RP).
  assert (AP : apart c p (V3 0 0 0) = apart c q (V3 0 0 0)) by (unfold apart; cbn; f_equal; ring). destruct (C63_given_centre exact_arith zx_turn (zpos 1 0 0) c true true (1 / 10) p q (V3 0 0 0) C W PL B T EP D L G AP EC) as [[S1 S2] _]. cbn in S1, S2, C6.
  assert (ZC : c_center C = V3 0 0 0) by (destruct (c_center C); cbn in *; subst; auto). rewrite ZC, CL in F10. destruct quat_zx as (k' & EK' & Q). fold c in EK'. assert (k' = k) by congruence. subst k'.
  assert (PR : forall v, vy v = 0 -> vsub (plane_projection v ey) (V3 0 0 0) = v). { intros v V. apply (frame_ext c); auto; rewrite ?pu_sub, ?pv_sub, ?ph_sub, ?(pu_proj c ey PL PN), ?(pv_proj c ey PL PN), ?(ph_proj c ey PL PN); cbn; rewrite ?V; ring. }
  rewrite (PR p), (PR q) in F10 by reflexivity. unfold arc_angle in F10. rewrite !Q in F10. cbn [vx vy vz p q] in F10. rewrite atan2_zero, Rminus_0_r, rmod_zero, Ropp_0 in F10. exists C, a. split; auto. split; auto. split; auto.
  unfold arc_vertices. rewrite EC. cbn [bind]. rewrite EA. rewrite (no_angle Inside a F10 F8). cbn [phase_offset]. rewrite F2, F3, F4, F5. replace (vadd (a_center a) (vsub (plane_projection p ey) (a_center a))) with (plane_projection p ey) by (destruct (a_center a), (plane_projection p ey); unfold vadd, vsub; cbn; f_equal; ring). rewrite !(lift c ey PL PN). auto.
Qed.
Theorem C64_angle_refuted : exists g start p q C a, let c := GCodeSelectZXPlane in gcode_wf (ar := exact_arith) g /\ is_arc g /\ at_point start p /\ target true g p q /\ ~ same_spot c p q /\
  arc_circle g start c true true (1 / 10) = Ok C /\ circle_arc g c (1 / 10) C = Ok a /\ ~ sweep c (clockwise g) (c_center C) p q (if clockwise g then a_angle a else - a_angle a).
Proof.
  destruct zx_turn_arc as (C & a & EC & EA & Z & _). destruct zx_turn_ex as (A & B & T & D & _). exists zx_turn, (zpos 1 0 0), (V3 1 0 0), (V3 (-1) 0 0), C, a. intros c. split; [apply zx_turn_wf|]. split; auto. split; auto. split; auto. split; auto. split; auto. split; auto.
  intros [_ S]. rewrite Z, Ropp_0 in S. apply D. destruct (clockwise zx_turn); apply (turned_start _ _ _ _ _ S).
Qed.
Print Assumptions C64_angle_refuted.
Theorem C62_error_refuted : exists g start e p q out, let c := GCodeSelectZXPlane in gcode_wf (ar := exact_arith) g /\ is_arc g /\ at_point start p /\ target true g p q /\ ~ same_spot c p q /\ 0 < e /\
  linearize_arc g start (Some c) (Some Inside) None None e 4 = (out, Ok tt) /\
  forall o r, circle_of g c true p q o r -> exists a b x, In (a, b) (pieces p out) /\ between a b x /\ ~ allowed Inside r e (apart c x o).
Proof.
  destruct zx_turn_arc as (C & a & EC & EA & Z & EV). destruct zx_turn_ex as (A & B & T & D & E & G & L & CL). exists zx_turn, (zpos 1 0 0), (1 / 10), (V3 1 0 0), (V3 (-1) 0 0), [V3 (-1) 0 0]. intros c. split; [apply zx_turn_wf|]. split; auto. split; auto. split; auto. split; auto. split; [lra|]. split.
  - rewrite (linearize_args zx_turn (zpos 1 0 0) (Some c) Inside None None (1 / 10) 4 c true true (V3 1 0 0)); auto; [|left; auto|right; left; auto|left; auto|left; auto|lra]. unfold c. rewrite EV. reflexivity.
  - intros o r (P1 & P2 & [(x & (w & v & I & _) & _)|(_ & o0 & G0 & R0 & MIN)]); [destruct (L _ I)|]. destruct (given_spec (ar := exact_arith) zx_turn (V3 1 0 0) true zx_turn_wf) as (i & j & k & _ & _ & _ & _ & U). assert (O0 : o0 = V3 0 0 0) by (rewrite (U _ G0), (U _ G); auto). subst o0.
    assert (A1 : apart c (V3 1 0 0) (V3 0 0 0) = 1) by (apply apart_eq; cbn; lra). assert (A2 : apart c (V3 (-1) 0 0) (V3 0 0 0) = 1) by (apply apart_eq; cbn; lra). assert (R1 : r = 1) by lra. assert (Z0 : apart c (V3 0 0 0) (V3 0 0 0) = 0) by (apply apart_zero; split; auto). specialize (MIN (V3 0 0 0) ltac:(lra) ltac:(lra)). pose proof (apart_nonneg c o (V3 0 0 0)).
    exists (V3 1 0 0), (V3 (-1) 0 0), (V3 0 0 0). split; [left; auto|]. split; [exists (1 / 2); split; [lra|cbn; lra]|]. rewrite apart_sym. cbn [allowed]. lra.
Qed.
Print Assumptions C62_error_refuted.

(** *** C65 refuted: a full turn becomes a move to where the machine is *)
Definition full_turn : gcode := xg "G2 X1 I-1".
Theorem C65_full_circle_refuted : exists g start p o, gcode_wf (ar := exact_arith) g /\ is_arc g /\ at_point start p /\ target true g p p /\ given_center true g p o /\ ~ same_spot GCodeSelectXYPlane p o /\ well_posed g GCodeSelectXYPlane (1 / 10) p p /\
  linearize_arc g start None (Some Inside) None None (1 / 10) 4 = ([p], Ok tt) /\ linearize_arc g start None (Some Outside) None None (1 / 10) 4 = ([], Raise EZeroDivisionError) /\ linearize_arc g start None (Some Mid) None None (1 / 10) 4 = ([], Raise EZeroDivisionError).
Proof.
  assert (W : gcode_wf (ar := exact_arith) full_turn) by (apply agcode_wf; vm_compute; discriminate). set (p := V3 1 0 0). assert (AT : at_point (zpos 1 0 0) p) by apply zpos_at. assert (IA : is_arc full_turn) by (apply subclass_derives; vm_compute; reflexivity).
  destruct (wval_some (ar := exact_arith) full_turn LX 1 W eq_refl) as (X1 & X2 & X3); [vm_compute; reflexivity|]. destruct (wval_none (ar := exact_arith) full_turn LY W eq_refl) as (Y1 & Y2); [vm_compute; reflexivity|]. destruct (wval_none (ar := exact_arith) full_turn LZ W eq_refl) as (Z1 & Z2); [vm_compute; reflexivity|].
  destruct (wval_some (ar := exact_arith) full_turn LI (-1) W eq_refl) as (I1 & I2 & I3); [vm_compute; reflexivity|]. destruct (wval_none (ar := exact_arith) full_turn LJ W eq_refl) as (J1 & J2); [vm_compute; reflexivity|]. destruct (wval_none (ar := exact_arith) full_turn LK W eq_refl) as (K1 & K2); [vm_compute; reflexivity|]. destruct (wval_none (ar := exact_arith) full_turn LR W eq_refl) as (R1 & R2); [vm_compute; reflexivity|].
  assert (T : target true full_turn p p). { destruct (ends_spec (ar := exact_arith) full_turn (zpos 1 0 0) p true W AT) as (q' & E & T & _). unfold arc_ends in E. rewrite (at_vector _ _ AT) in E. cbn [bind] in E. rewrite X1, Y1, Z1 in E. cbn in E. injection E as <-. exact T. }
  assert (G : given_center true full_turn p (V3 0 0 0)). { destruct (given_spec (ar := exact_arith) full_turn p true W) as (i & j & k & EI & EJ & EK & GC & _). rewrite I1 in EI. rewrite J1 in EJ. rewrite K1 in EK. injection EI as <-. injection EJ as <-. injection EK as <-. cbn in GC. replace (V3 0 0 0) with (vadd (V3 (-1) 0 0) p) by (unfold vadd, p; cbn; f_equal; ring). exact GC. }
  assert (NS : ~ same_spot GCodeSelectXYPlane p (V3 0 0 0)) by (intros [H _]; cbn in H; lra). assert (WP : well_posed full_turn GCodeSelectXYPlane (1 / 10) p p). { split; [exists LX; split; [left; reflexivity|auto]|right; split; auto; exists LI; split; [left; reflexivity|auto]]. }
  assert (K : forall m, match m with Inside => exists v, follows true 4 p [v] [p] /\ linearize_arc full_turn (zpos 1 0 0) None (Some m) None None (1 / 10) 4 = ([v], Ok tt) | _ => linearize_arc full_turn (zpos 1 0 0) None (Some m) None None (1 / 10) 4 = ([], Raise EZeroDivisionError) end).
  { intros m. apply (C65_collapse exact_arith full_turn (zpos 1 0 0) None m None None (1 / 10) 4 GCodeSelectXYPlane true true p p (V3 0 0 0)); auto; [right; auto|left; auto|left; auto|left; auto|lra|split; auto]. }
  exists full_turn, (zpos 1 0 0), p, (V3 0 0 0). repeat (split; [assumption|]). split; [|split; [exact (K Outside)|exact (K Mid)]]. destruct (K Inside) as (v & F & E). cbn in F. congruence.
Qed.
Print Assumptions C65_full_circle_refuted.

(** ** C81: parameters that make no sense *)
(** there is a circle exactly when the parameters make sense; otherwise one of two exceptions *)
Theorem C81_errors_partial : forall (ar : Arith) (g : gcode) (start : position) (c : gclass) (absolute relative : bool) (e : R) (p q : vec),
  gcode_wf g -> arc_plane c -> at_point start p -> target absolute g p q -> 0 < e ->
  ((exists C, arc_circle g start c absolute relative e = Ok C) <-> well_posed g c e p q) /\
  (arc_circle g start c absolute relative e = Raise EGCodeParameterError <->
     (exists l, In l [LX; LY; LZ] /\ ~ lacks g l) /\ exists x, reads g LR x /\ x <> 0 /\ (forall l, In l [LI; LJ; LK] -> lacks g l) /\ (apart c p q < e \/ 2 * Rabs x < apart c p q)) /\
  (forall x, arc_circle g start c absolute relative e = Raise x -> x = EGCodeParameterError \/ x = ENameError).
Proof.
  intros ar g start c absolute relative e p q W PL AT TG EP. destruct (plane_has_normal c PL) as [n PN].
  assert (NX : (exists l, In l [LX; LY; LZ] /\ ~ lacks g l) <-> existsb (fun l => pin (gparams g) l) [LX; LY; LZ] = true).
  { rewrite existsb_exists. split; intros (l & I & H); exists l; split; auto; apply (pin_lacks g W l); auto; cbn in I; intuition (subst; reflexivity). }
  assert (NI : (exists l, In l [LI; LJ; LK] /\ ~ lacks g l) <-> existsb (fun l => pin (gparams g) l) [LI; LJ; LK] = true).
  { rewrite existsb_exists. split; intros (l & I & H); exists l; split; auto; apply (pin_lacks g W l); auto; cbn in I; intuition (subst; reflexivity). }
  assert (NJ : (forall l, In l [LI; LJ; LK] -> lacks g l) <-> existsb (fun l => pin (gparams g) l) [LI; LJ; LK] = false).
  { split.
    - intros H. apply not_true_is_false. intros E. apply NI in E as (l & I & N). destruct (N (H l I)).
    - intros E l I. apply (pin_lacks g W l); [cbn in I; intuition (subst; reflexivity)|]. destruct (pin (gparams g) l) eqn:P; auto. assert (existsb (fun l => pin (gparams g) l) [LI; LJ; LK] = true) by (apply existsb_exists; eauto). congruence. }
  assert (POSED : well_posed g c e p q -> exists C, arc_circle g start c absolute relative e = Ok C) by (intros WP; eapply posed_circle; eauto).
  assert (ER : arc_circle g start c absolute relative e = Raise EGCodeParameterError \/ arc_circle g start c absolute relative e = Raise ENameError \/ well_posed g c e p q).
  { unfold arc_circle. rewrite (ends_are g start absolute p q W AT TG). cbn [bind]. rewrite PN. unfold assert_params, well_posed. setoid_rewrite NJ. rewrite NX, NI. clear NX NI NJ. destruct (existsb _ [LX; LY; LZ]); cbn [negb]; [|auto]. destruct (existsb _ [LI; LJ; LK]) eqn:EI.
    - destruct (param_cases g LR W eq_refl) as [(y & R1 & R2 & _)|(R1 & R2 & R3 & _)]; rewrite R2; cbn [andb orb negb]; [auto|]. right. right. split; auto.
    - destruct (param_cases g LR W eq_refl) as [(y & R1 & R2 & R3 & _)|(R1 & R2 & _)]; rewrite R2; cbn [andb orb negb]; [|auto]. rewrite R1. cbn [bind]. destruct (Req_EM_T y 0); [auto|]. cbn [bind]. rewrite (proj_apart c n PL PN). destruct (Rlt_dec (apart c p q) e); [auto|]. rewrite (mid_half c n PL PN). destruct (Rlt_dec _ _); [auto|]. right. right. split; auto. left. exists y. split; auto. split; auto. split; [lra|auto]. }
  assert (PE : arc_circle g start c absolute relative e = Raise EGCodeParameterError <-> (exists l, In l [LX; LY; LZ] /\ ~ lacks g l) /\ exists x, reads g LR x /\ x <> 0 /\ (forall l, In l [LI; LJ; LK] -> lacks g l) /\ (apart c p q < e \/ 2 * Rabs x < apart c p q)).
  { setoid_rewrite NJ. rewrite NX. clear NX NI NJ. unfold arc_circle. rewrite (ends_are g start absolute p q W AT TG). cbn [bind]. rewrite PN. unfold assert_params. destruct (existsb _ [LX; LY; LZ]); cbn [negb bind]; [|split; [discriminate|intros [H _]; discriminate]].
    destruct (param_cases g LR W eq_refl) as [(y & R1 & R2 & R3 & R4 & _)|(R1 & R2 & R3 & R4)]; rewrite R1, R2; cbn [bind].
    - destruct (existsb _ [LI; LJ; LK]) eqn:EI; cbn [andb orb negb bind]; [split; [discriminate|intros (_ & x & _ & _ & H & _); discriminate]|]. destruct (Req_EM_T y 0) as [->|NZ]; cbn [bind]; [split; [discriminate|intros (_ & x & X & NZ & _); destruct NZ; auto]|].
      rewrite (proj_apart c n PL PN). destruct (Rlt_dec (apart c p q) e) as [L|L]; [split; auto; intros _; split; auto; exists y; auto|]. rewrite (mid_half c n PL PN). destruct (Rlt_dec (Rabs y) (apart c p q / 2)) as [L2|L2]; [split; auto; intros _; split; auto; exists y; split; auto; split; auto; split; auto; right; lra|]. split; [discriminate|]. intros (_ & x & X & _ & _ & [H|H]); [lra|]. rewrite (R4 _ X) in H. lra.
    - destruct (existsb _ [LI; LJ; LK]) eqn:EI; cbn [andb orb negb bind]; [|split; [discriminate|intros (_ & x & X & _); destruct (R4 _ X)]]. destruct (given_spec g p relative W) as (i & j & k & EI' & EJ & EK & _). rewrite EI', EJ, EK. cbn [bind]. rewrite !(proj_apart c n PL PN), (mid_half c n PL PN).
      match goal with |- context [Rlt_dec ?a ?b] => destruct (Rlt_dec a b) as [L|L] end; [exfalso; match type of L with (apart c p ?o + _) / 2 < _ => pose proof (triangle c p q o) end; lra|]. split; [discriminate|]. intros (_ & x & X & _). destruct (R4 _ X). }
  split; [|split; auto].
  - split; auto. intros [C E]. destruct ER as [H|[H|H]]; [congruence|congruence|auto].
  - intros x E. destruct ER as [H|[H|H]]; [left; congruence|right; congruence|]. destruct (POSED H) as [C E']. congruence.
Qed.
Print Assumptions C81_errors_partial.
(** a missing radius or centre is not reported as GCodeParameterError *)
Theorem C81_errors_refuted : exists g start p q, gcode_wf (ar := exact_arith) g /\ is_arc g /\ at_point start p /\ target true g p q /\ ~ well_posed g GCodeSelectXYPlane (1 / 10) p q /\
  linearize_arc g start None (Some Mid) None None (1 / 10) 4 = ([], Raise ENameError).
Proof.
  set (g := xg "G2 X1"). assert (W : gcode_wf (ar := exact_arith) g) by (apply agcode_wf; vm_compute; discriminate). pose proof (zpos_at 0 0 0) as AT. assert (IA : is_arc g) by (apply subclass_derives; vm_compute; reflexivity). destruct (ends_spec (ar := exact_arith) g (zpos 0 0 0) _ true W AT) as (q & E & T & _).
  assert (NL : forall l, In l [LI; LJ; LK; LR] -> lacks g l) by (intros l I; assert (P : pin (gparams g) l = false) by (destruct I as [<-|[<-|[<-|[<-|[]]]]]; vm_compute; reflexivity); apply (wval_none (ar := exact_arith) g l W); auto; destruct I as [<-|[<-|[<-|[<-|[]]]]]; reflexivity).
  assert (NW : ~ well_posed g GCodeSelectXYPlane (1 / 10) (V3 0 0 0) q). { intros [_ [(x & (w & v & I & _) & _)|(_ & l & I & N)]]; [apply (NL LR) in I; auto; cbn; auto 6|]. apply N, NL. cbn in *. intuition. }
  exists g, (zpos 0 0 0), (V3 0 0 0), q. split; auto. split; auto. split; auto. split; auto. split; auto.
  rewrite (linearize_args g (zpos 0 0 0) None Mid None None (1 / 10) 4 GCodeSelectXYPlane true true (V3 0 0 0));
    [|exact IA|right; auto|left; reflexivity|left; reflexivity|left; reflexivity|exact AT|lra]. destruct (C81_errors_partial exact_arith g (zpos 0 0 0) GCodeSelectXYPlane true true (1 / 10) (V3 0 0 0) q W (or_introl eq_refl) AT T ltac:(lra)) as (H1 & H2 & H3).
  unfold arc_vertices. destruct (arc_circle g (zpos 0 0 0) GCodeSelectXYPlane true true (1 / 10)) as [C|x]; [exfalso; apply NW, H1; eauto|]. cbn [bind]. destruct (H3 x eq_refl) as [->| ->]; [|reflexivity]. exfalso. destruct (proj1 H2 eq_refl) as (_ & y & (w & v & I & _) & _). apply (NL LR) in I; auto. cbn. auto 6.
Qed.
Print Assumptions C81_errors_refuted.
