(** Drilling cycles written out as moves. *)
From Coq Require Import List Bool Arith ZArith QArith Qcanon Lia Lqa.
From Verif Require Import Base Num Words GTable GCode Line Position Machine BaseFacts WordsSpec PrintSpec PrintProofs BlockSpec GCodeSpec GCodeProofs GCodeProofs2 PropsGCode ArithSpec Float64 PosSpec PosProofs ModeSpec ModeProofs MachSpec MachProofs MachProofs2 MachProofs3 CannedProofs Transform TransSpec TransProofs DrillSpec.
Import ListNotations.

(** *** order on Qc *)
Lemma this_add a b : (this (a + b)%Qc == this a + this b)%Q. Proof. unfold Qcplus. cbn [this Q2Qc]. apply Qred_correct. Qed.
Lemma this_mul a b : (this (a * b)%Qc == this a * this b)%Q. Proof. unfold Qcmult. cbn [this Q2Qc]. apply Qred_correct. Qed.
Lemma this_Z z : (this (Qc_of_Z z) == inject_Z z)%Q. Proof. unfold Qc_of_Z. cbn [this Q2Qc]. apply Qred_correct. Qed.
Lemma qc_eq a b : a = b -> (this a == this b)%Q. Proof. intros ->. reflexivity. Qed.
Ltac qcl :=
  repeat match goal with H : @eq Qc _ _ |- _ => apply qc_eq in H end; unfold Qclt, Qcle in *;
  repeat match goal with
  | H : context [this (?a + ?b)%Qc] |- _ => rewrite (this_add a b) in H
  | H : context [this (?a - ?b)%Qc] |- _ => rewrite (this_sub a b) in H
  | H : context [this (- ?a)%Qc] |- _ => rewrite (this_opp a) in H
  | H : context [this (frac ?n ?d)] |- _ => rewrite (this_frac n d) in H
  | H : context [this (Q2Qc 0)] |- _ => change (this (Q2Qc 0)) with 0%Q in H
  | H : context [this 0%Qc] |- _ => change (this 0%Qc) with 0%Q in H
  end; try apply Qc_is_canon; rewrite ?this_add, ?this_sub, ?this_opp, ?this_frac, ?this_zero; try change (this (Q2Qc 0)) with 0%Q; lra.
Lemma Qcleb_le x y : Qcleb x y = true <-> (x <= y)%Qc.
Proof. unfold Qcleb, Qcle. rewrite Qle_alt. destruct (Qcompare (this x) (this y)); split; congruence. Qed.
Lemma Qcltb_ge x y : Qcltb x y = false <-> (y <= x)%Qc.
Proof. split; intros H; [apply Qcnot_lt_le; intros L; apply Qcltb_lt in L; congruence|]. destruct (Qcltb x y) eqn:E; auto. apply Qcltb_lt in E. apply Qcle_not_lt in H. contradiction. Qed.
Lemma Qcleb_gt x y : Qcleb x y = false <-> (y < x)%Qc.
Proof. split; intros H; [apply Qcnot_le_lt; intros L; apply Qcleb_le in L; congruence|]. destruct (Qcleb x y) eqn:E; auto. apply Qcleb_le in E. apply Qcle_not_lt in E. contradiction. Qed.

Definition with_z (v : where_) (z : Qc) : where_ := vset v AZ (Some z).
Definition with_xy (v : where_) (x y : Qc) : where_ := vset (vset v AX (Some x)) AY (Some y).
Lemma with_z_height v z : height (with_z v z) z. Proof. unfold height, with_z. apply vget_vset_same. Qed.
Lemma with_z_vertical v z : vertical v (with_z v z). Proof. intros a N. unfold with_z. apply vget_vset_other. auto. Qed.
Lemma with_z_twice v z z' : with_z (with_z v z) z' = with_z v z'.
Proof. apply v9_ext. intros a. unfold with_z. rewrite !vget_vset. destruct (axis_eqb AZ a); auto. Qed.
Lemma with_z_same v z : height v z -> with_z v z = v.
Proof. intros H. apply v9_ext. intros a. unfold with_z. rewrite vget_vset. destruct (axis_eqb AZ a) eqn:E; auto. apply axis_eqb_eq in E. subst. auto. Qed.
Lemma with_xy_z v x y z : with_xy (with_z v z) x y = with_z (with_xy v x y) z.
Proof. apply v9_ext. intros a. unfold with_z, with_xy. rewrite !vget_vset. destruct a; reflexivity. Qed.
Lemma with_xy_twice v x y x' y' : with_xy (with_xy v x y) x' y' = with_xy v x' y'.
Proof. apply v9_ext. intros a. unfold with_xy. rewrite !vget_vset. destruct a; reflexivity. Qed.
Lemma with_xy_height v x y z : height (with_xy v x y) z <-> height v z. Proof. unfold height, with_xy. rewrite !vget_vset. reflexivity. Qed.

(** the moves commanded, as a function *)
Fixpoint apath (v : where_) (gs : list gcode) : list spot := match gs with [] => [] | g :: gs => (gcls g, moved_abs g v) :: apath (moved_abs g v) gs end.
Fixpoint aend (v : where_) (gs : list gcode) : where_ := match gs with [] => v | g :: gs => aend (moved_abs g v) gs end.
Lemma apath_app v gs hs : apath v (gs ++ hs) = apath v gs ++ apath (aend v gs) hs.
Proof. revert v. induction gs; intros v; cbn; auto. rewrite IHgs. auto. Qed.
Lemma aend_app v gs hs : aend v (gs ++ hs) = aend (aend v gs) hs.
Proof. revert v. induction gs; intros v; cbn; auto. Qed.

Section WithArith.
Context {ar : Arith}.
Definition rz (z : Qc) : gcode := MkGCode GCodeRapidMove (match default_word GCodeRapidMove with Ok w => w | Raise _ => Word LG (VInt 0) end) [(LZ, Word LZ (VFloat z))] false.
Definition lz (z : Qc) : gcode := MkGCode GCodeLinearMove (match default_word GCodeLinearMove with Ok w => w | Raise _ => Word LG (VInt 0) end) [(LZ, Word LZ (VFloat z))] false.
Definition rxy (x y : Qc) : gcode := MkGCode GCodeRapidMove (match default_word GCodeRapidMove with Ok w => w | Raise _ => Word LG (VInt 0) end) [(LX, Word LX (VFloat x)); (LY, Word LY (VFloat y))] false.
Lemma rapid_z_ok z : rapid_z z = Ok (rz z). Proof. reflexivity. Qed.
Lemma linear_z_ok z : linear_z z = Ok (lz z). Proof. reflexivity. Qed.
Lemma rapid_xy_ok x y : rapid_xy x y = Ok (rxy x y). Proof. reflexivity. Qed.
Lemma moved_z c w z v : vget v AZ <> None -> moved_abs (MkGCode c w [(LZ, Word LZ (VFloat z))] false) v = with_z v z.
Proof.
  intros N. apply v9_ext. intros a. unfold moved_abs, with_z, axis_value. rewrite vget_vfun, vget_vset. cbn [gparams]. unfold pget. cbn [dget fst snd]. destruct a; cbn; try (destruct (vget v _); reflexivity); try (destruct (v_X v), (v_Y v); reflexivity).
  all: try match goal with |- match ?x with _ => _ end = _ => destruct x; reflexivity end. change (vget v AZ) with (v_Z v) in N. destruct (v_Z v); [reflexivity|contradiction].
Qed.
Lemma moved_xy x y v : vget v AX <> None -> vget v AY <> None -> moved_abs (rxy x y) v = with_xy v x y.
Proof.
  intros N N'. apply v9_ext. intros a. unfold moved_abs, with_xy, axis_value, rxy. rewrite vget_vfun, !vget_vset. cbn [gparams]. unfold pget. cbn [dget fst snd]. change (vget v AX) with (v_X v) in N. change (vget v AY) with (v_Y v) in N'.
  destruct a; cbn; try match goal with |- match ?x with _ => _ end = _ => destruct x; reflexivity end; [destruct (v_X v)|destruct (v_Y v)]; auto; contradiction.
Qed.
Lemma rapid_rapid z : derives (gcls (rz z)) GCodeRapidMove. Proof. apply der_self. Qed.
Lemma linear_linear z : derives (gcls (lz z)) GCodeLinearMove. Proof. apply der_self. Qed.
Lemma linear_not_rapid c : derives c GCodeLinearMove -> derives c GCodeRapidMove -> False.
Proof. intros A B. apply subclass_derives in A, B. revert A B. destruct c; vm_compute; discriminate. Qed.

(** *** one hole *)
Definition laws : Prop := monotone ar /\ idempotent ar /\ odd ar.
Hypothesis LA : laws.
Lemma rnd_zero : rnd (Q2Qc 0) = Q2Qc 0.
Proof. destruct LA as (_ & _ & O). specialize (O (Q2Qc 0)). replace (- Q2Qc 0)%Qc with (Q2Qc 0) in O by reflexivity. qcl. Qed.
Lemma fadd_up c n d : float c -> (0 <= n)%Z -> (c <= fadd c (flit n d))%Qc.
Proof.
  intros F P. destruct LA as (M & _). unfold float in F. rewrite <- F at 1. unfold fadd. apply M. pose proof (M (Q2Qc 0) (frac n d)) as H. rewrite rnd_zero in H. fold (flit n d) in H.
  assert (X : (Q2Qc 0 <= flit n d)%Qc). { apply H. unfold Qcle. rewrite this_frac. change (this (Q2Qc 0)) with 0%Q. unfold Qle. cbn. lia. }
  clear - X. qcl.
Qed.
Lemma fadd_down c x : float c -> (x <= Q2Qc 0)%Qc -> (fadd c x <= c)%Qc.
Proof. intros F P. destruct LA as (M & _). unfold float in F. rewrite <- F at 2. unfold fadd. apply M. clear - P. qcl. Qed.
Lemma fadd_float c x : float (fadd c x). Proof. destruct LA as (_ & I & _). unfold float, fadd. apply I. Qed.

(** what the loop yields, and in which order *)
Inductive bores (chip : bool) (r d delta : Qc) : Qc -> list gcode -> Prop :=
| bore_last c : (if Qcltb (fadd c delta) d then d else fadd c delta) = d ->
    bores chip r d delta c ((if Qcltb (fadd c (flit 1 10)) r then [rz (fadd c (flit 1 10))] else []) ++ [lz d])
| bore_more c c' gs : c' = fadd c delta -> (d < c')%Qc -> bores chip r d delta c' gs ->
    bores chip r d delta c ((if Qcltb (fadd c (flit 1 10)) r then [rz (fadd c (flit 1 10))] else []) ++ [lz c'; rz (if chip then fadd c' (flit 5 10) else r)] ++ gs).
Lemma drill_bores fuel : forall chip r d delta c k G, drill_loop fuel chip r d delta c c k = Some G ->
  exists gs kk, k = Some kk /\ bores chip r d delta c gs /\ G = (gs ++ fst kk, snd kk).
Proof.
  induction fuel as [|fuel IH]; intros chip r d delta c k G; cbn [drill_loop]; [discriminate|]. set (c' := if Qcltb (fadd c delta) d then d else fadd c delta). rewrite !rapid_z_ok, linear_z_ok.
  assert (Y : forall b z K, yield_if b (Ok (rz z)) K = option_map (fun kk => ((if b then [rz z] else []) ++ fst kk, snd kk)) K).
  { intros [] z K; unfold yield_if, yield; destruct K as [[? ?]|]; reflexivity. }
  rewrite Y. destruct (Qcleb c' d) eqn:E.
  - apply Qcleb_le in E. assert (X : c' = d). { unfold c' in *. destruct (Qcltb (fadd c delta) d) eqn:E2; auto. apply Qcltb_ge in E2. clear - E E2. qcl. }
    destruct k as [[ks kr]|]; cbn [yield option_map]; [|discriminate]. intros H. injection H as <-. eexists _, (ks, kr). split; auto. split; [apply bore_last; exact X|]. rewrite X. cbn [gen_cons fst snd]. rewrite <- app_assoc. reflexivity.
  - apply Qcleb_gt in E. assert (X : c' = fadd c delta). { unfold c' in *. destruct (Qcltb (fadd c delta) d) eqn:E2; auto. clear - E. qcl. }
    destruct (drill_loop fuel chip r d delta c' c' k) as [K|] eqn:L.
    + apply IH in L as (gs & kk & -> & B & ->). unfold yield. destruct chip; cbn [option_map gen_cons]; intros H; injection H as <-; eexists _, kk; (split; [auto|]); (split; [apply (bore_more _ r d delta c c'); eauto|]); cbn [fst snd]; rewrite <- !app_assoc; reflexivity.
    + destruct chip; unfold yield; cbn [option_map]; discriminate.
Qed.
(** and the other way round *)
Lemma yield_if_ok b z K : yield_if b (Ok (rz z)) K = option_map (fun kk => ((if b then [rz z] else []) ++ fst kk, snd kk)) K.
Proof. destruct b; unfold yield_if, yield; destruct K as [[? ?]|]; reflexivity. Qed.
Lemma bores_drill chip r d delta c gs : bores chip r d delta c gs -> exists f0, forall fuel k, (f0 <= fuel)%nat -> drill_loop fuel chip r d delta c c k = option_map (fun kk => (gs ++ fst kk, snd kk)) k.
Proof.
  induction 1 as [c E|c c' gs E L B [f0 IH]].
  - exists 1%nat. intros [|fuel] k F; [lia|]. cbn [drill_loop]. rewrite E. rewrite !rapid_z_ok, linear_z_ok, yield_if_ok. assert (X : Qcleb d d = true) by (apply Qcleb_le, Qcle_refl). rewrite X. destruct k as [[ks kr]|]; cbn [yield option_map gen_cons fst snd]; auto. rewrite <- app_assoc. reflexivity.
  - exists (S f0). intros [|fuel] k F; [lia|]. cbn [drill_loop]. rewrite <- E. assert (X : Qcltb c' d = false) by (apply Qcltb_ge, Qclt_le_weak; auto). rewrite X. assert (Y : Qcleb c' d = false) by (apply Qcleb_gt; auto). rewrite Y.
    rewrite IH by lia. rewrite !rapid_z_ok, linear_z_ok, yield_if_ok. destruct k as [[ks kr]|]; destruct chip; cbn [yield option_map gen_cons fst snd]; rewrite <- ?app_assoc; auto.
Qed.

(** *** safety of one hole *)
Lemma approach r d c v z : float c -> (c <= z)%Qc -> height v z -> let pre := if Qcltb (fadd c (flit 1 10)) r then [rz (fadd c (flit 1 10))] else [] in
  exists z', (c <= z')%Qc /\ height (aend v pre) z' /\ (forall x, with_z (aend v pre) x = with_z v x) /\ (forall f l, (f <= c)%Qc -> safe r d (aend v pre) f l -> safe r d v f (apath v pre ++ l)).
Proof.
  intros F H Hv pre. unfold pre. assert (U := fadd_up c 1 10 F ltac:(lia)). destruct (Qcltb (fadd c (flit 1 10)) r); cbn [apath aend app].
  - exists (fadd c (flit 1 10)). unfold rz. rewrite moved_z by (unfold height in Hv; congruence). split; auto. split; [apply with_z_height|]. split; [intros x; apply with_z_twice|]. intros f l L S. eapply safe_rapid with (z := fadd c (flit 1 10)); [apply der_self|apply with_z_vertical|apply with_z_height| |exact S]. clear - L U. qcl.
  - exists z. split; auto.
Qed.
Lemma bores_safe chip r d delta c gs : bores chip r d delta c gs -> forall v z f l, float c -> float d -> float r -> (delta <= Q2Qc 0)%Qc -> (d <= c)%Qc -> (c <= r)%Qc -> (c <= z)%Qc -> height v z -> (d <= f)%Qc -> (f <= c)%Qc ->
  safe r d (with_z v d) d l -> safe r d v f (apath v gs ++ l) /\ aend v gs = with_z v d.
Proof.
  induction 1 as [c E|c c' gs E L B IH]; intros v z f l Fc Fd Fr D H1 H2 H3 Hv H4 H5 S.
  - destruct (approach r d c v z Fc H3 Hv) as (z' & Z1 & Z2 & Z3 & Z4). rewrite apath_app, aend_app, <- app_assoc. set (v' := aend v _) in *. cbn [apath aend app]. unfold lz. rewrite moved_z by (unfold height in Z2; congruence). rewrite Z3. split; auto.
    apply Z4; auto. eapply safe_feed with (z := z') (z' := d); [apply der_self| | |apply with_z_height| |apply Qcle_refl|].
    + rewrite <- Z3. apply with_z_vertical.
    + auto.
    + clear - H1 Z1. qcl.
    + destruct (Qcltb d f) eqn:X; auto. apply Qcltb_ge in X. replace f with d; auto. clear - X H4. qcl.
  - destruct (approach r d c v z Fc H3 Hv) as (z' & Z1 & Z2 & Z3 & Z4). rewrite !apath_app, !aend_app, <- !app_assoc. set (v' := aend v _) in *. cbn [apath aend app]. unfold lz, rz. rewrite !moved_z by (try (unfold height in Z2; congruence); pose proof (with_z_height v' c') as Q; unfold height in Q; rewrite ?moved_z; unfold height in Z2; try congruence; rewrite Q; discriminate). rewrite !with_z_twice, !Z3.
    assert (C1 : (c' <= c)%Qc) by (rewrite E; apply fadd_down; auto). set (u := if chip then fadd c' (flit 5 10) else r). assert (Fc' : float c') by (rewrite E; apply fadd_float).
    assert (U : (c' <= u)%Qc). { unfold u. destruct chip; [apply fadd_up; auto; lia|]. clear - C1 H2. qcl. }
    destruct (IH (with_z v u) u (if Qcltb c' f then c' else f) l) as [IS IE]; auto.
    + apply Qclt_le_weak; auto.
    + clear - C1 H2. qcl.
    + apply with_z_height.
    + destruct (Qcltb c' f); auto. apply Qclt_le_weak; auto.
    + destruct (Qcltb c' f) eqn:X; [apply Qcle_refl|]. apply Qcltb_ge in X. auto.
    + rewrite with_z_twice in IE. split; auto. apply Z4; auto. eapply safe_feed with (z := z') (z' := c'); [apply der_self| |exact Z2|apply with_z_height| |apply Qclt_le_weak; auto|].
      * rewrite <- Z3. apply with_z_vertical.
      * clear - C1 Z1. qcl.
      * eapply safe_rapid with (z := u); [apply der_self| |apply with_z_height| |exact IS].
        -- intros a N. rewrite (with_z_vertical v u a N), (with_z_vertical v c' a N). auto.
        -- destruct (Qcltb c' f) eqn:X; auto. apply Qcltb_ge in X. clear - X U. qcl.
Qed.
(** feed stays over the hole *)
Definition same_xy (v v' : where_) : Prop := vget v' AX = vget v AX /\ vget v' AY = vget v AY.
Lemma same_xy_z v z : same_xy v (with_z v z). Proof. split; unfold with_z; rewrite vget_vset; reflexivity. Qed.
Lemma bores_over chip r d delta c gs : bores chip r d delta c gs -> forall v, vget v AZ <> None -> Forall (fun s => exists z, snd s = with_z v z) (apath v gs).
Proof.
  assert (PRE : forall z b v, vget v AZ <> None -> let pre := if b : bool then [rz z] else [] in Forall (fun s => exists z, snd s = with_z v z) (apath v pre) /\ (forall x, with_z (aend v pre) x = with_z v x) /\ vget (aend v pre) AZ <> None).
  { intros z b v H. destruct b; cbn [apath aend]; [|auto]. unfold rz. rewrite moved_z by auto. split; [constructor; [exists z; auto|constructor]|]. split; [intros; apply with_z_twice|]. unfold with_z. rewrite vget_vset_same. discriminate. }
  induction 1 as [c E|c c' gs E L B IH]; intros v H.
  - destruct (PRE (fadd c (flit 1 10)) (Qcltb (fadd c (flit 1 10)) r) v H) as (P1 & P2 & P3). rewrite apath_app. apply Forall_app. split; auto. cbn [apath]. unfold lz. rewrite moved_z by auto. rewrite P2. constructor; [exists d; auto|constructor].
  - destruct (PRE (fadd c (flit 1 10)) (Qcltb (fadd c (flit 1 10)) r) v H) as (P1 & P2 & P3). rewrite !apath_app. apply Forall_app. split; auto. set (v' := aend v _) in *. cbn [apath app aend]. unfold lz, rz.
    assert (N : forall x, vget (with_z v x) AZ <> None) by (intros x; unfold with_z; rewrite vget_vset_same; discriminate). rewrite moved_z by auto. rewrite P2. rewrite moved_z by auto. rewrite with_z_twice. constructor; [eexists; reflexivity|]. constructor; [eexists; reflexivity|]. eapply Forall_impl; [|apply IH; auto]. intros s (z & E2). exists z. rewrite E2. apply with_z_twice.
Qed.
Lemma pre_z z (b : bool) v : vget v AZ <> None -> let pre := if b then [rz z] else [] in (forall x, with_z (aend v pre) x = with_z v x) /\ vget (aend v pre) AZ <> None.
Proof.
  intros H. destruct b; cbn [apath aend]; [|auto]. unfold rz. rewrite moved_z by auto. split; [intros; apply with_z_twice|]. unfold with_z. rewrite vget_vset_same. discriminate.
Qed.
Lemma bores_bottom chip r d delta c gs : bores chip r d delta c gs -> forall v, vget v AZ <> None -> In (GCodeLinearMove, with_z v d) (apath v gs).
Proof.
  induction 1 as [c E|c c' gs E L B IH]; intros v H.
  - destruct (pre_z (fadd c (flit 1 10)) (Qcltb (fadd c (flit 1 10)) r) v H) as (P2 & P3). rewrite apath_app. apply in_app_iff. right. cbn [apath]. unfold lz. rewrite moved_z by auto. rewrite P2. left; auto.
  - destruct (pre_z (fadd c (flit 1 10)) (Qcltb (fadd c (flit 1 10)) r) v H) as (P2 & P3). rewrite !apath_app. apply in_app_iff. right. set (v' := aend v _) in *. cbn [apath app aend]. unfold lz, rz. right. right.
    assert (N : forall x, vget (with_z v x) AZ <> None) by (intros x; unfold with_z; rewrite vget_vset_same; discriminate). rewrite (moved_z _ _ _ v') by auto. rewrite P2. rewrite moved_z by auto. rewrite with_z_twice. specialize (IH _ (N (if chip then fadd c' (flit 5 10) else r))). rewrite with_z_twice in IH. exact IH.
Qed.

(** *** all holes *)
Section Holes.
Variables (chip : bool) (r d delta z0 sz : Qc) (X Y : nat -> Qc).
Inductive drilled : nat -> nat -> list gcode -> Prop :=
| dr_nil i : drilled i 0 []
| dr_cons i n bs gs : bores chip r d delta r bs -> drilled (S i) n gs ->
    drilled i (S n) ((if Qcltb z0 r then [rz r] else []) ++ rxy (X i) (Y i) :: (if Qcltb r z0 then [rz r] else []) ++ bs ++ rz sz :: gs).
Lemma holes_drilled g start (incr to_r : bool) rr zz x y fuel :
  gcode_getattr g LR = Ok (Some (VFloat rr)) -> gcode_getattr g LZ = Ok (Some (VFloat zz)) -> gcode_getattr g LX = Ok (Some (VFloat x)) -> gcode_getattr g LY = Ok (Some (VFloat y)) ->
  pos_getattr start AZ = Ok z0 -> r = (if incr then fadd z0 rr else rr) -> d = (if incr then fadd (fadd z0 rr) zz else zz) -> (d <= r)%Qc -> sz = (if to_r then r else z0) ->
  chip = subclass (gcls g) GCodeDrillingCycleChipBreaking -> subclass (gcls g) GCodeDrillingCycleDwell = false ->
  (if subclass (gcls g) GCodeDrillingCyclePeck || subclass (gcls g) GCodeDrillingCycleChipBreaking then exists q, gcode_getattr g LQ = Ok (Some (VFloat q)) /\ delta = (- fabs q)%Qc else delta = fsub d r) ->
  (forall i, X (S i) = if incr then fadd (X i) x else x) -> (forall i, Y (S i) = if incr then fadd (Y i) y else y) ->
  forall n i hx hy, (incr = true -> hx = X i /\ hy = Y i) ->
  (forall G, holes fuel n g start incr to_r hx hy = Some G -> exists gs, G = (gs, Ok tt) /\ drilled (S i) n gs) /\
  (forall bs f0, bores chip r d delta r bs -> (forall fuel k, (f0 <= fuel)%nat -> drill_loop fuel chip r d delta r r k = option_map (fun kk => (bs ++ fst kk, snd kk)) k) -> (f0 <= fuel)%nat -> holes fuel n g start incr to_r hx hy <> None).
Proof.
  intros GR GZ GX GY PZ Er Ed DR Es Ec ND DEL HX HY. induction n as [|n IH]; intros i hx hy HI; [cbn [holes]; split; [intros G H; injection H as <-; exists []; split; auto; constructor|discriminate]|].
  cbn [holes]. rewrite GR, GZ, GX, GY, PZ. cbn [number need num_of_value bind].
  assert (STEP : exists gx gy, (incr = true -> gx = X (S i) /\ gy = Y (S i)) /\ gx = X (S i) /\ gy = Y (S i) /\
     (if incr then Ok (fadd z0 rr, fadd (fadd z0 rr) zz, Some (fadd hx x), Some (fadd hy y)) else Ok (rr, zz, Some x, Some y)) = Ok (r, d, Some gx, Some gy)).
  { destruct incr; [destruct (HI eq_refl) as [-> ->]|]; rewrite HX, HY; eexists _, _; (split; [|split; [reflexivity|split; [reflexivity|]]]); auto; congruence. }
  destruct STEP as (gx & gy & ST & Ex & Ey & ->). cbn [bind]. assert (LT : Qcltb r d = false) by (apply Qcltb_ge; auto). rewrite LT.
  replace (if to_r then Ok r else Ok z0) with (@Ok Qc sz) by (destruct to_r; congruence). cbn [bind lift]. rewrite ND.
  assert (DL : (do delta <- (if subclass (gcls g) GCodeDrillingCyclePeck || subclass (gcls g) GCodeDrillingCycleChipBreaking
                then do q0 <- gcode_getattr g LQ; do q <- need (number q0); Ok (- fabs q)%Qc else Ok (fsub d r)); Ok (drill_loop fuel (subclass (gcls g) GCodeDrillingCycleChipBreaking) r d delta r r (yield (rapid_z sz) (holes fuel n g start incr to_r gx gy))))
     = Ok (drill_loop fuel chip r d delta r r (yield (rapid_z sz) (holes fuel n g start incr to_r gx gy)))).
  { rewrite <- Ec in DEL |- *. destruct (_ || _); [destruct DEL as (q & E1 & E2); rewrite E1, E2|rewrite DEL]; reflexivity. }
  rewrite DL. cbn [lift need bind]. rewrite !rapid_z_ok, rapid_xy_ok, !yield_if_ok. destruct (IH (S i) gx gy ST) as [IH1 IH2]. split.
  - intros G. destruct (drill_loop fuel chip r d delta r r _) as [K|] eqn:D; cbn [yield option_map]; [|discriminate]. intros H. injection H as <-. apply drill_bores in D as (bs & kk & E & B & ->). unfold yield in E. destruct (holes fuel n g start incr to_r gx gy) as [K2|]; [|discriminate E]. cbn [option_map] in E. injection E as <-. destruct (IH1 _ eq_refl) as (gs & -> & DR2).
    eexists. split; [reflexivity|]. cbn [gen_cons fst snd]. rewrite Ex, Ey. apply dr_cons; auto.
  - intros bs f0 B F0 LE. rewrite F0 by auto. specialize (IH2 bs f0 B F0 LE). destruct (holes fuel n g start incr to_r gx gy); [|contradiction]. cbn [yield option_map]. discriminate.
Qed.
(** one hole, from a height where the cycle is entered *)
Definition known (v : where_) : Prop := vget v AX <> None /\ vget v AY <> None /\ vget v AZ <> None.
Lemma known_z v z : known v -> known (with_z v z).
Proof. intros (A & B & C). unfold known, with_z. rewrite !vget_vset. cbn. repeat split; auto. discriminate. Qed.
Lemma known_xy v x y : known v -> known (with_xy v x y).
Proof. intros (A & B & C). unfold known, with_xy. rewrite !vget_vset. cbn. repeat split; auto; discriminate. Qed.
Definition top (v : where_) (i : nat) : where_ := with_xy (with_z v r) (X i) (Y i).
Definition hole (i : nat) (bs : list gcode) : list gcode := (if Qcltb z0 r then [rz r] else []) ++ rxy (X i) (Y i) :: (if Qcltb r z0 then [rz r] else []) ++ bs ++ [rz sz].
Definition entry (v : where_) (i : nat) : list spot :=
  (if Qcltb z0 r then [(GCodeRapidMove, with_z v r)] else []) ++ (GCodeRapidMove, with_xy (if Qcltb z0 r then with_z v r else v) (X i) (Y i)) :: (if Qcltb r z0 then [(GCodeRapidMove, top v i)] else []).
Hypothesis SZ : sz = r \/ sz = z0.
Lemma hole_path v zc i bs : known v -> height v zc -> zc = z0 \/ zc = sz -> aend (top v i) bs = with_z (top v i) d ->
  apath v (hole i bs) = entry v i ++ apath (top v i) bs ++ [(GCodeRapidMove, with_z (top v i) sz)] /\ aend v (hole i bs) = with_z (top v i) sz.
Proof.
  intros K H ZC B. assert (KZ := fun z => known_z v z K). unfold hole, entry.
  assert (E0 : aend v (if Qcltb z0 r then [rz r] else []) = (if Qcltb z0 r then with_z v r else v)). { destruct (Qcltb z0 r); cbn [aend]; auto. unfold rz. rewrite moved_z; auto. apply K. }
  assert (P0 : apath v (if Qcltb z0 r then [rz r] else []) = (if Qcltb z0 r then [(GCodeRapidMove, with_z v r)] else [])). { destruct (Qcltb z0 r); cbn [apath]; auto. unfold rz. rewrite moved_z; auto. apply K. }
  set (u := if Qcltb z0 r then with_z v r else v) in *. assert (Ku : known u) by (unfold u; destruct (Qcltb z0 r); auto).
  set (w := with_xy u (X i) (Y i)). assert (Kw : known w) by (apply known_xy; auto).
  assert (TW : with_z w r = top v i). { unfold w, u, top. destruct (Qcltb z0 r); rewrite !with_xy_z, ?with_z_twice; auto. }
  assert (T2 : Qcltb r z0 = false -> w = top v i).
  { intros Q. rewrite <- TW. symmetry. apply with_z_same. unfold w. rewrite with_xy_height. unfold u. destruct (Qcltb z0 r) eqn:Q2; [apply with_z_height|]. replace r with zc; auto. apply Qcltb_ge in Q, Q2. destruct ZC as [->| ->]; [|destruct SZ as [->| ->]]; auto; clear - Q Q2; qcl. }
  rewrite !apath_app, !aend_app, E0, P0. cbn [apath aend]. rewrite moved_xy by apply Ku. fold w. rewrite !apath_app, !aend_app.
  assert (E1 : aend w (if Qcltb r z0 then [rz r] else []) = top v i). { destruct (Qcltb r z0); cbn [aend]; auto. unfold rz. rewrite moved_z; auto. apply Kw. }
  assert (P1 : apath w (if Qcltb r z0 then [rz r] else []) = (if Qcltb r z0 then [(GCodeRapidMove, top v i)] else [])). { destruct (Qcltb r z0); cbn [apath]; auto. unfold rz. rewrite moved_z by apply Kw. rewrite TW. auto. }
  rewrite E1, P1. assert (KT : known (top v i)) by (rewrite <- TW; apply known_z; auto). rewrite B. cbn [apath aend]. unfold rz. rewrite !moved_z by (apply known_z; auto). rewrite with_z_twice. split; auto. rewrite <- app_assoc. reflexivity.
Qed.
Lemma entry_safe v zc i f l : known v -> height v zc -> zc = z0 \/ zc = sz -> (f <= r)%Qc -> safe r d (top v i) r l -> safe r d v f (entry v i ++ l).
Proof.
  intros K H ZC F S. unfold entry. rewrite <- app_assoc. cbn [app].
  assert (A : safe r d (if Qcltb z0 r then with_z v r else v) f ((GCodeRapidMove, with_xy (if Qcltb z0 r then with_z v r else v) (X i) (Y i)) :: (if Qcltb r z0 then [(GCodeRapidMove, top v i)] else []) ++ l)).
  { set (u := if Qcltb z0 r then with_z v r else v). assert (exists zu, height u zu /\ (r <= zu)%Qc /\ (Qcltb r z0 = false -> zu = r)) as (zu & Hu & Ru & Zu).
    { unfold u. destruct (Qcltb z0 r) eqn:Q; [exists r; split; [apply with_z_height|split; auto; apply Qcle_refl]|]. apply Qcltb_ge in Q. exists zc. split; auto.
      destruct ZC as [->| ->]; [|destruct SZ as [->| ->]]; (split; [auto using Qcle_refl|]); auto; intros Q2; apply Qcltb_ge in Q2; clear - Q Q2; qcl. }
    assert (TW : with_z (with_xy u (X i) (Y i)) r = top v i). { unfold u, top. destruct (Qcltb z0 r); rewrite !with_xy_z, ?with_z_twice; auto. }
    eapply safe_side with (z := zu); [apply der_self|auto|rewrite with_xy_height; auto|auto|]. destruct (Qcltb r z0); cbn [app].
    - eapply safe_rapid with (z := r); [apply der_self| | |apply Qcle_refl|auto].
      + rewrite <- TW. apply with_z_vertical.
      + rewrite <- TW. apply with_z_height.
    - rewrite <- TW in S. rewrite with_z_same in S; auto. rewrite with_xy_height. rewrite <- Zu; auto. }
  destruct (Qcltb z0 r); cbn [app]; auto. eapply safe_rapid with (z := r); [apply der_self|apply with_z_vertical|apply with_z_height|auto|auto].
Qed.
Lemma entry_rapid v i : Forall (fun s : spot => fst s = GCodeRapidMove) (entry v i).
Proof. unfold entry. apply Forall_app. split; [destruct (Qcltb z0 r); auto|]. constructor; auto. destruct (Qcltb r z0); auto. Qed.
Lemma drilled_hole i bs gs : (if Qcltb z0 r then [rz r] else []) ++ rxy (X i) (Y i) :: (if Qcltb r z0 then [rz r] else []) ++ bs ++ rz sz :: gs = hole i bs ++ gs.
Proof. unfold hole. rewrite <- !app_assoc. cbn [app]. rewrite <- !app_assoc. auto. Qed.
Lemma top_over v i z j : jx j i = X i -> jy j i = Y i -> over j i (with_z (top v i) z).
Proof. intros A B. unfold over, top, with_z, with_xy. rewrite !vget_vset. cbn. rewrite A, B. auto. Qed.
Lemma top_top v i j z : top (with_z (top v i) z) j = top v j.
Proof. apply v9_ext. intros a. unfold top, with_z, with_xy. rewrite !vget_vset. destruct a; reflexivity. Qed.
Lemma bores_end bs : bores chip r d delta r bs -> float r -> float d -> (delta <= Q2Qc 0)%Qc -> (d <= r)%Qc -> forall w, height w r -> aend w bs = with_z w d.
Proof.
  intros B Fr Fd D DR w H. destruct (bores_safe chip r d delta r bs B w r r []) as [_ E]; auto using Qcle_refl, safe_end.
Qed.
Lemma top_height v i : height (top v i) r. Proof. unfold top. rewrite with_xy_height. apply with_z_height. Qed.
Lemma drilled_spec i n gs : drilled i n gs -> float r -> float d -> (delta <= Q2Qc 0)%Qc -> (d <= r)%Qc -> (d <= sz)%Qc -> forall v zc f, known v -> height v zc -> zc = z0 \/ zc = sz -> (f <= r)%Qc ->
  safe r d v f (apath v gs) /\ (forall c w, In (c, w) (apath v gs) -> derives c GCodeLinearMove -> exists k z, (i <= k < i + n)%nat /\ w = with_z (top v k) z) /\
  (forall k, (i <= k < i + n)%nat -> In (GCodeLinearMove, with_z (top v k) d) (apath v gs)) /\ ((0 < n)%nat -> aend v gs = with_z (top v (i + n - 1)) sz).
Proof.
  intros B Fr Fd D DR DS. induction B as [i|i n bs gs B HS IH]; intros v zc f K H ZC F.
  - cbn [apath]. split; [constructor|]. split; [intros c w []|]. split; intros; lia.
  - rewrite drilled_hole. assert (KT : known (top v i)) by (unfold top; apply known_xy, known_z; auto).
    destruct (bores_safe chip r d delta r bs B (top v i) r r [] ) as [_ BE]; auto using Qcle_refl, safe_end, top_height.
    assert (HP : apath v (hole i bs) = entry v i ++ apath (top v i) bs ++ [(GCodeRapidMove, with_z (top v i) sz)] /\ aend v (hole i bs) = with_z (top v i) sz).
    { apply hole_path with (zc := zc); auto. }
    destruct HP as [HP HE]. rewrite apath_app, aend_app, HP, HE.
    destruct (IH (with_z (top v i) sz) sz d) as (S & O & BT & E); auto using known_z, with_z_height.
    split; [|split; [|split]].
    + rewrite <- app_assoc. apply (entry_safe v zc); auto. rewrite <- app_assoc. apply (bores_safe chip r d delta r bs B (top v i) r r); auto using Qcle_refl, top_height. cbn [app]. eapply safe_rapid with (z := sz); [apply der_self| |apply with_z_height|auto|auto].
      intros a N. rewrite !with_z_vertical by auto. auto.
    + intros c w I L. apply in_app_iff in I as [I|I].
      * apply in_app_iff in I as [I|I]; [pose proof (entry_rapid v i) as R; rewrite Forall_forall in R; specialize (R _ I); cbn [fst] in R; subst c; destruct (linear_not_rapid _ L (der_self _))|].
        apply in_app_iff in I as [I|I]; [|destruct I as [I|[]]; injection I as <- <-; destruct (linear_not_rapid _ L (der_self _))].
        pose proof (bores_over chip r d delta r bs B (top v i) (proj2 (proj2 KT))) as R. rewrite Forall_forall in R. destruct (R _ I) as [z Z]. exists i, z. split; [lia|auto].
      * destruct (O c w I L) as (k & z & Q & ->). exists k, z. split; [lia|]. rewrite top_top. auto.
    + intros k Q. apply in_app_iff. destruct (Nat.eq_dec k i) as [->|Nk].
      * left. apply in_app_iff. right. apply in_app_iff. left. apply (bores_bottom chip r d delta r bs B). apply KT.
      * right. rewrite <- (top_top v i k sz). apply BT. lia.
    + intros _. destruct n; [inversion HS; subst; cbn [aend]; replace (i + 1 - 1)%nat with i by lia; auto|]. rewrite E by lia. rewrite top_top. do 2 f_equal. lia.
Qed.
(** where it ends *)
Lemma drilled_end i n gs : drilled i n gs -> float r -> float d -> (delta <= Q2Qc 0)%Qc -> (d <= r)%Qc -> forall v zc, known v -> height v zc -> zc = z0 \/ zc = sz -> (0 < n)%nat -> aend v gs = with_z (top v (i + n - 1)) sz.
Proof.
  intros H Fr Fd D DR. induction H as [i|i n bs gs B HS IH]; intros v zc Kv Hv Zc Pn; [lia|]. rewrite drilled_hole, aend_app. destruct (hole_path v zc i bs Kv Hv Zc) as [_ HE].
  - apply bores_end; auto using top_height.
  - rewrite HE. destruct n; [inversion HS; subst; cbn [aend]; replace (i + 1 - 1)%nat with i by lia; auto|]. rewrite (IH _ sz); auto using with_z_height; try lia.
    + rewrite top_top. do 2 f_equal. lia.
    + apply known_z. unfold top. apply known_xy, known_z. auto.
Qed.
End Holes.
End WithArith.
