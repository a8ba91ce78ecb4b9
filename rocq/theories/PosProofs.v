From Coq Require Import List Bool Arith ZArith QArith Qcanon Qabs Lia Lqa Setoid.
From Verif Require Import Base Num Words GTable GCode Position BaseFacts WordOrder PrintSpec PrintProofs ArithSpec PosSpec.
Import ListNotations.
Open Scope Z_scope.

(** ** Tables over the axes *)
Lemma axis_eqb_eq a b : axis_eqb a b = true <-> a = b.
Proof. destruct a, b; vm_compute; split; congruence. Qed.
Lemma axis_eqb_refl a : axis_eqb a a = true. Proof. apply axis_eqb_eq; auto. Qed.
Lemma axis_eqb_neq a b : a <> b -> axis_eqb a b = false.
Proof. intros H. destruct (axis_eqb a b) eqn:E; auto. apply axis_eqb_eq in E. contradiction. Qed.
Lemma axis_dec (a b : axis) : {a = b} + {a <> b}. Proof. decide equality. Qed.
Lemma vget_vfun {A} (f : axis -> A) a : vget (vfun f) a = f a. Proof. destruct a; reflexivity. Qed.
Lemma vget_vset {A} (v : v9 A) a x b : vget (vset v a x) b = if axis_eqb a b then x else vget v b.
Proof. unfold vset. apply vget_vfun. Qed.
Lemma v9_ext {A} (u v : v9 A) : (forall a, vget u a = vget v a) -> u = v.
Proof.
  intros H. destruct u, v. pose proof (H AX); pose proof (H AY); pose proof (H AZ); pose proof (H AA); pose proof (H AB); pose proof (H AC);
  pose proof (H AU); pose proof (H AV); pose proof (H AW). cbn in *. congruence.
Qed.
Lemma all_axes_in a : In a all_axes. Proof. destruct a; vm_compute; tauto. Qed.
Lemma vall_true f : vall f = true <-> forall a, f a = true.
Proof. unfold vall. rewrite forallb_forall. split; intros H a; auto. apply H, all_axes_in. Qed.
Lemma axset_eqb_eq a b : axset_eqb a b = true <-> a = b.
Proof.
  unfold axset_eqb. rewrite vall_true. split.
  - intros H. apply v9_ext. intros x. apply eqb_prop, H.
  - intros -> x. apply eqb_reflx.
Qed.
Lemma axset_eqb_neq a b : axset_eqb a b = false <-> a <> b.
Proof. rewrite <- axset_eqb_eq. destruct (axset_eqb a b); split; congruence. Qed.
Lemma axset_sub_iff a b : axset_sub a b = true <-> forall x, vget a x = true -> vget b x = true.
Proof.
  unfold axset_sub. rewrite vall_true. split; intros H x; specialize (H x); destruct (vget a x), (vget b x); simpl in *; auto.
Qed.

(** ** Observing positions *)
Lemma getattr_ok p a x : pos_getattr p a = Ok x <-> has p a /\ x = pval p a.
Proof.
  unfold pos_getattr, has. destruct (vget (paxes p) a); split.
  - intros E. injection E as <-. auto.
  - intros [_ ->]. auto.
  - discriminate.
  - intros [E _]. discriminate.
Qed.
Lemma good_some p a : good p -> has p a -> vget (pvals p) a = Some (pval p a).
Proof. intros G H. unfold pval. destruct (vget (pvals p) a) eqn:E; auto. apply G in E. contradiction. Qed.
Lemma good_none p a : good p -> ~ has p a -> vget (pvals p) a = None. Proof. intros G H. apply G. auto. Qed.
Lemma has_dec p a : {has p a} + {~ has p a}. Proof. unfold has. destruct (vget (paxes p) a); [left|right]; congruence. Qed.
Lemma pos_ext p q : good p -> good q -> paxes p = paxes q -> punit p = punit q -> (forall a, has p a -> pval p a = pval q a) -> p = q.
Proof.
  intros Gp Gq A U H. destruct p as [pa pu pv], q as [qa qu qv]. cbn [paxes punit] in *. subst. f_equal. apply v9_ext. intros a.
  destruct (has_dec (Pos qa qu pv) a) as [X|X].
  - pose proof (good_some _ _ Gp X) as E1. assert (Y : has (Pos qa qu qv) a) by exact X. pose proof (good_some _ _ Gq Y) as E2. cbn [pvals] in E1, E2. rewrite E1, E2. f_equal. apply H; auto.
  - pose proof (good_none _ _ Gp X) as E1. assert (Y : ~ has (Pos qa qu qv) a) by exact X. pose proof (good_none _ _ Gq Y) as E2. cbn [pvals] in E1, E2. congruence.
Qed.
Lemma good_map f p : good p -> good (Pos (paxes p) (punit p) (vfun (fun a => option_map (f a) (vget (pvals p) a)))).
Proof.
  intros G a. cbn [pvals]. rewrite vget_vfun. change (has (Pos (paxes p) (punit p) _) a) with (has p a). rewrite <- (G a). destruct (vget (pvals p) a); simpl; split; congruence.
Qed.
Lemma mk_position_good axes u cs : (forall a x, In (a, x) cs -> vget axes a = true) -> good (mk_position axes u cs).
Proof.
  intros H. assert (K : forall (cs : list (axis * Qc)) (v : v9 (option Qc)), (forall a x, In (a, x) cs -> vget axes a = true) -> (forall a, vget v a = None <-> vget axes a <> true) ->
    forall a, vget (fold_left (fun v kx => vset v (fst kx) (Some (snd kx))) cs v) a = None <-> vget axes a <> true).
  { clear. induction cs as [|[b x] cs IH]; intros v H V a; cbn [fold_left]; auto. apply IH; [intros; eapply H; right; eauto|].
    intros c. rewrite vget_vset. cbn [fst snd]. destruct (axis_eqb b c) eqn:E; auto. apply axis_eqb_eq in E. subst. split; [discriminate|]. intros N. exfalso. apply N. eapply H. left. reflexivity. }
  intros a. unfold has, mk_position. cbn [pvals paxes]. apply K; auto. intros c. rewrite vget_vfun. destruct (vget axes c); split; congruence.
Qed.

Section WithArith.
Context {ar : Arith}.

(** ** Arithmetic *)
Lemma add_spec p q r : good p -> good q -> pos_add p q = Ok r <->
  paxes p = paxes q /\ good r /\ paxes r = paxes p /\ punit r = punit p /\ forall a, has p a -> pval r a = fadd (pval p a) (pval q a).
Proof.
  intros Gp Gq. unfold pos_add. destruct (axset_eqb (paxes p) (paxes q)) eqn:E; cbn [negb].
  - apply axset_eqb_eq in E. split.
    + intros H. injection H as <-. split; auto. split; [apply good_map; auto|]. split; auto. split; auto.
      intros a Ha. unfold pval at 1. cbn [pvals]. rewrite vget_vfun, (good_some p a) by auto. reflexivity.
    + intros (_ & Gr & A & U & H). f_equal. apply pos_ext; auto.
      * apply good_map; auto.
      * intros a Ha. change (has p a) in Ha. unfold pval at 1. cbn [pvals]. rewrite vget_vfun, (good_some p a) by auto. cbn [option_map oval]. symmetry. auto.
  - apply axset_eqb_neq in E. split; [discriminate|]. intros (H & _). contradiction.
Qed.
Lemma add_error p q e : pos_add p q = Raise e <-> e = EMachineInvalidAxis /\ paxes p <> paxes q.
Proof.
  unfold pos_add. destruct (axset_eqb (paxes p) (paxes q)) eqn:E; cbn [negb].
  - apply axset_eqb_eq in E. split; [discriminate|]. intros [_ H]. contradiction.
  - apply axset_eqb_neq in E. split; [intros H; injection H as <-; auto|intros [-> _]; auto].
Qed.
Lemma sub_spec p q r : good p -> good q -> pos_sub p q = Ok r <->
  (forall a, has q a -> has p a) /\ good r /\ paxes r = paxes p /\ punit r = punit p /\
  forall a, has p a -> (has q a -> pval r a = fsub (pval p a) (pval q a)) /\ (~ has q a -> pval r a = pval p a).
Proof.
  intros Gp Gq. unfold pos_sub. destruct (axset_sub (paxes q) (paxes p)) eqn:E; cbn [negb].
  - pose proof (proj1 (axset_sub_iff _ _) E) as S. set (r0 := Pos _ _ _).
    assert (V : forall a, (has q a -> vget (pvals r0) a = Some (fsub (pval p a) (pval q a))) /\ (~ has q a -> vget (pvals r0) a = vget (pvals p) a)).
    { intros a. unfold r0. cbn [pvals]. rewrite vget_vfun. split; intros H.
      - rewrite (good_some q a) by auto. reflexivity.
      - rewrite (good_none q a) by auto. reflexivity. }
    assert (Gr : good r0).
    { intros a. change (has r0 a) with (has p a). destruct (has_dec q a) as [H|H].
      - rewrite (proj1 (V a) H). split; [discriminate|]. intros N. exfalso. apply N. apply S; auto.
      - rewrite (proj2 (V a) H). apply Gp. }
    assert (W : forall a, has p a -> (has q a -> pval r0 a = fsub (pval p a) (pval q a)) /\ (~ has q a -> pval r0 a = pval p a)).
    { intros a Ha. unfold pval at 1 4. split; intros H; [rewrite (proj1 (V a) H)|rewrite (proj2 (V a) H)]; reflexivity. }
    split.
    + intros H. injection H as <-. split; auto.
    + intros (_ & Gr' & A & U & H). f_equal. apply pos_ext; auto. intros a Ha. change (has p a) in Ha. destruct (W a Ha) as [W1 W2]. destruct (H a Ha) as [H1 H2].
      destruct (has_dec q a); [rewrite W1, H1|rewrite W2, H2]; auto.
  - split; [discriminate|]. intros (H & _). assert (X : axset_sub (paxes q) (paxes p) = true) by (apply axset_sub_iff; auto). congruence.
Qed.
Lemma sub_error p q e : pos_sub p q = Raise e <-> e = EMachineInvalidAxis /\ exists a, has q a /\ ~ has p a.
Proof.
  unfold pos_sub. destruct (axset_sub (paxes q) (paxes p)) eqn:E; cbn [negb].
  - pose proof (proj1 (axset_sub_iff _ _) E) as S. split; [discriminate|]. intros [_ (a & H & N)]. exfalso. apply N, S, H.
  - split; [|intros [-> _]; auto]. intros H. injection H as <-. split; auto. unfold axset_sub, vall in E.
    assert (X : exists x, In x all_axes /\ implb (vget (paxes q) x) (vget (paxes p) x) = false).
    { revert E. clear. induction all_axes as [|x l IH]; cbn [forallb]; [discriminate|]. destruct (implb _ _) eqn:I; [intros H; destruct (IH H) as (y & A & B); exists y; split; auto; right; auto|]. intros _. exists x. split; auto. left; auto. }
    destruct X as (x & _ & I). exists x. unfold has. destruct (vget (paxes q) x), (vget (paxes p) x); simpl in I; try discriminate. split; congruence.
Qed.
Lemma mul_spec p s : good p -> good (pos_mul p s) /\ paxes (pos_mul p s) = paxes p /\ punit (pos_mul p s) = punit p /\ forall a, has p a -> pval (pos_mul p s) a = fmul (pval p a) s.
Proof.
  intros G. split; [apply (good_map (fun _ x => fmul x s)); auto|]. split; auto. split; auto. intros a Ha. unfold pval at 1, pos_mul. cbn [pvals]. rewrite vget_vfun, (good_some p a) by auto. reflexivity.
Qed.
Lemma div_spec p s r : good p -> pos_div p s = Ok r <->
  (s <> Q2Qc 0 \/ forall a, ~ has p a) /\ good r /\ paxes r = paxes p /\ punit r = punit p /\ forall a, has p a -> pval r a = fdiv (pval p a) s.
Proof.
  intros G. unfold pos_div.
  assert (Z : Qceqb s (Q2Qc 0) && existsb (fun a => match vget (pvals p) a with Some _ => true | None => false end) all_axes = false <-> (s <> Q2Qc 0 \/ forall a, ~ has p a)).
  { rewrite andb_false_iff. split; intros [H|H].
    - left. intros E. apply Qceqb_eq in E. congruence.
    - right. intros a Ha. assert (X : existsb (fun a => match vget (pvals p) a with Some _ => true | None => false end) all_axes = true); [|congruence].
      apply existsb_exists. exists a. split; [apply all_axes_in|]. rewrite (good_some p a) by auto. auto.
    - left. destruct (Qceqb s (Q2Qc 0)) eqn:E; auto. apply Qceqb_eq in E. contradiction.
    - right. destruct (existsb _ _) eqn:E; auto. apply existsb_exists in E as (a & _ & E). rewrite (good_none p a) in E by auto. discriminate. }
  destruct (Qceqb s (Q2Qc 0) && _) eqn:B.
  - split; [discriminate|]. intros (H & _). apply Z in H. congruence.
  - assert (V : forall a, has p a -> pval (Pos (paxes p) (punit p) (vfun (fun a => option_map (fun x => fdiv x s) (vget (pvals p) a)))) a = fdiv (pval p a) s).
    { intros a Ha. unfold pval at 1. cbn [pvals]. rewrite vget_vfun, (good_some p a) by auto. reflexivity. }
    assert (Gr := good_map (fun _ x => fdiv x s) p G). split.
    + intros H. injection H as <-. split; [apply Z; auto|]. auto.
    + intros (_ & Gr' & A & U & H). f_equal. apply pos_ext; auto. intros a Ha. change (has p a) in Ha. rewrite V, H; auto.
Qed.
Lemma div_error p s e : good p -> pos_div p s = Raise e <-> e = EZeroDivisionError /\ s = Q2Qc 0 /\ exists a, has p a.
Proof.
  intros G. unfold pos_div. destruct (Qceqb s (Q2Qc 0)) eqn:E; cbn [andb].
  - apply Qceqb_eq in E. destruct (existsb _ _) eqn:X.
    + apply existsb_exists in X as (a & _ & X). split; [|intros (-> & _); auto]. intros H. injection H as <-. split; auto. split; auto. exists a. destruct (has_dec p a) as [|N]; auto. rewrite (good_none p a) in X by auto. discriminate.
    + split; [discriminate|]. intros (_ & _ & a & Ha). exfalso. assert (Y : existsb (fun a => match vget (pvals p) a with Some _ => true | None => false end) all_axes = true); [|congruence].
      apply existsb_exists. exists a. split; [apply all_axes_in|]. rewrite (good_some p a); auto.
  - split; [discriminate|]. intros (_ & -> & _). assert (X : Qceqb (Q2Qc 0) (Q2Qc 0) = true) by (apply Qceqb_eq; auto). congruence.
Qed.

(** ** Units *)
Lemma units_differ : UNIT_IMPERIAL <> UNIT_METRIC. Proof. vm_compute. discriminate. Qed.
Lemma conversion_known u v : known_unit u -> known_unit v -> u <> v -> exists f, conversion_factor u v = Ok f /\
  ((u = UNIT_IMPERIAL /\ f = flit 254 10) \/ (u = UNIT_METRIC /\ f = fdiv (Q2Qc 1) (flit 254 10))).
Proof.
  intros [-> | ->] [-> | ->] N; try congruence; (eexists; split; [vm_compute; reflexivity|]).
  - left. split; auto.
  - right. split; auto.
Qed.
Lemma setter_spec p u r : good p -> known_unit (punit p) -> known_unit u -> unit_setter p u = Ok r <->
  good r /\ paxes r = paxes p /\ punit r = u /\
  forall a, has p a -> pval r a = if Z.eqb u (punit p) then pval p a else
    if Z.eqb u UNIT_METRIC then fmul (pval p a) (flit 254 10) else fmul (pval p a) (fdiv (Q2Qc 1) (flit 254 10)).
Proof.
  intros G Kp Ku. unfold unit_setter. destruct (Z.eqb_spec u (punit p)) as [E|E].
  - subst. split.
    + intros H. injection H as <-. auto.
    + intros (Gr & A & U & H). f_equal. apply pos_ext; auto. intros a Ha. symmetry. auto.
  - destruct (conversion_known (punit p) u Kp Ku (fun X => E (eq_sym X))) as (f & F & C). rewrite F. cbn [bind].
    assert (Ff : f = if Z.eqb u UNIT_METRIC then flit 254 10 else fdiv (Q2Qc 1) (flit 254 10)).
    { pose proof units_differ. destruct Ku as [-> | ->], C as [[C ->]|[C ->]]; try congruence; destruct (Z.eqb_spec UNIT_IMPERIAL UNIT_METRIC), (Z.eqb_spec UNIT_METRIC UNIT_METRIC); congruence. }
    set (r0 := Pos _ _ _). assert (Gr0 : good r0).
    { intros a. change (has r0 a) with (has p a). unfold r0. cbn [pvals]. rewrite vget_vfun, <- (G a). destruct (vget (pvals p) a); simpl; split; congruence. }
    assert (V : forall a, has p a -> pval r0 a = fmul (pval p a) f). { intros a Ha. unfold pval at 1, r0. cbn [pvals]. rewrite vget_vfun, (good_some p a) by auto. reflexivity. }
    split.
    + intros H. injection H as <-. split; auto. split; auto. split; auto. intros a Ha. rewrite V, Ff by auto. destruct (Z.eqb u UNIT_METRIC); auto.
    + intros (Gr & A & U & H). f_equal. apply pos_ext; auto. intros a Ha. change (has p a) in Ha. rewrite V, H, Ff by auto. destruct (Z.eqb u UNIT_METRIC); auto.
Qed.
Lemma setter_total p u : good p -> known_unit (punit p) -> known_unit u -> exists r, unit_setter p u = Ok r.
Proof.
  intros G Kp Ku. unfold unit_setter. destruct (Z.eqb_spec u (punit p)) as [E|E]; eauto.
  destruct (conversion_known (punit p) u Kp Ku (fun X => E (eq_sym X))) as (f & F & _). rewrite F. cbn [bind]. eauto.
Qed.
Lemma vals_eqb_spec p q : good p -> good q -> paxes p = paxes q -> vals_eqb (pvals p) (pvals q) = true <-> forall a, has p a -> pval p a = pval q a.
Proof.
  intros Gp Gq A. unfold vals_eqb. rewrite vall_true. split.
  - intros H a Ha. specialize (H a). assert (Hq : has q a) by (unfold has in *; rewrite <- A; auto). rewrite (good_some p a), (good_some q a) in H by auto. apply Qceqb_eq; auto.
  - intros H a. destruct (has_dec p a) as [Ha|Ha].
    + assert (Hq : has q a) by (unfold has in *; rewrite <- A; auto). rewrite (good_some p a), (good_some q a) by auto. apply Qceqb_eq; auto.
    + assert (Hq : ~ has q a) by (unfold has in *; rewrite <- A; auto). rewrite (good_none p a), (good_none q a) by auto. auto.
Qed.

(** ** Assignments *)
Lemma setattr_spec p a x : good p -> has p a -> exists p', pos_setattr p a x = Ok p' /\ good p' /\ paxes p' = paxes p /\ punit p' = punit p /\ forall b, has p b -> pval p' b = if axis_eqb a b then x else pval p b.
Proof.
  intros G H. unfold pos_setattr. pose proof H as H'. unfold has in H'. rewrite H'. eexists. split; auto. split.
  - intros b. cbn [pvals]. rewrite vget_vset. change (has (Pos (paxes p) _ _) b) with (has p b). destruct (axis_eqb a b) eqn:E; [|apply G]. apply axis_eqb_eq in E. subst. split; [discriminate|contradiction].
  - split; auto. split; auto. intros b Hb. unfold pval. cbn [pvals]. rewrite vget_vset. destruct (axis_eqb a b); auto.
Qed.
Lemma update_spec cs : forall p, good p -> Forall (fun c => has p (fst c)) cs -> exists p', pos_update p cs = Ok p' /\ good p' /\ paxes p' = paxes p /\ punit p' = punit p /\
  forall b, has p b -> (forall x, last_assigned cs b x -> pval p' b = x) /\ ((forall x, ~ In (b, x) cs) -> pval p' b = pval p b).
Proof.
  induction cs as [|[a x] cs IH]; intros p G F; cbn [pos_update].
  - exists p. split; auto. split; auto. split; auto. split; auto. intros b Hb. split; auto. intros y (l & r & E & _). destruct l; discriminate.
  - inversion F as [|? ? Ha Fc]; subst. cbn [fst] in Ha. destruct (setattr_spec p a x G Ha) as (p1 & E1 & G1 & A1 & U1 & V1). rewrite E1. cbn [bind].
    assert (Fc1 : Forall (fun c => has p1 (fst c)) cs) by (eapply Forall_impl; [|exact Fc]; intros c Hc; unfold has in *; rewrite A1; auto).
    destruct (IH p1 G1 Fc1) as (p' & E & G' & A' & U' & V'). exists p'. split; auto. split; auto. split; [congruence|]. split; [congruence|].
    intros b Hb. assert (Hb1 : has p1 b) by (unfold has in *; rewrite A1; auto). destruct (V' b Hb1) as [W1 W2]. split.
    + intros y (l & r & Ec & N). destruct l as [|c l].
      * cbn [app] in Ec. injection Ec as -> -> ->. rewrite W2 by auto. rewrite V1 by auto. rewrite axis_eqb_refl. auto.
      * cbn [app] in Ec. injection Ec as <- ->. apply W1. exists l, r. auto.
    + intros N. rewrite W2 by (intros y I; apply (N y); right; auto). rewrite V1 by auto. destruct (axis_eqb a b) eqn:E2; auto. apply axis_eqb_eq in E2. subst. exfalso. apply (N x). left. auto.
Qed.
Lemma update_error cs : forall p, good p -> ~ Forall (fun c => has p (fst c)) cs -> pos_update p cs = Raise EMachineInvalidAxis.
Proof.
  induction cs as [|[a x] cs IH]; intros p G F; cbn [pos_update]; [exfalso; apply F; constructor|].
  destruct (has_dec p a) as [Ha|Ha].
  - destruct (setattr_spec p a x G Ha) as (p1 & E1 & G1 & A1 & U1 & V1). rewrite E1. cbn [bind]. apply IH; auto. intros F1. apply F. constructor; auto.
    eapply Forall_impl; [|exact F1]. intros c Hc. unfold has in *. rewrite <- A1. auto.
  - unfold pos_setattr. unfold has in Ha. destruct (vget (paxes p) a); [congruence|]. reflexivity.
Qed.

(** ** Bounds *)
Lemma Qcltb_lt x y : Qcltb x y = true <-> (x < y)%Qc.
Proof. unfold Qcltb, Qclt. rewrite Qlt_alt. destruct (Qcompare (this x) (this y)); split; congruence. Qed.
Lemma qmin_spec x y : (qmin x y <= x)%Qc /\ (qmin x y <= y)%Qc /\ (qmin x y = x \/ qmin x y = y).
Proof.
  unfold qmin. destruct (Qcltb y x) eqn:E.
  - apply Qcltb_lt in E. repeat split; auto using Qcle_refl. apply Qclt_le_weak; auto.
  - assert (N : ~ (y < x)%Qc) by (intros X; apply Qcltb_lt in X; congruence). apply Qcnot_lt_le in N. repeat split; auto using Qcle_refl.
Qed.
Lemma qmax_spec x y : (x <= qmax x y)%Qc /\ (y <= qmax x y)%Qc /\ (qmax x y = x \/ qmax x y = y).
Proof.
  unfold qmax. destruct (Qcltb x y) eqn:E.
  - apply Qcltb_lt in E. repeat split; auto using Qcle_refl. apply Qclt_le_weak; auto.
  - assert (N : ~ (x < y)%Qc) by (intros X; apply Qcltb_lt in X; congruence). apply Qcnot_lt_le in N. repeat split; auto using Qcle_refl.
Qed.
Lemma same_unit (p q : position) : (if punit p =? punit q then p else pos_set_unit p (punit q)) = p.
Proof. unfold pos_set_unit. destruct (punit p =? punit q); auto. Qed.
Lemma cmp_spec key p q : good p -> good q -> (forall a, has p a -> has q a) ->
  exists r, pos_cmp key p q = Ok r /\ good r /\ paxes r = full_axes /\ punit r = punit p /\
    forall a, pval r a = if vget (paxes p) a then key (pval p a) (pval q a) else Q2Qc 0.
Proof.
  intros Gp Gq S. unfold pos_cmp. rewrite same_unit. cbn zeta. match goal with |- context [if ?b then _ else _] => assert (C : b = true) end.
  { apply vall_true. intros a. destruct (vget (pvals p) a) eqn:E; auto. assert (Ha : has p a). { destruct (has_dec p a) as [|N]; auto. rewrite (good_none p a) in E by auto. discriminate. }
    unfold has in Ha. rewrite Ha. apply S in Ha. exact Ha. }
  rewrite C. eexists. split; auto. split; [|split; [auto|split; [auto|]]].
  - intros a. cbn [pvals paxes]. rewrite vget_vfun. unfold has, full_axes. cbn [paxes]. rewrite vget_vfun. destruct (vget (pvals p) a); split; congruence.
  - intros a. unfold pval at 1. cbn [pvals]. rewrite vget_vfun. destruct (has_dec p a) as [Ha|Ha].
    + rewrite (good_some p a) by auto. unfold has in Ha. rewrite Ha. reflexivity.
    + rewrite (good_none p a) by auto. unfold has in Ha. destruct (vget (paxes p) a); [congruence|reflexivity].
Qed.
End WithArith.
