(** Properties C35-C39: positions. *)
From Coq Require Import Ascii String List Bool Arith ZArith QArith Qcanon Qabs Lia Lqa Setoid.
From Verif Require Import Base Num Words GTable GCode Position BaseFacts WordOrder PrintSpec PrintProofs PrintProofs2 ArithSpec Float64 PosSpec PosProofs.
Import ListNotations.
Open Scope Z_scope.

Definition xyz_axes : axset := axset_of [AX; AY; AZ].
Definition xy_axes : axset := axset_of [AX; AY].
Definition P (l : list (axis * Qc)) : position := mk_position xyz_axes UNIT_METRIC l.
Definition q1 (n : Z) (d : positive) : Qc := frac n d.
Lemma P_good l : (forall a x, In (a, x) l -> vget xyz_axes a = true) -> good (P l). Proof. apply mk_position_good. Qed.

(** ** C35 Position arithmetic is per-axis arithmetic *)
Theorem C35_add : forall (ar : Arith) (p q r : position), good p -> good q ->
  (pos_add p q = Ok r <->
   (forall a, has p a <-> has q a) /\ good r /\ punit r = punit p /\
   forall a, (has r a <-> has p a) /\ forall x y, pos_getattr p a = Ok x -> pos_getattr q a = Ok y -> pos_getattr r a = Ok (rnd (x + y)%Qc)).
Proof.
  intros ar p q r Gp Gq. rewrite add_spec by auto. split.
  - intros (A & Gr & Ar & U & H). split; [intros a; unfold has; rewrite A; tauto|]. split; auto. split; auto. intros a. split; [unfold has; rewrite Ar; tauto|].
    intros x y X Y. apply getattr_ok in X as [X ->]. apply getattr_ok in Y as [Y ->]. apply getattr_ok. split; [unfold has in *; rewrite Ar; auto|]. rewrite H; auto.
  - intros (A & Gr & U & H). assert (Apq : paxes p = paxes q).
    { apply v9_ext. intros a. specialize (A a). unfold has in A. destruct (vget (paxes p) a), (vget (paxes q) a); intuition congruence. }
    assert (Arp : paxes r = paxes p).
    { apply v9_ext. intros a. destruct (H a) as [B _]. unfold has in B. destruct (vget (paxes p) a), (vget (paxes r) a); intuition congruence. }
    split; auto. split; auto. split; auto. split; auto. intros a Ha. destruct (H a) as [_ V]. pose proof (proj1 (A a) Ha) as Hq.
    assert (E : pos_getattr r a = Ok (rnd (pval p a + pval q a)%Qc)) by (apply V; apply getattr_ok; auto). apply getattr_ok in E as [_ E]. auto.
Qed.
Print Assumptions C35_add.
Theorem C35_add_mismatch : forall (ar : Arith) (p q : position) (e : exn),
  pos_add p q = Raise e <-> e = EMachineInvalidAxis /\ exists a, ~ (has p a <-> has q a).
Proof.
  intros ar p q e. rewrite add_error. split; intros [-> H]; split; auto.
  - destruct (vall (fun a => Bool.eqb (vget (paxes p) a) (vget (paxes q) a))) eqn:V.
    + exfalso. apply H. apply axset_eqb_eq. exact V.
    + unfold vall in V. assert (X : exists a, In a all_axes /\ Bool.eqb (vget (paxes p) a) (vget (paxes q) a) = false).
      { revert V. clear. induction all_axes as [|x l IH]; cbn [forallb]; [discriminate|]. destruct (Bool.eqb _ _) eqn:I; [intros H; destruct (IH H) as (y & A & B); exists y; split; auto; right; auto|]. intros _. exists x. split; auto. left; auto. }
      destruct X as (a & _ & X). exists a. unfold has. apply eqb_false_iff in X. destruct (vget (paxes p) a), (vget (paxes q) a); intuition congruence.
  - destruct H as (a & H). intros E. apply H. unfold has. rewrite E. tauto.
Qed.
Print Assumptions C35_add_mismatch.
(** subtraction: the second operand may lack axes of the first *)
Theorem C35_sub : forall (ar : Arith) (p q r : position), good p -> good q ->
  (pos_sub p q = Ok r <->
   (forall a, has q a -> has p a) /\ good r /\ punit r = punit p /\
   forall a, (has r a <-> has p a) /\ forall x, pos_getattr p a = Ok x ->
     (forall y, pos_getattr q a = Ok y -> pos_getattr r a = Ok (rnd (x - y)%Qc)) /\ (~ has q a -> pos_getattr r a = Ok x)).
Proof.
  intros ar p q r Gp Gq. rewrite sub_spec by auto. split.
  - intros (A & Gr & Ar & U & H). split; auto. split; auto. split; auto. intros a. split; [unfold has; rewrite Ar; tauto|].
    intros x X. apply getattr_ok in X as [X ->]. destruct (H a X) as [H1 H2]. assert (Hr : has r a) by (unfold has in *; rewrite Ar; auto). split.
    + intros y Y. apply getattr_ok in Y as [Y ->]. apply getattr_ok. split; auto. rewrite H1; auto.
    + intros N. apply getattr_ok. split; auto. rewrite H2; auto.
  - intros (A & Gr & U & H). assert (Arp : paxes r = paxes p).
    { apply v9_ext. intros a. destruct (H a) as [B _]. unfold has in B. destruct (vget (paxes p) a), (vget (paxes r) a); intuition congruence. }
    split; auto. split; auto. split; auto. split; auto. intros a Ha. destruct (H a) as [_ V]. destruct (V (pval p a)) as [V1 V2]; [apply getattr_ok; auto|]. split.
    + intros Hq. assert (E : pos_getattr r a = Ok (rnd (pval p a - pval q a)%Qc)) by (apply V1; apply getattr_ok; auto). apply getattr_ok in E as [_ E]. auto.
    + intros N. apply V2 in N. apply getattr_ok in N as [_ E]. auto.
Qed.
Print Assumptions C35_sub.
Theorem C35_sub_mismatch : forall (ar : Arith) (p q : position) (e : exn),
  pos_sub p q = Raise e <-> e = EMachineInvalidAxis /\ exists a, has q a /\ ~ has p a.
Proof. intros. apply sub_error. Qed.
Print Assumptions C35_sub_mismatch.
Theorem C35_mul : forall (ar : Arith) (p : position) (s : Qc), good p ->
  good (pos_mul p s) /\ punit (pos_mul p s) = punit p /\
  forall a, (has (pos_mul p s) a <-> has p a) /\ forall x, pos_getattr p a = Ok x -> pos_getattr (pos_mul p s) a = Ok (rnd (x * s)%Qc).
Proof.
  intros ar p s G. destruct (mul_spec p s G) as (A & B & C & D). split; auto. split; auto. intros a. split; [unfold has; rewrite B; tauto|].
  intros x X. apply getattr_ok in X as [X ->]. apply getattr_ok. split; [unfold has in *; rewrite B; auto|]. rewrite D; auto.
Qed.
Print Assumptions C35_mul.
Theorem C35_div : forall (ar : Arith) (p : position) (s : Qc), good p -> (exists a, has p a) ->
  (pos_div p s = Raise EZeroDivisionError <-> s = Q2Qc 0) /\
  (s <> Q2Qc 0 -> exists r, pos_div p s = Ok r /\ good r /\ punit r = punit p /\
     forall a, (has r a <-> has p a) /\ forall x, pos_getattr p a = Ok x -> pos_getattr r a = Ok (rnd (x / s)%Qc)).
Proof.
  intros ar p s G E. split; [rewrite div_error by auto; intuition auto|]. intros N.
  destruct (pos_div p s) as [d|e] eqn:D; [|apply div_error in D as (_ & S & _); auto; contradiction].
  exists d. split; auto. apply div_spec in D as (_ & A & B & C & H); auto. split; auto. split; auto. intros a. split; [unfold has; rewrite B; tauto|].
  intros x X. apply getattr_ok in X as [X ->]. apply getattr_ok. split; [unfold has in *; rewrite B; auto|]. rewrite H; auto.
Qed.
Print Assumptions C35_div.
(** algebra, in exact arithmetic *)
Theorem C35_sub_add : forall (p q r : position), good p -> good q -> pos_add (ar := exact_arith) p q = Ok r -> pos_sub (ar := exact_arith) r q = Ok p.
Proof.
  intros p q r Gp Gq H. apply add_spec in H as (A & Gr & Ar & U & H); auto. apply sub_spec; auto. split; [intros a; unfold has; rewrite Ar, A; auto|]. split; auto. split; auto. split; auto.
  intros a Ha. assert (Hp : has p a) by (unfold has in *; rewrite <- Ar; auto). split.
  - intros _. rewrite (H a Hp). unfold fsub, fadd. cbn [rnd exact_arith]. ring.
  - intros N. exfalso. apply N. unfold has in *. rewrite <- A. auto.
Qed.
Print Assumptions C35_sub_add.
(** commutative in any arithmetic (the units must agree: the result takes that of the left operand) *)
Theorem C35_add_comm : forall (ar : Arith) (p q : position), good p -> good q -> punit p = punit q -> pos_add p q = pos_add q p.
Proof.
  intros ar p q Gp Gq U. destruct (pos_add p q) as [r|e] eqn:E; symmetry.
  - apply add_spec in E as (A & Gr & Ar & Ur & H); auto. apply add_spec; auto. split; auto. split; auto. split; [congruence|]. split; [congruence|].
    intros a Ha. rewrite H by (unfold has in *; rewrite A; auto). unfold fadd. f_equal. ring.
  - apply add_error in E as [-> N]. apply add_error. split; auto.
Qed.
Print Assumptions C35_add_comm.
Theorem C35_add_assoc : forall (p q s pq qs r : position), good p -> good q -> good s ->
  pos_add (ar := exact_arith) p q = Ok pq -> pos_add (ar := exact_arith) q s = Ok qs ->
  (pos_add (ar := exact_arith) pq s = Ok r <-> pos_add (ar := exact_arith) p qs = Ok r).
Proof.
  intros p q s pq qs r Gp Gq Gs H1 H2. apply add_spec in H1 as (A1 & G1 & B1 & U1 & V1); auto. apply add_spec in H2 as (A2 & G2 & B2 & U2 & V2); auto.
  rewrite !add_spec by auto. split; intros (A & Gr & B & U & V); (split; [congruence|]); (split; auto); (split; [congruence|]); (split; [congruence|]); intros a Ha.
  - rewrite V by (unfold has in *; rewrite B1; auto). rewrite V1 by auto. rewrite V2 by (unfold has in *; rewrite <- A1; auto). unfold fadd. cbn [rnd exact_arith]. ring.
  - assert (Hp : has p a) by (unfold has in *; rewrite <- B1; auto). rewrite V by auto. rewrite V1 by auto. rewrite V2 by (unfold has in *; rewrite <- A1; auto). unfold fadd. cbn [rnd exact_arith]. ring.
Qed.
Print Assumptions C35_add_assoc.
Theorem C35_div_mul : forall (p : position) (s : Qc), good p -> s <> Q2Qc 0 -> pos_div (ar := exact_arith) (pos_mul (ar := exact_arith) p s) s = Ok p.
Proof.
  intros p s G N. destruct (mul_spec (ar := exact_arith) p s G) as (A & B & C & D). apply div_spec; auto. split; auto. split; auto. split; auto. split; auto. intros a Ha.
  rewrite D by auto. unfold fdiv, fmul. cbn [rnd exact_arith]. field. exact N.
Qed.
Print Assumptions C35_div_mul.
(** with floats the algebra holds only approximately *)
Example C35_float : exists p q r r', good p /\ good q /\ (forall a, float (ar := binary64) (pval p a) /\ float (ar := binary64) (pval q a)) /\
  pos_add (ar := binary64) p q = Ok r /\ pos_sub (ar := binary64) r q = Ok r' /\ r' <> p.
Proof.
  exists (P [(AX, rnd64 (q1 1 10))]), (P [(AX, rnd64 (q1 1 5))]). do 2 eexists. split; [apply P_good; intros a x [H|[]]; injection H as <- <-; reflexivity|].
  split; [apply P_good; intros a x [H|[]]; injection H as <- <-; reflexivity|].
  split; [intros a; destruct a; split; apply Qc_is_canon; vm_compute; reflexivity|]. split; [reflexivity|]. split; [reflexivity|].
  intros H. apply (f_equal (fun p => Qceqb (pval p AX) (rnd64 (q1 1 10)))) in H. vm_compute in H. discriminate.
Qed.
Lemma P_xy x y : good (P [(AX, x); (AY, y)]).
Proof. apply P_good. intros a v [H|[H|[]]]; injection H as <- <-; reflexivity. Qed.
Lemma P2_xy u x y : good (mk_position xy_axes u [(AX, x); (AY, y)]).
Proof. apply mk_position_good. intros a v [H|[H|[]]]; injection H as <- <-; reflexivity. Qed.
Example C35_ex : exists r, pos_add (ar := binary64) (P [(AX, q1 3 2); (AY, q1 (-7) 1)]) (P [(AX, q1 1 4); (AY, q1 2 1)]) = Ok r /\ good r /\
  map (fun a => match pos_getattr r a with Ok x => Some (this x) | _ => None end) all_axes = [Some (7 # 4)%Q; Some (-5 # 1)%Q; Some 0%Q; None; None; None; None; None; None].
Proof.
  destruct (pos_add (ar := binary64) (P [(AX, q1 3 2); (AY, q1 (-7) 1)]) (P [(AX, q1 1 4); (AY, q1 2 1)])) as [r|] eqn:E; [|vm_compute in E; discriminate].
  exists r. split; auto. assert (G : good r) by (apply (proj1 (C35_add binary64 _ _ _ (P_xy _ _) (P_xy _ _)) E)). split; auto. injection E as <-. vm_compute. reflexivity.
Qed.
Example C35_ex_mismatch : pos_add (ar := binary64) (P []) (mk_position xy_axes UNIT_METRIC []) = Raise EMachineInvalidAxis /\
  pos_sub (ar := binary64) (mk_position xy_axes UNIT_METRIC []) (P []) = Raise EMachineInvalidAxis /\
  (exists r, pos_sub (ar := binary64) (P []) (mk_position xy_axes UNIT_METRIC []) = Ok r) /\ pos_div (ar := binary64) (P []) (q1 0 1) = Raise EZeroDivisionError.
Proof. repeat split; try (vm_compute; reflexivity). eexists. vm_compute. reflexivity. Qed.

(** ** C36 Unit conversion is reversible and consistent *)
Lemma mm_inj u x y : mm u x = mm u y -> x = y.
Proof.
  unfold mm. destruct (Z.eqb u UNIT_IMPERIAL); auto. intros H. apply (f_equal (fun v => (v / frac 254 10)%Qc)) in H.
  assert (N : frac 254 10 <> Q2Qc 0) by discriminate. transitivity (x * frac 254 10 / frac 254 10)%Qc; [field; auto|]. rewrite H. field. auto.
Qed.
Definition set_factor (u v : Z) : Qc := if Z.eqb u v then Q2Qc 1 else if Z.eqb v UNIT_METRIC then frac 254 10 else (Q2Qc 1 / frac 254 10)%Qc.
Lemma setter_exact p u r : good p -> known_unit (punit p) -> known_unit u -> unit_setter (ar := exact_arith) p u = Ok r ->
  good r /\ paxes r = paxes p /\ punit r = u /\ forall a, has p a -> mm u (pval r a) = mm (punit p) (pval p a).
Proof.
  intros G Kp Ku H. apply setter_spec in H as (A & B & C & D); auto. split; auto. split; auto. split; auto. intros a Ha. rewrite D by auto.
  assert (N : frac 254 10 <> Q2Qc 0) by discriminate. assert (I : (UNIT_IMPERIAL =? UNIT_METRIC) = false) by (vm_compute; reflexivity). assert (M : (UNIT_METRIC =? UNIT_IMPERIAL) = false) by (vm_compute; reflexivity).
  destruct Kp as [Kp|Kp], Ku as [Ku|Ku]; rewrite Kp; subst u; unfold mm; rewrite ?Z.eqb_refl, ?I, ?M; auto.
  unfold fmul, fdiv, flit. cbn [rnd exact_arith]. field. auto.
Qed.
(** What the setter function of the property would do: no assignment runs it (C36_refuted), it can only be called
    by name. The new coordinates: times 25.4 to millimetres, divided by 25.4 to inches, the same length in any case *)
Theorem C36_setter_partial : forall (p : position) (u : Z), good p -> known_unit (punit p) -> known_unit u ->
  exists r, unit_setter (ar := exact_arith) p u = Ok r /\ good r /\ punit r = u /\ same_place p r /\
    forall a x, pos_getattr p a = Ok x ->
      pos_getattr r a = Ok (if Z.eqb u (punit p) then x else if Z.eqb u UNIT_METRIC then x * frac 254 10 else x / frac 254 10)%Qc.
Proof.
  intros p u G Kp Ku. destruct (setter_total (ar := exact_arith) p u G Kp Ku) as (r & E). exists r. split; auto.
  destruct (setter_exact p u r G Kp Ku E) as (A & B & C & D). split; auto. split; auto. split.
  - split; [intros a; unfold has; rewrite B; tauto|]. intros a x y X Y. apply getattr_ok in X as [X ->]. apply getattr_ok in Y as [Y ->]. rewrite C. symmetry. auto.
  - apply setter_spec in E as (_ & _ & _ & V); auto. intros a x X. apply getattr_ok in X as [X ->]. apply getattr_ok. split; [unfold has in *; rewrite B; auto|]. rewrite V by auto.
    destruct (Z.eqb u (punit p)); auto.
Qed.
Print Assumptions C36_setter_partial.
Theorem C36_setter_roundtrip_partial : forall (p r : position) (u : Z), good p -> known_unit (punit p) -> known_unit u ->
  unit_setter (ar := exact_arith) p u = Ok r -> unit_setter (ar := exact_arith) r (punit p) = Ok p.
Proof.
  intros p r u G Kp Ku E. destruct (setter_exact p u r G Kp Ku E) as (A & B & C & D). assert (Kr : known_unit (punit r)) by (rewrite C; auto).
  destruct (setter_total (ar := exact_arith) r (punit p) A Kr Kp) as (p' & E'). destruct (setter_exact r (punit p) p' A Kr Kp E') as (A' & B' & C' & D').
  rewrite E'. f_equal. apply pos_ext; auto; [congruence|]. intros a Ha. assert (Hp : has p a) by (unfold has in *; rewrite <- B, <- B'; auto).
  assert (Hr : has r a) by (unfold has in *; rewrite B; auto). apply (mm_inj (punit p)). rewrite (D' a Hr), C, (D a Hp). auto.
Qed.
Print Assumptions C36_setter_roundtrip_partial.
(** == compares the numbers, whatever the units *)
Definition same_numbers (p q : position) : Prop :=
  (forall a, has p a <-> has q a) /\ forall a x y, pos_getattr p a = Ok x -> pos_getattr q a = Ok y -> x = y.
Theorem C36_equality_partial : forall (p q : position), good p -> good q ->
  exists b, pos_eqb p q = Ok b /\ (b = true <-> same_numbers p q).
Proof.
  intros p q Gp Gq. exists (axset_eqb (paxes p) (paxes q) && vals_eqb (pvals p) (pvals q)). split.
  - unfold pos_eqb, pos_set_unit. destruct (axset_eqb (paxes p) (paxes q)); cbn [negb andb]; auto. destruct (punit p =? punit q); auto.
  - rewrite andb_true_iff. split.
    + intros [A H]. apply axset_eqb_eq in A. rewrite vals_eqb_spec in H by auto. split; [intros a; unfold has; rewrite A; tauto|].
      intros a x y X Y. apply getattr_ok in X as [X ->]. apply getattr_ok in Y as [Y ->]. auto.
    + intros [A H]. assert (E : paxes p = paxes q).
      { apply v9_ext. intros a. specialize (A a). unfold has in A. destruct (vget (paxes p) a), (vget (paxes q) a); intuition congruence. }
      split; [destruct (axset_eqb (paxes p) (paxes q)) eqn:B; auto; apply axset_eqb_neq in B; contradiction|].
      rewrite vals_eqb_spec by auto. intros a Ha. apply (H a); apply getattr_ok; split; auto. apply A; auto.
Qed.
Print Assumptions C36_equality_partial.
Theorem C36_symmetric_partial : forall (p q : position), good p -> good q -> pos_eqb p q = pos_eqb q p.
Proof.
  intros p q Gp Gq. destruct (C36_equality_partial p q Gp Gq) as (b & -> & B). destruct (C36_equality_partial q p Gq Gp) as (c & -> & C).
  assert (S : same_numbers p q <-> same_numbers q p). { split; intros [H1 H2]; (split; [intros a; specialize (H1 a); tauto|]); intros a x y X Y; symmetry; eapply H2; eauto. }
  f_equal. destruct b, c; auto; intuition congruence.
Qed.
Print Assumptions C36_symmetric_partial.
(** ... so it means "same place" between positions in the same unit, and otherwise only when all is zero *)
Theorem C36_same_place_partial : forall (p q : position), good p -> good q -> known_unit (punit p) -> known_unit (punit q) ->
  (punit p = punit q -> (pos_eqb p q = Ok true <-> same_place p q)) /\
  (punit p <> punit q -> same_place p q -> pos_eqb p q = Ok true -> forall a x, pos_getattr p a = Ok x -> x = Q2Qc 0).
Proof.
  intros p q Gp Gq Kp Kq. destruct (C36_equality_partial p q Gp Gq) as (b & E & B). rewrite E. split.
  - intros U. assert (S : same_numbers p q <-> same_place p q).
    { unfold same_numbers, same_place. rewrite U. split; intros [A H]; (split; [auto|]); intros a x y X Y; [f_equal; eauto|apply (mm_inj (punit q)); eauto]. }
    rewrite <- S, <- B. split; [intros H; injection H; auto|congruence].
  - intros U [A S] H a x X. injection H as H. apply B in H as [_ H]. apply getattr_ok in X as [X V]. assert (Y : has q a) by (apply A; auto).
    pose proof (S a x (pval q a)) as S1. pose proof (H a x (pval q a)) as H1.
    assert (X' : pos_getattr p a = Ok x) by (apply getattr_ok; auto). assert (Y' : pos_getattr q a = Ok (pval q a)) by (apply getattr_ok; auto).
    specialize (S1 X' Y'). specialize (H1 X' Y'). rewrite <- H1 in S1. clear - S1 U Kp Kq.
    assert (I : (UNIT_METRIC =? UNIT_IMPERIAL) = false) by (vm_compute; reflexivity).
    assert (K : (x * (frac 254 10 - 1) = 0)%Qc -> x = 0%Qc). { intros H. apply Qcmult_integral in H as [H|H]; auto. discriminate H. }
    unfold mm in S1. destruct Kp as [Kp|Kp], Kq as [Kq|Kq]; rewrite Kp, Kq, ?Z.eqb_refl, ?I in S1; try congruence; apply K.
    + transitivity (x * frac 254 10 - x)%Qc; [ring|]. rewrite S1. ring.
    + transitivity (x * frac 254 10 - x)%Qc; [ring|]. rewrite <- S1. ring.
Qed.
Print Assumptions C36_same_place_partial.
(** with floats, a position converted and converted back stays within 2^-37 of itself, relatively *)
Definition near (x y : Qc) : Prop := (Qabs (x - y)%Qc <= Qabs y / (2 ^ 37))%Q.
Lemma accurate_rel (ar : Arith) (x : Qc) : accurate ar -> (1 # 1000000000 <= Qabs x)%Q -> exists d : Q, (Qabs d <= 1 # 1099511627776)%Q /\ (rnd x == x * (1 + d))%Q.
Proof.
  intros [_ acc] H. specialize (acc x H). assert (N : ~ (x == 0)%Q) by (intros E; rewrite E in H; vm_compute in H; apply H; reflexivity).
  exists ((rnd x - x) / x)%Q. split; [|field; auto]. unfold Qdiv. rewrite Qabs_Qmult, Qabs_Qinv.
  assert (A : (Qabs (rnd x - x) <= Qabs x * (1 # 1099511627776))%Q).
  { change (Qabs x * (1 # 1099511627776))%Q with (Qabs x / (2 ^ 40))%Q. eapply Qle_trans; [|exact acc]. apply Qle_lteq. right. apply Qabs_wd. unfold Qcminus, Qcplus, Qcopp, Q2Qc. cbn [this]. rewrite Qred_correct, Qred_correct. reflexivity. }
  assert (P0 : (0 < Qabs x)%Q) by (eapply Qlt_le_trans; [|exact H]; reflexivity).
  apply Qle_shift_div_r; auto. rewrite Qmult_comm. exact A.
Qed.
Lemma Qabs_between d e : (Qabs d <= e)%Q -> (- e <= d <= e)%Q. Proof. apply Qabs_Qle_condition. Qed.
Lemma prod_small a b e : (Qabs a <= e)%Q -> (Qabs b <= 1)%Q -> (Qabs (a * b) <= e)%Q.
Proof.
  intros A B. rewrite Qabs_Qmult. apply Qle_trans with (Qabs a * 1)%Q; [|rewrite Qmult_1_r; auto].
  rewrite !(Qmult_comm (Qabs a)). apply Qmult_le_compat_r; auto. apply Qabs_nonneg.
Qed.
Lemma three_roundings (ar : Arith) (x f g : Qc) : accurate ar -> (1 # 1000000 <= Qabs x)%Q -> (1 # 100 <= Qabs f)%Q -> (1 # 100 <= Qabs g)%Q ->
  (Qabs (f * g - 1) <= 1 # 1099511627776)%Q -> near (rnd (rnd (x * f) * g)%Qc) x.
Proof.
  intros acc X F G FG. destruct (accurate_rel ar (x * f)%Qc acc) as (d1 & D1 & E1).
  { unfold Qcmult, Q2Qc. cbn [this]. rewrite Qred_correct, Qabs_Qmult. apply Qle_trans with ((1 # 1000000) * (1 # 100))%Q; [discriminate|].
    apply Qle_trans with (Qabs x * (1 # 100))%Q; [apply Qmult_le_compat_r; auto; discriminate|]. rewrite !(Qmult_comm (Qabs x)). apply Qmult_le_compat_r; auto. apply Qabs_nonneg. }
  set (a := rnd (x * f)%Qc) in *. assert (Ea : (a == x * f * (1 + d1))%Q).
  { rewrite E1. unfold Qcmult, Q2Qc. cbn [this]. rewrite Qred_correct. reflexivity. }
  assert (Ha : (1 # 200000000 <= Qabs a)%Q).
  { rewrite Ea, !Qabs_Qmult. pose proof (Qabs_between _ _ D1) as B1. assert (H1 : (1 # 2 <= Qabs (1 + d1))%Q) by (rewrite Qabs_pos; lra).
    apply Qle_trans with (((1 # 1000000) * (1 # 100)) * (1 # 2))%Q; [discriminate|].
    apply Qle_trans with (Qabs x * Qabs f * (1 # 2))%Q.
    - apply Qmult_le_compat_r; [|discriminate]. apply Qle_trans with (Qabs x * (1 # 100))%Q; [apply Qmult_le_compat_r; auto; discriminate|]. rewrite !(Qmult_comm (Qabs x)). apply Qmult_le_compat_r; auto. apply Qabs_nonneg.
    - rewrite !(Qmult_comm (Qabs x * Qabs f)). apply Qmult_le_compat_r; auto. rewrite <- Qabs_Qmult. apply Qabs_nonneg. }
  assert (FG2 : (Qabs (f * g) >= 1 # 2)%Q) by (apply Qabs_between in FG; rewrite Qabs_pos; lra).
  destruct (accurate_rel ar (a * g)%Qc acc) as (d2 & D2 & E2).
  { unfold Qcmult, Q2Qc. cbn [this]. rewrite Qred_correct, Ea. setoid_replace (x * f * (1 + d1) * g)%Q with (x * ((f * g) * (1 + d1)))%Q by ring. rewrite !Qabs_Qmult.
    pose proof (Qabs_between _ _ D1) as B1. assert (H1 : (1 # 2 <= Qabs (1 + d1))%Q) by (rewrite Qabs_pos; lra). rewrite Qabs_Qmult in FG2.
    apply Qle_trans with ((1 # 1000000) * ((1 # 2) * (1 # 2)))%Q; [discriminate|].
    assert (H2 : ((1 # 2) * (1 # 2) <= Qabs f * Qabs g * Qabs (1 + d1))%Q).
    { apply Qle_trans with (Qabs f * Qabs g * (1 # 2))%Q; [apply Qmult_le_compat_r; auto; discriminate|]. rewrite !(Qmult_comm (Qabs f * Qabs g)). apply Qmult_le_compat_r; auto. rewrite <- Qabs_Qmult. apply Qabs_nonneg. }
    apply Qle_trans with (Qabs x * ((1 # 2) * (1 # 2)))%Q; [apply Qmult_le_compat_r; auto; discriminate|]. rewrite !(Qmult_comm (Qabs x)). apply Qmult_le_compat_r; auto. apply Qabs_nonneg. }
  unfold near. set (r := rnd (a * g)%Qc) in *. assert (Er : (r == a * g * (1 + d2))%Q).
  { rewrite E2. unfold Qcmult, Q2Qc. cbn [this]. rewrite Qred_correct. reflexivity. }
  set (d3 := (f * g - 1)%Q) in *.
  assert (K : ((r - x)%Qc == x * (d1 + d2 + d3 + d1 * d2 + d1 * d3 + d2 * d3 + d1 * d2 * d3))%Q).
  { unfold Qcminus, Qcplus, Qcopp, Q2Qc. cbn [this]. rewrite !Qred_correct, Er, Ea. unfold d3. ring. }
  rewrite K, Qabs_Qmult. unfold Qdiv. rewrite !(Qmult_comm (Qabs x)). apply Qmult_le_compat_r; [|apply Qabs_nonneg].
  assert (O : forall d, (Qabs d <= 1 # 1099511627776)%Q -> (Qabs d <= 1)%Q) by (intros d H; eapply Qle_trans; [exact H|discriminate]).
  pose proof (prod_small d1 d2 _ D1 (O _ D2)) as M1. pose proof (prod_small d1 d3 _ D1 (O _ FG)) as M2. pose proof (prod_small d2 d3 _ D2 (O _ FG)) as M3. pose proof (prod_small (d1 * d2) d3 _ M1 (O _ FG)) as M4.
  apply Qabs_Qle_condition. change (/ 2 ^ 37)%Q with (1 # 137438953472). apply Qabs_between in D1, D2, FG, M1, M2, M3, M4. lra.
Qed.
Lemma factor_bounds (ar : Arith) : accurate ar -> let f := flit 254 10 in let g := fdiv (Q2Qc 1) f in
  (1 # 100 <= Qabs f)%Q /\ (1 # 100 <= Qabs g)%Q /\ (Qabs (f * g - 1) <= 1 # 1099511627776)%Q.
Proof.
  intros acc. cbv zeta. unfold flit, fdiv. destruct (accurate_rel ar (frac 254 10) acc) as (d & D & E); [discriminate|]. set (f := rnd (frac 254 10)) in *.
  change (this (frac 254 10)) with (127 # 5)%Q in E. assert (Bf : (25 <= f /\ f <= 26)%Q) by (apply Qabs_between in D; rewrite E; split; lra).
  assert (N : ~ (f == 0)%Q) by (intros Z; rewrite Z in Bf; destruct Bf as [Bf _]; apply Bf; reflexivity).
  assert (V : (this (Q2Qc 1 / f)%Qc == / f)%Q). { unfold Qcdiv, Qcmult, Qcinv, Q2Qc. cbn [this]. rewrite !Qred_correct. ring. }
  assert (Ib : (1 # 26 <= / f)%Q) by (apply Qle_shift_inv_l; [lra|]; lra).
  destruct (accurate_rel ar (Q2Qc 1 / f)%Qc acc) as (d' & D' & E'). { rewrite V, Qabs_pos by lra. lra. }
  set (g := rnd (Q2Qc 1 / f)%Qc) in *. rewrite V in E'. assert (FG : (f * g - 1 == d')%Q) by (rewrite E'; field; auto).
  split; [rewrite Qabs_pos; lra|]. split; [|rewrite FG; auto].
  apply Qabs_between in D'. assert (H : (1 # 100 <= g)%Q); [|rewrite Qabs_pos; lra]. rewrite E'.
  apply Qle_trans with ((1 # 26) * (1 # 2))%Q; [discriminate|]. apply Qle_trans with (/ f * (1 # 2))%Q; [apply Qmult_le_compat_r; auto; discriminate|].
  rewrite !(Qmult_comm (/ f)). apply Qmult_le_compat_r; lra.
Qed.
Theorem C36_setter_float_partial : forall (ar : Arith) (p r p' : position) (u : Z) (a : axis) (x : Qc), accurate ar -> good p -> known_unit (punit p) -> known_unit u ->
  unit_setter p u = Ok r -> unit_setter r (punit p) = Ok p' ->
  pos_getattr p a = Ok x -> (1 # 1000000 <= Qabs x)%Q -> exists x', pos_getattr p' a = Ok x' /\ near x' x.
Proof.
  intros ar p r p' u a x acc G Kp Ku E E' X B. apply getattr_ok in X as [X ->].
  apply setter_spec in E as (Gr & Ar & Ur & V); auto. assert (Kr : known_unit (punit r)) by (rewrite Ur; auto). apply setter_spec in E' as (Gp' & Ap' & Up' & V'); auto.
  assert (Hr : has r a) by (unfold has in *; rewrite Ar; auto). exists (pval p' a). split; [apply getattr_ok; split; auto; unfold has in *; rewrite Ap'; auto|].
  rewrite V' by auto. rewrite (V a X), Ur. destruct (factor_bounds ar acc) as (F & H & FG). assert (GF : (Qabs (fdiv (Q2Qc 1) (flit 254 10) * flit 254 10 - 1) <= 1 # 1099511627776)%Q) by (rewrite Qmult_comm; auto).
  assert (I : (UNIT_IMPERIAL =? UNIT_METRIC) = false) by (vm_compute; reflexivity). assert (M : (UNIT_METRIC =? UNIT_IMPERIAL) = false) by (vm_compute; reflexivity).
  assert (Same : near (pval p a) (pval p a)).
  { unfold near. setoid_replace (this (pval p a - pval p a)%Qc) with 0%Q by (unfold Qcminus, Qcplus, Qcopp, Q2Qc; cbn [this]; rewrite !Qred_correct; ring). apply Qmult_le_0_compat; [apply Qabs_nonneg|discriminate]. }
  destruct Kp as [Kp|Kp], Ku as [Ku|Ku]; rewrite Kp; subst u; rewrite ?Ku, ?Z.eqb_refl, ?I, ?M; auto; unfold fmul; apply three_roundings; auto.
Qed.
Print Assumptions C36_setter_float_partial.
(** ... but it is not the same position: one inch does not survive *)
Definition inch1 : position := mk_position xyz_axes UNIT_IMPERIAL [(AX, q1 1 1)].
Lemma inch1_good : good inch1. Proof. apply mk_position_good. intros a x [H|[]]; injection H as <- <-; reflexivity. Qed.
Theorem C36_setter_refuted : exists p r p', good p /\ punit p = UNIT_IMPERIAL /\ (forall a, float (ar := binary64) (pval p a)) /\
  unit_setter (ar := binary64) p UNIT_METRIC = Ok r /\ unit_setter (ar := binary64) r UNIT_IMPERIAL = Ok p' /\ p' <> p.
Proof.
  exists inch1. do 2 eexists. split; [apply inch1_good|]. split; [reflexivity|]. split; [intros a; destruct a; apply Qc_is_canon; vm_compute; reflexivity|].
  split; [reflexivity|]. split; [reflexivity|].
  intros H. apply (f_equal (fun p => Qceqb (pval p AX) (q1 1 1))) in H. vm_compute in H. discriminate.
Qed.
Print Assumptions C36_setter_refuted.
(** assigning [p.unit] does nothing: one inch, told to be in millimetres, is still one inch. One inch is not equal to
    25.4 millimetres, even in exact arithmetic, and is equal to one millimetre. *)
Definition mm_x (x : Qc) : position := mk_position xyz_axes UNIT_METRIC [(AX, x)].
Lemma mm_x_good x : good (mm_x x). Proof. apply mk_position_good. intros a y [H|[]]; injection H as <- <-; reflexivity. Qed.
Theorem C36_refuted :
  (exists p, good p /\ punit p = UNIT_IMPERIAL /\ punit (pos_set_unit p UNIT_METRIC) = UNIT_IMPERIAL /\ exists x, pos_getattr (pos_set_unit p UNIT_METRIC) AX = Ok x /\ this x = 1%Q) /\
  (exists p q, good p /\ good q /\ same_place p q /\ pos_eqb p q = Ok false /\ pos_eqb q p = Ok false) /\
  (exists p q, good p /\ good q /\ ~ same_place p q /\ pos_eqb p q = Ok true).
Proof.
  split; [|split].
  - exists inch1. split; [apply inch1_good|]. split; [reflexivity|]. split; [reflexivity|]. eexists. split; reflexivity.
  - exists inch1, (mm_x (frac 254 10)). split; [apply inch1_good|]. split; [apply mm_x_good|]. split; [|split; vm_compute; reflexivity].
    split; [intros a; reflexivity|]. intros a x y X Y. destruct a; try discriminate X; vm_compute in X, Y; injection X as <-; injection Y as <-; apply Qceqb_eq; vm_compute; reflexivity.
  - exists inch1, (mm_x (q1 1 1)). split; [apply inch1_good|]. split; [apply mm_x_good|]. split; [|vm_compute; reflexivity].
    intros [_ H]. specialize (H AX _ _ eq_refl eq_refl). apply (f_equal this) in H. vm_compute in H. discriminate H.
Qed.
Print Assumptions C36_refuted.
Example C36_ex : exists r, unit_setter (ar := exact_arith) inch1 UNIT_METRIC = Ok r /\ map (fun a => this (pval r a)) [AX; AY; AZ] = [127 # 5; 0; 0]%Q /\
  unit_setter (ar := exact_arith) r UNIT_IMPERIAL = Ok inch1 /\ pos_eqb inch1 r = Ok false.
Proof.
  destruct (C36_setter_partial inch1 UNIT_METRIC inch1_good (or_introl eq_refl) (or_intror eq_refl)) as (r & E & _). exists r. split; auto.
  split; [injection E as <-; vm_compute; reflexivity|].
  split; [apply (C36_setter_roundtrip_partial inch1 r UNIT_METRIC inch1_good); auto; [left|right]; reflexivity|].
  injection E as <-. vm_compute. reflexivity.
Qed.
Example C36_ex_same_unit : pos_eqb (mm_x (q1 5 2)) (mm_x (q1 5 2)) = Ok true /\ pos_eqb (mm_x (q1 5 2)) (mm_x (q1 5 4)) = Ok false /\ same_place (mm_x (q1 5 2)) (mm_x (q1 5 2)).
Proof. split; [vm_compute; reflexivity|]. split; [vm_compute; reflexivity|]. split; [intros a; reflexivity|]. intros a x y X Y. congruence. Qed.
Example C36_ex_float : exists r p' x', unit_setter (ar := binary64) inch1 UNIT_METRIC = Ok r /\ unit_setter (ar := binary64) r (punit inch1) = Ok p' /\ pos_getattr p' AX = Ok x' /\ near x' (q1 1 1).
Proof.
  destruct (setter_total (ar := binary64) inch1 UNIT_METRIC inch1_good) as (r & E); [left; reflexivity|right; reflexivity|].
  assert (Gr : good r) by (apply setter_spec in E as (A & _); auto using inch1_good; [left|right]; reflexivity).
  assert (Ur : punit r = UNIT_METRIC) by (apply setter_spec in E as (_ & _ & A & _); auto using inch1_good; [left|right]; reflexivity).
  destruct (setter_total (ar := binary64) r (punit inch1) Gr) as (p' & E'); [right; auto|left; reflexivity|]. exists r, p'.
  destruct (C36_setter_float_partial binary64 inch1 r p' UNIT_METRIC AX (q1 1 1) binary64_accurate inch1_good (or_introl eq_refl) (or_intror eq_refl) E E') as (x' & A & B); [reflexivity|discriminate|]. exists x'. auto.
Qed.

(** ** C37 Arithmetic on positions with different units is physically meaningful *)
(** true when the units agree *)
Theorem C37_same_unit_partial : forall (p q r : position) (a : axis) (x y z : Qc), good p -> good q -> punit p = punit q ->
  pos_getattr p a = Ok x -> pos_getattr q a = Ok y -> pos_getattr r a = Ok z ->
  (pos_add (ar := exact_arith) p q = Ok r -> mm (punit r) z = (mm (punit p) x + mm (punit q) y)%Qc) /\
  (pos_sub (ar := exact_arith) p q = Ok r -> mm (punit r) z = (mm (punit p) x - mm (punit q) y)%Qc).
Proof.
  intros p q r a x y z Gp Gq U X Y Z. apply getattr_ok in X as [X ->]. apply getattr_ok in Y as [Y ->]. apply getattr_ok in Z as [Z ->]. split; intros E.
  - apply add_spec in E as (_ & _ & _ & Ur & V); auto. rewrite V, Ur, <- U by auto. unfold mm, fadd. cbn [rnd exact_arith]. destruct (Z.eqb (punit p) UNIT_IMPERIAL); ring.
  - apply sub_spec in E as (_ & _ & _ & Ur & V); auto. destruct (V a X) as [V1 _]. rewrite V1, Ur, <- U by auto. unfold mm, fsub. cbn [rnd exact_arith]. destruct (Z.eqb (punit p) UNIT_IMPERIAL); ring.
Qed.
Print Assumptions C37_same_unit_partial.
(** and exactly then, unless the second operand is at zero *)
Theorem C37_iff_partial : forall (p q r : position) (a : axis) (x y z : Qc), good p -> good q -> known_unit (punit p) -> known_unit (punit q) ->
  pos_getattr p a = Ok x -> pos_getattr q a = Ok y -> pos_getattr r a = Ok z ->
  pos_add (ar := exact_arith) p q = Ok r -> (mm (punit r) z = (mm (punit p) x + mm (punit q) y)%Qc <-> punit p = punit q \/ y = Q2Qc 0).
Proof.
  intros p q r a x y z Gp Gq Kp Kq X Y Z E. assert (I : (UNIT_METRIC =? UNIT_IMPERIAL) = false) by (vm_compute; reflexivity).
  pose proof E as E'. apply add_spec in E' as (_ & _ & _ & Ur & V); auto. apply getattr_ok in Z as [Z ->]. apply getattr_ok in X as [X ->]. apply getattr_ok in Y as [Y ->]. rewrite V, Ur by auto. clear E V.
  unfold mm, fadd. cbn [rnd exact_arith]. set (f := frac 254 10). assert (Nf : (f - 1)%Qc <> 0%Qc) by discriminate.
  assert (K : forall y : Qc, (y * (f - 1) = 0)%Qc -> y = 0%Qc). { intros v H. apply Qcmult_integral in H as [H|H]; auto. contradiction. }
  destruct Kp as [Kp|Kp], Kq as [Kq|Kq]; rewrite Kp, Kq, ?Z.eqb_refl, ?I.
  - split; auto. intros _. ring.
  - split; [|intros [H|H]; [exfalso; revert H; vm_compute; discriminate|rewrite H; change (Q2Qc 0) with 0%Qc; ring]].
    intros H. right. apply K. transitivity ((pval p a + pval q a) * f - (pval p a * f + pval q a))%Qc; [ring|]. rewrite H. ring.
  - split; [|intros [H|H]; [exfalso; revert H; vm_compute; discriminate|rewrite H; change (Q2Qc 0) with 0%Qc; ring]].
    intros H. right. apply K. transitivity ((pval p a + pval q a * f) - (pval p a + pval q a))%Qc; [ring|]. rewrite H. ring.
  - split; auto.
Qed.
Print Assumptions C37_iff_partial.
(** one inch plus one millimetre is two inches *)
Theorem C37_refuted : exists r, pos_add (ar := binary64) inch1 (P [(AX, q1 1 1)]) = Ok r /\ punit r = UNIT_IMPERIAL /\ option_map this (vget (pvals r) AX) = Some (2 # 1)%Q.
Proof. eexists. split; [reflexivity|]. split; [reflexivity|]. vm_compute. reflexivity. Qed.
Print Assumptions C37_refuted.
Example C37_ex : exists r, pos_add (ar := exact_arith) (P [(AX, q1 3 2)]) (P [(AX, q1 1 4)]) = Ok r /\ pos_getattr r AX = Ok (Q2Qc (Qplus (3 # 2) (1 # 4))).
Proof. eexists. split; [reflexivity|]. vm_compute. reflexivity. Qed.

(** ** C38 Position.min / max give the per-axis bounds *)
Lemma cmp_numbers key p q : good p -> good q -> (forall a, has p a -> has q a) ->
  exists r, pos_cmp key p q = Ok r /\ punit r = punit p /\ (forall a, has r a) /\
    (forall a x y, pos_getattr p a = Ok x -> pos_getattr q a = Ok y -> pos_getattr r a = Ok (key x y)) /\
    (forall a, ~ has p a -> pos_getattr r a = Ok (Q2Qc 0)).
Proof.
  intros Gp Gq S. destruct (cmp_spec key p q Gp Gq S) as (r & R & Gr & Ar & Ur & V). exists r. split; auto. split; auto.
  assert (F : forall a, has r a) by (intros a; unfold has; rewrite Ar; unfold full_axes; apply vget_vfun). split; auto. split.
  - intros a x y X Y. apply getattr_ok in X as [X ->]. apply getattr_ok in Y as [Y ->]. apply getattr_ok. split; auto. rewrite V. unfold has in X. rewrite X. auto.
  - intros a N. apply getattr_ok. split; auto. rewrite V. unfold has in N. destruct (vget (paxes p) a); [congruence|auto].
Qed.
(** true when the units agree; missing: different units (C38_refuted), where the numbers are compared without conversion *)
Theorem C38_min_partial : forall (p q : position), good p -> good q -> punit p = punit q -> (forall a, has p a -> has q a) ->
  exists r, pos_min p q = Ok r /\ punit r = punit p /\
    forall a x y, pos_getattr p a = Ok x -> pos_getattr q a = Ok y ->
      exists z, pos_getattr r a = Ok z /\ (z <= x)%Qc /\ (z <= y)%Qc /\ (z = x \/ z = y).
Proof.
  intros p q Gp Gq _ S. destruct (cmp_numbers qmin p q Gp Gq S) as (r & E & U & _ & V & _). exists r. split; auto. split; auto. intros a x y X Y. exists (qmin x y). split; [auto|]. apply qmin_spec.
Qed.
Print Assumptions C38_min_partial.
Theorem C38_max_partial : forall (p q : position), good p -> good q -> punit p = punit q -> (forall a, has p a -> has q a) ->
  exists r, pos_max p q = Ok r /\ punit r = punit p /\
    forall a x y, pos_getattr p a = Ok x -> pos_getattr q a = Ok y ->
      exists z, pos_getattr r a = Ok z /\ (x <= z)%Qc /\ (y <= z)%Qc /\ (z = x \/ z = y).
Proof.
  intros p q Gp Gq _ S. destruct (cmp_numbers qmax p q Gp Gq S) as (r & E & U & _ & V & _). exists r. split; auto. split; auto. intros a x y X Y. exists (qmax x y). split; [auto|]. apply qmax_spec.
Qed.
Print Assumptions C38_max_partial.
(** in any units: the result has all nine axes, zero on those the first operand does not have; missing axes of the second operand are an AttributeError *)
Theorem C38_other_axes : forall (p q : position), good p -> good q ->
  ((forall a, has p a -> has q a) -> exists lo hi, pos_min p q = Ok lo /\ pos_max p q = Ok hi /\ forall a, has lo a /\ has hi a /\ (~ has p a -> pos_getattr lo a = Ok (Q2Qc 0) /\ pos_getattr hi a = Ok (Q2Qc 0))) /\
  (forall a, has p a -> ~ has q a -> pos_min p q = Raise EAttributeError /\ pos_max p q = Raise EAttributeError).
Proof.
  intros p q Gp Gq. split.
  - intros S. destruct (cmp_numbers qmin p q Gp Gq S) as (lo & E1 & _ & F1 & _ & V1). destruct (cmp_numbers qmax p q Gp Gq S) as (hi & E2 & _ & F2 & _ & V2). exists lo, hi. split; auto 10.
  - intros a Ha Na. assert (K : forall key, pos_cmp key p q = Raise EAttributeError); [|split; apply K]. intros key. unfold pos_cmp. rewrite same_unit. cbn zeta.
    match goal with |- (if ?b then _ else _) = _ => destruct b eqn:C; auto end. exfalso. rewrite vall_true in C. specialize (C a). rewrite (good_some p a) in C by auto.
    apply Na. unfold has. apply andb_true_iff in C as [_ C]. exact C.
Qed.
Print Assumptions C38_other_axes.
(** the smaller of one inch and two millimetres is one inch, the larger is two inches *)
Theorem C38_refuted : exists p q lo hi, good p /\ good q /\ punit p = UNIT_IMPERIAL /\ punit q = UNIT_METRIC /\
  pos_min p q = Ok lo /\ pos_max p q = Ok hi /\ punit lo = UNIT_IMPERIAL /\ punit hi = UNIT_IMPERIAL /\
  (mm (punit q) (pval q AX) < mm (punit lo) (pval lo AX))%Qc /\ (mm (punit p) (pval p AX) < mm (punit hi) (pval hi AX))%Qc /\ (mm (punit q) (pval q AX) < mm (punit hi) (pval hi AX))%Qc.
Proof.
  exists inch1, (mm_x (q1 2 1)). do 2 eexists. split; [apply inch1_good|]. split; [apply mm_x_good|]. split; [reflexivity|]. split; [reflexivity|].
  split; [reflexivity|]. split; [reflexivity|]. split; [reflexivity|]. split; [reflexivity|]. split; [|split]; apply Qcltb_lt; vm_compute; reflexivity.
Qed.
Print Assumptions C38_refuted.
Example C38_ex : exists lo hi, pos_min (P [(AX, q1 3 2); (AY, q1 (-7) 1)]) (P [(AX, q1 1 4)]) = Ok lo /\ pos_max (P [(AX, q1 3 2); (AY, q1 (-7) 1)]) (P [(AX, q1 1 4)]) = Ok hi /\
  map (fun a => this (pval lo a)) [AX; AY; AZ] = [1 # 4; -7 # 1; 0]%Q /\ map (fun a => this (pval hi a)) [AX; AY; AZ; AW] = [3 # 2; 0; 0; 0]%Q.
Proof. do 2 eexists. split; [reflexivity|]. split; [reflexivity|]. repeat split; vm_compute; reflexivity. Qed.

(** ** C39 Axis attributes are independent and guarded *)
Theorem C39_assign : forall (p : position) (a : axis) (x : Qc), good p ->
  (has p a -> exists p', pos_setattr p a x = Ok p' /\ good p' /\ punit p' = punit p /\ pos_getattr p' a = Ok x /\ forall b, b <> a -> pos_getattr p' b = pos_getattr p b) /\
  (~ has p a -> pos_setattr p a x = Raise EMachineInvalidAxis).
Proof.
  intros p a x G. split.
  - intros H. destruct (setattr_spec p a x G H) as (p' & E & G' & A & U & V). exists p'. split; auto. split; auto. split; auto. split.
    + apply getattr_ok. split; [unfold has in *; rewrite A; auto|]. rewrite V by auto. rewrite axis_eqb_refl. auto.
    + intros b Hb. unfold pos_getattr. rewrite A. destruct (has_dec p b) as [Hp|Hp].
      * pose proof Hp as Hp'. unfold has in Hp'. rewrite Hp', V by auto. rewrite axis_eqb_neq by auto. auto.
      * unfold has in Hp. destruct (vget (paxes p) b); [congruence|auto].
  - intros H. unfold pos_setattr. unfold has in H. destruct (vget (paxes p) a); [congruence|auto].
Qed.
Print Assumptions C39_assign.
(** any sequence of assignments: every axis holds the last value assigned to it, the others what they held *)
Theorem C39_sequence : forall (p : position) (cs : list (axis * Qc)), good p ->
  (Forall (fun c => has p (fst c)) cs -> exists p', pos_update p cs = Ok p' /\ good p' /\ punit p' = punit p /\
     forall a, (forall x, last_assigned cs a x -> pos_getattr p' a = Ok x) /\ ((forall x, ~ In (a, x) cs) -> pos_getattr p' a = pos_getattr p a)) /\
  (~ Forall (fun c => has p (fst c)) cs -> pos_update p cs = Raise EMachineInvalidAxis).
Proof.
  intros p cs G. split; [|apply update_error; auto]. intros F. destruct (update_spec cs p G F) as (p' & E & G' & A & U & V). exists p'. split; auto. split; auto. split; auto. intros a. split.
  - intros x L. assert (Ha : has p a). { destruct L as (l & r & -> & _). rewrite Forall_forall in F. apply (F (a, x)). apply in_app_iff. right. left. auto. }
    apply getattr_ok. split; [unfold has in *; rewrite A; auto|]. symmetry. apply (proj1 (V a Ha)). auto.
  - intros N. unfold pos_getattr. rewrite A. destruct (has_dec p a) as [Ha|Ha].
    + pose proof Ha as Ha'. unfold has in Ha'. rewrite Ha'. f_equal. apply (proj2 (V a Ha)); auto.
    + unfold has in Ha. destruct (vget (paxes p) a); [congruence|auto].
Qed.
Print Assumptions C39_sequence.
Example C39_ex : exists p', pos_update (P []) [(AX, q1 1 1); (AZ, q1 5 2); (AX, q1 3 1)] = Ok p' /\ map (fun a => this (pval p' a)) [AX; AY; AZ] = [3 # 1; 0; 5 # 2]%Q /\
  pos_update (P []) [(AX, q1 1 1); (AA, q1 5 2)] = Raise EMachineInvalidAxis.
Proof. eexists. split; [reflexivity|]. split; vm_compute; reflexivity. Qed.
