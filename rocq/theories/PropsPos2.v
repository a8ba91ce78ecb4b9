(** C102: looking at a position does not change it. *)
From Coq Require Import Ascii String List Bool Arith ZArith QArith Qcanon Lia.
From Verif Require Import Base Num Words GTable GCode Position BaseFacts Float64 PosSpec PosProofs PropsPos PosHeap.
Import ListNotations.
Open Scope nat_scope.

Lemma replace_nth st i p j : nth_error (replace st i p) j = if andb (Nat.eqb i j) (Nat.ltb i (length st)) then Some p else nth_error st j.
Proof.
  revert i j. induction st as [|q st IH]; intros i j; cbn.
  - destruct i, j; cbn; rewrite ?andb_false_r; reflexivity.
  - destruct i, j; cbn; try reflexivity. rewrite IH. destruct (i =? j); cbn; auto.
Qed.
Lemma replace_same st i p : nth_error st i = Some p -> replace st i p = st.
Proof. revert i. induction st as [|q st IH]; intros [|i]; cbn; try discriminate; [now intros [= ->]|intros H; f_equal; auto]. Qed.
Lemma replace_nth_at st i p q : nth_error st i = Some q -> nth_error (replace st i p) i = Some p.
Proof. intros H. rewrite replace_nth, Nat.eqb_refl. assert (L : i < length st) by (apply nth_error_Some; congruence). apply Nat.ltb_lt in L. rewrite L. reflexivity. Qed.
Lemma replace_nth_other st i p j : i <> j -> nth_error (replace st i p) j = nth_error st j.
Proof. intros H. rewrite replace_nth. destruct (Nat.eqb_spec i j); [contradiction|reflexivity]. Qed.

(** what can be read from a position by its attributes *)
Definition reads_alike (p q : position) : Prop := paxes q = paxes p /\ punit q = punit p /\ forall a, pval q a = pval p a.
Lemma alike_refl p : reads_alike p p. Proof. repeat split. Qed.
Lemma alike_trans p q r : reads_alike p q -> reads_alike q r -> reads_alike p r.
Proof. intros (A & B & C) (A' & B' & C'). split; [congruence|]. split; [congruence|]. intros a. rewrite C'. auto. Qed.
Lemma look_alike p a : reads_alike p (look p a).
Proof.
  unfold look. destruct (vget (pvals p) a) eqn:E; [apply alike_refl|]. split; [reflexivity|]. split; [reflexivity|]. intros b. unfold pval. cbn. rewrite vget_vset.
  destruct (axis_eqb a b) eqn:AB; [|reflexivity]. assert (b = a) as -> by (destruct a, b; vm_compute in AB; congruence). now rewrite E.
Qed.
Lemma looks_alike l p : reads_alike p (looks p l).
Proof. revert p. induction l as [|a l IH]; intros p; [apply alike_refl|]. cbn. eapply alike_trans; [apply look_alike|apply IH]. Qed.
Lemma look_there p a : vget (pvals p) a <> None -> look p a = p.
Proof. unfold look. destruct (vget (pvals p) a); congruence. Qed.
Lemma looks_there l p : (forall a, In a l -> vget (pvals p) a <> None) -> looks p l = p.
Proof. induction l as [|a l IH]; intros H; [reflexivity|]. cbn. rewrite look_there by (apply H; now left). apply IH. intros b B. apply H. now right. Qed.

(** ** C102 *)
Definition assigns_to (c : statement) (i : nat) : Prop := exists a x, c = SSet i a x.

(** Whatever a program did before: no statement but an assignment to the position itself changes its axes, its unit or
    the value of any of its attributes. *)
Theorem C102_numbers : forall (ar : Arith) (cs : list statement) (c : statement) (i : nat) (p : position),
  nth_error (exec cs) i = Some p -> ~ assigns_to c i ->
  exists p', nth_error (fst (exec1 (exec cs) c)) i = Some p' /\ paxes p' = paxes p /\ punit p' = punit p /\
    (forall a, pos_getattr p' a = pos_getattr p a) /\ pos_words p' = pos_words p.
Proof.
  intros ar cs c i p N A. generalize dependent (exec cs). intros st N.
  assert (W : exists p', nth_error (fst (exec1 st c)) i = Some p' /\ reads_alike p p').
  { assert (I : i < length st) by (apply nth_error_Some; congruence).
    assert (S : exists p', nth_error st i = Some p' /\ reads_alike p p') by (exists p; split; auto using alike_refl).
    assert (S2 : forall q, exists p', nth_error (st ++ [q]) i = Some p' /\ reads_alike p p').
    { intros q. exists p. split; [rewrite nth_error_app1; auto|apply alike_refl]. }
    assert (R : forall j q q', nth_error st j = Some q -> reads_alike q q' -> exists p', nth_error (replace st j q') i = Some p' /\ reads_alike p p').
    { intros j q q' J L. destruct (Nat.eq_dec j i) as [->|D].
      - exists q'. split; [eapply replace_nth_at; eauto|]. congruence.
      - rewrite replace_nth_other; auto. }
    assert (MADE : forall r, exists p', nth_error (fst (made st r)) i = Some p' /\ reads_alike p p').
    { intros [q|e]; cbn; auto. }
    destruct c as [| | | | | | |k j|k j|k j| | |k j|k j]; cbn [exec1]; auto;
      repeat match goal with |- context [match nth_error st ?k with _ => _ end] => destruct (nth_error st k) eqn:? end; cbn [fst]; auto.
    - destruct (pos_getattr _ _); cbn [fst]; auto. eapply R; eauto. apply look_alike.
    - destruct (pos_setattr _ _ _) eqn:E; cbn [fst]; auto. destruct (Nat.eq_dec i0 i) as [->|D]; [exfalso; apply A; red; eauto|].
      rewrite replace_nth_other; auto.
    - eapply R; eauto. apply alike_refl.
    - eapply R; eauto. apply looks_alike.
    - eapply R; eauto. apply looks_alike.
    - destruct (pos_eqb _ _); cbn [fst]; auto.
    - destruct (pos_add _ _); cbn [fst made]; auto. destruct (R j p1 (looks p1 (keys p0))) as (p' & P1 & P2); auto; [apply looks_alike|].
      exists p'. split; auto. rewrite nth_error_app1; auto. apply nth_error_Some. congruence. }
  destruct W as (p' & W & A1 & A2 & A3). exists p'. split; auto. split; auto. split; auto. split.
  - intros a. unfold pos_getattr. rewrite A1, A3. reflexivity.
  - unfold pos_words. rewrite A1. apply map_ext. intros a. rewrite A3. reflexivity.
Qed.
Print Assumptions C102_numbers.

(** An assignment changes the one value of the one object, or nothing if it raises. *)
Theorem C102_assigned : forall (ar : Arith) (cs : list statement) (i : nat) (a : axis) (x : Qc) (p : position),
  nth_error (exec cs) i = Some p ->
  (has p a -> exists p', nth_error (fst (exec1 (exec cs) (SSet i a x))) i = Some p' /\ paxes p' = paxes p /\ punit p' = punit p /\
     pos_getattr p' a = Ok x /\ forall b, b <> a -> pos_getattr p' b = pos_getattr p b) /\
  (~ has p a -> exec1 (exec cs) (SSet i a x) = (exec cs, SeenError EMachineInvalidAxis)) /\
  (forall j, j <> i -> nth_error (fst (exec1 (exec cs) (SSet i a x))) j = nth_error (exec cs) j).
Proof.
  intros ar cs i a x p N. generalize dependent (exec cs). intros st N. cbn [exec1]. rewrite N. unfold pos_setattr, has.
  destruct (vget (paxes p) a) eqn:E; cbn [fst].
  - split; [|split; [congruence|intros j J; apply replace_nth_other; auto]]. intros _. eexists. split; [eapply replace_nth_at; eauto|]. cbn. split; auto. split; auto.
    unfold pos_getattr, pval. cbn. rewrite E. split; [rewrite vget_vset_same; reflexivity|]. intros b B. rewrite vget_vset_other by auto. reflexivity.
  - split; [congruence|]. split; auto.
Qed.
Print Assumptions C102_assigned.

(** Comparing and bounding look at more than the attributes. In programs that give positions coordinates of their own
    axes only, and ask only positions that have X, Y and Z for their vector, no statement but an assignment changes any
    object at all: every later statement sees what it would have seen before. Missing: other programs (refuted below). *)
Definition careful (st : list position) (c : statement) : Prop :=
  match c with
  | SNew axes _ coords => forall a x, In (a, x) coords -> vget axes a = true
  | SVector i => forall p, nth_error st i = Some p -> has p AX /\ has p AY /\ has p AZ
  | _ => True
  end.
Fixpoint all_careful {ar : Arith} (st : list position) (cs : list statement) : Prop :=
  match cs with [] => True | c :: r => careful st c /\ all_careful (fst (exec1 st c)) r end.

Lemma good_known p a : good p -> has p a -> vget (pvals p) a <> None.
Proof. intros G H E. apply G in E. auto. Qed.
Lemma step_good {ar : Arith} st c : Forall good st -> careful st c -> Forall good (fst (exec1 st c)) /\
  (~ (exists i, assigns_to c i) -> exists new, fst (exec1 st c) = st ++ new).
Proof.
  intros G C.
  assert (S : forall (q : Prop), Forall good st /\ (q -> exists new, st = st ++ new)) by (intros; split; auto; exists []; rewrite app_nil_r; auto).
  assert (GN : forall i p, nth_error st i = Some p -> good p) by (intros i p H; rewrite Forall_forall in G; apply G; eapply nth_error_In; eauto).
  assert (M : forall (q : Prop) r, (forall p, r = Ok p -> good p) -> Forall good (fst (made st r)) /\ (q -> exists new, fst (made st r) = st ++ new)).
  { intros q [p|e] H; cbn; auto. split; [apply Forall_app; split; auto|]. exists [p]. auto. }
  assert (SAME : forall i p l, nth_error st i = Some p -> (forall a, In a l -> vget (pvals p) a <> None) -> replace st i (looks p l) = st).
  { intros i p l N H. rewrite looks_there by auto. apply replace_same. auto. }
  destruct c as [| | | | | | |k j|k j|k j| | |k j|k j]; cbn [exec1].
  - apply M. intros p [= <-]. apply mk_position_good. exact C.
  - destruct (nth_error st i) eqn:N; auto. apply M. intros q [= <-]. destruct p. apply (GN _ _ N).
  - destruct (nth_error st i) eqn:N; auto. unfold pos_getattr. destruct (vget (paxes p) a) eqn:E; cbn [fst]; auto.
    rewrite look_there by (apply (good_known _ _ (GN _ _ N)); exact E). rewrite replace_same by auto. auto.
  - destruct (nth_error st i) eqn:N; auto. unfold pos_setattr. destruct (vget (paxes p) a) eqn:E; cbn [fst]; auto.
    split; [|intros H; exfalso; apply H; exists i; red; eauto]. apply Forall_forall. intros q Q. apply In_nth_error in Q as (j & Q). rewrite replace_nth in Q.
    destruct (_ && _); [|eapply GN; eauto]. injection Q as <-. intros b. cbn. unfold has. cbn. rewrite vget_vset.
    destruct (axis_eqb a b) eqn:AB; [|apply (GN _ _ N)]. assert (b = a) as -> by (destruct a, b; vm_compute in AB; congruence). rewrite E. split; [discriminate|congruence].
  - destruct (nth_error st i) eqn:N; auto. unfold pos_set_unit. cbn [fst]. rewrite replace_same by auto. auto.
  - destruct (nth_error st i) eqn:N; auto. cbn [fst]. rewrite SAME; auto. intros a A. destruct (C p N) as (H1 & H2 & H3).
    cbn in A. apply (good_known _ _ (GN _ _ N)). destruct A as [<-|[<-|[<-|[]]]]; auto.
  - destruct (nth_error st i) eqn:N; auto. cbn [fst]. rewrite SAME; auto. intros a A. apply filter_In in A as [_ A]. apply (good_known _ _ (GN _ _ N)). exact A.
  - destruct (nth_error st k), (nth_error st j); auto. destruct (pos_eqb _ _); auto.
  - destruct (nth_error st k) eqn:N; auto. destruct (nth_error st j) eqn:N2; auto. destruct (pos_add p p0) as [sum|] eqn:E; auto.
    pose proof E as E2. apply add_spec in E2 as (A & Gr & _); eauto.
    assert (R : replace st j (looks p0 (keys p)) = st).
    { apply SAME; auto. intros a I. unfold keys in I. apply filter_In in I as [_ I]. apply (good_known _ _ (GN _ _ N2)). unfold has. rewrite <- A.
      destruct (vget (pvals p) a) eqn:V; [|discriminate]. destruct (vget (paxes p) a) eqn:X; auto. exfalso.
      assert (V' : vget (pvals p) a = None) by (apply (GN _ _ N); unfold has; congruence). congruence. }
    rewrite R. apply M. intros q [= <-]. exact Gr.
  - destruct (nth_error st k) eqn:N; auto. destruct (nth_error st j) eqn:N2; auto. apply M. intros r E. apply sub_spec in E as (_ & Gr & _); eauto.
  - destruct (nth_error st i) eqn:N; auto. apply M. intros q [= <-] a. unfold pos_mul, has. cbn. rewrite vget_vfun. pose proof (GN _ _ N a) as H. unfold has in H.
    destruct (vget (pvals p) a); cbn; [|exact H]. split; [discriminate|]. intros X. apply H in X. discriminate.
  - destruct (nth_error st i) eqn:N; auto. apply M. intros q. unfold pos_div. destruct (_ && _); [discriminate|]. intros [= <-] b. unfold has. cbn. rewrite vget_vfun.
    pose proof (GN _ _ N b) as H. unfold has in H. destruct (vget (pvals p) b); cbn; [|exact H]. split; [discriminate|]. intros X. apply H in X. discriminate.
  - destruct (nth_error st k) eqn:N; auto. destruct (nth_error st j) eqn:N2; auto. apply M. intros r. unfold pos_min, pos_cmp. destruct (vall _); [|discriminate].
    intros [= <-] a. unfold has. cbn. rewrite vget_vfun. unfold full_axes. rewrite vget_vfun. destruct (vget (pvals p) a); split; congruence.
  - destruct (nth_error st k) eqn:N; auto. destruct (nth_error st j) eqn:N2; auto. apply M. intros r. unfold pos_max, pos_cmp. destruct (vall _); [|discriminate].
    intros [= <-] a. unfold has. cbn. rewrite vget_vfun. unfold full_axes. rewrite vget_vfun. destruct (vget (pvals p) a); split; congruence.
Qed.
Lemma careful_good {ar : Arith} cs : forall st, Forall good st -> all_careful st cs -> Forall good (fold_left (fun st c => fst (exec1 st c)) cs st).
Proof.
  induction cs as [|c cs IH]; intros st G C; [exact G|]. destruct C as [C CS]. cbn [fold_left]. apply IH; auto. apply step_good; auto.
Qed.

Theorem C102_unchanged_partial : forall (ar : Arith) (cs : list statement) (c : statement), all_careful [] cs -> careful (exec cs) c ->
  ~ (exists i, assigns_to c i) -> exists new, fst (exec1 (exec cs) c) = exec cs ++ new.
Proof. intros ar cs c C1 C2. apply step_good; auto. apply careful_good; auto. Qed.
Print Assumptions C102_unchanged_partial.

(** What is seen: an attribute is the coordinate, an axis the position does not have is refused, the vector is made of the
    coordinates X, Y and Z in this order, the words name the axes in order with their coordinates, and a copy reads like its original. *)
Theorem C102_seen : forall (ar : Arith) (cs : list statement) (i : nat) (p : position), nth_error (exec cs) i = Some p ->
  (forall a x, pos_getattr p a = Ok x -> snd (exec1 (exec cs) (SGet i a)) = SeenNumber x) /\
  (forall a, ~ has p a -> exec1 (exec cs) (SGet i a) = (exec cs, SeenError EAttributeError)) /\
  (exists x y z, snd (exec1 (exec cs) (SVector i)) = SeenVector x y z /\
     (forall v, pos_getattr p AX = Ok v -> x = v) /\ (forall v, pos_getattr p AY = Ok v -> y = v) /\ (forall v, pos_getattr p AZ = Ok v -> z = v)) /\
  (exists q, exec1 (exec cs) (SCopy i) = (exec cs ++ [q], SeenNew) /\ paxes q = paxes p /\ punit q = punit p /\ forall a, pos_getattr q a = pos_getattr p a).
Proof.
  intros ar cs i p N. generalize dependent (exec cs). intros st N. cbn [exec1]. rewrite N. split; [|split; [|split]].
  - intros a x G. rewrite G. reflexivity.
  - intros a H. unfold pos_getattr. unfold has in H. destruct (vget (paxes p) a); [destruct (H eq_refl)|reflexivity].
  - exists (pval p AX), (pval p AY), (pval p AZ). split; [reflexivity|]. unfold pos_getattr, pval. repeat split; intros v H; destruct (vget (paxes p) _) in H; congruence.
  - exists (copy_of p). repeat split.
Qed.
Print Assumptions C102_seen.

(** Refuted for other programs: two equal positions with axes X and Y; after reading the vector of the first, they are
    no longer equal, and [Position.min] refuses it. *)
Definition P_XY : statement := SNew xy_axes UNIT_METRIC [(AX, frac 1 1)].
Theorem C102_refuted : exists (cs : list statement) (i j : nat),
  snd (exec1 (ar := binary64) (exec (ar := binary64) cs) (SEq i j)) = SeenTruth true /\
  snd (exec1 (ar := binary64) (exec (ar := binary64) cs) (SMin i j)) = SeenNew /\
  snd (exec1 (ar := binary64) (exec (ar := binary64) (cs ++ [SVector i])) (SEq i j)) = SeenTruth false /\
  snd (exec1 (ar := binary64) (exec (ar := binary64) (cs ++ [SVector i])) (SMin i j)) = SeenError EAttributeError.
Proof. exists [P_XY; P_XY], 0, 1. repeat split; vm_compute; reflexivity. Qed.
Print Assumptions C102_refuted.
(** An operand of + changes too, if the other one was given a coordinate that is not one of its axes. *)
Theorem C102_operand_refuted : exists (cs : list statement) (i j k : nat),
  snd (exec1 (ar := binary64) (exec (ar := binary64) cs) (SEq j k)) = SeenTruth true /\
  snd (exec1 (ar := binary64) (exec (ar := binary64) (cs ++ [SAdd i j])) (SEq j k)) = SeenTruth false.
Proof. exists [SNew xy_axes UNIT_METRIC [(AZ, frac 5 1)]; P_XY; P_XY], 0, 1, 2. split; vm_compute; reflexivity. Qed.
Print Assumptions C102_operand_refuted.

(** a careful program: a sum, a vector, a bound, an assignment to a copy *)
Definition ex_program : list statement :=
  [SNew xyz_axes UNIT_METRIC [(AX, frac 1 1); (AZ, frac 1 10)]; SNew xyz_axes UNIT_METRIC [(AX, frac 3 1); (AY, frac 2 1)]; SAdd 0 1; SVector 2; SMax 0 1; SCopy 0; SSet 5 (* no such object *) AX (frac 9 1); SSet 4 AY (frac 7 1)].
Example C102_ex : all_careful (ar := binary64) [] ex_program /\ length (exec (ar := binary64) ex_program) = 5 /\
  snd (exec1 (ar := binary64) (exec (ar := binary64) ex_program) (SEq 0 4)) = SeenTruth false /\
  snd (exec1 (ar := binary64) (exec (ar := binary64) ex_program) (SEq 0 0)) = SeenTruth true.
Proof.
  split; [|repeat split; vm_compute; reflexivity]. cbn [all_careful ex_program]. repeat split; try exact I.
  1,2: cbn [careful]; intros a x H; destruct H as [[= <- <-]|[[= <- <-]|[]]]; reflexivity.
  all: vm_compute in H; injection H as <-; reflexivity.
Qed.
