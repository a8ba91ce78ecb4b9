(** Lemmas about lists, dictionaries, stable sorting, letters and axes. *)
From Coq Require Import Ascii String List Bool Arith ZArith Lia Permutation Sorted.
From Verif Require Import Base Num Regex Words GTable GCode Position.
Import ListNotations.
Local Open Scope nat_scope.
Global Arguments Ascii.eqb : simpl never.
Global Arguments letter_of_ascii : simpl never.
Global Arguments is_letter : simpl never.

(** ** Lists *)
Lemma span_app {A} (f : A -> bool) l : let (a, b) := span f l in l = a ++ b.
Proof.
  induction l as [|x l IH]; simpl; auto.
  destruct (f x); auto. destruct (span f l) as [a b]. simpl; congruence.
Qed.
Lemma span_spec {A} (f : A -> bool) l a b :
  span f l = (a, b) -> l = a ++ b /\ forallb f a = true /\ (match b with [] => True | x :: _ => f x = false end).
Proof.
  revert a b; induction l as [|x l IH]; simpl; intros a b H.
  - inversion H; subst; auto.
  - destruct (f x) eqn:E.
    + destruct (span f l) as [a' b']. inversion H; subst.
      destruct (IH a' b eq_refl) as (-> & H2 & H3). simpl. rewrite E. auto.
    + inversion H; subst. simpl. auto.
Qed.
Lemma span_app_l {A} (f : A -> bool) a b :
  forallb f a = true -> (match b with [] => True | x :: _ => f x = false end) -> span f (a ++ b) = (a, b).
Proof.
  induction a as [|x a IH]; simpl; intros H Hb.
  - destruct b; simpl; auto. rewrite Hb; auto.
  - apply andb_true_iff in H as [H1 H2]. rewrite H1, IH; auto.
Qed.
Lemma forallb_app {A} (f : A -> bool) a b : forallb f (a ++ b) = forallb f a && forallb f b.
Proof. induction a; simpl; auto. rewrite IHa. destruct (f a); auto. Qed.
Lemma forallb_rev {A} (f : A -> bool) a : forallb f (rev a) = forallb f a.
Proof. induction a; simpl; auto. rewrite forallb_app, IHa. simpl. rewrite andb_true_r. apply andb_comm. Qed.
Lemma drop_while_spec {A} (f : A -> bool) l :
  exists a, l = a ++ drop_while f l /\ forallb f a = true /\
            match drop_while f l with [] => True | x :: _ => f x = false end.
Proof.
  induction l as [|x l IH]; simpl.
  - exists []; auto.
  - destruct (f x) eqn:E.
    + destruct IH as (a & H & H1 & H2). exists (x :: a). simpl. rewrite E, <- H. auto.
    + exists []. simpl. auto.
Qed.
Lemma drop_while_all {A} (f : A -> bool) l : forallb f l = true -> drop_while f l = [].
Proof. induction l; simpl; auto. intros H. apply andb_true_iff in H as [-> H]. auto. Qed.
Lemma drop_while_app {A} (f : A -> bool) a b : forallb f a = true -> drop_while f (a ++ b) = drop_while f b.
Proof. induction a; simpl; auto. intros H. apply andb_true_iff in H as [-> H]. auto. Qed.
Lemma drop_while_none {A} (f : A -> bool) l : match l with [] => True | x :: _ => f x = false end -> drop_while f l = l.
Proof. destruct l; simpl; auto. intros ->; auto. Qed.
Lemma rev_eq_nil {A} (l : list A) : rev l = [] -> l = [].
Proof. intros H. apply (f_equal (@rev A)) in H. rewrite rev_involutive in H. auto. Qed.
Lemma existsb_false {A} (f : A -> bool) l : existsb f l = false <-> forallb (fun x => negb (f x)) l = true.
Proof.
  induction l; simpl; split; auto; intros H.
  - apply orb_false_iff in H as [H1 H2]. rewrite H1. apply IHl; auto.
  - apply andb_true_iff in H as [H1 H2]. destruct (f a); simpl in *; try discriminate. apply IHl; auto.
Qed.
Lemma skipn_app_exact {A} (a b : list A) : skipn (length a) (a ++ b) = b.
Proof. induction a; simpl; auto. Qed.
Lemma firstn_app_exact {A} (a b : list A) : firstn (length a) (a ++ b) = a.
Proof. induction a; simpl; auto. congruence. Qed.

(** ** Characters *)
Lemma code_lt c : code c < 256. Proof. apply nat_ascii_bounded. Qed.
Lemma code_inj a b : code a = code b -> a = b.
Proof. intros H. rewrite <- (ascii_nat_embedding a), <- (ascii_nat_embedding b). unfold code in H. congruence. Qed.
(** decide a boolean statement about all characters by running through them *)
Definition all_chars : list ascii := map ascii_of_nat (seq 0 256).
Lemma all_chars_in c : In c all_chars.
Proof.
  apply in_map_iff. exists (code c). split. apply ascii_nat_embedding. apply in_seq. pose proof (code_lt c). lia.
Qed.
Lemma forall_chars (P : ascii -> bool) : forallb P all_chars = true -> forall c, P c = true.
Proof. intros H c. rewrite forallb_forall in H. apply H, all_chars_in. Qed.

Lemma digit_not_letter c : is_digit c = true -> is_letter c = false.
Proof.
  assert (H : forallb (fun c => implb (is_digit c) (negb (is_letter c))) all_chars = true) by (vm_compute; reflexivity).
  generalize (forall_chars _ H c). destruct (is_digit c), (is_letter c); simpl; congruence.
Qed.
Lemma digit_not_space c : is_digit c = true -> is_space c = false.
Proof.
  assert (H : forallb (fun c => implb (is_digit c) (negb (is_space c))) all_chars = true) by (vm_compute; reflexivity).
  generalize (forall_chars _ H c). destruct (is_digit c), (is_space c); simpl; congruence.
Qed.
Lemma space_not_letter c : is_space c = true -> is_letter c = false.
Proof.
  assert (H : forallb (fun c => implb (is_space c) (negb (is_letter c))) all_chars = true) by (vm_compute; reflexivity).
  generalize (forall_chars _ H c). destruct (is_space c), (is_letter c); simpl; congruence.
Qed.
Lemma letter_not_newline c : is_letter c = true -> is_newline c = false.
Proof.
  assert (H : forallb (fun c => implb (is_letter c) (negb (is_newline c))) all_chars = true) by (vm_compute; reflexivity).
  generalize (forall_chars _ H c). destruct (is_letter c), (is_newline c); simpl; congruence.
Qed.
Lemma newline_is_space c : is_newline c = true -> is_space c = true.
Proof.
  assert (H : forallb (fun c => implb (is_newline c) (is_space c)) all_chars = true) by (vm_compute; reflexivity).
  generalize (forall_chars _ H c). destruct (is_newline c), (is_space c); simpl; congruence.
Qed.
Lemma newline_char c : is_newline c = true -> c = newline.
Proof. unfold is_newline. intros H. apply Nat.eqb_eq in H. apply code_inj. rewrite H. reflexivity. Qed.

(** ** Letters *)
Lemma letter_eqb_eq a b : letter_eqb a b = true <-> a = b.
Proof.
  split; [|intros ->; apply Nat.eqb_refl].
  unfold letter_eqb. intros H. apply Nat.eqb_eq in H.
  destruct a, b; try reflexivity; vm_compute in H; discriminate.
Qed.
Lemma letter_eqb_refl a : letter_eqb a a = true. Proof. apply letter_eqb_eq; auto. Qed.
Lemma letter_eqb_neq a b : letter_eqb a b = false <-> a <> b.
Proof. rewrite <- letter_eqb_eq. destruct (letter_eqb a b); split; congruence. Qed.
Lemma letter_eqb_sym a b : letter_eqb a b = letter_eqb b a.
Proof. unfold letter_eqb. apply Nat.eqb_sym. Qed.
Lemma lnum_inj a b : lnum a = lnum b -> a = b.
Proof. intros H. apply letter_eqb_eq. unfold letter_eqb. rewrite H. apply Nat.eqb_refl. Qed.
Lemma letter_of_letter_ascii l : letter_of_ascii (letter_ascii l) = Some l.
Proof. destruct l; reflexivity. Qed.
Lemma all_letters_in l : In l all_letters.
Proof. destruct l; simpl; tauto. Qed.

Lemma axis_eqb_eq a b : axis_eqb a b = true <-> a = b.
Proof. split; [|intros ->; destruct b; reflexivity]. destruct a, b; try reflexivity; vm_compute; discriminate. Qed.
Lemma axis_eqb_refl a : axis_eqb a a = true. Proof. destruct a; reflexivity. Qed.
Lemma axis_of_axis_letter a : axis_of_letter (axis_letter a) = Some a.
Proof. destruct a; reflexivity. Qed.
Lemma axis_letter_of l a : axis_of_letter l = Some a -> axis_letter a = l.
Proof. destruct l; simpl; intros H; inversion H; reflexivity. Qed.
Lemma vget_vfun {A} (f : axis -> A) a : vget (vfun f) a = f a. Proof. destruct a; reflexivity. Qed.
Lemma v9_ext {A} (u v : v9 A) : (forall a, vget u a = vget v a) -> u = v.
Proof.
  intros H. destruct u, v.
  pose proof (H AX); pose proof (H AY); pose proof (H AZ); pose proof (H AA); pose proof (H AB);
  pose proof (H AC); pose proof (H AU); pose proof (H AV); pose proof (H AW). simpl in *. congruence.
Qed.
Lemma vget_vset {A} (v : v9 A) a x b : vget (vset v a x) b = if axis_eqb a b then x else vget v b.
Proof. unfold vset. apply vget_vfun. Qed.
Lemma vget_vset_same {A} (v : v9 A) a x : vget (vset v a x) a = x.
Proof. rewrite vget_vset, axis_eqb_refl. auto. Qed.
Lemma vget_vset_other {A} (v : v9 A) a x b : a <> b -> vget (vset v a x) b = vget v b.
Proof. intros H. rewrite vget_vset. destruct (axis_eqb a b) eqn:E; auto. apply axis_eqb_eq in E. contradiction. Qed.
Lemma vall_spec f : vall f = true <-> forall a, f a = true.
Proof.
  unfold vall. rewrite forallb_forall. split; intros H.
  - intros a. apply H. destruct a; simpl; tauto.
  - intros; apply H.
Qed.
Lemma vall_false f : vall f = false -> exists a, f a = false.
Proof.
  unfold vall. rewrite <- not_true_iff_false. rewrite forallb_forall. intros H.
  destruct (f AX) eqn:?; [|eauto]. destruct (f AY) eqn:?; [|eauto]. destruct (f AZ) eqn:?; [|eauto].
  destruct (f AA) eqn:?; [|eauto]. destruct (f AB) eqn:?; [|eauto]. destruct (f AC) eqn:?; [|eauto].
  destruct (f AU) eqn:?; [|eauto]. destruct (f AV) eqn:?; [|eauto]. destruct (f AW) eqn:?; [|eauto].
  exfalso; apply H. intros x _; destruct x; auto.
Qed.
Lemma axset_eqb_eq a b : axset_eqb a b = true <-> a = b.
Proof.
  unfold axset_eqb. rewrite vall_spec. split; intros H.
  - apply v9_ext. intros x. apply eqb_prop, H.
  - subst; intros; apply eqb_reflx.
Qed.

Lemma gclass_eqb_eq a b : gclass_eqb a b = true <-> a = b.
Proof.
  split; [|intros ->; apply Pos.eqb_refl].
  unfold gclass_eqb. intros H. apply Pos.eqb_eq in H.
  assert (R : forall c, class_of_num (class_num c) = c) by (intros []; reflexivity).
  rewrite <- (R a), <- (R b). congruence.
Qed.
Lemma mgroup_eqb_eq a b : mgroup_eqb a b = true <-> a = b.
Proof.
  split; [|intros ->; apply Z.eqb_refl].
  unfold mgroup_eqb. intros H. apply Z.eqb_eq in H. destruct a, b; try reflexivity; vm_compute in H; discriminate.
Qed.
Lemma gm_get_set {A} (m : gmap A) g v g' : gm_get (gm_set m g v) g' = if mgroup_eqb g g' then v else gm_get m g'.
Proof. destruct m, g, g'; reflexivity. Qed.
Lemma gm_get_set_same {A} (m : gmap A) g v : gm_get (gm_set m g v) g = v.
Proof. destruct m, g; reflexivity. Qed.
Lemma gm_get_set_other {A} (m : gmap A) g v g' : g <> g' -> gm_get (gm_set m g v) g' = gm_get m g'.
Proof. intros H. rewrite gm_get_set. destruct (mgroup_eqb g g') eqn:E; auto. apply mgroup_eqb_eq in E. contradiction. Qed.
Lemma gm_ext {A} (m m' : gmap A) : (forall g, gm_get m g = gm_get m' g) -> m = m'.
Proof.
  intros H. destruct m, m'.
  pose proof (H MG_motion) as H0; cbn in H0; subst.
  pose proof (H MG_plane_selection) as H1; cbn in H1; subst.
  pose proof (H MG_distance) as H2; cbn in H2; subst.
  pose proof (H MG_arc_ijk_distance) as H3; cbn in H3; subst.
  pose proof (H MG_feed_rate_mode) as H4; cbn in H4; subst.
  pose proof (H MG_units) as H5; cbn in H5; subst.
  pose proof (H MG_cutter_diameter_comp) as H6; cbn in H6; subst.
  pose proof (H MG_tool_length_offset) as H7; cbn in H7; subst.
  pose proof (H MG_canned_cycles_return) as H8; cbn in H8; subst.
  pose proof (H MG_coordinate_system) as H9; cbn in H9; subst.
  pose proof (H MG_control_mode) as H10; cbn in H10; subst.
  pose proof (H MG_spindle_speed_mode) as H11; cbn in H11; subst.
  pose proof (H MG_lathe_diameter) as H12; cbn in H12; subst.
  pose proof (H MG_stopping) as H13; cbn in H13; subst.
  pose proof (H MG_spindle) as H14; cbn in H14; subst.
  pose proof (H MG_coolant) as H15; cbn in H15; subst.
  pose proof (H MG_override_switches) as H16; cbn in H16; subst.
  pose proof (H MG_user_defined) as H17; cbn in H17; subst.
  pose proof (H MG_feed_rate) as H18; cbn in H18; subst.
  pose proof (H MG_spindle_speed) as H19; cbn in H19; subst.
  pose proof (H MG_tool) as H20; cbn in H20; subst.
  reflexivity.
Qed.
Lemma gm_get_empty {A} g : gm_get (@gm_empty A) g = None. Proof. destruct g; reflexivity. Qed.
Lemma all_mgroups_in g : In g all_mgroups.
Proof. destruct g; simpl; tauto. Qed.

(** ** Dictionaries *)
Section DictFacts.
  Variables (K V : Type) (eqb : K -> K -> bool).
  Hypothesis eqb_eq : forall a b, eqb a b = true <-> a = b.
  Implicit Types (d : dict K V).

  Let eqb_refl a : eqb a a = true. Proof. apply eqb_eq; auto. Qed.
  Let eqb_neq a b : a <> b -> eqb a b = false.
  Proof. intros H. destruct (eqb a b) eqn:E; auto. apply eqb_eq in E. contradiction. Qed.

  Lemma dget_dset d k v k' : dget eqb (dset eqb d k v) k' = if eqb k' k then Some v else dget eqb d k'.
  Proof.
    induction d as [|[k0 v0] d IH]; simpl; auto.
    destruct (eqb k k0) eqn:E.
    - apply eqb_eq in E; subst. simpl. destruct (eqb k' k0); auto.
    - simpl. rewrite IH. destruct (eqb k' k0) eqn:E1; auto.
      apply eqb_eq in E1; subst. destruct (eqb k0 k) eqn:E2; auto.
      apply eqb_eq in E2; subst. rewrite eqb_refl in E. discriminate.
  Qed.
  Lemma dget_in d k v : dget eqb d k = Some v -> In (k, v) d.
  Proof.
    induction d as [|[k0 v0] d IH]; simpl; [discriminate|].
    destruct (eqb k k0) eqn:E; intros H.
    - apply eqb_eq in E; subst. left. congruence.
    - right; auto.
  Qed.
  Lemma in_dget d k v : NoDup (map fst d) -> In (k, v) d -> dget eqb d k = Some v.
  Proof.
    induction d as [|[k0 v0] d IH]; simpl; [tauto|].
    intros ND [H|H].
    - inversion H; subst. rewrite eqb_refl. auto.
    - inversion ND; subst. destruct (eqb k k0) eqn:E; auto.
      apply eqb_eq in E; subst. exfalso. apply H2. apply in_map_iff. exists (k0, v); auto.
  Qed.
  Lemma dget_none d k : dget eqb d k = None <-> ~ In k (map fst d).
  Proof.
    induction d as [|[k0 v0] d IH]; simpl; [tauto|].
    destruct (eqb k k0) eqn:E.
    - apply eqb_eq in E; subst. split; [discriminate|]. intros H; exfalso; apply H; auto.
    - rewrite IH. split; intros H; [intros [->|H']; [rewrite eqb_refl in E; discriminate|auto]|auto].
  Qed.
  Lemma dset_keys_in d k v : In k (map fst d) -> map fst (dset eqb d k v) = map fst d.
  Proof.
    induction d as [|[k0 v0] d IH]; simpl; [tauto|].
    intros H. destruct (eqb k k0) eqn:E; simpl; auto.
    rewrite IH; auto. destruct H as [->|H]; auto. rewrite eqb_refl in E; discriminate.
  Qed.
  Lemma dset_new d k v : ~ In k (map fst d) -> dset eqb d k v = d ++ [(k, v)].
  Proof.
    induction d as [|[k0 v0] d IH]; simpl; auto.
    intros H. rewrite eqb_neq by intuition congruence. rewrite IH; auto.
  Qed.
  Lemma dset_nodup d k v : NoDup (map fst d) -> NoDup (map fst (dset eqb d k v)).
  Proof.
    intros ND. destruct (dget eqb d k) eqn:E.
    - rewrite dset_keys_in; auto. apply dget_in in E. apply in_map_iff. exists (k, v0); auto.
    - apply dget_none in E. rewrite dset_new by auto. rewrite map_app. simpl.
      apply Permutation_NoDup with (k :: map fst d).
      + apply Permutation_cons_append.
      + constructor; auto.
  Qed.
  Lemma dupdate_nodup l d : NoDup (map fst d) -> NoDup (map fst (dupdate eqb d l)).
  Proof. unfold dupdate. revert d. induction l; simpl; auto. intros; apply IHl, dset_nodup; auto. Qed.
  (** the last binding of [k] in [l], else that of [d] *)
  Lemma dget_dupdate l d k :
    dget eqb (dupdate eqb d l) k =
    match dget eqb (rev l) k with Some v => Some v | None => dget eqb d k end.
  Proof.
    unfold dupdate. revert d. induction l as [|[k0 v0] l IH]; intros d; auto.
    cbn [fold_left]. rewrite IH. cbn [fst snd rev].
    assert (A : forall a b : dict K V, dget eqb (a ++ b) k = match dget eqb a k with Some v => Some v | None => dget eqb b k end).
    { induction a as [|[x y] a IHa]; simpl; auto. intros b. destruct (eqb k x); auto. }
    rewrite A. destruct (dget eqb (rev l) k); auto. simpl. rewrite dget_dset.
    destruct (eqb k k0); auto.
  Qed.
  (** building a dictionary from pairs with distinct new keys just lists them *)
  Lemma dupdate_distinct l d :
    NoDup (map fst (d ++ l)) -> dupdate eqb d l = d ++ l.
  Proof.
    unfold dupdate. revert d. induction l as [|[k v] l IH]; intros d ND; simpl.
    - rewrite app_nil_r; auto.
    - assert (~ In k (map fst d)).
      { rewrite map_app in ND. simpl in ND. apply NoDup_remove_2 in ND. intros H; apply ND. apply in_app_iff; auto. }
      rewrite dset_new by auto. rewrite IH; rewrite <- app_assoc; auto.
  Qed.
  Lemma dget_dpop d k k' : NoDup (map fst d) -> dget eqb (dpop eqb d k) k' = if eqb k' k then None else dget eqb d k'.
  Proof.
    induction d as [|[k0 v0] d IH]; simpl; intros ND.
    - destruct (eqb k' k); auto.
    - inversion ND; subst. destruct (eqb k k0) eqn:E.
      + apply eqb_eq in E; subst. destruct (eqb k' k0) eqn:E'; auto.
        apply eqb_eq in E'; subst. apply dget_none; auto.
      + simpl. rewrite IH by auto. destruct (eqb k' k0) eqn:E1; auto.
        apply eqb_eq in E1; subst. destruct (eqb k0 k) eqn:E2; auto.
        apply eqb_eq in E2; subst. rewrite eqb_refl in E. discriminate.
  Qed.
  Lemma dmem_true d k : dmem eqb d k = true <-> In k (map fst d).
  Proof.
    unfold dmem. destruct (dget eqb d k) eqn:E.
    - split; auto. intros _. apply dget_in in E. apply in_map_iff. exists (k, v); auto.
    - apply dget_none in E. split; [discriminate|tauto].
  Qed.
End DictFacts.

(** ** Stable sorting *)
Section SortFacts.
  Variables (A : Type) (key : A -> Z).
  Definition key_le (x y : A) := (key x <= key y)%Z.
  Lemma insert_perm x l : Permutation (insert key x l) (x :: l).
  Proof.
    induction l as [|y l IH]; simpl; auto.
    destruct (key x <=? key y)%Z; auto.
    rewrite IH. apply perm_swap.
  Qed.
  Lemma sort_perm l : Permutation (sort key l) l.
  Proof. induction l; simpl; auto. rewrite insert_perm. auto. Qed.
  Lemma insert_sorted x l : StronglySorted key_le l -> StronglySorted key_le (insert key x l).
  Proof.
    induction l as [|y l IH]; simpl; intros H.
    - constructor; constructor.
    - inversion H; subst. destruct (key x <=? key y)%Z eqn:E.
      + apply Z.leb_le in E. constructor; auto. constructor; auto.
        eapply Forall_impl; [|eassumption]. unfold key_le. intros; lia.
      + apply Z.leb_gt in E. constructor; auto.
        apply Permutation_Forall with (x :: l).
        * symmetry; apply insert_perm.
        * constructor; auto. unfold key_le. lia.
  Qed.
  Lemma sort_sorted l : StronglySorted key_le (sort key l).
  Proof. induction l; simpl. constructor. apply insert_sorted; auto. Qed.
  (** stability: the elements with a given key keep their relative order *)
  Lemma filter_insert k x l : StronglySorted key_le l ->
    filter (fun y => key y =? k)%Z (insert key x l) = filter (fun y => key y =? k)%Z (x :: l).
  Proof.
    induction l as [|y l IH]; intros H; auto.
    inversion H; subst. simpl. destruct (key x <=? key y)%Z eqn:E; auto.
    apply Z.leb_gt in E. simpl. rewrite IH by auto. simpl.
    destruct (key x =? k)%Z eqn:E1, (key y =? k)%Z eqn:E2; auto.
    apply Z.eqb_eq in E1, E2. lia.
  Qed.
  Lemma sort_stable k l : filter (fun y => key y =? k)%Z (sort key l) = filter (fun y => key y =? k)%Z l.
  Proof.
    induction l; simpl; auto. rewrite filter_insert by apply sort_sorted. simpl.
    rewrite IHl. auto.
  Qed.
  Lemma sorted_sort_id l : StronglySorted key_le l -> sort key l = l.
  Proof.
    induction l as [|x l IH]; simpl; intros H; auto.
    inversion H; subst. rewrite IH by auto. destruct l as [|y l]; auto.
    simpl. inversion H3; subst. unfold key_le in H4. apply Z.leb_le in H4. rewrite H4. auto.
  Qed.
  (** a sorted list is determined by its classes of equal keys *)
  Lemma sorted_unique l l' : StronglySorted key_le l -> StronglySorted key_le l' ->
    (forall k, filter (fun y => key y =? k)%Z l = filter (fun y => key y =? k)%Z l') -> l = l'.
  Proof.
    revert l'. induction l as [|x l IH]; intros l' S S' H.
    - destruct l' as [|y l']; auto. specialize (H (key y)). simpl in H. rewrite Z.eqb_refl in H. discriminate.
    - destruct l' as [|y l'].
      + specialize (H (key x)). simpl in H. rewrite Z.eqb_refl in H. discriminate.
      + inversion S; inversion S'; subst.
        assert (key x = key y).
        { assert (M : forall (z : A) l1 l2, (filter (fun y => key y =? key z)%Z (z :: l1) = filter (fun y => key y =? key z)%Z l2) -> In z l2).
          { intros z l1 l2 E. simpl in E. rewrite Z.eqb_refl in E.
            assert (In z (filter (fun y => key y =? key z)%Z l2)) by (rewrite <- E; left; auto).
            apply filter_In in H0. tauto. }
          pose proof (M x l (y :: l') (H (key x))) as H1. pose proof (M y l' (x :: l) (eq_sym (H (key y)))) as H0.
          unfold key_le in *. rewrite Forall_forall in *.
          destruct H1 as [->|H1]; auto. destruct H0 as [->|H0]; auto.
          pose proof (H3 _ H0). pose proof (H7 _ H1). lia. }
        assert (x = y).
        { pose proof (H (key x)) as E. simpl in E. rewrite Z.eqb_refl, <- H0, Z.eqb_refl in E. congruence. }
        subst y. f_equal. apply IH; auto.
        intros k. specialize (H k). simpl in H. destruct (key x =? k)%Z; congruence.
  Qed.
End SortFacts.
