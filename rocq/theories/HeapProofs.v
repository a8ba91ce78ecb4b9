(** Facts about the heap: the operations agree with those on values, and what they leave alone. *)
From Coq Require Import Ascii String List Bool Arith ZArith QArith Qcanon Lia.
From Verif Require Import Base Num Regex Words GTable GCode Line Position Machine BaseFacts Heap.
Import ListNotations.
Open Scope nat_scope.

(** ** Lists as memory *)
Lemma update_length {A} (l : list A) n x : length (update l n x) = length l.
Proof. revert n; induction l as [|y l IH]; intros [|n]; cbn; auto. Qed.
Lemma nth_update_same {A} (l : list A) n x d : n < length l -> nth n (update l n x) d = x.
Proof. revert n; induction l as [|y l IH]; intros [|n] H; cbn in *; try lia; auto. apply IH; lia. Qed.
Lemma nth_update_other {A} (l : list A) n k x d : n <> k -> nth k (update l n x) d = nth k l d.
Proof. revert n k; induction l as [|y l IH]; intros [|n] [|k] H; cbn; try congruence; auto. Qed.

Lemma cell_set_same h r w : r < length (cells h) -> cell (set_cell h r w) r = w.
Proof. apply nth_update_same. Qed.
Lemma cell_set_other h r k w : r <> k -> cell (set_cell h r w) k = cell h k.
Proof. apply nth_update_other. Qed.
Lemma obj_set_same h i o : i < length (objs h) -> obj (set_obj h i o) i = o.
Proof. apply nth_update_same. Qed.
Lemma obj_set_other h i k o : i <> k -> obj (set_obj h i o) k = obj h k.
Proof. apply nth_update_other. Qed.
Lemma cell_app h ws os r : r < length (cells h) -> cell (Heap (cells h ++ ws) os) r = cell h r.
Proof. intros H. unfold cell. cbn. apply app_nth1, H. Qed.
Lemma obj_app h cs os i : i < length (objs h) -> obj (Heap cs (objs h ++ os)) i = obj h i.
Proof. intros H. unfold obj. cbn. apply app_nth1, H. Qed.

(** ** Dictionaries of references *)
Lemma dset_absent {V} (d : dict letter V) l v : dget letter_eqb d l = None -> dset letter_eqb d l v = d ++ [(l, v)].
Proof.
  induction d as [|[k x] d IH]; cbn; auto. destruct (letter_eqb l k) eqn:E; [discriminate|]. intros H. now rewrite IH.
Qed.
Lemma dget_map {V W} (f : V -> W) (d : dict letter V) l :
  dget letter_eqb (map (fun kv => (fst kv, f (snd kv))) d) l = option_map f (dget letter_eqb d l).
Proof. induction d as [|[k x] d IH]; cbn; auto. destruct (letter_eqb l k); auto. Qed.
Lemma dset_map {V W} (f : V -> W) (d : dict letter V) l v :
  dset letter_eqb (map (fun kv => (fst kv, f (snd kv))) d) l (f v) = map (fun kv => (fst kv, f (snd kv))) (dset letter_eqb d l v).
Proof. induction d as [|[k x] d IH]; cbn; auto. destruct (letter_eqb l k); cbn; auto. now rewrite IH. Qed.
Lemma dupdate_map {V W} (f : V -> W) (d : dict letter V) (us : list (letter * V)) :
  dupdate letter_eqb (map (fun kv => (fst kv, f (snd kv))) d) (map (fun kv => (fst kv, f (snd kv))) us) =
  map (fun kv => (fst kv, f (snd kv))) (dupdate letter_eqb d us).
Proof.
  unfold dupdate. revert d; induction us as [|[k x] us IH]; intros d; cbn; auto. rewrite <- IH. f_equal.
  apply (dset_map f d k x).
Qed.
Lemma dget_in {V} (d : dict letter V) l v : dget letter_eqb d l = Some v -> In (l, v) d.
Proof.
  induction d as [|[k x] d IH]; cbn; [discriminate|]. destruct (letter_eqb l k) eqn:E.
  - intros [= ->]. apply letter_eqb_eq in E as ->. auto.
  - auto.
Qed.
Lemma in_dset {V} (d : dict letter V) l v kv : In kv (dset letter_eqb d l v) -> In kv d \/ kv = (l, v).
Proof.
  induction d as [|[k x] d IH]; cbn.
  - intros [<-|[]]; auto.
  - destruct (letter_eqb l k) eqn:E; cbn; intros [<-|H]; auto.
    + apply letter_eqb_eq in E as ->. auto.
    + destruct (IH H); auto.
Qed.
Lemma in_dupdate {V} (d : dict letter V) us kv : In kv (dupdate letter_eqb d us) -> In kv d \/ In kv us.
Proof.
  unfold dupdate. revert d; induction us as [|[k x] us IH]; intros d; cbn; auto.
  intros H. apply IH in H as [H|H]; auto. apply in_dset in H as [H| ->]; auto.
Qed.

Lemma dget_none_fst {V} (d : dict letter V) l : dget letter_eqb d l = None -> ~ In l (map fst d).
Proof.
  induction d as [|[k x] d IH]; cbn; auto. destruct (letter_eqb l k) eqn:E; [discriminate|]. intros H [->|I]; [|now apply IH in H].
  rewrite letter_eqb_refl in E. discriminate.
Qed.
Lemma in_dget_nodup {V} (d : dict letter V) l v : NoDup (map fst d) -> In (l, v) d -> dget letter_eqb d l = Some v.
Proof.
  induction d as [|[k x] d IH]; cbn; [easy|]. intros N [[= -> ->]|I]; [now rewrite letter_eqb_refl|].
  inversion N as [|? ? N1 N2]; subst. destruct (letter_eqb l k) eqn:E; auto.
  apply letter_eqb_eq in E as ->. destruct N1. apply in_map_iff. exists (k, v). auto.
Qed.
Lemma nodup_snoc {A} (l : list A) x : NoDup l -> ~ In x l -> NoDup (l ++ [x]).
Proof.
  induction l as [|y l IH]; cbn; intros N I; [constructor; auto; constructor|]. inversion N as [|? ? N1 N2]; subst. constructor.
  - intros H. apply in_app_iff in H as [H|[H|[]]]; subst; auto.
  - apply IH; auto.
Qed.

(** ** A well formed heap: no dangling reference, parameters under their own letters, no letter twice *)
Definition prefs (o : hgcode) : list ref := map snd (hparams o).
Definition wrefs (o : hgcode) : list ref := hword o :: prefs o.
Definition obj_ok (h : heap) (o : hgcode) : Prop :=
  hword o < length (cells h) /\
  (forall l r, In (l, r) (hparams o) -> r < length (cells h) /\ wletter (cell h r) = l) /\
  NoDup (map fst (hparams o)).
Definition heap_ok (h : heap) : Prop := Forall (obj_ok h) (objs h).

Lemma heap_ok_obj h i : heap_ok h -> i < length (objs h) -> obj_ok h (obj h i).
Proof. intros H L. apply (proj1 (Forall_forall _ _) H). apply nth_In, L. Qed.
Lemma obj_ok_more h h' o : length (cells h) <= length (cells h') ->
  (forall r, r < length (cells h) -> wletter (cell h' r) = wletter (cell h r)) -> obj_ok h o -> obj_ok h' o.
Proof.
  intros L W (A & B & C). split; [|split]; auto; [lia|]. intros l r I. destruct (B l r I) as [B1 B2]. split; [lia|].
  rewrite W; auto.
Qed.
Lemma obj_ok_wrefs h o r : obj_ok h o -> In r (wrefs o) -> r < length (cells h).
Proof.
  intros (A & B & _) [<-|I]; auto. unfold prefs in I. apply in_map_iff in I as ([l x] & E & I). cbn in E. subst x.
  apply (B l r I).
Qed.

Section WithArith.
Context {ar : Arith}.

(** ** Adding parameters and making gcodes *)
Definition keyed (h : heap) (rs : list ref) : dict letter ref := map (fun r => (wletter (cell h r), r)) rs.

Lemma h_add_parameter_ok h i r h' : i < length (objs h) -> h_add_parameter h i r = Ok h' ->
  let o := obj h i in let l := wletter (cell h r) in
  accepts (hcls o) l = true /\ dget letter_eqb (hparams o) l = None /\
  h' = set_obj h i (HG (hcls o) (hword o) (hparams o ++ [(l, r)]) (hwhite o)).
Proof.
  intros L. unfold h_add_parameter. destruct (accepts _ _) eqn:A; cbn; [|discriminate].
  unfold dmem. destruct (dget _ _ _) eqn:D; [discriminate|]. intros [= <-]. rewrite dset_absent by auto. auto.
Qed.
Lemma add_parameter_agrees h i r : i < length (objs h) ->
  add_parameter (gval h i) (cell h r) = rmap (fun h' => gval h' i) (h_add_parameter h i r).
Proof.
  intros L. unfold add_parameter, h_add_parameter, gval at 1 2 3 4 5 6. cbn [val_of gcls gparams gword gwhite].
  destruct (accepts _ _); cbn [negb]; auto. unfold dmem. rewrite (dget_map (cell h)).
  destruct (dget _ _ _) eqn:D; cbn [option_map]; auto. cbn [rmap]. f_equal. unfold gval. rewrite obj_set_same by auto.
  unfold val_of. cbn. f_equal. apply (dset_map (cell h)).
Qed.
Lemma h_add_parameter_objs h i r h' : h_add_parameter h i r = Ok h' -> cells h' = cells h /\ length (objs h') = length (objs h).
Proof.
  unfold h_add_parameter. destruct (accepts _ _); cbn; [|discriminate]. destruct (dmem _ _ _); [discriminate|].
  intros [= <-]. cbn. split; auto. apply update_length.
Qed.
Lemma add_parameters_agrees rs : forall h i, i < length (objs h) ->
  add_parameters (gval h i) (map (cell h) rs) = rmap (fun h' => gval h' i) (h_add_parameters h i rs).
Proof.
  induction rs as [|r rs IH]; intros h i L; cbn; auto. rewrite (add_parameter_agrees h i r L).
  destruct (h_add_parameter h i r) as [h1|e] eqn:E; cbn; auto.
  apply h_add_parameter_objs in E as [E1 E2]. rewrite <- IH by lia. f_equal. unfold cell. now rewrite E1.
Qed.
(** the object made: [os] before, [o] at the end *)
Lemma h_add_parameters_ok rs : forall h cs os o h', h = Heap cs (os ++ [o]) -> h_add_parameters h (length os) rs = Ok h' ->
  h' = Heap cs (os ++ [HG (hcls o) (hword o) (hparams o ++ keyed h rs) (hwhite o)]) /\
  (NoDup (map fst (hparams o)) -> NoDup (map fst (hparams o ++ keyed h rs))) /\
  Forall (fun r => accepts (hcls o) (wletter (cell h r)) = true) rs.
Proof.
  induction rs as [|r rs IH]; intros h cs os o h' E H; cbn in H.
  - injection H as <-. cbn. rewrite app_nil_r. destruct o; auto.
  - destruct (h_add_parameter h (length os) r) as [h1|e] eqn:A; [|discriminate]. cbn in H.
    assert (L : length os < length (objs h)) by (subst h; cbn; rewrite app_length; cbn; lia).
    apply h_add_parameter_ok in A as (A1 & A2 & A3); auto.
    assert (O : obj h (length os) = o). { subst h. unfold obj. cbn. rewrite app_nth2, Nat.sub_diag by lia. auto. }
    rewrite O in *.
    assert (E1 : h1 = Heap cs (os ++ [HG (hcls o) (hword o) (hparams o ++ [(wletter (cell h r), r)]) (hwhite o)])).
    { rewrite A3. subst h. unfold set_obj. cbn. f_equal. clear. induction os as [|x os IH]; cbn; auto. now rewrite IH. }
    assert (C : forall x, cell h1 x = cell h x) by (intros x; rewrite E1; subst h; reflexivity).
    apply (IH h1 cs os _ h' E1) in H as (H1 & H2 & H3). cbn [hcls hword hparams hwhite] in *.
    assert (K : keyed h1 rs = keyed h rs) by (unfold keyed; apply map_ext; intros x; now rewrite C).
    split; [|split].
    + rewrite H1. do 3 f_equal. rewrite <- app_assoc. cbn [app]. unfold keyed at 2. cbn [map]. fold (keyed h rs). now rewrite K.
    + intros N. rewrite K, <- app_assoc in H2. apply H2. rewrite map_app. cbn. apply nodup_snoc; auto. apply dget_none_fst; auto.
    + constructor; auto. eapply Forall_impl; [|exact H3]. cbn. intros x. now rewrite C.
Qed.

Definition made (h : heap) (c : gclass) (w : ref) (ps : list ref) : hgcode := HG c w (keyed h ps) false.
Lemma h_mk_gcode_ok h c w ps h' i : h_mk_gcode h c w ps = Ok (h', i) ->
  i = length (objs h) /\ h' = Heap (cells h) (objs h ++ [made h c w ps]) /\
  NoDup (map fst (keyed h ps)) /\ Forall (fun r => accepts c (wletter (cell h r)) = true) ps.
Proof.
  unfold h_mk_gcode. cbn. destruct (h_add_parameters _ _ _) as [h2|e] eqn:E; [|discriminate]. cbn. intros [= <- <-].
  destruct (h_add_parameters_ok ps _ (cells h) (objs h) (HG c w [] false) h2 eq_refl E) as (A & B & C). cbn in *.
  split; auto. split; [exact A|]. split; [apply B; constructor|exact C].
Qed.
Lemma mk_gcode_agrees h c w ps :
  mk_gcode c (cell h w) (map (cell h) ps) = rmap (fun p => gval (fst p) (snd p)) (h_mk_gcode h c w ps).
Proof.
  unfold mk_gcode, h_mk_gcode. cbn [new_obj fst snd].
  set (h1 := Heap (cells h) (objs h ++ [HG c w [] false])).
  assert (L : length (objs h) < length (objs h1)) by (cbn; rewrite app_length; cbn; lia).
  assert (G : gval h1 (length (objs h)) = MkGCode c (cell h w) [] false).
  { unfold gval, obj. cbn. rewrite app_nth2, Nat.sub_diag by lia. reflexivity. }
  rewrite <- G. change (map (cell h) ps) with (map (cell h1) ps). rewrite add_parameters_agrees by auto.
  destruct (h_add_parameters h1 (length (objs h)) ps); reflexivity.
Qed.

Local Arguments h_mk_gcode : simpl never.
Local Arguments made : simpl never.
Local Arguments h_params_of : simpl never.

(** ** Grouping words *)
Definition info_val (h : heap) (p : hinfo) : winfo := WInfo (cell h (hi_ref p)) (hi_class p) (hi_to p).
Lemma infos_agree h rs : map (info_val h) (h_infos h rs) = word_infos (map (cell h) rs).
Proof. unfold h_infos, word_infos. rewrite !map_map. reflexivity. Qed.
Lemma claim_agrees h i c l : map (info_val h) (h_claim h i c l) = claim i c (map (info_val h) l).
Proof.
  unfold h_claim, claim. rewrite !map_map. apply map_ext. intros p. cbn. now destruct (accepts _ _).
Qed.
Lemma link_agrees h n : forall i l, map (info_val h) (h_link h n i l) = link n i (map (info_val h) l).
Proof.
  induction n as [|n IH]; intros i [|p l]; cbn; auto. f_equal. rewrite IH. f_equal. destruct (hi_class p); auto. apply claim_agrees.
Qed.
Lemma params_agree h l key : map (cell h) (h_params_of l key) = params_of (map (info_val h) l) key.
Proof.
  unfold h_params_of, params_of. induction l as [|p l IH]; cbn; auto.
  destruct (hi_class p); cbn; auto. destruct (hi_to p), key; cbn; auto; try (f_equal; exact IH).
  destruct (_ =? _); cbn; auto. f_equal. exact IH.
Qed.

(** the objects [h_make_gcodes] makes *)
Fixpoint objs_of (h : heap) (all : list hinfo) (i : nat) (l : list hinfo) : list hgcode :=
  match l with
  | [] => []
  | p :: l' => match hi_class p with
               | None => objs_of h all (S i) l'
               | Some c => made h c (hi_ref p) (h_params_of all (Some i)) :: objs_of h all (S i) l'
               end
  end.
Lemma objs_of_ext h h' all l : forall i, (forall r, cell h' r = cell h r) -> objs_of h' all i l = objs_of h all i l.
Proof.
  induction l as [|p l IH]; intros i C; cbn; auto. destruct (hi_class p); auto. rewrite IH by auto. f_equal.
  unfold made, keyed. f_equal. apply map_ext. intros r. now rewrite C.
Qed.
Lemma h_make_gcodes_ok all l : forall h i h' gs, h_make_gcodes h all i l = Ok (h', gs) ->
  h' = Heap (cells h) (objs h ++ objs_of h all i l) /\ gs = seq (length (objs h)) (length (objs_of h all i l)) /\
  Forall (fun o => NoDup (map fst (hparams o)) /\ Forall (fun kv => accepts (hcls o) (fst kv) = true) (hparams o)) (objs_of h all i l).
Proof.
  induction l as [|p l IH]; intros h i h' gs; cbn.
  - intros [= <- <-]. rewrite app_nil_r. destruct h; auto.
  - destruct (hi_class p) as [c|]; [|apply IH].
    destruct (h_mk_gcode h c (hi_ref p) (h_params_of all (Some i))) as [[h1 g]|e] eqn:E; [|discriminate]. cbn.
    apply h_mk_gcode_ok in E as (E1 & E2 & E3 & E4).
    destruct (h_make_gcodes h1 all (S i) l) as [[h2 gs2]|e] eqn:F; [|discriminate]. cbn. intros [= <- <-].
    apply IH in F as (F1 & F2 & F3).
    assert (C : forall r, cell h1 r = cell h r) by (intros r; rewrite E2; reflexivity).
    rewrite (objs_of_ext h h1 all l (S i) C) in *.
    split; [|split].
    + rewrite F1, E2. cbn. now rewrite <- app_assoc.
    + rewrite E1, F2. cbn. f_equal. rewrite E2. cbn. rewrite app_length. cbn. f_equal. lia.
    + constructor; auto. cbn. split; auto. unfold keyed. apply Forall_forall. intros kv I. apply in_map_iff in I as (r & <- & I). cbn.
      rewrite Forall_forall in E4. apply E4, I.
Qed.
Lemma make_gcodes_agrees all l : forall h i,
  make_gcodes (map (info_val h) all) i (map (info_val h) l) =
  rmap (fun p => map (gval (fst p)) (snd p)) (h_make_gcodes h all i l).
Proof.
  induction l as [|p l IH]; intros h i; cbn; auto. destruct (hi_class p) as [c|]; auto.
  rewrite <- params_agree, mk_gcode_agrees.
  destruct (h_mk_gcode h c (hi_ref p) (h_params_of all (Some i))) as [[h1 g]|e] eqn:E; cbn; auto.
  apply h_mk_gcode_ok in E as (E1 & E2 & E3 & E4).
  assert (C : forall r, cell h1 r = cell h r) by (intros r; rewrite E2; reflexivity).
  assert (I : forall x, map (info_val h) x = map (info_val h1) x) by (intros x; apply map_ext; intros q; unfold info_val; now rewrite C).
  rewrite !I, IH. destruct (h_make_gcodes h1 all (S i) l) as [[h2 gs]|e] eqn:F; cbn; auto. do 2 f_equal.
  apply h_make_gcodes_ok in F as (F1 & F2 & F3). unfold gval. rewrite F1.
  rewrite obj_app by (subst g; rewrite E2; cbn; rewrite app_length; cbn; lia). reflexivity.
Qed.
Theorem words2gcodes_agrees h rs :
  words2gcodes (map (cell h) rs) = rmap (fun p => (map (gval (fst p)) (fst (snd p)), map (cell (fst p)) (snd (snd p)))) (h_words2gcodes h rs).
Proof.
  unfold words2gcodes, h_words2gcodes. rewrite <- infos_agree, map_length, <- link_agrees, make_gcodes_agrees.
  destruct (h_make_gcodes _ _ _ _) as [[h1 gs]|e] eqn:E; cbn; auto. do 2 f_equal. rewrite <- params_agree.
  apply h_make_gcodes_ok in E as (E1 & _). apply map_ext. intros r. rewrite E1. reflexivity.
Qed.

(** ** Which references the gcodes of a list of words hold *)
Lemma h_claim_refs h i c l : map hi_ref (h_claim h i c l) = map hi_ref l.
Proof. unfold h_claim. rewrite map_map. apply map_ext. intros p. now destruct (accepts _ _). Qed.
Lemma h_link_refs h n : forall i l, map hi_ref (h_link h n i l) = map hi_ref l.
Proof.
  induction n as [|n IH]; intros i [|p l]; cbn; auto. f_equal. rewrite IH. destruct (hi_class p); auto. apply h_claim_refs.
Qed.
Lemma h_infos_refs h rs : map hi_ref (h_infos h rs) = rs.
Proof. unfold h_infos. rewrite map_map. cbn. apply map_id. Qed.
Lemma in_h_params l key r : In r (h_params_of l key) <-> exists p, In p l /\ hi_ref p = r /\ hi_class p = None /\ hi_to p = key.
Proof.
  unfold h_params_of. rewrite in_map_iff. split.
  - intros (p & E & I). apply filter_In in I as [I F]. exists p. split; auto. split; auto.
    destruct (hi_class p); [discriminate|]. destruct (hi_to p), key; try discriminate; auto. apply Nat.eqb_eq in F as ->. auto.
  - intros (p & I & E & C & T). exists p. split; auto. apply filter_In. split; auto. rewrite C, T.
    destruct key; auto. apply Nat.eqb_refl.
Qed.
Lemma unique_info l p q : NoDup (map hi_ref l) -> In p l -> In q l -> hi_ref p = hi_ref q -> p = q.
Proof.
  induction l as [|x l IH]; cbn; [easy|]. intros N [<-|I] [<-|J] E; auto; inversion N as [|? ? N1 N2]; subst; auto.
  - destruct N1. rewrite E. now apply in_map.
  - destruct N1. rewrite <- E. now apply in_map.
Qed.
(** where an object of [objs_of] comes from *)
Lemma objs_of_nth h all : forall l i k, k < length (objs_of h all i l) ->
  exists n p c, nth_error l n = Some p /\ hi_class p = Some c /\
    nth k (objs_of h all i l) no_gcode = made h c (hi_ref p) (h_params_of all (Some (i + n))) /\ k <= n.
Proof.
  induction l as [|p l IH]; intros i k L; cbn in *; [lia|]. destruct (hi_class p) as [c|] eqn:C.
  - destruct k as [|k].
    + exists 0, p, c. rewrite Nat.add_0_r. auto.
    + cbn in L. destruct (IH (S i) k ltac:(lia)) as (n & q & d & A & B & D & E). exists (S n), q, d.
      rewrite <- plus_n_Sm. cbn. repeat split; auto. lia.
  - destruct (IH (S i) k L) as (n & q & d & A & B & D & E). exists (S n), q, d. rewrite <- plus_n_Sm. cbn. repeat split; auto.
Qed.
Lemma objs_of_distinct h all : forall l i k k', k < k' -> k' < length (objs_of h all i l) ->
  exists n p c n' p' c', n < n' /\ nth_error l n = Some p /\ nth_error l n' = Some p' /\ hi_class p = Some c /\ hi_class p' = Some c' /\
    nth k (objs_of h all i l) no_gcode = made h c (hi_ref p) (h_params_of all (Some (i + n))) /\
    nth k' (objs_of h all i l) no_gcode = made h c' (hi_ref p') (h_params_of all (Some (i + n'))).
Proof.
  induction l as [|p l IH]; intros i k k' L L'; cbn in *; [lia|]. destruct (hi_class p) as [c|] eqn:C.
  - destruct k' as [|k']; [lia|]. cbn in L'. destruct k as [|k].
    + destruct (objs_of_nth h all l (S i) k' ltac:(lia)) as (n & q & d & A & B & D & E).
      exists 0, p, c, (S n), q, d. rewrite Nat.add_0_r, <- plus_n_Sm. cbn. repeat split; auto. lia.
    + destruct (IH (S i) k k' ltac:(lia) ltac:(lia)) as (n & q & d & n' & q' & d' & A).
      exists (S n), q, d, (S n'), q', d'. rewrite <- !plus_n_Sm. cbn. decompose [and] A. repeat split; auto. lia.
  - destruct (IH (S i) k k' L L') as (n & q & d & n' & q' & d' & A).
    exists (S n), q, d, (S n'), q', d'. rewrite <- !plus_n_Sm. cbn. decompose [and] A. repeat split; auto. lia.
Qed.
Lemma prefs_made h c w ps : prefs (made h c w ps) = ps.
Proof. unfold prefs, made, keyed. cbn. rewrite map_map. cbn. apply map_id. Qed.

(** two gcodes made from one list of words share none of their words *)
Lemma objs_of_apart h l k k' : NoDup (map hi_ref l) -> k < length (objs_of h l 0 l) -> k' < length (objs_of h l 0 l) -> k <> k' ->
  forall r, In r (prefs (nth k (objs_of h l 0 l) no_gcode)) -> ~ In r (wrefs (nth k' (objs_of h l 0 l) no_gcode)).
Proof.
  intros N L L' D r.
  assert (G : exists n p c n' p' c', n <> n' /\ nth_error l n = Some p /\ nth_error l n' = Some p' /\ hi_class p = Some c /\ hi_class p' = Some c' /\
    nth k (objs_of h l 0 l) no_gcode = made h c (hi_ref p) (h_params_of l (Some n)) /\
    nth k' (objs_of h l 0 l) no_gcode = made h c' (hi_ref p') (h_params_of l (Some n'))).
  { destruct (Nat.lt_total k k') as [X|[X|X]]; [|lia|].
    - destruct (objs_of_distinct h l l 0 k k' X L') as (n & p & c & n' & p' & c' & A). exists n, p, c, n', p', c'. cbn in A.
      decompose [and] A. repeat split; auto. lia.
    - destruct (objs_of_distinct h l l 0 k' k X L) as (n & p & c & n' & p' & c' & A). exists n', p', c', n, p, c. cbn in A.
      decompose [and] A. repeat split; auto. lia. }
  destruct G as (n & p & c & n' & p' & c' & A & B & B' & C & C' & O & O'). rewrite O, O'.
  unfold wrefs. rewrite !prefs_made. unfold made; cbn [hword]. intros I.
  apply in_h_params in I as (q & Iq & Eq & Cq & Tq). intros [J|J].
  - assert (X : q = p') by (apply (unique_info l); auto; [eapply nth_error_In; eauto|congruence]). congruence.
  - apply in_h_params in J as (q' & Iq' & Eq' & Cq' & Tq').
    assert (X : q = q') by (apply (unique_info l); auto; congruence). congruence.
Qed.
(** a gcode's own word is not among its parameters *)
Lemma objs_of_own h l k : NoDup (map hi_ref l) -> k < length (objs_of h l 0 l) ->
  ~ In (hword (nth k (objs_of h l 0 l) no_gcode)) (prefs (nth k (objs_of h l 0 l) no_gcode)).
Proof.
  intros N L. destruct (objs_of_nth h l l 0 k L) as (n & p & c & A & B & C & _). rewrite C, prefs_made. unfold made; cbn [hword].
  intros I. apply in_h_params in I as (q & Iq & Eq & Cq & Tq).
  assert (X : q = p) by (apply (unique_info l); auto; eapply nth_error_In; eauto). congruence.
Qed.
Lemma objs_of_refs h l k r : k < length (objs_of h l 0 l) -> In r (wrefs (nth k (objs_of h l 0 l) no_gcode)) -> In r (map hi_ref l).
Proof.
  intros L. destruct (objs_of_nth h l l 0 k L) as (n & p & c & A & B & C & _). rewrite C. unfold wrefs. rewrite prefs_made. unfold made; cbn [hword].
  intros [<-|I].
  - apply in_map. eapply nth_error_In; eauto.
  - apply in_h_params in I as (q & Iq & <- & _). now apply in_map.
Qed.
(** the words left over are in none of the gcodes *)
Lemma objs_of_rest h l k r : NoDup (map hi_ref l) -> k < length (objs_of h l 0 l) -> In r (h_params_of l None) ->
  ~ In r (wrefs (nth k (objs_of h l 0 l) no_gcode)).
Proof.
  intros N L I. apply in_h_params in I as (q & Iq & Eq & Cq & Tq).
  destruct (objs_of_nth h l l 0 k L) as (n & p & c & A & B & C & _). rewrite C. unfold wrefs. rewrite prefs_made. unfold made; cbn [hword].
  intros [J|J].
  - assert (X : q = p) by (apply (unique_info l); auto; [eapply nth_error_In; eauto|congruence]). congruence.
  - apply in_h_params in J as (q' & Iq' & Eq' & Cq' & Tq').
    assert (X : q = q') by (apply (unique_info l); auto; congruence). congruence.
Qed.
(** the class is that of the word *)
Lemma h_claim_class h i c l p d : In p (h_claim h i c l) -> hi_class p = Some d -> In p l.
Proof. unfold h_claim. intros I C. apply in_map_iff in I as (q & E & I). destruct (accepts _ _); subst p; auto. discriminate C. Qed.
Lemma h_link_class h n : forall i l p d, In p (h_link h n i l) -> hi_class p = Some d -> In p l.
Proof.
  induction n as [|n IH]; intros i [|q l] p d; cbn; auto. intros [<-|I] C; auto. right.
  apply (IH _ _ _ d) in I; auto. destruct (hi_class q); auto. eapply h_claim_class; eauto.
Qed.
Lemma objs_of_class h rs k : let l := h_link h (length rs) 0 (h_infos h rs) in k < length (objs_of h l 0 l) ->
  word_gcode_class (cell h (hword (nth k (objs_of h l 0 l) no_gcode))) = Some (hcls (nth k (objs_of h l 0 l) no_gcode)).
Proof.
  intros l L. destruct (objs_of_nth h l l 0 k L) as (n & p & c & A & B & C & _). rewrite C. unfold made; cbn [hword hcls].
  apply nth_error_In in A. apply (h_link_class h _ _ _ p c) in A; auto. unfold h_infos in A. apply in_map_iff in A as (r & <- & I). exact B.
Qed.

(** ** Assigning *)
Lemma coerce_letter_word l v w : mk_word l v = Ok w -> wletter w = l.
Proof. unfold mk_word. destruct (coerce l v); [|discriminate]. intros [= <-]. reflexivity. Qed.
Lemma dset_present {V} (d : dict letter V) l v r : NoDup (map fst d) -> dget letter_eqb d l = Some r ->
  dset letter_eqb d l v = map (fun kv => (fst kv, if letter_eqb l (fst kv) then v else snd kv)) d.
Proof.
  induction d as [|[k x] d IH]; cbn; [discriminate|]. intros N. inversion N as [|? ? N1 N2]; subst. destruct (letter_eqb l k) eqn:E.
  - intros _. f_equal. apply letter_eqb_eq in E as ->. clear - N1. induction d as [|[k' x'] d IH]; cbn in *; auto.
    destruct (letter_eqb k k') eqn:E; [apply letter_eqb_eq in E as ->; destruct N1; auto|]. f_equal. apply IH. auto.
  - intros H. f_equal. apply IH; auto.
Qed.

(** what [gcode.l = v] does to the heap *)
Lemma h_setattr_cases h i l v h' : i < length (objs h) -> h_setattr h i l v = Ok h' ->
  h' = h \/
  (exists r v', dget letter_eqb (hparams (obj h i)) l = Some r /\ coerce (wletter (cell h r)) v = Ok v' /\
     h' = set_cell h r (Word (wletter (cell h r)) v')) \/
  (exists w, mk_word l v = Ok w /\ accepts (hcls (obj h i)) l = true /\ dget letter_eqb (hparams (obj h i)) l = None /\
     h' = Heap (cells h ++ [w]) (update (objs h) i
            (HG (hcls (obj h i)) (hword (obj h i)) (hparams (obj h i) ++ [(l, length (cells h))]) (hwhite (obj h i))))).
Proof.
  intros L. unfold h_setattr. destruct (accepts _ _) eqn:A; [|intros [= <-]; auto].
  destruct (dget _ _ _) as [r|] eqn:D.
  - destruct (coerce _ _) as [v'|e] eqn:C; [|discriminate]. cbn. intros [= <-]. right. left. eauto.
  - destruct (mk_word l v) as [w|e] eqn:M; [|discriminate]. cbn [bind new_cells]. cbn [length seq h_add_parameters].
    destruct (h_add_parameter _ _ _) as [h1|e] eqn:E; [|discriminate]. cbn. intros [= <-]. right. right. exists w.
    apply h_add_parameter_ok in E as (E1 & E2 & E3); [|exact L].
    assert (W : cell (Heap (cells h ++ [w]) (objs h)) (length (cells h)) = w).
    { unfold cell. cbn. rewrite app_nth2, Nat.sub_diag by lia. auto. }
    rewrite W, (coerce_letter_word l v w M) in *. auto.
Qed.

Theorem setattr_agrees h i l v : heap_ok h -> i < length (objs h) -> ~ In (hword (obj h i)) (prefs (obj h i)) ->
  gcode_setattr (gval h i) l v = rmap (fun h' => gval h' i) (h_setattr h i l v).
Proof.
  intros K L N. pose proof (heap_ok_obj h i K L) as (O1 & O2 & O3).
  unfold gcode_setattr, h_setattr, gval at 1 2 3 4 5 6. cbn [val_of gcls gparams gword gwhite].
  destruct (accepts _ _) eqn:A; [|reflexivity]. unfold pget. rewrite (dget_map (cell h)).
  destruct (dget _ _ _) as [r|] eqn:D; cbn [option_map].
  - pose proof (dget_in _ _ _ D) as I. destruct (O2 _ _ I) as [R1 R2].
    destruct (coerce (wletter (cell h r)) v) as [v'|e]; cbn [bind rmap]; auto. f_equal.
    unfold gval, obj. cbn [set_cell objs]. fold (obj h i). unfold val_of. cbn [hcls hword hparams hwhite]. f_equal.
    + symmetry. apply cell_set_other. intros ->. apply N. unfold prefs. change (hword (obj h i)) with (snd (l, hword (obj h i))). now apply in_map.
    + rewrite (dset_present _ l _ (cell h r)); [| rewrite map_map; exact O3 | rewrite dget_map, D; reflexivity].
      rewrite map_map. apply map_ext_in. intros [k x] J. cbn. f_equal. destruct (letter_eqb l k) eqn:E.
      * apply letter_eqb_eq in E as <-. assert (x = r) as ->. { pose proof (in_dget_nodup _ _ _ O3 J). congruence. }
        symmetry. apply cell_set_same. auto.
      * symmetry. apply cell_set_other. intros ->. destruct (O2 _ _ J) as [_ X]. rewrite R2 in X. subst k. rewrite letter_eqb_refl in E. discriminate.
  - destruct (mk_word l v) as [w|e] eqn:M; cbn [bind rmap]; auto. cbn [new_cells length seq h_add_parameters].
    set (h1 := Heap (cells h ++ [w]) (objs h)).
    assert (W : cell h1 (length (cells h)) = w) by (unfold cell, h1; cbn; rewrite app_nth2, Nat.sub_diag by lia; auto).
    assert (G : gval h1 i = gval h i).
    { unfold gval. change (obj h1 i) with (obj h i). unfold val_of. f_equal; [exact (cell_app h [w] (objs h) _ O1)|]. apply map_ext_in. intros [k x] J. cbn. f_equal.
      exact (cell_app h [w] (objs h) _ (proj1 (O2 _ _ J))). }
    change (MkGCode _ _ _ _) with (gval h i).
    rewrite <- G, <- W, (add_parameter_agrees h1 i (length (cells h))) by exact L.
    destruct (h_add_parameter h1 i (length (cells h))); reflexivity.
Qed.
Theorem getattr_agrees h i l : gcode_getattr (gval h i) l = h_getattr h i l.
Proof.
  unfold gcode_getattr, h_getattr, gval. cbn [val_of gcls gparams]. destruct (accepts _ _); auto. unfold pget. rewrite (dget_map (cell h)).
  destruct (dget _ _ _); reflexivity.
Qed.

(** ** Copies *)
Lemma filter_map_snd {V W} (f : V -> W) (P : letter -> bool) (d : dict letter V) :
  map snd (filter (fun kv => P (fst kv)) (map (fun kv => (fst kv, f (snd kv))) d)) = map f (map snd (filter (fun kv => P (fst kv)) d)).
Proof. induction d as [|[k x] d IH]; cbn; auto. destruct (P k); cbn; now rewrite IH. Qed.
Theorem modal_copy_agrees h i : modal_copy (gval h i) = rmap (fun p => gval (fst p) (snd p)) (h_modal_copy h i).
Proof.
  unfold modal_copy, h_modal_copy, gval at 1 2 3 4. cbn [val_of gcls gparams gword].
  rewrite <- mk_gcode_agrees. f_equal. apply (filter_map_snd (cell h) (accepts_modal (hcls (obj h i)))).
Qed.
Lemma h_modal_copy_ok h i h' c : heap_ok h -> i < length (objs h) -> h_modal_copy h i = Ok (h', c) ->
  c = length (objs h) /\
  h' = Heap (cells h) (objs h ++ [HG (hcls (obj h i)) (hword (obj h i)) (filter (fun kv => accepts_modal (hcls (obj h i)) (fst kv)) (hparams (obj h i))) false]).
Proof.
  intros K L H. apply h_mk_gcode_ok in H as (H1 & H2 & _). split; auto. rewrite H2. do 3 f_equal. unfold made. f_equal.
  unfold keyed. rewrite map_map. pose proof (heap_ok_obj h i K L) as (_ & O & _).
  transitivity (map (fun x => x) (filter (fun kv => accepts_modal (hcls (obj h i)) (fst kv)) (hparams (obj h i)))); [|apply map_id].
  apply map_ext_in. intros [k x] I. apply filter_In in I as [I _]. cbn. now rewrite (proj2 (O _ _ I)).
Qed.
End WithArith.
