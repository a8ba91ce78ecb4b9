(** Sessions: which objects can share words, after any sequence of statements. *)
From Coq Require Import Ascii String List Bool Arith ZArith QArith Qcanon Lia.
From Verif Require Import Base Num Regex Words GTable GCode Line Position Machine BaseFacts Heap HeapProofs.
Import ListNotations.
Open Scope nat_scope.

Definition block_objs (bs : list hblock) : list ref := flat_map hb_gcodes bs.

(** Apart from copies kept in a machine's mode, and then only in words for modal parameters of the same class,
    gcodes share nothing. *)
Record inv {ar : Arith} (h : heap) (bs : list hblock) (md : hmode) : Prop := Inv {
  inv_heap : heap_ok h;
  inv_bound : forall i, In i (block_objs bs) -> i < length (objs h);
  inv_nodup : NoDup (block_objs bs);
  inv_words : forall i j, i < length (objs h) -> j < length (objs h) -> ~ In (hword (obj h i)) (prefs (obj h j));
  inv_class : forall i, i < length (objs h) -> word_gcode_class (cell h (hword (obj h i))) = Some (hcls (obj h i));
  inv_share : forall i j r, i < length (objs h) -> In j (block_objs bs) -> i <> j -> In r (prefs (obj h i)) -> In r (prefs (obj h j)) ->
    ~ In i (block_objs bs) /\ hcls (obj h i) = hcls (obj h j) /\ accepts_modal (hcls (obj h j)) (wletter (cell h r)) = true;
  inv_mode : forall mg c, md mg = Some c -> c < length (objs h) /\ ~ In c (block_objs bs);
  inv_bwords : forall b r, In b bs -> In r (hb_words b) -> r < length (cells h);
  inv_modal : forall b r, In b bs -> In r (hb_modal b) -> In r (hb_words b) /\
    (forall i, i < length (objs h) -> r <> hword (obj h i)) /\ (forall j, In j (block_objs bs) -> ~ In r (prefs (obj h j)));
  inv_other : forall n m b c i r, n <> m -> nth_error bs n = Some b -> nth_error bs m = Some c -> In i (hb_gcodes b) ->
    In r (prefs (obj h i)) -> ~ In r (hb_words c)
}.

Lemma NoDup_app_disjoint {A} (l k : list A) : NoDup l -> NoDup k -> (forall x, In x l -> ~ In x k) -> NoDup (l ++ k).
Proof.
  induction l as [|x l IH]; cbn; auto. intros N M D. inversion N as [|? ? N1 N2]; subst. constructor.
  - intros H. apply in_app_iff in H as [H|H]; auto. now apply (D x (or_introl eq_refl)).
  - apply IH; auto.
Qed.

Section WithArith.
Context {ar : Arith}.

Lemma inv_start : inv (Heap [] []) [] no_mode.
Proof.
  constructor; cbn; try (intros; lia); try easy.
  - constructor.
  - constructor.
  - intros [|n] m b c i r _ H; discriminate H.
Qed.
Lemma inv_clear h bs md mg : inv h bs md -> inv h bs (fun x => if mgroup_eqb x mg then None else md x).
Proof.
  intros I. destruct I as [? ? ? ? ? ? M ? ? ?]. constructor; try assumption. intros x c. destruct (mgroup_eqb x mg); [discriminate|]. apply M.
Qed.

(** *** Assigning to a gcode of a block *)
Lemma in_prefs_dget o l r : dget letter_eqb (hparams o) l = Some r -> In r (prefs o).
Proof. intros D. apply dget_in in D. unfold prefs. change r with (snd (l, r)). now apply in_map. Qed.

Lemma set_cell_inv h bs md i l r v' : inv h bs md -> i < length (objs h) -> dget letter_eqb (hparams (obj h i)) l = Some r ->
  inv (set_cell h r (Word (wletter (cell h r)) v')) bs md.
Proof.
  intros I L D. set (h' := set_cell h r (Word (wletter (cell h r)) v')).
  pose proof (in_prefs_dget _ _ _ D) as P.
  assert (R : r < length (cells h)).
  { apply (obj_ok_wrefs h (obj h i)); [apply heap_ok_obj; auto; apply I|right; auto]. }
  assert (O : forall x, obj h' x = obj h x) by reflexivity.
  assert (N : length (objs h') = length (objs h)) by reflexivity.
  assert (NC : length (cells h') = length (cells h)) by apply update_length.
  assert (W : forall x, wletter (cell h' x) = wletter (cell h x)).
  { intros x. destruct (Nat.eq_dec r x) as [<-|X]; [unfold h'; rewrite cell_set_same by auto; reflexivity|].
    unfold h'. now rewrite cell_set_other. }
  constructor.
  - apply Forall_forall. intros o Io. apply (obj_ok_more h); [lia|intros; apply W|]. apply (proj1 (Forall_forall _ _) (inv_heap _ _ _ I)), Io.
  - exact (inv_bound _ _ _ I).
  - exact (inv_nodup _ _ _ I).
  - exact (inv_words _ _ _ I).
  - intros j J. rewrite O. unfold h'. rewrite cell_set_other; [apply I; auto|]. intros E. apply (inv_words _ _ _ I j i); auto. now rewrite <- E.
  - intros a b x. rewrite W. exact (inv_share _ _ _ I a b x).
  - exact (inv_mode _ _ _ I).
  - intros b x. rewrite NC. apply (inv_bwords _ _ _ I).
  - exact (inv_modal _ _ _ I).
  - exact (inv_other _ _ _ I).
Qed.

Lemma add_cell_inv h bs md i l w : inv h bs md -> In i (block_objs bs) -> wletter w = l -> dget letter_eqb (hparams (obj h i)) l = None ->
  inv (Heap (cells h ++ [w]) (update (objs h) i
        (HG (hcls (obj h i)) (hword (obj h i)) (hparams (obj h i) ++ [(l, length (cells h))]) (hwhite (obj h i))))) bs md.
Proof.
  intros I B WL D. pose proof (inv_bound _ _ _ I i B) as L.
  set (o' := HG _ _ _ _). set (h' := Heap _ _).
  assert (O1 : obj h' i = o') by (apply nth_update_same; auto).
  assert (O2 : forall x, x <> i -> obj h' x = obj h x) by (intros; apply nth_update_other; auto).
  assert (HW : forall x, hword (obj h' x) = hword (obj h x)).
  { intros x. destruct (Nat.eq_dec x i) as [->|X]; [rewrite O1; reflexivity|rewrite O2; auto]. }
  assert (HC : forall x, hcls (obj h' x) = hcls (obj h x)).
  { intros x. destruct (Nat.eq_dec x i) as [->|X]; [rewrite O1; reflexivity|rewrite O2; auto]. }
  assert (P : forall x r, In r (prefs (obj h' x)) -> In r (prefs (obj h x)) \/ (x = i /\ r = length (cells h))).
  { intros x r. destruct (Nat.eq_dec x i) as [->|X]; [|rewrite O2; auto]. rewrite O1. unfold prefs. cbn. rewrite map_app, in_app_iff. cbn.
    intros [H|[H|[]]]; auto. }
  assert (N : length (objs h') = length (objs h)) by apply update_length.
  assert (NC : length (cells h') = S (length (cells h))) by (cbn; rewrite app_length; cbn; lia).
  assert (C : forall x, x < length (cells h) -> cell h' x = cell h x) by (intros; apply cell_app; auto).
  assert (V : forall x, x < length (objs h) -> forall r, In r (wrefs (obj h x)) -> r < length (cells h)).
  { intros x X r. apply obj_ok_wrefs. apply heap_ok_obj; auto. apply I. }
  assert (VW : forall x, x < length (objs h) -> hword (obj h x) < length (cells h)) by (intros x X; apply (V x X); left; auto).
  assert (VP : forall x, x < length (objs h) -> forall r, In r (prefs (obj h x)) -> r < length (cells h)) by (intros x X r Y; apply (V x X); right; auto).
  constructor.
  - apply Forall_forall. intros o Io. apply (In_nth _ _ no_gcode) in Io as (x & X & E). rewrite N in X. change (nth x (objs h') no_gcode) with (obj h' x) in E. subst o.
    destruct (Nat.eq_dec x i) as [->|Xi].
    + rewrite O1. destruct (heap_ok_obj h i (inv_heap _ _ _ I) L) as (K1 & K2 & K3). split; [|split]; unfold o'; cbn [hword hparams]; rewrite ?NC.
      * lia.
      * intros k r Ik. apply in_app_iff in Ik as [Ik|[[= <- <-]|[]]].
        -- destruct (K2 k r Ik). split; [lia|]. rewrite C; auto.
        -- split; [lia|]. unfold cell. cbn. rewrite app_nth2, Nat.sub_diag by lia. exact WL.
      * rewrite map_app. cbn. apply nodup_snoc; auto. apply dget_none_fst; auto.
    + rewrite O2 by auto. apply (obj_ok_more h); [lia|intros; now rewrite C|]. apply heap_ok_obj; auto. apply I.
  - intros j J. rewrite N. apply I. auto.
  - apply I.
  - intros a b. rewrite N, HW. intros A Bb X. apply P in X as [X|[_ X]].
    + now apply (inv_words _ _ _ I a b).
    + pose proof (VW a A). lia.
  - intros a. rewrite N, HW, HC. intros A. rewrite C by auto. apply I; auto.
  - intros a b r. rewrite N, !HC. intros A Bb AB Xa Xb. pose proof (inv_bound _ _ _ I b Bb) as Lb.
    apply P in Xa as [Xa|[Ea Xa]]; apply P in Xb as [Xb|[Eb Xb]].
    + rewrite C by (apply (VP a A); auto). apply (inv_share _ _ _ I a b r); auto.
    + pose proof (VP a A r Xa). lia.
    + pose proof (VP b Lb r Xb). lia.
    + congruence.
  - intros mg c E. rewrite N. apply (inv_mode _ _ _ I mg c E).
  - intros b r Ib Ir. pose proof (inv_bwords _ _ _ I b r Ib Ir). lia.
  - intros b r Ib Ir. destruct (inv_modal _ _ _ I b r Ib Ir) as (A & A1 & A2). split; auto. split.
    + intros x. rewrite N, HW. auto.
    + intros j J X. apply P in X as [X|[_ X]]; [now apply (A2 j)|]. pose proof (inv_bwords _ _ _ I b r Ib A). lia.
  - intros n m b c j r NM En Em J X Y. apply P in X as [X|[_ X]]; [now apply (inv_other _ _ _ I n m b c j r)|].
    pose proof (inv_bwords _ _ _ I c r (nth_error_In _ _ Em) Y). lia.
Qed.
Lemma assign_inv h bs md i l v : inv h bs md -> In i (block_objs bs) -> inv (assign h (i, l, v)) bs md.
Proof.
  intros I B. unfold assign. cbn [fst snd]. destruct (h_setattr h i l v) as [h'|e] eqn:E; auto.
  pose proof (inv_bound _ _ _ I i B) as L.
  apply h_setattr_cases in E as [->|[(r & v' & D & _ & ->)|(w & M & _ & D & ->)]]; auto.
  - apply (set_cell_inv h bs md i l); auto.
  - apply add_cell_inv; auto. eapply coerce_letter_word; eauto.
Qed.

(** what an assignment leaves alone: every word that is not the parameter assigned, ... *)
Lemma assign_cells h i l v r : heap_ok h -> i < length (objs h) -> r < length (cells h) ->
  dget letter_eqb (hparams (obj h i)) l <> Some r -> cell (assign h (i, l, v)) r = cell h r.
Proof.
  intros K L R D. unfold assign. cbn [fst snd]. destruct (h_setattr h i l v) as [h'|e] eqn:E; auto.
  apply h_setattr_cases in E as [->|[(x & v' & D' & _ & ->)|(w & M & _ & _ & ->)]]; auto.
  - apply cell_set_other. intros ->. apply D, D'.
  - apply cell_app; auto.
Qed.
(** ... and every other gcode that does not use that parameter *)
Lemma assign_objs h i l v j : i < length (objs h) -> j <> i -> obj (assign h (i, l, v)) j = obj h j.
Proof.
  intros L J. unfold assign. cbn [fst snd]. destruct (h_setattr h i l v) as [h'|e] eqn:E; auto.
  apply h_setattr_cases in E as [->|[(x & v' & D' & _ & ->)|(w & M & _ & _ & ->)]]; auto. apply nth_update_other; auto.
Qed.
Lemma assign_gval h i l v j : heap_ok h -> i < length (objs h) -> j < length (objs h) -> j <> i ->
  (forall r, dget letter_eqb (hparams (obj h i)) l = Some r -> ~ In r (wrefs (obj h j))) ->
  gval (assign h (i, l, v)) j = gval h j.
Proof.
  intros K L J N D. unfold gval. rewrite assign_objs by auto. pose proof (heap_ok_obj h j K J) as O.
  assert (C : forall r, In r (wrefs (obj h j)) -> cell (assign h (i, l, v)) r = cell h r).
  { intros r R. apply assign_cells; auto; [eapply obj_ok_wrefs; eauto|]. intros X. now apply (D r X). }
  unfold val_of. f_equal.
  - apply C. left; auto.
  - apply map_ext_in. intros [k x] I. cbn. f_equal. apply C. right. unfold prefs. change x with (snd (k, x)). now apply in_map.
Qed.
Lemma assign_self h i l v : heap_ok h -> i < length (objs h) -> ~ In (hword (obj h i)) (prefs (obj h i)) ->
  gval (assign h (i, l, v)) i = match gcode_setattr (gval h i) l v with Ok g => g | Raise _ => gval h i end.
Proof.
  intros K L N. rewrite setattr_agrees by auto. unfold assign. cbn [fst snd]. destruct (h_setattr h i l v); reflexivity.
Qed.

(** *** Reading a line *)
Lemma h_words2gcodes_ok h rs h' gs rest : h_words2gcodes h rs = Ok (h', (gs, rest)) ->
  let l := h_link h (length rs) 0 (h_infos h rs) in
  h' = Heap (cells h) (objs h ++ objs_of h l 0 l) /\ gs = seq (length (objs h)) (length (objs_of h l 0 l)) /\ rest = h_params_of l None /\
  map hi_ref l = rs /\
  Forall (fun o => NoDup (map fst (hparams o)) /\ Forall (fun kv => accepts (hcls o) (fst kv) = true) (hparams o)) (objs_of h l 0 l).
Proof.
  intros H l. unfold h_words2gcodes in H. fold l in H. destruct (h_make_gcodes h l 0 l) as [[h1 g1]|e] eqn:E; [|discriminate].
  cbn in H. injection H as <- <- <-. apply h_make_gcodes_ok in E as (E1 & E2 & E3). repeat split; auto.
  unfold l. rewrite h_link_refs. apply h_infos_refs.
Qed.
Lemma made_params h l k x r : k < length (objs_of h l 0 l) -> In (x, r) (hparams (nth k (objs_of h l 0 l) no_gcode)) -> x = wletter (cell h r).
Proof.
  intros L. destruct (objs_of_nth h l l 0 k L) as (n & p & c & _ & _ & -> & _). cbn. unfold keyed. intros I.
  apply in_map_iff in I as (y & [= <- <-] & _). reflexivity.
Qed.

Lemma add_block_inv h bs md b : inv h bs md -> hb_gcodes b = [] -> hb_words b = [] -> hb_modal b = [] -> inv h (bs ++ [b]) md.
Proof.
  intros I G W M.
  assert (B : block_objs (bs ++ [b]) = block_objs bs) by (unfold block_objs; rewrite flat_map_app; cbn; rewrite G, !app_nil_r; auto).
  assert (X : forall c, In c (bs ++ [b]) -> In c bs \/ c = b) by (intros c H; apply in_app_iff in H as [H|[H|[]]]; auto).
  constructor; rewrite ?B; try apply I.
  - intros c r Ic Ir. apply X in Ic as [Ic| ->]; [eapply inv_bwords; eauto|]. rewrite W in Ir. destruct Ir.
  - intros c r Ic Ir. apply X in Ic as [Ic| ->]; [apply (inv_modal _ _ _ I c r); auto|]. rewrite M in Ir. destruct Ir.
  - intros n m c d i r NM En Em Ii Ir J.
    assert (Y : forall n c x, nth_error (bs ++ [b]) n = Some c -> In x (hb_gcodes c) \/ In x (hb_words c) -> nth_error bs n = Some c).
    { clear - G W. intros n c x E H. destruct (Nat.lt_ge_cases n (length bs)); [rewrite nth_error_app1 in E; auto|].
      rewrite nth_error_app2 in E by auto. destruct (n - length bs) as [|k]; cbn in E; [|destruct k; discriminate].
      injection E as <-. rewrite G, W in H. destruct H as [[]|[]]. }
    apply (inv_other _ _ _ I n m c d i r); auto; eapply Y; eauto.
Qed.
Lemma parse_inv h bs md v s h' b : inv h bs md -> h_mk_block h v s = Ok (h', b) -> inv h' (bs ++ [b]) md.
Proof.
  intros I. unfold h_mk_block. destruct s as [|a s]; [intros [= <- <-]; apply add_block_inv; auto|].
  destruct (text2words _) as [ws|e]; [|discriminate]. cbn [bind new_cells].
  set (h1 := Heap (cells h ++ ws) (objs h)). set (rs := seq (length (cells h)) (length ws)).
  destruct (h_words2gcodes h1 rs) as [[h2 [gs rest]]|e] eqn:E; [|discriminate]. cbn [bind].
  intros H. assert (X : h' = h2 /\ b = HBlock rs gs rest).
  { destruct v; [|injection H as <- <-; auto]. destruct (assert_gcodes _ _ _); [|discriminate]. injection H as <- <-. auto. }
  clear H. destruct X as [-> ->]. pose proof (h_words2gcodes_ok h1 rs h2 gs rest E) as Z. clear E.
  pose (l := h_link h1 (@length ref rs) 0 (h_infos h1 rs)). pose (os := objs_of h1 l 0 l). cbv zeta in Z. fold l in Z. fold os in Z. destruct Z as (E1 & E2 & E3 & E4 & E5).
  set (n := length (cells h)) in *. set (m := length (objs h)) in *. cbn [objs h1] in E1, E2. fold m in E2.
  assert (ND : NoDup (map hi_ref l)) by (rewrite E4; apply seq_NoDup).
  assert (RS : forall r, In r rs <-> n <= r < n + length ws) by (intros r; apply in_seq).
  assert (C : forall r, r < n -> cell h2 r = cell h r) by (intros r R; rewrite E1; apply cell_app; auto).
  assert (C1 : forall r, cell h2 r = cell h1 r) by (intros r; rewrite E1; reflexivity).
  assert (NC : length (cells h2) = n + length ws) by (rewrite E1; cbn; apply app_length).
  assert (NO : length (objs h2) = m + length os) by (rewrite E1; cbn; apply app_length).
  assert (O1 : forall i, i < m -> obj h2 i = obj h i) by (intros i L; rewrite E1; apply (obj_app h); auto).
  assert (O2 : forall k, obj h2 (m + k) = nth k os no_gcode).
  { intros k. rewrite E1. unfold obj. cbn. rewrite app_nth2 by (fold m; lia). f_equal. fold m. lia. }
  assert (CASE : forall i, i < length (objs h2) -> i < m \/ exists k, i = m + k /\ k < length os).
  { intros i L. destruct (Nat.lt_ge_cases i m); auto. right. exists (i - m). lia. }
  assert (B : block_objs (bs ++ [HBlock rs gs rest]) = block_objs bs ++ gs) by (unfold block_objs; rewrite flat_map_app; cbn; now rewrite app_nil_r).
  assert (GS : forall i, In i gs <-> m <= i < m + length os) by (intros i; rewrite E2; apply in_seq).
  assert (OLD : forall i r, i < m -> In r (wrefs (obj h i)) -> r < n).
  { intros i r L. apply obj_ok_wrefs, heap_ok_obj; auto. apply I. }
  assert (NEW : forall k r, k < length os -> In r (wrefs (nth k os no_gcode)) -> n <= r < n + length ws).
  { intros k r K Y. apply RS. rewrite <- E4. apply (objs_of_refs h1 l k); auto. }
  assert (OLDP : forall i r, i < m -> In r (prefs (obj h i)) -> r < n) by (intros i r L Y; apply (OLD i); auto; right; auto).
  assert (NEWP : forall k r, k < length os -> In r (prefs (nth k os no_gcode)) -> n <= r < n + length ws) by (intros k r L Y; apply (NEW k); auto; right; auto).
  assert (BO : forall i, In i (block_objs bs) -> i < m) by apply I.
  constructor.
  - apply Forall_forall. intros o Io. apply (In_nth _ _ no_gcode) in Io as (x & X & E). change (nth x (objs h2) no_gcode) with (obj h2 x) in E. subst o.
    apply CASE in X as [X|(k & -> & X)].
    + rewrite O1 by auto. apply (obj_ok_more h); [lia|intros; now rewrite C|]. apply heap_ok_obj; auto. apply I.
    + rewrite O2. split; [|split].
      * rewrite NC. apply (NEW k); auto. left; auto.
      * intros y r Iy. split.
        -- rewrite NC. apply (NEW k); auto. right. unfold prefs. change r with (snd (y, r)). now apply in_map.
        -- rewrite C1. symmetry. apply (made_params h1 l k); auto.
      * rewrite Forall_forall in E5. apply E5. apply nth_In; auto.
  - intros i. rewrite B, in_app_iff, GS, NO. intros [J|J]; [apply BO in J|]; lia.
  - rewrite B. apply NoDup_app_disjoint; [apply I|rewrite E2; apply seq_NoDup|]. intros i J K. apply BO in J. apply GS in K. lia.
  - intros i j Li Lj. apply CASE in Li as [Li|(k & -> & Li)]; apply CASE in Lj as [Lj|(k' & -> & Lj)].
    + rewrite !O1 by auto. apply I; auto.
    + rewrite O2, (O1 i) by auto. intros Y. apply NEWP in Y; auto. assert (hword (obj h i) < n) by (apply (OLD i); auto; left; auto). lia.
    + rewrite O2, (O1 j) by auto. intros Y. apply OLDP in Y; auto. assert (n <= hword (nth k os no_gcode)) by (apply (NEW k); auto; left; auto). lia.
    + rewrite !O2. destruct (Nat.eq_dec k k') as [<-|D]; [apply objs_of_own; auto|].
      intros Y. apply (objs_of_apart h1 l k' k ND Lj Li (not_eq_sym D) _ Y). left; auto.
  - intros i Li. apply CASE in Li as [Li|(k & -> & Li)].
    + rewrite O1 by auto. rewrite C by (apply (OLD i); auto; left; auto). apply I; auto.
    + rewrite O2, C1. apply (objs_of_class h1 rs k Li).
  - intros i j r Li Ij D Ri Rj. rewrite B, in_app_iff in *. 
    assert (Lj : j < length (objs h2)). { rewrite NO. destruct Ij as [Ij|Ij]; [apply BO in Ij; lia|apply GS in Ij; lia]. }
    apply CASE in Li as [Li|(k & -> & Li)]; apply CASE in Lj as [Lj|(k' & -> & Lj)].
    + rewrite !O1 in * by auto. assert (Jb : In j (block_objs bs)). { destruct Ij as [Ij|Ij]; auto. apply GS in Ij. lia. }
      rewrite C by (apply (OLDP i); auto).
      destruct (inv_share _ _ _ I i j r Li Jb D Ri Rj) as (S1 & S2 & S3). split; auto. intros [Y|Y]; auto. apply GS in Y. lia.
    + rewrite O1 in Ri by auto. rewrite O2 in Rj. apply OLDP in Ri; auto. apply NEWP in Rj; auto. lia.
    + rewrite O1 in Rj by auto. rewrite O2 in Ri. apply OLDP in Rj; auto. apply NEWP in Ri; auto. lia.
    + rewrite O2 in *. destruct (objs_of_apart h1 l k k' ND Li Lj ltac:(lia) _ Ri). right; auto.
  - intros mg c E. destruct (inv_mode _ _ _ I mg c E) as [M1 M2]. split; [rewrite NO; fold m in M1; lia|]. rewrite B, in_app_iff, GS. fold m in M1. intros [Y|Y]; auto. lia.
  - intros c r Ic Ir. rewrite NC. apply in_app_iff in Ic as [Ic|[<-|[]]].
    + pose proof (inv_bwords _ _ _ I c r Ic Ir). fold n in H. lia.
    + apply RS in Ir. lia.
  - intros c r Ic Ir. rewrite B. apply in_app_iff in Ic as [Ic|[<-|[]]].
    + destruct (inv_modal _ _ _ I c r Ic Ir) as (M1 & M2 & M3). pose proof (inv_bwords _ _ _ I c r Ic M1) as M4. fold n in M4. split; auto. split.
      * intros i Li. apply CASE in Li as [Li|(k & -> & Li)]; [rewrite O1 by auto; apply M2; auto|]. rewrite O2. intros ->.
        assert (n <= hword (nth k os no_gcode)) by (apply (NEW k); auto; left; auto). lia.
      * intros j Ij. apply in_app_iff in Ij as [Ij|Ij]; [rewrite O1 by (apply BO; auto); apply M3; auto|]. apply GS in Ij. replace j with (m + (j - m)) by lia.
        rewrite O2. intros Y. apply NEWP in Y; lia.
    + cbn [hb_modal] in Ir. rewrite E3 in Ir. assert (Irs : In r rs). { rewrite <- E4. apply in_h_params in Ir as (q & Q & <- & _). now apply in_map. }
      pose proof (proj1 (RS r) Irs) as RR. split; [exact Irs|]. split.
      * intros i Li. apply CASE in Li as [Li|(k & -> & Li)].
        -- rewrite O1 by auto. assert (hword (obj h i) < n) by (apply (OLD i); auto; left; auto). lia.
        -- rewrite O2. intros ->. apply (objs_of_rest h1 l k _ ND Li Ir). left; auto.
      * intros j Ij. apply in_app_iff in Ij as [Ij|Ij].
        -- rewrite O1 by (apply BO; auto). intros Y. apply OLDP in Y; [lia|apply BO; auto].
        -- apply GS in Ij. replace j with (m + (j - m)) by lia. rewrite O2. intros Y. apply (objs_of_rest h1 l (j - m) r ND ltac:(fold os; lia) Ir). right; auto.
  - intros x y c d i r NM Ex Ey Ii Ir J.
    assert (Y : forall x c, nth_error (bs ++ [HBlock rs gs rest]) x = Some c -> nth_error bs x = Some c \/ (x = length bs /\ c = HBlock rs gs rest)).
    { clear. intros x c E. destruct (Nat.lt_ge_cases x (length bs)); [rewrite nth_error_app1 in E; auto|].
      rewrite nth_error_app2 in E by auto. destruct (x - length bs) as [|k] eqn:K; cbn in E; [|destruct k; discriminate].
      injection E as <-. right. split; auto. lia. }
    apply Y in Ex as [Ex|[Ex ->]]; apply Y in Ey as [Ey|[Ey ->]].
    + assert (Li : i < m). { apply BO. unfold block_objs. apply in_flat_map. exists c. split; auto. eapply nth_error_In; eauto. }
      rewrite O1 in Ir by auto. apply (inv_other _ _ _ I x y c d i r); auto.
    + assert (Li : i < m). { apply BO. unfold block_objs. apply in_flat_map. exists c. split; auto. eapply nth_error_In; eauto. }
      rewrite O1 in Ir by auto. apply OLDP in Ir; auto. apply RS in J. lia.
    + cbn [hb_gcodes] in Ii. apply GS in Ii. replace i with (m + (i - m)) in Ir by lia. rewrite O2 in Ir. apply NEWP in Ir; [|lia].
      pose proof (inv_bwords _ _ _ I d r (nth_error_In _ _ Ey) J). fold n in H. lia.
    + lia.
Qed.

(** *** One more gcode, made of words that exist *)
Lemma extend_inv h bs md md' o : inv h bs md -> obj_ok h o ->
  (forall j, j < length (objs h) -> ~ In (hword o) (prefs (obj h j))) ->
  (forall j, j < length (objs h) -> ~ In (hword (obj h j)) (prefs o)) -> ~ In (hword o) (prefs o) ->
  word_gcode_class (cell h (hword o)) = Some (hcls o) ->
  (forall j r, In j (block_objs bs) -> In r (prefs o) -> In r (prefs (obj h j)) ->
     hcls o = hcls (obj h j) /\ accepts_modal (hcls (obj h j)) (wletter (cell h r)) = true) ->
  (forall b r, In b bs -> In r (hb_modal b) -> r <> hword o) ->
  (forall mg c, md' mg = Some c -> md mg = Some c \/ c = length (objs h)) ->
  inv (Heap (cells h) (objs h ++ [o])) bs md'.
Proof.
  intros I OK W1 W2 W3 CL SH MO MD. set (h' := Heap _ _). set (m := length (objs h)) in *.
  assert (C : forall r, cell h' r = cell h r) by reflexivity.
  assert (NO : length (objs h') = S m) by (cbn; rewrite app_length; cbn; fold m; lia).
  assert (O1 : forall i, i < m -> obj h' i = obj h i) by (intros i L; apply (obj_app h); auto).
  assert (O2 : obj h' m = o) by (unfold obj, h'; cbn; rewrite app_nth2, Nat.sub_diag by (fold m; lia); auto).
  assert (CASE : forall i, i < length (objs h') -> i < m \/ i = m) by (intros i; lia).
  assert (BO : forall i, In i (block_objs bs) -> i < m) by apply I.
  constructor.
  - apply Forall_forall. intros x Ix. cbn in Ix. apply in_app_iff in Ix as [Ix|[<-|[]]]; [|exact OK].
    exact (proj1 (Forall_forall _ _) (inv_heap _ _ _ I) x Ix).
  - intros i B. rewrite NO. apply BO in B. lia.
  - apply I.
  - intros i j Li Lj. apply CASE in Li as [Li| ->]; apply CASE in Lj as [Lj| ->]; rewrite ?O2, ?O1 by auto; auto. apply I; auto.
  - intros i Li. rewrite C. apply CASE in Li as [Li| ->]; rewrite ?O2, ?O1 by auto; auto. apply I; auto.
  - intros i j r Li Bj D. rewrite C, (O1 j) by auto. apply CASE in Li as [Li| ->].
    + rewrite O1 by auto. apply I; auto.
    + rewrite O2. intros R1 R2. destruct (SH j r Bj R1 R2). split; auto. intros X. apply BO in X. lia.
  - intros mg c E. rewrite NO. apply MD in E as [E| ->].
    + destruct (inv_mode _ _ _ I mg c E) as [X Y]. fold m in X. split; auto.
    + split; [lia|]. intros X. apply BO in X. lia.
  - apply I.
  - intros b r Ib Ir. destruct (inv_modal _ _ _ I b r Ib Ir) as (X & Y & Z). split; auto. split.
    + intros i Li. apply CASE in Li as [Li| ->]; rewrite ?O2, ?O1 by auto; auto. exact (MO b r Ib Ir).
    + intros j Bj. rewrite O1 by auto. auto.
  - intros n k b c i r NK En Ek Ii. rewrite O1; [exact (inv_other _ _ _ I n k b c i r NK En Ek Ii)|].
    apply BO. apply in_flat_map. exists b. split; auto. eapply nth_error_In; eauto.
Qed.

Lemma hm_set_some md mg c x d : hm_set md mg c x = Some d -> md x = Some d \/ d = c.
Proof. unfold hm_set. destruct (mgroup_eqb x mg); [intros [= <-]|]; auto. Qed.
Lemma copy_inv h bs md i mg h' c : inv h bs md -> i < length (objs h) -> h_modal_copy h i = Ok (h', c) ->
  inv h' bs (hm_set md mg c) /\ length (objs h) <= length (objs h').
Proof.
  intros I L H. apply h_modal_copy_ok in H as [-> ->]; [|apply I|auto].
  set (o := HG _ _ _ _).
  assert (P : forall r, In r (prefs o) -> In r (prefs (obj h i)) /\ accepts_modal (hcls (obj h i)) (wletter (cell h r)) = true).
  { intros r X. unfold prefs, o in X. cbn in X. apply in_map_iff in X as ([k x] & E & X). cbn in E. subst x. apply filter_In in X as [X A]. cbn in A.
    split; [unfold prefs; change r with (snd (k, r)); now apply in_map|].
    destruct (heap_ok_obj h i (inv_heap _ _ _ I) L) as (_ & O & _). now rewrite (proj2 (O k r X)). }
  split; [|cbn; rewrite app_length; lia]. apply (extend_inv h bs md); auto.
  - destruct (heap_ok_obj h i (inv_heap _ _ _ I) L) as (K1 & K2 & K3). split; [|split]; auto.
    + intros k r X. cbn in X. apply filter_In in X as [X _]. apply K2; auto.
    + cbn. clear - K3. induction (hparams (obj h i)) as [|[k x] d IH]; cbn in *; [constructor|]. inversion K3 as [|? ? N1 N2]; subst.
      destruct (accepts_modal _ k); cbn; auto. constructor; auto. intros X. apply N1. apply in_map_iff in X as (y & E & X). apply filter_In in X as [X _].
      apply in_map_iff. eauto.
  - intros j J X. cbn in X. now apply (inv_words _ _ _ I i j).
  - intros j J X. apply P in X as [X _]. now apply (inv_words _ _ _ I j i).
  - intros X. apply P in X as [X _]. now apply (inv_words _ _ _ I i i).
  - apply I; auto.
  - intros j r Bj X Y. apply P in X as [X A]. destruct (Nat.eq_dec i j) as [<-|D]; [auto|].
    destruct (inv_share _ _ _ I i j r L Bj D X Y) as (_ & S2 & S3). auto.
  - intros b r Ib Ir. cbn. apply (inv_modal _ _ _ I b r Ib Ir); auto.
  - intros x d E. apply hm_set_some in E as [E|E]; auto.
Qed.
Lemma mode_set_list_inv gs : forall h bs md h' md', inv h bs md -> Forall (fun i => i < length (objs h)) gs ->
  h_mode_set_list h md gs = Ok (h', md') -> inv h' bs md'.
Proof.
  induction gs as [|i gs IH]; intros h bs md h' md' I F; cbn [h_mode_set_list].
  - intros [= <- <-]. auto.
  - inversion F as [|? ? L F']; subst. destruct (modal_group (hcls (obj h i))) as [mg|]; [|apply IH; auto].
    destruct (h_modal_copy h i) as [[h1 c]|e] eqn:E; [|discriminate]. cbn [bind].
    destruct (copy_inv h bs md i mg h1 c I L E) as [I1 L1]. intros H. apply (IH h1 bs _ h' md' I1); auto.
    eapply Forall_impl; [|exact F']. cbn. intros; lia.
Qed.

(** *** The gcode for bare parameters *)
Lemma h_link_head h n i p l q L : h_link h n i (p :: l) = q :: L -> q = p.
Proof. destruct n; cbn; intros H; injection H; auto. Qed.
Lemma modal_gcode_inv h bs md b h' og : inv h bs md -> In b bs -> h_modal_gcode h md (hb_modal b) = Ok (h', og) ->
  inv h' bs md /\ length (objs h) <= length (objs h') /\ match og with Some g => g < length (objs h') | None => True end.
Proof.
  intros I Ib. unfold h_modal_gcode. destruct (hb_modal b) as [|r0 rs0] eqn:MB; [intros [= <- <-]; auto|]. rewrite <- MB.
  destruct (md MG_motion) as [mo|] eqn:MO; [|discriminate]. destruct (inv_mode _ _ _ I _ _ MO) as [Lm Bm].
  set (params := dupdate _ _ _). set (rs := hword (obj h mo) :: map snd params).
  destruct (h_words2gcodes h rs) as [[h1 [gs rest]]|e] eqn:E; [|discriminate]. cbn [bind fst snd].
  pose proof (h_words2gcodes_ok h rs h1 gs rest E) as Z. clear E. cbv zeta in Z.
  pose (l := h_link h (length rs) 0 (h_infos h rs)). fold l in Z. destruct Z as (E1 & E2 & E3 & E4 & E5).
  destruct rest as [|]; [|discriminate].
  assert (HL : exists L, l = HInfo (hword (obj h mo)) (Some (hcls (obj h mo))) None :: L).
  { unfold l, h_infos, rs. cbn [map length]. cbn [h_link]. rewrite (inv_class _ _ _ I mo Lm). eauto. }
  destruct HL as [L HL].
  assert (OS : exists os, objs_of h l 0 l = made h (hcls (obj h mo)) (hword (obj h mo)) (h_params_of l (Some 0)) :: os).
  { assert (G : forall k, k = HInfo (hword (obj h mo)) (Some (hcls (obj h mo))) None :: L ->
      objs_of h l 0 k = made h (hcls (obj h mo)) (hword (obj h mo)) (h_params_of l (Some 0)) :: objs_of h l 1 L) by (intros k ->; reflexivity).
    eexists. apply G, HL. }
  destruct OS as [os OS]. rewrite OS in *. cbn [length seq] in E2.
  destruct os as [|o2 os]; [|subst gs; discriminate]. cbn in E2. subst gs. intros [= <- <-].
  set (o := made h (hcls (obj h mo)) (hword (obj h mo)) (h_params_of l (Some 0))) in *.
  assert (PS : prefs o = h_params_of l (Some 0)) by apply prefs_made.
  assert (P : forall r, In r (prefs o) -> In r (prefs (obj h mo)) \/ In r (hb_modal b)).
  { intros r X. rewrite PS in X. apply in_h_params in X as (q & Q & <- & Qc & Qt).
    assert (Y : In q L). { rewrite HL in Q. destruct Q as [<-|Q]; auto. discriminate Qc. }
    assert (Z : In (hi_ref q) (map snd params)).
    { rewrite HL in E4. cbn in E4. injection E4 as E4. rewrite <- E4. now apply in_map. }
    apply in_map_iff in Z as ([k x] & Ex & Z). cbn in Ex. subst x. apply in_dupdate in Z as [Z|Z].
    - left. unfold prefs. change (hi_ref q) with (snd (k, hi_ref q)). now apply in_map.
    - right. apply in_map_iff in Z as (y & [= _ <-] & Z). exact Z. }
  split; [|split].
  - rewrite E1. apply (extend_inv h bs md); auto.
    + destruct (heap_ok_obj h mo (inv_heap _ _ _ I) Lm) as (K1 & K2 & K3). split; [|split].
      * exact K1.
      * intros k r X. split.
        -- assert (Y : In r (prefs o)) by (unfold prefs; change r with (snd (k, r)); now apply in_map).
           apply P in Y as [Y|Y].
           ++ apply (obj_ok_wrefs h (obj h mo)); [apply heap_ok_obj; auto; apply I|right; auto].
           ++ apply (inv_bwords _ _ _ I b); auto. apply (inv_modal _ _ _ I b r Ib Y).
        -- unfold o, made, keyed in X. cbn in X. apply in_map_iff in X as (y & [= <- <-] & _). reflexivity.
      * inversion E5 as [|? ? [N _] _]; subst. exact N.
    + intros j J X. now apply (inv_words _ _ _ I mo j).
    + intros j J X. apply P in X as [X|X]; [now apply (inv_words _ _ _ I j mo)|].
      destruct (inv_modal _ _ _ I b _ Ib X) as (_ & Y & _). now apply (Y j J).
    + intros X. apply P in X as [X|X]; [now apply (inv_words _ _ _ I mo mo)|].
      destruct (inv_modal _ _ _ I b _ Ib X) as (_ & Y & _). now apply (Y mo Lm).
    + apply I; auto.
    + intros j r Bj X Y. apply P in X as [X|X].
      * assert (D : mo <> j) by (intros ->; auto). destruct (inv_share _ _ _ I mo j r Lm Bj D X Y) as (_ & S2 & S3). auto.
      * destruct (inv_modal _ _ _ I b _ Ib X) as (_ & _ & Z). destruct (Z j Bj Y).
    + intros c r Ic Ir. destruct (inv_modal _ _ _ I c _ Ic Ir) as (_ & Y & _). apply Y; auto.
  - rewrite E1. cbn. rewrite app_length. lia.
  - rewrite E1. cbn. rewrite app_length. cbn. lia.
Qed.
Lemma in_insert {A} (key : A -> Z) x l y : In y (insert key x l) <-> y = x \/ In y l.
Proof.
  induction l as [|z l IH]; cbn; [intuition congruence|]. destruct (_ <=? _)%Z; cbn; [intuition congruence|]. rewrite IH. intuition congruence.
Qed.
Lemma in_sort {A} (key : A -> Z) l y : In y (sort key l) <-> In y l.
Proof. induction l as [|z l IH]; cbn; [tauto|]. rewrite in_insert, IH. intuition congruence. Qed.
Lemma in_firstn {A} n : forall (l : list A) x, In x (firstn n l) -> In x l.
Proof. induction n as [|n IH]; intros [|y l] x; cbn; try tauto. intros [->|H]; auto. Qed.
Lemma process_inv h bs md b k h' md' : inv h bs md -> In b bs -> h_process h md b k = Ok (h', md') -> inv h' bs md'.
Proof.
  intros I Ib. unfold h_process. destruct (h_modal_gcode h md (hb_modal b)) as [[h1 og]|e] eqn:E; [|discriminate]. cbn [bind].
  destruct (modal_gcode_inv h bs md b h1 og I Ib E) as (I1 & L1 & G1). apply (mode_set_list_inv _ h1 bs md); auto.
  apply Forall_forall. intros i X. apply in_firstn in X. apply (proj1 (in_sort _ _ _)) in X. apply in_app_iff in X as [X|X].
  - assert (i < length (objs h)); [|lia]. apply (inv_bound _ _ _ I). apply in_flat_map. eauto.
  - destruct og as [g|]; [|destruct X]. destruct X as [<-|[]]. exact G1.
Qed.

(** *** All sessions *)
Definition sound (st : session) : Prop := inv (s_heap st) (s_blocks st) (s_mode st).
Lemma run1_sound st c : sound st -> sound (run1 st c).
Proof.
  unfold sound. intros I. destruct c as [v s|n k|mg|n k l v]; cbn [run1].
  - destruct (h_mk_block _ v s) as [[h' b]|e] eqn:E; auto. cbn. eapply parse_inv; eauto.
  - destruct (nth_error _ n) as [b|] eqn:N; auto. destruct (h_process _ _ b k) as [[h' md]|e] eqn:E; auto. cbn.
    eapply process_inv; eauto. eapply nth_error_In; eauto.
  - cbn. apply inv_clear, I.
  - destruct (nth_error _ n) as [b|] eqn:N; auto. destruct (nth_error (hb_gcodes b) k) as [i|] eqn:K; auto. cbn.
    apply assign_inv; auto. apply in_flat_map. exists b. split; [eapply nth_error_In; eauto|]. eapply nth_error_In; eauto.
Qed.
Lemma runs_sound cs : forall st, sound st -> sound (fold_left run1 cs st).
Proof. induction cs as [|c cs IH]; intros st I; cbn; auto. apply IH, run1_sound, I. Qed.
Lemma run_sound cs : sound (run cs).
Proof. apply runs_sound. exact inv_start. Qed.
End WithArith.
