(** The heap and the values: reading lines and processing them gives the same on both. *)
From Coq Require Import Ascii String List Bool Arith ZArith QArith Qcanon Lia.
From Verif Require Import Base Num Regex Words GTable GCode Line Position Machine BaseFacts Heap HeapProofs HeapProofs2.
Import ListNotations.
Open Scope nat_scope.

Section WithArith.
Context {ar : Arith}.

Lemma map_cell_new h ws os : map (cell (Heap (cells h ++ ws) os)) (seq (length (cells h)) (length ws)) = ws.
Proof.
  assert (G : forall cs, map (fun r => nth r (cs ++ ws) no_word) (seq (length cs) (length ws)) = ws).
  { induction ws as [|w ws IH]; intros cs; cbn; auto. f_equal.
    - rewrite app_nth2, Nat.sub_diag by lia. auto.
    - specialize (IH (cs ++ [w])). rewrite <- app_assoc, app_length, Nat.add_1_r in IH. exact IH. }
  apply (G (cells h)).
Qed.

Theorem mk_block_agrees h v s : mk_block v s = rmap (fun p => bval (fst p) (snd p)) (h_mk_block h v s).
Proof.
  unfold mk_block, h_mk_block. destruct s as [|a s]; [reflexivity|]. destruct (text2words _) as [ws|e]; [|reflexivity]. cbn [bind new_cells].
  set (h1 := Heap (cells h ++ ws) (objs h)). set (rs := seq (length (cells h)) (length ws)).
  assert (E : map (cell h1) rs = ws) by apply map_cell_new.
  rewrite <- E at 1. rewrite words2gcodes_agrees. destruct (h_words2gcodes h1 rs) as [[h2 [gs rest]]|e] eqn:W; [|reflexivity]. cbn [rmap bind fst snd].
  assert (C : map (cell h2) rs = ws).
  { apply h_words2gcodes_ok in W. destruct W as (-> & _). exact E. }
  unfold bval. destruct v; [destruct (assert_gcodes _ _ _); [|reflexivity]|]; cbn [bind rmap fst snd hb_words hb_gcodes hb_modal]; now rewrite C.
Qed.

(** the mode *)
Definition mode_is (h : heap) (md : hmode) (mv : mode) : Prop := forall mg, mode_val h md mg = gm_get mv mg.
Lemma gval_append h os i : i < length (objs h) -> gval (Heap (cells h) (objs h ++ os)) i = gval h i.
Proof. intros L. unfold gval. rewrite (obj_app h) by auto. reflexivity. Qed.
Lemma gval_snoc h o : gval (Heap (cells h) (objs h ++ [o])) (length (objs h)) = val_of h o.
Proof. unfold gval, obj. cbn. rewrite app_nth2, Nat.sub_diag by lia. reflexivity. Qed.

Lemma h_modal_copy_append h i h' c : h_modal_copy h i = Ok (h', c) -> c = length (objs h) /\ exists o, h' = Heap (cells h) (objs h ++ [o]).
Proof. intros H. apply h_mk_gcode_ok in H as (H1 & H2 & _). eauto. Qed.
Lemma mode_set_list_agrees gs : forall h md mv, mode_is h md mv -> (forall mg c, md mg = Some c -> c < length (objs h)) ->
  Forall (fun i => i < length (objs h)) gs ->
  match h_mode_set_list h md gs with
  | Ok (h', md') => exists mv', mode_set_list mv (map (gval h) gs) = Ok mv' /\ mode_is h' md' mv' /\
      exists os, h' = Heap (cells h) (objs h ++ os)
  | Raise e => mode_set_list mv (map (gval h) gs) = Raise e
  end.
Proof.
  induction gs as [|i gs IH]; intros h md mv M B F; cbn [h_mode_set_list map mode_set_list].
  - exists mv. split; auto. split; auto. exists []. rewrite app_nil_r. destruct h; auto.
  - inversion F as [|? ? L F']; subst. unfold mode_set1. change (gcls (gval h i)) with (hcls (obj h i)).
    destruct (modal_group (hcls (obj h i))) as [mg|]; [|cbn [bind]; apply IH; auto].
    rewrite modal_copy_agrees. destruct (h_modal_copy h i) as [[h1 c]|e] eqn:E; cbn [rmap bind fst snd]; auto.
    destruct (h_modal_copy_append h i h1 c E) as (-> & o & ->).
    set (h1 := Heap (cells h) (objs h ++ [o])).
    assert (G : map (gval h) gs = map (gval h1) gs).
    { apply map_ext_in. intros j J. symmetry. apply gval_append. rewrite Forall_forall in F'. auto. }
    rewrite G. specialize (IH h1 (hm_set md mg (length (objs h))) (gm_set mv mg (Some (gval h1 (length (objs h)))))).
    assert (M1 : mode_is h1 (hm_set md mg (length (objs h))) (gm_set mv mg (Some (gval h1 (length (objs h)))))).
    { intros x. unfold mode_val, hm_set. destruct (mgroup_eqb x mg) eqn:X.
      - apply mgroup_eqb_eq in X as ->. rewrite gm_get_set_same. reflexivity.
      - rewrite gm_get_set_other by (intros ->; rewrite (proj2 (mgroup_eqb_eq x x) eq_refl) in X; discriminate X). rewrite <- (M x). unfold mode_val.
        destruct (md x) as [d|] eqn:D; cbn; auto. f_equal. apply gval_append. eauto. }
    assert (L1 : length (objs h1) = S (length (objs h))) by (cbn; rewrite app_length; cbn; lia).
    specialize (IH M1).
    assert (B1 : forall x d, hm_set md mg (length (objs h)) x = Some d -> d < length (objs h1)).
    { intros x d X. apply hm_set_some in X as [X| ->]; [apply B in X|]; lia. }
    specialize (IH B1).
    assert (F1 : Forall (fun j => j < length (objs h1)) gs) by (eapply Forall_impl; [|exact F']; intros a Ha; rewrite L1; exact (Nat.lt_lt_succ_r _ _ Ha)).
    specialize (IH F1). destruct (h_mode_set_list h1 _ gs) as [[h2 md2]|e]; auto.
    destruct IH as (mv' & A1 & A2 & os & A3). exists mv'. split; auto. split; auto. exists (o :: os). rewrite A3. cbn. rewrite <- app_assoc. reflexivity.
Qed.

Lemma sort_gval h l : map (gval h) (sort (fun i => exec_order (hcls (obj h i))) l) = sort_gcodes (map (gval h) l).
Proof.
  assert (I : forall x l, map (gval h) (insert (fun i => exec_order (hcls (obj h i))) x l) = insert gorder (gval h x) (map (gval h) l)).
  { intros x k. induction k as [|y k IH]; cbn [insert map]; auto. change (gorder (gval h x)) with (exec_order (hcls (obj h x))).
    change (gorder (gval h y)) with (exec_order (hcls (obj h y))). destruct (_ <=? _)%Z; cbn [map]; auto. now rewrite IH. }
  unfold sort_gcodes. induction l as [|x l IH]; cbn [sort map]; auto. now rewrite I, IH.
Qed.

Theorem modal_gcode_agrees h md m rs : mode_is h md (m_mode m) -> m_ignore m = false ->
  machine_modal_gcode m (map (cell h) rs) = rmap (fun p => option_map (gval (fst p)) (snd p)) (h_modal_gcode h md rs).
Proof.
  intros M IG. unfold machine_modal_gcode, h_modal_gcode. destruct rs as [|r rs]; [reflexivity|]. set (rs' := r :: rs). cbn [map rs']. fold rs'.
  rewrite <- (M MG_motion). unfold mode_val. destruct (md MG_motion) as [mo|]; cbn [option_map].
  - set (params := dupdate _ (hparams (obj h mo)) _).
    assert (E : gword (gval h mo) :: map snd (dupdate letter_eqb (gparams (gval h mo)) (map (fun w => (wletter w, w)) (cell h r :: map (cell h) rs)))
              = map (cell h) (hword (obj h mo) :: map snd params)).
    { cbn [map]. f_equal. change (cell h r :: map (cell h) rs) with (map (cell h) rs'). rewrite map_map. unfold params.
      transitivity (map snd (map (fun kv => (fst kv, cell h (snd kv))) (dupdate letter_eqb (hparams (obj h mo)) (map (fun x => (wletter (cell h x), x)) rs')))).
      - f_equal. rewrite <- dupdate_map. f_equal. rewrite map_map. reflexivity.
      - rewrite !map_map. reflexivity. }
    match goal with |- context [words2gcodes ?x] => change x with (gword (gval h mo) :: map snd (dupdate letter_eqb (gparams (gval h mo)) (map (fun w => (wletter w, w)) (cell h r :: map (cell h) rs)))) end.
    rewrite E, words2gcodes_agrees. destruct (h_words2gcodes h _) as [[h1 [gs rest]]|e]; cbn [rmap bind fst snd]; auto. rewrite IG.
    destruct rest as [|x rest]; cbn; auto. destruct gs as [|g [|g2 gs]]; reflexivity.
  - cbn. rewrite IG. reflexivity.
Qed.

Lemma modal_gcode_old h md rs h' og : h_modal_gcode h md rs = Ok (h', og) -> forall i, i < length (objs h) -> gval h' i = gval h i.
Proof.
  unfold h_modal_gcode. destruct rs as [|r rs]; [intros [= <- <-]; auto|]. destruct (md MG_motion) as [mo|]; [|discriminate].
  destruct (h_words2gcodes h _) as [[h1 [gs rest]]|e] eqn:E; [|discriminate]. cbn [bind fst snd].
  apply h_words2gcodes_ok in E as (E & _). intros H i L.
  assert (X : h' = h1) by (destruct rest; [destruct gs as [|g [|]]|]; congruence). rewrite X, E. now apply gval_append.
Qed.

(** ** What a user sees after an assignment *)
Lemma seen_nth st n : nth_error (seen_blocks st) n = option_map (bval (s_heap st)) (nth_error (s_blocks st) n).
Proof. unfold seen_blocks. apply nth_error_map. Qed.
Lemma run_snoc cs c : run (cs ++ [c]) = run1 (run cs) c.
Proof. unfold run. rewrite fold_left_app. reflexivity. Qed.

Section Assign.
Variables (st : session) (n k : nat) (l : letter) (v : value) (b : hblock) (i : ref).
Hypothesis S : sound st.
Hypothesis Hb : nth_error (s_blocks st) n = Some b.
Hypothesis Hi : nth_error (hb_gcodes b) k = Some i.
Let h := s_heap st.
Let h' := assign h (i, l, v).
Lemma assign_i_in : In i (block_objs (s_blocks st)).
Proof. apply in_flat_map. exists b. split; eapply nth_error_In; eauto. Qed.
Lemma assign_i_lt : i < length (objs h). Proof. apply (inv_bound _ _ _ S). apply assign_i_in. Qed.
Lemma assign_heap_ok : heap_ok h. Proof. apply S. Qed.
Lemma assign_i_own : ~ In (hword (obj h i)) (prefs (obj h i)). Proof. apply (inv_words _ _ _ S); apply assign_i_lt. Qed.
Lemma assign_other_gval j : In j (block_objs (s_blocks st)) -> j <> i -> gval h' j = gval h j.
Proof.
  intros J N. pose proof (inv_bound _ _ _ S j J) as L. fold h in L.
  apply assign_gval; auto using assign_heap_ok, assign_i_lt. intros r D [X|X].
  - apply (inv_words _ _ _ S j i); auto using assign_i_lt. fold h. rewrite X. eapply in_prefs_dget; eauto.
  - destruct (inv_share _ _ _ S j i r L assign_i_in N X (in_prefs_dget _ _ _ D)) as (Y & _). auto.
Qed.
Lemma assign_modal c : In c (s_blocks st) -> map (cell h') (hb_modal c) = map (cell h) (hb_modal c).
Proof.
  intros C. apply map_ext_in. intros r R. destruct (inv_modal _ _ _ S c r C R) as (W & _ & P).
  apply assign_cells; auto using assign_heap_ok, assign_i_lt; [apply (inv_bwords _ _ _ S c r C W)|].
  intros D. apply (P i assign_i_in). eapply in_prefs_dget; eauto.
Qed.
Lemma assign_words_other m c : m <> n -> nth_error (s_blocks st) m = Some c -> map (cell h') (hb_words c) = map (cell h) (hb_words c).
Proof.
  intros M C. apply map_ext_in. intros r R.
  apply assign_cells; auto using assign_heap_ok, assign_i_lt; [apply (inv_bwords _ _ _ S c r (nth_error_In _ _ C) R)|].
  intros D. apply (inv_other _ _ _ S n m b c i r (not_eq_sym M) Hb C); auto; [eapply nth_error_In; eauto|eapply in_prefs_dget; eauto].
Qed.
Lemma assign_words_letter r : r < length (cells h) -> wletter (cell h r) <> l -> cell h' r = cell h r.
Proof.
  intros R L. apply assign_cells; auto using assign_heap_ok, assign_i_lt. intros D. apply dget_in in D.
  destruct (heap_ok_obj h i assign_heap_ok assign_i_lt) as (_ & O & _). apply L. exact (proj2 (O _ _ D)).
Qed.
Lemma assign_letters r : wletter (cell h' r) = wletter (cell h r) \/ length (cells h) <= r.
Proof.
  destruct (Nat.lt_ge_cases r (length (cells h))) as [R|R]; auto. left. unfold h', assign. cbn [fst snd].
  destruct (h_setattr h i l v) as [x|e] eqn:E; auto.
  apply h_setattr_cases in E as [->|[(y & v' & D' & _ & ->)|(w & M & _ & _ & ->)]]; auto using assign_i_lt.
  - destruct (Nat.eq_dec y r) as [<-|X]; [rewrite cell_set_same by auto; reflexivity|rewrite cell_set_other by auto; auto].
  - rewrite cell_app; auto.
Qed.
Lemma gcodes_other m c j x : m <> n -> nth_error (s_blocks st) m = Some c -> nth_error (hb_gcodes c) j = Some x -> x <> i.
Proof.
  intros M C J ->. pose proof (inv_nodup _ _ _ S) as N. unfold block_objs in N.
  assert (G : forall bs p q b c, p < q -> nth_error bs p = Some b -> nth_error bs q = Some c -> In i (hb_gcodes b) -> In i (hb_gcodes c) -> ~ NoDup (flat_map hb_gcodes bs)).
  { clear. induction bs as [|a bs IH]; intros [|p] [|q] b c L P Q B C N; try discriminate; try lia; cbn in *.
    - injection P as <-. assert (X : In i (flat_map hb_gcodes bs)) by (apply in_flat_map; exists c; split; auto; eapply nth_error_In; eauto).
      clear - N B X. induction (hb_gcodes a) as [|y g IH]; cbn in *; [destruct B|]. inversion N as [|? ? N1 N2]; subst. destruct B as [->|B]; auto.
      apply N1. apply in_app_iff. auto.
    - apply (IH p q b c ltac:(lia) P Q B C). clear - N. induction (hb_gcodes a) as [|y g IH]; cbn in *; auto. inversion N; auto. }
  apply nth_error_In in J. pose proof (nth_error_In _ _ Hi) as Ii.
  destruct (Nat.lt_total m n) as [X|[X|X]]; [|congruence|].
  - exact (G _ m n c b X C Hb J Ii N).
  - exact (G _ n m b c X Hb C Ii J N).
Qed.
Lemma gcodes_same j x : nth_error (hb_gcodes b) j = Some x -> j <> k -> x <> i.
Proof.
  intros J D ->. pose proof (inv_nodup _ _ _ S) as N. unfold block_objs in N.
  assert (NB : NoDup (hb_gcodes b)).
  { clear - N Hb. revert n Hb. induction (s_blocks st) as [|a bs IH]; intros [|n] H; try discriminate; cbn in *.
    - injection H as <-. clear - N. induction (hb_gcodes a) as [|y g IH]; cbn in *; [constructor|]. inversion N as [|? ? N1 N2]; subst. constructor; auto.
      intros X. apply N1. apply in_app_iff. auto.
    - apply (IH) with n; auto. clear - N. induction (hb_gcodes a) as [|y g IH]; cbn in *; auto. inversion N; auto. }
  apply D. apply (proj1 (NoDup_nth_error (hb_gcodes b)) NB); [apply nth_error_Some; congruence|congruence].
Qed.
Lemma assign_block_other m c : m <> n -> nth_error (s_blocks st) m = Some c -> bval h' c = bval h c.
Proof.
  intros M C. unfold bval. f_equal.
  - eapply assign_words_other; eauto.
  - apply map_ext_in. intros j J. apply assign_other_gval.
    + apply in_flat_map. exists c. split; auto. eapply nth_error_In; eauto.
    + apply In_nth_error in J as [p J]. eapply gcodes_other; eauto.
  - apply assign_modal. eapply nth_error_In; eauto.
Qed.
Lemma assign_mode_cases mg :
  mode_val h' (s_mode st) mg = mode_val h (s_mode st) mg \/
  (accepts_modal (hcls (obj h i)) l = true /\ exists g g', mode_val h (s_mode st) mg = Some g /\ gcls g = hcls (obj h i) /\
     gcode_setattr g l v = Ok g' /\ mode_val h' (s_mode st) mg = Some g').
Proof.
  unfold mode_val. destruct (s_mode st mg) as [c|] eqn:M; [|auto]. cbn [option_map]. destruct (inv_mode _ _ _ S mg c M) as [Lc Bc]. fold h in Lc.
  assert (N : c <> i) by (intros ->; apply Bc, assign_i_in).
  destruct (dget letter_eqb (hparams (obj h i)) l) as [r|] eqn:D.
  - destruct (in_dec Nat.eq_dec r (prefs (obj h c))) as [X|X].
    + pose proof (in_prefs_dget _ _ _ D) as Y.
      destruct (inv_share _ _ _ S c i r Lc assign_i_in N X Y) as (_ & S2 & S3). fold h in S2, S3.
      destruct (heap_ok_obj h i assign_heap_ok assign_i_lt) as (_ & O & _). pose proof (proj2 (O _ _ (dget_in _ _ _ D))) as WL.
      rewrite WL in S3.
      destruct (heap_ok_obj h c assign_heap_ok Lc) as (C1 & C2 & C3).
      assert (DC : dget letter_eqb (hparams (obj h c)) l = Some r).
      { unfold prefs in X. apply in_map_iff in X as ([y x] & E & X). cbn in E. subst x. pose proof (proj2 (C2 _ _ X)) as Z. rewrite WL in Z. subst y.
        apply in_dget_nodup; auto. }
      unfold h', assign. cbn [fst snd]. destruct (h_setattr h i l v) as [x|e] eqn:E; [|auto].
      pose proof E as E'. apply h_setattr_cases in E' as [->|[(y & v' & D' & V & ->)|(w & _ & _ & D' & _)]]; auto using assign_i_lt; [|congruence].
      right. split; auto. exists (gval h c). eexists. split; [reflexivity|]. split; [exact S2|].
      rewrite setattr_agrees; [|apply assign_heap_ok|auto|apply (inv_words _ _ _ S c c Lc Lc)].
      assert (EE : h_setattr h c l v = Ok (set_cell h y (Word (wletter (cell h y)) v'))).
      { unfold h_setattr in E |- *. rewrite S2, DC. rewrite D in E. destruct (accepts (hcls (obj h i)) l) eqn:A.
        - exact E.
        - injection E as E. rewrite D in D'. injection D' as <-. f_equal. exact E. }
      rewrite EE. cbn. auto.
    + left. f_equal. apply assign_gval; auto using assign_heap_ok, assign_i_lt. intros y Dy. rewrite D in Dy. injection Dy as <-. intros [Z|Z]; auto.
      apply (inv_words _ _ _ S c i Lc assign_i_lt). fold h. rewrite Z. eapply in_prefs_dget; eauto.
  - left. f_equal. apply assign_gval; auto using assign_heap_ok, assign_i_lt. intros y Dy. rewrite D in Dy. discriminate.
Qed.
End Assign.
End WithArith.
