From Coq Require Import Ascii String List Bool Arith ZArith QArith Qcanon Permutation Lia.
From Verif Require Import Base Num Words GTable GCode BaseFacts GCodeSpec.
Import ListNotations.
Local Open Scope nat_scope.

Lemma accepts_iff c l : accepts c l = true <-> takes c l.
Proof.
  unfold accepts, takes. rewrite existsb_exists. split.
  - intros (x & H & E). apply letter_eqb_eq in E. subst; auto.
  - intros H. exists l. split; auto. apply letter_eqb_refl.
Qed.
Lemma accepts_false c l : accepts c l = false <-> ~ takes c l.
Proof. rewrite <- accepts_iff. destruct (accepts c l); split; congruence. Qed.

(** ** Building one gcode *)
Lemma add_parameters_spec g ws :
  (forall w, In w ws -> takes (gcls g) (wletter w)) ->
  (NoDup (map fst (gparams g) ++ map wletter ws) ->
   add_parameters g ws = Ok (MkGCode (gcls g) (gword g) (gparams g ++ map (fun w => (wletter w, w)) ws) (gwhite g))) /\
  (NoDup (map fst (gparams g)) -> ~ NoDup (map fst (gparams g) ++ map wletter ws) -> add_parameters g ws = Raise EGCodeParameterError).
Proof.
  revert g. induction ws as [|w ws IH]; intros g Ht.
  - simpl. rewrite !app_nil_r. split; [intros _; destruct g; auto|tauto].
  - cbn [add_parameters map]. unfold add_parameter.
    assert (A : accepts (gcls g) (wletter w) = true) by (apply accepts_iff, Ht; left; auto). rewrite A. cbn [negb].
    destruct (dmem letter_eqb (gparams g) (wletter w)) eqn:M.
    + apply (dmem_true _ _ _ letter_eqb_eq) in M. cbn [bind]. split.
      * intros ND. exfalso. apply NoDup_remove_2 in ND. apply ND, in_app_iff. auto.
      * auto.
    + assert (N : ~ In (wletter w) (map fst (gparams g))).
      { intros X. apply (dmem_true _ _ _ letter_eqb_eq) in X. congruence. }
      cbn [bind]. set (g' := MkGCode (gcls g) (gword g) (dset letter_eqb (gparams g) (wletter w) w) (gwhite g)).
      destruct (IH g') as [I1 I2]. { intros x Hx. apply Ht. right; auto. }
      assert (E : gparams g' = gparams g ++ [(wletter w, w)]) by (unfold g'; cbn [gparams]; apply dset_new; auto using letter_eqb_eq).
      rewrite E, map_app, <- app_assoc in I1, I2. cbn [map app fst] in I1, I2. split.
      * intros ND. rewrite I1 by auto. unfold g'. cbn [gcls gword gwhite]. rewrite <- app_assoc. reflexivity.
      * intros ND0 ND. apply I2; auto. apply (Permutation_NoDup (Permutation_cons_append _ _)). constructor; auto.
Qed.
Lemma mk_gcode_ok c w ps : (forall x, In x ps -> takes c (wletter x)) -> NoDup (map wletter ps) ->
  mk_gcode c w ps = Ok (built (Group c w ps)).
Proof. intros H ND. unfold mk_gcode. apply (add_parameters_spec (MkGCode c w [] false) ps); auto. Qed.
Lemma mk_gcode_dup c w ps : (forall x, In x ps -> takes c (wletter x)) -> ~ NoDup (map wletter ps) ->
  mk_gcode c w ps = Raise EGCodeParameterError.
Proof. intros H ND. unfold mk_gcode. apply (add_parameters_spec (MkGCode c w [] false) ps); auto. constructor. Qed.
Lemma NoDup_dec_letters (l : list letter) : NoDup l \/ ~ NoDup l.
Proof. destruct (ListDec.NoDup_dec letter_eq_dec l); auto. Qed.

(** ** The linked list *)
Definition claim1 (i : nat) (c : gclass) (p : winfo) : winfo :=
  if accepts c (wletter (wi_word p)) then WInfo (wi_word p) None (Some i) else p.
(** the claims of the candidates of [L], numbered from [i], on the word [p] *)
Fixpoint claims_by (i : nat) (L : list winfo) (p : winfo) : winfo :=
  match L with
  | [] => p
  | q :: L' => claims_by (S i) L' (match wi_class q with None => p | Some c => claim1 i c p end)
  end.
Lemma claim_map i c l : claim i c l = map (claim1 i c) l. Proof. reflexivity. Qed.
Lemma link_length n i l : length (link n i l) = length l.
Proof.
  revert i l. induction n; intros i l; simpl; auto. destruct l as [|p l]; auto. simpl. rewrite IHn.
  destruct (wi_class p); auto. unfold claim. rewrite map_length. auto.
Qed.
Lemma link_snoc l i p : link (S (length l)) i (l ++ [p]) = link (length l) i l ++ [claims_by i (link (length l) i l) p].
Proof.
  remember (length l) as n eqn:En. revert l i p En. induction n; intros l i p En.
  - destruct l; [|discriminate]. simpl. destruct (wi_class p); auto.
  - destruct l as [|q l]; [discriminate|]. injection En as En.
    cbn [app]. change (link (S (S n)) i (q :: l ++ [p])) with
      (q :: link (S n) (S i) (match wi_class q with None => l ++ [p] | Some c => claim i c (l ++ [p]) end)).
    cbn [link app claims_by]. f_equal. destruct (wi_class q) as [c|].
    + rewrite claim_map, map_app. cbn [map]. apply IHn. unfold claim; rewrite map_length. auto.
    + apply IHn. auto.
Qed.
Lemma claims_by_word i L p : wi_word (claims_by i L p) = wi_word p.
Proof.
  revert i p. induction L as [|q L IH]; intros i p; simpl; auto. rewrite IH. destruct (wi_class q); auto.
  unfold claim1. destruct (accepts g (wletter (wi_word p))); auto.
Qed.
Lemma claims_by_none i L p : (forall q c, In q L -> wi_class q = Some c -> ~ takes c (wletter (wi_word p))) -> claims_by i L p = p.
Proof.
  revert i p. induction L as [|q L IH]; intros i p H; simpl; auto.
  assert (E : match wi_class q with None => p | Some c => claim1 i c p end = p).
  { destruct (wi_class q) as [c|] eqn:E; auto. unfold claim1.
    assert (X : accepts c (wletter (wi_word p)) = false) by (apply accepts_false; eapply H; [left; eauto|auto]). rewrite X. auto. }
  rewrite E. apply IH. intros q' c Hq. apply H. right; auto.
Qed.
Lemma claims_by_app i L L' p : claims_by i (L ++ L') p = claims_by (i + length L) L' (claims_by i L p).
Proof.
  revert i p. induction L as [|q L IH]; intros i p; cbn [app claims_by length].
  - f_equal. lia.
  - rewrite IH. f_equal. lia.
Qed.
Lemma claims_by_some i L1 q c L2 p : wi_class q = Some c -> takes c (wletter (wi_word p)) ->
  (forall q' c', In q' L2 -> wi_class q' = Some c' -> ~ takes c' (wletter (wi_word p))) ->
  claims_by i (L1 ++ q :: L2) p = WInfo (wi_word p) None (Some (i + length L1)).
Proof.
  intros E T H. rewrite claims_by_app. cbn [claims_by]. rewrite E.
  set (p' := claims_by i L1 p). assert (W : wi_word p' = wi_word p) by apply claims_by_word.
  assert (X : claim1 (i + length L1) c p' = WInfo (wi_word p) None (Some (i + length L1))).
  { unfold claim1. rewrite W. apply accepts_iff in T. rewrite T. auto. }
  rewrite X. apply claims_by_none. auto.
Qed.

(** the groups recorded in a linked list *)
Definition pmatch (key : option nat) (p : winfo) : bool :=
  match wi_class p with
  | Some _ => false
  | None => match wi_to p, key with
            | None, None => true
            | Some a, Some b => Nat.eqb a b
            | _, _ => false
            end
  end.
Lemma params_of_eq L key : params_of L key = map wi_word (filter (pmatch key) L). Proof. reflexivity. Qed.
Fixpoint groups_of (all : list winfo) (i : nat) (L : list winfo) : list group :=
  match L with
  | [] => []
  | p :: L' => match wi_class p with
               | None => groups_of all (S i) L'
               | Some c => Group c (wi_word p) (params_of all (Some i)) :: groups_of all (S i) L'
               end
  end.
Lemma groups_of_app all i L L' : groups_of all i (L ++ L') = groups_of all i L ++ groups_of all (i + length L) L'.
Proof.
  revert i. induction L as [|p L IH]; intros i; cbn [app groups_of length].
  - f_equal. lia.
  - destruct (wi_class p); rewrite IH; replace (i + S (length L)) with (S i + length L) by lia; auto.
Qed.
Lemma params_of_snoc L p key : params_of (L ++ [p]) key = params_of L key ++ (if pmatch key p then [wi_word p] else []).
Proof. rewrite !params_of_eq, filter_app, map_app. simpl. destruct (pmatch key p); auto. Qed.
Lemma groups_of_ext all all' i L :
  (forall j, i <= j < i + length L -> params_of all (Some j) = params_of all' (Some j)) -> groups_of all i L = groups_of all' i L.
Proof.
  revert i. induction L as [|p L IH]; intros i H; simpl; auto.
  rewrite IH by (intros j Hj; apply H; simpl; lia). destruct (wi_class p); auto. rewrite H by (simpl; lia). auto.
Qed.
(** where in [L] the group number [k] is *)
Lemma groups_of_split all i L gs1 c g ps gs2 : groups_of all i L = gs1 ++ Group c g ps :: gs2 ->
  exists L1 q L2, L = L1 ++ q :: L2 /\ wi_class q = Some c /\ wi_word q = g /\ ps = params_of all (Some (i + length L1)) /\
    groups_of all i L1 = gs1 /\ groups_of all (S (i + length L1)) L2 = gs2.
Proof.
  revert i gs1. induction L as [|p L IH]; intros i gs1 H; simpl in H.
  - destruct gs1; discriminate.
  - destruct (wi_class p) as [c'|] eqn:E.
    + destruct gs1 as [|x gs1]; cbn [app] in H.
      * injection H as <- <- <- <-. exists [], p, L. cbn [app length groups_of]. rewrite Nat.add_0_r. auto 10.
      * injection H as H1 H2. destruct (IH (S i) gs1 H2) as (L1 & q & L2 & -> & A1 & A2 & A3 & A4 & A5). exists (p :: L1), q, L2. cbn [app length groups_of].
        rewrite E, A4, H1. replace (i + S (length L1)) with (S i + length L1) by lia. auto 10.
    + destruct (IH (S i) gs1 H) as (L1 & q & L2 & -> & A1 & A2 & A3 & A4 & A5). exists (p :: L1), q, L2. cbn [app length groups_of].
      rewrite E, A4. replace (i + S (length L1)) with (S i + length L1) by lia. auto 10.
Qed.
Lemma groups_of_classes all i L : map gr_class (groups_of all i L) = flat_map (fun p => match wi_class p with Some c => [c] | None => [] end) L.
Proof. revert i. induction L as [|p L IH]; intros i; simpl; auto. destruct (wi_class p); simpl; rewrite IH; auto. Qed.
Lemma groups_of_classes_in all i L q c : In q L -> wi_class q = Some c -> In c (map gr_class (groups_of all i L)).
Proof.
  intros H E. rewrite groups_of_classes. apply in_flat_map. exists q. rewrite E. split; auto. left; auto.
Qed.

(** in a linked list, what claims a word lies before it *)
Definition claimed_before (L : list winfo) : Prop :=
  forall k p j, nth_error L k = Some p -> wi_to p = Some j -> wi_class p = None -> j < k.

Section WithArith.
Context {ar : Arith}.
Definition linked (ws : list word) : list winfo := link (length ws) 0 (word_infos ws).
Lemma linked_length ws : length (linked ws) = length ws.
Proof. unfold linked. rewrite link_length. unfold word_infos. apply map_length. Qed.
Lemma linked_snoc ws w : linked (ws ++ [w]) = linked ws ++ [claims_by 0 (linked ws) (WInfo w (word_gcode_class w) None)].
Proof.
  unfold linked, word_infos. rewrite map_app, app_length. cbn [map length].
  replace (length ws + 1) with (S (length (map (fun w => WInfo w (word_gcode_class w) None) ws))) by (rewrite map_length; lia).
  rewrite link_snoc, map_length. auto.
Qed.
(** claims refer to earlier words *)
Lemma claims_by_to i L p j : wi_to (claims_by i L p) = Some j -> wi_to p = Some j \/ i <= j < i + length L.
Proof.
  revert i p. induction L as [|q L IH]; intros i p H; simpl in *; auto.
  apply IH in H. destruct H as [H|H]; [|lia]. destruct (wi_class q) as [c|]; auto. unfold claim1 in H.
  destruct (accepts c (wletter (wi_word p))); auto. simpl in H. injection H as <-. lia.
Qed.
Lemma linked_to ws p j : In p (linked ws) -> wi_to p = Some j -> j < length ws.
Proof.
  revert p j. induction ws as [|w ws IH] using rev_ind; intros p j H E.
  - contradiction.
  - rewrite linked_snoc in H. rewrite app_length. simpl. apply in_app_iff in H as [H|[<-|[]]].
    + specialize (IH _ _ H E). lia.
    + apply claims_by_to in E as [E|E]; [discriminate|]. rewrite linked_length in E. lia.
Qed.
Lemma params_of_none ws j : length ws <= j -> params_of (linked ws) (Some j) = [].
Proof.
  intros H. rewrite params_of_eq. assert (F : filter (pmatch (Some j)) (linked ws) = []); [|rewrite F; auto].
  assert (A : forall p, In p (linked ws) -> pmatch (Some j) p = false).
  { intros p Hp. unfold pmatch. destruct (wi_class p); auto. destruct (wi_to p) as [a|] eqn:E; auto.
    pose proof (linked_to ws p a Hp E). apply Nat.eqb_neq. lia. }
  clear H. induction (linked ws) as [|p L IH]; simpl; auto. rewrite A by (left; auto). apply IH. intros; apply A; right; auto.
Qed.

Definition spec_groups (ws : list word) : list group := groups_of (linked ws) 0 (linked ws).
Definition spec_rest (ws : list word) : list word := params_of (linked ws) None.
Lemma forall_classes (P : gclass -> Prop) gs : Forall (fun x => P (gr_class x)) gs <-> Forall P (map gr_class gs).
Proof. rewrite Forall_map. tauto. Qed.
Lemma not_taken_linked ws w : Forall (fun x => ~ takes (gr_class x) (wletter w)) (spec_groups ws) ->
  forall q c, In q (linked ws) -> wi_class q = Some c -> ~ takes c (wletter w).
Proof.
  intros H q c Hq E. apply (forall_classes (fun c => ~ takes c (wletter w))) in H. rewrite Forall_forall in H. apply H.
  eapply groups_of_classes_in; eauto.
Qed.
Lemma groups_snoc_gen ws p (L' := linked ws ++ [p]) : (forall j, pmatch (Some j) p = true -> j < length ws) ->
  groups_of L' 0 L' = groups_of L' 0 (linked ws) ++ match wi_class p with None => [] | Some c => [Group c (wi_word p) []] end.
Proof.
  intros Hp. unfold L' at 2. rewrite groups_of_app. f_equal. simpl. destruct (wi_class p) as [c|] eqn:E; auto.
  unfold L'. rewrite params_of_snoc, linked_length, params_of_none by lia. unfold pmatch. rewrite E. auto.
Qed.
(** a decision: the last group that takes a letter *)
Lemma last_taker l (gs : list group) :
  Forall (fun x => ~ takes (gr_class x) l) gs \/
  exists gs1 c g ps gs2, gs = gs1 ++ Group c g ps :: gs2 /\ takes c l /\ Forall (fun x => ~ takes (gr_class x) l) gs2.
Proof.
  induction gs as [|[c g ps] gs IH]; [left; constructor|]. destruct IH as [IH|(gs1 & c' & g' & ps' & gs2 & -> & T & F)].
  - destruct (accepts c l) eqn:A.
    + apply accepts_iff in A. right. exists [], c, g, ps, gs. auto.
    + apply accepts_false in A. left. constructor; auto.
  - right. exists (Group c g ps :: gs1), c', g', ps', gs2. auto.
Qed.
Theorem grouped_spec ws : grouped ws (spec_groups ws) (spec_rest ws).
Proof.
  induction ws as [|w ws IH] using rev_ind.
  - constructor.
  - unfold spec_groups, spec_rest. rewrite linked_snoc. set (p0 := WInfo w (word_gcode_class w) None).
    destruct (last_taker (wletter w) (spec_groups ws)) as [N|(gs1 & c & g & ps & gs2 & E & T & F)].
    + rewrite (claims_by_none 0 (linked ws) p0) by (apply (not_taken_linked ws w N)).
      assert (X : groups_of (linked ws ++ [p0]) 0 (linked ws) = spec_groups ws).
      { apply groups_of_ext. intros j Hj. rewrite params_of_snoc. unfold pmatch, p0. simpl. destruct (word_gcode_class w); apply app_nil_r. }
      rewrite groups_snoc_gen by (intros j; unfold pmatch, p0; simpl; destruct (word_gcode_class w); discriminate).
      rewrite X, params_of_snoc. unfold pmatch, p0. cbn [wi_class wi_to wi_word].
      destruct (word_gcode_class w) as [c|] eqn:C.
      * rewrite app_nil_r. apply gr_start; auto.
      * rewrite app_nil_r. apply gr_left; auto.
    + destruct (groups_of_split _ _ _ _ _ _ _ _ E) as (L1 & q & L2 & EL & A1 & A2 & A3 & A4 & A5). simpl in A3, A5.
      assert (CB : claims_by 0 (linked ws) p0 = WInfo w None (Some (length L1))).
      { rewrite EL. rewrite (claims_by_some 0 L1 q c L2 p0 A1 T); auto.
        intros q' c' Hq Ec. rewrite <- A5 in F. apply (forall_classes (fun c => ~ takes c (wletter w))) in F. rewrite Forall_forall in F. apply F.
        eapply groups_of_classes_in; eauto. }
      rewrite CB. set (p := WInfo w None (Some (length L1))).
      assert (LL : length L1 < length ws) by (rewrite <- linked_length, EL, app_length; simpl; lia).
      rewrite groups_snoc_gen by (intros j; unfold pmatch, p; simpl; intros X; apply Nat.eqb_eq in X; lia).
      unfold p at 2. cbn [wi_class]. rewrite app_nil_r, params_of_snoc. unfold pmatch, p at 2. cbn [wi_class wi_to]. rewrite app_nil_r.
      assert (PO : forall j, params_of (linked ws ++ [p]) (Some j) = params_of (linked ws) (Some j) ++ (if Nat.eqb (length L1) j then [w] else [])).
      { intros j. rewrite params_of_snoc. unfold pmatch, p. cbn [wi_class wi_to wi_word]. auto. }
      assert (G : groups_of (linked ws ++ [p]) 0 (linked ws) = gs1 ++ Group c g (ps ++ [w]) :: gs2).
      { rewrite EL at 2. rewrite groups_of_app. cbn [groups_of Nat.add]. rewrite A1. f_equal.
        - rewrite <- A4. apply groups_of_ext. intros j Hj. rewrite PO. replace (Nat.eqb (length L1) j) with false by (symmetry; apply Nat.eqb_neq; lia). apply app_nil_r.
        - f_equal.
          + rewrite PO, Nat.eqb_refl, A2, A3. auto.
          + rewrite <- A5. apply groups_of_ext. intros j Hj. rewrite PO. replace (Nat.eqb (length L1) j) with false by (symmetry; apply Nat.eqb_neq; lia). apply app_nil_r. }
      rewrite G. apply gr_param; auto. rewrite <- E. exact IH.
Qed.
Lemma taker_unique l (a1 a2 : list group) x a b y b2 :
  a1 ++ x :: a2 = b ++ y :: b2 -> a = gr_class x -> takes a l -> Forall (fun z => ~ takes (gr_class z) l) a2 ->
  takes (gr_class y) l -> Forall (fun z => ~ takes (gr_class z) l) b2 -> a1 = b /\ x = y /\ a2 = b2.
Proof.
  revert b. induction a1 as [|u a1 IH]; intros b E -> T F T' F'.
  - destruct b as [|v b]; cbn [app] in E; injection E as E1 E2.
    + auto.
    + exfalso. subst. rewrite Forall_forall in F. apply (F y); auto. apply in_app_iff. right; left; auto.
  - destruct b as [|v b]; cbn [app] in E; injection E as E1 E2.
    + exfalso. subst. rewrite Forall_forall in F'. apply (F' x); auto. apply in_app_iff. right; left; auto.
    + subst. destruct (IH b E2 eq_refl T F T' F') as (-> & -> & ->). auto.
Qed.
Theorem grouped_unique ws gs rest gs' rest' : grouped ws gs rest -> grouped ws gs' rest' -> gs = gs' /\ rest = rest'.
Proof.
  intros H. revert gs' rest'. induction H as [|ws gs1 c g ps gs2 rest w H IH T F|ws gs rest w c H IH F C|ws gs rest w H IH F C]; intros gs' rest' H'.
  - inversion H' as [|ws' a1 a2 a3 a4 a5 a6 w' b1 b2 b3 b4|ws' a1 a2 w' a3 b1 b2 b3 b4|ws' a1 a2 w' b1 b2 b3 b4]; auto;
      exfalso; eapply app_cons_not_nil; eauto.
  - inversion H' as [Ew|ws' gs1' c' g' ps' gs2' r' w' H1 T' F' Ew Eg Er|ws' a1 a2 w' a3 H1 F' C' Ew Eg Er|ws' a1 a2 w' H1 F' C' Ew Eg Er];
      try (exfalso; eapply app_cons_not_nil; eauto; fail); apply app_inj_tail in Ew as [-> ->]; destruct (IH _ _ H1) as [E1 E2].
    + destruct (taker_unique (wletter w) _ _ _ c _ _ _ E1 eq_refl T F T' F') as (-> & E3 & ->). injection E3 as -> -> ->. subst. auto.
    + exfalso. rewrite <- E1 in F'. rewrite Forall_forall in F'. apply (F' (Group c g ps)); auto. apply in_app_iff. right; left; auto.
    + exfalso. subst gs'. rewrite <- E1 in F'. rewrite Forall_forall in F'. apply (F' (Group c g ps)); auto. apply in_app_iff. right; left; auto.
  - inversion H' as [Ew|ws' gs1' c' g' ps' gs2' r' w' H1 T' F' Ew Eg Er|ws' a1 a2 w' a3 H1 F' C' Ew Eg Er|ws' a1 a2 w' H1 F' C' Ew Eg Er];
      try (exfalso; eapply app_cons_not_nil; eauto; fail); apply app_inj_tail in Ew as [-> ->]; destruct (IH _ _ H1) as [E1 E2].
    + exfalso. rewrite E1 in F. rewrite Forall_forall in F. apply (F (Group c' g' ps')); auto. apply in_app_iff. right; left; auto.
    + subst. split; auto. congruence.
    + congruence.
  - inversion H' as [Ew|ws' gs1' c' g' ps' gs2' r' w' H1 T' F' Ew Eg Er|ws' a1 a2 w' a3 H1 F' C' Ew Eg Er|ws' a1 a2 w' H1 F' C' Ew Eg Er];
      try (exfalso; eapply app_cons_not_nil; eauto; fail); apply app_inj_tail in Ew as [-> ->]; destruct (IH _ _ H1) as [E1 E2].
    + exfalso. rewrite E1 in F. rewrite Forall_forall in F. apply (F (Group c' g' ps')); auto. apply in_app_iff. right; left; auto.
    + congruence.
    + subst. auto.
Qed.
Lemma grouped_takes ws gs rest : grouped ws gs rest -> Forall (fun g => forall x, In x (gr_params g) -> takes (gr_class g) (wletter x)) gs.
Proof.
  induction 1 as [|ws gs1 c g ps gs2 rest w H IH T F|ws gs rest w c H IH F C|ws gs rest w H IH F C]; auto.
  - apply Forall_app in IH as [I1 I2]. inversion I2; subst. apply Forall_app. split; auto. constructor; auto.
    cbn [gr_params gr_class] in *. intros x Hx. apply in_app_iff in Hx as [Hx|[<-|[]]]; auto.
  - apply Forall_app. split; auto. constructor; auto. simpl. tauto.
Qed.
Lemma make_gcodes_spec all i L : (forall g, In g (groups_of all i L) -> forall x, In x (gr_params g) -> takes (gr_class g) (wletter x)) ->
  (Forall unambiguous (groups_of all i L) -> make_gcodes all i L = Ok (map built (groups_of all i L))) /\
  (~ Forall unambiguous (groups_of all i L) -> make_gcodes all i L = Raise EGCodeParameterError).
Proof.
  revert i. induction L as [|p L IH]; intros i Ht; simpl in *.
  - split; auto. intros H. exfalso. apply H. constructor.
  - destruct (wi_class p) as [c|]; [|auto]. destruct (IH (S i)) as [I1 I2]. { intros g Hg. apply Ht. right; auto. }
    assert (T : forall x, In x (params_of all (Some i)) -> takes c (wletter x)).
    { apply (Ht (Group c (wi_word p) (params_of all (Some i)))). left; auto. }
    destruct (NoDup_dec_letters (map wletter (params_of all (Some i)))) as [ND|ND].
    + rewrite (mk_gcode_ok c (wi_word p) _ T ND). cbn [bind]. split; intros H.
      * inversion H; subst. rewrite I1 by auto. auto.
      * rewrite I2; [reflexivity|]. intros X. apply H. constructor; auto.
    + rewrite (mk_gcode_dup c (wi_word p) _ T ND). cbn [bind]. split; intros H; auto. inversion H; subst. contradiction.
Qed.
Theorem words2gcodes_grouped ws gs rest : grouped ws gs rest ->
  (Forall unambiguous gs -> words2gcodes ws = Ok (map built gs, rest)) /\
  (~ Forall unambiguous gs -> words2gcodes ws = Raise EGCodeParameterError).
Proof.
  intros H. destruct (grouped_unique _ _ _ _ _ H (grouped_spec ws)) as [-> ->].
  unfold words2gcodes. fold (linked ws).
  destruct (make_gcodes_spec (linked ws) 0 (linked ws)) as [I1 I2].
  { pose proof (grouped_takes _ _ _ (grouped_spec ws)) as T. rewrite Forall_forall in T. exact T. }
  fold (spec_groups ws) in I1, I2. split; intros A.
  - rewrite I1 by auto. reflexivity.
  - rewrite I2 by auto. reflexivity.
Qed.
Lemma unambiguous_dec gs : Forall unambiguous gs \/ ~ Forall unambiguous gs.
Proof.
  induction gs as [|g gs [IH|IH]].
  - left; constructor.
  - destruct (NoDup_dec_letters (map wletter (gr_params g))); [left; constructor; auto|right; intros X; inversion X; auto].
  - right; intros X; inversion X; auto.
Qed.
Theorem words2gcodes_iff ws gs rest : words2gcodes ws = Ok (gs, rest) <->
  exists grs, grouped ws grs rest /\ Forall unambiguous grs /\ gs = map built grs.
Proof.
  pose proof (grouped_spec ws) as G. destruct (words2gcodes_grouped _ _ _ G) as [I1 I2]. split.
  - intros H. destruct (unambiguous_dec (spec_groups ws)) as [U|U].
    + rewrite I1 in H by auto. injection H as <- <-. eauto.
    + rewrite I2 in H by auto. discriminate.
  - intros (grs & H & U & ->). apply words2gcodes_grouped; auto.
Qed.
Theorem words2gcodes_error ws e : words2gcodes ws = Raise e <->
  e = EGCodeParameterError /\ exists grs rest, grouped ws grs rest /\ ~ Forall unambiguous grs.
Proof.
  pose proof (grouped_spec ws) as G. destruct (words2gcodes_grouped _ _ _ G) as [I1 I2]. split.
  - intros H. destruct (unambiguous_dec (spec_groups ws)) as [U|U].
    + rewrite I1 in H by auto. discriminate.
    + rewrite I2 in H by auto. split; [congruence|eauto].
  - intros (-> & grs & rest & H & U). apply words2gcodes_grouped with (gs := grs) (rest := rest); auto.
Qed.

(** ** Nothing lost: C18 *)
Lemma subseq_refl {A} (l : list A) : subseq l l. Proof. induction l; constructor; auto. Qed.
Lemma subseq_snoc_skip {A} (a l : list A) x : subseq a l -> subseq a (l ++ [x]).
Proof. induction 1; simpl; constructor; auto. Qed.
Lemma subseq_snoc {A} (a l : list A) x : subseq a l -> subseq (a ++ [x]) (l ++ [x]).
Proof. induction 1; simpl; [|constructor; auto..]. induction l; simpl; constructor; auto. constructor. Qed.
Lemma grouped_perm ws gs rest : grouped ws gs rest -> Permutation ws (flat_map group_words gs ++ rest).
Proof.
  induction 1 as [|ws gs1 c g ps gs2 rest w H IH T F|ws gs rest w c H IH F C|ws gs rest w H IH F C]; auto.
  - rewrite flat_map_app in *. cbn [flat_map] in *. unfold group_words at 2 in IH. unfold group_words at 2. cbn [gr_word gr_params] in *.
    rewrite IH. rewrite <- !app_assoc. apply Permutation_app_head. cbn [app]. apply perm_skip. rewrite <- !app_assoc. apply Permutation_app_head.
    rewrite app_assoc. apply Permutation_app_comm.
  - rewrite flat_map_app. cbn [flat_map group_words gr_word gr_params app]. transitivity (w :: ws). { symmetry. apply Permutation_cons_append. }
    rewrite IH, <- app_assoc. apply Permutation_middle.
  - rewrite app_assoc. apply Permutation_app_tail. auto.
Qed.
Lemma grouped_order ws gs rest : grouped ws gs rest ->
  subseq (map gr_word gs) ws /\ subseq rest ws /\ Forall (fun g => subseq (gr_params g) ws) gs.
Proof.
  induction 1 as [|ws gs1 c g ps gs2 rest w H IH T F|ws gs rest w c H IH F C|ws gs rest w H IH F C].
  - repeat constructor.
  - destruct IH as (I1 & I2 & I3). split; [|split].
    + rewrite map_app in *. simpl in *. apply subseq_snoc_skip; auto.
    + apply subseq_snoc_skip; auto.
    + apply Forall_app in I3 as [I3 I4]. inversion I4; subst. cbn [gr_params] in *. apply Forall_app. split.
      * eapply Forall_impl; [|exact I3]. intros; apply subseq_snoc_skip; auto.
      * constructor; [apply subseq_snoc; auto|]. eapply Forall_impl; [|eassumption]. intros; apply subseq_snoc_skip; auto.
  - destruct IH as (I1 & I2 & I3). split; [|split].
    + rewrite map_app. simpl. apply subseq_snoc; auto.
    + apply subseq_snoc_skip; auto.
    + apply Forall_app. split.
      * eapply Forall_impl; [|exact I3]. intros; apply subseq_snoc_skip; auto.
      * constructor; auto. constructor.
  - destruct IH as (I1 & I2 & I3). split; [|split].
    + apply subseq_snoc_skip; auto.
    + apply subseq_snoc; auto.
    + eapply Forall_impl; [|exact I3]. intros; apply subseq_snoc_skip; auto.
Qed.

(** ** Regrouping: C21 *)
Lemma grouped_add_params ws gs c g ps qs :
  grouped ws (gs ++ [Group c g ps]) [] -> (forall x, In x qs -> takes c (wletter x)) ->
  grouped (ws ++ qs) (gs ++ [Group c g (ps ++ qs)]) [].
Proof.
  revert ws ps. induction qs as [|q qs IH]; intros ws ps H T.
  - rewrite !app_nil_r. auto.
  - replace (ws ++ q :: qs) with ((ws ++ [q]) ++ qs) by (rewrite <- app_assoc; auto).
    replace (ps ++ q :: qs) with ((ps ++ [q]) ++ qs) by (rewrite <- app_assoc; auto).
    apply IH; [|intros; apply T; right; auto]. apply gr_param; auto. apply T; left; auto.
Qed.
(** each gcode word is read as a gcode where it stands: it names its class and no earlier gcode takes it *)
Fixpoint well_placed (before : list gclass) (gs : list group) : Prop :=
  match gs with
  | [] => True
  | g :: gs' => Forall (fun c => ~ takes c (wletter (gr_word g))) before /\ word_gcode_class (gr_word g) = Some (gr_class g) /\
                well_placed (before ++ [gr_class g]) gs'
  end.
Lemma well_placed_snoc before gs g : well_placed before (gs ++ [g]) <->
  well_placed before gs /\ Forall (fun c => ~ takes c (wletter (gr_word g))) (before ++ map gr_class gs) /\ word_gcode_class (gr_word g) = Some (gr_class g).
Proof.
  revert before. induction gs as [|x gs IH]; intros before; simpl.
  - rewrite app_nil_r. tauto.
  - rewrite IH, <- app_assoc. simpl. tauto.
Qed.
Lemma well_placed_params before gs1 c g ps ps' gs2 : well_placed before (gs1 ++ Group c g ps :: gs2) -> well_placed before (gs1 ++ Group c g ps' :: gs2).
Proof.
  revert before. induction gs1 as [|x gs1 IH]; intros before; simpl; auto. intros (H1 & H2 & H3). auto.
Qed.
Lemma grouped_placed ws gs rest : grouped ws gs rest -> well_placed [] gs.
Proof.
  induction 1 as [|ws gs1 c g ps gs2 rest w H IH T F|ws gs rest w c H IH F C|ws gs rest w H IH F C]; auto.
  - simpl; auto.
  - eapply well_placed_params; eauto.
  - apply well_placed_snoc. split; auto. split; auto. apply (forall_classes (fun c => ~ takes c (wletter w))) in F. auto.
Qed.
Lemma placed_grouped gs : well_placed [] gs -> Forall (fun g => forall x, In x (gr_params g) -> takes (gr_class g) (wletter x)) gs ->
  grouped (flat_map group_words gs) gs [].
Proof.
  induction gs as [|[c g ps] gs IH] using rev_ind; intros P T.
  - constructor.
  - apply well_placed_snoc in P as (P1 & P2 & P3). apply Forall_app in T as [T1 T2]. inversion T2; subst. cbn [gr_params gr_class gr_word] in *.
    rewrite flat_map_app. cbn [flat_map]. unfold group_words at 2. cbn [gr_word gr_params]. rewrite app_nil_r.
    replace (flat_map group_words gs ++ g :: ps) with ((flat_map group_words gs ++ [g]) ++ ps) by (rewrite <- app_assoc; auto).
    apply (grouped_add_params _ gs c g [] ps); auto. apply gr_start; auto.
    apply (forall_classes (fun c => ~ takes c (wletter g))). auto.
Qed.
End WithArith.
