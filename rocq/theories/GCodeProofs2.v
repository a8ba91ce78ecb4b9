From Coq Require Import Ascii String List Bool Arith ZArith QArith Qcanon Permutation Sorted Lia.
From Verif Require Import Base Num Words GTable GCode Line BaseFacts WordOrder WordsSpec WordsProofs GCodeSpec GCodeProofs.
Import ListNotations.
Local Open Scope nat_scope.

Lemma kv_letters (ps : list word) : map fst (map (fun w => (wletter w, w)) ps) = map wletter ps.
Proof. rewrite map_map. reflexivity. Qed.
Lemma kv_words (ps : list word) : map snd (map (fun w => (wletter w, w)) ps) = ps.
Proof. rewrite map_map. apply map_id. Qed.
Lemma built_legal c w ps : (forall x, In x ps -> takes c (wletter x)) -> NoDup (map wletter ps) -> legal (built (Group c w ps)).
Proof.
  intros T ND. split; cbn [built gparams gcls gr_class gr_params].
  - apply Forall_forall. intros kv H. apply in_map_iff in H as (x & <- & H). cbn [fst snd]. auto.
  - rewrite kv_letters. auto.
Qed.
Lemma legal_kv g : legal g -> gparams g = map (fun w => (wletter w, w)) (map snd (gparams g)).
Proof.
  intros [F _]. rewrite map_map. rewrite <- (map_id (gparams g)) at 1. apply map_ext_in. intros [l w] H. rewrite Forall_forall in F.
  destruct (F _ H) as [E _]. cbn in *. congruence.
Qed.
Lemma legal_built g : legal g -> exists ps, gparams g = map (fun w => (wletter w, w)) ps /\ (forall x, In x ps -> takes (gcls g) (wletter x)) /\ NoDup (map wletter ps).
Proof.
  intros L. exists (map snd (gparams g)). pose proof (legal_kv g L) as E. destruct L as [F ND]. split; auto. split.
  - intros x H. apply in_map_iff in H as ([l w] & <- & H). rewrite Forall_forall in F. destruct (F _ H) as [E1 E2]. cbn in *. congruence.
  - rewrite E, kv_letters in ND. auto.
Qed.
(** not accepted letters *)
Lemma add_parameters_err g ws e : add_parameters g ws = Raise e -> e = EGCodeParameterError.
Proof.
  revert g. induction ws as [|w ws IH]; intros g; cbn [add_parameters]; [discriminate|]. unfold add_parameter.
  destruct (negb (accepts (gcls g) (wletter w))); cbn [bind]; [congruence|].
  destruct (dmem letter_eqb (gparams g) (wletter w)); cbn [bind]; [congruence|]. apply IH.
Qed.
Lemma add_parameters_takes g ws g' : add_parameters g ws = Ok g' -> forall x, In x ws -> takes (gcls g) (wletter x).
Proof.
  revert g. induction ws as [|w ws IH]; intros g; cbn [add_parameters]; [contradiction|]. unfold add_parameter.
  destruct (accepts (gcls g) (wletter w)) eqn:A; cbn [bind negb]; [|discriminate].
  destruct (dmem letter_eqb (gparams g) (wletter w)); cbn [bind]; [discriminate|].
  intros H x [<-|Hx]; [apply accepts_iff; auto|]. apply IH with (x := x) in H; auto.
Qed.
Lemma mk_gcode_iff c w ps g : mk_gcode c w ps = Ok g <->
  (forall x, In x ps -> takes c (wletter x)) /\ NoDup (map wletter ps) /\ g = built (Group c w ps).
Proof.
  split.
  - intros H. pose proof (add_parameters_takes (MkGCode c w [] false) ps g H) as T. cbn [gcls] in T. split; auto.
    destruct (NoDup_dec_letters (map wletter ps)) as [ND|ND].
    + split; auto. rewrite (mk_gcode_ok c w ps T ND) in H. congruence.
    + rewrite (mk_gcode_dup c w ps T ND) in H. discriminate.
  - intros (T & ND & ->). apply mk_gcode_ok; auto.
Qed.
Lemma mk_gcode_total c w ps : (exists g, mk_gcode c w ps = Ok g) \/ mk_gcode c w ps = Raise EGCodeParameterError.
Proof. destruct (mk_gcode c w ps) as [g|e] eqn:E; [eauto|]. right. f_equal. eapply add_parameters_err; eauto. Qed.
Lemma mk_gcode_legal c w ps g : mk_gcode c w ps = Ok g -> legal g.
Proof. intros H. apply mk_gcode_iff in H as (T & ND & ->). apply built_legal; auto. Qed.

Section WithArith.
Context {ar : Arith}.
Lemma mk_word_letter' l v w : mk_word l v = Ok w -> wletter w = l.
Proof. unfold mk_word. destruct (coerce l v); cbn; [|discriminate]. intros E. injection E as <-. auto. Qed.
Lemma setattr_legal g l v g' : legal g -> gcode_setattr g l v = Ok g' -> legal g'.
Proof.
  intros L. unfold gcode_setattr. destruct (accepts (gcls g) l) eqn:A; [|intros E; injection E as <-; auto].
  unfold pget. destruct (dget letter_eqb (gparams g) l) as [w|] eqn:D.
  - destruct (coerce (wletter w) v) as [v'|]; cbn [bind]; [|discriminate]. intros E. injection E as <-. destruct L as [F ND].
    assert (I : In (l, w) (gparams g)) by (eapply dget_in; eauto using letter_eqb_eq). rewrite Forall_forall in F. destruct (F _ I) as [El T]. cbn in El, T.
    split; cbn [gparams gcls].
    + apply Forall_forall. intros [k x] H. apply (in_dget _ _ _ letter_eqb_eq) in H; [|apply dset_nodup; auto using letter_eqb_eq].
      rewrite dget_dset in H by apply letter_eqb_eq. destruct (letter_eqb k l) eqn:E.
      * injection H as <-. apply letter_eqb_eq in E. subst k. cbn [fst snd wletter]. auto.
      * apply dget_in in H; [|apply letter_eqb_eq]. apply (F (k, x)); auto.
    + apply dset_nodup; auto using letter_eqb_eq.
  - destruct (mk_word l v) as [w|] eqn:M; cbn [bind]; [|discriminate]. apply mk_word_letter' in M. unfold add_parameter. rewrite M, A. cbn [negb].
    destruct (dmem letter_eqb (gparams g) l) eqn:E; [discriminate|]. intros X. injection X as <-.
    assert (N : ~ In l (map fst (gparams g))). { intros X. apply (dmem_true _ _ _ letter_eqb_eq) in X. congruence. }
    destruct L as [F ND]. split; cbn [gparams gcls]; rewrite (dset_new _ _ _ letter_eqb_eq) by auto.
    + apply Forall_app. split; auto. constructor; auto. cbn [fst snd]. split; auto. apply accepts_iff; auto.
    + rewrite map_app. cbn [map fst]. apply (Permutation_NoDup (Permutation_cons_append _ _)). constructor; auto.
Qed.
Lemma NoDup_map_filter {A B} (f : A -> B) (p : A -> bool) l : NoDup (map f l) -> NoDup (map f (filter p l)).
Proof.
  induction l as [|x l IH]; cbn [map filter]; auto. intros H. inversion H; subst. destruct (p x); cbn [map]; auto. constructor; auto.
  intros I. apply H2. apply in_map_iff in I as (y & E & I). apply filter_In in I as [I _]. rewrite <- E. apply in_map; auto.
Qed.
Lemma modal_copy_spec g : legal g ->
  modal_copy g = Ok (MkGCode (gcls g) (gword g) (filter (fun kv => accepts_modal (gcls g) (fst kv)) (gparams g)) false).
Proof.
  intros L. unfold modal_copy. set (f := filter _ (gparams g)).
  assert (E : f = map (fun w => (wletter w, w)) (map snd f)).
  { rewrite map_map. rewrite <- (map_id f) at 1. apply map_ext_in. intros [l w] H. apply filter_In in H as [H _]. destruct L as [F _].
    rewrite Forall_forall in F. destruct (F _ H) as [X _]. cbn in *. congruence. }
  rewrite mk_gcode_ok.
  - unfold built. cbn [gr_class gr_word gr_params]. rewrite <- E. reflexivity.
  - intros x H. apply in_map_iff in H as ([l w] & <- & H). apply filter_In in H as [H _]. destruct L as [F _]. rewrite Forall_forall in F.
    destruct (F _ H) as [X T]. cbn in *. congruence.
  - rewrite <- kv_letters, <- E. apply NoDup_map_filter. apply L.
Qed.
Lemma grouped_legal ws gs rest : grouped ws gs rest -> Forall unambiguous gs -> Forall legal (map built gs).
Proof.
  intros G U. apply grouped_takes in G. apply Forall_map. rewrite Forall_forall in *. intros [c w ps] H. apply built_legal; [apply (G _ H)|apply (U _ H)].
Qed.
Theorem constructible_legal g : constructible g -> legal g.
Proof.
  induction 1 as [c w ps g H|c kws g H|g l v g' C IH H|g g' C IH H|ws gs rest g H I|g b C IH].
  - eapply mk_gcode_legal; eauto.
  - unfold mk_gcode_kw in H. destruct (default_word c); cbn [bind] in H; [|discriminate]. destruct (kw_words kws); cbn [bind] in H; [|discriminate].
    eapply mk_gcode_legal; eauto.
  - eapply setattr_legal; eauto.
  - rewrite (modal_copy_spec g IH) in H. injection H as <-. destruct IH as [F ND]. split; cbn [gparams gcls].
    + apply Forall_forall. intros kv Hk. apply filter_In in Hk as [Hk _]. rewrite Forall_forall in F. auto.
    + apply NoDup_map_filter; auto.
  - apply words2gcodes_iff in H as (grs & G & U & ->). pose proof (grouped_legal _ _ _ G U) as L. rewrite Forall_forall in L. auto.
  - exact IH.
Qed.
(** words2gcodes ws: gcodes are those of text2words, so well formed *)
Lemma grouped_words_in ws gs rest g : grouped ws gs rest -> In g gs -> In (gr_word g) ws.
Proof.
  intros G H. apply grouped_perm in G. eapply Permutation_in; [symmetry; exact G|]. apply in_app_iff. left. apply in_flat_map. exists g. split; auto. left; auto.
Qed.

(** ** C21 *)
Lemma regroup gs : well_placed [] gs -> Forall (fun g => forall x, In x (gr_params g) -> takes (gr_class g) (wletter x)) gs -> Forall unambiguous gs ->
  forall wss, Forall2 written (map built gs) wss -> exists gs', words2gcodes (concat wss) = Ok (gs', []) /\ Forall2 same_gcode (map built gs) gs'.
Proof.
  intros P T U wss F.
  assert (X : exists gs2, Forall2 (fun g g2 => gr_class g = gr_class g2 /\ gr_word g = gr_word g2 /\ Permutation (gr_params g) (gr_params g2)) gs gs2 /\ concat wss = flat_map group_words gs2).
  { clear P T U. revert wss F. induction gs as [|g gs IH]; cbn [map]; intros wss F; inversion F; subst.
    - exists []. split; auto.
    - destruct (IH _ H3) as (gs2 & A & B). inversion H1 as [g0 ps Pm Eg Ew]; subst. exists (Group (gr_class g) (gr_word g) ps :: gs2). split.
      + constructor; auto. cbn [gr_class gr_word gr_params]. split; auto. split; auto.
        cbn [built gparams] in Pm. rewrite kv_words in Pm. symmetry; auto.
      + cbn [concat flat_map group_words gr_word gr_params]. rewrite B. reflexivity. }
  destruct X as (gs2 & A & ->). clear F.
  assert (P2 : well_placed [] gs2 /\ Forall (fun g => forall x, In x (gr_params g) -> takes (gr_class g) (wletter x)) gs2 /\ Forall unambiguous gs2 /\
               Forall2 same_gcode (map built gs) (map built gs2)).
  { revert P. generalize (@nil gclass) as before. induction A as [|g g2 gs gs2 (E1 & E2 & E3) A IH]; intros before P; cbn [map].
    - split; [exact I|]. split; [constructor|]. split; constructor.
    - inversion T; inversion U; subst. cbn [well_placed] in P. destruct P as (P1 & P2 & P3).
      destruct (IH H2 H6 _ P3) as (I1 & I2 & I3 & I4). cbn [well_placed]. rewrite <- E1, <- E2. split; [auto|]. split; [|split].
      + constructor; auto. intros x Hx. rewrite <- E1. apply H1. eapply Permutation_in; [symmetry; exact E3|auto].
      + constructor; auto. unfold unambiguous in *. eapply Permutation_NoDup; [|exact H5]. apply Permutation_map; auto.
      + constructor; auto. unfold same_gcode, built. cbn [gcls gword gparams]. split; auto. split; auto. apply Permutation_map; auto. }
  destruct P2 as (I1 & I2 & I3 & I4). exists (map built gs2). split; auto. apply words2gcodes_iff. exists gs2. split; [|auto]. apply placed_grouped; auto.
Qed.

(** ** C23 *)
Lemma assert_gcodes_spec gs sw sg : Forall word_wf (map gword gs) -> Forall word_wf sw ->
  assert_gcodes sw sg gs = Ok tt <->
  ForallOrdPairs compatible gs /\
  Forall (fun g => ~ In (gword g) sw /\ forall m, modal_group (gcls g) = Some m -> ~ In m sg) gs.
Proof.
  revert sw sg. induction gs as [|g gs IH]; intros sw sg W WS; cbn [assert_gcodes map].
  - split; auto. intros _. split; constructor.
  - inversion W; subst.
    assert (E : existsb (word_eqb (gword g)) sw = true <-> In (gword g) sw).
    { rewrite existsb_exists. split.
      - intros (x & Hx & E). rewrite Forall_forall in WS. apply word_eqb_eq in E; auto. congruence.
      - intros H. exists (gword g). split; auto. apply word_eqb_eq; auto. }
    assert (FOP : forall P : Prop, (ForallOrdPairs compatible (g :: gs) /\ P <-> Forall (compatible g) gs /\ ForallOrdPairs compatible gs /\ P)).
    { intros P. split; [intros [H Hp]; inversion H; auto|intros (A & B & C); split; auto; constructor; auto]. }
    rewrite FOP, Forall_cons_iff. destruct (existsb (word_eqb (gword g)) sw) eqn:Ex.
    + split; [discriminate|]. intros (_ & _ & (H & _) & _). apply proj1 in E. exfalso. apply H, E; auto.
    + assert (N : ~ In (gword g) sw) by (intros X; apply E in X; discriminate).
      destruct (modal_group (gcls g)) as [m|] eqn:M.
      * destruct (existsb (mgroup_eqb m) sg) eqn:Eg.
        { split; [discriminate|]. intros (_ & _ & (_ & H) & _). exfalso. apply (H m); auto. apply existsb_exists in Eg as (m' & I & Em). apply mgroup_eqb_eq in Em. congruence. }
        assert (Ng : ~ In m sg). { intros X. assert (Y : existsb (mgroup_eqb m) sg = true); [|congruence]. apply existsb_exists. exists m. split; auto. apply mgroup_eqb_eq; auto. }
        rewrite IH by (auto; constructor; auto). rewrite !Forall_forall. split.
        { intros (A & B). split; [|split; [auto|split; [split; [auto|congruence]|]]].
          - intros x Hx. destruct (B x Hx) as [B1 B2]. split.
            + intros Eq. apply B1. left; auto.
            + intros (m' & Y & Z). apply (B2 m'); auto. left. congruence.
          - intros x Hx. destruct (B x Hx) as [B1 B2]. split; [intros X; apply B1; right; auto|]. intros m' Y Z. apply (B2 m'); auto. right; auto. }
        { intros (A & B & _ & D). split; auto. intros x Hx. destruct (A x Hx) as [A1 A2]. destruct (D x Hx) as [D1 D2]. split.
          - intros [X|X]; auto.
          - intros m' Y [Z|Z]; [apply A2; exists m'; split; congruence|apply (D2 m'); auto]. }
      * rewrite IH by (auto; constructor; auto). rewrite !Forall_forall. split.
        { intros (A & B). split; [|split; [auto|split; [split; [auto|congruence]|]]].
          - intros x Hx. destruct (B x Hx) as [B1 B2]. split.
            + intros Eq. apply B1. left; auto.
            + intros (m' & Y & Z). congruence.
          - intros x Hx. destruct (B x Hx) as [B1 B2]. split; [intros X; apply B1; right; auto|]. auto. }
        { intros (A & B & _ & D). split; auto. intros x Hx. destruct (A x Hx) as [A1 A2]. destruct (D x Hx) as [D1 D2]. split; auto. intros [X|X]; auto. }
Qed.
Lemma assert_gcodes_total gs sw sg : assert_gcodes sw sg gs = Ok tt \/ assert_gcodes sw sg gs = Raise EAssertionError.
Proof.
  revert sw sg. induction gs as [|g gs IH]; intros sw sg; cbn [assert_gcodes]; auto.
  destruct (existsb _ sw); auto. destruct (modal_group (gcls g)); auto. destruct (existsb _ sg); auto.
Qed.

(** ** C28 *)
Lemma setattr_get g l v g' : legal g -> takes (gcls g) l -> gcode_setattr g l v = Ok g' ->
  exists v', coerce l v = Ok v' /\ gcode_getattr g' l = Ok (Some v') /\ gcls g' = gcls g /\ gword g' = gword g /\
  forall k, k <> l -> pget (gparams g') k = pget (gparams g) k.
Proof.
  intros L T. apply accepts_iff in T. unfold gcode_setattr. rewrite T. unfold pget. destruct (dget letter_eqb (gparams g) l) as [w|] eqn:D.
  - assert (El : wletter w = l). { destruct L as [F _]. rewrite Forall_forall in F. apply (dget_in _ _ _ letter_eqb_eq) in D. destruct (F _ D) as [E _]. auto. }
    rewrite El. destruct (coerce l v) as [v'|]; cbn [bind]; [|discriminate]. intros E. injection E as <-. exists v'. split; auto.
    unfold gcode_getattr, pget. cbn [gcls gparams gword]. rewrite T. rewrite (dget_dset _ _ _ letter_eqb_eq), letter_eqb_refl. split; auto. split; auto. split; auto.
    intros k N. rewrite (dget_dset _ _ _ letter_eqb_eq). destruct (letter_eqb k l) eqn:E; auto. apply letter_eqb_eq in E. contradiction.
  - destruct (coerce l v) as [v'|] eqn:C; [|unfold mk_word; rewrite C; discriminate].
    unfold mk_word. rewrite C. cbn [rmap bind]. unfold add_parameter. cbn [wletter]. rewrite T. cbn [negb].
    destruct (dmem letter_eqb (gparams g) l); [discriminate|]. intros E. injection E as <-. exists v'. split; auto.
    unfold gcode_getattr, pget. cbn [gcls gparams gword]. rewrite T. rewrite (dget_dset _ _ _ letter_eqb_eq), letter_eqb_refl. split; auto. split; auto. split; auto.
    intros k N. rewrite (dget_dset _ _ _ letter_eqb_eq). destruct (letter_eqb k l) eqn:E; auto. apply letter_eqb_eq in E. contradiction.
Qed.
Lemma setattr_ok g l v v' : takes (gcls g) l -> legal g -> coerce l v = Ok v' -> exists g', gcode_setattr g l v = Ok g'.
Proof.
  intros T L C. apply accepts_iff in T. unfold gcode_setattr. rewrite T. unfold pget. destruct (dget letter_eqb (gparams g) l) as [w|] eqn:D.
  - assert (El : wletter w = l). { destruct L as [F _]. rewrite Forall_forall in F. apply (dget_in _ _ _ letter_eqb_eq) in D. destruct (F _ D) as [E _]. auto. }
    rewrite El, C. cbn [bind]. eauto.
  - unfold mk_word. rewrite C. cbn [rmap bind]. unfold add_parameter. cbn [wletter]. rewrite T. cbn [negb].
    destruct (dmem letter_eqb (gparams g) l) eqn:M; [|eauto]. apply (dmem_true _ _ _ letter_eqb_eq) in M. apply (dget_none _ _ _ letter_eqb_eq) in D. contradiction.
Qed.

(** ** C29 *)
Lemma join_flat (sep : text) (x : text) l : join sep (x :: l) = x ++ flat_map (fun s => sep ++ s) l.
Proof.
  revert x. induction l as [|y l IH]; intros x; cbn [join flat_map].
  - rewrite app_nil_r. auto.
  - rewrite <- app_assoc. rewrite <- IH. reflexivity.
Qed.
Lemma gcode_str_spec g : NoDup (map fst (gparams g)) -> exists ps,
  Permutation ps (gparams g) /\ StronglySorted (fun a b => lnum (fst a) < lnum (fst b)) ps /\
  gcode_str g = (if gwhite g then repeat space (length (word_str (gword g))) else word_str (gword g)) ++
                flat_map (fun kv => space :: word_str (snd kv)) ps.
Proof.
  intros ND. exists (sorted_params (gparams g)). split; [|split].
  - apply sort_perm.
  - unfold sorted_params. pose proof (sort_sorted _ (fun kv : letter * word => Z.of_nat (lnum (fst kv))) (gparams g)) as S.
    assert (N2 : NoDup (map fst (sort (fun kv : letter * word => Z.of_nat (lnum (fst kv))) (gparams g)))).
    { eapply Permutation_NoDup; [|exact ND]. apply Permutation_map. symmetry. apply sort_perm. }
    set (l := sort _ (gparams g)) in *. clearbody l. clear ND. induction S as [|a l S IH F]; constructor.
    + apply IH. inversion N2; auto.
    + cbn [map] in N2. inversion N2; subst. rewrite Forall_forall in *. intros b Hb. specialize (F b Hb). unfold key_le in F.
      assert (lnum (fst a) <> lnum (fst b)); [|lia]. intros E. apply H1. apply lnum_inj in E. rewrite E. apply in_map; auto.
  - unfold gcode_str. f_equal. unfold sorted_params. destruct (gparams g) as [|kv d] eqn:E; [reflexivity|]. rewrite <- E.
    assert (NE : sort (fun kv : letter * word => Z.of_nat (lnum (fst kv))) (gparams g) <> []).
    { intros X. pose proof (sort_perm _ (fun kv : letter * word => Z.of_nat (lnum (fst kv))) (gparams g)) as P. rewrite X, E in P. apply Permutation_nil_cons in P. auto. }
    destruct (sort _ (gparams g)) as [|a l] eqn:S; [contradiction|]. cbn [map]. rewrite join_flat. cbn [flat_map]. rewrite app_comm_cons. f_equal.
    clear. induction l; cbn [map flat_map]; auto. rewrite IHl. reflexivity.
Qed.
(** ** C26 *)
Lemma split_at_spec cls l : match split_at cls l with
  | Some (a, x, b) => l = a ++ x :: b /\ subclass (gcls x) cls = true /\ Forall (fun g => subclass (gcls g) cls = false) a
  | None => Forall (fun g => subclass (gcls g) cls = false) l
  end.
Proof.
  induction l as [|g l IH]; cbn [split_at]; [constructor|]. destruct (subclass (gcls g) cls) eqn:E.
  - auto.
  - destruct (split_at cls l) as [[[a x] b]|]; [|auto]. destruct IH as (-> & A & B). auto.
Qed.
End WithArith.
