From Coq Require Import Ascii String List Bool Arith ZArith QArith Qcanon Qabs Lia Lqa.
From Verif Require Import Base Num Words GTable GCode BaseFacts WordOrder NumFacts PrintSpec PrintProofs GCodeSpec.
Import ListNotations.
Open Scope Z_scope.

(** ** Tenths of the literals *)
Definition tval (v : value) : Z :=
  match v with VInt z => 10 * z | VFloat x => (Qnum x * 10) / Zpos (Qden x) | VStr _ => 0 end.
Inductive tclaim := TLetter (l : letter) | TIntervals (l : letter) (ivs : list (Z * Z)) | TNever.
(** read off the class table with exact literals *)
Definition tclaims (c : gclass) : tclaim :=
  match resolve_or (own_word_key (ar := exact_arith)) c None with
  | Some (l, v) => TIntervals l [(tval v, tval v)]
  | None => match resolve_or (own_word_matches (ar := exact_arith)) c None with
            | Some (MLetter l) => TLetter l
            | Some (MRange l a b) => TIntervals l [(tval (VFloat a), tval (VFloat b))]
            | Some (MIn l vs) => TIntervals l (map (fun x => (tval (VFloat x), tval (VFloat x))) vs)
            | None => TNever
            end
  end.
Lemma Z_tenths z : Qc_of_Z z = frac (10 * z) 10.
Proof. apply Qc_is_canon. rewrite this_frac. unfold Qc_of_Z. cbn [this Q2Qc]. rewrite Qred_correct. unfold Qeq, inject_Z. cbn [Qnum Qden]. lia. Qed.
Lemma fifth_tenths n : frac n 5 = frac (2 * n) 10.
Proof. apply Qc_is_canon. rewrite !this_frac. unfold Qeq. cbn [Qnum Qden]. lia. Qed.
Lemma half_tenths n : frac n 2 = frac (5 * n) 10.
Proof. apply Qc_is_canon. rewrite !this_frac. unfold Qeq. cbn [Qnum Qden]. lia. Qed.
Lemma one_tenths n : frac n 1 = frac (10 * n) 10.
Proof. apply Qc_is_canon. rewrite !this_frac. unfold Qeq. cbn [Qnum Qden]. lia. Qed.

Lemma Qcleb_le x y : Qcleb x y = true <-> (x <= y)%Qc.
Proof. unfold Qcleb, Qcle, Qle, Qcompare. destruct (Z.compare_spec (Qnum x * Zpos (Qden y)) (Qnum y * Zpos (Qden x))); split; intros; try discriminate; lia. Qed.

Section WithArith.
Context {ar : Arith}.
Definition tkey (l : letter) (k : Z) : word := Word l (VFloat (rnd (frac k 10))).
Definition tclaim_holds (t : tclaim) (w : word) : Prop :=
  match t with
  | TLetter l => wletter w = l
  | TIntervals l ivs => wletter w = l /\ exists lo hi, In (lo, hi) ivs /\ in_tenths lo hi w
  | TNever => False
  end.
Lemma key_form c : match tclaims c with
  | TIntervals l [(a, b)] => (a = b /\ word_key c = Some (tkey l a)) \/
                             (word_key c = None /\ word_matches c = Some (MRange l (rnd (frac a 10)) (rnd (frac b 10))))
  | TIntervals l ivs => word_key c = None /\ word_matches c = Some (MIn l (map (fun iv => rnd (frac (fst iv) 10)) ivs)) /\
                        forallb (fun iv => fst iv =? snd iv) ivs = true
  | TLetter l => word_key c = None /\ word_matches c = Some (MLetter l)
  | TNever => word_key c = None /\ word_matches c = None
  end.
Proof.
  destruct c;
  match goal with |- match ?t with _ => _ end => let v := eval vm_compute in t in change t with v end; cbv iota;
  first [ left; split; [reflexivity|]; unfold word_key, resolve_or, resolve, tkey; cbn [resolve_fuel own_word_key parent option_map];
          unfold lit_word, coerce, flit, float_of_int; cbn [letter_class fst snd]; rewrite ?Z_tenths, ?fifth_tenths, ?half_tenths, ?one_tenths; reflexivity
        | right; split; [reflexivity|]; unfold word_matches, resolve_or, resolve; cbn [resolve_fuel own_word_matches parent];
          unfold flit; rewrite ?Z_tenths, ?fifth_tenths, ?half_tenths, ?one_tenths; reflexivity
        | split; [reflexivity|split; [|reflexivity]]; unfold word_matches, resolve_or, resolve; cbn [resolve_fuel own_word_matches parent];
          unfold flit; rewrite ?Z_tenths, ?fifth_tenths, ?half_tenths, ?one_tenths; reflexivity
        | split; reflexivity ].
Qed.
Lemma constructed_typed w : constructed w -> word_wf w.
Proof.
  intros [v H]. unfold mk_word in H. destruct (coerce (wletter w) v) as [v'|] eqn:E; [|discriminate]. cbn in H. injection H as H.
  unfold word_wf. rewrite <- H. cbn [wletter wvalue]. clear H. unfold coerce in E.
  destruct (letter_class (wletter w)), v; cbn in E; try discriminate; try (injection E as <-; auto).
  - destruct (py_float s); cbn in E; [injection E as <-; auto|discriminate].
  - destruct (py_int s); cbn in E; [injection E as <-; auto|discriminate].
Qed.
Lemma float_letters c : match tclaims c with TIntervals l _ => letter_class l = CFloat | _ => True end.
Proof. destruct c; vm_compute; auto. Qed.
Lemma claims_tclaim c w : word_wf w -> (claims c w <-> tclaim_holds (tclaims c) w).
Proof.
  intros W. pose proof (key_form c) as K. pose proof (float_letters c) as F. unfold claims.
  destruct (tclaims c) as [l|l ivs|]; cbn [tclaim_holds] in *.
  - destruct K as [-> ->]. split.
    + intros (f & E & M). injection E as <-. cbn in M. apply letter_eqb_eq in M. auto.
    + intros <-. eexists. split; [reflexivity|]. cbn. apply letter_eqb_refl.
  - assert (FV : wletter w = l -> exists x, wvalue w = VFloat x).
    { intros <-. unfold word_wf in W. rewrite F in W. destruct (wvalue w); try contradiction. eauto. }
    destruct ivs as [|[a b] [|iv2 ivs]].
    + destruct K as (-> & -> & _). split.
      * intros (f & E & M). injection E as <-. cbn in M. destruct (wvalue w); rewrite andb_false_r in M; discriminate.
      * intros (_ & lo & hi & [] & _).
    + destruct K as [[-> ->]|[-> ->]].
      * unfold word_eqb, tkey. cbn [wletter wvalue]. rewrite andb_true_iff, letter_eqb_eq. split.
        { intros [El V]. destruct (FV El) as [x Ex]. split; auto. exists b, b. split; [left; auto|]. exists x. split; auto.
          rewrite Ex in V. cbn in V. apply Qceqb_eq in V. subst x. split; apply Qcle_refl. }
        { intros (El & lo & hi & [E|[]] & x & Ex & H1 & H2). injection E as <- <-. split; auto. rewrite Ex. cbn. apply Qceqb_eq. apply Qcle_antisym; auto. }
      * split.
        { intros (f & E & M). injection E as <-. cbn in M. apply andb_true_iff in M as [El V]. apply letter_eqb_eq in El.
          destruct (wvalue w) as [x| |] eqn:Ex; try discriminate. apply andb_true_iff in V as [V1 V2]. apply Qcleb_le in V1, V2.
          split; auto. exists a, b. split; [left; auto|]. exists x. auto. }
        { intros (El & lo & hi & [E|[]] & x & Ex & H1 & H2). injection E as <- <-. eexists. split; [reflexivity|]. cbn. rewrite Ex.
          apply andb_true_iff. split; [apply letter_eqb_eq; auto|]. apply andb_true_iff. split; apply Qcleb_le; auto. }
    + destruct K as (-> & K2 & P). change (word_matches c = Some (MIn l (map (fun iv => rnd (frac (fst iv) 10)) ((a, b) :: iv2 :: ivs)))) in K2.
      rewrite K2. rewrite forallb_forall in P. remember ((a, b) :: iv2 :: ivs) as L. split.
      * intros (f & E & M). injection E as <-. unfold matches in M. apply andb_true_iff in M as [El V]. apply letter_eqb_eq in El.
        destruct (wvalue w) as [x| |] eqn:Ex; try discriminate. apply existsb_exists in V as (y & Hy & V). apply Qceqb_eq in V. subst y.
        apply in_map_iff in Hy as ([lo hi] & Ey & Hin). specialize (P _ Hin). cbn in Ey, P. apply Z.eqb_eq in P. subst hi x.
        split; auto. exists lo, lo. split; auto. eexists. split; [eauto|]. split; apply Qcle_refl.
      * intros (El & lo & hi & Hin & x & Ex & H1 & H2). eexists. split; [reflexivity|]. unfold matches. rewrite Ex.
        apply andb_true_iff. split; [apply letter_eqb_eq; auto|]. apply existsb_exists. exists x. split; [|apply Qceqb_refl].
        apply in_map_iff. exists (lo, hi). split; auto. cbn. specialize (P _ Hin). cbn in P. apply Z.eqb_eq in P. subst hi. apply Qcle_antisym; auto.
  - destruct K as [-> ->]. split; [intros (f & E & _); discriminate|tauto].
Qed.

(** ** The table of the code and that of the documentation *)
Definition has_entry (e : letter * Z * Z * gclass) : bool :=
  match e with (l, lo, hi, c) =>
    match tclaims c with TIntervals l' ivs => letter_eqb l l' && existsb (fun iv => (fst iv =? lo) && (snd iv =? hi)) ivs | _ => false end
  end.
Definition has_letter_entry (e : letter * gclass) : bool :=
  match tclaims (snd e) with TLetter l => letter_eqb (fst e) l | _ => false end.
Definition entry_eqb (a b : letter * Z * Z * gclass) : bool :=
  match a, b with (l, lo, hi, c), (l', lo', hi', c') => letter_eqb l l' && (lo =? lo') && (hi =? hi') && gclass_eqb c c' end.
Definition in_doc (c : gclass) : bool :=
  match tclaims c with
  | TLetter l => existsb (fun e => letter_eqb l (fst e) && gclass_eqb c (snd e)) doc_letters
  | TIntervals l ivs => forallb (fun iv => existsb (entry_eqb (l, fst iv, snd iv, c)) doc_codes) ivs
  | TNever => true
  end.
Lemma doc_sound : forallb has_entry doc_codes && forallb has_letter_entry doc_letters = true. Proof. vm_compute. reflexivity. Qed.
Lemma doc_complete c : in_doc c = true. Proof. destruct c; vm_compute; reflexivity. Qed.
Lemma claims_doc c w : word_wf w -> (claims c w <-> doc_class w c).
Proof.
  intros W. rewrite (claims_tclaim c w W). pose proof doc_sound as S. apply andb_true_iff in S as [S1 S2]. rewrite forallb_forall in S1, S2.
  pose proof (doc_complete c) as C. unfold in_doc in C. unfold doc_class. split.
  - destruct (tclaims c) as [l|l ivs|]; cbn [tclaim_holds].
    + intros <-. left. apply existsb_exists in C as ([l c'] & H & E). cbn in E. apply andb_true_iff in E as [E1 E2].
      apply letter_eqb_eq in E1. apply gclass_eqb_eq in E2. subst. auto.
    + intros (<- & lo & hi & Hin & T). right. exists lo, hi. split; auto. rewrite forallb_forall in C. specialize (C _ Hin). cbn [fst snd] in C.
      apply existsb_exists in C as ([[[l' lo'] hi'] c'] & H & E). unfold entry_eqb in E. rewrite !andb_true_iff in E. destruct E as [[[E1 E2] E3] E4].
      apply letter_eqb_eq in E1. apply Z.eqb_eq in E2, E3. apply gclass_eqb_eq in E4. subst. auto.
    + tauto.
  - intros [H|(lo & hi & H & T)].
    + specialize (S2 _ H). unfold has_letter_entry in S2. cbn [fst snd] in S2. destruct (tclaims c); try discriminate. apply letter_eqb_eq in S2. auto.
    + specialize (S1 _ H). unfold has_entry in S1. destruct (tclaims c) as [|l ivs|]; try discriminate. apply andb_true_iff in S1 as [E1 E2].
      apply letter_eqb_eq in E1. apply existsb_exists in E2 as ([a b] & Hin & E). apply andb_true_iff in E as [Ea Eb].
      apply Z.eqb_eq in Ea, Eb. cbn in Ea, Eb. subst. split; auto. eauto.
Qed.

(** ** Rounding keeps the order of tenths *)
Section Accurate.
Hypothesis acc : accurate ar.
Lemma tenths_near k : 0 <= k <= 100000 -> (Qabs (this (rnd (frac k 10)) - (k # 10)) <= 1 # 1000)%Q.
Proof.
  intros Hk. destruct (Z.eq_dec k 0) as [->|N].
  - assert (E : frac 0 10 = 0%Qc) by (apply Qc_is_canon; reflexivity). rewrite E, rnd_zero by auto. apply Qabs_bounds. cbn. lra.
  - pose proof (rnd_close acc k 10 N ltac:(lia)) as C. unfold asgn in C. replace (k <? 0) with false in C by (symmetry; apply Z.ltb_ge; lia).
    apply close_bounds in C; [|apply abs_pos; auto]. rewrite Z.abs_eq in C by lia. apply Qabs_bounds.
    assert (B : (k # 10 <= 10000)%Q) by (unfold Qle; simpl; lia).
    assert (B0 : (0 <= k # 10)%Q) by (unfold Qle; simpl; lia). split; lra.
Qed.
Lemma tenths_lt a b : 0 <= a -> b <= 100000 -> a < b -> (rnd (frac a 10) < rnd (frac b 10))%Qc.
Proof.
  intros Ha Hb H. pose proof (tenths_near a ltac:(lia)) as A. pose proof (tenths_near b ltac:(lia)) as B.
  apply Qabs_bounds in A, B. unfold Qclt.
  assert (D : ((a # 10) + (1 # 10) <= b # 10)%Q) by (unfold Qle; simpl; lia). lra.
Qed.
Lemma in_tenths_overlap a b c d w : in_tenths a b w -> in_tenths c d w -> 0 <= a -> 0 <= c -> b <= 100000 -> d <= 100000 ->
  0 <= b -> 0 <= d -> a <= 100000 -> c <= 100000 -> a <= d /\ c <= b.
Proof.
  intros (x & Ex & H1 & H2) (y & Ey & H3 & H4) Ha Hc Hb Hd Hb' Hd' Ha' Hc'. rewrite Ex in Ey. injection Ey as <-. split.
  - destruct (Z_le_gt_dec a d); auto. exfalso. pose proof (tenths_lt d a Hd' ltac:(lia) ltac:(lia)) as L.
    apply (Qcle_not_lt _ _ (Qcle_trans _ _ _ H1 H4)). auto.
  - destruct (Z_le_gt_dec c b); auto. exfalso. pose proof (tenths_lt b c Hb' ltac:(lia) ltac:(lia)) as L.
    apply (Qcle_not_lt _ _ (Qcle_trans _ _ _ H3 H2)). auto.
Qed.
Definition in_range (lo hi : Z) : bool := (0 <=? lo) && (lo <=? 100000) && (0 <=? hi) && (hi <=? 100000).
Definition overlap (lo hi lo' hi' : Z) : bool := (lo <=? hi') && (lo' <=? hi).
(** [check P]: every entry of [l] that can hold together with a documented code satisfies [P] *)
Definition check {A} (P : A -> gclass -> bool) (l : list (letter * Z * Z * A)) : bool :=
  forallb (fun e => match e with (le, lo, hi, a) => in_range lo hi &&
    forallb (fun d => match d with (ld, lo', hi', c) =>
      in_range lo' hi' && (negb (letter_eqb le ld && overlap lo hi lo' hi') || P a c) end) doc_codes &&
    forallb (fun d => negb (letter_eqb le (fst d))) doc_letters end) l.
Lemma in_range_spec lo hi : in_range lo hi = true -> 0 <= lo <= 100000 /\ 0 <= hi <= 100000.
Proof. unfold in_range. rewrite !andb_true_iff, !Z.leb_le. lia. Qed.
Lemma check_spec {A} (P : A -> gclass -> bool) l lo hi a w c : check P l = true ->
  In (wletter w, lo, hi, a) l -> in_tenths lo hi w -> doc_class w c -> P a c = true.
Proof.
  intros C Hin T D. unfold check in C. rewrite forallb_forall in C. specialize (C _ Hin). cbn beta iota in C.
  rewrite !andb_true_iff, !forallb_forall in C. destruct C as [[R C1] C2]. apply in_range_spec in R. destruct D as [D|(lo' & hi' & D & T')].
  - specialize (C2 _ D). cbn in C2. rewrite letter_eqb_refl in C2. discriminate.
  - specialize (C1 _ D). cbn beta iota in C1. apply andb_true_iff in C1 as [R' C1]. apply in_range_spec in R'.
    rewrite letter_eqb_refl in C1. apply orb_true_iff in C1 as [C1|C1]; auto. exfalso.
    destruct (in_tenths_overlap lo hi lo' hi' w T T') as [O1 O2]; try lia.
    unfold overlap in C1. rewrite (proj2 (Z.leb_le _ _) O1), (proj2 (Z.leb_le _ _) O2) in C1. discriminate.
Qed.
Lemma doc_disjoint : check gclass_eqb doc_codes = true. Proof. vm_compute. reflexivity. Qed.
Lemma doc_class_unique w c c' : doc_class w c -> doc_class w c' -> c = c'.
Proof.
  intros D D'. destruct D as [D|(lo & hi & D & T)].
  - destruct D' as [D'|(lo & hi & D' & T)].
    + unfold doc_letters in *. cbn [In] in D, D'.
      repeat (destruct D as [D|D]; [injection D as E <-; rewrite <- E in D'; repeat (destruct D' as [D'|D']; [congruence|]); contradiction|]). contradiction.
    + symmetry. apply gclass_eqb_eq. eapply check_spec; eauto using doc_disjoint. left; auto.
  - apply gclass_eqb_eq. eapply check_spec; eauto using doc_disjoint.
Qed.
Lemma claims_unique c c' w : word_wf w -> claims c w -> claims c' w -> c = c'.
Proof. intros W H H'. apply claims_doc in H, H'; auto. eapply doc_class_unique; eauto. Qed.
Lemma subclasses_all c : In c subclasses. Proof. destruct c; vm_compute; auto 150. Qed.
Lemma doc_gcode_letter w c : doc_class w c -> gcode_letter (wletter w) = true.
Proof.
  assert (H : forallb (fun e => gcode_letter (fst (fst (fst e)))) doc_codes && forallb (fun e => gcode_letter (fst e)) doc_letters = true) by (vm_compute; reflexivity).
  apply andb_true_iff in H as [H1 H2]. rewrite forallb_forall in H1, H2. intros [D|(lo & hi & D & T)].
  - apply (H2 _ D).
  - apply (H1 _ D).
Qed.
Lemma word_class_claims w c : word_wf w -> (word_gcode_class w = Some c <-> claims c w).
Proof.
  intros W. assert (S : forall c, word_gcode_class w = Some c -> claims c w).
  { intros c'. unfold word_gcode_class. destruct (negb (gcode_letter (wletter w))); [discriminate|].
    destruct (find _ subclasses) as [c0|] eqn:F.
    - intros E. injection E as <-. apply find_some in F as [_ F]. unfold claims. destruct (word_key c0); [auto|discriminate].
    - destruct (find _ function_list) as [[f c0]|] eqn:F2; [|discriminate]. intros E. injection E as <-. apply find_some in F2 as [I M].
      unfold function_list in I. apply in_flat_map in I as (c1 & _ & I). unfold claims.
      destruct (word_key c1) eqn:K; [contradiction|]. destruct (word_matches c1) eqn:WM; [|contradiction]. destruct I as [I|[]]. injection I as <- <-.
      rewrite K. eauto. }
  split; [apply S|]. intros C. assert (E : exists c', word_gcode_class w = Some c').
  { unfold word_gcode_class. rewrite (doc_gcode_letter w c) by (apply claims_doc; auto). cbn [negb].
    destruct (find _ subclasses) as [c0|] eqn:F; [eauto|]. unfold claims in C. destruct (word_key c) eqn:K.
    - exfalso. apply find_none with (x := c) in F; [|apply subclasses_all]. rewrite K in F. congruence.
    - destruct C as (f & WM & M). destruct (find _ function_list) as [[f0 c0]|] eqn:F2; [cbn; eauto|]. exfalso.
      apply find_none with (x := (f, c)) in F2; [cbn in F2; congruence|]. unfold function_list. apply in_flat_map. exists c. split; [apply subclasses_all|].
      rewrite K, WM. left; auto. }
  destruct E as [c' E]. rewrite E. f_equal. apply (claims_unique _ _ w W); auto.
Qed.
Lemma word_class_doc w c : word_wf w -> (word_gcode_class w = Some c <-> doc_class w c).
Proof. intros W. rewrite word_class_claims, claims_doc; tauto. Qed.
Lemma key_wf c k : word_key c = Some k -> word_wf k.
Proof.
  intros K. pose proof (key_form c) as F. pose proof (float_letters c) as L. destruct (tclaims c) as [|l ivs|].
  - destruct F. congruence.
  - destruct ivs as [|[a b] [|]]; [destruct F; congruence| |destruct F; congruence].
    destruct F as [[_ F]|[F _]]; [|congruence]. rewrite F in K. injection K as <-. unfold word_wf, tkey. cbn [wletter wvalue]. rewrite L. auto.
  - destruct F. congruence.
Qed.
Lemma build_ok cs l0 : NoDup cs -> (forall k c, In (k, c) l0 -> word_key c = Some k /\ ~ In c cs) -> exists m, build_word_map cs l0 = Ok m.
Proof.
  revert l0. induction cs as [|c cs IH]; intros l ND Hl; cbn [build_word_map]; [eauto|]. inversion ND; subst.
  destruct (word_key c) as [k|] eqn:K.
  - destruct (existsb _ l) eqn:E.
    + exfalso. apply existsb_exists in E as ([k' c'] & I & E). cbn [fst] in E. destruct (Hl _ _ I) as [K' N].
      pose proof (key_wf _ _ K). pose proof (key_wf _ _ K'). apply word_eqb_eq in E; auto. subst k'.
      assert (c = c'); [|subst; apply N; left; auto]. apply (claims_unique c c' k); auto; unfold claims; [rewrite K|rewrite K']; apply word_eqb_eq; auto.
    + apply IH; auto. intros k' c' I. apply in_app_iff in I as [I|[I|[]]].
      * destruct (Hl _ _ I) as [A B]. split; auto. intros X. apply B. right; auto.
      * injection I as <- <-. auto.
  - apply IH; auto. intros k' c' I. destruct (Hl _ _ I) as [A B]. split; auto. intros X. apply B. right; auto.
Qed.
Fixpoint nodupb (l : list gclass) : bool := match l with [] => true | c :: l' => negb (existsb (gclass_eqb c) l') && nodupb l' end.
Lemma nodupb_spec l : nodupb l = true -> NoDup l.
Proof.
  induction l as [|c l IH]; cbn; [constructor|]. intros H. apply andb_true_iff in H as [H1 H2]. constructor; auto. intros I.
  apply negb_true_iff in H1. assert (X : existsb (gclass_eqb c) l = true); [|congruence]. apply existsb_exists. exists c. split; auto. apply gclass_eqb_eq; auto.
Qed.
Lemma subclasses_nodup : NoDup subclasses. Proof. apply nodupb_spec. vm_compute. reflexivity. Qed.
Lemma word_map_ok : exists m, build_word_map subclasses [] = Ok m.
Proof. apply build_ok; [apply subclasses_nodup|contradiction]. Qed.

(** ** Order of execution and modal groups *)
Definition stage_ok (s : Z) (c : gclass) : bool := exec_order c / 10 * 10 =? s.
Lemma order_check : check stage_ok doc_order && forallb (fun e => match find (fun d => letter_eqb (fst e) (fst d)) doc_letters with
    Some d => stage_ok (snd e) (snd d) | None => false end) doc_order_letters = true.
Proof. vm_compute. reflexivity. Qed.
Lemma stage_spec w s c : doc_stage w s -> doc_class w c -> exec_order c / 10 * 10 = s.
Proof.
  pose proof order_check as O. apply andb_true_iff in O as [O1 O2]. intros [S|(lo & hi & S & T)] D; apply Z.eqb_eq.
  - unfold doc_order_letters in S. cbn [In] in S.
    assert (E : forall l c0, wletter w = l -> In (l, c0) doc_letters -> c = c0).
    { intros l c0 <- I. apply (doc_class_unique w); auto. left; auto. }
    repeat (destruct S as [S|S]; [injection S as El <-; first
      [ rewrite (E LF GCodeFeedRate) by (auto; vm_compute; auto 10); vm_compute; reflexivity
      | rewrite (E LS GCodeSpindleSpeed) by (auto; vm_compute; auto 10); vm_compute; reflexivity
      | rewrite (E LT GCodeSelectTool) by (auto; vm_compute; auto 10); vm_compute; reflexivity ]|]). contradiction.
  - apply (check_spec stage_ok doc_order lo hi s w c); auto.
Qed.
Definition group_ok (g : mgroup) (c : gclass) : bool := match modal_group c with Some g' => mgroup_eqb g g' | None => false end.
Lemma group_check : check group_ok doc_groups = true. Proof. vm_compute. reflexivity. Qed.
Definition nonmodal_ok (u : unit) (c : gclass) : bool := match modal_group c with Some _ => false | None => true end.
Lemma nonmodal_check : check nonmodal_ok (map (fun e => (e, tt)) doc_nonmodal) = true. Proof. vm_compute. reflexivity. Qed.
Lemma group_spec w lo hi g c : In (wletter w, lo, hi, g) doc_groups -> in_tenths lo hi w -> doc_class w c -> modal_group c = Some g.
Proof.
  intros H T D. pose proof (check_spec group_ok doc_groups lo hi g w c group_check H T D) as E. unfold group_ok in E.
  destruct (modal_group c) as [g'|]; [|discriminate]. apply mgroup_eqb_eq in E. congruence.
Qed.
Lemma nonmodal_spec w lo hi c : In (wletter w, lo, hi) doc_nonmodal -> in_tenths lo hi w -> doc_class w c -> modal_group c = None.
Proof.
  intros H T D. assert (I : In (wletter w, lo, hi, tt) (map (fun e => (e, tt)) doc_nonmodal)) by (apply in_map_iff; eauto).
  pose proof (check_spec nonmodal_ok _ lo hi tt w c nonmodal_check I T D) as E. unfold nonmodal_ok in E. destruct (modal_group c); [discriminate|auto].
Qed.
End Accurate.
End WithArith.
