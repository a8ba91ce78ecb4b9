(** Properties C46, C47, C50-C55: words without a gcode, cancelling, copying, units, offset codes, cleaning, order of processing. *)
From Coq Require Import Ascii String List Bool Arith ZArith QArith Qcanon Permutation Sorting.Sorted Lia.
From Verif Require Import Base Num Words GTable GCode Line Position Machine BaseFacts WordOrder WordsSpec GCodeSpec GCodeProofs GCodeProofs2 PropsGCode ArithSpec Float64 PosSpec PosProofs PropsPos ModeSpec ModeProofs PropsMode MachSpec MachProofs MachProofs2 MachProofs3 PropsMach.
Import ListNotations.
Open Scope Z_scope.

(** the current motion mode takes the word *)
Definition usable (m : machine) (w : word) : Prop := exists mo, gm_get (m_mode m) MG_motion = Some mo /\ takes (gcls mo) (wletter w).

(** [sifted P ps us]: [us] is [ps] without the elements that are not [P] *)
Inductive sifted {A} (P : A -> Prop) : list A -> list A -> Prop :=
| sifted_nil : sifted P [] []
| sifted_keep x l k : P x -> sifted P l k -> sifted P (x :: l) (x :: k)
| sifted_drop x l k : ~ P x -> sifted P l k -> sifted P (x :: l) k.
Lemma sifted_filter {A} (P : A -> Prop) (f : A -> bool) l k : (forall x, f x = true <-> P x) -> sifted P l k <-> k = filter f l.
Proof.
  intros H. split.
  - induction 1 as [|x l k Px _ ->|x l k Px _ ->]; auto; cbn [filter].
    + rewrite (proj2 (H x) Px). auto.
    + destruct (f x) eqn:F; auto. exfalso. apply Px, H. auto.
  - intros ->. induction l as [|x l IH]; cbn [filter]; [constructor|]. destruct (f x) eqn:F; constructor; auto; rewrite <- H; congruence.
Qed.
Lemma usable_fit (m : machine) mo : gm_get (m_mode m) MG_motion = Some mo -> forall w, fit (gcls mo) w = true <-> usable m w.
Proof. intros E w. unfold fit. rewrite accepts_iff. split; [exists mo; auto|]. intros (mo' & E' & T). congruence. Qed.

Lemma bare_iff (ar : Arith) ps : words2gcodes ps = Ok ([], ps) <-> bare ps.
Proof.
  split.
  - intros H. apply words2gcodes_iff in H as (grs & G & _ & E). destruct grs; [|discriminate]. clear E. remember ([] : list group) as gs eqn:X. remember ps as ps' eqn:Y in G at 2. clear Y. revert X. induction G as [|ws gs1 c g ps1 gs2 rest w G IH T N|ws gs rest w c G IH N C|ws gs rest w G IH N C]; intros X.
    + constructor.
    + destruct gs1; discriminate.
    + destruct gs; discriminate.
    + subst. apply Forall_app. split; [apply IH; auto|auto].
  - intros B. apply words2gcodes_iff. exists []. split; [|split; [constructor|reflexivity]]. induction ps as [|w ps IH] using rev_ind; [constructor|]. apply Forall_app in B as [B1 B2]. inversion B2; subst. apply gr_left; auto.
Qed.
Lemma sound_motion (ar : Arith) m mo : sound m -> gm_get (m_mode m) MG_motion = Some mo -> legal mo /\ proper mo.
Proof. intros (_ & _ & _ & _ & _ & _ & T) E. destruct (T _ _ E) as (L & P & _). auto. Qed.
Lemma unfit_false c ps : existsb (unfit c) ps = false -> filter (fit c) ps = ps /\ filter (unfit c) ps = [].
Proof.
  rewrite existsb_false, forallb_forall. intros H. split.
  - apply filter_all. intros x I. specialize (H x I). unfold unfit in H. rewrite negb_involutive in H. exact H.
  - induction ps as [|p ps IH]; auto. cbn [filter]. pose proof (H p (or_introl eq_refl)) as X. destruct (unfit c p); [discriminate|]. apply IH. intros; apply H; right; auto.
Qed.
Lemma motion_words (ar : Arith) m mo ps : sound m -> gm_get (m_mode m) MG_motion = Some mo -> bare ps -> forall gs rest, words2gcodes (gword mo :: ps) = Ok (gs, rest) ->
  gs = [MkGCode (gcls mo) (gword mo) (map (fun w => (wletter w, w)) (filter (fit (gcls mo)) ps)) false] /\ rest = filter (unfit (gcls mo)) ps /\ NoDup (map wletter (filter (fit (gcls mo)) ps)).
Proof.
  intros S E B gs rest H. destruct (sound_motion ar m mo S E) as [L P]. apply words2gcodes_iff in H as (grs & G & U & ->).
  assert (G' : grouped (gword mo :: ps) [Group (gcls mo) (gword mo) (filter (fit (gcls mo)) ps)] (filter (unfit (gcls mo)) ps)) by (apply grouped_one; auto; eapply Forall_impl; [|exact B]; auto).
  destruct (grouped_unique _ _ _ _ _ G G') as [-> ->]. split; auto. split; auto. inversion U; subst. exact H1.
Qed.
Lemma updated_fresh mo ps : gparams mo = [] -> NoDup (map wletter ps) -> updated mo ps = map (fun w => (wletter w, w)) ps.
Proof. intros E N. unfold updated. rewrite E. apply (dupdate_distinct _ _ _ letter_eqb_eq). cbn [app]. rewrite map_map. exact N. Qed.

(** ** C46 *)
(** [ps]: words of a block holding no gcode; [mo]: the current motion mode *)
Theorem C46_bare : forall (ar : Arith) (m : machine) (mo : gcode) (ps : list word) (gs0 gs : list gcode) (rest : list word),
  sound m -> m_ignore m = false -> gm_get (m_mode m) MG_motion = Some mo -> gparams mo = [] ->
  ps <> [] -> words2gcodes ps = Ok ([], ps) -> words2gcodes (gword mo :: ps) = Ok (gs, rest) ->
  process_gcodes gs0 ps m = process_gcodes (gs0 ++ gs) rest m.
Proof.
  intros ar m mo ps gs0 gs rest S I E P NE B H. apply bare_iff in B. destruct (sound_motion ar m mo S E) as [L PR]. destruct (motion_words ar m mo ps S E B gs rest H) as (-> & -> & ND).
  unfold process_gcodes. rewrite (modal_gcode_spec m mo ps E L PR B NE). rewrite I. cbn [negb]. rewrite andb_true_r. destruct (existsb (unfit (gcls mo)) ps) eqn:U.
  - assert (NE' : filter (unfit (gcls mo)) ps <> []). { apply existsb_exists in U as (x & X1 & X2). intros Q. assert (X : In x (filter (unfit (gcls mo)) ps)) by (apply filter_In; auto). rewrite Q in X. destruct X. }
    assert (B' : bare (filter (unfit (gcls mo)) ps)). { apply Forall_forall. intros x X. apply filter_In in X as [X _]. unfold bare in B. rewrite Forall_forall in B. auto. }
    rewrite (modal_gcode_spec m mo _ E L PR B' NE'). rewrite I. cbn [negb]. rewrite andb_true_r. replace (existsb _ _) with true; auto. symmetry. apply existsb_exists in U as (x & X1 & X2). apply existsb_exists. exists x. split; auto. apply filter_In. auto.
  - destruct (unfit_false _ _ U) as [F1 F2]. rewrite F1 in *. rewrite F2. cbn [machine_modal_gcode]. rewrite app_nil_r. do 4 f_equal. rewrite updated_fresh by auto. f_equal. f_equal. f_equal. apply filter_all. intros kv X. apply in_map_iff in X as (w & <- & X). cbn [snd]. rewrite <- F1 in X. apply filter_In in X. apply X.
Qed.
Print Assumptions C46_bare.
(** such a block is refused exactly when some word is not for the motion mode *)
Definition same_run (a b : string) (f : machine -> list text) : Prop := after [act_text "G0 X1 Y1"; act_text a] f = after [act_text "G0 X1 Y1"; act_text b] f.
Example C46_ex : after [act_text "G1 F100 X1 Y1"; act_text "X5 Z2"] pos_text = Ok [t "5"; t "1"; t "2"] /\ after [act_text "G1 F100 X1 Y1"; act_text "G1 X5 Z2"] pos_text = Ok [t "5"; t "1"; t "2"].
Proof. split; vm_compute; reflexivity. Qed.

(** ** C47 *)
Theorem C47_refused : forall (ar : Arith) (m : machine) (gs : list gcode) (ps : list word), sound m -> m_ignore m = false -> words2gcodes ps = Ok ([], ps) ->
  (exists w, In w ps /\ ~ usable m w) -> process_gcodes gs ps m = (m, Raise EMachineInvalidState).
Proof.
  intros ar m gs ps S I B (w & W & N). apply bare_iff in B. assert (NE : ps <> []) by (intros ->; destruct W). unfold process_gcodes. destruct (gm_get (m_mode m) MG_motion) as [mo|] eqn:E.
  - destruct (sound_motion ar m mo S E) as [L P]. rewrite (modal_gcode_spec m mo ps E L P B NE). rewrite I. cbn [negb]. rewrite andb_true_r. replace (existsb _ _) with true; auto. symmetry. apply existsb_exists. exists w. split; auto. unfold unfit. apply negb_true_iff. apply accepts_false. intros T. apply N. exists mo. auto.
  - rewrite modal_gcode_none by auto. rewrite I. reflexivity.
Qed.
Print Assumptions C47_refused.
(** and in no other case: all words usable, the motion gcode is run with the words in place of the retained ones *)
Theorem C47_accepted : forall (ar : Arith) (m : machine) (gs : list gcode) (ps : list word), sound m -> words2gcodes ps = Ok ([], ps) -> ps <> [] ->
  (forall w, In w ps -> usable m w) -> exists mo g, gm_get (m_mode m) MG_motion = Some mo /\ gcls g = gcls mo /\ gword g = gword mo /\ legal g /\
    (forall l, dget letter_eqb (gparams g) l = match dget letter_eqb (rev (map (fun w => (wletter w, w)) ps)) l with Some w => Some w | None => dget letter_eqb (gparams mo) l end) /\
    process_gcodes gs ps m = process_gcodes (gs ++ [g]) [] m.
Proof.
  intros ar m gs ps S B NE U. apply bare_iff in B. destruct ps as [|p ps0]; [contradiction|]. destruct (U p (or_introl eq_refl)) as (mo & E & _). remember (p :: ps0) as ps. clear Heqps. destruct (sound_motion ar m mo S E) as [L P].
  assert (F : existsb (unfit (gcls mo)) ps = false). { apply existsb_false. apply forallb_forall. intros x X. destruct (U x X) as (mo' & E' & T). rewrite E in E'. injection E' as <-. unfold unfit. rewrite negb_involutive. apply accepts_iff. auto. }
  assert (FA : filter (fun kv => fit (gcls mo) (snd kv)) (updated mo ps) = updated mo ps).
  { apply filter_all. intros kv X. apply updated_in in X as [K [X|X]]; auto.
    - unfold fit. rewrite <- K. apply accepts_iff. destruct L as [L _]. rewrite Forall_forall in L. apply L. auto.
    - destruct (U (snd kv) X) as (mo' & E' & T). rewrite E in E'. injection E' as <-. apply accepts_iff. auto. }
  exists mo, (MkGCode (gcls mo) (gword mo) (updated mo ps) false). split; auto. split; auto. split; auto. split; [|split].
  - split; [|apply updated_nodup; auto]. apply Forall_forall. intros kv X. cbn [gcls]. pose proof X as X'. apply updated_in in X as [K X]; auto. split; auto. rewrite <- FA in X'. apply filter_In in X' as [_ X']. apply accepts_iff. rewrite K. exact X'.
  - intros l. cbn [gparams]. unfold updated. apply (dget_dupdate _ _ _ letter_eqb_eq).
  - unfold process_gcodes. rewrite (modal_gcode_spec m mo ps E L P B NE). rewrite F, FA. cbn [andb machine_modal_gcode]. rewrite app_nil_r. reflexivity.
Qed.
Print Assumptions C47_accepted.
(** with ignore_invalid_modal: the words the motion mode does not take are dropped, if some word is left or there is no motion mode *)
Theorem C47_ignored : forall (ar : Arith) (m : machine) (gs : list gcode) (ps us : list word), sound m -> m_ignore m = true -> words2gcodes ps = Ok ([], ps) ->
  sifted (usable m) ps us ->
  (us <> [] \/ gm_get (m_mode m) MG_motion = None \/ ps = []) -> process_gcodes gs ps m = process_gcodes gs us m.
Proof.
  intros ar m gs ps us S I B SS C. apply bare_iff in B. unfold process_gcodes. destruct (gm_get (m_mode m) MG_motion) as [mo|] eqn:E.
  - destruct (sound_motion ar m mo S E) as [L P]. apply (sifted_filter _ _ _ _ (usable_fit m mo E)) in SS. destruct ps as [|p0 ps0]; [subst; auto|]. remember (p0 :: ps0) as ps. assert (NE : ps <> []) by (subst; discriminate). assert (NU : us <> []) by (destruct C as [C|[C|C]]; congruence).
    assert (K : filter (fun kv => fit (gcls mo) (snd kv)) (updated mo ps) = filter (fun kv => fit (gcls mo) (snd kv)) (updated mo us)).
    { assert (Q : forall ps d, Forall (fun kv => fst kv = wletter (snd kv)) d -> filter (fun kv => fit (gcls mo) (snd kv)) (dupdate letter_eqb d (map (fun w => (wletter w, w)) ps)) = dupdate letter_eqb (filter (fun kv => fit (gcls mo) (snd kv)) d) (map (fun w => (wletter w, w)) (filter (fit (gcls mo)) ps))).
      { clear. induction ps as [|p ps IH]; intros d K; cbn [map dupdate filter]; auto. unfold dupdate in *. cbn [fold_left map filter]. 
        assert (KK : Forall (fun kv => fst kv = wletter (snd kv)) (dset letter_eqb d (wletter p) p)).
        { clear IH. induction K as [|kv d K1 K2 IH]; cbn [dset]; [repeat constructor|]. destruct kv as [k w]. destruct (letter_eqb (wletter p) k) eqn:LE; constructor; auto. apply letter_eqb_eq in LE. auto. }
        rewrite IH by auto. clear IH. cbn [fst snd]. 
        assert (DS : filter (fun kv => fit (gcls mo) (snd kv)) (dset letter_eqb d (wletter p) p) = if fit (gcls mo) p then dset letter_eqb (filter (fun kv => fit (gcls mo) (snd kv)) d) (wletter p) p else filter (fun kv => fit (gcls mo) (snd kv)) d).
        { clear KK. induction K as [|kv d K1 K2 IH]; cbn [dset filter snd]; [destruct (fit (gcls mo) p); auto|]. destruct kv as [k w]. cbn [fst snd] in *. destruct (letter_eqb (wletter p) k) eqn:LE.
          - apply letter_eqb_eq in LE. assert (FE : fit (gcls mo) w = fit (gcls mo) p) by (unfold fit; congruence). cbn [filter snd]. rewrite FE. destruct (fit (gcls mo) p) eqn:FP; auto. cbn [dset]. rewrite (proj2 (letter_eqb_eq _ _) LE). reflexivity.
          - cbn [filter snd]. destruct (fit (gcls mo) w); [|exact IH]. rewrite IH. destruct (fit (gcls mo) p); auto. cbn [dset]. rewrite LE. reflexivity. }
        rewrite DS. destruct (fit (gcls mo) p); reflexivity. }
      unfold updated. assert (KM : Forall (fun kv => fst kv = wletter (snd kv)) (gparams mo)) by (destruct L as [L _]; eapply Forall_impl; [|exact L]; intros kv [X _]; auto). rewrite !Q by auto. do 2 f_equal.
      subst us. clear. induction ps as [|p ps IH]; auto. cbn [filter]. destruct (fit (gcls mo) p) eqn:F; auto. cbn [filter]. rewrite F, <- IH. auto. }
    assert (B' : bare us) by (apply Forall_forall; intros w X; rewrite SS in X; apply filter_In in X as [X _]; unfold bare in B; rewrite Forall_forall in B; auto).
    rewrite (modal_gcode_spec m mo ps E L P B NE), (modal_gcode_spec m mo us E L P B' NU). rewrite I. cbn [negb]. rewrite !andb_false_r. rewrite K. reflexivity.
  - assert (U : us = []) by (clear - SS E; induction SS as [| |]; auto; destruct H as (mo & E' & _); congruence). subst us. destruct ps as [|p ps]; auto. rewrite modal_gcode_none by (auto; discriminate). rewrite I. reflexivity.
Qed.
Print Assumptions C47_ignored.
Lemma from_ignoring {A} (f : machine -> A) (x : A) : rmap f (new_machine (ar := binary64) xyz true default_mode_lines) = Ok x -> exists m, new_machine (ar := binary64) xyz true default_mode_lines = Ok m /\ f m = x.
Proof. unfold rmap. generalize (new_machine (ar := binary64) xyz true default_mode_lines). intros [m|e]; [|discriminate]. intros H. injection H as <-. eauto. Qed.
Definition after_ignoring (l : list action) (f : machine -> list text) : result (list text) := rmap (fun m => f (history (ar := binary64) l m)) (new_machine (ar := binary64) xyz true default_mode_lines).
(** with ignore_invalid_modal and only unusable words, the retained canned cycle is repeated: the block "D1" moves the machine *)
Theorem C47_refuted : exists (m : machine) (ps : list word), reachable (ar := binary64) m /\ m_ignore m = true /\ words2gcodes (ar := binary64) ps = Ok ([], ps) /\ sifted (usable m) ps [] /\
  pos_text (fst (process_gcodes (ar := binary64) [] ps m)) <> pos_text (fst (process_gcodes (ar := binary64) [] [] m)).
Proof.
  set (l := [act_text "G91 G81 X1 Z-1 R1"]). set (ps := [Word LD (VInt 1)]).
  destruct (from_ignoring (fun m => let m1 := history (ar := binary64) l m in (m_ignore m1, match gm_get (m_mode m1) MG_motion with Some mo => fit (gcls mo) (Word LD (VInt 1)) | None => true end, pos_text (fst (process_gcodes (ar := binary64) [] ps m1)), pos_text (fst (process_gcodes (ar := binary64) [] [] m1)))) (true, false, [t "2"; t "0"; t "0"], [t "1"; t "0"; t "0"])) as (m & D & E); [vm_compute; reflexivity|].
  cbv zeta in E. exists (history (ar := binary64) l m), ps. apply pair_equal_spec in E as [E E4]. apply pair_equal_spec in E as [E E3]. apply pair_equal_spec in E as [E1 E2]. split; [|split; [|split; [|split]]].
  - exists xyz, true, default_mode_lines, m, l. split; [exact D|]. split; [|reflexivity]. constructor; [apply act_text_fits|constructor].
  - exact E1.
  - apply bare_iff. constructor; [|constructor]. vm_compute. reflexivity.
  - apply sifted_drop; [|constructor]. intros (mo & M & T). rewrite M in E2. apply accepts_iff in T. unfold fit in E2. congruence.
  - rewrite E3, E4. intros X. vm_compute in X. discriminate.
Qed.
Print Assumptions C47_refuted.
Example C47_ex : after [act_text "G1 X1"; act_text "G21 X2 D5"] pos_text = Ok [t "1"; t "0"; t "0"] /\ after_ignoring [act_text "G1 X1"; act_text "G21 X2 D5"] pos_text = Ok [t "2"; t "0"; t "0"] /\
  after [act_text "G80"; act_text "X3"] pos_text = Ok [t "0"; t "0"; t "0"].
Proof. repeat split; vm_compute; reflexivity. Qed.

(** ** C54 *)
Lemma word_eqb_letter a b : word_eqb a b = true -> wletter a = wletter b.
Proof. unfold word_eqb. intros H. apply andb_true_iff in H as [H _]. apply letter_eqb_eq. auto. Qed.
Lemma remove_skip w x l : wletter x <> wletter w -> list_remove w (x :: l) = do r <- list_remove w l; Ok (x :: r).
Proof. intros N. cbn [list_remove]. destruct (word_eqb x w) eqn:E; auto. apply word_eqb_letter in E. contradiction. Qed.
Lemma remove_all_skip ws x : forall l, (forall w, In w ws -> wletter x <> wletter w) -> list_remove_all ws (x :: l) = do r <- list_remove_all ws l; Ok (x :: r).
Proof.
  induction ws as [|w ws IH]; intros l N; cbn [list_remove_all]; auto. rewrite remove_skip by (apply N; left; auto). destruct (list_remove w l) as [r|]; cbn [bind]; auto. apply IH. intros; apply N; right; auto.
Qed.
Lemma remove_unfit c ps : list_remove_all (filter (unfit c) ps) ps = Ok (filter (fit c) ps).
Proof.
  induction ps as [|p ps IH]; cbn [filter list_remove_all]; auto. destruct (unfit c p) eqn:U.
  - cbn [list_remove_all list_remove]. rewrite word_eqb_refl. cbn [bind]. rewrite IH. unfold unfit in U. apply negb_true_iff in U. unfold fit. rewrite U. reflexivity.
  - rewrite remove_all_skip, IH. 2: { intros w X. apply filter_In in X as [_ X]. intros Q. unfold unfit in *. rewrite Q in U. congruence. } cbn [bind]. unfold unfit in U. apply negb_false_iff in U. unfold fit at 2. rewrite U. reflexivity.
Qed.
(** [b']: the block as clean_block leaves it *)
Theorem C54_kept : forall (ar : Arith) (m : machine) (b b' : block), sound m -> words2gcodes (bmodal b) = Ok ([], bmodal b) -> clean_block m b = Ok b' ->
  bwords b' = bwords b /\ bgcodes b' = bgcodes b /\
  ((exists g, In g (bgcodes b) /\ in_group MG_motion g) -> bmodal b' = []) /\
  ((forall g, In g (bgcodes b) -> ~ in_group MG_motion g) -> sifted (usable m) (bmodal b) (bmodal b')) /\
  forall m', gm_get (m_mode m') MG_motion = gm_get (m_mode m) MG_motion -> sound m' -> exists gs, block_modal_gcodes m' b' = Ok gs.
Proof.
  intros ar m b b' S B H. apply bare_iff in B. unfold clean_block in H. destruct (gm_get (m_mode m) MG_motion) as [mo|] eqn:E.
  - match type of H with (if ?c then _ else _) = _ => destruct c eqn:X end.
    + injection H as <-. cbn [bwords bgcodes bmodal]. split; auto. split; auto. split; auto. split; [|intros; eexists; reflexivity]. intros N. exfalso. apply existsb_exists in X as (g & G1 & G2). apply (N g G1). unfold in_group. destruct (modal_group (gcls g)) as [[]|]; auto; discriminate.
    + destruct (words2gcodes (gword mo :: bmodal b)) as [[gs un]|] eqn:W; cbn [bind] in H; [|discriminate]. destruct (motion_words ar m mo (bmodal b) S E B _ _ W) as (_ & -> & ND). rewrite remove_unfit in H. cbn [bind] in H. injection H as <-. cbn [bwords bgcodes bmodal]. split; auto. split; auto. split; [|split].
      * intros (g & G1 & G2). exfalso. rewrite existsb_false, forallb_forall in X. specialize (X g G1). unfold in_group in G2. rewrite G2 in X. discriminate.
      * intros _. apply (sifted_filter _ _ _ _ (usable_fit m mo E)). auto.
      * intros m' E' S'. unfold block_modal_gcodes. cbn [bmodal]. destruct (filter (fit (gcls mo)) (bmodal b)) as [|p ps] eqn:Q; [eexists; reflexivity|]. destruct (sound_motion ar m' mo S' E') as [L P].
        assert (B' : bare (p :: ps)) by (rewrite <- Q; apply Forall_forall; intros x I; apply filter_In in I as [I _]; unfold bare in B; rewrite Forall_forall in B; auto).
        rewrite (modal_gcode_spec m' mo (p :: ps) E' L P B') by discriminate. replace (existsb (unfit (gcls mo)) (p :: ps)) with false; [eexists; reflexivity|]. symmetry. apply existsb_false. apply forallb_forall. intros x I. rewrite <- Q in I. apply filter_In in I as [_ I]. unfold unfit. rewrite negb_involutive. exact I.
  - injection H as <-. cbn [bwords bgcodes bmodal]. split; auto. split; auto. split; auto. split; [|intros; eexists; reflexivity].
    intros _. assert (Q : forall ps, sifted (usable m) ps []); [|auto]. induction ps; constructor; auto. intros (mo & E' & _). congruence.
Qed.
Print Assumptions C54_kept.
(** it succeeds unless two usable words have the same letter (then it raises what "G1 X1 X2" raises) *)
Theorem C54_succeeds : forall (ar : Arith) (m : machine) (b : block), sound m -> words2gcodes (bmodal b) = Ok ([], bmodal b) -> (forall us, sifted (usable m) (bmodal b) us -> NoDup (map wletter us)) ->
  exists b', clean_block m b = Ok b'.
Proof.
  intros ar m b S B N. apply bare_iff in B. unfold clean_block. destruct (gm_get (m_mode m) MG_motion) as [mo|] eqn:E; [|eauto]. match goal with |- context [if ?c then _ else _] => destruct c end; [eauto|].
  destruct (sound_motion ar m mo S E) as [L P].
  assert (W : words2gcodes (gword mo :: bmodal b) = Ok ([built (Group (gcls mo) (gword mo) (filter (fit (gcls mo)) (bmodal b)))], filter (unfit (gcls mo)) (bmodal b))).
  { apply words2gcodes_iff. eexists. split; [apply grouped_one; [exact P|]; eapply Forall_impl; [|exact B]; auto|]. split; [|reflexivity]. constructor; [|constructor]. unfold unambiguous. cbn [gr_params]. apply N. apply (sifted_filter _ _ _ _ (usable_fit m mo E)). auto. }
  rewrite W. cbn [bind]. rewrite remove_unfit. cbn [bind]. eauto.
Qed.
Print Assumptions C54_succeeds.
Definition cleaned (before s : string) : result text := do m <- default_machine (ar := binary64); do ln <- mk_line (ar := binary64) (t s); do b <- clean_block (ar := binary64) (history (ar := binary64) [act_text before] m) (lblock ln); Ok (block_str (ar := binary64) b).
Example C54_ex : cleaned "G1 X1" "F10 X1 D2 Y3 H1" = Ok (t "F10 X1 Y3") /\ cleaned "G80" "M3 X1" = Ok (t "M03") /\ cleaned "G81 X1 Z0 R1" "G1 X1 R1" = Ok (t "G01 X1").
Proof. repeat split; vm_compute; reflexivity. Qed.

(** ** C55 *)
(** [l]: the gcodes of a block in execution order, gcodes of the same rank as written *)
Definition execution (gs l : list gcode) : Prop :=
  Permutation l gs /\ StronglySorted (fun a b => exec_order (gcls a) <= exec_order (gcls b)) l /\
  forall k, filter (fun g => exec_order (gcls g) =? k) l = filter (fun g => exec_order (gcls g) =? k) gs.
Lemma execution_sort gs l : execution gs l -> l = sort_gcodes gs.
Proof.
  intros (_ & S & F). apply (sorted_unique _ gorder); auto; [apply sort_sorted|]. intros k. rewrite sort_stable. apply F.
Qed.
Theorem C55_one_by_one : forall (ar : Arith) (m m' : machine) (gs l : list gcode), execution gs l ->
  process_gcodes gs [] m = (m', Ok tt) <-> exists ps, path m l ps m'.
Proof.
  intros ar m m' gs l X. apply execution_sort in X. subst l. unfold process_gcodes. cbn [machine_modal_gcode]. rewrite app_nil_r. split; [apply steps_path|intros [ps P]; eapply path_steps; eauto].
Qed.
Print Assumptions C55_one_by_one.
Lemma sorted_app (gs1 gs2 : list gcode) : (forall a b, In a gs1 -> In b gs2 -> exec_order (gcls a) <= exec_order (gcls b)) -> sort_gcodes (gs1 ++ gs2) = sort_gcodes gs1 ++ sort_gcodes gs2.
Proof.
  intros H. apply (sorted_unique _ gorder); [apply sort_sorted| |].
  - assert (P1 : forall x, In x (sort_gcodes gs1) -> In x gs1) by (intros x; apply Permutation_in; apply sort_perm). assert (P2 : forall x, In x (sort_gcodes gs2) -> In x gs2) by (intros x; apply Permutation_in; apply sort_perm).
    pose proof (sort_sorted _ gorder gs1) as S1. pose proof (sort_sorted _ gorder gs2) as S2. change (sort gorder gs1) with (sort_gcodes gs1) in S1. change (sort gorder gs2) with (sort_gcodes gs2) in S2.
    revert S1 P1. generalize (sort_gcodes gs1). intros l S1 P1. induction S1 as [|a l S1 IH F]; cbn [app]; auto. constructor.
    + apply IH. intros x X. apply P1. right. auto.
    + apply Forall_app. split; auto. apply Forall_forall. intros x X. apply H; auto. apply P1. left. auto.
  - intros k. rewrite filter_app, !sort_stable, filter_app. reflexivity.
Qed.
(** splitting a block where the order of execution allows it *)
Theorem C55_split : forall (ar : Arith) (m : machine) (gs1 gs2 : list gcode), (forall a b, In a gs1 -> In b gs2 -> exec_order (gcls a) <= exec_order (gcls b)) ->
  process_gcodes (gs1 ++ gs2) [] m = then_step (process_gcodes gs1 []) (process_gcodes gs2 []) m.
Proof.
  intros ar m gs1 gs2 H. unfold process_gcodes. cbn [machine_modal_gcode]. rewrite !app_nil_r. rewrite sorted_app by auto. rewrite map_app, steps_app. unfold then_step. destruct (steps (map gcode_process (sort_gcodes gs1)) m) as [m1 [u|e]]; cbn [machine_modal_gcode]; rewrite ?app_nil_r; reflexivity.
Qed.
Print Assumptions C55_split.
(** a whole program is the execution of its gcodes one by one *)
Theorem C55_program : forall (ar : Arith) (m m' : machine) (bs : list block), Forall (fun b => bmodal b = []) bs ->
  (steps (map process_block bs) m = (m', Ok tt) <-> exists ls ps, Forall2 execution (map bgcodes bs) ls /\ path m (concat ls) ps m').
Proof.
  intros ar m m' bs. revert m. induction bs as [|b bs IH]; intros m F; cbn [map steps].
  - split.
    + intros H. injection H as <-. exists [], []. split; constructor.
    + intros (ls & ps & F2 & P). inversion F2; subst. inversion P; subst. reflexivity.
  - inversion F as [|? ? Hb F']; subst. unfold then_step. assert (PB : process_block b m = process_gcodes (bgcodes b) [] m) by (unfold process_block; rewrite Hb; reflexivity). rewrite PB. split.
    + destruct (process_gcodes (bgcodes b) [] m) as [m1 [[]|e]] eqn:E; [|discriminate]. intros H. apply (IH m1 F') in H as (ls & ps & F2 & P).
      assert (X : execution (bgcodes b) (sort_gcodes (bgcodes b))) by (apply C25_sorted). apply (C55_one_by_one ar m m1 _ _ X) in E as [ps1 P1]. exists (sort_gcodes (bgcodes b) :: ls), (ps1 ++ ps). split; [constructor; auto|]. cbn [concat]. eapply path_app; eauto.
    + intros (ls & ps & F2 & P). inversion F2 as [|? l ? ls' X F2']; subst. cbn [concat] in P.
      assert (Q : exists m1 ps1 ps2, path m l ps1 m1 /\ path m1 (concat ls') ps2 m').
      { clear - P. revert m ps P. induction l as [|g l IH]; intros m ps P; cbn [app] in P; [exists m, [], ps; split; [constructor|auto]|]. inversion P; subst. destruct (IH _ _ H5) as (m2 & a & b & A & B). exists m2, (m_abs m1 :: a), b. split; auto. econstructor; eauto. }
      destruct Q as (m1 & ps1 & ps2 & P1 & P2). rewrite (proj2 (C55_one_by_one ar m m1 _ _ X)) by eauto. apply (IH m1 F'). eauto.
Qed.
Print Assumptions C55_program.
Example C55_ex : execution (text_gcodes "M5 G1 X1 M3 F100") (text_gcodes "F100 M5 M3 G1 X1") /\ map (gcode_str (ar := binary64)) (text_gcodes "M5 G1 X1 M3 F100") = map t ["M05"; "G01 X1"; "M03"; "F100"]%string.
Proof.
  split; [|vm_compute; reflexivity]. assert (E : text_gcodes "F100 M5 M3 G1 X1" = sort_gcodes (text_gcodes "M5 G1 X1 M3 F100")) by (vm_compute; reflexivity). rewrite E. apply C25_sorted.
Qed.
