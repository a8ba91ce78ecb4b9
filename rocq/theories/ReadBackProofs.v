(** Printed gcodes are read as the gcodes with every word as its printed form is read. *)
From Coq Require Import Ascii String List Bool Arith ZArith QArith Qcanon Permutation Lia.
From Verif Require Import Base Num Regex Words GTable GCode Line Position Machine Transform BaseFacts WordOrder WordsSpec WordsProofs WordsProofs2 LineSpec CommentProofs CleanProofs CleanProofs2 PropsLine PrintSpec PrintProofs PrintProofs2 GCodeSpec GCodeProofs GTableProofs GCodeProofs2 PropsGCode BlockSpec BlockProofs LineProofs ArithSpec PosSpec PosProofs ModeSpec ModeProofs MachSpec MachProofs MachProofs2 MachProofs3 PropsMach PropsMach2 SimSpec TransSpec TransProofs TransProofs2
  Scripts ScriptsSpec ScriptsSpec2 ScriptsSpec3 ScriptsSpec5 ScriptsSpec6.
Import ListNotations.
Local Open Scope nat_scope.

Section WithArith.
Context {ar : Arith}.
Definition pairs := Forall2 (fun a b : letter * word => fst b = fst a /\ reads_as (snd a) (snd b)).
Lemma reads_form w w' : reads_as w w' -> exists v, word_str w = letter_ascii (wletter w) :: v /\ value_text (letter_kind (wletter w')) v /\ value_denotes (wletter w') v (wvalue w').
Proof.
  intros (El & R & P). apply text2words_reads in R. pose proof (word_str_plain w P) as PL. inversion R as [|junk c l v r val ws J C L D Rr Eq Ew]; subst.
  assert (r = []).
  { inversion Rr; subst. destruct r as [|x r]; auto. exfalso. assert (I : In x (word_str w)). { rewrite <- Eq. apply in_app_iff. right. right. apply in_app_iff. right. left. auto. }
    rewrite Forall_forall in PL. apply PL in I. inversion H; subst. destruct I. auto. }
  subst r. rewrite app_nil_r in Eq. destruct junk as [|x junk].
  - cbn [app] in Eq. exists v. cbn [wletter wvalue] in *. split; [|split; [apply L|auto]].
    cbn [app]. rewrite app_nil_r. assert (E : c = letter_ascii (wletter w)) by (unfold word_str in Eq; congruence). rewrite E. reflexivity.
  - exfalso. inversion J as [|? ? [J1 _] _]; subst. unfold word_str in Eq. cbn [app] in Eq. injection Eq as E1 _. apply (J1 (wletter w)). left. rewrite E1. auto.
Qed.
Lemma readable_reads w : readable w -> reads_as w w.
Proof. intros [S P]. split; auto. split; auto. apply survives_reads; auto. Qed.
Lemma reads_wf w w' : reads_as w w' -> word_wf w'.
Proof. intros (_ & R & _). apply text2words_wf in R. inversion R; auto. Qed.
Lemma spell_join ws ws' : Forall2 reads_as ws ws' -> name_last ws -> forall b, Forall blank b -> ~ In newline b -> spelling ws' (b ++ join [space] (map word_str ws)).
Proof.
  assert (SP : blank space) by reflexivity.
  induction 1 as [|w w' ws ws' R F IH]; intros NL b B NB.
  - cbn [map join]. rewrite app_nil_r. constructor; auto.
  - destruct NL as [N1 N2]. destruct (reads_form w w' R) as (v & E & V & D). destruct R as (El & _ & _). cbn [map].
    destruct w' as [l val]. cbn [wletter wvalue] in *. subst l.
    destruct (letter_kind (wletter w)) eqn:K.
    4: { specialize (N1 eq_refl). subst ws. inversion F; subst. cbn [map join]. rewrite E.
         assert (EL : wletter w = LO) by (destruct (wletter w); cbn in K; congruence). rewrite EL in *.
         inversion D; subst; try (cbn in H; discriminate). replace (letter_ascii LO :: v) with (letter_ascii LO :: v ++ []) by (rewrite app_nil_r; auto). apply sp_name; auto using char_letter_self. }
    all: destruct ws as [|w2 ws];
      [ inversion F; subst; cbn [map join]; rewrite E; replace (letter_ascii (wletter w) :: v) with (letter_ascii (wletter w) :: v ++ []) by (rewrite app_nil_r; auto); apply sp_word; auto using char_letter_self; try congruence; constructor; constructor
      | rewrite join_app1 by discriminate; rewrite E; cbn [app]; apply sp_word; auto using char_letter_self; try congruence;
        apply (IH N2 [space]); [constructor; auto|cbn; intuition discriminate] ].
Qed.
Lemma line_read n ws ws' : ws <> [] -> Forall2 reads_as ws ws' -> name_last ws ->
  mk_line (repeat space n ++ join [space] (map word_str ws)) = do (gs, rest) <- words2gcodes ws'; do _ <- assert_gcodes [] [] gs; Ok (Line (Block ws' gs rest) None None).
Proof.
  intros NE F NL. set (s := repeat space n ++ join [space] (map word_str ws)).
  assert (PL : Forall (fun w => Forall plain (word_str w)) ws). { clear - F. induction F as [|w w' l l' (_ & _ & P) F IH]; constructor; auto. apply word_str_plain. auto. }
  assert (VI : Forall (fun w => w <> [] /\ Forall (fun c => ~ blank c) w) (map word_str ws)).
  { apply Forall_forall. intros x I. apply in_map_iff in I as (w & <- & I). split; [discriminate|]. rewrite Forall_forall in PL. eapply Forall_impl; [|apply (PL w I)]. intros a [A _]. auto. }
  assert (BL : Forall blank (repeat space n)). { apply Forall_forall. intros x I. apply List.repeat_spec in I. subst. reflexivity. }
  assert (CA : Forall calm s).
  { apply Forall_app. split; [apply Forall_forall; intros x I; apply List.repeat_spec in I; right; auto|]. apply join_calm. apply Forall_map. eapply Forall_impl; [|exact PL]. intros w H. eapply Forall_impl; [|exact H]. left. auto. }
  assert (NI : forall x, In x (newline :: t "();%") -> ~ In x s) by (intros x I; eapply calm_not; eauto).
  assert (EV : ends_visible s).
  { destruct (join_ends _ VI) as [E|(p & c & E & C)].
    - destruct ws as [|w ws]; [congruence|]. destruct ws; discriminate E.
    - right. exists (repeat space n ++ p), c. unfold s. rewrite E, app_assoc. auto. }
  assert (LP : line_parts s = Ok (s, None)).
  { apply line_parts_iff. rewrite <- (app_nil_r s) at 1. apply ls_plain; auto; apply NI; vm_compute; tauto. }
  assert (SL : split_line s = (s, None)).
  { rewrite <- (app_nil_r s) at 1. apply C12_no_comment; auto; try (apply NI; vm_compute; tauto). intros a z E _. apply (NI "("%char); [vm_compute; tauto|]. rewrite E. apply in_app_iff. right. left. auto. }
  unfold mk_line. rewrite LP. cbn [bind]. rewrite SL, mk_block_clean.
  assert (CL : clean_text s = join [space] (map word_str ws)) by (apply clean_text_fields, fields_join; auto).
  assert (TW : text2words (join [space] (map word_str ws)) = Ok ws').
  { apply spelling_text2words. apply (spell_join ws ws') with (b := []); auto. }
  rewrite CL, TW. cbn [bind]. destruct (words2gcodes ws') as [[gs rest]|]; cbn [bind]; auto. destruct (assert_gcodes [] [] gs); reflexivity.
Qed.
(** *** gcodes *)
Lemma pairs_fst d d' : pairs d d' -> map fst d' = map fst d.
Proof. induction 1 as [|a b d d' [E _] F IH]; cbn [map]; congruence. Qed.
Lemma pairs_legal d d' g g' : gcls g' = gcls g -> gparams g = d -> gparams g' = d' -> pairs d d' -> legal g -> legal g'.
Proof.
  intros C E E' P [L N]. split; [|rewrite E', (pairs_fst _ _ P), <- E; auto]. rewrite C, E'. rewrite E in L. clear - P L. induction P as [|a b d d' [A (B & _)] P IH]; inversion L; subst; constructor; auto. destruct H1 as [H1 H3]. split; congruence.
Qed.
Lemma read_wf g g' : read_move g g' -> gcode_wf g -> gcode_wf g'.
Proof.
  intros (C & W & _ & _ & P) (L & PR & WW & _). split; [eapply pairs_legal; eauto|]. split; [unfold proper in *; congruence|]. split; [rewrite W; auto|]. clear - P. induction P as [|a b d d' [_ R] P IH]; constructor; auto. eapply reads_wf; eauto.
Qed.
Lemma read_refl g : Forall readable (gword g :: map snd (gparams g)) -> read_move g g.
Proof.
  intros R. inversion R as [|? ? R1 R2]; subst. do 3 (split; [reflexivity|]). split; [exact R1|]. clear R R1. induction (gparams g) as [|kv d IH]; constructor; inversion R2; subst; auto. split; auto. apply readable_reads; auto.
Qed.
Lemma perm_pairs d d' : Permutation d d' -> forall e', pairs d' e' -> exists e, pairs d e /\ Permutation e e'.
Proof.
  induction 1 as [|x d d' P IH|x y d|d d1 d2 P1 IH1 P2 IH2]; intros e' F.
  - inversion F; subst. exists []. split; constructor.
  - inversion F; subst. destruct (IH _ H3) as (e & A & B). exists (y :: e). split; [constructor|constructor]; auto.
  - inversion F as [|? b1 ? l1 B1 F1]; subst. inversion F1 as [|? b2 ? l2 B2 F2]; subst. exists (b2 :: b1 :: l2). split; [constructor; auto; constructor; auto|constructor].
  - destruct (IH2 _ F) as (e1 & A & B). destruct (IH1 _ A) as (e & A' & B'). exists e. split; auto. etransitivity; eauto.
Qed.
Lemma pairs_words ps e : pairs (map (fun w => (wletter w, w)) ps) e -> exists ps', e = map (fun w => (wletter w, w)) ps' /\ Forall2 reads_as ps ps'.
Proof.
  revert e. induction ps as [|p ps IH]; cbn [map]; intros e F; inversion F as [|? b ? l [A R] F1]; subst; [exists []; split; [reflexivity|constructor]|]. destruct (IH _ F1) as (ps' & -> & Q). exists (snd b :: ps'). split; [|constructor; auto]. cbn [map]. f_equal. destruct b as [k w]. cbn [fst snd] in *. destruct R as (R & _). congruence.
Qed.
Lemma reads_letters ps ps' : Forall2 reads_as ps ps' -> map wletter ps' = map wletter ps.
Proof. induction 1 as [|a b l l' (E & _) F IH]; cbn [map]; congruence. Qed.
Lemma takes_read c ps ps' : Forall2 reads_as ps ps' -> (forall x, In x ps -> takes c (wletter x)) -> forall x, In x ps' -> takes c (wletter x).
Proof. induction 1 as [|a b l l' (E & _) F IH]; intros T x I; [destruct I|destruct I as [<-|I]]; [rewrite E; apply T; left; auto|apply IH; auto; intros; apply T; right; auto]. Qed.
Lemma shown_line g g' : accurate ar -> gcode_wf g -> gwhite g = false -> read_move g g' ->
  exists ws k, mk_line (gcode_str g) = Ok (Line (Block ws [k] []) None None) /\ legal k /\ same_gcode g' k.
Proof.
  intros acc W WH (C & EW & _ & R & PP). pose proof (proj1 W) as L. destruct (printed_form g L) as (ps & P & T & N & E). rewrite WH in E. rewrite E.
  destruct (perm_pairs _ _ P _ PP) as (e & PE & PM). destruct (pairs_words _ _ PE) as (ps' & -> & F). pose proof (takes_read _ _ _ F T) as T'. pose proof (reads_letters _ _ F) as EL.
  exists (gword g :: ps'), (built (Group (gcls g) (gword g) ps')). assert (N' : NoDup (map wletter ps')) by (rewrite EL; auto).
  split; [|split; [apply built_legal; auto|split; [|split]; auto; symmetry; exact PM]].
  pose proof (line_read 0 (gword g :: ps) (gword g :: ps')) as LW. cbn [repeat app] in LW. rewrite LW; clear LW; [|discriminate| |].
  - assert (WG : words2gcodes (gword g :: ps') = Ok ([built (Group (gcls g) (gword g) ps')], [])).
    { apply words2gcodes_iff. exists [Group (gcls g) (gword g) ps']. split; [|split; [constructor; [exact N'|constructor]|reflexivity]].
      pose proof (grouped_one (gword g) (gcls g) ps' (proj1 (proj2 W))) as G. rewrite !(filter_all (fit (gcls g))) in G; [|intros x I; apply accepts_iff; auto].
        assert (NK := params_not_name (gcls g) ps' T'). replace (filter (unfit (gcls g)) ps') with (@nil word) in G. apply G. apply Forall_forall. auto.
        clear -T'. induction ps' as [|x ps IH]; auto. cbn [filter]. unfold unfit at 1. replace (accepts (gcls g) (wletter x)) with true. apply IH. intros; apply T'; right; auto. symmetry. apply accepts_iff, T'. left. auto.
    }
    rewrite WG. cbn [bind]. cbn [assert_gcodes existsb built gword gcls gr_class gr_word]. destruct (modal_group (gcls g)); reflexivity.
  - constructor; auto. apply readable_reads; auto.
  - split; [|apply name_last_none, (params_not_name (gcls g)); auto]. intros K. apply ktext_O in K. destruct W as (_ & PR & W1 & _). pose proof (program_name _ _ acc W1 K PR) as Z. destruct ps as [|x ps]; auto. specialize (T x (or_introl eq_refl)). unfold takes in T. rewrite Z in T. contradiction.
Qed.
Lemma blank_line g g' : gcode_wf g -> gparams g <> [] -> read_move g g' -> (forall l, takes (gcls g) l -> ~ In l [LG; LM; LF; LS; LT; LN; LO]) ->
  exists ps, mk_line (gcode_str (MkGCode (gcls g) (gword g) (gparams g) true)) = Ok (Line (Block ps [] ps) None None) /\ Permutation (map (fun w => (wletter w, w)) ps) (gparams g') /\ bare ps.
Proof.
  intros W NE (C & EW & _ & R & PP) NC. set (h := MkGCode (gcls g) (gword g) (gparams g) true). destruct (printed_form h (proj1 W)) as (ps & P & T & N & E). cbn [h gwhite gword gparams gcls] in *. rewrite E.
  destruct (perm_pairs _ _ P _ PP) as (e & PE & PM). destruct (pairs_words _ _ PE) as (ps' & -> & F). pose proof (takes_read _ _ _ F T) as T'.
  exists ps'. assert (B : bare ps'). { apply Forall_forall. intros x I. apply C17_letters. apply NC, T'; auto. }
  assert (NP : ps <> []). { intros ->. apply Permutation_nil in P. auto. }
  split; [|split; auto].
  assert (X : repeat space (length (word_str (gword g))) ++ flat_map (fun w => space :: word_str w) ps = repeat space (S (length (word_str (gword g)))) ++ join [space] (map word_str ps)).
  { destruct ps as [|x ps]; [congruence|]. cbn [flat_map]. change (repeat space (S (length (word_str (gword g))))) with (space :: repeat space (length (word_str (gword g)))). rewrite map_cons, join_flat, repeat_cons, <- app_assoc. cbn [app]. do 3 f_equal. generalize ps. clear. intros ps. induction ps as [|y ps IH]; auto. cbn [flat_map map app]. rewrite IH. reflexivity. }
  rewrite X, (line_read _ ps ps'); auto.
  - assert (WG : words2gcodes ps' = Ok ([], ps')) by (apply bare_iff; auto). rewrite WG. reflexivity.
  - apply name_last_none, (params_not_name (gcls g)); auto.
Qed.
Lemma shown_process g g' m : accurate ar -> gcode_wf g -> gwhite g = false -> ~ is_canned g -> read_move g g' -> process_str (gcode_str g) m = gcode_process g' m.
Proof.
  intros acc W WH N R. destruct (shown_line g g' acc W WH R) as (ws & k & E & L' & S). unfold process_str. rewrite E. unfold process_block. cbn [lblock bgcodes bmodal]. rewrite process_one. symmetry. apply process_same; auto. eapply read_wf; eauto. unfold is_canned in *. destruct R as (-> & _). auto.
Qed.
Lemma blank_process g g' mo m : gcode_wf g -> sound m -> in_group MG_motion g -> ~ is_canned g -> gparams g <> [] -> read_move g g' ->
  gm_get (m_mode m) MG_motion = Some mo -> gword mo = gword g ->
  process_str (gcode_str (MkGCode (gcls g) (gword g) (gparams g) true)) m = gcode_process g' m.
Proof.
  intros W S M N NE R E EW. destruct (blank_line g g' W NE R) as (ps & ML & P & B); [intros l T; apply (motion_letters (gcls g)); auto|]. pose proof (read_wf _ _ R W) as W'. destruct R as (CC & CW & _ & _ & PP).
  unfold process_str. rewrite ML. unfold process_block. cbn [lblock bgcodes bmodal]. unfold process_gcodes.
  destruct (proj2 (proj2 (proj2 (proj2 (proj2 S))))) as [MW MT]. pose proof (MT _ _ E) as (L & PR & _). pose proof (MW _ _ E) as (_ & _ & _ & MP).
  assert (C : gcls mo = gcls g). { destruct W as (_ & PG & _). unfold proper in *. rewrite EW in PR. congruence. }
  assert (K : modal_param_letters (gcls mo) = []). { rewrite C. apply kept_letters. destruct (subclass _ _) eqn:X; auto. apply subclass_derives in X. contradiction. }
  assert (P0 : gparams mo = []). { destruct (gparams mo) as [|kv l]; auto. specialize (MP kv (or_introl eq_refl)). rewrite K in MP. contradiction. }
  assert (NP : ps <> []). { intros ->. apply Permutation_nil in P. rewrite P in PP. inversion PP. auto. }
  assert (ND : NoDup (map fst (map (fun w => (wletter w, w)) ps))). { eapply Permutation_NoDup; [apply Permutation_map; symmetry; exact P|]. apply W'. }
  assert (U : updated mo ps = map (fun w => (wletter w, w)) ps). { unfold updated. rewrite P0. rewrite dupdate_new; auto. }
  assert (FT : forall w, In w ps -> accepts (gcls g) (wletter w) = true).
  { intros w I. apply accepts_iff. destruct W' as ((LW & _) & _). rewrite Forall_forall in LW. rewrite <- CC. destruct (LW (wletter w, w)) as [_ T]; auto. eapply Permutation_in; [exact P|]. apply in_map_iff. eauto. }
  rewrite (modal_gcode_spec m mo ps E L PR B NP), U, C.
  replace (existsb (unfit (gcls g)) ps) with false. 2: { symmetry. apply existsb_false, forallb_forall. intros w I. unfold unfit. rewrite FT by auto. reflexivity. }
  cbn [andb]. rewrite filter_all. 2: { intros kv I. apply in_map_iff in I as (w & <- & I). apply FT; auto. }
  cbn [app]. rewrite sort_one. cbn [map steps]. set (k := MkGCode _ _ _ _).
  assert (SG : gcode_process k m = gcode_process g' m).
  { symmetry. apply process_same; auto.
    - apply (built_legal (gcls g) (gword mo) ps). intros x I. apply accepts_iff; auto. rewrite map_map in ND. exact ND.
    - unfold is_canned in *. rewrite CC. auto.
    - split; [exact CC|]. split; [cbn [k gword]; congruence|]. symmetry; exact P. }
  unfold then_step, ok_step. rewrite SG. destruct (gcode_process g' m) as [m' [[]|e]]; reflexivity.
Qed.
End WithArith.
