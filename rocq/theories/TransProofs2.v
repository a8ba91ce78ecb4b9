(** Printing a gcode on a line of its own and processing the line. *)
From Coq Require Import Ascii String List Bool Arith ZArith QArith Qcanon Lia Permutation Sorted.
From Verif Require Import Base Num Regex Words GTable GCode Line Position Machine Transform BaseFacts WordOrder WordsSpec WordsProofs WordsProofs2 LineSpec CommentProofs CleanProofs CleanProofs2 PropsLine PrintSpec PrintProofs2 GCodeSpec GCodeProofs GTableProofs GCodeProofs2 PropsGCode BlockSpec BlockProofs LineProofs ArithSpec PosSpec PosProofs ModeSpec ModeProofs MachSpec MachProofs MachProofs2 MachProofs3 PropsMach PropsMach2 TransSpec TransProofs.
Import ListNotations.
Open Scope Z_scope.

(** *** the order of coordinates does not matter *)
Lemma existsb_perm {A} (f : A -> bool) l l' : Permutation l l' -> existsb f l = existsb f l'.
Proof. induction 1; cbn [existsb]; auto; try congruence. destruct (f x), (f y); auto. Qed.
Lemma flat_map_perm {A B} (f : A -> list B) l l' : Permutation l l' -> Permutation (flat_map f l) (flat_map f l').
Proof. induction 1; cbn [flat_map]; auto. - apply Permutation_app_head. auto. - rewrite !app_assoc. apply Permutation_app_tail, Permutation_app_comm. - etransitivity; eauto. Qed.
Lemma filter_perm {A} (f : A -> bool) l l' : Permutation l l' -> Permutation (filter f l) (filter f l').
Proof. induction 1; cbn [filter]; auto. - destruct (f x); auto. - destruct (f x), (f y); auto. apply perm_swap. - etransitivity; eauto. Qed.
Lemma vset_swap {A} (v : v9 A) a b x y : a <> b -> vset (vset v a x) b y = vset (vset v b y) a x.
Proof. intros N. destruct v, a, b; try reflexivity; congruence. Qed.
Lemma fold_vset_perm (l l' : list (axis * Qc)) : Permutation l l' -> NoDup (map fst l) -> forall v,
  fold_left (fun v kx => vset v (fst kx) (Some (snd kx))) l v = fold_left (fun v kx => vset v (fst kx) (Some (snd kx))) l' v.
Proof.
  induction 1; intros N v; cbn [fold_left]; auto.
  - apply IHPermutation. inversion N; auto.
  - f_equal. inversion N as [|? ? N1 _]; subst. apply vset_swap. intros E. apply N1. left. auto.
  - rewrite IHPermutation1 by auto. apply IHPermutation2. eapply Permutation_NoDup; [apply Permutation_map; eauto|auto].
Qed.
Section WithArith.
Context {ar : Arith}.
Lemma update_perm l l' : Permutation l l' -> NoDup (map fst l) -> forall p, pos_update p l = pos_update p l'.
Proof.
  induction 1; intros N p; cbn [pos_update]; auto.
  - destruct x as [a x]. destruct (pos_setattr p a x); cbn [bind]; auto. apply IHPermutation. inversion N; auto.
  - destruct x as [a x], y as [b y]. inversion N as [|? ? N1 _]; subst. cbn [map fst] in N1.
    assert (D : b <> a) by (intros E; apply N1; left; auto). clear N N1. revert p. unfold pos_setattr. intros p.
    destruct (vget (paxes p) b) eqn:B; cbn [bind]; [|destruct (vget (paxes p) a) eqn:A; cbn [bind paxes]; [rewrite B|]; reflexivity].
    cbn [paxes punit pvals]. destruct (vget (paxes p) a) eqn:A; cbn [bind paxes]; [rewrite B; cbn [bind]|reflexivity]. do 2 f_equal.
    cbn [punit pvals]. rewrite vset_swap by auto. reflexivity.
  - rewrite IHPermutation1 by auto. apply IHPermutation2. eapply Permutation_NoDup; [apply Permutation_map; eauto|auto].
Qed.
Lemma move_to_perm cs cs' m : Permutation cs cs' -> NoDup (map fst cs) -> move_to cs m = move_to cs' m.
Proof.
  intros P N. unfold move_to. pose proof (flat_map_perm (fun c => match snd c with Some x => [(fst c, x)] | None => [] end) _ _ P) as P2. fold (some_coords cs) (some_coords cs') in P2. pose proof (some_coords_nodup cs N) as N2.
  destruct (machine_pos m) as [p|]; auto. destruct (is_incremental m).
  - rewrite (existsb_perm _ _ _ P). unfold mk_position. rewrite (fold_vset_perm _ _ P2 N2). reflexivity.
  - rewrite !(existsb_perm _ _ _ P), (update_perm _ _ P2 N2). reflexivity.
Qed.
Lemma coords_perm m g g' : legal g -> legal g' -> Permutation (gparams g) (gparams g') -> Permutation (gcode_coords m g) (gcode_coords m g').
Proof. intros L L' P. unfold gcode_coords. rewrite !param_dict_legal by auto. apply flat_map_perm, Permutation_map, filter_perm. auto. Qed.
(** no class keeps parameters but the canned cycles *)
Lemma kept_letters c : subclass c GCodeCannedCycle = false -> modal_param_letters c = [] /\ process_kind c <> PCanned.
Proof. destruct c; intros H; try discriminate H; split; try reflexivity; vm_compute; discriminate. Qed.
Lemma copy_bare g : legal g -> ~ is_canned g -> modal_copy g = Ok (MkGCode (gcls g) (gword g) [] false).
Proof.
  intros L N. rewrite modal_copy_spec by auto. do 2 f_equal. assert (K : modal_param_letters (gcls g) = []). { apply kept_letters. destruct (subclass _ _) eqn:E; auto. apply subclass_derives in E. contradiction. }
  induction (gparams g) as [|kv l IH]; auto. cbn [filter]. unfold accepts_modal at 1. rewrite K. cbn [existsb]. apply IH.
Qed.
Lemma process_same g g' m : gcode_wf g -> legal g' -> ~ is_canned g -> same_gcode g g' -> gcode_process g m = gcode_process g' m.
Proof.
  intros W L' N (E1 & E2 & P). pose proof (proj1 W) as L. assert (N' : ~ is_canned g') by (unfold is_canned; rewrite <- E1; auto).
  assert (S : forall md, mode_set md [g] = mode_set md [g']). { intros md. unfold mode_set. rewrite !sort_one. cbn [mode_set_list]. unfold mode_set1. rewrite !copy_bare, E1, E2 by auto. reflexivity. }
  unfold gcode_process, then_step, machine_set_mode, atomic_step. rewrite S. destruct (bind _ _) as [m1|]; auto. unfold gcode_process_own. rewrite <- E1. destruct (process_kind (gcls g)) eqn:K; auto.
  - apply move_to_perm. apply coords_perm; auto. apply gcode_coords_spec; auto.
  - exfalso. apply N. apply kind_canned in K. auto.
Qed.

(** *** reading a printed gcode *)
Lemma line_words n ws : ws <> [] -> Forall (fun w => survives w /\ forall x, wvalue w = VStr x -> Forall plain x) ws -> name_last ws ->
  mk_line (repeat space n ++ join [space] (map word_str ws)) = do (gs, rest) <- words2gcodes ws; do _ <- assert_gcodes [] [] gs; Ok (Line (Block ws gs rest) None None).
Proof.
  intros NE F NL. set (s := repeat space n ++ join [space] (map word_str ws)).
  assert (PL : Forall (fun w => Forall plain (word_str w)) ws). { eapply Forall_impl; [|exact F]. intros w [_ H]. apply word_str_plain. auto. }
  assert (VI : Forall (fun w => w <> [] /\ Forall (fun c => ~ blank c) w) (map word_str ws)).
  { apply Forall_forall. intros x I. apply in_map_iff in I as (w & <- & I). split; [discriminate|]. rewrite Forall_forall in PL. eapply Forall_impl; [|apply (PL w I)]. intros a [A _]. auto. }
  assert (BL : Forall blank (repeat space n)). { apply Forall_forall. intros x I. apply List.repeat_spec in I. subst. reflexivity. }
  assert (CA : Forall calm s).
  { apply Forall_app. split; [apply Forall_forall; intros x I; apply List.repeat_spec in I; right; auto|]. apply join_calm. apply Forall_map. eapply Forall_impl; [|exact PL]. intros w H. eapply Forall_impl; [|exact H]. left. auto. }
  assert (NI : forall x, In x (newline :: t "();%") -> ~ In x s) by (intros x I; eapply calm_not; eauto).
  assert (EV : ends_visible s).
  { destruct (join_ends _ VI) as [E|(p & c & E & C)].
    - destruct ws as [|w ws]; [congruence|]. destruct ws; discriminate E.
    - right. exists (repeat space n ++ p), c. unfold s. rewrite E, app_assoc. auto. }
  assert (LP : line_parts s = Ok (s, None)).
  { apply line_parts_iff. rewrite <- (app_nil_r s) at 1. apply ls_plain; auto; apply NI; vm_compute; tauto. }
  assert (SL : split_line s = (s, None)).
  { rewrite <- (app_nil_r s) at 1. apply C12_no_comment; auto; try (apply NI; vm_compute; tauto). intros a z E _. apply (NI "("%char); [vm_compute; tauto|]. rewrite E. apply in_app_iff. right. left. auto. }
  unfold mk_line. rewrite LP. cbn [bind]. rewrite SL, mk_block_clean.
  assert (CL : clean_text s = join [space] (map word_str ws)) by (apply clean_text_fields, fields_join; auto).
  assert (TW : text2words (join [space] (map word_str ws)) = Ok ws).
  { apply spelling_text2words. apply (spelling_join (S := fun _ _ => True) ws ws) with (b := []); auto.
    - clear -F. induction F as [|w l [S _] F IH]; constructor; auto. split; auto. split; auto. split; auto. apply survives_reads; auto.
    - eapply Forall_impl; [|exact F]. intros w [_ H]. auto. }
  rewrite CL, TW. cbn [bind]. destruct (words2gcodes ws) as [[gs rest]|]; cbn [bind]; auto. destruct (assert_gcodes [] [] gs); reflexivity.
Qed.

(** *** the words of a gcode *)
Lemma program_name w c : accurate ar -> word_wf w -> wletter w = LO -> word_gcode_class w = Some c -> param_letters c = [].
Proof.
  intros acc W E C. apply (word_class_doc acc) in C; auto. unfold doc_class in C. rewrite E in C. destruct C as [C|(lo & hi & I & _)].
  - unfold doc_letters in C. cbn [In] in C. repeat (destruct C as [C|C]; [first [discriminate C|assert (C2 : c = GCodeProgramName) by congruence; rewrite C2; vm_compute; reflexivity]|]). contradiction.
  - exfalso. assert (X : forallb (fun e => negb (letter_eqb (fst (fst (fst e))) LO)) doc_codes = true) by (vm_compute; reflexivity).
    rewrite forallb_forall in X. specialize (X _ I). cbn [fst] in X. discriminate X.
Qed.
Lemma params_not_name c (ps : list word) : (forall x, In x ps -> takes c (wletter x)) -> Forall (fun w => letter_kind (wletter w) <> KText) ps.
Proof. intros H. apply Forall_forall. intros x I K. apply ktext_O in K. specialize (H x I). rewrite K in H. apply no_takes_O in H. auto. Qed.
(** the printed form of a legal gcode *)
Lemma printed_form g : legal g -> exists ps, Permutation (map (fun w => (wletter w, w)) ps) (gparams g) /\ (forall x, In x ps -> takes (gcls g) (wletter x)) /\ NoDup (map wletter ps) /\
  gcode_str g = if gwhite g then repeat space (length (word_str (gword g))) ++ flat_map (fun w => space :: word_str w) ps else join [space] (map word_str (gword g :: ps)).
Proof.
  intros L. destruct (gcode_str_spec g (proj2 L)) as (kvs & P & _ & E). destruct L as [L N].
  assert (K : kvs = map (fun w => (wletter w, w)) (map snd kvs)).
  { rewrite map_map. rewrite <- (map_id kvs) at 1. apply map_ext_in. intros [l w] I. rewrite Forall_forall in L. destruct (L (l, w)) as [L1 _]; [eapply Permutation_in; eauto|]. cbn [fst snd] in *. congruence. }
  assert (N' : NoDup (map fst kvs)) by (eapply Permutation_NoDup; [apply Permutation_map; symmetry; exact P|exact N]).
  exists (map snd kvs). split; [rewrite <- K; auto|]. split.
  - intros x I. apply in_map_iff in I as ((l, w) & <- & I). rewrite Forall_forall in L. destruct (L (l, w)) as [L1 L2]; [eapply Permutation_in; eauto|]. cbn [fst snd] in *. congruence.
  - split; [rewrite K, map_map in N'; exact N'|]. rewrite E. destruct (gwhite g).
    + f_equal. clear. induction kvs; cbn [flat_map map]; congruence.
    + rewrite map_cons, join_flat. f_equal. clear. induction kvs as [|[l w] kvs IH]; auto. cbn [flat_map map snd]. rewrite IH. reflexivity.
Qed.
Lemma printed_line g : accurate ar -> gcode_wf g -> gwhite g = false -> Forall readable (gword g :: map snd (gparams g)) ->
  exists ws g', mk_line (gcode_str g) = Ok (Line (Block ws [g'] []) None None) /\ legal g' /\ same_gcode g g'.
Proof.
  intros acc W WH R. pose proof (proj1 W) as L. destruct (printed_form g L) as (ps & P & T & N & E). rewrite WH in E. rewrite E.
  assert (PS : Permutation ps (map snd (gparams g))). { rewrite <- P, map_map, map_id. auto. }
  exists (gword g :: ps), (built (Group (gcls g) (gword g) ps)).
  assert (NK := params_not_name (gcls g) ps T).
  split; [|split; [apply built_legal; auto|split; [|split]; auto; symmetry; exact P]].
  pose proof (line_words 0 (gword g :: ps)) as LW. cbn [repeat app] in LW. rewrite LW; clear LW; [|discriminate| |].
  - assert (WG : words2gcodes (gword g :: ps) = Ok ([built (Group (gcls g) (gword g) ps)], [])).
    { apply words2gcodes_iff. exists [Group (gcls g) (gword g) ps]. split; [|split; [constructor; [exact N|constructor]|reflexivity]].
      pose proof (grouped_one (gword g) (gcls g) ps (proj1 (proj2 W))) as G. rewrite !(filter_all (fit (gcls g))) in G; [|intros x I; apply accepts_iff; auto].
        replace (filter (unfit (gcls g)) ps) with (@nil word) in G. apply G. apply Forall_forall. auto.
        clear -T. induction ps as [|x ps IH]; auto. cbn [filter]. unfold unfit at 1. replace (accepts (gcls g) (wletter x)) with true. apply IH. intros; apply T; right; auto. symmetry. apply accepts_iff, T. left. auto.
    }
    rewrite WG. cbn [bind]. cbn [assert_gcodes existsb built gword gcls gr_class gr_word]. destruct (modal_group (gcls g)); reflexivity.
  - inversion R as [|? ? R1 R2]; subst. constructor; auto. rewrite Forall_forall in *. intros x I. apply R2. eapply Permutation_in; eauto.
  - split; [|apply name_last_none; auto]. intros K. apply ktext_O in K. destruct W as (_ & PR & W1 & _). pose proof (program_name _ _ acc W1 K PR) as Z. destruct ps as [|x ps]; auto. specialize (T x (or_introl eq_refl)). unfold takes in T. rewrite Z in T. contradiction.
Qed.
Lemma hidden_line g : legal g -> gwhite g = true -> gparams g <> [] -> Forall readable (map snd (gparams g)) -> (forall l, takes (gcls g) l -> ~ In l [LG; LM; LF; LS; LT; LN; LO]) ->
  exists ps, mk_line (gcode_str g) = Ok (Line (Block ps [] ps) None None) /\ Permutation (map (fun w => (wletter w, w)) ps) (gparams g) /\ bare ps.
Proof.
  intros L WH NE R NC. destruct (printed_form g L) as (ps & P & T & N & E). rewrite WH in E. rewrite E. exists ps.
  assert (PS : Permutation ps (map snd (gparams g))). { rewrite <- P, map_map, map_id. auto. }
  assert (B : bare ps). { apply Forall_forall. intros x I. apply C17_letters. apply NC, T; auto. }
  assert (NP : ps <> []). { intros ->. apply Permutation_nil in P. auto. }
  split; [|split; auto].
  assert (X : repeat space (length (word_str (gword g))) ++ flat_map (fun w => space :: word_str w) ps = repeat space (S (length (word_str (gword g)))) ++ join [space] (map word_str ps)).
  { destruct ps as [|x ps]; [congruence|]. cbn [flat_map]. change (repeat space (S (length (word_str (gword g))))) with (space :: repeat space (length (word_str (gword g)))). rewrite map_cons, join_flat, repeat_cons, <- app_assoc. cbn [app]. do 3 f_equal. generalize ps. clear. intros ps. induction ps as [|y ps IH]; auto. cbn [flat_map map app]. rewrite IH. reflexivity. }
  rewrite X, line_words; auto.
  - assert (WG : words2gcodes ps = Ok ([], ps)) by (apply bare_iff; auto). rewrite WG. reflexivity.
  - rewrite Forall_forall in *. intros x I. apply R. eapply Permutation_in; eauto.
  - apply name_last_none, (params_not_name (gcls g)); auto.
Qed.

(** *** processing the lines *)
Lemma process_shown g m : accurate ar -> gcode_wf g -> gwhite g = false -> ~ is_canned g -> Forall readable (gword g :: map snd (gparams g)) ->
  process_str (gcode_str g) m = gcode_process g m.
Proof.
  intros acc W WH N R. destruct (printed_line g acc W WH R) as (ws & g' & E & L' & S). unfold process_str. rewrite E. unfold process_block. cbn [lblock bgcodes bmodal]. rewrite process_one. symmetry. apply process_same; auto.
Qed.
(** the parameters of motion gcodes are no gcodes themselves *)
Lemma motion_letters c l : modal_group c = Some MG_motion -> takes c l -> ~ In l [LG; LM; LF; LS; LT; LN; LO].
Proof.
  intros M T. apply accepts_iff in T. revert M T. assert (X : forallb (fun l => implb (match modal_group c with Some MG_motion => true | _ => false end && accepts c l) (negb (existsb (letter_eqb l) [LG; LM; LF; LS; LT; LN; LO]))) [LG; LM; LF; LS; LT; LN; LO] = true) by (destruct c; vm_compute; reflexivity).
  intros M T I. rewrite forallb_forall in X. specialize (X l I). rewrite M, T in X. cbn [andb implb] in X. assert (Y : existsb (letter_eqb l) [LG; LM; LF; LS; LT; LN; LO] = true) by (apply existsb_exists; exists l; split; auto; apply letter_eqb_eq; auto). rewrite Y in X. discriminate X.
Qed.
Lemma dset_new {V} (d : dict letter V) k v : ~ In k (map fst d) -> dset letter_eqb d k v = d ++ [(k, v)].
Proof.
  induction d as [|[k' v'] d IH]; intros N; auto. cbn [dset]. destruct (letter_eqb k k') eqn:E.
  - exfalso. apply letter_eqb_eq in E. apply N. left. auto.
  - cbn [app]. f_equal. apply IH. intros H. apply N. right. auto.
Qed.
Lemma dupdate_new {V} l : forall (d : dict letter V), NoDup (map fst (d ++ l)) -> dupdate letter_eqb d l = d ++ l.
Proof.
  unfold dupdate. induction l as [|[k v] l IH]; intros d N; cbn [fold_left]; [rewrite app_nil_r; auto|]. cbn [fst snd]. rewrite map_app in N. cbn [map fst] in N.
  rewrite dset_new; [|apply NoDup_remove_2 in N; intros H; apply N, in_app_iff; auto]. rewrite IH; rewrite <- app_assoc; auto. cbn [app]. rewrite map_app. exact N.
Qed.
Lemma process_hidden g mo m : gcode_wf g -> sound m -> in_group MG_motion g -> ~ is_canned g -> gparams g <> [] -> Forall readable (map snd (gparams g)) ->
  gm_get (m_mode m) MG_motion = Some mo -> gword mo = gword g ->
  process_str (gcode_str (MkGCode (gcls g) (gword g) (gparams g) true)) m = gcode_process g m.
Proof.
  intros W S M N NE R E EW. set (h := MkGCode (gcls g) (gword g) (gparams g) true).
  destruct (hidden_line h) as (ps & ML & P & B); auto. apply W. intros l T. apply (motion_letters (gcls g)); auto. cbn [h gparams] in P.
  unfold process_str. rewrite ML. unfold process_block. cbn [lblock bgcodes bmodal]. unfold process_gcodes.
  destruct (proj2 (proj2 (proj2 (proj2 (proj2 S))))) as [MW MT]. pose proof (MT _ _ E) as (L & PR & _). pose proof (MW _ _ E) as (_ & _ & _ & MP).
  assert (C : gcls mo = gcls g). { destruct W as (_ & PG & _). unfold proper in *. rewrite EW in PR. congruence. }
  assert (K : modal_param_letters (gcls mo) = []). { rewrite C. apply kept_letters. destruct (subclass _ _) eqn:X; auto. apply subclass_derives in X. contradiction. }
  assert (P0 : gparams mo = []). { destruct (gparams mo) as [|kv l]; auto. specialize (MP kv (or_introl eq_refl)). rewrite K in MP. contradiction. }
  assert (NP : ps <> []). { intros ->. apply Permutation_nil in P. auto. }
  assert (ND : NoDup (map fst (map (fun w => (wletter w, w)) ps))). { eapply Permutation_NoDup; [apply Permutation_map; symmetry; exact P|]. apply W. }
  assert (U : updated mo ps = map (fun w => (wletter w, w)) ps). { unfold updated. rewrite P0. rewrite dupdate_new; auto. }
  assert (FT : forall w, In w ps -> accepts (gcls g) (wletter w) = true).
  { intros w I. apply accepts_iff. destruct W as ((LW & _) & _). rewrite Forall_forall in LW. destruct (LW (wletter w, w)) as [_ T]; auto. eapply Permutation_in; [exact P|]. apply in_map_iff. eauto. }
  rewrite (modal_gcode_spec m mo ps E L PR B NP), U, C.
  replace (existsb (unfit (gcls g)) ps) with false. 2: { symmetry. apply existsb_false, forallb_forall. intros w I. unfold unfit. rewrite FT by auto. reflexivity. }
  cbn [andb]. rewrite filter_all. 2: { intros kv I. apply in_map_iff in I as (w & <- & I). apply FT; auto. }
  cbn [app]. rewrite sort_one. cbn [map steps]. set (g' := MkGCode _ _ _ _).
  assert (SG : gcode_process g' m = gcode_process g m).
  { symmetry. apply process_same; auto.
    - apply (built_legal (gcls g) (gword mo) ps). intros x I. apply accepts_iff; auto. rewrite map_map in ND. exact ND.
    - split; auto. split; auto. symmetry; exact P. }
  unfold then_step, ok_step. rewrite SG. destruct (gcode_process g m) as [m' [[]|e]]; reflexivity.
Qed.
(** the motion mode after a gcode *)
Lemma motion_after a g b m : sound m -> gcode_wf g -> motion_word a g b -> (forall w, a = Some w -> exists mo, gm_get (m_mode m) MG_motion = Some mo /\ gword mo = w) ->
  forall w, b = Some w -> exists mo, gm_get (m_mode (fst (gcode_process g m))) MG_motion = Some mo /\ gword mo = w.
Proof.
  intros S W M H w E. rewrite gcode_process_mode; [|apply S|apply W]. inversion M; subst.
  - discriminate.
  - injection H4 as <-. rewrite effect_in by auto. eexists. split; reflexivity.
  - rewrite effect_other; [apply H; auto|]. intros [Q|[_ Q]]; auto.
Qed.
End WithArith.
