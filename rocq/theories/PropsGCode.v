(** C17-C23, C25-C29, C75-C77: gcodes. *)
From Coq Require Import Ascii String List Bool Arith ZArith QArith Qcanon Permutation Sorted Lia.
From Verif Require Import Base Num Words GTable GCode Line BaseFacts WordOrder WordsSpec WordsProofs PrintSpec PrintProofs
  GCodeSpec GCodeProofs GTableProofs GCodeProofs2 PropsWords.
Import ListNotations.
Local Open Scope nat_scope.

(** ** C17 Every word selects at most one gcode class *)
(** the classes that answer for a word are at most one: whichever order the class table is searched in *)
Theorem C17_unique : forall (ar : Arith) (w : word) (c c' : gclass), accurate ar -> constructed w ->
  claims c w -> claims c' w -> c = c'.
Proof. intros ar w c c' A W. apply claims_unique; auto. apply constructed_typed; auto. Qed.
Print Assumptions C17_unique.
(** and the look-up finds it *)
Theorem C17_lookup : forall (ar : Arith) (w : word) (c : gclass), accurate ar -> constructed w ->
  (word_gcode_class w = Some c <-> claims c w).
Proof. intros ar w c A W. apply word_class_claims; auto. apply constructed_typed; auto. Qed.
Print Assumptions C17_lookup.
(** other letters never start a gcode *)
Theorem C17_letters : forall (ar : Arith) (w : word), ~ In (wletter w) [LG; LM; LF; LS; LT; LN; LO] -> word_gcode_class w = None.
Proof.
  intros ar w H. unfold word_gcode_class. replace (gcode_letter (wletter w)) with false; auto.
  destruct (wletter w); auto; exfalso; apply H; cbn; auto 10.
Qed.
Print Assumptions C17_letters.
(** the module imports: no two classes have the same key *)
Theorem C17_import : forall (ar : Arith), accurate ar -> exists m, build_word_map subclasses [] = Ok m.
Proof. intros ar A. apply word_map_ok; auto. Qed.
Print Assumptions C17_import.
Definition G (ar : Arith) (n : Z) : word := Word LG (VFloat (rnd (frac n 10))).
Example C17_example : constructed (ar := binary64) (G binary64 383) /\ claims (ar := binary64) GCodeStraightProbe (G binary64 383) /\
  word_gcode_class (ar := binary64) (G binary64 383) = Some GCodeStraightProbe /\ word_gcode_class (ar := binary64) (G binary64 386) = None.
Proof.
  split; [exists (VFloat (rnd (Arith := binary64) (frac 383 10))); reflexivity|]. split; [|split; vm_compute; reflexivity].
  unfold claims. eexists. split; vm_compute; reflexivity.
Qed.

(** ** C75 Words mean what the documentation says *)
Theorem C75_codes : forall (ar : Arith) (w : word) (c : gclass), accurate ar -> constructed w ->
  (word_gcode_class w = Some c <-> doc_class w c).
Proof. intros ar w c A W. apply word_class_doc; auto. apply constructed_typed; auto. Qed.
Print Assumptions C75_codes.
Example C75_example : doc_class (ar := binary64) (G binary64 20) GCodeArcMoveCW.
Proof.
  right. exists 20%Z, 20%Z. split; [vm_compute; auto 10|]. eexists. split; [reflexivity|]. split; apply Qcle_refl.
Qed.

(** ** C76 Documented order of execution *)
Theorem C76_order : forall (ar : Arith) (l a b c : list gcode) (g1 g2 : gcode) (s1 s2 : Z), accurate ar ->
  constructed (gword g1) -> constructed (gword g2) ->
  word_gcode_class (gword g1) = Some (gcls g1) -> word_gcode_class (gword g2) = Some (gcls g2) ->
  doc_stage (gword g1) s1 -> doc_stage (gword g2) s2 -> (s1 < s2)%Z ->
  sort_gcodes l <> a ++ g2 :: b ++ g1 :: c.
Proof.
  intros ar l a b c g1 g2 s1 s2 A W1 W2 C1 C2 S1 S2 L E.
  apply C75_codes in C1, C2; auto. pose proof (stage_spec A _ _ _ S1 C1) as E1. pose proof (stage_spec A _ _ _ S2 C2) as E2.
  pose proof (sort_sorted _ gorder l) as S. change (sort gorder l) with (sort_gcodes l) in S. rewrite E in S. clear E.
  induction a as [|x a IH]; cbn [app] in S; inversion S as [|y ys S' F]; subst; auto.
  rewrite Forall_forall in F. specialize (F g1). unfold key_le, gorder in F.
  assert (I : In g1 (b ++ g1 :: c)) by (apply in_app_iff; right; left; auto). specialize (F I).
  assert (exec_order (gcls g2) / 10 <= exec_order (gcls g1) / 10)%Z by (apply Z.div_le_mono; lia). lia.
Qed.
Print Assumptions C76_order.
Definition built_of (ar : Arith) (c : gclass) (w : word) : gcode := MkGCode c w [] false.
Example C76_example : let g1 := built_of binary64 GCodeUseMillimeters (G binary64 210) in let g2 := built_of binary64 GCodeLinearMove (G binary64 10) in
  word_gcode_class (ar := binary64) (gword g1) = Some (gcls g1) /\ word_gcode_class (ar := binary64) (gword g2) = Some (gcls g2) /\
  doc_stage (ar := binary64) (gword g1) 160 /\ doc_stage (ar := binary64) (gword g2) 240 /\
  map gcls (sort_gcodes [g2; g1]) = [GCodeUseMillimeters; GCodeLinearMove].
Proof.
  cbv zeta. split; [vm_compute; reflexivity|]. split; [vm_compute; reflexivity|]. split; [|split; [|vm_compute; reflexivity]].
  - right. exists 200%Z, 210%Z. split; [vm_compute; auto 40|]. eexists. split; [reflexivity|]. split; apply Qcleb_le; vm_compute; reflexivity.
  - right. exists 0%Z, 30%Z. split; [vm_compute; auto 40|]. eexists. split; [reflexivity|]. split; apply Qcleb_le; vm_compute; reflexivity.
Qed.

(** ** C77 Documented modal groups *)
Theorem C77_groups : forall (ar : Arith) (w : word) (c : gclass) (lo hi : Z) (g : mgroup), accurate ar -> constructed w ->
  word_gcode_class w = Some c -> In (wletter w, lo, hi, g) doc_groups -> in_tenths lo hi w -> modal_group c = Some g.
Proof. intros ar w c lo hi g A W C H T. apply C75_codes in C; auto. eapply group_spec; eauto. Qed.
Print Assumptions C77_groups.
Theorem C77_nonmodal : forall (ar : Arith) (w : word) (c : gclass) (lo hi : Z), accurate ar -> constructed w ->
  word_gcode_class w = Some c -> In (wletter w, lo, hi) doc_nonmodal -> in_tenths lo hi w -> modal_group c = None.
Proof. intros ar w c lo hi A W C H T. apply C75_codes in C; auto. eapply nonmodal_spec; eauto. Qed.
Print Assumptions C77_nonmodal.
Example C77_example : In (LG, 810, 890, MG_motion)%Z doc_groups /\ in_tenths (ar := binary64) 810 890 (G binary64 830) /\
  word_gcode_class (ar := binary64) (G binary64 830) = Some GCodeDrillingCyclePeck.
Proof.
  split; [vm_compute; auto 40|]. split; [|vm_compute; reflexivity]. eexists. split; [reflexivity|]. split; apply Qcleb_le; vm_compute; reflexivity.
Qed.

(** ** C18 words2gcodes loses and invents nothing *)
Theorem C18_nothing_lost : forall (ar : Arith) (ws : list word) (gs : list gcode) (rest : list word),
  words2gcodes ws = Ok (gs, rest) -> Permutation ws (flat_map (fun g => gword g :: map snd (gparams g)) gs ++ rest).
Proof.
  intros ar ws gs rest H. apply words2gcodes_iff in H as (grs & Gr & _ & ->). rewrite (grouped_perm _ _ _ Gr). apply Permutation_app_tail.
  clear Gr. induction grs as [|[c w ps] grs IH]; cbn [flat_map map]; auto. rewrite <- IH.
  unfold built, group_words. cbn [gword gparams gr_word gr_params]. rewrite kv_words. reflexivity.
Qed.
Print Assumptions C18_nothing_lost.
Theorem C18_order : forall (ar : Arith) (ws : list word) (gs : list gcode) (rest : list word),
  words2gcodes ws = Ok (gs, rest) ->
  subseq (map gword gs) ws /\ subseq rest ws /\ Forall (fun g => subseq (map snd (gparams g)) ws) gs.
Proof.
  intros ar ws gs rest H. apply words2gcodes_iff in H as (grs & Gr & _ & ->). destruct (grouped_order _ _ _ Gr) as (A & B & C).
  rewrite map_map. split; [exact A|]. split; auto. apply Forall_map. eapply Forall_impl; [|exact C].
  intros [c w ps]. unfold built. cbn [gparams gr_params]. rewrite kv_words. auto.
Qed.
Print Assumptions C18_order.
Definition rd (s : string) : list word := match text2words (ar := binary64) (t s) with Ok ws => ws | Raise _ => [] end.
Definition group_names (r : result (list gcode * list word)) : result (list (string * list text) * list text) :=
  match r with
  | Ok (gs, rest) => Ok (map (fun g => (class_name (gcls g), map (fun kv => word_str (ar := binary64) (snd kv)) (gparams g))) gs, map (word_str (ar := binary64)) rest)
  | Raise e => Raise e
  end.
Example C18_example : group_names (words2gcodes (ar := binary64) (rd "X1 G1 Y2 M3 S5 F9 Z7")) =
  Ok ([("GCodeLinearMove"%string, [t "Y2"; t "Z7"]); ("GCodeStartSpindleCW"%string, []); ("GCodeSpindleSpeed"%string, []); ("GCodeFeedRate"%string, [])], [t "X1"]).
Proof. vm_compute. reflexivity. Qed.

(** ** C19 Parameters attach to the nearest preceding gcode that accepts them *)
Theorem C19_grouping : forall (ar : Arith) (ws : list word) (gs : list gcode) (rest : list word),
  words2gcodes ws = Ok (gs, rest) <-> exists grs, grouped ws grs rest /\ Forall unambiguous grs /\ gs = map built grs.
Proof. exact @words2gcodes_iff. Qed.
Print Assumptions C19_grouping.
Theorem C19_unique : forall (ar : Arith) (ws : list word) (gs gs' : list group) (rest rest' : list word),
  grouped ws gs rest -> grouped ws gs' rest' -> gs = gs' /\ rest = rest'.
Proof. intros. eapply grouped_unique; eauto. Qed.
Print Assumptions C19_unique.
Theorem C19_exists : forall (ar : Arith) (ws : list word), exists gs rest, grouped ws gs rest.
Proof. intros ar ws. exists (spec_groups ws), (spec_rest ws). apply grouped_spec. Qed.
Print Assumptions C19_exists.
Example C19_example : exists gs rest, grouped (ar := binary64) (rd "X1 G1 Y2") gs rest /\ Forall unambiguous gs /\ length gs = 1 /\ length rest = 1.
Proof.
  exists (spec_groups (ar := binary64) (rd "X1 G1 Y2")), (spec_rest (ar := binary64) (rd "X1 G1 Y2")). split; [apply grouped_spec|].
  split; [|split; vm_compute; reflexivity]. vm_compute. repeat (apply Forall_cons; [|]); try apply Forall_nil. unfold unambiguous. cbn. repeat constructor; cbn; tauto.
Qed.

(** ** C20 Gcode parameters are legal and unique *)
Theorem C20_legal : forall (ar : Arith) (g : gcode), constructible g -> legal g.
Proof. exact @constructible_legal. Qed.
Print Assumptions C20_legal.
Theorem C20_constructor : forall (c : gclass) (w : word) (ps : list word),
  ((forall x, In x ps -> takes c (wletter x)) /\ NoDup (map wletter ps) /\ mk_gcode c w ps = Ok (built (Group c w ps))) \/
  (~ ((forall x, In x ps -> takes c (wletter x)) /\ NoDup (map wletter ps)) /\ mk_gcode c w ps = Raise EGCodeParameterError).
Proof.
  intros c w ps. destruct (mk_gcode_total c w ps) as [[g H]|H].
  - left. pose proof H as H'. apply mk_gcode_iff in H' as (T & ND & ->). auto.
  - right. split; auto. intros [T ND]. rewrite (mk_gcode_ok c w ps T ND) in H. discriminate.
Qed.
Print Assumptions C20_constructor.
Theorem C20_words : forall (ar : Arith) (ws : list word) (e : exn),
  words2gcodes ws = Raise e <-> e = EGCodeParameterError /\ exists gs rest, grouped ws gs rest /\ ~ Forall unambiguous gs.
Proof. exact @words2gcodes_error. Qed.
Print Assumptions C20_words.
Example C20_example : words2gcodes (ar := binary64) (rd "G1 X1 X2") = Raise EGCodeParameterError /\
  exists g, constructible (ar := binary64) g /\ map fst (gparams g) = [LX; LY].
Proof.
  split; [vm_compute; reflexivity|]. eexists. split.
  - eapply (con_word GCodeLinearMove (G binary64 10) (tl (rd "G1 X1 Y2"))). vm_compute. reflexivity.
  - vm_compute. reflexivity.
Qed.

(** ** C21 Flattening and regrouping *)
Theorem C21_regroup : forall (ar : Arith) (ws : list word) (gs : list gcode) (rest : list word) (wss : list (list word)),
  words2gcodes ws = Ok (gs, rest) -> Forall2 written gs wss ->
  exists gs', words2gcodes (concat wss) = Ok (gs', []) /\ Forall2 same_gcode gs gs'.
Proof.
  intros ar ws gs rest wss H F. apply words2gcodes_iff in H as (grs & Gr & U & ->).
  apply regroup; auto; [eapply grouped_placed; eauto|eapply grouped_takes; eauto].
Qed.
Print Assumptions C21_regroup.
Example C21_example : exists gs rest, words2gcodes (ar := binary64) (rd "G1 M3 X1 Y2") = Ok (gs, rest) /\
  Forall2 written gs (map (fun g => gword g :: rev (map snd (gparams g))) gs).
Proof.
  eexists. eexists. split; [vm_compute; reflexivity|]. cbn [map]. repeat (apply Forall2_cons; [constructor; symmetry; apply Permutation_rev|]). apply Forall2_nil.
Qed.

(** ** C22 text2gcodes accepts exactly fully-formed text *)
Theorem C22_text : forall (ar : Arith) (s : text) (gs : list gcode),
  text2gcodes s = Ok gs <-> exists ws grs, reads s ws /\ grouped ws grs [] /\ Forall unambiguous grs /\ gs = map built grs.
Proof.
  intros ar s gs. unfold text2gcodes. split.
  - destruct (text2words s) as [ws|] eqn:T; cbn [bind]; [|discriminate]. apply text2words_reads in T.
    destruct (words2gcodes ws) as [[gs' rest]|] eqn:W; cbn [bind]; [|discriminate]. destruct rest; [|discriminate]. intros E. injection E as <-.
    apply words2gcodes_iff in W as (grs & Gr & U & ->). exists ws, grs. auto.
  - intros (ws & grs & R & Gr & U & ->). apply text2words_reads in R. rewrite R. cbn [bind].
    rewrite (proj2 (words2gcodes_iff ws (map built grs) [])) by eauto. reflexivity.
Qed.
Print Assumptions C22_text.
(** otherwise one of three errors, each with its reason *)
Theorem C22_errors : forall (ar : Arith) (s : text) (e : exn), text2gcodes s = Raise e ->
  text2words s = Raise e \/
  (e = EGCodeParameterError /\ exists ws grs rest, reads s ws /\ grouped ws grs rest /\ ~ Forall unambiguous grs) \/
  (e = EGCodeWordStrError /\ exists ws grs rest, reads s ws /\ grouped ws grs rest /\ rest <> []).
Proof.
  intros ar s e. unfold text2gcodes. destruct (text2words s) as [ws|] eqn:T; cbn [bind]; [|intros E; left; congruence]. apply text2words_reads in T.
  destruct (words2gcodes ws) as [[gs' rest]|e'] eqn:W; cbn [bind].
  - destruct rest as [|r rest]; [discriminate|]. intros E. right. right. split; [congruence|]. apply words2gcodes_iff in W as (grs & Gr & U & ->).
    exists ws, grs, (r :: rest). split; [auto|split; [auto|discriminate]].
  - intros E. injection E as <-. right. left. apply words2gcodes_error in W as (-> & grs & rest & Gr & U). split; auto. exists ws, grs, rest. auto.
Qed.
Print Assumptions C22_errors.
Example C22_example : exists gs, text2gcodes (ar := binary64) (t "G1 X1 M3") = Ok gs /\ length gs = 2.
Proof. eexists. split; vm_compute; reflexivity. Qed.
Example C22_example_error : text2gcodes (ar := binary64) (t "X1 G1") = Raise EGCodeWordStrError.
Proof. vm_compute. reflexivity. Qed.

(** ** C23 A verified block has no conflicting gcodes *)
Lemma reads_wf {ar : Arith} s ws : reads s ws -> Forall word_wf ws.
Proof.
  induction 1 as [|junk c l v r val ws J C L D R IH]; constructor; auto. unfold word_wf. cbn [wletter wvalue].
  inversion D as [l' a b d e f K|l' a b K|l' a K]; subst; rewrite K; auto.
Qed.
Lemma block_words_wf {ar : Arith} s b : mk_block false s = Ok b -> Forall word_wf (map gword (bgcodes b)).
Proof.
  destruct s as [|x s]; cbn [mk_block]; [intros E; injection E as <-; constructor|]. destruct (text2words _) as [ws|] eqn:T; cbn [bind]; [|discriminate].
  destruct (words2gcodes ws) as [[gs rest]|] eqn:W; cbn [bind]; [|discriminate]. intros E. injection E as <-. cbn [bgcodes].
  apply words2gcodes_iff in W as (grs & Gr & U & ->). apply Forall_forall. intros w H. rewrite map_map in H. apply in_map_iff in H as (g & <- & H).
  apply (grouped_words_in _ _ _ _ Gr) in H. cbn [built gword]. apply text2words_reads in T. pose proof (reads_wf _ _ T) as F. rewrite Forall_forall in F. auto.
Qed.
Theorem C23_verify : forall (ar : Arith) (s : text) (b : block),
  mk_block true s = Ok b <-> mk_block false s = Ok b /\ ForallOrdPairs compatible (bgcodes b).
Proof.
  intros ar s b. pose proof (block_words_wf s b) as W. destruct s as [|x s].
  - cbn [mk_block]. split; [intros E; injection E as <-; split; [reflexivity|constructor]|tauto].
  - cbn [mk_block] in *. destruct (text2words _) as [ws|] eqn:T; cbn [bind] in *; [|split; [discriminate|intros [E _]; discriminate]].
    destruct (words2gcodes ws) as [[gs rest]|]; cbn [bind] in *; [|split; [discriminate|intros [E _]; discriminate]].
    destruct (assert_gcodes_total gs [] []) as [A|A]; rewrite A; cbn [bind].
    + split; [|tauto]. intros E. split; auto. injection E as <-. cbn [bgcodes] in *. apply assert_gcodes_spec in A; [tauto|apply W; auto|constructor].
    + split; [discriminate|]. intros [E F]. injection E as <-. cbn [bgcodes] in *.
      assert (X : assert_gcodes [] [] gs = Ok tt); [|congruence]. apply assert_gcodes_spec; [apply W; auto|constructor|]. split; auto.
      apply Forall_forall. intros g _. split; [intros []|intros m _ []].
Qed.
Print Assumptions C23_verify.
Theorem C23_error : forall (ar : Arith) (s : text) (b : block),
  mk_block false s = Ok b -> ~ ForallOrdPairs compatible (bgcodes b) -> mk_block true s = Raise EAssertionError.
Proof.
  intros ar s b H N. destruct (mk_block true s) as [b'|e] eqn:E.
  - exfalso. apply C23_verify in E as [E F]. rewrite H in E. injection E as <-. auto.
  - destruct s as [|x s]; [discriminate|]. cbn [mk_block] in *. destruct (text2words _) as [ws|]; cbn [bind] in *; [|discriminate].
    destruct (words2gcodes ws) as [[gs rest]|]; cbn [bind] in *; [|discriminate].
    destruct (assert_gcodes_total gs [] []) as [A|A]; rewrite A in E; cbn [bind] in E; congruence.
Qed.
Print Assumptions C23_error.
Example C23_example : (exists b, mk_block (ar := binary64) true (t "G1 X1 F9") = Ok b /\ length (bgcodes b) = 2) /\
  mk_block (ar := binary64) true (t "G0 G1 X1") = Raise EAssertionError /\ (exists b, mk_block (ar := binary64) false (t "G0 G1 X1") = Ok b).
Proof. split; [eexists; split; vm_compute; reflexivity|]. split; [vm_compute; reflexivity|]. eexists. vm_compute. reflexivity. Qed.

(** ** C25 Gcodes run in execution order, ties in written order *)
Theorem C25_sorted : forall (l : list gcode),
  Permutation (sort_gcodes l) l /\ StronglySorted (fun a b => (exec_order (gcls a) <= exec_order (gcls b))%Z) (sort_gcodes l) /\
  (forall k, filter (fun g => (exec_order (gcls g) =? k)%Z) (sort_gcodes l) = filter (fun g => (exec_order (gcls g) =? k)%Z) l).
Proof. intros l. split; [apply sort_perm|]. split; [apply sort_sorted|]. intros k. apply (sort_stable _ gorder). Qed.
Print Assumptions C25_sorted.
Theorem C25_only_order : forall (l l' : list gcode),
  StronglySorted (fun a b => (exec_order (gcls a) <= exec_order (gcls b))%Z) l' ->
  (forall k, filter (fun g => (exec_order (gcls g) =? k)%Z) l' = filter (fun g => (exec_order (gcls g) =? k)%Z) l) -> l' = sort_gcodes l.
Proof.
  intros l l' S F. apply (sorted_unique _ gorder); [exact S|apply sort_sorted|]. intros k. transitivity (filter (fun y => (gorder y =? k)%Z) l); [apply F|].
  symmetry. apply (sort_stable _ gorder).
Qed.
Print Assumptions C25_only_order.
Example C25_example : match words2gcodes (ar := binary64) (rd "G1 X1 F9 M3 S5 G21 N3") with
  | Ok (gs, _) => map (fun g => word_str (ar := binary64) (gword g)) (sort_gcodes gs) = [t "N3"; t "F9"; t "S5"; t "M03"; t "G21"; t "G01"]
  | Raise _ => False end.
Proof. vm_compute. reflexivity. Qed.

(** ** C26 split_gcodes splits the sorted list at the first match *)
Lemma subclass_derives c b : subclass c b = true <-> derives c b.
Proof.
  split.
  - unfold subclass. generalize 12%nat as n. intros n. revert c. induction n; intros c H; cbn [subclass_fuel] in H; apply orb_true_iff in H as [H|H].
    + apply gclass_eqb_eq in H. subst; constructor.
    + discriminate.
    + apply gclass_eqb_eq in H. subst; constructor.
    + destruct (parent c) as [p|] eqn:E; [|discriminate]. eapply der_parent; eauto.
  - assert (S : forall c p b, parent c = Some p -> subclass p b = true -> subclass c b = true).
    { clear. intros c p b. destruct c; intros E; try discriminate E; injection E as <-; intros H; unfold subclass in *;
      cbn [subclass_fuel parent] in *; rewrite H || (repeat (apply orb_true_iff in H as [H|H]; [rewrite H, ?orb_true_r; reflexivity|]); discriminate); apply orb_true_r. }
    induction 1; [|eauto]. unfold subclass. destruct c; reflexivity.
Qed.
Theorem C26_split : forall (l : list gcode) (cls : gclass) (sorting : bool) (a x b : list gcode),
  split_gcodes l cls sorting = (a, x, b) ->
  a ++ x ++ b = (if sorting then sort_gcodes l else l) /\
  Forall (fun g => ~ derives (gcls g) cls) a /\
  ((x = [] /\ b = []) \/ exists g, x = [g] /\ derives (gcls g) cls).
Proof.
  intros l cls sorting a x b. unfold split_gcodes. set (l' := if sorting then sort_gcodes l else l). pose proof (split_at_spec cls l') as S.
  destruct (split_at cls l') as [[[a' x'] b']|]; intros E; injection E as <- <- <-.
  - destruct S as (-> & D & F). split; auto. split.
    + eapply Forall_impl; [|exact F]. intros g H D'. apply subclass_derives in D'. cbv beta in H. congruence.
    + right. exists x'. split; auto. apply subclass_derives; auto.
  - split; [rewrite app_nil_r; auto|]. split; auto. eapply Forall_impl; [|exact S]. intros g H D'. apply subclass_derives in D'. cbv beta in H. congruence.
Qed.
Print Assumptions C26_split.
Example C26_example : match words2gcodes (ar := binary64) (rd "G1 X1 F9 M0 G21") with
  | Ok (gs, _) => match split_gcodes gs GCodeMotion true with
                  | (a, x, b) => map (fun g => word_str (ar := binary64) (gword g)) a = [t "F9"; t "G21"] /\ map gcls x = [GCodeLinearMove] /\ map gcls b = [GCodePauseProgram]
                  end
  | Raise _ => False end.
Proof. vm_compute. auto. Qed.

(** ** C27 modal_copy keeps the word, the class and exactly the modal parameters *)
Theorem C27_modal_copy : forall (ar : Arith) (g : gcode), constructible g ->
  exists g', modal_copy g = Ok g' /\ gcls g' = gcls g /\ gword g' = gword g /\
    (forall kv, In kv (gparams g') <-> In kv (gparams g) /\ In (fst kv) (modal_param_letters (gcls g))) /\
    subseq (gparams g') (gparams g) /\ modal_copy g' = Ok g'.
Proof.
  intros ar g H. apply constructible_legal in H. rewrite (modal_copy_spec g H). eexists. split; [reflexivity|]. cbn [gcls gword gparams]. split; auto. split; auto.
  assert (AM : forall c l, accepts_modal c l = true <-> In l (modal_param_letters c)).
  { intros c l. unfold accepts_modal. rewrite existsb_exists. split; [intros (x & I & E); apply letter_eqb_eq in E; subst; auto|intros I; exists l; split; auto; apply letter_eqb_refl]. }
  split; [|split].
  - intros kv. rewrite filter_In, AM. tauto.
  - induction (gparams g) as [|kv d IH]; cbn [filter]; [constructor|]. destruct (accepts_modal (gcls g) (fst kv)); constructor; auto.
  - set (g2 := MkGCode _ _ _ _). assert (L : legal g2).
    { destruct H as [F ND]. split; cbn [g2 gparams gcls].
      - apply Forall_forall. intros kv Hk. apply filter_In in Hk as [Hk _]. rewrite Forall_forall in F. auto.
      - apply NoDup_map_filter; auto. }
    rewrite (modal_copy_spec g2 L). unfold g2. cbn [gcls gword gparams]. do 2 f_equal.
    generalize (gparams g). intros d. induction d as [|kv d IH]; cbn [filter]; auto. destruct (accepts_modal (gcls g) (fst kv)) eqn:E; cbn [filter]; [rewrite E, IH|]; auto.
Qed.
Print Assumptions C27_modal_copy.
Example C27_example : exists g g', mk_gcode GCodeDrillingCycle (G binary64 810) (tl (rd "G81 X1 L2 Z3 R4")) = Ok g /\ modal_copy g = Ok g' /\
  map fst (gparams g) = [LX; LL; LZ; LR] /\ map fst (gparams g') = [LX; LZ; LR].
Proof. do 2 eexists. split; [vm_compute; reflexivity|]. split; [vm_compute; reflexivity|]. split; vm_compute; reflexivity. Qed.

(** ** C28 Gcode attributes behave like a record *)
Theorem C28_read : forall (g : gcode) (l : letter),
  (takes (gcls g) l -> gcode_getattr g l = Ok (option_map wvalue (pget (gparams g) l))) /\
  (~ takes (gcls g) l -> gcode_getattr g l = Raise EAttributeError).
Proof.
  intros g l. unfold gcode_getattr. split; intros H.
  - apply accepts_iff in H. rewrite H. auto.
  - apply accepts_false in H. rewrite H. auto.
Qed.
Print Assumptions C28_read.
Theorem C28_assign : forall (ar : Arith) (g : gcode) (l : letter) (v v' : value), constructible g -> takes (gcls g) l -> coerce l v = Ok v' ->
  exists g', gcode_setattr g l v = Ok g' /\ gcode_getattr g' l = Ok (Some v') /\ gcls g' = gcls g /\ gword g' = gword g /\
    forall k, k <> l -> gcode_getattr g' k = gcode_getattr g k.
Proof.
  intros ar g l v v' H T C. apply constructible_legal in H. destruct (setattr_ok g l v v' T H C) as [g' E]. exists g'. split; auto.
  destruct (setattr_get g l v g' H T E) as (v2 & C2 & A & B & D & F). rewrite C in C2. injection C2 as <-. split; auto. split; auto. split; auto.
  intros k N. unfold gcode_getattr. rewrite B, (F k N). reflexivity.
Qed.
Print Assumptions C28_assign.
Theorem C28_bad_value : forall (ar : Arith) (g : gcode) (l : letter) (v : value) (e : exn), constructible g -> takes (gcls g) l ->
  coerce l v = Raise e -> gcode_setattr g l v = Raise e.
Proof.
  intros ar g l v e H T C. apply constructible_legal in H. apply accepts_iff in T. unfold gcode_setattr. rewrite T. unfold pget. destruct (dget letter_eqb (gparams g) l) as [w|] eqn:D.
  - assert (El : wletter w = l). { destruct H as [F _]. rewrite Forall_forall in F. apply (dget_in _ _ _ letter_eqb_eq) in D. destruct (F _ D) as [E _]. auto. }
    rewrite El, C. reflexivity.
  - unfold mk_word. rewrite C. reflexivity.
Qed.
Print Assumptions C28_bad_value.
Theorem C28_other_letter : forall (ar : Arith) (g g' : gcode) (l : letter) (v : value), ~ takes (gcls g) l -> gcode_setattr g l v = Ok g' -> gparams g' = gparams g.
Proof. intros ar g g' l v H. apply accepts_false in H. unfold gcode_setattr. rewrite H. intros E. injection E as <-. auto. Qed.
Print Assumptions C28_other_letter.
Example C28_example : exists g g', mk_gcode GCodeLinearMove (G binary64 10) (tl (rd "G1 X1 Y2")) = Ok g /\
  takes (gcls g) LZ /\ gcode_setattr (ar := binary64) g LZ (VInt 3) = Ok g' /\ map fst (gparams g') = [LX; LY; LZ] /\ ~ takes (gcls g) LQ.
Proof.
  do 2 eexists. split; [vm_compute; reflexivity|]. split; [apply accepts_iff; vm_compute; reflexivity|]. split; [vm_compute; reflexivity|].
  split; [vm_compute; reflexivity|]. apply accepts_false. vm_compute. reflexivity.
Qed.

(** ** C29 A printed gcode is its word followed by its parameters in letter order *)
Theorem C29_print : forall (ar : Arith) (g : gcode), constructible g -> exists ps,
  Permutation ps (gparams g) /\ StronglySorted (fun a b => code (letter_ascii (fst a)) < code (letter_ascii (fst b))) ps /\
  gcode_str g = (if gwhite g then repeat space (length (word_str (gword g))) else word_str (gword g)) ++
                flat_map (fun kv => space :: word_str (snd kv)) ps.
Proof.
  intros ar g H. apply constructible_legal in H as [_ ND]. destruct (gcode_str_spec g ND) as (ps & P & S & E). exists ps. split; auto. split; auto.
  clear - S. assert (M : forall a b, lnum a < lnum b -> code (letter_ascii a) < code (letter_ascii b)).
  { intros a b. assert (X : forall l, code (letter_ascii l) = 65 + lnum l) by (intros []; reflexivity). rewrite !X. lia. }
  induction S as [|a l S IH F]; constructor; auto. eapply Forall_impl; [|exact F]. intros b. apply M.
Qed.
Print Assumptions C29_print.
Theorem C29_suppressed : forall (ar : Arith) (g : gcode),
  exists rest, gcode_str (MkGCode (gcls g) (gword g) (gparams g) false) = word_str (gword g) ++ rest /\
               gcode_str (MkGCode (gcls g) (gword g) (gparams g) true) = repeat space (length (word_str (gword g))) ++ rest.
Proof. intros ar g. eexists. split; reflexivity. Qed.
Print Assumptions C29_suppressed.
Example C29_example : exists g, mk_gcode GCodeLinearMove (G binary64 10) (tl (rd "G1 Z3 X1 Y2")) = Ok g /\
  gcode_str (ar := binary64) g = t "G01 X1 Y2 Z3" /\ gcode_str (ar := binary64) (MkGCode (gcls g) (gword g) (gparams g) true) = t "    X1 Y2 Z3".
Proof. eexists. split; [vm_compute; reflexivity|]. split; vm_compute; reflexivity. Qed.
