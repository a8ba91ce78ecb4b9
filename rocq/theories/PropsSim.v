(** Properties C48 (order of words) and C78 (equality of gcodes). *)
From Coq Require Import Ascii String List Bool Arith ZArith QArith Qcanon Permutation Lia.
From Verif Require Import Base Num Words GTable GCode Line Position Machine BaseFacts WordOrder WordsSpec PrintSpec BlockSpec BlockProofs GCodeSpec GCodeProofs GCodeProofs2 PropsGCode ArithSpec Float64 PosSpec PosProofs ModeSpec ModeProofs PropsMode MachSpec MachProofs MachProofs2 MachProofs3 PropsMach PropsMach2 TransSpec TransProofs2 SimSpec SimProofs.
Import ListNotations.
Open Scope Z_scope.

(** ** C48 *)
(** The claim is refuted (C48_refuted): a word written before its gcode is not a parameter of it. What holds: if each parameter has only
    one gcode in the block it may belong to ([clear_words]) and the words that belong to no gcode are the same ones in both orders, then both orders do the same. *)
Theorem C48_words_partial : forall (ar : Arith) (m : machine) (ws ws' : list word) (gs gs' : list gcode) (ps ps' : list word),
  sound m -> inside m -> Forall word_wf ws -> Permutation ws ws' -> clear_words ws ->
  words2gcodes ws = Ok (gs, ps) -> words2gcodes ws' = Ok (gs', ps') -> ForallOrdPairs compatible gs -> NoDup (map wletter ps) -> Permutation ps ps' ->
  same_outcome (process_gcodes gs ps m) (process_gcodes gs' ps' m).
Proof.
  intros ar m ws ws' gs gs' ps ps' S I W P C E E' F N Q. pose proof (words2gcodes_wf ws gs ps E W) as [WG WP].
  apply words2gcodes_iff in E as (grs & G & U & ->). apply words2gcodes_iff in E' as (grs' & G' & U' & ->).
  apply process_gcodes_sim; auto; [|eapply grouped_rest_class; eauto].
  apply (grouped_same ws ws' grs grs' ps ps'); auto. clear - F. induction grs as [|g grs IH]; cbn [map] in *; [constructor|]. inversion F as [|? ? F1 F2]; subst. constructor; [|auto].
  intros I. apply in_map_iff in I as (h & E & I). rewrite Forall_forall in F1. destruct (F1 (built h)) as [D _]; [apply in_map; auto|]. apply D. cbn. auto.
Qed.
Print Assumptions C48_words_partial.
(** the gcodes of a block may be given in any order, with parameters in any order *)
Theorem C48_gcodes_partial : forall (ar : Arith) (m : machine) (gs hs : list gcode) (ps ps' : list word),
  sound m -> inside m -> Forall gcode_wf gs -> Forall word_wf ps -> ForallOrdPairs compatible gs -> same_gcodes gs hs ->
  words2gcodes ps = Ok ([], ps) -> NoDup (map wletter ps) -> Permutation ps ps' -> same_outcome (process_gcodes gs ps m) (process_gcodes hs ps' m).
Proof. intros ar m gs hs ps ps' S I W WP C G B. apply bare_iff in B. apply process_gcodes_sim; auto. Qed.
Print Assumptions C48_gcodes_partial.
(** without compatibility it matters which of two gcodes of one group is written last *)
Theorem C48_incompatible_refuted : exists gs hs, Permutation gs hs /\ Forall (gcode_wf (ar := binary64)) gs /\
  exists m, reachable (ar := binary64) m /\ snd (process_gcodes (ar := binary64) gs [] m) = Ok tt /\ snd (process_gcodes (ar := binary64) hs [] m) = Ok tt /\
    mode_text (fst (process_gcodes (ar := binary64) gs [] m)) <> mode_text (fst (process_gcodes (ar := binary64) hs [] m)).
Proof.
  exists (text_gcodes "G20 G21"), (text_gcodes "G21 G20"). split; [vm_compute; constructor|].
  assert (W : Forall (gcode_wf (ar := binary64)) (text_gcodes "G20 G21")).
  { unfold text_gcodes, text2gcodes. destruct (text2words (ar := binary64) (t "G20 G21")) as [ws|] eqn:E; cbn [bind]; [|constructor]. apply text2words_wf in E. destruct (words2gcodes ws) as [[gs un]|] eqn:G; cbn [bind]; [|constructor]. destruct un; [|constructor]. apply words2gcodes_wf in G; auto. apply G. }
  split; auto.
  destruct (from_default (fun m => let a := process_gcodes (ar := binary64) (text_gcodes "G20 G21") [] m in let b := process_gcodes (ar := binary64) (text_gcodes "G21 G20") [] m in
     (match snd a with Ok _ => true | _ => false end, match snd b with Ok _ => true | _ => false end, mode_text (fst a), mode_text (fst b)))
     (true, true, t "G00 G17 G90 G91.1 G94 G21 G40 G49 G54 G61 G97 M05 M09 F0 S0 T0", t "G00 G17 G90 G91.1 G94 G20 G40 G49 G54 G61 G97 M05 M09 F0 S0 T0")) as (m & D & E); [vm_compute; reflexivity|].
  cbv zeta in E. apply pair_equal_spec in E as [E E4]. apply pair_equal_spec in E as [E E3]. apply pair_equal_spec in E as [E1 E2].
  exists m. split; [exists xyz, false, default_mode_lines, m, []; split; [exact D|]; split; [constructor|reflexivity]|]. split; [|split].
  - revert E1. generalize (snd (process_gcodes (ar := binary64) (text_gcodes "G20 G21") [] m)). clear. intros [[]|]; intros Q; [reflexivity|discriminate Q].
  - revert E2. generalize (snd (process_gcodes (ar := binary64) (text_gcodes "G21 G20") [] m)). clear. intros [[]|]; intros Q; [reflexivity|discriminate Q].
  - rewrite E3, E4. clear. vm_compute. intros Q. discriminate Q.
Qed.
Print Assumptions C48_incompatible_refuted.
(** what "the same" means: same position, range and state, the mode prints the same *)
Theorem C48_observed : forall (ar : Arith) (m m' : machine), sound m -> sound m' -> same_machine m m' ->
  machine_pos m = machine_pos m' /\ m_abs m = m_abs m' /\ m_min m = m_min m' /\ m_max m = m_max m' /\ mode_str (m_mode m) = mode_str (m_mode m').
Proof.
  intros ar m m' S S' M. pose proof M as (SM & A & B & C & D & E & F). split; [unfold machine_pos, abs2work, coord_sys_offset; rewrite A, B, E; reflexivity|]. split; auto. split; auto. split; auto.
  unfold mode_str. f_equal. pose proof S as (_ & _ & _ & _ & _ & W & _). pose proof S' as (_ & _ & _ & _ & _ & W' & _). unfold mode_gcodes. induction all_mgroups as [|mg l IH]; cbn [flat_map]; auto. rewrite !map_app, IH. f_equal. specialize (SM mg).
  destruct (gm_get (m_mode m) mg) as [g|] eqn:G, (gm_get (m_mode m') mg) as [h|] eqn:H; try contradiction; auto. cbn [map]. f_equal. apply same_str; auto; [apply (W _ _ G)|]. rewrite (proj1 (proj2 (proj2 (W _ _ G)))), (proj1 (proj2 (proj2 (W' _ _ H)))). reflexivity.
Qed.
Print Assumptions C48_observed.
(** and nothing done afterwards can tell the two machines apart *)
Theorem C48_forever : forall (ar : Arith) (m m' : machine) (gs : list gcode), sound m -> inside m -> sound m' -> inside m' -> same_machine m m' -> Forall gcode_wf gs ->
  same_outcome (steps (map gcode_process gs) m) (steps (map gcode_process gs) m').
Proof. intros ar m m' gs S I S' I' M W. apply steps_sim; auto. clear. induction gs; constructor; auto. apply same_gcode_refl. Qed.
Print Assumptions C48_forever.

Definition clear_b (ws : list word) : bool :=
  forallb (fun g => match word_gcode_class (ar := binary64) g with None => true | Some c => forallb (fun w => negb (accepts c (wletter w)) ||
     (match word_gcode_class (ar := binary64) w with None => true | Some _ => false end &&
      forallb (fun g' => match word_gcode_class (ar := binary64) g' with None => true | Some c' => negb (accepts c' (wletter w)) || word_eqb g' g end) ws)) ws end) ws.
Lemma clear_ex ws : Forall word_wf ws -> clear_b ws = true -> clear_words (ar := binary64) ws.
Proof.
  unfold clear_b. intros W H g c w I E J T. rewrite Forall_forall in W. rewrite forallb_forall in H. specialize (H g I). rewrite E in H. rewrite forallb_forall in H. specialize (H w J). apply accepts_iff in T. rewrite T in H. cbn [negb orb] in H. apply andb_true_iff in H as [H1 H2]. split.
  - destruct (word_gcode_class w); [discriminate H1|reflexivity].
  - intros g' c' I' E' T'. rewrite forallb_forall in H2. specialize (H2 g' I'). rewrite E' in H2. apply accepts_iff in T'. rewrite T' in H2. cbn [negb orb] in H2. apply word_eqb_eq in H2; auto.
Qed.
Definition words_of (s : string) : list word := match text2words (ar := binary64) (t s) with Ok l => l | Raise _ => [] end.
Lemma words_of_wf s : Forall word_wf (words_of s).
Proof. unfold words_of. destruct (text2words (ar := binary64) (t s)) eqn:T; [eapply text2words_wf; eauto|constructor]. Qed.
Fixpoint perm_b (l l' : list word) : bool :=
  match l with
  | [] => match l' with [] => true | _ => false end
  | w :: l => match list_remove w l' with Ok l' => perm_b l l' | Raise _ => false end
  end.
Lemma list_remove_perm w l l' : word_wf w -> Forall word_wf l -> list_remove w l = Ok l' -> Permutation l (w :: l').
Proof.
  intros W. revert l'. induction l as [|x l IH]; intros l' F; cbn [list_remove]; [discriminate|]. inversion F; subst. destruct (word_eqb x w) eqn:E.
  - intros H. injection H as <-. apply word_eqb_eq in E; auto. subst. reflexivity.
  - destruct (list_remove w l) as [r|]; cbn [bind]; [|discriminate]. intros H. injection H as <-. rewrite (IH r) by auto. constructor.
Qed.
Lemma perm_ex l : forall l', Forall word_wf l -> Forall word_wf l' -> perm_b l l' = true -> Permutation l l'.
Proof.
  induction l as [|w l IH]; intros l' F F'; cbn [perm_b]; [destruct l'; [auto|discriminate]|]. inversion F; subst. destruct (list_remove w l') as [r|] eqn:E; [|discriminate]. intros H. apply list_remove_perm in E; auto.
  rewrite E. constructor. apply IH; auto. apply (Permutation_Forall E) in F'. inversion F'; auto.
Qed.
(** the hypotheses of C48_words_partial hold of "M3 G1 X1 Y2 F9 G21" against "G21 F9 G1 Y2 X1 M3" *)
Example C48_hyp : exists gs gs', words2gcodes (ar := binary64) (words_of "M3 G1 X1 Y2 F9 G21") = Ok (gs, []) /\ words2gcodes (ar := binary64) (words_of "G21 F9 G1 Y2 X1 M3") = Ok (gs', []) /\
  Permutation (words_of "M3 G1 X1 Y2 F9 G21") (words_of "G21 F9 G1 Y2 X1 M3") /\ clear_words (ar := binary64) (words_of "M3 G1 X1 Y2 F9 G21") /\ ForallOrdPairs compatible gs /\ gs <> gs'.
Proof.
  destruct (words2gcodes (ar := binary64) (words_of "M3 G1 X1 Y2 F9 G21")) as [[gs r]|] eqn:E; [|vm_compute in E; discriminate E]. destruct (words2gcodes (ar := binary64) (words_of "G21 F9 G1 Y2 X1 M3")) as [[gs' r']|] eqn:E'; [|vm_compute in E'; discriminate E'].
  assert (R : r = []) by (vm_compute in E; congruence). assert (R' : r' = []) by (vm_compute in E'; congruence). subst r r'. exists gs, gs'. split; auto. split; auto. split.
  { apply perm_ex; [apply words_of_wf|apply words_of_wf|vm_compute; reflexivity]. }
  split; [apply clear_ex; [apply words_of_wf|vm_compute; reflexivity]|].
  split; [|intros Q; vm_compute in E, E'; congruence].
  assert (X : mk_block (ar := binary64) true (t "M3 G1 X1 Y2 F9 G21") = Ok (Block (words_of "M3 G1 X1 Y2 F9 G21") gs [])) by (vm_compute in E; injection E as <-; vm_compute; reflexivity).
  apply C23_verify in X as [_ X]. exact X.
Qed.

(** ** C78 *)
(** two gcodes read from text are equal exactly if they have the same word and the same parameters, in any order *)
Theorem C78_equal : forall (ar : Arith) (a b : gcode), gcode_wf a -> gcode_wf b -> gcode_eqb a b = true <-> same_gcode a b.
Proof. intros ar a b. apply gcode_eqb_iff. Qed.
Print Assumptions C78_equal.
(** equal gcodes print the same and do the same to any machine *)
Theorem C78_print : forall (ar : Arith) (a b : gcode), gcode_wf a -> gcode_wf b -> gcode_eqb a b = true -> gwhite a = gwhite b -> gcode_str a = gcode_str b.
Proof. intros ar a b A B E. apply (C78_equal ar) in E; auto. apply same_str; auto. apply A. Qed.
Print Assumptions C78_print.
Theorem C78_process : forall (ar : Arith) (a b : gcode) (m : machine), gcode_wf a -> gcode_wf b -> gcode_eqb a b = true -> sound m -> same_outcome (gcode_process a m) (gcode_process b m).
Proof. intros ar a b m A B E S. apply (C78_equal ar) in E; auto. apply process_sim; auto. apply same_machine_refl. Qed.
Print Assumptions C78_process.
(** equality is an equivalence *)
Theorem C78_equivalence : forall (ar : Arith) (a b c : gcode), gcode_wf a -> gcode_wf b -> gcode_wf c ->
  gcode_eqb a a = true /\ (gcode_eqb a b = true -> gcode_eqb b a = true) /\ (gcode_eqb a b = true -> gcode_eqb b c = true -> gcode_eqb a c = true).
Proof.
  intros ar a b c A B C. split; [apply (C78_equal ar); auto; apply same_gcode_refl|]. split.
  - intros E. apply (C78_equal ar) in E; auto. apply (C78_equal ar); auto. apply same_gcode_sym; auto.
  - intros E F. apply (C78_equal ar) in E, F; auto. apply (C78_equal ar); auto. eapply same_gcode_trans; eauto.
Qed.
Print Assumptions C78_equivalence.
Definition eq_text (a b : string) : bool := gcode_eqb (text_gcode a) (text_gcode b).
Example C78_ex : (eq_text "G1 X1 Y2" "g01 y2.0 x1", eq_text "G1 X1" "G1 X1 Y2", eq_text "G1 X1 Y2" "G1 X1", eq_text "G1 X1" "G1 X1.5", eq_text "G1 X1" "G0 X1", eq_text "G1 X1" "G1 Y1") = (true, false, false, false, false, false).
Proof. vm_compute. reflexivity. Qed.
