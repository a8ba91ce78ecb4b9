(** C103: a gcode made in code and printed is read back as the same command. *)
From Coq Require Import Ascii String List Bool Arith ZArith QArith Qcanon Qabs Permutation Lia.
From Verif Require Import Base Num Words GTable GCode Line Machine BaseFacts Float64 NumFacts WordsSpec PrintSpec PrintProofs PrintProofs2 WordsProofs WordsProofs2 GCodeSpec GCodeProofs GCodeProofs2 GTableProofs ModeSpec MachSpec
  PropsPrint BlockSpec BlockProofs LineProofs MachProofs MachProofs2 SimSpec SimProofs Build BuildProofs PropsMach TransSpec PropsTrans PropsMode.
Import ListNotations.
Open Scope nat_scope.

(** every way of making gcodes in code: with keywords, with a number, with a word that means the class, by assigning
    parameters, by copying *)
Inductive made {ar : Arith} : gcode -> Prop :=
| made_kw c kws g : mk_gcode_kw c kws = Ok g -> made g
| made_number c v kws g : mk_gcode_number c v kws = Ok g -> made g
| made_word c w ps g : doc_class w c -> constructed w -> Forall constructed ps -> mk_gcode c w ps = Ok g -> made g
| made_set g l v g' : made g -> gcode_setattr g l v = Ok g' -> made g'
| made_copy g g' : made g -> modal_copy g = Ok g' -> made g'.

Section Invariant.
Context {ar : Arith}.
Hypothesis acc : accurate ar.
Lemma setattr_wf g l v g' : gcode_wf g -> gwhite g = false -> gcode_setattr g l v = Ok g' -> gcode_wf g' /\ gwhite g' = false.
Proof.
  intros (L & P & WG & WP) W H. pose proof (setattr_legal _ _ _ _ L H) as L'. unfold gcode_setattr in H. destruct (accepts (gcls g) l) eqn:A; [|injection H as <-; split; auto; split; auto].
  unfold pget in H. destruct (dget letter_eqb (gparams g) l) as [w|] eqn:D.
  - destruct (coerce (wletter w) v) as [v'|] eqn:C; cbn [bind] in H; [|discriminate]. injection H as <-. split; auto. split; auto. split; auto. split; auto. cbn [gparams].
    assert (WW : word_wf (Word (wletter w) v')) by (apply (mk_word_wf (wletter w) v); unfold mk_word; rewrite C; reflexivity).
    clear -WP WW. induction (gparams g) as [|[k x] d IH]; cbn [dset]; [constructor; auto|]. inversion WP; subst. destruct (letter_eqb l k); constructor; auto.
  - destruct (mk_word l v) as [w|] eqn:M; cbn [bind] in H; [|discriminate]. unfold add_parameter in H. destruct (negb _); [discriminate|]. destruct (dmem _ _ _); [discriminate|]. injection H as <-.
    split; auto. split; auto. split; auto. split; auto. cbn [gparams].
    assert (WW : word_wf w) by (eapply mk_word_wf; eauto). generalize (wletter w). intros k0.
    clear -WP WW. induction (gparams g) as [|[k x] d IH]; cbn [dset]; [constructor; auto|]. inversion WP; subst. destruct (letter_eqb k0 k); constructor; auto.
Qed.
Lemma made_wf g : made g -> gcode_wf g /\ gwhite g = false.
Proof.
  induction 1 as [c kws g H|c v kws g H|c w ps g D C P H|g l v g' M [IH1 IH2] H|g g' M [IH1 IH2] H].
  - unfold mk_gcode_kw in H. destruct (default_word c) as [w|] eqn:D; cbn [bind] in H; [|discriminate]. destruct (kw_words kws) as [ws|] eqn:K; cbn [bind] in H; [|discriminate].
    destruct (default_word_spec acc _ _ D) as (_ & W & C). apply (mk_gcode_wf c w ws); auto. eapply kw_words_wf; eauto.
  - unfold mk_gcode_number in H. destruct (word_value_configurable c) eqn:CF; [|discriminate]. destruct (word_letter c) as [l|] eqn:L; [|discriminate].
    destruct (mk_word l v) as [w|] eqn:MW; cbn [bind] in H; [|discriminate]. destruct (kw_words kws) as [ws|] eqn:K; cbn [bind] in H; [|discriminate].
    apply (mk_gcode_wf c w ws); auto; [eapply mk_word_wf; eauto| |eapply kw_words_wf; eauto]. apply (word_class_doc acc); [eapply mk_word_wf; eauto|]. left. rewrite (mk_word_letter' _ _ _ MW).
    destruct c; try discriminate CF; injection L as <-; vm_compute; tauto.
  - apply (mk_gcode_wf c w ps); auto; [apply constructed_typed; auto| |]. { apply (word_class_doc acc); auto. apply constructed_typed; auto. }
    eapply Forall_impl; [|exact P]. intros x. apply constructed_typed.
  - eapply setattr_wf; eauto.
  - destruct IH1 as (L & P & WG & WP). unfold modal_copy in H. apply (mk_gcode_wf (gcls g) (gword g) _ g' H); auto. apply Forall_map. apply Forall_forall. intros kv I. apply filter_In in I as [I _]. rewrite Forall_forall in WP. auto.
Qed.
Lemma well_reads w : word_wf w -> prints_well w -> exists w', prints_as w w'.
Proof.
  intros WF [[S|[K P]] T].
  - exists w. split; auto. split; auto. split; auto. apply survives_reads; auto.
  - destruct w as [l v]. unfold word_wf in WF. cbn [wletter wvalue] in *. rewrite (kfloat_class l K) in WF. destruct v as [x|n|s]; try contradiction. cbn [printable wvalue] in P. destruct P as [P1 P2].
    destruct (float_prints acc l x K P1) as (s' & d & E & V1 & V2 & _ & _ & _ & I). exists (Word l (VFloat (rnd d))). split; auto. split; [|split].
    + rewrite E. apply I. destruct (Qlt_le_dec x 0) as [N|N]; auto. right. intros J. apply P2. split; auto. pose proof (rhe_err (this x * 1000)) as [R1 R2]. rewrite J in R1. change (inject_Z 0) with 0%Q in R1. Lqa.lra.
    + rewrite E. apply single_reads; auto. rewrite K; auto.
    + right. exact K.
Qed.
Lemma made_words g : made g -> Forall word_wf (words_of_gcode g).
Proof. intros M. destruct (made_wf g M) as [(_ & _ & A & B) _]. constructor; auto. apply Forall_map. auto. Qed.
Lemma read_eq_same g g' : gcode_read_as (fun w w' => w' = w) g g' -> same_gcode g g'.
Proof.
  intros (A & (_ & B & _) & ps & P & F). split; auto. split; auto. rewrite <- P. clear -F.
  assert (E : gparams g' = ps); [|rewrite E; auto]. induction F as [|[k x] [k' x'] l l' (X1 & (_ & X2 & _)) F IH]; auto. cbn in *. subst. f_equal.
Qed.
Lemma process_one g m : process_gcodes [g] [] m = gcode_process g m.
Proof. unfold process_gcodes. cbn. unfold then_step, ok_step. destruct (gcode_process g m) as [m' [[]|e]]; reflexivity. Qed.
End Invariant.

(** ** C103 *)
(** Whatever gcode is made in code from numbers and texts that can be printed: its text is one gcode of the same class
    with the same words up to the decimals printing drops, alone on its line, and prints the same again.
    Missing: words that do not print well (refuted below). *)
Theorem C103_readback_partial : forall (ar : Arith) (g : gcode), accurate ar -> made g -> Forall prints_well (words_of_gcode g) ->
  exists g', text2gcodes (gcode_str g) = Ok [g'] /\ gcode_prints_as g g' /\ gcode_str g' = gcode_str g /\
    forall bl, Forall blank bl -> exists l, mk_line (gcode_str g ++ bl) = Ok l /\ bgcodes (lblock l) = [g'] /\ bmodal (lblock l) = [] /\ lcomment l = None /\ lmacro l = None.
Proof.
  intros ar g acc M P. destruct (made_wf acc g M) as [W WH]. pose proof (made_words acc g M) as WW.
  destruct (gcode_line acc (fun w w' => word_str w' = word_str w) g W WH) as (ws & g' & T & R & _ & _ & L & E).
  - apply Forall_forall. intros w I. rewrite Forall_forall in P, WW. apply (well_reads acc); auto.
  - eapply Forall_impl; [|exact P]. intros w [_ X]. exact X.
  - exists g'. split; auto. split; auto. split; auto. intros bl B. eexists. split; [apply L; auto|]. auto.
Qed.
Print Assumptions C103_readback_partial.
(** The word a class gives its gcodes always prints well: only numbers and texts given by the user matter. *)
Theorem C103_default : forall (ar : Arith) (c : gclass) (kws : list (letter * value)) (g : gcode), accurate ar -> mk_gcode_kw c kws = Ok g ->
  prints_well (gword g) /\ gcls g = c.
Proof.
  intros ar c kws g acc H. unfold mk_gcode_kw in H. destruct (default_word c) as [w|] eqn:D; cbn [bind] in H; [|discriminate]. destruct (kw_words kws) as [ws|] eqn:K; cbn [bind] in H; [|discriminate].
  destruct (default_word_spec acc _ _ D) as ([S T] & _). apply mk_gcode_iff in H as (_ & _ & ->). split; [|reflexivity]. split; auto.
Qed.
Print Assumptions C103_default.
(** If no decimals are lost, what is read is equal, and a machine does with the text what it does with the gcode. *)
Definition lossless {ar : Arith} (g : gcode) : Prop := Forall safe_word (words_of_gcode g).
Theorem C103_exact_partial : forall (ar : Arith) (g : gcode), accurate ar -> made g -> lossless g ->
  exists g', text2gcodes (gcode_str g) = Ok [g'] /\ gcls g' = gcls g /\ gcode_eqb g g' = true /\
    forall m, sound m -> inside m -> same_outcome (process_gcodes [g] [] m) (process_str (gcode_str g) m).
Proof.
  intros ar g acc M P. destruct (made_wf acc g M) as [W WH].
  destruct (gcode_line acc (fun w w' => w' = w) g W WH) as (ws & g' & T & R & _ & W' & L & E).
  - eapply Forall_impl; [|exact P]. intros w [S _]. exists w. split; auto. split; auto. split; auto. apply survives_reads; auto.
  - eapply Forall_impl; [|exact P]. intros w [_ X]. exact X.
  - exists g'. apply read_eq_same in R. split; auto. split; [symmetry; apply R|]. split; [apply gcode_eqb_iff; auto|]. intros m S I. specialize (L [] (Forall_nil _)). rewrite app_nil_r in L.
    rewrite process_one. unfold process_str. rewrite L. unfold process_block. cbn [lblock bgcodes bmodal]. rewrite process_one. apply process_sim; auto. apply same_machine_refl.
Qed.
Print Assumptions C103_exact_partial.
(** A whole program written by printing gcodes, one per line, does what the gcodes do. *)
Theorem C103_program_partial : forall (ar : Arith) (gs : list gcode) (m : machine), accurate ar -> Forall made gs -> Forall lossless gs -> sound m -> inside m ->
  same_outcome (steps (map (fun g => process_gcodes [g] []) gs) m) (steps (map (fun g => process_str (gcode_str g ++ [newline])) gs) m).
Proof.
  intros ar gs m acc M P S I.
  assert (X : exists hs, Forall2 same_gcode gs hs /\ Forall gcode_wf gs /\ Forall2 (fun g h => forall m, process_str (gcode_str g ++ [newline]) m = gcode_process h m) gs hs).
  { clear S I m. revert P. induction M as [|g gs Mg M IH]; intros P; [exists []; repeat split; constructor|]. inversion P as [|? ? Pg P']; subst. destruct (IH P') as (hs & A & B & C).
    destruct (made_wf acc g Mg) as [W WH]. destruct (gcode_line acc (fun w w' => w' = w) g W WH) as (ws & g' & T & R & _ & W' & L & E).
    - eapply Forall_impl; [|exact Pg]. intros w [S _]. exists w. split; auto. split; auto. split; auto. apply survives_reads; auto.
    - eapply Forall_impl; [|exact Pg]. intros w [_ X]. exact X.
    - exists (g' :: hs). split; [constructor; auto; apply read_eq_same; auto|]. split; [constructor; auto|]. constructor; auto. intros m. assert (BL : Forall blank [newline]) by (repeat constructor). specialize (L [newline] BL). unfold process_str. rewrite L.
      unfold process_block. cbn [lblock bgcodes bmodal]. apply process_one. }
  destruct X as (hs & A & B & C).
  assert (E1 : forall m, steps (map (fun g => process_gcodes [g] []) gs) m = steps (map gcode_process gs) m).
  { clear. induction gs as [|g gs IH]; intros m; [reflexivity|]. cbn [map steps]. unfold then_step. rewrite process_one. destruct (gcode_process g m) as [m' [u|e]]; auto. }
  assert (E2 : forall m, steps (map (fun g => process_str (gcode_str g ++ [newline])) gs) m = steps (map gcode_process hs) m).
  { clear -C. induction C as [|g h gs hs X C IH]; intros m; [reflexivity|]. cbn [map steps]. unfold then_step. rewrite X. destruct (gcode_process h m) as [m' [u|e]]; auto. }
  rewrite E1, E2. apply steps_sim; auto. apply same_machine_refl.
Qed.
Print Assumptions C103_program_partial.
(** Classes that take a number as first argument, and what it becomes. *)
Theorem C103_number : forall (ar : Arith) (c : gclass) (n : Z) (g : gcode), mk_gcode_number c (VInt n) [] = Ok g ->
  In (c, wletter (gword g)) [(GCodeLineNumber, LN); (GCodeProgramName, LO); (GCodeFeedRate, LF); (GCodeSpindleSpeed, LS); (GCodeSelectTool, LT)] /\
  gcls g = c /\ gparams g = [] /\ coerce (wletter (gword g)) (VInt n) = Ok (wvalue (gword g)).
Proof.
  intros ar c n g H. unfold mk_gcode_number in H. destruct (word_value_configurable c) eqn:CF; [|discriminate]. destruct (word_letter c) as [l|] eqn:L; [|discriminate].
  destruct (mk_word l (VInt n)) as [w|] eqn:MW; cbn [bind kw_words] in H; [|discriminate]. apply mk_gcode_iff in H as (_ & _ & ->). cbn [built gword gcls gparams gr_word gr_class gr_params map].
  pose proof (mk_word_letter' _ _ _ MW) as WL. split; [|split; [reflexivity|split; [reflexivity|]]].
  - rewrite WL. destruct c; try discriminate CF; injection L as <-; cbn; tauto.
  - unfold mk_word in MW. rewrite WL. destruct (coerce l (VInt n)); [|discriminate]. cbn in MW. injection MW as <-. reflexivity.
Qed.
Print Assumptions C103_number.
(** These classes take every whole number, the other ones refuse any, and an assertion says so. *)
Theorem C103_refused : forall (ar : Arith) (c : gclass),
  (In c [GCodeLineNumber; GCodeProgramName; GCodeFeedRate; GCodeSpindleSpeed; GCodeSelectTool] -> forall n, exists g, mk_gcode_number c (VInt n) [] = Ok g) /\
  (~ In c [GCodeLineNumber; GCodeProgramName; GCodeFeedRate; GCodeSpindleSpeed; GCodeSelectTool] -> forall v kws, mk_gcode_number c v kws = Raise EAssertionError).
Proof.
  intros ar c. split.
  - intros I n. cbn [In] in I. decompose [or] I; subst; try contradiction; eexists; reflexivity.
  - intros H v kws. unfold mk_gcode_number. destruct (word_value_configurable c) eqn:CF; [|reflexivity]. exfalso. apply H. destruct c; try discriminate CF; cbn [In]; tauto.
Qed.
Print Assumptions C103_refused.

Definition made_here (c : gclass) (kws : list (letter * value)) (then_set : list (letter * value)) : option gcode :=
  fold_left (fun og lv => match og with Some g => match gcode_setattr (ar := binary64) g (fst lv) (snd lv) with Ok g' => Some g' | Raise _ => None end | None => None end)
    then_set (match mk_gcode_kw (ar := binary64) c kws with Ok g => Some g | Raise _ => None end).
Definition default_gcode : gcode := MkGCode GCodeRapidMove (Word LG (VFloat 0)) [] false.
Definition the_gcode (o : option gcode) : gcode := match o with Some g => g | None => default_gcode end.
Lemma made_here_made c kws sets g : made_here c kws sets = Some g -> made (ar := binary64) g.
Proof.
  unfold made_here. destruct (mk_gcode_kw c kws) as [g0|] eqn:E.
  - assert (M : made (ar := binary64) g0) by (eapply made_kw; eauto). clear E. revert g0 M. induction sets as [|[l v] r IH]; cbn [fold_left]; intros g0 M H; [congruence|]. cbn [fst snd] in H.
    destruct (gcode_setattr g0 l v) as [g1|] eqn:E; [apply (IH g1); auto; eapply made_set; eauto|]. exfalso. clear -H. induction r; cbn in H; [discriminate|auto].
  - intros H. exfalso. clear -H. induction sets; cbn in H; [discriminate|auto].
Qed.
(** Not everything that can be made can be read: numbers from 1000000 on are printed with an exponent, line numbers may be
    negative. *)
Theorem C103_refuted : exists g h, made (ar := binary64) g /\ made (ar := binary64) h /\
  to_string (gcode_str (ar := binary64) g) = "G01 X1e+07"%string /\ text2gcodes (ar := binary64) (gcode_str (ar := binary64) g) = Raise EGCodeWordStrError /\
  to_string (gcode_str (ar := binary64) h) = "N-1"%string /\ text2gcodes (ar := binary64) (gcode_str (ar := binary64) h) = Raise EGCodeWordStrError.
Proof.
  destruct (mk_gcode_kw (ar := binary64) GCodeLinearMove [(LX, VInt 10000000)]) as [g|] eqn:E; [|vm_compute in E; discriminate E].
  destruct (mk_gcode_number (ar := binary64) GCodeLineNumber (VInt (-1)) []) as [h|] eqn:F; [|vm_compute in F; discriminate F].
  exists g, h. split; [eapply made_kw; eauto|]. split; [eapply made_number; eauto|]. vm_compute in E, F. injection E as <-. injection F as <-. repeat split; vm_compute; reflexivity.
Qed.
Print Assumptions C103_refuted.
(** The constructor accepts a word that does not mean the class: then another command is read. *)
Theorem C103_word_refuted : exists g g', mk_gcode GCodeLinearMove (lit_word (ar := binary64) (LG, VInt 0)) [lit_word (ar := binary64) (LX, VInt 1)] = Ok g /\ gcls g = GCodeLinearMove /\
  text2gcodes (ar := binary64) (gcode_str (ar := binary64) g) = Ok [g'] /\ gcls g' = GCodeRapidMove.
Proof. do 2 eexists. split; [vm_compute; reflexivity|]. split; [vm_compute; reflexivity|]. split; vm_compute; reflexivity. Qed.
Print Assumptions C103_word_refuted.
Definition ex103 : list (option gcode) :=
  [ made_here GCodeUseMillimeters [] []; made_here GCodeFeedRate [] []; made_here GCodeRapidMove [(LZ, VInt 5); (LX, VFloat (rnd64 (frac 3 2)))] [];
    made_here GCodeLinearMove [(LX, VFloat (rnd64 (frac (-2125) 1000)))] [(LY, VInt 7); (LX, VStr (t "12.5"))]; made_here GCodeStraightProbe [(LZ, VInt (-1))] [];
    made_here GCodeEndProgram [] [] ].
Example C103_ex : Forall (fun o => exists g, o = Some g) ex103 /\ Forall (made (ar := binary64)) (map the_gcode ex103) /\ Forall (lossless (ar := binary64)) (map the_gcode ex103) /\
  map (fun g => to_string (gcode_str (ar := binary64) g)) (map the_gcode ex103) = ["G21"; "F0"; "G00 X1.5 Z5"; "G01 X12.5 Y7"; "G38.2 Z-1"; "M02"]%string /\
  exists m, sound (ar := binary64) m /\ inside m.
Proof.
  assert (S : Forall (fun o => exists g, o = Some g) ex103).
  { assert (B : forallb (fun o : option gcode => match o with Some _ => true | None => false end) ex103 = true) by (vm_compute; reflexivity).
    apply Forall_forall. intros o I. rewrite forallb_forall in B. specialize (B o I). destruct o as [g|]; [eauto|discriminate B]. }
  split; [exact S|].
  assert (M : Forall (made (ar := binary64)) (map the_gcode ex103)).
  { apply Forall_map. unfold ex103. repeat (apply Forall_cons || apply Forall_nil);
      match goal with |- made (the_gcode ?x) => destruct x as [g|] eqn:E; [exact (made_here_made _ _ _ _ E)|vm_compute in E; discriminate E] end. }
  split; [exact M|]. split.
  { assert (B : forallb (fun g => forallb (readable_b (ar := binary64)) (words_of_gcode g)) (map the_gcode ex103) = true) by (vm_compute; reflexivity).
    apply Forall_forall. intros g I. rewrite forallb_forall in B. specialize (B g I). rewrite Forall_forall in M. pose proof (made_words binary64_accurate g (M g I)) as W.
    apply Forall_forall. intros w J. rewrite forallb_forall in B. rewrite Forall_forall in W. exact (readable_ex (ar := binary64) w (W w J) (B w J)). }
  split; [vm_compute; reflexivity|]. destruct (from_default (fun _ => tt) tt) as (m & D & _); [reflexivity|]. destruct (new_machine_sound _ _ _ _ D) as (A & B & _). eauto.
Qed.
