(** Properties C72, C73: pygcode-norm without options and with --singles. *)
From Coq Require Import Ascii String List Bool Arith ZArith QArith Qcanon Permutation Lia.
From Verif Require Import Base Num BaseFacts Words WordsSpec GTable GCode GCodeSpec Line Position Machine Transform Float64 ArithSpec ModeSpec PropsMode MachSpec MachProofs2 PrintSpec BlockSpec PropsBlock PropsMach SimSpec SimProofs Scripts ScriptsSpec ScriptsSpec2 ScriptsProofs ScriptsProofs4 ScriptsProofs5.
Import ListNotations.
Local Open Scope nat_scope.

(** ** C72: without options *)
(** the script ends well exactly when every line can be read and executed; it prints each line as [str(line)] *)
Theorem C72_printed : forall (ar : Arith) (fuel : nat) (file out : list text) (m : machine), new_machine xyz false norm_machine_mode = Ok m ->
  norm no_options fuel file = (out, Ok tt) <-> exists tr, reading m file tr /\ out = map (fun x => line_str (fst x)) tr.
Proof.
  intros ar fuel file out m E. unfold norm. cbn [o_rm_invalid_modal o_machine_mode no_options]. rewrite E, pbind_pure. split.
  - intros (m0 & X & H). injection X as <-. apply pbind_ok in H as (o1 & m1 & o2 & L & FI & ->). apply norm_loop_ok in L as (tr & R & -> & _).
    assert (o2 = []) as -> by (cbn in FI; unfold ret in FI; injection FI as <-; auto). exists tr. rewrite app_nil_r. auto.
  - intros (tr & R & ->). exists m. split; auto. apply pbind_ok. exists (map (fun x => line_str (fst x)) tr), (after m tr), []. split; [apply norm_loop_ok; eauto|]. rewrite app_nil_r. split; auto.
Qed.
Print Assumptions C72_printed.
(** the printed file has, line by line, the same gcodes, leftover words, comment and macro, and puts the machine in the same states;
    what is missing: lines that do not print faithfully ([faithful]; refuted below) *)
Theorem C72_program_partial : forall (ar : Arith) (fuel : nat) (file out : list text) (m : machine) (tr : list (line * machine)), accurate ar ->
  new_machine xyz false norm_machine_mode = Ok m -> reading m file tr -> Forall (fun x => faithful (fst x)) tr -> norm no_options fuel file = (out, Ok tt) ->
  exists tr', reading m (printed out) tr' /\ same_reading tr tr'.
Proof.
  intros ar fuel file out m tr acc E R F H. apply (C72_printed ar fuel file out m E) in H as (tr0 & R0 & ->). assert (tr0 = tr) as -> by (eapply reading_fun; eauto).
  destruct (new_machine_sound _ _ _ _ E) as (S & I & _). destruct (reading_back file acc m m tr S I S I (same_machine_refl m) R F) as (tr' & R' & SR & _). exists tr'. split; auto. apply reading_newline; auto.
Qed.
Print Assumptions C72_program_partial.
(** and running the script on its own output changes nothing more *)
Theorem C72_again_partial : forall (ar : Arith) (fuel fuel' : nat) (file out : list text) (m : machine) (tr : list (line * machine)), accurate ar ->
  new_machine xyz false norm_machine_mode = Ok m -> reading m file tr -> Forall (fun x => faithful (fst x)) tr -> norm no_options fuel file = (out, Ok tt) ->
  norm no_options fuel' (printed out) = (out, Ok tt).
Proof.
  intros ar fuel fuel' file out m tr acc E R F H. apply (C72_printed ar fuel file out m E) in H as (tr0 & R0 & ->). assert (tr0 = tr) as -> by (eapply reading_fun; eauto).
  destruct (new_machine_sound _ _ _ _ E) as (S & I & _). destruct (reading_back file acc m m tr S I S I (same_machine_refl m) R F) as (tr' & R' & SR & EQ). apply (C72_printed ar fuel' _ _ m E). exists tr'. split; auto. apply reading_newline; auto.
Qed.
Print Assumptions C72_again_partial.
(** running a file on the machine of the script: how it ends, the final mode and position *)
Definition run_file (file : list text) : result (text * list text) :=
  match new_machine (ar := binary64) xyz false norm_machine_mode with
  | Ok m => match steps (map (process_str (ar := binary64)) file) m with (m', Ok _) => Ok (mode_text m', pos_text m') | (_, Raise e) => Raise e end
  | Raise e => Raise e
  end.
Lemma reading_steps {ar : Arith} file : forall m tr, reading m file tr -> steps (map process_str file) m = (after m tr, Ok tt).
Proof.
  induction file as [|s r IH]; intros m tr R; [apply reading_empty in R; subst; reflexivity|]. apply reading_step in R as (l & m1 & tr' & L & P & R & <-).
  cbn [map steps]. unfold then_step, process_str at 1. rewrite L, P. rewrite after_cons. apply IH; auto.
Qed.
Definition lines (l : list string) : list text := printed (map t l).
(** 'X10 G0' cuts (in G1 mode) to X10; printed as 'G00 X10' it is a rapid move *)
Theorem C72_order_refuted : exists file out md md' pos, norm (ar := binary64) (no_options (ar := binary64)) 0 file = (out, Ok tt) /\
  run_file file = Ok (md, pos) /\ run_file (printed out) = Ok (md', pos) /\ firstn 3 md = t "G01" /\ firstn 3 md' = t "G00".
Proof. exists (lines ["G1 F100"; "X10 G0"]%string). do 4 eexists. split; [vm_compute; reflexivity|]. split; [vm_compute; reflexivity|]. split; [vm_compute; reflexivity|]. split; vm_compute; reflexivity. Qed.
Print Assumptions C72_order_refuted.
(** numbers are printed with at most three decimals, and large ones in a notation that is not readable *)
Theorem C72_numbers_refuted : exists file out md pos pos', norm (ar := binary64) (no_options (ar := binary64)) 0 file = (out, Ok tt) /\
  run_file file = Ok (md, pos) /\ run_file (printed out) = Ok (md, pos') /\ pos = map t ["0.0004"; "0"; "0"]%string /\ pos' = map t ["0"; "0"; "0"]%string.
Proof. exists (lines ["G1 F100"; "X0.0004"]%string). do 4 eexists. split; [vm_compute; reflexivity|]. split; [vm_compute; reflexivity|]. split; [vm_compute; reflexivity|]. split; vm_compute; reflexivity. Qed.
Print Assumptions C72_numbers_refuted.
Theorem C72_unreadable_refuted : exists file out x, norm (ar := binary64) (no_options (ar := binary64)) 0 file = (out, Ok tt) /\ run_file file = Ok x /\ run_file (printed out) = Raise EGCodeWordStrError.
Proof. exists (lines ["G1 F100"; "X1234567"]%string). do 2 eexists. split; [vm_compute; reflexivity|]. split; vm_compute; reflexivity. Qed.
Print Assumptions C72_unreadable_refuted.
(** an example *)
Ltac read_line L := vm_compute in L; injection L as <-.
Ltac faithful_line := split; [safe_words|split; [safe_block|intros ? X; vm_compute in X; first [discriminate X|left; reflexivity]]].
Definition ex_file : list text := lines ["n1 g1 x1.5 f100 m3 s200 (cut)"; "X2y-3.25"; ""; "%macro%"; "G2 X0 Y0 I-1 J1 ; back"]%string.
Lemma norm_reading {ar : Arith} o out file : norm no_options o file = (out, Ok tt) -> exists m tr, new_machine xyz false norm_machine_mode = Ok m /\ reading m file tr.
Proof.
  intros N. destruct (new_machine xyz false norm_machine_mode) as [m|e] eqn:E.
  - destruct (proj1 (C72_printed ar o file out m E) N) as (tr & R & _). exists m, tr. auto.
  - unfold norm in N. cbn [o_rm_invalid_modal o_machine_mode no_options] in N. rewrite E in N. discriminate N.
Qed.
Example C72_ex : exists m tr, new_machine (ar := binary64) xyz false norm_machine_mode = Ok m /\ reading (ar := binary64) m ex_file tr /\ Forall (fun x => faithful (ar := binary64) (fst x)) tr /\
  norm (ar := binary64) (no_options (ar := binary64)) 0 ex_file = (map t ["N1 G01 X1.5 F100 M03 S200 (cut)"; "X2 Y-3.25"; ""; "%macro%"; "G02 I-1 J1 X0 Y0 ; back"], Ok tt)%string.
Proof.
  assert (N : norm (ar := binary64) (no_options (ar := binary64)) 0 ex_file = (map t ["N1 G01 X1.5 F100 M03 S200 (cut)"; "X2 Y-3.25"; ""; "%macro%"; "G02 I-1 J1 X0 Y0 ; back"], Ok tt)%string) by (vm_compute; reflexivity).
  destruct (norm_reading _ _ _ N) as (m & tr & E & R). exists m, tr. split; [exact E|]. split; [exact R|]. split; [|exact N]. clear N E. unfold ex_file, lines, printed in R. cbn [map] in R.
  repeat (apply reading_step in R as (l & ? & ? & L & _ & R & <-); read_line L; constructor; [cbn [fst]; faithful_line|]). apply reading_empty in R. subst. constructor.
Qed.

(** ** C73: --singles *)
(** every line that can be split is printed as lines of one gcode each, with the same effect; what is missing: leftover words and
    the macro of a line of several gcodes (both are dropped, refuted below), and unfaithful lines (C72) *)
Theorem C73_program_partial : forall (ar : Arith) (fuel : nat) (file out : list text) (m : machine) (tr : list (line * machine)), accurate ar ->
  new_machine xyz false norm_machine_mode = Ok m -> reading m file tr -> Forall (fun x => faithful (fst x) /\ splits (fst x)) tr -> norm singles fuel file = (out, Ok tt) ->
  exists parts, reading m (printed out) (concat parts) /\ Forall2 singled tr parts.
Proof.
  intros ar fuel file out m tr acc E R F H. unfold norm in H. cbn [o_rm_invalid_modal o_machine_mode singles] in H. rewrite E in H. apply pbind_pure in H as (m0 & X & H). injection X as <-.
  apply pbind_ok in H as (o1 & m1 & o2 & L & FI & ->). apply singles_loop_ok in L as (tr0 & R0 & -> & _). assert (o2 = []) as -> by (cbn in FI; unfold ret in FI; injection FI as <-; auto). rewrite app_nil_r.
  assert (tr0 = tr) as -> by (eapply reading_fun; eauto). destruct (new_machine_sound _ _ _ _ E) as (S & I & _). destruct (singles_back file acc m m tr S I S I (same_machine_refl m) R F) as (parts & R' & SG). exists parts. split; auto. apply reading_newline; auto.
Qed.
Print Assumptions C73_program_partial.
(** what is printed in every case, and that the script goes through whenever the program does *)
Theorem C73_printed : forall (ar : Arith) (fuel : nat) (file out : list text) (m : machine), new_machine xyz false norm_machine_mode = Ok m ->
  norm singles fuel file = (out, Ok tt) <-> exists tr, reading m file tr /\ out = flat_map (fun x => single_lines (fst x)) tr.
Proof.
  intros ar fuel file out m E. unfold norm. cbn [o_rm_invalid_modal o_machine_mode singles]. rewrite E, pbind_pure. split.
  - intros (m0 & X & H). injection X as <-. apply pbind_ok in H as (o1 & m1 & o2 & L & FI & ->). apply singles_loop_ok in L as (tr & R & -> & _).
    assert (o2 = []) as -> by (cbn in FI; unfold ret in FI; injection FI as <-; auto). exists tr. rewrite app_nil_r. auto.
  - intros (tr & R & ->). exists m. split; auto. apply pbind_ok. exists (flat_map (fun x => single_lines (fst x)) tr), (after m tr), []. split; [apply singles_loop_ok; eauto|]. rewrite app_nil_r. split; auto.
Qed.
Print Assumptions C73_printed.
(** the words that go with the motion mode are lost when the line has two gcodes *)
Theorem C73_refuted : exists file out md pos pos', norm (ar := binary64) (singles (ar := binary64)) 0 file = (out, Ok tt) /\
  run_file file = Ok (md, pos) /\ run_file (printed out) = Ok (md, pos') /\ pos = map t ["5"; "0"; "0"]%string /\ pos' = map t ["0"; "0"; "0"]%string.
Proof. exists (lines ["G90 F100 X5"]%string). do 4 eexists. split; [vm_compute; reflexivity|]. split; [vm_compute; reflexivity|]. split; [vm_compute; reflexivity|]. split; vm_compute; reflexivity. Qed.
Print Assumptions C73_refuted.
(** and so is the macro *)
Theorem C73_macro_refuted : exists file out, norm (ar := binary64) (singles (ar := binary64)) 0 file = (out, Ok tt) /\ (exists s, In s file /\ In "%"%char s) /\ forall s, In s out -> ~ In "%"%char s.
Proof.
  exists (lines ["G90 F100 %macro%"]%string). eexists. split; [vm_compute; reflexivity|]. split.
  - eexists. split; [left; reflexivity|]. vm_compute. tauto.
  - intros s [<-|[<-|[]]] H; vm_compute in H; intuition discriminate.
Qed.
Print Assumptions C73_macro_refuted.
Definition ex_file2 : list text := lines ["g1 x1.5 f100 m3 s200 (cut)"; "X2y-3.25"; "G2 X0 Y0 I-1 J1 ; back"]%string.
Definition ex_out2 : list text := map t ["F100 (cut)"; "S200 (cut)"; "M03 (cut)"; "G01 X1.5 (cut)"; "X2 Y-3.25"; "G02 I-1 J1 X0 Y0 ; back"]%string.
Example C73_ex : exists m tr, new_machine (ar := binary64) xyz false norm_machine_mode = Ok m /\ reading (ar := binary64) m ex_file2 tr /\ Forall (fun x => faithful (ar := binary64) (fst x) /\ splits (fst x)) tr /\
  norm (ar := binary64) (singles (ar := binary64)) 0 ex_file2 = (ex_out2, Ok tt).
Proof.
  assert (N : norm (ar := binary64) (singles (ar := binary64)) 0 ex_file2 = (ex_out2, Ok tt)) by (vm_compute; reflexivity).
  assert (N' : exists o, norm (ar := binary64) (no_options (ar := binary64)) 0 ex_file2 = (o, Ok tt)) by (eexists; vm_compute; reflexivity). destruct N' as (o & N').
  destruct (norm_reading _ _ _ N') as (m & tr & E & R). exists m, tr. split; [exact E|]. split; [exact R|]. split; [|exact N]. clear N N' E. unfold ex_file2, lines, printed in R. cbn [map] in R.
  repeat (apply reading_step in R as (l & ? & ? & L & _ & R & <-); read_line L; constructor; [cbn [fst]; split; [faithful_line|intros X; vm_compute in X; first [split; reflexivity|lia]]|]). apply reading_empty in R. subst. constructor.
Qed.
