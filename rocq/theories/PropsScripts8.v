(** Property C91: pygcode-norm with --rm_invalid_modal. *)
From Coq Require Import Ascii String List Bool Arith ZArith QArith Qcanon Permutation Lia.
From Verif Require Import Base Num BaseFacts Words WordsSpec WordsProofs WordOrder GTable GCode GCodeSpec GCodeProofs GCodeProofs2 Line Position Machine Transform Float64 ArithSpec ModeSpec PropsMode MachSpec MachProofs2 PropsMach2 PrintSpec PrintProofs BlockSpec PropsBlock LineProofs2 PropsMach TransSpec PropsTrans SimSpec SimProofs
  Scripts ScriptsSpec ScriptsSpec2 ScriptsSpec5 ScriptsSpec7 ScriptsProofs ScriptsProofs4 ScriptsProofs5 ScriptsProofs6 ScriptsProofs9 ScriptsProofs10 ScriptsProofs15 PropsScripts2 PropsScripts3 PropsScripts4 PropsScripts5.
Import ListNotations.
Local Open Scope nat_scope.

(** ** C91 *)
(** the script ends well exactly when every line can be read, no two of the leftover words it would keep have the same letter, and
    what is understood can be executed: words that are not understood are no reason to fail *)
Theorem C91_outcome : forall (ar : Arith) (o : options) (fuel : nat) (file : list text), tidying o ->
  (exists out, norm o fuel file = (out, Ok tt)) <-> exists m tr, new_machine xyz true (o_machine_mode o) = Ok m /\ tidy_reading m file tr.
Proof.
  intros ar o fuel file TI. split.
  - intros (out & N). apply (tidy_norm_ok o fuel file out TI) in N as (m & tr & E & R & _). eauto.
  - intros (m & tr & E & R). eexists. apply (tidy_norm_ok o fuel file _ TI). eauto.
Qed.
Print Assumptions C91_outcome.
(** the printed file: per line the same gcodes, the leftover words that are understood, the same comment and macro. A machine that
    ignores nothing accepts it and goes through the same states. Missing: [tidily], the lines that can be printed without loss *)
Theorem C91_program_partial : forall (ar : Arith) (o : options) (fuel : nat) (file : list text) (m : machine) (tr : list (line * list word * machine)), accurate ar ->
  tidying o -> new_machine xyz true (o_machine_mode o) = Ok m -> tidy_reading m file tr -> Forall (fun x => tidily (fst (fst x)) (snd (fst x))) tr ->
  exists out m' tr', norm o fuel file = (out, Ok tt) /\ new_machine xyz false (o_machine_mode o) = Ok m' /\ reading m' (printed out) tr' /\ Forall2 stands_for tr tr'.
Proof.
  intros ar o fuel file m tr acc TI E R F. destruct (new_machine_sound _ _ _ _ E) as (S & I & _). destruct (sound_ig false m S I) as [S' I'].
  destruct (tidy_back o file acc TI m (ig false m) tr S I S' I' (same_machine_refl _) R F) as (tr' & R' & ST).
  exists (map (tidy_out o) tr), (ig false m), tr'. split; [apply tidy_norm_ok; eauto|]. split; [eapply new_ig; eauto|]. split; auto. apply reading_newline; auto.
Qed.
Print Assumptions C91_program_partial.
(** a file that can be read without the option, no leftover words beside a motion command and none twice: the option changes nothing *)
Theorem C91_same : forall (ar : Arith) (o : options) (fuel : nat) (file : list text) (m : machine) (tr : list (line * machine)), tidying o ->
  new_machine xyz false (o_machine_mode o) = Ok m -> reading m file tr -> Forall (fun x => tidy_already (fst x)) tr ->
  exists out, norm (untidy o) fuel file = (out, Ok tt) /\ norm o fuel file = (out, Ok tt).
Proof.
  intros ar o fuel file m tr TI E R F. destruct (new_machine_sound _ _ _ _ E) as (S & I & _ & _ & IG & _). destruct (untidy_reading o file m tr S I IG R F TI) as (tr' & R' & EQ).
  exists (map (tidy_out o) tr'). split.
  - apply (restyle_norm_ok (untidy o) fuel file _ (untidy_restyling o TI)). exists m, tr. split; auto.
  - apply (tidy_norm_ok o fuel file _ TI). exists (ig true m), tr'. split; auto. eapply new_ig; eauto.
Qed.
Print Assumptions C91_same.

Definition tidily_b {ar : Arith} (l : line) (ps : list word) : bool :=
  forallb readable_b (bwords (lblock l)) && forallb (fun w => negb (letter_eqb (wletter w) LO)) (bwords (lblock l)) &&
  match lcomment l with Some (Comment CommentSemicolon (_ :: _)) => match lmacro l with None => true | _ => false end | _ => true end &&
  forallb (fun w => forallb (fun g => negb (accepts (gcls g) (wletter w))) (bgcodes (lblock l))) ps.
Lemma tidily_ex {ar : Arith} l ps s : mk_line s = Ok l -> tidily_b l ps = true -> tidily l ps.
Proof.
  intros L H. unfold tidily_b in H. apply andb_true_iff in H as [H H4]. apply andb_true_iff in H as [H H3]. apply andb_true_iff in H as [H1 H2]. rewrite forallb_forall in *.
  split; [|split; [|split]].
  - apply Forall_forall. intros w I. apply readable_ex; auto. eapply line_words_wf; eauto.
  - intros x C. rewrite C in H3. destruct x; auto. destruct (lmacro l); [discriminate H3|auto].
  - intros w g I J T. specialize (H4 w I). rewrite forallb_forall in H4. specialize (H4 g J). apply accepts_iff in T. rewrite T in H4. discriminate H4.
  - intros _ I. apply in_map_iff in I as (w & E & I). specialize (H2 w I). rewrite E in H2. discriminate H2.
Qed.
Fixpoint nodup_b (l : list letter) : bool := match l with [] => true | x :: r => negb (existsb (letter_eqb x) r) && nodup_b r end.
Lemma nodup_ex l : nodup_b l = true -> NoDup l.
Proof. induction l as [|x l IH]; cbn [nodup_b]; [constructor|]. intros H. apply andb_true_iff in H as [A B]. constructor; auto. intros I. assert (X : existsb (letter_eqb x) l = true) by (apply existsb_exists; exists x; split; auto; apply letter_eqb_eq; auto). rewrite X in A. discriminate A. Qed.
Fixpoint tidy_b {ar : Arith} (m : machine) (file : list text) : bool :=
  match file with
  | [] => true
  | s :: r => match mk_line s with
              | Ok l => nodup_b (map wletter (rest m l)) && tidily_b l (rest m l) && match process_gcodes (bgcodes (lblock l)) (rest m l) m with (m1, Ok _) => tidy_b m1 r | _ => false end
              | Raise _ => false
              end
  end.
Lemma tidy_ex {ar : Arith} file : forall m, tidy_b m file = true -> exists tr, tidy_reading m file tr /\ Forall (fun x => tidily (fst (fst x)) (snd (fst x))) tr.
Proof.
  induction file as [|s r IH]; intros m H; [exists []; split; constructor|]. cbn [tidy_b] in H. destruct (mk_line s) as [l|] eqn:L; [|discriminate H]. apply andb_true_iff in H as [H P]. apply andb_true_iff in H as [N T].
  destruct (process_gcodes (bgcodes (lblock l)) (rest m l) m) as [m1 [[]|]] eqn:E; [|discriminate P]. destruct (IH m1 P) as (tr & R & F). exists ((l, rest m l, m1) :: tr). split.
  - econstructor; eauto; [apply understood_rest; auto|apply nodup_ex; auto].
  - constructor; auto. cbn [fst snd]. eapply tidily_ex; eauto.
Qed.
Definition tidy_file (b : list text) : bool := match new_machine (ar := binary64) xyz true norm_machine_mode with Ok m => tidy_b (ar := binary64) m b | _ => false end.
Lemma tidy_file_ex file : tidy_file file = true -> exists m tr, new_machine (ar := binary64) xyz true norm_machine_mode = Ok m /\ tidy_reading (ar := binary64) m file tr /\ Forall (fun x => tidily (ar := binary64) (fst (fst x)) (snd (fst x))) tr.
Proof.
  unfold tidy_file. generalize (new_machine (ar := binary64) xyz true norm_machine_mode). intros [m|e] H; [|discriminate H].
  destruct (tidy_ex file m H) as (tr & R & F). exists m, tr. split; [reflexivity|]. split; [exact R|exact F].
Qed.
Definition odd_file : list text := lines ["G1 F100 X1 Y2 (a)"; "M3 X3 R5 D1 ; b"; "G0 X5 K2"; "G80"; "X7 M8"; "%m%"; "G81 X1 Z-1 R2"; "Y5 Q1"]%string.
Example C91_ex : tidying (rm_invalid (ar := binary64)) /\ (exists m tr, new_machine (ar := binary64) xyz true norm_machine_mode = Ok m /\ tidy_reading (ar := binary64) m odd_file tr /\ Forall (fun x => tidily (ar := binary64) (fst (fst x)) (snd (fst x))) tr) /\
  norm (ar := binary64) (rm_invalid (ar := binary64)) 0 odd_file = (map t ["G01 X1 Y2 F100 (a)"; "M03 X3 ; b"; "G00 X5"; "G80"; "M08"; "%m%"; "G81 R2 X1 Z-1"; "Y5"]%string, Ok tt) /\
  snd (norm (ar := binary64) (untidy (rm_invalid (ar := binary64))) 0 odd_file) = Raise EMachineInvalidState.
Proof.
  split; [repeat split|]. split; [|split; vm_compute; reflexivity].
  apply tidy_file_ex. vm_compute. reflexivity.
Qed.
Definition plain_file : list text := lines ["N10 G1 X1.5 F100 (cut)"; "X2y-3.25 M8"; ""; "G81 X1 Z-1 R2"; "X5 R3"; "G80"]%string.
Definition plain_b (l : line) : bool :=
  nodup_b (map wletter (bmodal (lblock l))) && (is_bare (bmodal (lblock l)) || forallb (fun g => match modal_group (gcls g) with Some MG_motion => false | _ => true end) (bgcodes (lblock l))).
Lemma plain_ex l : plain_b l = true -> tidy_already l.
Proof.
  intros H. apply andb_true_iff in H as [H1 H2]. split; [apply nodup_ex; auto|]. intros (g & I & G). apply orb_true_iff in H2 as [H2|H2]; [destruct (bmodal (lblock l)); [auto|discriminate H2]|].
  rewrite forallb_forall in H2. specialize (H2 g I). unfold in_group in G. rewrite G in H2. discriminate H2.
Qed.
Fixpoint plain_run {ar : Arith} (m : machine) (file : list text) : bool :=
  match file with
  | [] => true
  | s :: r => match mk_line s with Ok l => plain_b l && match process_block (lblock l) m with (m1, Ok _) => plain_run m1 r | _ => false end | Raise _ => false end
  end.
Lemma plain_run_ex {ar : Arith} file : forall m, plain_run m file = true -> exists tr, reading m file tr /\ Forall (fun x => tidy_already (fst x)) tr.
Proof.
  induction file as [|s r IH]; intros m H; [exists []; split; constructor|]. cbn [plain_run] in H. destruct (mk_line s) as [l|] eqn:L; [|discriminate H]. apply andb_true_iff in H as [N P].
  destruct (process_block (lblock l) m) as [m1 [[]|]] eqn:E; [|discriminate P]. destruct (IH m1 P) as (tr & R & F). exists ((l, m1) :: tr). split; [econstructor; eauto|]. constructor; auto. apply plain_ex; auto.
Qed.
Lemma plain_file_ex file : match new_machine (ar := binary64) xyz false norm_machine_mode with Ok m => plain_run (ar := binary64) m file | _ => false end = true ->
  exists m tr, new_machine (ar := binary64) xyz false norm_machine_mode = Ok m /\ reading (ar := binary64) m file tr /\ Forall (fun x => tidy_already (fst x)) tr.
Proof.
  generalize (new_machine (ar := binary64) xyz false norm_machine_mode). intros [m|e] H; [|discriminate H].
  destruct (plain_run_ex file m H) as (tr & R & F). exists m, tr. split; [reflexivity|]. split; [exact R|exact F].
Qed.
Example C91_same_ex : exists m tr, new_machine (ar := binary64) xyz false norm_machine_mode = Ok m /\ reading (ar := binary64) m plain_file tr /\ Forall (fun x => tidy_already (fst x)) tr.
Proof.
  apply plain_file_ex. vm_compute. reflexivity.
Qed.
(** what is understood is removed as well: coordinates ahead of the motion word of the line. Without the option the file is read and
    ends at X10, with it the X10 is gone *)
Theorem C91_ahead_refuted : exists file out md md', run_file file = Ok (md, map t ["10"; "0"; "0"]%string) /\ norm (ar := binary64) (rm_invalid (ar := binary64)) 0 file = (out, Ok tt) /\ run_file (printed out) = Ok (md', map t ["5"; "0"; "0"]%string).
Proof. exists (lines ["G1 X5 F100"; "X10 G0"]%string). do 3 eexists. split; [vm_compute; reflexivity|]. split; [vm_compute; reflexivity|]. vm_compute. reflexivity. Qed.
Print Assumptions C91_ahead_refuted.
(** a file that is read without the option (the last of two equal letters counts) makes the script fail with it *)
Theorem C91_twice_refuted : exists file out x, run_file file = Ok x /\ norm (ar := binary64) (untidy (rm_invalid (ar := binary64))) 0 file = (out, Ok tt) /\ snd (norm (ar := binary64) (rm_invalid (ar := binary64)) 0 file) = Raise EGCodeParameterError.
Proof. exists (lines ["G1 X5 F100"; "X10 X20"]%string). do 2 eexists. split; [vm_compute; reflexivity|]. split; [vm_compute; reflexivity|]. vm_compute. reflexivity. Qed.
Print Assumptions C91_twice_refuted.
(** [tidily] is needed: a coordinate kept for the motion in force is printed behind a gcode that takes it *)
Theorem C91_order_refuted : exists file out md md', run_file file = Ok (md, map t ["10"; "0"; "0"]%string) /\ norm (ar := binary64) (rm_invalid (ar := binary64)) 0 file = (out, Ok tt) /\ run_file (printed out) = Ok (md', map t ["0"; "0"; "0"]%string).
Proof. exists (lines ["X10 G10 L2 P1"]%string). do 3 eexists. split; [vm_compute; reflexivity|]. split; [vm_compute; reflexivity|]. vm_compute. reflexivity. Qed.
Print Assumptions C91_order_refuted.
