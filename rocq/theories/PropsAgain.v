(** Property C108: pygcode-norm run again on what it printed, with the same options. *)
From Coq Require Import Ascii String List Bool Arith ZArith QArith Qcanon Permutation Lia.
From Verif Require Import Base Num BaseFacts Words WordsSpec WordsProofs WordOrder GTable GTableProofs GCode GCodeSpec GCodeProofs GCodeProofs2 PropsGCode Line Position Machine Transform Float64 ArithSpec ModeSpec ModeProofs PropsMode MachSpec MachProofs MachProofs2 PrintSpec PrintProofs BlockSpec PropsBlock LineProofs2 PropsMach TransSpec TransProofs PropsTrans SimSpec SimProofs PosSpec PosProofs DrillSpec DrillProofs PropsDrill
  Scripts ScriptsSpec ScriptsSpec2 ScriptsSpec3 ScriptsSpec5 ScriptsSpec6 ScriptsProofs ScriptsProofs4 ScriptsProofs5 ScriptsProofs6 ScriptsProofs8 ScriptsProofs9 ScriptsProofs10 ScriptsProofs12 ScriptsProofs13 ScriptsProofs14 PropsScripts2 PropsScripts3 PropsScripts4 PropsScripts5 PropsScripts7
  AgainProofs AgainProofs2.
Import ListNotations.
Local Open Scope nat_scope.

(** the options that only change what is printed (--full, --rm_comments, --rm_blanks, --rm_whitespace, --rm_gcodes, in any combination):
    a second run that ends well prints the same lines; without --rm_gcodes it does end well *)
Theorem C108_restyled_partial : forall (ar : Arith) (o : options) (fuel fuel' : nat) (file out : list text) (m0 : machine) (tr : list (line * machine)), accurate ar ->
  restyling o -> new_machine xyz false (o_machine_mode o) = Ok m0 -> reading m0 file tr -> Forall (fun x => restylable o (fst x) (snd x)) (from_states m0 tr) -> norm o fuel file = (out, Ok tt) ->
  (forall out', norm o fuel' (printed out) = (out', Ok tt) -> out' = out) /\ (o_rm_gcodes o = [] -> norm o fuel' (printed out) = (out, Ok tt)).
Proof.
  intros ar o fuel fuel' file out m0 tr acc RE E R F N.
  assert (A : forall out', norm o fuel' (printed out) = (out', Ok tt) -> out' = out).
  { intros out' N'. apply (restyle_norm_ok o fuel file out RE) in N as (m & tr0 & E0 & R0 & ->). assert (m = m0) as -> by congruence. assert (tr0 = tr) as -> by (eapply reading_fun; eauto).
    apply (restyle_norm_ok o fuel' _ out' RE) in N' as (m & tr' & E1 & R1 & ->). assert (m = m0) as -> by congruence. apply (proj1 (reading_newline _ _ _)) in R1. destruct (new_machine_sound _ _ _ _ E) as (S & I & _ & _ & G & _). exact (again_file o file acc m0 m0 tr tr' S I G R F R1). }
  split; auto. intros RG. destruct (restyle_program o fuel file m0 tr acc RE RG E R F) as (out1 & tr' & N1 & R' & _). assert (out1 = out) as -> by congruence.
  assert (N2 : exists out2, norm o fuel' (printed out) = (out2, Ok tt)) by (eexists; apply restyle_norm_ok; eauto). destruct N2 as (out2 & N2). rewrite N2. f_equal. auto.
Qed.
Print Assumptions C108_restyled_partial.
(** with --rm_gcodes the second run may stop: words left over from a command that was removed belong to no command any more *)
Theorem C108_removed_refuted : exists file out out', norm (ar := binary64) (removing (ar := binary64) false false false (the_words "G81")) 0 file = (out, Ok tt) /\ norm (ar := binary64) (removing (ar := binary64) false false false (the_words "G81")) 0 (printed out) = (out', Raise EMachineInvalidState).
Proof. exists (lines ["G81 X1 Y1 Z-1 R2"; "L2"]%string). do 2 eexists. split; [vm_compute; reflexivity|]. vm_compute. reflexivity. Qed.
Print Assumptions C108_removed_refuted.
(** --singles *)
Theorem C108_singles_partial : forall (ar : Arith) (fuel fuel' : nat) (file out : list text) (m : machine) (tr : list (line * machine)), accurate ar ->
  new_machine xyz false norm_machine_mode = Ok m -> reading m file tr -> Forall (fun x => faithful (fst x) /\ splits (fst x)) tr -> norm singles fuel file = (out, Ok tt) ->
  norm singles fuel' (printed out) = (out, Ok tt).
Proof.
  intros ar fuel fuel' file out m tr acc E R F N. destruct (C73_program_partial ar fuel file out m tr acc E R F N) as (parts & R' & _). apply (C73_printed ar fuel file out m E) in N as (tr0 & R0 & ->). assert (tr0 = tr) as -> by (eapply reading_fun; eauto).
  apply (C73_printed ar fuel' _ _ m E). exists (concat parts). split; auto. apply (proj1 (reading_newline _ _ _)) in R'. symmetry. eapply singles_file; eauto.
Qed.
Print Assumptions C108_singles_partial.
(** --canned_expand and --arc_linearize leave a program alone that has nothing to replace: they print what the script prints without options,
    whatever the precision, the method, the codes named and the rounding *)
Theorem C108_untouched : forall (ar : Arith) (o : options) (fuel : nat) (file : list text) (m0 : machine) (tr : list (line * machine)), expanding o ->
  new_machine xyz false (o_machine_mode o) = Ok m0 -> (forall mo, gm_get (m_mode m0) MG_motion = Some mo -> ~ swapped o mo) -> reading m0 file tr ->
  (forall x g, In x tr -> In g (bgcodes (lblock (fst x))) -> ~ swapped o g) ->
  norm o fuel file = (map (fun x => line_str (fst x)) tr, Ok tt) /\ (o_machine_mode o = norm_machine_mode -> forall fuel', norm no_options fuel' file = norm o fuel file).
Proof.
  intros ar o fuel file m0 tr X E MO R F. assert (N : norm o fuel file = (map (fun x => line_str (fst x)) tr, Ok tt)).
  { destruct (new_machine_sound _ _ _ _ E) as (S & I & _). pose proof (untouched_loop o fuel file X m0 tr S I MO R) as N. destruct X as (_ & _ & X3 & X4 & X5 & X6 & _). unfold norm. rewrite X3, E. cbn [pure pbind app]. rewrite N; [|apply Forall_forall; intros x Ix; apply Forall_forall; intros g Ig; eapply F; eauto].
    cbn [pbind]. unfold norm_final. rewrite X4, X5, X6. cbn. rewrite app_nil_r. reflexivity. }
  split; auto. intros EM fuel'. rewrite EM in E. rewrite N. apply (C72_printed ar fuel' file _ m0 E). exists tr. auto.
Qed.
Print Assumptions C108_untouched.
(** so on a program that was expanded once, a second run replaces nothing: it ends well with any number of steps allowed, and what it
    prints are the lines the first run printed, as they are read (words left out because they are in force are not indented any more) *)
Theorem C108_expanded_partial : forall (ar : Arith) (o : options) (fuel : nat) (file : list text) (m0 : machine) (tr : list (line * machine)), accurate ar -> expanding o ->
  new_machine xyz false (o_machine_mode o) = Ok m0 -> (forall mo, gm_get (m_mode m0) MG_motion = Some mo -> ~ swapped o mo) -> reading m0 file tr -> Forall (fun x => tractable o fuel (fst x) (snd x)) (from_states m0 tr) ->
  exists out tr', norm o fuel file = (out, Ok tt) /\ reading m0 (printed out) tr' /\ forall fuel', norm o fuel' (printed out) = (map (fun x => line_str (fst x)) tr', Ok tt).
Proof.
  intros ar o fuel file m0 tr acc X E MO R F. destruct (C90_outcome_partial ar o fuel file m0 tr acc X E R F) as (out & tr' & N & R' & _ & NS). exists out, tr'. split; auto. split; auto. intros fuel'. apply (C108_untouched ar o fuel' (printed out) m0 tr'); auto.
Qed.
Print Assumptions C108_expanded_partial.
(** ** cases *)
Example C108_restyled_ex : exists m tr, new_machine (ar := binary64) xyz false norm_machine_mode = Ok m /\ reading (ar := binary64) m full_file tr /\ Forall (fun x => restylable (ar := binary64) (full (ar := binary64)) (fst x) (snd x)) (from_states m tr) /\
  restyling (full (ar := binary64)) /\ norm (ar := binary64) (full (ar := binary64)) 0 full_file = (full_out, Ok tt) /\ norm (ar := binary64) (full (ar := binary64)) 7 (printed full_out) = (full_out, Ok tt).
Proof.
  destruct (all_restylable (full (ar := binary64)) full_file) as (m & tr & E & R & F); [vm_compute; reflexivity|]. exists m, tr. split; [exact E|]. split; [exact R|]. split; [exact F|]. split; [repeat split|]. split; vm_compute; reflexivity.
Qed.
Example C108_singles_ex : exists m tr, new_machine (ar := binary64) xyz false norm_machine_mode = Ok m /\ reading (ar := binary64) m ex_file2 tr /\ Forall (fun x => faithful (ar := binary64) (fst x) /\ splits (fst x)) tr /\
  norm (ar := binary64) (singles (ar := binary64)) 0 ex_file2 = (ex_out2, Ok tt) /\ norm (ar := binary64) (singles (ar := binary64)) 0 (printed ex_out2) = (ex_out2, Ok tt).
Proof. destruct C73_ex as (m & tr & E & R & F & N). exists m, tr. split; [exact E|]. split; [exact R|]. split; [exact F|]. split; [exact N|]. vm_compute. reflexivity. Qed.
(** the motion mode that the script's machine starts in *)
Lemma starts_plain {ar : Arith} o m0 : expanding o -> new_machine xyz false norm_machine_mode = Ok m0 -> match gm_get (m_mode m0) MG_motion with Some g => negb (swapped_b o g) | None => true end = true -> o_linearize o = None ->
  forall mo, gm_get (m_mode m0) MG_motion = Some mo -> ~ swapped o mo.
Proof. intros X E B LN mo G SW. rewrite G in B. apply swapped_ex in SW; auto. rewrite SW in B. discriminate B. Qed.
Example C108_expanded_ex : let o := expand_all (ar := exact_arith) in expanding (ar := exact_arith) o /\ exists m tr, new_machine (ar := exact_arith) xyz false (o_machine_mode o) = Ok m /\ (forall mo, gm_get (m_mode m) MG_motion = Some mo -> ~ swapped o mo) /\ reading (ar := exact_arith) m drill_file tr /\
  Forall (fun x => tractable (ar := exact_arith) o 100 (fst x) (snd x)) (from_states m tr) /\ norm (ar := exact_arith) o 100 drill_file = (drill_out, Ok tt) /\
  norm (ar := exact_arith) o 0 (printed drill_out) = (map (fun s => match s with (" " :: " " :: " " :: " " :: r)%char => r | _ => s end) drill_out, Ok tt).
Proof.
  intros o. destruct C90_ex as (X & m & tr & E & _ & R & _ & T & N). split; [exact X|]. exists m, tr. split; [exact E|]. split; [|split; [exact R|split; [exact T|split; [exact N|vm_compute; reflexivity]]]].
  apply (starts_plain o m X E); [|reflexivity]. revert E. clear. set (f := fun m => match gm_get (m_mode m) MG_motion with Some g => negb (swapped_b o g) | None => true end). change (new_machine (ar := exact_arith) xyz false (o_machine_mode o) = Ok m -> f m = true).
  intros E. assert (Q : rmap f (new_machine (ar := exact_arith) xyz false (o_machine_mode o)) = Ok true) by (vm_compute; reflexivity). rewrite E in Q. cbn [rmap] in Q. congruence.
Qed.
