(** Properties C85, C86, C87: pygcode-norm with --full and with the options that remove content. *)
From Coq Require Import Ascii String List Bool Arith ZArith QArith Qcanon Permutation Lia.
From Verif Require Import Base Num BaseFacts Words WordsSpec WordsProofs WordOrder GTable GCode GCodeSpec GCodeProofs GCodeProofs2 Line Position Machine Transform Float64 ArithSpec ModeSpec PropsMode MachSpec MachProofs2 PrintSpec PrintProofs BlockSpec PropsBlock LineProofs2 PropsMach TransSpec PropsTrans SimSpec SimProofs
  Scripts ScriptsSpec ScriptsSpec2 ScriptsSpec5 ScriptsProofs ScriptsProofs4 ScriptsProofs5 ScriptsProofs6 ScriptsProofs9 ScriptsProofs10 PropsScripts2 PropsScripts3 PropsScripts4.
Import ListNotations.
Local Open Scope nat_scope.

(** ** C85: --full *)
(** with these options (any combination) the script ends well exactly when every line can be read and executed *)
Theorem C85_ends : forall (ar : Arith) (o : options) (fuel : nat) (file : list text), restyling o ->
  (exists out, norm o fuel file = (out, Ok tt)) <-> exists m tr, new_machine xyz false (o_machine_mode o) = Ok m /\ reading m file tr.
Proof.
  intros ar o fuel file RE. split.
  - intros (out & N). apply (restyle_norm_ok o fuel file out RE) in N as (m & tr & E & R & _). eauto.
  - intros (m & tr & E & R). eexists. apply (restyle_norm_ok o fuel file _ RE). eauto.
Qed.
Print Assumptions C85_ends.
Lemma restyle_program {ar : Arith} o fuel file m0 tr : accurate ar -> restyling o -> o_rm_gcodes o = [] -> new_machine xyz false (o_machine_mode o) = Ok m0 -> reading m0 file tr ->
  Forall (fun x => restylable o (fst x) (snd x)) (from_states m0 tr) ->
  exists out tr', norm o fuel file = (out, Ok tt) /\ reading m0 (printed out) tr' /\ becomes_run o m0 tr tr'.
Proof.
  intros acc RE RG E R F. destruct (new_machine_sound _ _ _ _ E) as (S & I & _ & X & IG & _).
  destruct (restyle_back o file acc RG m0 m0 tr S I IG S I (same_machine_refl m0) R F) as (tr' & R' & B).
  exists (flat_map (fun x => line_out o (fst x) (snd x)) (from_states m0 tr)), tr'. split; [apply restyle_norm_ok; eauto|]. split; auto. apply reading_newline; auto.
Qed.
Lemma alone {ar : Arith} l s : mk_line s = Ok l -> bmodal (lblock l) = [] -> stands_alone l.
Proof.
  intros L B a b a1 SA SB (M & C) P. destruct (mk_line_block _ _ L) as (bs & MB). destruct (mk_block_wf _ _ _ MB) as [WF _].
  unfold process_block, process_gcodes in *. rewrite B in *. cbn [machine_modal_gcode] in *. rewrite app_nil_r in *.
  destruct (steps_near (sort_gcodes (bgcodes (lblock l))) (sort_wf _ WF) false a b a1 SA SB) as (b1 & P1 & (N1 & N2) & _); auto; [split; auto; intros mg [H|H]; [auto|discriminate]|].
  exists b1. split; auto. split; auto.
Qed.
Lemma reading_lines {ar : Arith} file : forall m tr, reading m file tr -> Forall (fun x => exists s, mk_line s = Ok (fst x)) tr.
Proof. induction file as [|s r IH]; intros m tr R; [apply reading_empty in R; subst; constructor|]. apply reading_step in R as (l & m1 & tr1 & L & _ & R & <-). constructor; eauto. Qed.
Lemma becomes_bare {ar : Arith} o m tr tr' : o_full o = true -> becomes_run o m tr tr' -> Forall (fun x => bmodal (lblock (fst x)) = []) tr'.
Proof. intros FU. unfold becomes_run. induction 1 as [|m l m1 tr y ys RS _ _ _ IH|]; auto. constructor; auto. destruct RS as (gs & gs' & _ & _ & _ & B & _). rewrite FU in B. auto. Qed.
(** the printed file: per line, in the order of execution, the gcodes of the line, the leftover words put with the motion command in
    force; same comments and macros, same states of the machine; no leftover words, each line by itself whatever the motion mode.
    Together with --rm_comments, --rm_blanks, --rm_whitespace as these say. Missing: [restylable], refuted below otherwise *)
Theorem C85_program_partial : forall (ar : Arith) (o : options) (fuel : nat) (file : list text) (m0 : machine) (tr : list (line * machine)), accurate ar ->
  restyling o -> o_full o = true -> o_rm_gcodes o = [] -> new_machine xyz false (o_machine_mode o) = Ok m0 -> reading m0 file tr -> Forall (fun x => restylable o (fst x) (snd x)) (from_states m0 tr) ->
  exists out tr', norm o fuel file = (out, Ok tt) /\ reading m0 (printed out) tr' /\ becomes_run o m0 tr tr' /\ Forall (fun x => bmodal (lblock (fst x)) = [] /\ stands_alone (fst x)) tr'.
Proof.
  intros ar o fuel file m0 tr acc RE FU RG E R F. destruct (restyle_program o fuel file m0 tr acc RE RG E R F) as (out & tr' & N & R' & B). exists out, tr'. split; auto. split; auto. split; auto.
  pose proof (becomes_bare o m0 tr tr' FU B) as BB. pose proof (reading_lines _ _ _ R') as RL. rewrite Forall_forall in *. intros x I. split; auto. destruct (RL x I) as (s & L). eapply alone; eauto.
Qed.
Print Assumptions C85_program_partial.
(** ** C86: --rm_comments, --rm_blanks, --rm_whitespace *)
(** what the file says, the comments aside, is unchanged *)
Theorem C86_program_partial : forall (ar : Arith) (o : options) (fuel : nat) (file : list text) (m0 : machine) (tr : list (line * machine)), accurate ar ->
  restyling o -> o_full o = false -> o_rm_gcodes o = [] -> new_machine xyz false (o_machine_mode o) = Ok m0 -> reading m0 file tr -> Forall (fun x => restylable o (fst x) (snd x)) (from_states m0 tr) ->
  exists out tr', norm o fuel file = (out, Ok tt) /\ reading m0 (printed out) tr' /\ becomes_run o m0 tr tr' /\
    (o_rm_comments o = true -> Forall (fun x => lcomment (fst x) = None) tr') /\ (o_rm_blanks o = true -> Forall (fun x => ~ empty_line (fst x)) tr') /\ (o_rm_blanks o = false -> length tr' = length file).
Proof.
  intros ar o fuel file m0 tr acc RE FU RG E R F. destruct (restyle_program o fuel file m0 tr acc RE RG E R F) as (out & tr' & N & R' & B). exists out, tr'. split; auto. split; auto. split; auto.
  rewrite (reading_length _ _ _ R). clear -B. unfold becomes_run in B. split; [|split].
  - intros K. induction B as [|m l m1 tr y ys RS _ _ _ IH|]; auto. constructor; auto. destruct RS as (gs & gs' & _ & _ & _ & _ & C & _). rewrite K in C. auto.
  - intros K. induction B as [|m l m1 tr y ys RS NE _ _ IH|]; auto.
  - intros K. induction B as [|m l m1 tr y ys RS NE _ _ IH|? ? ? ? ? ? X]; auto; [cbn [length]; congruence|congruence].
Qed.
Print Assumptions C86_program_partial.
(** with --rm_whitespace a printed line is text without blanks, then comment and macro of a line of the file with a space before each *)
Theorem C86_whitespace : forall (ar : Arith) (o : options) (fuel : nat) (file out : list text), restyling o -> o_rm_whitespace o = true -> norm o fuel file = (out, Ok tt) ->
  Forall (fun s => exists x l code, In x file /\ mk_line x = Ok l /\ Forall (fun c => ~ blank c) code /\
    s = join [space] (filter (fun y => negb (text_eqb y [])) [code; match lcomment l with Some c => if o_rm_comments o then [] else comment_str c | None => [] end; match lmacro l with Some y => y | None => [] end])) out.
Proof.
  intros ar o fuel file out RE W N. apply (restyle_norm_ok o fuel file out RE) in N as (m & tr & _ & R & ->). revert m tr R. induction file as [|s r IH]; intros m tr R; [apply reading_empty in R; subst; constructor|].
  apply reading_step in R as (l & m1 & tr1 & L & _ & R & <-). cbn [from_states flat_map fst snd]. apply Forall_app. split.
  - unfold line_out. destruct (block_modal_gcodes m (lblock l)) as [gs|]; [|constructor].
    assert (Q : forall gs ps, Forall (fun z => exists x l code, In x (s :: r) /\ mk_line x = Ok l /\ Forall (fun c => ~ blank c) code /\
      z = join [space] (filter (fun y => negb (text_eqb y [])) [code; match lcomment l with Some c => if o_rm_comments o then [] else comment_str c | None => [] end; match lmacro l with Some y => y | None => [] end])) (shown o (styled o gs ps (lcomment l) (lmacro l)))).
    { clear gs. intros gs ps. assert (P : forall z, In z (shown o (styled o gs ps (lcomment l) (lmacro l))) -> z = styled o gs ps (lcomment l) (lmacro l)).
      { intros z. unfold shown. destruct (styled _ _ _ _ _), (o_rm_blanks o); intros [<-|[]] || intros []; auto. }
      apply Forall_forall. intros z I. apply P in I. subst z. exists s, l. unfold styled. rewrite W. set (code := squeeze true _). exists code. split; [left; auto|]. split; auto. split.
      - unfold code, squeeze. apply Forall_forall. intros c I. apply filter_In in I as [_ I]. unfold blank. intros H. rewrite H in I. discriminate I.
      - unfold line_text. clearbody code. f_equal. destruct code, (lcomment l) as [[[] ?]|], (o_rm_comments o), (lmacro l) as [[|]|]; reflexivity. }
    destruct (o_full o); apply Q.
  - eapply Forall_impl; [|apply (IH _ _ R)]. intros z (x & l0 & code & I & H). exists x, l0, code. split; [right; auto|auto].
Qed.
Print Assumptions C86_whitespace.
(** ** C87: --rm_gcodes *)
(** per line exactly the named gcodes, with their parameters, are gone; leftover words stay (with --full they go with their command) *)
Theorem C87_lines_partial : forall (ar : Arith) (o : options) (fuel : nat) (file : list text) (m0 : machine) (tr : list (line * machine)), accurate ar ->
  restyling o -> new_machine xyz false (o_machine_mode o) = Ok m0 -> reading m0 file tr -> Forall (fun x => restylable o (fst x) (snd x)) (from_states m0 tr) ->
  exists out ls, norm o fuel file = (out, Ok tt) /\ Forall2 (fun s l => mk_line s = Ok l) (printed out) ls /\ becomes_lines o m0 tr ls /\
    forall l g, In l ls -> In g (bgcodes (lblock l)) -> ~ named (o_rm_gcodes o) g.
Proof.
  intros ar o fuel file m0 tr acc RE E R F. destruct (new_machine_sound _ _ _ _ E) as (S & I & _ & X & IG & _).
  destruct (restyle_lines o file acc m0 tr S I IG R F) as (ls & F2 & B).
  exists (flat_map (fun x => line_out o (fst x) (snd x)) (from_states m0 tr)), ls. split; [apply restyle_norm_ok; eauto|]. split; [|split; [auto|]].
  - clear -F2. unfold printed. induction F2 as [|s l ss ls L F2 IH]; cbn [map]; constructor; auto. rewrite mk_line_newline. auto.
  - clear -B. unfold becomes_lines in B. induction B as [|m l m1 tr y ys RS _ _ _ IH|]; [intros ? ? []| |auto]. intros l0 g [<-|K] J; [|eauto].
    destruct RS as (gs & gs' & _ & W & SG & _). assert (Q : forall h, In h gs' -> ~ named (o_rm_gcodes o) h) by (clear -W; induction W as [|? ? ? ? ? IH|? ? ? N ? IH]; [intros ? []|auto|intros h [<-|H]; auto]).
    clear -SG J Q. induction SG as [|a b l l' S SG IH]; [destruct J|]. destruct J as [<-|J]; [|apply IH; auto; intros h H; apply Q; right; auto]. intros (w & I & EQ). apply (Q a); [left; auto|]. exists w. split; auto. destruct S as (_ & -> & _). auto.
Qed.
Print Assumptions C87_lines_partial.

(** ** examples *)
(** runs [file] from [m] and asks [f] of every line and the state before it *)
Fixpoint each_b {ar : Arith} (f : machine -> line -> bool) (file : list text) (m : machine) : bool :=
  match file with
  | [] => true
  | s :: r => match mk_line s with Ok l => f m l && match process_block (lblock l) m with (m1, Ok _) => each_b f r m1 | _ => false end | Raise _ => false end
  end.
Lemma each_reading {ar : Arith} f file : forall m, sound m -> inside m -> each_b f file m = true ->
  exists tr, reading m file tr /\ Forall (fun x => f (fst x) (snd x) = true /\ sound (fst x) /\ exists s, mk_line s = Ok (snd x)) (from_states m tr).
Proof.
  induction file as [|s r IH]; intros m S I E; [exists []; split; constructor|]. cbn [each_b] in E. destruct (mk_line s) as [l|] eqn:L; [|discriminate E]. apply andb_true_iff in E as [F E]. destruct (process_block (lblock l) m) as [m1 [[]|]] eqn:P; [|discriminate E].
  destruct (mk_line_block _ _ L) as (bs & MB). destruct (mk_block_wf _ _ _ MB) as [WF WP]. destruct (process_gcodes_inv (bgcodes (lblock l)) (bmodal (lblock l)) m S I WF WP) as (S1 & I1 & _). unfold process_block in P. rewrite P in S1, I1.
  destruct (IH m1 S1 I1 E) as (tr & R & A). exists ((l, m1) :: tr). split; [econstructor; eauto|]. constructor; auto. cbn [fst snd]. eauto.
Qed.
Definition is_bare (l : list word) : bool := match l with [] => true | _ => false end.
(** decides [restylable], for words without free text and lines without program names *)
Definition restylable_b {ar : Arith} (o : options) (m : machine) (l : line) : bool :=
  forallb readable_b (bwords (lblock l)) && forallb (fun w => negb (letter_eqb (wletter w) LO)) (bwords (lblock l)) && forallb (fun g => negb (letter_eqb (wletter (gword g)) LO)) (bgcodes (lblock l)) &&
  (o_rm_comments o || match lcomment l with Some (Comment CommentSemicolon (_ :: _)) => match lmacro l with None => true | _ => false end | _ => true end) &&
  if o_full o then
    is_bare (bmodal (lblock l)) || forallb (fun g => match modal_group (gcls g) with Some MG_motion => false | _ => true end) (bgcodes (lblock l)) && match gm_get (m_mode m) MG_motion with Some mo => forallb readable_b (gword mo :: map snd (gparams mo)) | None => true end
  else forallb (fun w => forallb (fun g => negb (accepts (gcls g) (wletter w))) (bgcodes (lblock l))) (bmodal (lblock l)).
Lemma line_words_wf {ar : Arith} s l w : mk_line s = Ok l -> In w (bwords (lblock l)) -> word_wf w.
Proof.
  intros L. destruct (mk_line_block _ _ L) as (bs & M). unfold mk_block in M. destruct bs as [|c bs]; [injection M as <-; intros []|]. destruct (text2words (clean_text (c :: bs))) as [ws|] eqn:T; cbn [bind] in M; [|discriminate]. destruct (words2gcodes ws) as [[gs un]|]; cbn [bind] in M; [|discriminate].
  destruct (assert_gcodes [] [] gs); cbn [bind] in M; [|discriminate]. injection M as <-. cbn [lblock bwords]. intros I. pose proof (text2words_wf _ _ T) as F. rewrite Forall_forall in F. auto.
Qed.
Lemma restylable_ex {ar : Arith} o m l s : sound m -> mk_line s = Ok l -> restylable_b o m l = true -> restylable o m l.
Proof.
  intros S L H. unfold restylable_b in H. apply andb_true_iff in H as [H H5]. apply andb_true_iff in H as [H H4]. apply andb_true_iff in H as [H H3]. apply andb_true_iff in H as [H1 H2]. rewrite forallb_forall in *.
  assert (NO : forall w, In w (bwords (lblock l)) -> wletter w <> LO) by (intros w I E; specialize (H2 w I); rewrite E in H2; discriminate H2).
  assert (NG : forall g, In g (bgcodes (lblock l)) -> wletter (gword g) <> LO) by (intros g I E; specialize (H3 g I); rewrite E in H3; discriminate H3).
  split; [|split].
  - apply Forall_forall. intros w I. apply readable_ex; auto. eapply line_words_wf; eauto.
  - intros RC x C. rewrite RC, C in H4. cbn [orb] in H4. destruct x; auto. destruct (lmacro l); [discriminate H4|auto].
  - destruct (o_full o).
    + split; [|intros g I E; exfalso; eapply NG; eauto]. intros NE. apply orb_true_iff in H5 as [H5|H5]; [destruct (bmodal (lblock l)); [contradiction|discriminate H5]|]. apply andb_true_iff in H5 as [H5 H6]. rewrite forallb_forall in H5. split.
      * apply Forall_forall. intros g I E. specialize (H5 g I). rewrite E in H5. discriminate H5.
      * intros mo G. rewrite G in H6. rewrite forallb_forall in H6. apply Forall_forall. intros w I. apply readable_ex; auto. destruct (sound_mode m mo S G) as [(_ & _ & A & B) _]. destruct I as [<-|I]; [exact A|]. apply in_map_iff in I as (kv & <- & I). rewrite Forall_forall in B. auto.
    + rewrite forallb_forall in H5. split.
      * intros w g I J T. specialize (H5 w I). rewrite forallb_forall in H5. specialize (H5 g J). apply accepts_iff in T. rewrite T in H5. discriminate H5.
      * intros _ I. apply in_map_iff in I as (w & E & I). eapply NO; eauto.
Qed.

(** the script's machine with the check of every line *)
Definition all_lines (f : machine -> line -> bool) (file : list text) : bool := match new_machine (ar := binary64) xyz false norm_machine_mode with Ok m => each_b (ar := binary64) f file m | _ => false end.
Lemma all_restylable o file : all_lines (restylable_b (ar := binary64) o) file = true ->
  exists m tr, new_machine (ar := binary64) xyz false norm_machine_mode = Ok m /\ reading (ar := binary64) m file tr /\ Forall (fun x => restylable (ar := binary64) o (fst x) (snd x)) (from_states m tr).
Proof.
  unfold all_lines. destruct (new_machine (ar := binary64) xyz false norm_machine_mode) as [m|] eqn:E; [|discriminate]. intros H. destruct (new_machine_sound _ _ _ _ E) as (S & I & _). destruct (each_reading _ file m S I H) as (tr & R & F). exists m, tr. split; auto. split; auto.
  eapply Forall_impl; [|exact F]. intros x (A & B & s & L). eapply restylable_ex; eauto.
Qed.
Definition full_file : list text := lines ["N10 G1 X1.5 F100 M3 S200 (cut)"; "X2y-3.25"; ""; "M8 Z1 ; deeper"; "%macro%"; "G91 G81 Z-1 R2 L2"; "X1"; "G80"]%string.
Definition full_out : list text := map t ["N10 F100 S200 M03 G01 X1.5 (cut)"; "G01 X2 Y-3.25"; ""; "M08 G01 Z1 ; deeper"; "%macro%"; "G91 G81 L2 R2 Z-1"; "G81 R2 X1 Z-1"; "G80"]%string.
Example C85_ex : restyling (full (ar := binary64)) /\ exists m tr, new_machine (ar := binary64) xyz false norm_machine_mode = Ok m /\ reading (ar := binary64) m full_file tr /\ Forall (fun x => restylable (ar := binary64) (full (ar := binary64)) (fst x) (snd x)) (from_states m tr) /\
  norm (ar := binary64) (full (ar := binary64)) 0 full_file = (full_out, Ok tt).
Proof.
  split; [repeat split|]. destruct (all_restylable (full (ar := binary64)) full_file) as (m & tr & E & R & F); [vm_compute; reflexivity|]. exists m, tr. split; [exact E|]. split; [exact R|]. split; [exact F|]. vm_compute. reflexivity.
Qed.
(** the line is printed in the order of execution, where a program name comes first and takes the rest of the line as its text *)
Theorem C85_name_refuted : exists file out l l', norm (ar := binary64) (full (ar := binary64)) 0 [file] = ([out], Ok tt) /\ mk_line (ar := binary64) file = Ok l /\ mk_line (ar := binary64) out = Ok l' /\
  map gcls (bgcodes (lblock l)) = [GCodeUseMillimeters; GCodeProgramName] /\ map gcls (bgcodes (lblock l')) = [GCodeProgramName].
Proof. exists (t "G21 O1234"), (t "O1234 G21"). do 2 eexists. split; [vm_compute; reflexivity|]. split; [vm_compute; reflexivity|]. split; [vm_compute; reflexivity|]. split; vm_compute; reflexivity. Qed.
Print Assumptions C85_name_refuted.
(** coordinates ahead of a motion word are completed with the motion in force: two motions in one line, which cannot be read *)
Theorem C85_mode_refuted : exists file out x, norm (ar := binary64) (full (ar := binary64)) 0 file = (out, Ok tt) /\ run_file file = Ok x /\ run_file (printed out) = Raise EAssertionError.
Proof. exists (lines ["G1 F100"; "X10 G0"]%string). do 2 eexists. split; [vm_compute; reflexivity|]. split; vm_compute; reflexivity. Qed.
Print Assumptions C85_mode_refuted.

Definition rm_file : list text := lines ["N10 G1 X1.5 F100 M3 S200 (cut)"; "X2y-3.25"; ""; "; only a comment"; "M8 Z1 ; deeper"; "%macro%"; "M8 M3"]%string.
Example C86_ex : let o := removing (ar := binary64) true true true [] in restyling o /\ exists m tr, new_machine (ar := binary64) xyz false norm_machine_mode = Ok m /\ reading (ar := binary64) m rm_file tr /\ Forall (fun x => restylable (ar := binary64) o (fst x) (snd x)) (from_states m tr) /\
  norm (ar := binary64) o 0 rm_file = (map t ["N10G01X1.5F100M03S200"; "X2Y-3.25"; "M08Z1"; "%macro%"; "M08M03"]%string, Ok tt).
Proof.
  intros o. split; [repeat split|]. destruct (all_restylable o rm_file) as (m & tr & E & R & F); [vm_compute; reflexivity|]. exists m, tr. split; [exact E|]. split; [exact R|]. split; [exact F|]. vm_compute. reflexivity.
Qed.
(** --rm_whitespace also takes the blanks of a program name: it becomes a different one *)
Theorem C86_name_refuted : exists file out l l', norm (ar := binary64) (removing (ar := binary64) false false true []) 0 [file] = ([out], Ok tt) /\ mk_line (ar := binary64) file = Ok l /\ mk_line (ar := binary64) out = Ok l' /\
  map (fun g => wvalue (gword g)) (bgcodes (lblock l)) = [VStr (t "12 34")] /\ map (fun g => wvalue (gword g)) (bgcodes (lblock l')) = [VStr (t "1234")].
Proof. exists (t "O12 34"), (t "O1234"). do 2 eexists. split; [vm_compute; reflexivity|]. split; [vm_compute; reflexivity|]. split; [vm_compute; reflexivity|]. split; vm_compute; reflexivity. Qed.
Print Assumptions C86_name_refuted.

Definition the_words (s : string) : list word := match text2words (ar := binary64) (t s) with Ok ws => ws | _ => [] end.
Example C87_ex : let o := removing (ar := binary64) false true false (the_words "M3 M8") in o_rm_gcodes o <> [] /\ restyling o /\ exists m tr, new_machine (ar := binary64) xyz false norm_machine_mode = Ok m /\ reading (ar := binary64) m rm_file tr /\ Forall (fun x => restylable (ar := binary64) o (fst x) (snd x)) (from_states m tr) /\
  norm (ar := binary64) o 0 rm_file = (map t ["N10 G01 X1.5 F100 S200 (cut)"; "X2 Y-3.25"; "; only a comment"; "Z1 ; deeper"; "%macro%"]%string, Ok tt).
Proof.
  intros o. split; [intros H; vm_compute in H; discriminate H|]. split; [repeat split|]. destruct (all_restylable o rm_file) as (m & tr & E & R & F); [vm_compute; reflexivity|]. exists m, tr. split; [exact E|]. split; [exact R|]. split; [exact F|]. vm_compute. reflexivity.
Qed.
(** the words given are compared with the words of the gcodes, so the same command under implied motion is not removed: with
    --rm_gcodes G1 the line "X20" stays, and now is a rapid move; with --full it goes *)
Theorem C87_implied_refuted : exists file out out' md md' pos, norm (ar := binary64) (removing (ar := binary64) false true false (the_words "G1")) 0 file = (out, Ok tt) /\
  norm (ar := binary64) (Options false true norm_machine_mode None false (default_canned_codes (ar := binary64)) false false None false false true false (the_words "G1") false) 0 file = (out', Ok tt) /\
  run_file file = Ok (md, pos) /\ run_file (printed out) = Ok (md', pos) /\ firstn 3 md = t "G01" /\ firstn 3 md' = t "G00" /\ out' = [t "F100"].
Proof. exists (lines ["F100"; "G1 X10"; "X20"]%string). do 5 eexists. split; [vm_compute; reflexivity|]. split; [vm_compute; reflexivity|]. split; [vm_compute; reflexivity|]. split; [vm_compute; reflexivity|]. split; [vm_compute; reflexivity|]. split; [vm_compute; reflexivity|]. vm_compute. reflexivity. Qed.
Print Assumptions C87_implied_refuted.
