(** C98: pygcode-norm prints numbers with few decimals; how far the printed program may be from the one read. *)
From Coq Require Import Ascii Bool Arith ZArith QArith Qcanon Qabs Lia Lqa String List.
From Verif Require Import Base Num Words GTable GCode Line Position Machine BaseFacts NumFacts WordOrder ArithSpec Float64 WordsSpec LineSpec PrintSpec PrintProofs PrintProofs2 PropsPrint GCodeSpec GCodeProofs GCodeProofs2 PropsGCode BlockSpec PropsBlock BlockProofs LineProofs PosSpec PosProofs ModeSpec ModeProofs MachSpec MachProofs MachProofs2 MachProofs3 PropsMach SimSpec SimProofs TransSpec PropsTrans
  Scripts ScriptsSpec ScriptsSpec2 ScriptsProofs ScriptsProofs4 ScriptsProofs5 ScriptsProofs7 PropsScripts PropsScripts2 PropsScripts5 ScriptsSpec12 ScriptsProofs21 ScriptsProofs22.
Import ListNotations.
Local Open Scope nat_scope.

(** the printed program is readable, has the same commands line by line, and after every line the machine is within one unit of error of where
    the program read was, plus one for every incremental move so far *)
Theorem C98_rounded : forall (ar : Arith) (M : Q) (K fuel : nat) (file out : list text) (m : machine) (tr : list (line * machine)),
  accurate ar -> monotone ar -> idempotent ar -> (0 <= M <= 999999)%Q ->
  new_machine xyz false norm_machine_mode = Ok m -> reading m file tr -> Forall (fun x => legible (fst x) /\ modest M (fst x)) tr -> spans M (after m tr) ->
  run_strides m tr K -> (inject_Z (Z.of_nat (1 + K)) * unit_error M <= M + 1000)%Q -> norm no_options fuel file = (out, Ok tt) ->
  exists tr', reading m (printed out) tr' /\ rounded M 0 m tr tr'.
Proof.
  intros ar M K fuel file out m tr acc MO ID [M0 M6] E R LG SP RS EM H. apply (C72_printed ar fuel file out m E) in H as (tr0 & R0 & ->). assert (tr0 = tr) as -> by (eapply reading_fun; eauto).
  pose proof (new_fine acc _ _ _ _ E) as F. destruct (reading_rounded acc MO ID M M0 M6 file m m tr 0 K F F (norm_mode_like M M0 M6 m E) R LG SP RS EM) as (tr' & R' & RD). exists tr'. split; auto. apply reading_newline; auto.
Qed.
Print Assumptions C98_rounded.
(** the number of incremental moves is determined by the program, and can be told from running it *)
Definition stride_of (m : machine) (g : gcode) : nat :=
  if is_incremental m then match process_kind (gcls g) with PMove => 1 | PCanned => match dget letter_eqb (gparams g) LL with Some w => match wvalue w with VInt z => Z.to_nat (Z.max 1 z) | _ => 1 end | None => 1 end | _ => 0 end else 0.
Lemma stride_of_ok {ar : Arith} m g : gcode_wf g -> stride m g (stride_of m g).
Proof.
  intros W. unfold stride_of, stride. destruct (is_incremental m) eqn:I; [|right; right; split; auto; left; apply absolute_iff; exact I]. apply is_incremental_iff in I.
  pose proof (kind_move g) as KM. pose proof (kind_canned g) as KC. destruct (process_kind (gcls g)) eqn:K.
  - right. right. split; auto. right. split; intros X; [apply KM in X|apply KC in X]; discriminate X.
  - left. split; auto. split; auto. apply KM. auto.
  - right. left. split; auto. split; [apply KC; auto|]. unfold loops. destruct (dget letter_eqb (gparams g) LL) as [w|] eqn:D.
    + destruct (param_wf _ _ _ W D) as [WW WL]. apply (dget_in _ _ _ letter_eqb_eq) in D. left. unfold word_wf in WW. rewrite WL in WW. change (letter_class LL) with CInt in WW. destruct (wvalue w) as [|z|] eqn:V; try contradiction. exists w, z. auto.
    + right. split; auto. intros w J. apply (dget_none _ _ _ letter_eqb_eq) in D. apply D. apply in_map_iff. exists (LL, w). auto.
  - right. right. split; auto. right. split; intros X; [apply KM in X|apply KC in X]; discriminate X.
Qed.
Fixpoint strides_of {ar : Arith} (m : machine) (gs : list gcode) : nat := match gs with [] => 0 | g :: r => let m1 := fst (gcode_process g m) in stride_of m1 g + strides_of m1 r end.
Lemma strides_of_ok {ar : Arith} gs : forall m m1, Forall gcode_wf gs -> steps (map gcode_process gs) m = (m1, Ok tt) -> strides m gs (strides_of m gs).
Proof.
  induction gs as [|g gs IH]; intros m m1 W E; cbn [strides_of]; [constructor|]. inversion W as [|? ? W1 W2]; subst. cbn [map steps] in E. unfold then_step in E. destruct (gcode_process g m) as [x [[]|]] eqn:P; [|discriminate E]. cbn [fst].
  econstructor; [exact P|apply stride_of_ok; auto|]. eapply IH; eauto.
Qed.
Fixpoint tally {ar : Arith} (m : machine) (tr : list (line * machine)) : nat :=
  match tr with [] => 0 | (l, m1) :: r => match block_modal_gcodes m (lblock l) with Ok gs => strides_of m gs | _ => 0 end + tally m1 r end.
Lemma tally_ok {ar : Arith} file : forall m tr, sound m -> inside m -> reading m file tr -> run_strides m tr (tally m tr).
Proof.
  induction file as [|s r IH]; intros m tr S I R; [apply reading_empty in R; subst; constructor|]. apply reading_step in R as (l & m1 & tr1 & L & P & R & <-). destruct (line_keeps l s m m1 L S I P) as [S1 I1]. cbn [tally].
  destruct (mk_line_block _ _ L) as (bs & MB). destruct (mk_block_wf _ _ _ MB) as [F W]. unfold process_block, process_gcodes in P. unfold block_modal_gcodes. destruct (machine_modal_gcode m (bmodal (lblock l))) as [og|] eqn:EO; [|discriminate P]. cbn [bind].
  assert (Y : Forall gcode_wf (match og with Some g => [g] | None => [] end)) by (destruct og as [g|]; [constructor; [|constructor]; eapply modal_gcode_wf; [exact S|exact W|exact EO]|constructor]).
  econstructor; [unfold block_modal_gcodes; rewrite EO; reflexivity| |]; [|apply IH; auto]. eapply strides_of_ok; [apply sort_wf, Forall_app; auto|exact P].
Qed.
Theorem C98_counted : forall (ar : Arith) (axes : axset) (ignore : bool) (ls file : list text) (m : machine) (tr : list (line * machine)), new_machine axes ignore ls = Ok m -> reading m file tr -> exists K, run_strides m tr K.
Proof. intros ar axes ignore ls file m tr E R. destruct (new_machine_sound _ _ _ _ E) as (S & I & _). exists (tally m tr). eapply tally_ok; eauto. Qed.
Print Assumptions C98_counted.
Lemma loops_fun {ar : Arith} g k k' : gcode_wf g -> loops g k -> loops g k' -> k = k'.
Proof.
  intros ((_ & N) & _) [(w & z & I & V & ->)|[NO ->]] [(w' & z' & I' & V' & ->)|[NO' ->]]; auto; [|destruct (NO' w I)|destruct (NO w' I')].
  apply (in_dget _ _ _ letter_eqb_eq) in I; [|exact N]. apply (in_dget _ _ _ letter_eqb_eq) in I'; [|exact N]. congruence.
Qed.
Lemma stride_fun {ar : Arith} m g k k' : gcode_wf g -> stride m g k -> stride m g k' -> k = k'.
Proof.
  intros W A B. assert (X : is_move g -> is_canned g -> False) by (intros a b; apply kind_move in a; apply kind_canned in b; congruence).
  assert (Y : incremental m -> absolute m -> False) by (intros a b; apply is_incremental_iff in a; apply absolute_iff in b; congruence).
  destruct A as [(A1 & A2 & ->)|[(A1 & A2 & A3)|([A1|[A1 A2]] & ->)]], B as [(B1 & B2 & ->)|[(B1 & B2 & B3)|([B1|[B1 B2]] & ->)]]; auto; try (exfalso; auto; fail). eapply loops_fun; eauto.
Qed.
Lemma strides_fun {ar : Arith} m gs n : Forall gcode_wf gs -> strides m gs n -> forall n', strides m gs n' -> n = n'.
Proof.
  intros W A. induction A as [m|m g gs m1 k n P ST A IH]; intros n' B; inversion B as [|? ? ? m2 k' n2 P' ST' B']; subst; auto. inversion W as [|? ? W1 W2]; subst. rewrite P in P'. injection P' as <-. rewrite (stride_fun _ _ _ _ W1 ST ST'), (IH W2 _ B'). auto.
Qed.
Lemma block_modal_wf {ar : Arith} s l m gs : mk_line s = Ok l -> sound m -> block_modal_gcodes m (lblock l) = Ok gs -> Forall gcode_wf gs.
Proof.
  intros L S E. destruct (mk_line_block _ _ L) as (bs & MB). destruct (mk_block_wf _ _ _ MB) as [F W]. unfold block_modal_gcodes in E. destruct (machine_modal_gcode m (bmodal (lblock l))) as [og|] eqn:EO; [|discriminate E]. cbn [bind] in E. injection E as <-.
  apply sort_wf, Forall_app. split; auto. destruct og as [g|]; [constructor; [|constructor]; eapply modal_gcode_wf; [exact S|exact W|exact EO]|constructor].
Qed.
(** in particular, the positions *)
Theorem C98_places : forall (ar : Arith) (M : Q) (K fuel : nat) (file out : list text) (m : machine) (tr : list (line * machine)),
  accurate ar -> monotone ar -> idempotent ar -> (0 <= M <= 999999)%Q ->
  new_machine xyz false norm_machine_mode = Ok m -> reading m file tr -> Forall (fun x => legible (fst x) /\ modest M (fst x)) tr -> spans M (after m tr) ->
  run_strides m tr K -> (inject_Z (Z.of_nat (1 + K)) * unit_error M <= M + 1000)%Q -> norm no_options fuel file = (out, Ok tt) ->
  exists tr', reading m (printed out) tr' /\ Forall2 (fun x y => forall a, has (m_abs (snd x)) a -> has (m_abs (snd y)) a /\ off_by (inject_Z (Z.of_nat (1 + K)) * unit_error M) (pval (m_abs (snd x)) a) (pval (m_abs (snd y)) a)) tr tr'.
Proof.
  intros ar M K fuel file out m tr acc MO ID MM E R LG SP RS EM H. destruct (C98_rounded ar M K fuel file out m tr acc MO ID MM E R LG SP RS EM H) as (tr' & R' & RD). exists tr'. split; auto.
  destruct (new_machine_sound _ _ _ _ E) as (S & I & _). apply reading_newline in R'. destruct MM as [M0 M6].
  assert (G : forall file file' k m m' tr tr' K, sound m -> inside m -> sound m' -> inside m' -> reading m file tr -> reading m' file' tr' -> run_strides m tr K -> rounded M k m tr tr' ->
    Forall2 (fun x y => forall a, has (m_abs (snd x)) a -> has (m_abs (snd y)) a /\ off_by (inject_Z (Z.of_nat (1 + (k + K))) * unit_error M) (pval (m_abs (snd x)) a) (pval (m_abs (snd y)) a)) tr tr').
  { clear -M0 M6. induction file as [|s r IH]; intros file' k m m' tr tr' K S I S' I' R R' RS RD.
    - apply reading_empty in R. subst. inversion RD; subst. constructor.
    - apply reading_step in R as (l & m1 & tr1 & L & P & R & <-). inversion RD as [|? ? ? ? ? l' m1' tr1' gs n BG ST LL LM RD' E1 E2 E3]; subst. destruct file' as [|s' r']; [apply reading_empty in R'; discriminate R'|].
      apply reading_step in R' as (l2 & m2 & tr2 & L' & P' & R' & E'). injection E' as -> -> ->. inversion RS as [|? ? ? ? gs2 n2 j BG2 ST2 RS']; subst. rewrite BG in BG2. injection BG2 as <-.
      assert (n2 = n) as -> by (refine (strides_fun m gs n2 _ ST2 n ST); exact (block_modal_wf s l m gs L S BG)).
      destruct (line_keeps l s m m1 L S I P) as [S1 I1]. destruct (line_keeps l' _ m' m1' L' S' I' P') as [S1' I1']. constructor.
      + cbn [snd]. intros a Ha. destruct LM as (_ & _ & AX & _ & _ & PO). split; [apply (has_keeps m1 m1'); auto|]. eapply off_by_le; [|apply PO; auto]. apply Qmult_le_compat_r; [rewrite <- Zle_Qle; lia|apply Qlt_le_weak, unit_pos; auto].
      + replace (k + (n + j)) with (k + n + j) by lia. eapply IH; [exact S1|exact I1|exact S1'|exact I1'|exact R|exact R'|exact RS'|exact RD']. }
  exact (G file _ 0 m m tr tr' K S I S I R R' RS RD).
Qed.
Print Assumptions C98_places.

(** once printed the program does not change any more, however often it is put through the script; the numbers between
    -0.0005 and 0 are left out ([prints_well]): they print "-0", and what is read from that is a zero with a sign, which the model does not have *)
Theorem C98_again : forall (ar : Arith) (M : Q) (K fuel fuel' : nat) (file out : list text) (m : machine) (tr : list (line * machine)),
  accurate ar -> monotone ar -> idempotent ar -> (0 <= M <= 999999)%Q ->
  new_machine xyz false norm_machine_mode = Ok m -> reading m file tr -> Forall (fun x => legible (fst x) /\ modest M (fst x)) tr -> spans M (after m tr) ->
  run_strides m tr K -> (inject_Z (Z.of_nat (1 + K)) * unit_error M <= M + 1000)%Q -> norm no_options fuel file = (out, Ok tt) ->
  Forall (fun x => Forall prints_well (bwords (lblock (fst x)))) tr -> norm no_options fuel' (printed out) = (out, Ok tt).
Proof.
  intros ar M K fuel fuel' file out m tr acc MO ID MM E R LG SP RS EM H PW. destruct (C98_rounded ar M K fuel file out m tr acc MO ID MM E R LG SP RS EM H) as (tr' & R' & _).
  apply (C72_printed ar fuel file out m E) in H as (tr0 & R0 & ->). assert (tr0 = tr) as -> by (eapply reading_fun; eauto). clear R0.
  apply (C72_printed ar fuel' _ _ m E). exists tr'. split; [exact R'|]. apply (proj1 (reading_newline _ _ _)) in R'.
  assert (G : forall file n m' tr tr', reading n file tr -> Forall (fun x => legible (fst x) /\ modest M (fst x)) tr -> Forall (fun x => Forall prints_well (bwords (lblock (fst x)))) tr ->
    reading m' (map (fun x => line_str (fst x)) tr) tr' -> map (fun x => line_str (fst x)) tr = map (fun x => line_str (fst x)) tr').
  { clear -acc. induction file as [|s r IH]; intros n m' tr tr' R LG PW R'.
    - apply reading_empty in R. subst. apply reading_empty in R'. subst. reflexivity.
    - apply reading_step in R as (l & m1 & tr1 & L & P & R & <-). inversion LG as [|? ? [(_ & SE & C) _] LG']; subst. inversion PW as [|? ? PW1 PW']; subst. cbn [map fst] in *.
      apply reading_step in R' as (l' & m1' & tr1' & L' & P' & R' & <-). destruct (C16_reprint_partial ar s l acc L PW1 SE C) as (l2 & L2 & EQ & _). rewrite L' in L2. injection L2 as <-. cbn [map fst]. rewrite EQ. f_equal.
      exact (IH m1 m1' tr1 tr1' R LG' PW' R'). }
  exact (G file m m tr tr' R LG PW R').
Qed.
Print Assumptions C98_again.

(** ** the error does add up in incremental mode: ten moves by 0.0004 are printed as ten moves by 0 *)
Example C98_drift : exists file out md pos, norm (ar := binary64) (no_options (ar := binary64)) 0 file = (out, Ok tt) /\ length file = 11 /\
  run_file file = Ok (md, pos) /\ pos = map t ["0.004"; "0"; "0"]%string /\ run_file (printed out) = Ok (md, map t ["0"; "0"; "0"]%string).
Proof.
  exists (lines ("G91 G1 F100" :: repeat "X0.0004" 10)%string). do 3 eexists. split; [vm_compute; reflexivity|]. split; [vm_compute; reflexivity|]. split; [vm_compute; reflexivity|]. split; [vm_compute; reflexivity|]. vm_compute. reflexivity.
Qed.
Print Assumptions C98_drift.

(** ** an example *)
Definition legible_word_b {ar : Arith} (w : word) : bool :=
  match letter_kind (wletter w), wvalue w with KFloat, VFloat x => Qle_bool (Qabs (this x)) 999999 | _, _ => readable_b w end.
Definition coordinate_b (l : letter) : bool := letter_eqb l LR || match axis_of_letter l with Some _ => true | None => false end.
Definition modest_word_b (M : Q) (w : word) : bool := negb (coordinate_b (wletter w)) || match wvalue w with VFloat x => Qle_bool (Qabs (this x)) M | _ => true end.
Definition legible_b {ar : Arith} (M : Q) (l : line) : bool :=
  forallb (fun w => legible_word_b w && modest_word_b M w && negb (letter_eqb (wletter w) LO)) (bwords (lblock l)) && forallb (fun w => forallb (fun g => negb (accepts (gcls g) (wletter w))) (bgcodes (lblock l))) (bmodal (lblock l)) &&
  match lcomment l with Some (Comment CommentSemicolon (_ :: _)) => match lmacro l with None => true | _ => false end | _ => true end.
Lemma legible_ex {ar : Arith} M s l : mk_line s = Ok l -> legible_b M l = true -> legible l /\ modest M l.
Proof.
  intros L H. unfold legible_b in H. apply andb_true_iff in H as [H H3]. apply andb_true_iff in H as [H1 H2]. rewrite forallb_forall in *.
  assert (A : forall w, In w (bwords (lblock l)) -> legible_word w /\ modest_word_b M w = true /\ wletter w <> LO).
  { intros w I. specialize (H1 w I). apply andb_true_iff in H1 as [H1 H5]. apply andb_true_iff in H1 as [H1 H4]. split; [|split; auto; intros E; rewrite E in H5; discriminate H5].
    pose proof (line_words_wf s l w L I) as W. unfold legible_word_b in H1. assert (RB : readable_b w = true -> legible_word w) by (intros X; apply readable_ex in X as [X Y]; auto; split; auto).
    destruct (letter_kind (wletter w)) eqn:K; auto. destruct (wvalue w) as [x| |] eqn:V; auto. split; [|intros y Y; congruence]. right. exists x. split; auto. split; auto. apply Qle_bool_iff. exact H1. }
  split; [split; [|split]|].
  - apply Forall_forall. intros w I. apply A; auto.
  - split.
    + intros w g I J T. specialize (H2 w I). rewrite forallb_forall in H2. specialize (H2 g J). apply accepts_iff in T. rewrite T in H2. discriminate H2.
    + intros _ I. apply in_map_iff in I as (w & E & I). destruct (A w I) as (_ & _ & N). auto.
  - intros x C. rewrite C in H3. destruct x; auto. destruct (lmacro l); [discriminate H3|auto].
  - intros w x I C V. destruct (A w I) as (_ & B & _). unfold modest_word_b in B. rewrite V in B. assert (CB : coordinate_b (wletter w) = true). { unfold coordinate_b. destruct C as [->|(a & ->)]; [reflexivity|]. rewrite axis_of_axis_letter. apply orb_true_r. }
    rewrite CB in B. apply Qle_bool_iff. exact B.
Qed.
(** runs the file, checks the lines and counts the incremental moves *)
Fixpoint walk {ar : Arith} (M : Q) (file : list text) (m : machine) : option (machine * nat) :=
  match file with
  | [] => Some (m, 0)
  | s :: r => match mk_line s with
              | Ok l => if legible_b M l then
                  match process_block (lblock l) m, block_modal_gcodes m (lblock l) with
                  | (m1, Ok _), Ok gs => match walk M r m1 with Some (m2, k) => Some (m2, strides_of m gs + k) | None => None end
                  | _, _ => None
                  end else None
              | Raise _ => None
              end
  end.
Lemma walk_ex {ar : Arith} M file : forall m m' K, sound m -> inside m -> walk M file m = Some (m', K) ->
  exists tr, reading m file tr /\ Forall (fun x => legible (fst x) /\ modest M (fst x)) tr /\ run_strides m tr K /\ after m tr = m'.
Proof.
  induction file as [|s r IH]; intros m m' K S I H; cbn [walk] in H.
  - injection H as <- <-. exists []. split; [constructor|]. split; [constructor|]. split; [constructor|reflexivity].
  - destruct (mk_line s) as [l|] eqn:L; [|discriminate H]. destruct (legible_b M l) eqn:LB; [|discriminate H]. destruct (process_block (lblock l) m) as [m1 [[]|]] eqn:P; [|discriminate H]. destruct (block_modal_gcodes m (lblock l)) as [gs|] eqn:BG; [|discriminate H].
    destruct (walk M r m1) as [[m2 k]|] eqn:WK; [|discriminate H]. injection H as <- <-. destruct (line_keeps l s m m1 L S I P) as [S1 I1]. destruct (IH m1 m2 k S1 I1 WK) as (tr & R & LG & RS & AF).
    exists ((l, m1) :: tr). split; [econstructor; eauto|]. split; [constructor; auto; eapply legible_ex; eauto|]. split; [|rewrite after_cons; exact AF]. econstructor; [exact BG| |exact RS].
    eapply strides_of_ok; [exact (block_modal_wf s l m gs L S BG)|]. unfold process_block, process_gcodes in P. unfold block_modal_gcodes in BG. destruct (machine_modal_gcode m (bmodal (lblock l))) as [og|]; [|discriminate P]. cbn [bind] in BG. injection BG as <-. exact P.
Qed.
Definition spans_b (M : Q) (m : machine) : bool := forallb (fun a => Qle_bool (Qabs (this (pval (m_min m) a))) M && Qle_bool (Qabs (this (pval (m_max m) a))) M) all_axes.
Lemma spans_ex M m : spans_b M m = true -> spans M m.
Proof. intros H a _. unfold spans_b in H. rewrite forallb_forall in H. specialize (H a ltac:(destruct a; cbn; tauto)). apply andb_true_iff in H as [A B]. apply Qle_bool_iff in A, B. auto. Qed.
Definition fine_file : list text := lines ["G1 X1.23456 Y-0.00031 F99.9999 (cut)"; "X2.00049 z7.123449"; "G91"; "X0.3333333 Y0.6666666 ; a third"; "G81 X1.00004 Z-1.55551 R0.11111 L2"; "G80"; "G90 G0 X-100.12345"]%string.
Example C98_ex : accurate binary64 /\ monotone binary64 /\ idempotent binary64 /\ exists m tr,
  new_machine (ar := binary64) xyz false norm_machine_mode = Ok m /\ reading (ar := binary64) m fine_file tr /\ Forall (fun x => legible (ar := binary64) (fst x) /\ modest 101 (fst x)) tr /\ spans 101 (after m tr) /\
  run_strides (ar := binary64) m tr 3 /\ (inject_Z (Z.of_nat (1 + 3)) * unit_error 101 <= 101 + 1000)%Q /\ (inject_Z (Z.of_nat (1 + 3)) * unit_error 101 <= 3 # 1000)%Q /\
  norm (ar := binary64) (no_options (ar := binary64)) 0 fine_file = (map t ["G01 X1.235 Y-0 F100 (cut)"; "X2 Z7.123"; "G91"; "X0.333 Y0.667 ; a third"; "G81 L2 R0.111 X1 Z-1.556"; "G80"; "G90 G00 X-100.123"], Ok tt)%string.
Proof.
  split; [exact binary64_accurate|]. split; [exact binary64_monotone|]. split; [exact binary64_idempotent|].
  assert (H : match new_machine (ar := binary64) xyz false norm_machine_mode with Ok m => match walk (ar := binary64) 101 fine_file m with Some (m', K) => Nat.eqb K 3 && spans_b 101 m' | None => false end | _ => false end = true) by (vm_compute; reflexivity).
  destruct (new_machine (ar := binary64) xyz false norm_machine_mode) as [m|] eqn:E; [|discriminate H]. destruct (walk (ar := binary64) 101 fine_file m) as [[m' K]|] eqn:WK; [|discriminate H]. apply andb_true_iff in H as [HK HS]. apply Nat.eqb_eq in HK. subst K.
  destruct (new_machine_sound _ _ _ _ E) as (S & I & _). destruct (walk_ex 101 fine_file m m' 3 S I WK) as (tr & R & LG & RS & AF). exists m, tr. split; [reflexivity|]. split; [exact R|]. split; [exact LG|]. split; [rewrite AF; apply spans_ex; exact HS|]. split; [exact RS|].
  split; [intros X; discriminate X|]. split; [intros X; discriminate X|]. vm_compute. reflexivity.
Qed.
(** for what changes nothing the second time *)
Definition prints_well_b {ar : Arith} (w : word) : bool :=
  match letter_kind (wletter w), wvalue w with KFloat, VFloat x => Qle_bool (Qabs (this x)) 999999 && negb (Qle_bool (- (1 # 2000)) (this x) && negb (Qle_bool 0 (this x))) | _, _ => readable_b w end.
Lemma prints_well_ex {ar : Arith} w : word_wf w -> prints_well_b w = true -> prints_well w.
Proof.
  intros W H. unfold prints_well_b in H. assert (RB : readable_b w = true -> prints_well w) by (intros X; apply readable_ex in X as [X Y]; auto; split; auto).
  destruct (letter_kind (wletter w)) eqn:K; auto. destruct (wvalue w) as [x| |] eqn:V; auto. split; [|intros y Y; congruence]. right. split; auto. unfold PrintSpec.printable. rewrite V. apply andb_true_iff in H as [H1 H2]. apply Qle_bool_iff in H1. split; [exact H1|].
  intros [A B]. apply Qle_bool_iff in A. rewrite A in H2. destruct (Qle_bool 0 (this x)) eqn:Z; [apply Qle_bool_iff in Z; apply (Qlt_not_le _ _ B); exact Z|discriminate H2].
Qed.
Definition again_b {ar : Arith} (file : list text) : bool := forallb (fun s => match mk_line s with Ok l => forallb prints_well_b (bwords (lblock l)) | _ => false end) file.
Lemma again_ex {ar : Arith} file : forall m tr, reading m file tr -> again_b file = true -> Forall (fun x => Forall prints_well (bwords (lblock (fst x)))) tr.
Proof.
  induction file as [|s r IH]; intros m tr R H; [apply reading_empty in R; subst; constructor|]. apply reading_step in R as (l & m1 & tr1 & L & P & R & <-). cbn [again_b forallb] in H. rewrite L in H. apply andb_true_iff in H as [H1 H2]. constructor; [|apply (IH m1); auto].
  cbn [fst]. apply Forall_forall. intros w I. rewrite forallb_forall in H1. apply prints_well_ex; auto. eapply line_words_wf; eauto.
Qed.
Definition finer_file : list text := lines ["G1 X1.23456 Y-0.0005001 F99.9999 (cut)"; "X2.00049 z7.123449"; "G91"; "X0.3333333 Y0.6666666 ; a third"]%string.
Example C98_again_ex : exists m tr, new_machine (ar := binary64) xyz false norm_machine_mode = Ok m /\ reading (ar := binary64) m finer_file tr /\ Forall (fun x => legible (ar := binary64) (fst x) /\ modest 101 (fst x)) tr /\ spans 101 (after m tr) /\
  run_strides (ar := binary64) m tr 1 /\ Forall (fun x => Forall (prints_well (ar := binary64)) (bwords (lblock (fst x)))) tr /\
  norm (ar := binary64) (no_options (ar := binary64)) 0 finer_file = (map t ["G01 X1.235 Y-0.001 F100 (cut)"; "X2 Z7.123"; "G91"; "X0.333 Y0.667 ; a third"], Ok tt)%string.
Proof.
  assert (H : match new_machine (ar := binary64) xyz false norm_machine_mode with Ok m => match walk (ar := binary64) 101 finer_file m with Some (m', K) => Nat.eqb K 1 && spans_b 101 m' && again_b (ar := binary64) finer_file | None => false end | _ => false end = true) by (vm_compute; reflexivity).
  destruct (new_machine (ar := binary64) xyz false norm_machine_mode) as [m|] eqn:E; [|discriminate H]. destruct (walk (ar := binary64) 101 finer_file m) as [[m' K]|] eqn:WK; [|discriminate H]. apply andb_true_iff in H as [H HA]. apply andb_true_iff in H as [HK HS]. apply Nat.eqb_eq in HK. subst K.
  destruct (new_machine_sound _ _ _ _ E) as (S & I & _). destruct (walk_ex 101 finer_file m m' 1 S I WK) as (tr & R & LG & RS & AF). exists m, tr. split; [reflexivity|]. split; [exact R|]. split; [exact LG|]. split; [rewrite AF; apply spans_ex; exact HS|]. split; [exact RS|].
  split; [eapply again_ex; eauto|]. vm_compute. reflexivity.
Qed.
