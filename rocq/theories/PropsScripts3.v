(** Property C71: the preamble of pygcode-crop restores the place and the modes, and the kept lines do the same as before. *)
From Coq Require Import Ascii String List Bool Arith ZArith QArith Qcanon Permutation Lia.
From Verif Require Import Base Num BaseFacts Words WordsSpec GTable GCode GCodeSpec GTableProofs Line Position PosProofs Machine Transform Float64 ArithSpec ModeSpec ModeProofs PropsMode PosSpec MachSpec MachProofs MachProofs2 PrintSpec PrintProofs BlockSpec PropsGCode PropsBlock PropsMach TransSpec PropsTrans
  SimSpec SimProofs Scripts ScriptsSpec ScriptsSpec2 ScriptsSpec3 ScriptsProofs ScriptsProofs4 ScriptsProofs5 ScriptsProofs6 ScriptsProofs7 PropsScripts PropsScripts2.
Import ListNotations.
Local Open Scope nat_scope.

(** the lines printed in front put the machine where it was, in the modes it had, but that of motion, which is G0 afterwards;
    missing: G91 (the moves into place are then increments), a canned cycle in force, G96, the planes UV, WU, VW, and words and
    coordinates of more than three decimals or above 999999 (all refuted below) *)
Theorem C71_preamble_partial : forall (ar : Arith) (m0 : machine) (file : list text) (tr : list (line * machine)), accurate ar -> idempotent ar ->
  null_machine = Ok m0 -> reading m0 file tr -> let m := after m0 tr in absolute m -> restorable m ->
  exists pre tr', crop_preamble (machine_copy m) = (pre, Ok tt) /\ reading m0 (printed pre) tr' /\ resumed m (after m0 tr') /\ rapid_mode (after m0 tr').
Proof.
  intros ar m0 file tr acc ID E R m A RS. destruct (null_steady m0 acc E) as (S0 & I0 & Y0 & _ & X0 & _). destruct (reading_steady file ID m0 tr S0 I0 Y0 R) as (S & I & Y & K).
  destruct (preamble_total m S) as (pre & H); [unfold m; destruct K; congruence|intros d; apply (null_offsets m0 m E K)|apply RS|].
  destruct (preamble_restores m0 m pre acc ID E S Y K A RS H) as (tr' & R' & RM & G & _). exists pre, tr'. split; [exact H|]. split; [apply reading_newline; auto|auto].
Qed.
Print Assumptions C71_preamble_partial.
Lemma rapid_word {ar : Arith} g h : accurate ar -> gcode_wf g -> gcode_wf h -> gcls g = GCodeRapidMove -> gcls h = GCodeRapidMove -> gparams g = [] -> gparams h = [] -> same_gcode g h.
Proof.
  intros acc Wg Wh G H PG PH. split; [congruence|]. split; [|rewrite PG, PH; constructor].
  assert (X : forall k, gcode_wf k -> gcls k = GCodeRapidMove -> gword k = Word LG (VFloat (rnd (frac 0 10)))).
  { clear -acc. intros k (_ & P & W & _) C. unfold proper in P. rewrite C in P. apply (word_class_doc acc) in P; auto. destruct (gword k) as [l v]. cbn [wletter wvalue] in P. destruct P as [P|(lo & hi & I & x & V & L1 & L2)].
    - exfalso. unfold doc_letters in P. cbn [In] in P. repeat (destruct P as [P|P]; [discriminate P|]). contradiction.
    - cbn [wvalue] in V. subst v. assert (Q : l = LG /\ lo = 0%Z /\ hi = 0%Z).
      { assert (F : forallb (fun e => negb (gclass_eqb (snd e) GCodeRapidMove) || (letter_eqb (fst (fst (fst e))) LG && Z.eqb (snd (fst (fst e))) 0 && Z.eqb (snd (fst e)) 0)) doc_codes = true) by (vm_compute; reflexivity).
        rewrite forallb_forall in F. specialize (F _ I). cbn [fst snd] in F. assert (GE : gclass_eqb GCodeRapidMove GCodeRapidMove = true) by (apply gclass_eqb_eq; auto). rewrite GE in F. cbn [negb orb] in F. apply andb_true_iff in F as [F F3]. apply andb_true_iff in F as [F1 F2]. apply letter_eqb_eq in F1. apply Z.eqb_eq in F2. apply Z.eqb_eq in F3. auto. }
      destruct Q as (-> & -> & ->). do 2 f_equal. apply Qcle_antisym; auto. }
  rewrite (X g), (X h); auto.
Qed.
(** a cropped file: behind the preamble come the kept lines, each with the same gcodes, comment and macro, and each puts the machine
    in the place and the modes of the original; [names_motion]: the kept lines name their motion before they rely on it (otherwise
    the motion mode in force must be G0, to which the preamble sets it: refuted below) *)
Theorem C71_crop_partial : forall (ar : Arith) (first last : condition) (rd unread : list text) (a b c : list (line * machine)) (m0 : machine), accurate ar -> idempotent ar -> null_machine = Ok m0 ->
  reading m0 rd (a ++ b ++ c) -> selection first last a b c -> (c = [] -> unread = []) -> b <> [] ->
  absolute (after m0 a) -> restorable (after m0 a) -> Forall (fun x => faithful (fst x)) b ->
  exists out, crop (first, last) (rd ++ unread) = (out, Ok tt) /\
    (names_motion (map fst b) ->
      exists tr b', reading m0 (printed out) (tr ++ b') /\ Forall2 (fun x y => same_line (fst x) (fst y) /\ resumed (snd x) (snd y)) b b' /\
        (motion_named (map fst b) -> alike (after m0 (a ++ b)) (after m0 (tr ++ b')))) /\
    (rapid_mode (after m0 a) ->
      exists tr b', reading m0 (printed out) (tr ++ b') /\ Forall2 (fun x y => same_line (fst x) (fst y) /\ alike (snd x) (snd y)) b b').
Proof.
  intros ar f l rd un a b c m0 acc ID E R SEL U NB A RS FA. destruct (null_steady m0 acc E) as (S0 & I0 & Y0 & _ & X0 & _).
  destruct (reading_split _ _ _ _ R) as (fa & fbc & -> & Ra & Rbc). destruct (reading_split _ _ _ _ Rbc) as (fb & fc & -> & Rb & _). clear Rbc.
  destruct (reading_steady fa ID m0 a S0 I0 Y0 Ra) as (S & I & Y & K).
  destruct (preamble_total (after m0 a) S) as (pre & P); [destruct K; congruence|intros d; apply (null_offsets m0 _ E K)|apply RS|].
  exists (pre ++ map (fun x => line_str (fst x)) b). split.
  { apply (C70_cropped ar f l _ m0 _ E). exists (fa ++ fb ++ fc), un, a, b, c. split; auto. split; auto. split; auto. split; auto. right. exists pre. split; auto. destruct b; [contradiction|discriminate]. }
  destruct (preamble_restores m0 (after m0 a) pre acc ID E S Y K A RS P) as (tr' & R' & RM & (g & G & GC & GP) & (S' & I') & _).
  split.
  - intros NM. destruct (kept_resumed fb acc (after m0 a) (after m0 tr') b S I S' I' RM Rb FA NM) as (b' & Rb' & FR & AL). exists tr', b'. split; [|split; auto; rewrite !after_app; auto].
    apply reading_newline. apply reading_app; auto.
  - intros (h & H & HC & HP). assert (AL : alike (after m0 a) (after m0 tr')).
    { split; auto. rewrite H, G. apply rapid_word; auto; [destruct S as (_ & _ & _ & _ & _ & _ & T)|destruct S' as (_ & _ & _ & _ & _ & _ & T)]; eauto. }
    destruct (kept_alike fb acc (after m0 a) (after m0 tr') b S I S' I' AL Rb FA) as (b' & Rb' & FR). exists tr', b'. split; auto. apply reading_newline. apply reading_app; auto.
Qed.
Print Assumptions C71_crop_partial.

(** checks for examples *)
Definition restorable_b {ar : Arith} (m : machine) : bool :=
  match gm_get (m_mode m) MG_motion with Some g => negb (subclass (gcls g) GCodeCannedCycle) | None => true end &&
  match gm_get (m_mode m) MG_spindle_speed_mode with Some g => negb (gclass_eqb (gcls g) GCodeSpindleConstantSurfaceSpeedMode) | None => true end &&
  forallb (fun g => forallb readable_b (gword g :: map snd (gparams g))) (mode_gcodes (m_mode m)) &&
  match machine_pos m with Ok p => forallb (fun a => match pos_getattr p a with Ok x => readable_b (Word (axis_letter a) (VFloat x)) | _ => true end) all_axes | _ => true end &&
  forallb (fun a => match pos_getattr (m_max m) a with Ok x => readable_b (Word (axis_letter a) (VFloat x)) | _ => true end) all_axes &&
  match gm_get (m_mode m) MG_plane_selection with Some g => existsb (gclass_eqb (gcls g)) (map fst planes) | None => true end.
Definition absolute_b (m : machine) : bool := match gm_get (m_mode m) MG_distance with Some g => negb (subclass (gcls g) GCodeIncrementalDistanceMode) | None => true end.
Lemma restorable_ex {ar : Arith} m : sound m -> restorable_b m = true -> restorable m.
Proof.
  intros S H. unfold restorable_b in H. apply andb_true_iff in H as [H HPL]. apply andb_true_iff in H as [H HMX]. apply andb_true_iff in H as [H HPO]. apply andb_true_iff in H as [H HWO]. apply andb_true_iff in H as [H HSP]. destruct S as (_ & _ & _ & _ & _ & W & T). split; [|split; [|split; [|split; [|split]]]].
  - intros g G C. rewrite G in H. apply subclass_derives in C. rewrite C in H. discriminate.
  - intros g G C. rewrite G in *. rewrite C in *. discriminate.
  - intros mg g G. rewrite forallb_forall in HWO. assert (I : In g (mode_gcodes (m_mode m))) by (apply mode_gcodes_in; eauto). specialize (HWO g I). rewrite forallb_forall in HWO. apply Forall_forall. intros w Iw. apply readable_ex; auto.
    destruct (T mg g G) as (_ & _ & W1 & W2). destruct Iw as [<-|Iw]; auto. apply in_map_iff in Iw as (kv & <- & Iw). rewrite Forall_forall in W2. apply (W2 kv Iw).
  - intros a x (p & P & G). rewrite P in *. rewrite forallb_forall in *. specialize (HPO a ltac:(destruct a; cbn; auto 12)). rewrite G in HPO. apply readable_ex; auto. destruct a; exact I.
  - intros a x _ G. rewrite forallb_forall in *. specialize (HMX a ltac:(destruct a; cbn; auto 12)). rewrite G in HMX. apply readable_ex; auto. destruct a; exact I.
  - intros g G. rewrite G in *. apply existsb_exists in HPL as (c & I & E). apply gclass_eqb_eq in E. subst. auto.
Qed.
Lemma absolute_ex m : absolute_b m = true -> absolute m.
Proof. unfold absolute_b. intros H g G D. rewrite G in H. apply subclass_derives in D. rewrite D in H. discriminate. Qed.
Lemma reading_steps {ar : Arith} m file tr : reading m file tr -> steps (map process_str file) m = (after m tr, Ok tt).
Proof.
  revert m tr. induction file as [|s r IH]; intros m tr R; [apply reading_empty in R; subst; reflexivity|]. apply reading_step in R as (l & m1 & tr1 & L & P & R & <-). cbn [map steps]. unfold then_step, process_str at 1. rewrite L, P, after_cons. apply IH. auto.
Qed.
Lemma steps_reading {ar : Arith} file : forall m m1, steps (map process_str file) m = (m1, Ok tt) -> exists tr, reading m file tr /\ after m tr = m1.
Proof.
  induction file as [|s r IH]; intros m m1; cbn [map steps].
  - unfold ok_step. intros E. injection E as <-. exists []. split; [constructor|reflexivity].
  - unfold then_step, process_str at 1. destruct (mk_line s) as [l|] eqn:L; [|discriminate]. destruct (process_block (lblock l) m) as [x [[]|]] eqn:P; [|discriminate]. intros E. apply IH in E as (tr & R & A). exists ((l, x) :: tr). split; [econstructor; eauto|]. rewrite after_cons. exact A.
Qed.
(** runs [file] on the machine without modes: whether it ends well in a state [f] accepts *)
Definition runs_to (f : machine -> bool) (file : list text) : bool :=
  match null_machine (ar := binary64) with Ok m => match steps (map (process_str (ar := binary64)) file) m with (m', Ok _) => f m' | _ => false end | _ => false end.
Lemma runs_reading f file : runs_to f file = true -> exists m tr, null_machine (ar := binary64) = Ok m /\ reading (ar := binary64) m file tr /\ f (after m tr) = true.
Proof.
  unfold runs_to. destruct (null_machine (ar := binary64)) as [m|]; [|discriminate]. destruct (steps (map (process_str (ar := binary64)) file) m) as [m1 [[]|]] eqn:E; [|discriminate]. intros H. apply steps_reading in E as (tr & R & A). exists m, tr. rewrite A. auto.
Qed.
(** three lines removed; the preamble prints modes in six groups and moves up to Z7 *)
Example C71_ex : exists m tr, null_machine (ar := binary64) = Ok m /\ reading (ar := binary64) m (lines ["G90 G21 G17 F200"; "G0 X1.5 Y-2 Z7"; "G1 Z2 M3 S1000"]%string) tr /\ absolute (after m tr) /\ restorable (ar := binary64) (after m tr) /\
  crop_preamble (ar := binary64) (machine_copy (after m tr)) = (map t ["; machine mode before cropping"; "G01 G17 G90 G21 M03 F200 S1000"; "; traverse into position, up, over, and down"; "G00 Z7"; "G00 X1.5 Y-2"; "G00 Z2"; ""], Ok tt)%string.
Proof.
  set (file := lines _). set (want := map t ["; machine mode before cropping"; "G01 G17 G90 G21 M03 F200 S1000"; "; traverse into position, up, over, and down"; "G00 Z7"; "G00 X1.5 Y-2"; "G00 Z2"; ""]%string).
  destruct (runs_reading (fun m => absolute_b m && restorable_b (ar := binary64) m && match crop_preamble (ar := binary64) (machine_copy m) with (o, Ok _) => if list_eq_dec (list_eq_dec Ascii.ascii_dec) o want then true else false | _ => false end) file) as (m & tr & E & R & H); [vm_compute; reflexivity|].
  exists m, tr. split; auto. split; auto. apply andb_true_iff in H as [H H3]. apply andb_true_iff in H as [H1 H2]. split; [apply absolute_ex; auto|]. split.
  - apply restorable_ex; auto. destruct (null_steady (ar := binary64) m binary64_accurate E) as (S & I & Y & _). destruct (reading_steady file binary64_idempotent m tr S I Y R) as (S1 & _). exact S1.
  - destruct (crop_preamble (machine_copy (after m tr))) as [o [[]|]]; [|discriminate]. destruct (list_eq_dec (list_eq_dec Ascii.ascii_dec) o want); [|discriminate]. congruence.
Qed.
Lemma runs_after f file m tr : runs_to f file = true -> null_machine (ar := binary64) = Ok m -> reading (ar := binary64) m file tr -> f (after m tr) = true.
Proof. unfold runs_to. intros H E R. rewrite E in H. apply reading_steps in R. rewrite R in H. exact H. Qed.
(** two lines removed, three kept, the first of which names no motion and needs none *)
Definition ex_removed : list text := lines ["G90 G17 F200 M3"; "G1 X1.5 Y-2 Z7"]%string.
Definition ex_kept : list text := lines ["M8 (coolant)"; "G1 Z2"; "X5"]%string.
Example C71_crop_ex : exists m a b, null_machine (ar := binary64) = Ok m /\ reading (ar := binary64) m (ex_removed ++ ex_kept) (a ++ b ++ []) /\ selection (ar := binary64) (fun n _ => Ok (n =? 3)) (fun _ _ => Ok false) a b [] /\
  b <> [] /\ absolute (after m a) /\ restorable (ar := binary64) (after m a) /\ Forall (fun x => faithful (ar := binary64) (fst x)) b /\ names_motion (map fst b) /\ motion_named (map fst b) /\
  crop (ar := binary64) (fun n _ => Ok (n =? 3), fun _ _ => Ok false) (ex_removed ++ ex_kept) =
    (map t ["; machine mode before cropping"; "G01 G17 G90 M03 F200"; "; traverse into position, up, over, and down"; "G00 Z7"; "G00 X1.5 Y-2"; "G00 Z7"; ""; "M08 (coolant)"; "G01 Z2"; "X5"], Ok tt)%string.
Proof.
  destruct (runs_reading (fun _ => true) (ex_removed ++ ex_kept)) as (m & tr & E & R & _); [vm_compute; reflexivity|]. destruct (null_steady (ar := binary64) m binary64_accurate E) as (S & I & Y & _).
  assert (LN : length tr = 5) by (rewrite <- (reading_length _ _ _ R); reflexivity). exists m, (firstn 2 tr), (skipn 2 tr). assert (ET : tr = firstn 2 tr ++ skipn 2 tr) by (symmetry; apply firstn_skipn). rewrite app_nil_r. rewrite <- ET.
  split; [exact E|]. split; [exact R|].
  assert (SY : forall n g b x, In x tr -> (forall p, g n p = Ok b) -> says (ar := binary64) g n (snd x) b).
  { intros n g b x Ix G. apply in_split in Ix as (u & v & ->). change (u ++ x :: v) with (u ++ ([x] ++ v)) in R. rewrite app_assoc in R. apply reading_split in R as (f1 & f2 & _ & R1 & _). destruct (reading_steady f1 binary64_idempotent m _ S I Y R1) as (S1 & _). rewrite after_app in S1. change (after (after m u) [x]) with (snd x) in S1.
    destruct (machine_pos_spec _ S1) as (p & P & _). exists p. auto. }
  split.
  { split; [|split; [|split]].
    - intros i x N. apply SY; [rewrite ET; apply in_or_app; left; eapply nth_error_In; eauto|]. intros p. assert (L : i < 2) by (assert (L : i < length (firstn 2 tr)) by (apply nth_error_Some; congruence); rewrite firstn_length in L; lia). destruct i as [|[|]]; auto. lia.
    - intros x r N. rewrite app_nil_r in N. apply SY; [rewrite ET; apply in_or_app; right; rewrite N; left; auto|]. intros p. rewrite firstn_length, LN. reflexivity.
    - intros i x N. apply SY; [rewrite ET; apply in_or_app; right; eapply nth_error_In; eauto|]. auto.
    - left. auto. }
  assert (RA : reading (ar := binary64) m ex_removed (firstn 2 tr) /\ reading (ar := binary64) (after m (firstn 2 tr)) ex_kept (skipn 2 tr)).
  { rewrite ET in R. destruct (reading_split _ _ _ _ R) as (f1 & f2 & F & R1 & R2). assert (L1 : length f1 = 2) by (rewrite (reading_length _ _ _ R1), firstn_length; lia). destruct f1 as [|s1 [|s2 [|]]]; try discriminate L1. unfold ex_removed, ex_kept, lines, printed in F. cbn [map app] in F. injection F as <- <- <-. auto. }
  destruct RA as [RA RB]. split; [intros Q; apply (f_equal (@length _)) in Q; rewrite skipn_length, LN in Q; discriminate Q|].
  pose proof (runs_after (fun m => absolute_b m && restorable_b (ar := binary64) m) ex_removed m _ ltac:(vm_compute; reflexivity) E RA) as H. apply andb_true_iff in H as [H1 H2].
  split; [apply absolute_ex; auto|]. split; [apply restorable_ex; auto; apply (reading_steady ex_removed binary64_idempotent m _ S I Y RA)|].
  clear LN ET SY H1 H2 RA R. unfold ex_kept, lines, printed in RB. cbn [map] in RB. revert RB. generalize (skipn 2 tr) as b. intros b RB.
  apply reading_step in RB as (l1 & ? & ? & L1 & _ & RB & <-). apply reading_step in RB as (l2 & ? & ? & L2 & _ & RB & <-). apply reading_step in RB as (l3 & ? & ? & L3 & _ & RB & <-). apply reading_empty in RB. subst. read_line L1. read_line L2. read_line L3.
  split; [repeat (constructor; [cbn [fst]; faithful_line|]); constructor|]. split; [|split; [|vm_compute; reflexivity]].
  - cbn [map fst]. apply nm_later; [reflexivity|]. apply nm_here; [reflexivity|]. eexists. split; [left; reflexivity|reflexivity].
  - eexists. eexists. split; [right; left; reflexivity|]. split; [left; reflexivity|reflexivity].
Qed.

(** ** what is not restored *)
Definition null_run (file : list text) : result (text * list text) :=
  match null_machine (ar := binary64) with
  | Ok m => match steps (map (process_str (ar := binary64)) file) m with (m', Ok _) => Ok (mode_text m', pos_text m') | (_, Raise e) => Raise e end
  | Raise e => Raise e
  end.
Ltac crop_run r f := exists r, f; do 3 eexists; split; [vm_compute; reflexivity|]; split; [vm_compute; reflexivity|]; split; [vm_compute; reflexivity|]; split; vm_compute; reflexivity.
(** the motion mode: the kept lines 'X2 Y1', 'X3' cut in the original and are rapid moves in the cropped file *)
Theorem C71_motion_refuted : exists range file out o c, cropped range file = (out, Ok tt) /\ null_run (map t file) = Ok o /\ null_run (printed out) = Ok c /\ fst o = t "G01 F100" /\ fst c = t "G00 F100".
Proof. crop_run "2:"%string ["G1 X1 F100"; "X2 Y1"; "X3"]%string. Qed.
Print Assumptions C71_motion_refuted.
(** incremental mode: the moves up and down to the place add up *)
Theorem C71_incremental_refuted : exists range file out o c, cropped range file = (out, Ok tt) /\ null_run (map t file) = Ok o /\ null_run (printed out) = Ok c /\ snd o = map t ["3"; "0"; "1"]%string /\ snd c = map t ["3"; "0"; "2"]%string.
Proof. crop_run "2:"%string ["G91 G0 Z1"; "X3"]%string. Qed.
Print Assumptions C71_incremental_refuted.
(** coordinates of more than three decimals *)
Theorem C71_decimals_refuted : exists range file out o c, cropped range file = (out, Ok tt) /\ null_run (map t file) = Ok o /\ null_run (printed out) = Ok c /\ snd o = map t ["1.0004"; "0"; "0"]%string /\ snd c = map t ["1"; "0"; "0"]%string.
Proof. crop_run "2:"%string ["G0 X0.0004"; "G91 X1"]%string. Qed.
Print Assumptions C71_decimals_refuted.
(** G96 takes the S word printed behind it: the spindle speed is no mode any more *)
Theorem C71_speed_refuted : exists range file out o c, cropped range file = (out, Ok tt) /\ null_run (map t file) = Ok o /\ null_run (printed out) = Ok c /\ fst o = t "G00 G96 S100" /\ fst c = t "G00 G96".
Proof. crop_run "3:"%string ["S100"; "G96 D10"; "G0 X1"]%string. Qed.
Print Assumptions C71_speed_refuted.
(** a canned cycle in force: the preamble drills the last hole again (before the moves up and over), and the kept lines drill no
    more *)
Theorem C71_canned_refuted : exists range file out o c, cropped range file = (out, Ok tt) /\ null_run (map t file) = Ok o /\ null_run (printed out) = Ok c /\
  nth 1 out [] = t "G81 R1 X1 Y1 Z-1 G17 G98" /\ (fst o = t "G81 R1 X2 Y1 Z-1 G17 G98" /\ fst c = t "G00 G17 G98").
Proof. exists "2:"%string, ["G17 G98 G81 X1 Y1 Z-1 R1"; "X2"]%string. do 3 eexists. split; [vm_compute; reflexivity|]. split; [vm_compute; reflexivity|]. split; [vm_compute; reflexivity|]. split; [|split]; vm_compute; reflexivity. Qed.
Print Assumptions C71_canned_refuted.
(** in the planes UV, WU and VW there is no preamble *)
Theorem C71_plane_refuted : exists range file o, null_run (map t file) = Ok o /\ snd (cropped range file) = Raise ETypeError.
Proof. exists "2:"%string, ["G17.1"; "G0 X1"]%string. eexists. split; vm_compute; reflexivity. Qed.
