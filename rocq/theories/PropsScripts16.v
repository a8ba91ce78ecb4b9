(** Property C104: the pieces of a program cut by pygcode-crop, run one after the other, do what the program does. *)
From Coq Require Import Ascii String List Bool Arith ZArith QArith Qcanon Permutation Lia.
From Verif Require Import Base Num BaseFacts WordOrder Words WordsSpec WordsProofs GTable GCode GCodeSpec GCodeProofs GTableProofs Line Position PosProofs Machine Transform Float64 ArithSpec ModeSpec ModeProofs PropsMode PosSpec MachSpec MachProofs MachProofs2 PrintSpec PrintProofs PropsPrint BlockSpec BlockProofs PropsMach TransSpec PropsTrans
  SimSpec Scripts ScriptsSpec ScriptsSpec2 ScriptsSpec3 ScriptsSpec14 ScriptsProofs ScriptsProofs4 ScriptsProofs5 ScriptsProofs7 ScriptsProofs24 PropsScripts PropsScripts2 PropsScripts3 PropsScripts5.
Import ListNotations.
Local Open Scope nat_scope.

(** The pieces are [p] and [ps], asked for with [args]: "1:5", "5:9", "9:" say. The printed files, one behind the other, are read without an
    error; in front of each piece some lines lift the tool and put it back in place, and each line of the piece does what it did in the
    program. The same at the end.
    Missing: as for C71, pieces that begin in G91, with a canned cycle in force, with G96, in the planes UV, WU and VW, or with words or
    coordinates of more than three decimals or above 999999, and those that rely on a motion mode other than G0 set before (the second
    and third refuted below, the others in PropsScripts3) *)
Theorem C104_pieces_partial : forall (ar : Arith) (m0 : machine) (file args : list text) (p : list (line * machine)) (ps : list (list (line * machine))), accurate ar -> idempotent ar -> null_machine = Ok m0 ->
  reading m0 file (concat (p :: ps)) -> cut_at 1 (p :: ps) args -> Forall (fun x => faithful (fst x)) p -> separable (after m0 p) ps ->
  exists outs tr, Forall2 (fun s out => exists r, range_type s = Ok r /\ crop r file = (out, Ok tt)) args outs /\
    reading m0 (printed (concat outs)) tr /\ rejoined m0 m0 (p :: ps) tr /\ resumed (after m0 (concat (p :: ps))) (after m0 tr).
Proof.
  intros ar z file args p ps acc ID E R CT FA SP. destruct (null_steady z acc E) as (S0 & I0 & Y0 & _ & X0 & G0 & M0). destruct (null_restorable z acc E) as [A RS].
  assert (NM : names_motion (map fst p)). { cbn [concat] in R. apply reading_split in R as (fa & fb & _ & R & _). apply (null_names fa z p); auto. rewrite M0. apply gm_get_empty. }
  assert (NE : Forall (fun q => q <> []) (p :: ps)) by (clear -CT; induction CT; constructor; auto).
  destruct (pieces_run z file (p :: ps) acc ID E [] z args) as (outs & tr & CR & RT & RJ); auto; [apply keeps_refl|intros mg _ _; change (after z []) with z; rewrite M0; apply gm_get_empty|constructor; auto|].
  exists outs, tr. split; [exact CR|]. split; [apply reading_newline; exact RT|]. split; [exact RJ|]. apply rejoined_end; auto. discriminate.
Qed.
Print Assumptions C104_pieces_partial.


(** ** what is not so *)
(** the program, and the pieces behind one another: modes and coordinates at the end *)
Definition rejoin (args file : list string) : result (text * list text) := null_run (printed (flat_map (fun r => fst (cropped r file)) args)).
(** coordinates on their own at the beginning of a piece are a rapid move *)
Theorem C104_motion_refuted : exists args file o c, Forall (fun r => snd (cropped r file) = Ok tt) args /\ null_run (map t file) = Ok o /\ rejoin args file = Ok c /\ fst o = t "G01 F100" /\ fst c = t "G00 F100".
Proof.
  exists [":2"; "2:"]%string, ["G1 X1 F100"; "X2 Y1"]%string. do 2 eexists. split; [repeat (constructor; [vm_compute; reflexivity|]); constructor|]. split; [vm_compute; reflexivity|]. split; [vm_compute; reflexivity|]. split; vm_compute; reflexivity.
Qed.
Print Assumptions C104_motion_refuted.
(** cut in incremental mode, the pieces lead elsewhere *)
Theorem C104_incremental_refuted : exists args file o c, Forall (fun r => snd (cropped r file) = Ok tt) args /\ null_run (map t file) = Ok o /\ rejoin args file = Ok c /\ snd o = map t ["3"; "0"; "1"]%string /\ snd c = map t ["3"; "0"; "3"]%string.
Proof.
  exists [":2"; "2:"]%string, ["G91 G0 Z1"; "X3"]%string. do 2 eexists. split; [repeat (constructor; [vm_compute; reflexivity|]); constructor|]. split; [vm_compute; reflexivity|]. split; [vm_compute; reflexivity|]. split; vm_compute; reflexivity.
Qed.
Print Assumptions C104_incremental_refuted.

(** ** an example *)
Definition faithful_b {ar : Arith} (l : line) : bool :=
  forallb (fun w => readable_b w && negb (letter_eqb (wletter w) LO)) (bwords (lblock l)) && forallb (fun w => forallb (fun g => negb (accepts (gcls g) (wletter w))) (bgcodes (lblock l))) (bmodal (lblock l)) &&
  match lcomment l with Some (Comment CommentSemicolon (_ :: _)) => match lmacro l with None => true | _ => false end | _ => true end.
Lemma faithful_ex {ar : Arith} s l : mk_line s = Ok l -> faithful_b l = true -> faithful l.
Proof.
  intros L H. unfold faithful_b in H. apply andb_true_iff in H as [H H3]. apply andb_true_iff in H as [H1 H2]. rewrite forallb_forall in *.
  assert (A : forall w, In w (bwords (lblock l)) -> readable w /\ wletter w <> LO).
  { intros w I. specialize (H1 w I). apply andb_true_iff in H1 as [H1 H5]. split; [apply readable_ex; auto; apply (line_words_wf s l w L I)|intros E; rewrite E in H5; discriminate H5]. }
  split; [|split].
  - apply Forall_forall. intros w I. apply A; auto.
  - split.
    + intros w g I J T. specialize (H2 w I). rewrite forallb_forall in H2. specialize (H2 g J). apply accepts_iff in T. rewrite T in H2. discriminate H2.
    + intros _ I. apply in_map_iff in I as (w & E & I). destruct (A w I) as (_ & N). auto.
  - intros x C. rewrite C in H3. destruct x; auto. destruct (lmacro l); [discriminate H3|auto].
Qed.
Definition moves_b (l : line) : bool := existsb (fun g => match modal_group (gcls g) with Some mg => mgroup_eqb mg MG_motion | None => false end) (bgcodes (lblock l)).
Fixpoint names_b (ls : list line) : bool := match ls with [] => true | l :: r => is_bare (bmodal (lblock l)) && (moves_b l || names_b r) end.
Lemma names_ex ls : names_b ls = true -> names_motion ls.
Proof.
  induction ls as [|l r IH]; [constructor|]. cbn [names_b]. intros H. apply andb_true_iff in H as [B H]. assert (BM : bmodal (lblock l) = []) by (destruct (bmodal (lblock l)); [reflexivity|discriminate B]). apply orb_true_iff in H as [H|H]; [|apply nm_later; auto].
  apply nm_here; auto. apply existsb_exists in H as (g & I & H). exists g. split; auto. unfold in_group. destruct (modal_group (gcls g)) as [mg|]; [|discriminate H]. f_equal. apply mgroup_eqb_eq. exact H.
Qed.
(** runs the lines and hands what was read, with the machine at the end, to [k] *)
Fixpoint read_all {ar : Arith} (file : list text) (m : machine) : option (list line * machine) :=
  match file with
  | [] => Some ([], m)
  | s :: r => match mk_line s with
              | Ok l => match process_block (lblock l) m with (m1, Ok _) => match read_all r m1 with Some (ls, m2) => Some (l :: ls, m2) | None => None end | _ => None end
              | Raise _ => None
              end
  end.
Lemma read_all_reading {ar : Arith} file : forall m ls n, read_all file m = Some (ls, n) -> exists tr, reading m file tr /\ map fst tr = ls /\ after m tr = n /\ Forall (fun x => exists s, mk_line s = Ok (fst x)) tr.
Proof.
  induction file as [|s r IH]; intros m ls n; cbn [read_all]; [intros E; injection E as <- <-; exists []; split; [constructor|]; split; [reflexivity|]; split; [reflexivity|constructor]|].
  destruct (mk_line s) as [l|] eqn:L; [|discriminate]. destruct (process_block (lblock l) m) as [m1 [[]|]] eqn:P; [|discriminate]. destruct (read_all r m1) as [[ls1 m2]|] eqn:RA; [|discriminate]. intros E. injection E as <- <-. destruct (IH m1 ls1 m2 RA) as (tr & R & F & A & K).
  exists ((l, m1) :: tr). split; [econstructor; eauto|]. cbn [map fst]. split; [congruence|]. split; [rewrite after_cons; exact A|]. constructor; eauto.
Qed.
Fixpoint pieces_b {ar : Arith} (fs : list (list text)) (m : machine) : bool :=
  match fs with
  | [] => true
  | f :: r => absolute_b m && restorable_b m && match read_all f m with Some (ls, m1) => forallb faithful_b ls && names_b ls && pieces_b r m1 | None => false end
  end.
Lemma pieces_ex {ar : Arith} fs : idempotent ar -> forall m, sound m -> inside m -> steady m -> pieces_b fs m = true ->
  exists ps, reading m (concat fs) (concat ps) /\ separable m ps /\ map (@length _) ps = map (@length _) fs /\ match ps with p :: r => Forall (fun x => faithful (fst x)) p /\ separable (after m p) r | [] => True end.
Proof.
  intros ID. induction fs as [|f fs IH]; intros m S I Y H; [exists []; split; [constructor|]; split; [constructor|auto]|]. cbn [pieces_b] in H. apply andb_true_iff in H as [H H3]. apply andb_true_iff in H as [H1 H2].
  destruct (read_all f m) as [[ls m1]|] eqn:RA; [|discriminate H3]. apply andb_true_iff in H3 as [H3 H5]. apply andb_true_iff in H3 as [H3 H4]. destruct (read_all_reading f m ls m1 RA) as (tr & R & F & A & K). subst ls m1.
  destruct (reading_steady f ID m tr S I Y R) as (S1 & I1 & Y1 & _). destruct (IH (after m tr) S1 I1 Y1 H5) as (ps & RP & SP & LP & _).
  assert (FA : Forall (fun x => faithful (fst x)) tr). { apply Forall_forall. intros x Ix. rewrite Forall_forall in K. destruct (K x Ix) as (s & L). rewrite forallb_forall in H3. apply (faithful_ex s); auto. apply H3. apply in_map. exact Ix. }
  exists (tr :: ps). cbn [concat map]. split; [apply reading_app; auto|]. split; [|split; [f_equal; [symmetry; apply (reading_length _ _ _ R)|exact LP]|auto]].
  constructor; auto; [apply absolute_ex; auto|apply restorable_ex; auto|left; apply names_ex; auto].
Qed.
Definition ex_pieces : list (list string) := [["G90 G17 F200 M3"; "G0 X1.5 Y-2 Z7"; "G1 Z2"]; ["M8 (coolant)"; "G1 X5"; "Y4 Z9.5"]; ["G0 X0"; "M5"]]%string.
Definition ex_args : list string := [":4"; "4:7"; "7:"]%string.
Ltac num s := apply (number_nat s); [digits|discriminate|apply Qceqb_eq; vm_compute; reflexivity].
Example C104_ex : exists m p ps, null_machine (ar := binary64) = Ok m /\ reading (ar := binary64) m (map t (concat ex_pieces)) (concat (p :: ps)) /\ cut_at (ar := binary64) 1 (p :: ps) (map t ex_args) /\
  Forall (fun x => faithful (ar := binary64) (fst x)) p /\ separable (ar := binary64) (after m p) ps /\ length ps = 2 /\
  map (fun r => cropped r (concat ex_pieces)) ex_args =
    [(map t ["; traverse into position, up, over, and down"; "G00 Z0"; "G00 X0 Y0"; "G00 Z0"; ""; "G90 G17 F200 M03"; "G00 X1.5 Y-2 Z7"; "G01 Z2"], Ok tt);
     (map t ["; machine mode before cropping"; "G01 G17 G90 M03 F200"; "; traverse into position, up, over, and down"; "G00 Z7"; "G00 X1.5 Y-2"; "G00 Z2"; ""; "M08 (coolant)"; "G01 X5"; "Y4 Z9.5"], Ok tt);
     (map t ["; machine mode before cropping"; "G01 G17 G90 M03 M08 F200"; "; traverse into position, up, over, and down"; "G00 Z9.5"; "G00 X5 Y4"; "G00 Z9.5"; ""; "G00 X0"; "M05"], Ok tt)]%string.
Proof.
  destruct (null_machine (ar := binary64)) as [m|] eqn:E; [|vm_compute in E; discriminate E]. destruct (null_steady (ar := binary64) m binary64_accurate E) as (S & I & Y & _).
  assert (B : match null_machine (ar := binary64) with Ok m => pieces_b (ar := binary64) (map (map t) ex_pieces) m | _ => false end = true) by (vm_compute; reflexivity). rewrite E in B.
  destruct (pieces_ex (ar := binary64) _ binary64_idempotent m S I Y B) as (ps & R & _ & LP & SP). destruct ps as [|p [|q [|r [|]]]]; try discriminate LP. cbn [map] in LP. injection LP as L1 L2 L3.
  exists m, p, [q; r]. split; [reflexivity|]. split; [rewrite concat_map in *; exact R|]. split; [|split; [apply SP|split; [apply SP|split; [reflexivity|vm_compute; reflexivity]]]].
  constructor; [destruct p; discriminate| |rewrite L1; constructor; [destruct q; discriminate| |rewrite L2; constructor; [destruct r; discriminate| |constructor]]].
  - exists [], (t "4"). split; [reflexivity|]. split; [right; auto|left; rewrite L1; num "4"%string].
  - exists (t "4"), (t "7"). split; [reflexivity|]. rewrite L2. split; left; [num "4"%string|num "7"%string].
  - exists (t "7"), []. split; [reflexivity|]. split; [left; num "7"%string|right; auto].
Qed.
