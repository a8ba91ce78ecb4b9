(** Property C94: the way into place printed by pygcode-crop goes up, over and down: above everything the removed lines reached. *)
From Coq Require Import Ascii String List Bool Arith ZArith QArith Qcanon Permutation Lia.
From Verif Require Import Base Num BaseFacts Words WordsSpec GTable GCode GCodeSpec Line Position PosProofs Machine Transform Float64 ArithSpec ModeSpec ModeProofs PropsMode PosSpec MachSpec MachProofs MachProofs2 PrintSpec PrintProofs BlockSpec PropsMach TransSpec
  SimSpec Scripts ScriptsSpec ScriptsSpec2 ScriptsSpec3 ScriptsProofs ScriptsProofs4 ScriptsProofs7 PropsScripts PropsScripts2 PropsScripts3.
Import ListNotations.
Local Open Scope nat_scope.

(** a file read line by line is a program that runs, gcode by gcode *)
Lemma reading_runs {ar : Arith} file : forall m tr, sound m -> inside m -> reading m file tr ->
  exists gs, runs m (map (fun x => lblock (fst x)) tr) gs (after m tr) /\ Forall gcode_wf gs.
Proof.
  induction file as [|s r IH]; intros m tr S I R; [apply reading_empty in R; subst; exists []; split; constructor|].
  apply reading_step in R as (l & m1 & tr1 & L & P & R & <-). rewrite after_cons. destruct (mk_line_block _ _ L) as (bs & MB). destruct (mk_block_wf _ _ _ MB) as [F W].
  destruct (process_gcodes_inv (bgcodes (lblock l)) (bmodal (lblock l)) m S I F W) as (S1 & I1 & _ & _). pose proof P as P'. unfold process_block in P'. rewrite P' in S1, I1. cbn [fst] in *.
  destruct (IH m1 tr1 S1 I1 R) as (gs & RN & WG). unfold process_gcodes in P'. destruct (machine_modal_gcode m (bmodal (lblock l))) as [og|] eqn:O; [|discriminate].
  exists (sort_gcodes (bgcodes (lblock l) ++ match og with Some g => [g] | None => [] end) ++ gs). split.
  - cbn [map fst]. econstructor; eauto. unfold block_modal_gcodes. rewrite O. reflexivity.
  - apply Forall_app. split; auto. apply sort_wf, Forall_app. split; auto. destruct og as [g|]; constructor; auto. exact (modal_gcode_wf _ _ _ S W O).
Qed.

(** [a]: the lines removed in front, [b]: those kept, [ax]: the normal of the plane in force; [gs] are the gcodes of the removed lines,
    [ps] where they lead one by one, [top] the largest coordinate of these along [ax]. The printed lines in front of the kept ones
    lift the tool to [top], move it there over the place where the kept lines start, and lower it to this place.
    Missing: G91, a canned cycle in force, G96, the planes UV, WU, VW, and words and coordinates of more than three decimals or above
    999999 (refuted in PropsScripts3 and below) *)
Theorem C94_approach_partial : forall (ar : Arith) (first last : condition) (rd unread : list text) (a b c : list (line * machine)) (m0 : machine) (ax : axis), accurate ar -> idempotent ar -> monotone ar -> null_machine = Ok m0 ->
  reading m0 rd (a ++ b ++ c) -> selection first last a b c -> (c = [] -> unread = []) -> b <> [] ->
  let m := after m0 a in absolute m -> restorable m -> upright m ax ->
  exists gs ps top pre tr, runs m0 (map (fun x => lblock (fst x)) a) gs m /\ path m0 gs ps m /\
    (forall p, In p (m_abs m0 :: ps) -> exists x, pos_getattr p ax = Ok x /\ (x <= top)%Qc) /\ (exists p, In p (m_abs m0 :: ps) /\ pos_getattr p ax = Ok top) /\
    crop (first, last) (rd ++ unread) = (pre ++ map (fun x => line_str (fst x)) b, Ok tt) /\ reading m0 (printed pre) tr /\ approaches m0 m ax top tr.
Proof.
  intros ar f l rd un a b c m0 ax acc ID MO E R SEL U NB m A RS UP. destruct (null_steady m0 acc E) as (S0 & I0 & Y0 & _ & X0 & _).
  destruct (reading_split _ _ _ _ R) as (fa & fbc & -> & Ra & Rbc).
  destruct (reading_steady fa ID m0 a S0 I0 Y0 Ra) as (S & I & Y & K). fold m in S, I, Y, K.
  destruct (preamble_total m S) as (pre & P); [destruct K; congruence|intros d; apply (null_offsets m0 _ E K)|apply RS|].
  destruct (preamble_restores m0 m pre acc ID E S Y K A RS P) as (tr & R' & _ & _ & _ & AP). specialize (AP ax UP).
  destruct (reading_runs fa m0 a S0 I0 Ra) as (gs & RN & WG).
  assert (HX : vget xyz ax = true) by (destruct UP as [(pl & _ & IP)|[_ ->]]; [cbn [In planes] in IP; destruct IP as [IP|[IP|[IP|[]]]]; injection IP as _ <-; reflexivity|reflexivity]).
  destruct (C43_new ar xyz false [] m0 m (map (fun x => lblock (fst x)) a) gs MO E WG RN) as (ps & PT & B). destruct (B ax HX) as (lo & top & _ & TP & B1 & _ & B2).
  apply getattr_ok in TP as [_ TP]. rewrite <- TP in AP. exists gs, ps, top, pre, tr. split; [exact RN|]. split; [exact PT|].
  split; [intros p Ip; destruct (B1 p Ip) as (x & Gx & _ & Lx); eauto|]. split; [exact B2|]. split; [|split; [apply reading_newline; exact R'|exact AP]].
  apply (C70_cropped ar f l _ m0 _ E). exists (fa ++ fbc), un, a, b, c. split; auto. split; auto. split; auto. split; auto. right. exists pre. split; auto. destruct b; [contradiction|discriminate].
Qed.
Print Assumptions C94_approach_partial.

(** a file cut behind its second line, in the plane XY *)
Example C94_ex : exists m a b, null_machine (ar := binary64) = Ok m /\ reading (ar := binary64) m (ex_removed ++ ex_kept) (a ++ b ++ []) /\ selection (ar := binary64) (fun n _ => Ok (n =? 3)) (fun _ _ => Ok false) a b [] /\
  b <> [] /\ absolute (after m a) /\ restorable (ar := binary64) (after m a) /\ upright (after m a) AZ.
Proof.
  destruct C71_crop_ex as (m & a & b & E & R & SEL & NB & A & RS & _). exists m, a, b. do 6 (split; [assumption|]). left.
  apply reading_length in R as LN. assert (LA : length a = 2).
  { clear -SEL LN. destruct SEL as (S1 & S2 & _). destruct (Nat.eq_dec (length a) 2) as [|N]; auto. exfalso. rewrite !app_length in LN. cbn [length ex_removed ex_kept lines printed map] in LN.
    destruct b as [|y b].
    - destruct (nth_error a 2) as [x|] eqn:Q; [|apply nth_error_None in Q; cbn in LN; lia]. destruct (S1 _ _ Q) as (p & _ & H). discriminate H.
    - destruct (S2 y (b ++ []) eq_refl) as (p & _ & H). injection H as H. apply Nat.eqb_eq in H. lia. }
  destruct (reading_split _ _ _ _ R) as (f1 & f2 & F & R1 & _). assert (L1 : length f1 = 2) by (rewrite (reading_length _ _ _ R1); auto). destruct f1 as [|s1 [|s2 [|]]]; try discriminate L1. unfold ex_removed, ex_kept, lines, printed in F. cbn [map app] in F. injection F as <- <- _.
  pose proof (runs_after (fun m => match gm_get (m_mode m) MG_plane_selection with Some g => gclass_eqb (gcls g) GCodeSelectXYPlane | None => false end) ex_removed m a ltac:(vm_compute; reflexivity) E R1) as H. cbv beta in H.
  destruct (gm_get (m_mode (after m a)) MG_plane_selection) as [g|] eqn:G; [|discriminate]. exists g. split; [exact G|]. apply gclass_eqb_eq in H. rewrite H. left. reflexivity.
Qed.
(** in each of the three planes the tool is lifted along the normal *)
Example C94_planes_ex : map (fun g => fst (cropped "3:" [String.append g " G90"; "G1 X1 Y2 Z3"; "X0 Y0 Z0"]))%string ["G17"; "G18"; "G19"]%string =
  [map t ["; machine mode before cropping"; "G01 G17 G90"; "; traverse into position, up, over, and down"; "G00 Z3"; "G00 X1 Y2"; "G00 Z3"; ""; "X0 Y0 Z0"]%string;
   map t ["; machine mode before cropping"; "G01 G18 G90"; "; traverse into position, up, over, and down"; "G00 Y2"; "G00 X1 Z3"; "G00 Y2"; ""; "X0 Y0 Z0"]%string;
   map t ["; machine mode before cropping"; "G01 G19 G90"; "; traverse into position, up, over, and down"; "G00 X1"; "G00 Y2 Z3"; "G00 X1"; ""; "X0 Y0 Z0"]%string].
Proof. vm_compute. reflexivity. Qed.

(** the height is printed with three decimals, and so may lie below a height the tool was at *)
Theorem C94_decimals_refuted : exists file out md, cropped "2:" file = (out, Ok tt) /\ null_run (firstn 1 (map t file)) = Ok (md, map t ["0"; "0"; "1.0004"]%string) /\ In (t "G00 Z1") out /\ ~ In (t "G00 Z1.0004") out.
Proof.
  exists ["G0 Z1.0004"; "X3"]%string. do 2 eexists. split; [vm_compute; reflexivity|]. split; [vm_compute; reflexivity|]. split.
  - cbn [In]. right. right. right. left. reflexivity.
  - intros H. cbn [In] in H. repeat (destruct H as [H|H]; [discriminate H|]). contradiction.
Qed.
Print Assumptions C94_decimals_refuted.
