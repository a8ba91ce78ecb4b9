(** Property C90 for arcs: pygcode-norm --arc_linearize in floating point. *)
From Coq Require Import Ascii String List Bool Arith ZArith QArith Qcanon Qabs Lia.
From Verif Require Import Base Num BaseFacts Words WordsSpec WordsProofs WordOrder GTable GTableProofs GCode GCodeSpec GCodeProofs GCodeProofs2 PropsGCode Line Position Machine Transform Float64 ArithSpec ModeSpec ModeProofs PropsMode MachSpec MachProofs MachProofs2 MachProofs3 PrintSpec PrintProofs BlockSpec PropsBlock LineProofs2 PropsMach TransSpec TransProofs PropsTrans SimSpec SimProofs PosSpec PosProofs DrillProofs PropsDrill CannedProofs
  Scripts ScriptArgs ScriptsSpec ScriptsSpec2 ScriptsSpec3 ScriptsSpec5 ScriptsSpec6 ScriptsSpec8 ScriptsProofs ScriptsProofs4 ScriptsProofs5 ScriptsProofs8 ScriptsProofs9 ScriptsProofs10 ScriptsProofs12 ScriptsProofs13 ScriptsProofs16 PropsScripts2 PropsScripts3 PropsScripts4 PropsScripts5 PropsScripts7 FloatArc FloatArcSpec FloatArcProofs FloatArcProofs2 PropsFloatArc.
From Verif Require Arc.
Import ListNotations.
Local Open Scope nat_scope.

(** whatever the functions of [math] return: the program with straight moves for its arcs is, after every line of the original, in the
    same place and modes (that of motion aside), no arc is left *)
Theorem C90_arcs_partial : forall (ar : Arith) (L : mathlib) (methods : lin_methods) (precision : Qc) (o : options) (fuel : nat) (file : list text) (m0 : machine) (tr : list (line * machine)),
  accurate ar -> idempotent ar -> lawful L -> expanding o -> o_linearize o = Some (norm_linearize L methods precision) ->
  new_machine xyz false (o_machine_mode o) = Ok m0 -> in_sync m0 -> reading m0 file tr -> Forall (fun x => linearizable L methods precision o (fst x) (snd x)) (from_states m0 tr) ->
  exists out parts, norm o fuel file = (out, Ok tt) /\ reading m0 (printed out) (concat parts) /\ carried_over o fuel m0 tr parts /\ resumed (after m0 tr) (after m0 (concat parts)) /\
    forall x g, In x (concat parts) -> In g (bgcodes (lblock (fst x))) -> ~ derives (gcls g) GCodeArcMove.
Proof.
  intros ar L methods precision o fuel file m0 tr acc ID LW X O E Y R F. destruct (new_machine_sound _ _ _ _ E) as (S & I & _). pose proof (tractable_arcs_reading acc ID L LW methods precision o fuel file O m0 tr (conj S (conj I Y)) R F) as T.
  destruct (C90_whole_partial ar o fuel file m0 tr acc X E R T) as (out & parts & N & RD & CO). destruct (C90_outcome_partial ar o fuel file m0 tr acc X E R T) as (out' & tr' & N' & RD' & RS & NS).
  exists out, parts. split; auto. split; auto. split; auto. rewrite N in N'. injection N' as <-. rewrite (reading_fun _ _ _ _ RD RD'). split; [exact RS|]. intros x g J K D. apply (NS x g J K). left. split; [rewrite O; discriminate|exact D].
Qed.
Print Assumptions C90_arcs_partial.

(** ** deciding [linearizable], for words without free text and lines without program names *)
Definition arc_swapped_b (o : options) (g : gcode) : bool := (match o_linearize o with Some _ => true | None => false end && subclass (gcls g) GCodeArcMove) || swapped_b o g.
Lemma arc_swapped_ex o g : arc_swapped_b o g = true <-> swapped o g.
Proof.
  unfold arc_swapped_b, swapped_b, swapped. rewrite orb_true_iff, !andb_true_iff, named_b, subclass_derives. destruct (o_linearize o); intuition (try congruence).
Qed.
Definition coordinate_b {ar : Arith} (a : axis) (x : Qc) : bool := readable_b (Word (axis_letter a) (VFloat x)).
Definition arc_ready_b {ar : Arith} (L : mathlib) (methods : lin_methods) (precision : Qc) (m : machine) (g : gcode) : bool :=
  subclass (gcls g) GCodeArcMove && negb (is_incremental m) && forallb (fun a => Bool.eqb (vget (m_axes m) a) (vget xyz a)) all_axes &&
  match machine_pos m with
  | Ok p => forallb (fun a => match pget (gparams g) (axis_letter a) with
                              | Some (Word _ (VFloat x)) => coordinate_b a x
                              | Some _ => false
                              | None => match vget (pvals p) a with Some x => coordinate_b a x | None => true end
                              end) [AX; AY; AZ]
  | Raise _ => false
  end &&
  match norm_linearize L methods precision m g with
  | (moves, Ok _) => forallb (fun h => forallb (fun kv => match wvalue (snd kv) with VFloat x => Qcleb x (frac 999999 1) && Qcleb (frac (-999999) 1) x | _ => true end) (gparams h)) moves
  | _ => false
  end.
Definition linearizable_b {ar : Arith} (L : mathlib) (methods : lin_methods) (precision : Qc) (o : options) (m : machine) (l : line) : bool :=
  match block_modal_gcodes m (lblock l) with
  | Raise _ => false
  | Ok gs =>
      match split_at (arc_swapped_b o) gs with
      | None => restylable_b no_options m l
      | Some (a, g, _) =>
          restylable_b with_full m l && match lmacro l with None => true | Some _ => false end &&
          match steps (map gcode_process a) m with (n, Ok _) => arc_ready_b L methods precision n g | _ => false end
      end
  end.
Lemma arc_ready_ex ar L methods precision m g : gcode_wf (ar := ar) g -> arc_ready_b (ar := ar) L methods precision m g = true -> arc_ready (ar := ar) L methods precision m g.
Proof.
  intros W H. unfold arc_ready_b in H. apply andb_prop in H as [H H5]. apply andb_prop in H as [H H4]. apply andb_prop in H as [H H3]. apply andb_prop in H as [H1 H2].
  split; [apply subclass_derives; auto|]. split; [apply absolute_iff; apply negb_true_iff; auto|]. split.
  { apply v9_ext. intros a. rewrite forallb_forall in H3. apply eqb_prop. apply H3. destruct a; cbn; auto 10. }
  destruct (machine_pos m) as [p|]; [|discriminate H4]. split.
  - intros p' a x E J N. injection E as <-. rewrite forallb_forall in H4. specialize (H4 a J). assert (WW : word_wf (Word (axis_letter a) (VFloat x))) by (destruct a; exact I). apply readable_ex; auto. destruct N as [(w & IN & V)|[N V]].
    + apply (pget_in g _ _ (proj1 W)) in IN. rewrite IN in H4. destruct w as [k v]. cbn [wvalue] in V. subst v. exact H4.
    + destruct (pget (gparams g) (axis_letter a)) as [w|] eqn:P; [|rewrite V in H4; exact H4]. exfalso. destruct w as [k [y| |]]; try discriminate H4. apply (pget_in g _ _ (proj1 W)) in P. apply (N y). eexists. split; [exact P|reflexivity].
  - destruct (norm_linearize L methods precision m g) as [moves [[]|]]; [|discriminate H5]. exists moves. split; auto. apply Forall_forall. intros h J a x (w & IN & V). rewrite forallb_forall in H5. specialize (H5 h J). rewrite forallb_forall in H5. specialize (H5 _ IN). cbn [snd] in H5. rewrite V in H5. apply andb_prop in H5 as [A B]. apply Qcleb_le in A, B. apply Qabs_bounds. split; auto.
Qed.
Lemma linearizable_ex ar L methods precision o m l s : ready (ar := ar) m -> mk_line (ar := ar) s = Ok l -> linearizable_b (ar := ar) L methods precision o m l = true -> linearizable (ar := ar) L methods precision o m l.
Proof.
  intros R ML H. unfold linearizable_b in H. destruct (block_modal_gcodes m (lblock l)) as [gs|] eqn:B; [|discriminate H]. exists gs. split; auto. pose proof R as (S & _). destruct (split_at (arc_swapped_b o) gs) as [[[a g] b]|] eqn:SP.
  - right. apply split_some in SP as [E SW]. apply andb_true_iff in H as [H H3]. apply andb_true_iff in H as [H1 H2]. destruct (steps (map gcode_process a) m) as [n [[]|]] eqn:ST; [|discriminate H3].
    apply passes_steps in ST as (ms & PA & LA). subst n. pose proof (modal_wf_any s l m gs ML S B) as W. rewrite E in W. apply Forall_app in W as [Wa W]. inversion W as [|? ? Wg Wb]; subst.
    destruct (restylable_ex _ _ _ _ S ML H1) as (F1 & _ & F2 & F3). exists a, g, b, ms. split; auto. split; [apply arc_swapped_ex; auto|]. split; [split; auto|]. split; [destruct (lmacro l); [discriminate H2|auto]|]. split; auto. apply arc_ready_ex; auto.
  - left. split; [|exact (restylable_faithful _ _ _ S ML H)]. eapply Forall_impl; [|apply (split_none _ _ SP)]. intros g F SW. apply arc_swapped_ex in SW. rewrite F in SW. discriminate SW.
Qed.
Definition all_linearizable (ar : Arith) (L : mathlib) (methods : lin_methods) (precision : Qc) (o : options) (file : list text) : bool :=
  match new_machine (ar := ar) xyz false (o_machine_mode o) with Ok m => sync_b m && each_b (ar := ar) (linearizable_b (ar := ar) L methods precision o) file m | _ => false end.
Lemma all_linearizable_ex ar L methods precision o file : all_linearizable ar L methods precision o file = true ->
  exists m tr, new_machine (ar := ar) xyz false (o_machine_mode o) = Ok m /\ in_sync m /\ reading (ar := ar) m file tr /\ Forall (fun x => linearizable (ar := ar) L methods precision o (fst x) (snd x)) (from_states m tr).
Proof.
  unfold all_linearizable. destruct (new_machine (ar := ar) xyz false (o_machine_mode o)) as [m|] eqn:E; [|discriminate]. intros H. apply andb_true_iff in H as [Y H]. apply sync_ex in Y. destruct (new_machine_sound _ _ _ _ E) as (S & I & _).
  destruct (each_ready _ file m (conj S (conj I Y)) H) as (tr & R & F). exists m, tr. split; auto. split; auto. split; auto. eapply Forall_impl; [|exact F]. intros x (A & B & s & ML). eapply linearizable_ex; eauto.
Qed.
(** --arc_linearize --arc_lin_method i, with the functions of PropsFloatArc.v *)
Definition inside_arcs : lin_methods := match arc_lin_method_type (ar := binary64) (t "i") with Ok d => d | Raise _ => DefaultMid end.
Definition linearize64 : options := Options false false norm_machine_mode (Some (norm_linearize (ar := binary64) quarters inside_arcs (frac 1 200))) false (default_canned_codes (ar := binary64)) false false None false false false false [] false.
Definition arc_file : list text := lines ["G0 X1 Z5 (up)"; "M3 G2 X3 I1 Z4 F100 (half round)"; "X5.5 Z4 I1.25 ; again"; "%macro%"; "G1 X7.125"; "G3 Y-0.25 J-0.125"]%string.
Example C90_arcs_ex : let o := linearize64 in accurate binary64 /\ idempotent binary64 /\ lawful quarters /\ expanding (ar := binary64) o /\ o_linearize o = Some (norm_linearize (ar := binary64) quarters inside_arcs (frac 1 200)) /\ (exists m tr, new_machine (ar := binary64) xyz false (o_machine_mode o) = Ok m /\ in_sync m /\ reading (ar := binary64) m arc_file tr /\
  Forall (fun x => linearizable (ar := binary64) quarters inside_arcs (frac 1 200) o (fst x) (snd x)) (from_states m tr)) /\
  norm (ar := binary64) o 100 arc_file = (map t ["G00 X1 Z5 (up)"; "F100 M03"; "; linearized arc: <GCodeArcMoveCW: G02{I1, X3, Z4}>"; "G01 X2 Y1 Z4.5"; "    X3 Y0 Z4"; "(half round)";
    "; linearized arc: <GCodeArcMoveCW: G02{I1.25, X5.5, Z4}>"; "G01 X4.25 Y1.25 Z4"; "    X5.5 Y0 Z4"; "; again"; "%macro%"; "G01 X7.125";
    "; linearized arc: <GCodeArcMoveCCW: G03{J-0.125, Y-0.25}>"; "G01 X7 Y-0.125 Z4"; "    X7.125 Y-0.25 Z4"]%string, Ok tt).
Proof.
  intros o. split; [exact binary64_accurate|]. split; [exact binary64_idempotent|]. split; [exact quarters_lawful|]. split; [|split; [reflexivity|split; [apply all_linearizable_ex; vm_compute; reflexivity|vm_compute; reflexivity]]].
  repeat (split; [reflexivity|]). intros g W N. exact (default_cycles g binary64_accurate W N).
Qed.
(** ** where the promise is not kept *)
(** a full circle without end point is no command the script can replace: it stops with a traceback, the rest of the program unprinted *)
Theorem C90_circle_refuted : exists file x, run_file file = Ok x /\ snd x = map t ["0"; "0"; "7"]%string /\
  norm (ar := binary64) linearize64 100 file = (map t ["G00 X0 Y0"; "; linearized arc: <GCodeArcMoveCW: G02{I1}>"]%string, Raise ENameError).
Proof. exists (lines ["G0 X0 Y0"; "G2 I1"; "G0 Z7"]%string). eexists. split; [vm_compute; reflexivity|]. split; [vm_compute; reflexivity|]. vm_compute. reflexivity. Qed.
Print Assumptions C90_circle_refuted.
