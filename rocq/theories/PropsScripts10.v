(** Property C90 for arcs in incremental mode: pygcode-norm --arc_linearize, in exact arithmetic; what rounding breaks. *)
From Coq Require Import Ascii String List Bool Arith ZArith QArith Qcanon Qabs Lia Lqa.
From Verif Require Import Base Num BaseFacts Words WordsSpec WordsProofs WordOrder GTable GTableProofs GCode GCodeSpec GCodeProofs GCodeProofs2 PropsGCode Line Position Machine Transform Float64 ArithSpec ModeSpec ModeProofs PropsMode MachSpec MachProofs MachProofs2 MachProofs3 PrintSpec PrintProofs BlockSpec PropsBlock LineProofs2 PropsMach TransSpec TransProofs PropsTrans SimSpec SimProofs PosSpec PosProofs DrillProofs PropsDrill CannedProofs
  Scripts ScriptArgs ScriptsSpec ScriptsSpec2 ScriptsSpec3 ScriptsSpec5 ScriptsSpec6 ScriptsSpec8 ScriptsSpec9 ScriptsProofs ScriptsProofs4 ScriptsProofs5 ScriptsProofs8 ScriptsProofs9 ScriptsProofs10 ScriptsProofs12 ScriptsProofs13 ScriptsProofs16 ScriptsProofs17 PropsScripts2 PropsScripts3 PropsScripts4 PropsScripts5 PropsScripts7 PropsScripts9 FloatArc FloatArcSpec FloatArcProofs FloatArcProofs2 PropsFloatArc PropsFloatArc2.
From Verif Require Arc.
Import ListNotations.
Local Open Scope nat_scope.

(** without rounding, whatever the functions of [math] return, also in incremental mode: the program with straight moves for its arcs is,
    after every line of the original, in the same place and modes (that of motion aside), no arc is left *)
Theorem C90_increments_partial : forall (L : mathlib) (methods : lin_methods) (precision : Qc) (o : options) (fuel : nat) (file : list text) (m0 : machine) (tr : list (line * machine)),
  lawful L -> expanding (ar := exact_arith) o -> o_linearize o = Some (norm_linearize (ar := exact_arith) L methods precision) ->
  new_machine (ar := exact_arith) xyz false (o_machine_mode o) = Ok m0 -> in_sync m0 -> reading (ar := exact_arith) m0 file tr -> Forall (fun x => linearizable_either (ar := exact_arith) L methods precision o (fst x) (snd x)) (from_states m0 tr) ->
  exists out parts, norm (ar := exact_arith) o fuel file = (out, Ok tt) /\ reading (ar := exact_arith) m0 (printed out) (concat parts) /\ carried_over (ar := exact_arith) o fuel m0 tr parts /\ resumed (after m0 tr) (after m0 (concat parts)) /\
    forall x g, In x (concat parts) -> In g (bgcodes (lblock (fst x))) -> ~ derives (gcls g) GCodeArcMove.
Proof.
  intros L methods precision o fuel file m0 tr LW X O E Y R F. destruct (new_machine_sound (ar := exact_arith) _ _ _ _ E) as (S & I & _). pose proof (tractable_either_reading L methods precision o fuel file LW O m0 tr (conj S (conj I Y)) R F) as T.
  destruct (C90_whole_partial exact_arith o fuel file m0 tr exact_accurate X E R T) as (out & parts & N & RD & CO). destruct (C90_outcome_partial exact_arith o fuel file m0 tr exact_accurate X E R T) as (out' & tr' & N' & RD' & RS & NS).
  exists out, parts. split; auto. split; auto. split; auto. rewrite N in N'. injection N' as <-. rewrite (reading_fun (ar := exact_arith) _ _ _ _ RD RD'). split; [exact RS|]. intros x g J K D. apply (NS x g J K). left. split; [rewrite O; discriminate|exact D].
Qed.
Print Assumptions C90_increments_partial.

(** ** deciding [linearizable_either] *)
Section Decide.
Local Existing Instance exact_arith.
Definition steps_ready_b (L : mathlib) (methods : lin_methods) (precision : Qc) (m : machine) (g : gcode) : bool :=
  subclass (gcls g) GCodeArcMove && is_incremental m && forallb (fun a => Bool.eqb (vget (m_axes m) a) (vget xyz a)) all_axes &&
  forallb (fun kv => match wvalue (snd kv) with VFloat x => Qceqb x (frac (rhe (this x * 1000)) 1000) | _ => true end) (gparams g) &&
  match norm_linearize L methods precision m g with
  | (moves, Ok _) => forallb (fun h => forallb (fun kv => match wvalue (snd kv) with VFloat x => Qcltb x (frac 1000 1) && Qcltb (frac (-1000) 1) x | _ => true end) (gparams h)) moves
  | _ => false
  end.
Definition either_b (L : mathlib) (methods : lin_methods) (precision : Qc) (o : options) (m : machine) (l : line) : bool :=
  match block_modal_gcodes m (lblock l) with
  | Raise _ => false
  | Ok gs =>
      match split_at (arc_swapped_b o) gs with
      | None => restylable_b no_options m l
      | Some (a, g, _) =>
          restylable_b with_full m l && match lmacro l with None => true | Some _ => false end &&
          match steps (map gcode_process a) m with (n, Ok _) => arc_ready_b L methods precision n g || steps_ready_b L methods precision n g | _ => false end
      end
  end.
Lemma steps_ready_ex L methods precision m g : steps_ready_b L methods precision m g = true -> steps_ready L methods precision m g.
Proof.
  intros H. unfold steps_ready_b in H. apply andb_prop in H as [H H5]. apply andb_prop in H as [H H4]. apply andb_prop in H as [H H3]. apply andb_prop in H as [H1 H2].
  split; [apply subclass_derives; auto|]. split; [apply is_incremental_iff; auto|]. split.
  { apply v9_ext. intros a. rewrite forallb_forall in H3. apply eqb_prop. apply H3. destruct a; cbn; auto 10. }
  split.
  - intros a x _ (w & J & V). rewrite forallb_forall in H4. specialize (H4 _ J). cbn [snd] in H4. rewrite V in H4. apply Qceqb_eq in H4. eauto.
  - destruct (norm_linearize L methods precision m g) as [moves [[]|]]; [|discriminate H5]. exists moves. split; auto. apply Forall_forall. intros h J a x (w & IN & V). rewrite forallb_forall in H5. specialize (H5 h J). rewrite forallb_forall in H5. specialize (H5 _ IN). cbn [snd] in H5. rewrite V in H5. apply andb_prop in H5 as [A B]. apply Qcltb_lt in A, B. unfold Qclt in A, B. rewrite this_frac in A, B. apply Qabs_case; intros; lra.
Qed.
Lemma either_ex L methods precision o m l s : ready m -> mk_line s = Ok l -> either_b L methods precision o m l = true -> linearizable_either L methods precision o m l.
Proof.
  intros R ML H. unfold either_b in H. destruct (block_modal_gcodes m (lblock l)) as [gs|] eqn:B; [|discriminate H]. exists gs. split; auto. pose proof R as (S & _). destruct (split_at (arc_swapped_b o) gs) as [[[a g] b]|] eqn:SP.
  - right. apply split_some in SP as [E SW]. apply andb_true_iff in H as [H H3]. apply andb_true_iff in H as [H1 H2]. destruct (steps (map gcode_process a) m) as [n [[]|]] eqn:ST; [|discriminate H3].
    apply passes_steps in ST as (ms & PA & LA). subst n. pose proof (modal_wf_any s l m gs ML S B) as W. rewrite E in W. apply Forall_app in W as [Wa W]. inversion W as [|? ? Wg Wb]; subst.
    destruct (restylable_ex _ _ _ _ S ML H1) as (F1 & _ & F2 & F3). exists a, g, b, ms. split; auto. split; [apply arc_swapped_ex; auto|]. split; [split; auto|]. split; [destruct (lmacro l); [discriminate H2|auto]|]. split; auto. apply orb_true_iff in H3 as [H3|H3]; [left; apply arc_ready_ex; auto|right; apply steps_ready_ex; auto].
  - left. split; [|exact (restylable_faithful _ _ _ S ML H)]. eapply Forall_impl; [|apply (split_none _ _ SP)]. intros g F SW. apply arc_swapped_ex in SW. rewrite F in SW. discriminate SW.
Qed.
Definition all_either (L : mathlib) (methods : lin_methods) (precision : Qc) (o : options) (file : list text) : bool :=
  match new_machine xyz false (o_machine_mode o) with Ok m => sync_b m && each_b (either_b L methods precision o) file m | _ => false end.
Lemma all_either_ex L methods precision o file : all_either L methods precision o file = true ->
  exists m tr, new_machine xyz false (o_machine_mode o) = Ok m /\ in_sync m /\ reading m file tr /\ Forall (fun x => linearizable_either L methods precision o (fst x) (snd x)) (from_states m tr).
Proof.
  unfold all_either. destruct (new_machine xyz false (o_machine_mode o)) as [m|] eqn:E; [|discriminate]. intros H. apply andb_true_iff in H as [Y H]. apply sync_ex in Y. destruct (new_machine_sound _ _ _ _ E) as (S & I & _).
  destruct (each_ready _ file m (conj S (conj I Y)) H) as (tr & R & F). exists m, tr. split; auto. split; auto. split; auto. eapply Forall_impl; [|exact F]. intros x (A & B & s & ML). eapply either_ex; eauto.
Qed.
Definition linearizex : options := Options false false norm_machine_mode (Some (norm_linearize quarters inside_arcs (frac 1 200))) false (default_canned_codes) false false None false false false false [] false.
Definition step_file : list text := lines ["G0 X1 Z5 (up)"; "G2 X3 I1 Z4 F100"; "G91 (by steps)"; "M3 G2 X2.018 I1.009 Z-1"; "X2.5 I1.25 ; again"; "G1 X7.125"; "G90 G3 Y-0.25 J-0.125"]%string.
End Decide.
Example C90_increments_ex : let o := linearizex in lawful quarters /\ expanding (ar := exact_arith) o /\ o_linearize o = Some (norm_linearize (ar := exact_arith) quarters inside_arcs (frac 1 200)) /\ (exists m tr, new_machine (ar := exact_arith) xyz false (o_machine_mode o) = Ok m /\ in_sync m /\ reading (ar := exact_arith) m step_file tr /\
  Forall (fun x => linearizable_either (ar := exact_arith) quarters inside_arcs (frac 1 200) o (fst x) (snd x)) (from_states m tr)) /\
  norm (ar := exact_arith) o 100 step_file = (map t ["G00 X1 Z5 (up)"; "F100"; "; linearized arc: <GCodeArcMoveCW: G02{I1, X3, Z4}>"; "G01 X2 Y1 Z4.5"; "    X3 Y0 Z4"; "G91 (by steps)"; "M03"; "; linearized arc: <GCodeArcMoveCW: G02{I1.009, X2.018, Z-1}>"; "G01 X1.009 Y1.009 Z-0.5"; "    X1.009 Y-1.009 Z-0.5";
    "; linearized arc: <GCodeArcMoveCW: G02{I1.25, X2.5}>"; "G01 X1.25 Y1.25 Z0"; "    X1.25 Y-1.25 Z0"; "; again"; "G01 X7.125"; "G90"; "; linearized arc: <GCodeArcMoveCCW: G03{J-0.125, Y-0.25}>"; "G01 X14.518 Y-0.125 Z3"; "    X14.643 Y-0.25 Z3"]%string, Ok tt).
Proof.
  intros o. split; [exact quarters_lawful|]. split; [|split; [reflexivity|split; [apply all_either_ex; vm_compute; reflexivity|vm_compute; reflexivity]]].
  repeat (split; [reflexivity|]). intros g W N. exact (default_cycles (ar := exact_arith) g exact_accurate W N).
Qed.
(** ** rounding, the functions of [math] as right as they can be *)
Definition right_arcs : options := Options false false norm_machine_mode (Some (norm_linearize (ar := binary64) right64 inside_arcs (frac 1 200))) false (default_canned_codes (ar := binary64)) false false None false false false false [] false.
(** a half circle that rounding takes for impossible: the script stops, the rest of the program unprinted *)
Theorem C90_half_circle_refuted : exists file x, run_file file = Ok x /\ snd x = map t ["0.09"; "0"; "7"]%string /\
  norm (ar := binary64) right_arcs 100 file = (map t ["G00 X0.01"; "; linearized arc: <GCodeArcMoveCW: G02{I0.04, X0.09}>"]%string, Raise EGCodeParameterError).
Proof. exists (lines ["G0 X0.01"; "G2 X0.09 I0.04"; "G0 Z7"]%string). eexists. split; [vm_compute; reflexivity|]. split; vm_compute; reflexivity. Qed.
Print Assumptions C90_half_circle_refuted.
(** the X coordinate after a file *)
Definition final_x (file : list text) (x : Qc) : Prop := exists m0 tr, new_machine (ar := binary64) xyz false norm_machine_mode = Ok m0 /\ reading (ar := binary64) m0 file tr /\ pval (m_abs (after m0 tr)) AX = x.
Definition final_x_b (file : list text) (x : Qc) : bool :=
  match new_machine (ar := binary64) xyz false norm_machine_mode with
  | Ok m => match steps (map (process_str (ar := binary64)) file) m with (m', Ok _) => Qceqb (pval (m_abs m') AX) x | (_, Raise _) => false end
  | Raise _ => false
  end.
Lemma final_x_ex file x : final_x_b file x = true -> final_x file x.
Proof.
  unfold final_x_b, final_x. destruct (new_machine (ar := binary64) xyz false norm_machine_mode) as [m|]; [|discriminate]. destruct (steps (map process_str file) m) as [m' [[]|]] eqn:E; [|discriminate]. intros Q. apply Qceqb_eq in Q.
  apply steps_reading in E as (tr & R & A). exists m, tr. split; auto. split; auto. rewrite A. exact Q.
Qed.
(** in incremental mode the program printed may end a rounding error beside the end of the original, though its decimals add up (C92_decimal) *)
Theorem C90_rounding_refuted : exists file out x y, norm (ar := binary64) right_arcs 100 file = (out, Ok tt) /\ out = map t ["G91"; "; linearized arc: <GCodeArcMoveCW: G02{I0.059, X0.117}>"; "G01 X0.059 Y0.059 Z0"; "    X0.058 Y-0.059 Z0"]%string /\
  final_x file x /\ final_x (printed out) y /\ x <> y.
Proof.
  exists (lines ["G91"; "G2 X0.117 I0.0585"]%string). eexists. exists (rnd64 (frac 117 1000)), (rnd64 (rnd64 (frac 59 1000) + rnd64 (frac 58 1000))%Qc). split; [vm_compute; reflexivity|]. split; [vm_compute; reflexivity|].
  split; [apply final_x_ex; vm_compute; reflexivity|]. split; [apply final_x_ex; vm_compute; reflexivity|]. intros E. apply (f_equal (fun x => Qceqb x (rnd64 (frac 117 1000)))) in E. vm_compute in E. discriminate E.
Qed.
Print Assumptions C90_rounding_refuted.
