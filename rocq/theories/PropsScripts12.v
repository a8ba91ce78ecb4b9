(** Property C96: the paths of the programs pygcode-norm --arc_linearize prints, in floating point. *)
From Coq Require Import Ascii String List Bool ZArith QArith Qcanon Qabs Qreals Reals Lia Lra.
From Verif Require Import Base Num BaseFacts Words WordsSpec WordOrder GTable GTableProofs GCode GCodeSpec PropsGCode Line Position Machine Transform Float64 ArithSpec ModeSpec ModeProofs MachSpec MachProofs MachProofs2 MachProofs3 PrintSpec PrintProofs BlockSpec PropsBlock TransSpec TransProofs PropsTrans SimSpec SimProofs PosSpec PosProofs DrillProofs PropsDrill CannedProofs
  Scripts ScriptArgs ScriptsSpec ScriptsSpec2 ScriptsSpec3 ScriptsSpec5 ScriptsSpec6 ScriptsSpec8 ScriptsSpec10 ScriptsProofs8 ScriptsProofs12 ScriptsProofs16 ScriptsProofs18 PropsScripts2 PropsScripts3 PropsScripts4 PropsScripts5 PropsScripts7 PropsScripts9.
From Verif Require Import Arc ArcSpec FloatArc FloatArcSpec FloatArcSpec3 FloatArcProofs FloatArcProofs5 PropsFloatArc PropsFloatArc2 Lib64 PropsFloatArc4.
Import ListNotations.
Open Scope R_scope.

(** rounding and the functions of [math] right up to [u]: the program printed can be read, no arc is left in it, and wherever there was an
    ordinary arc (absolute mode, XY plane) the machine starts from its start and passes through points that cut it to the precision, the
    errors of the calculation (1500 * u * M) and of printing three decimals, ending in its end up to that of printing *)
Theorem C96_cuts : forall (ar : Arith) (L : mathlib) (u i : R) (methods : lin_methods) (precision : Qc) (o : options) (fuel : nat) (file : list text) (m0 : machine) (tr : list (line * machine)),
  accurate ar -> idempotent ar -> lawful L -> close_to_real ar L u i -> 0 < u <= / 1000000 -> 0 < i <= u ->
  expanding o -> o_linearize o = Some (norm_linearize L methods precision) ->
  new_machine xyz false (o_machine_mode o) = Ok m0 -> in_sync m0 -> reading m0 file tr -> Forall (fun x => linearizable L methods precision o (fst x) (snd x)) (from_states m0 tr) ->
  exists out parts, Scripts.norm o fuel file = (out, Ok tt) /\ reading m0 (printed out) (concat parts) /\ cut_lines u methods precision o m0 tr parts /\
    forall x g, In x (concat parts) -> In g (bgcodes (lblock (fst x))) -> ~ derives (gcls g) GCodeArcMove.
Proof.
  intros ar L u i methods precision o fuel file m0 tr acc ID LW C U I X O E Y R F. destruct (new_machine_sound _ _ _ _ E) as (S & IN & OF & AX3 & _).
  destruct (C90_arcs_partial ar L methods precision o fuel file m0 tr acc ID LW X O E Y R F) as (out & parts & N & RD & CO & _ & NA). exists out, parts. split; auto. split; auto. split; auto.
  apply (lines_cut acc ID L u i C U I LW methods precision o fuel file O m0 tr parts); auto; [split; [split; auto|split; auto]|]. intros k K. exact (new_offsets _ _ _ _ _ E K).
Qed.
Print Assumptions C96_cuts.

(** ** a program with an ordinary arc, the functions of Lib64.v and --arc_precision 0.5 *)
Definition norm_lib64 : options := Options false false norm_machine_mode (Some (norm_linearize (ar := binary64) lib64 inside_arcs (frac 1 2))) false (default_canned_codes (ar := binary64)) false false None false false false false [] false.
Definition round_file : list text := lines ["M3 G2 X1 Y-1 I1 (three quarters)"; "G0 Z5"]%string.
(** the state the script starts in *)
Definition norm_starts_b : bool :=
  match new_machine (ar := binary64) xyz false norm_machine_mode with
  | Ok m =>
      match machine_pos (ar := binary64) m with
      | Ok p => forallb (fun a => match vget (pvals p) a with Some x => Qceqb x (frac 0 1) | None => false end) [AX; AY; AZ]
      | Raise _ => false
      end && negb (is_incremental m) && match mode_class m MG_plane_selection with Some GCodeSelectXYPlane => true | _ => false end && match mode_class m MG_arc_ijk_distance with Some d => subclass d GCodeIncrementalArcDistanceMode | None => true end
  | Raise _ => false
  end.
Lemma norm_starts m : norm_starts_b = true -> new_machine (ar := binary64) xyz false norm_machine_mode = Ok m ->
  stands_at (ar := binary64) m (V3 0 0 0) /\ absolute m /\ plane_is (mode_class m MG_plane_selection) GCodeSelectXYPlane /\ arc_dist_is (mode_class m MG_arc_ijk_distance) true.
Proof.
  unfold norm_starts_b. intros H E. rewrite E in H. apply andb_prop in H as [H H4]. apply andb_prop in H as [H H3]. apply andb_prop in H as [H1 H2]. split.
  - destruct (machine_pos (ar := binary64) m) as [p|] eqn:P; [|discriminate H1]. exists p. split; auto. rewrite forallb_forall in H1. assert (Z : forall a, In a [AX; AY; AZ] -> vget (pvals p) a = Some (frac 0 1)). { intros a J. specialize (H1 a J). destruct (vget (pvals p) a) as [x|]; [|discriminate H1]. apply Qceqb_eq in H1. congruence. }
    exists (frac 0 1), (frac 0 1), (frac 0 1). rewrite !Z by (cbn; auto). rewrite (q_lit 0 1 0) by lra. auto.
  - split; [apply absolute_iff; apply negb_true_iff; exact H2|]. split.
    + left. destruct (mode_class m MG_plane_selection) as [[]|]; try discriminate H3. reflexivity.
    + destruct (mode_class m MG_arc_ijk_distance) as [d|]; [right; exists d; split; auto; apply subclass_derives; exact H4|left; reflexivity].
Qed.
Example C96_cuts_ex : let o := norm_lib64 in
  accurate binary64 /\ idempotent binary64 /\ lawful lib64 /\ close_to_real binary64 lib64 u64 u64 /\ 0 < u64 <= / 1000000 /\ expanding (ar := binary64) o /\ o_linearize o = Some (norm_linearize (ar := binary64) lib64 inside_arcs (frac 1 2)) /\
  (exists m tr, new_machine (ar := binary64) xyz false (o_machine_mode o) = Ok m /\ in_sync m /\ reading (ar := binary64) m round_file tr /\ Forall (fun x => linearizable (ar := binary64) lib64 inside_arcs (frac 1 2) o (fst x) (snd x)) (from_states m tr)) /\
  (forall m, new_machine (ar := binary64) xyz false (o_machine_mode o) = Ok m -> ordinary (ar := binary64) u64 1 (Qc2R (frac 1 2)) m three_quarters true (V3 0 0 0) (V3 1 (-1) 0)) /\
  print_error (4 * 1 + Qc2R (frac 1 2)) = / 1999 /\ 1500 * u64 * 1 + 3 / 2 * / 1999 <= / 1000 /\
  Scripts.norm (ar := binary64) o 100 round_file = (map t ["M03"; "; linearized arc: <GCodeArcMoveCW: G02{I1, X1, Y-1}>"; "G01 X1 Y1 Z0"; "    X2 Y-0 Z0"; "    X1 Y-1 Z0"; "(three quarters)"; "G00 Z5"]%string, Ok tt).
Proof.
  intros o. destruct C95_path_ex as (_ & _ & LW & CR & U & W & (FL & _) & _ & TG & _ & _ & _ & PM & QM & RR & GM & AP & EL & _). split; [exact binary64_accurate|]. split; [exact binary64_idempotent|]. split; [exact LW|]. split; [exact CR|]. split; [exact U|].
  split; [repeat (split; [reflexivity|]); intros g Wg N; exact (default_cycles g binary64_accurate Wg N)|]. split; [reflexivity|]. split; [apply all_linearizable_ex; vm_compute; reflexivity|]. split; [|split; [|split; [|vm_compute; reflexivity]]].
  - intros m E. destruct (norm_starts m) as (ST & AB & PL & AD); [vm_compute; reflexivity|exact E|]. split; [apply subclass_derives; vm_compute; reflexivity|]. split; [exact FL|]. repeat (split; [first [assumption|lra]|]). rewrite (q_lit 1 2 (/ 2)) by lra. lra.
  - unfold print_error. rewrite (q_lit 1 2 (/ 2)) by lra. destruct (Rle_dec (4 * 1 + / 2) 999); lra.
  - unfold u64. lra.
Qed.
