(** Property C97: what pygcode-norm --canned_expand prints for drilling cycles in absolute mode, in floating point. *)
From Coq Require Import Ascii String List Bool Arith ZArith QArith Qcanon Qabs Lia.
From Verif Require Import Base Num BaseFacts Words WordsSpec WordsProofs WordOrder GTable GTableProofs GCode GCodeSpec GCodeProofs GCodeProofs2 PropsGCode Line Position Machine Transform Float64 ArithSpec ModeSpec ModeProofs PropsMode MachSpec MachProofs MachProofs2 MachProofs3 PrintSpec PrintProofs BlockSpec PropsBlock LineProofs2 PropsMach TransSpec TransProofs PropsTrans SimSpec SimProofs PosSpec PosProofs DrillSpec DrillProofs PropsDrill CannedProofs
  Scripts ScriptArgs ScriptsSpec ScriptsSpec2 ScriptsSpec3 ScriptsSpec5 ScriptsSpec6 ScriptsSpec8 ScriptsSpec11 ScriptsProofs ScriptsProofs4 ScriptsProofs5 ScriptsProofs8 ScriptsProofs9 ScriptsProofs10 ScriptsProofs12 ScriptsProofs13 ScriptsProofs16 ScriptsProofs19 ScriptsProofs20 PropsScripts2 PropsScripts3 PropsScripts4 PropsScripts5 PropsScripts7 FloatArc FloatArcSpec FloatArcProofs FloatArcProofs2 PropsFloatArc PropsScripts9.
From Verif Require Arc.
Import ListNotations.
Local Open Scope nat_scope.

(** with any rounding that is accurate, monotone, idempotent and odd and whatever the functions of [math] return: the program with straight
    moves for its drilling cycles (and arcs) is, after every line of the original, in the same place and modes (that of motion aside),
    none of the commands to be replaced is left, and the drilling as it is printed and read again is safe and complete *)
Theorem C97_drilling : forall (ar : Arith) (L : mathlib) (methods : lin_methods) (precision : Qc) (o : options) (fuel : nat) (file : list text) (m0 : machine) (tr : list (line * machine)),
  accurate ar -> monotone ar -> idempotent ar -> odd ar -> lawful L -> expanding o -> (forall f, o_linearize o = Some f -> f = norm_linearize L methods precision) ->
  new_machine xyz false (o_machine_mode o) = Ok m0 -> in_sync m0 -> reading m0 file tr -> Forall (fun x => replaceable L methods precision o fuel (fst x) (snd x)) (from_states m0 tr) ->
  exists out parts, norm o fuel file = (out, Ok tt) /\ reading m0 (printed out) (concat parts) /\ carried_over o fuel m0 tr parts /\ resumed (after m0 tr) (after m0 (concat parts)) /\
    drilled_lines o fuel m0 tr parts /\ forall x g, In x (concat parts) -> In g (bgcodes (lblock (fst x))) -> ~ swapped o g.
Proof.
  intros ar L methods precision o fuel file m0 tr acc MO ID OD LW X O E Y R F. assert (LA : laws) by (split; auto). destruct (new_machine_sound _ _ _ _ E) as (S & I & _). pose proof (fun k K => new_offsets _ _ _ _ k E K) as OK.
  pose proof (tractable_both_reading acc LA L LW methods precision o fuel file X O m0 tr (conj S (conj I Y)) OK R F) as T.
  destruct (C90_whole_partial ar o fuel file m0 tr acc X E R T) as (out & parts & N & RD & CO). destruct (C90_outcome_partial ar o fuel file m0 tr acc X E R T) as (out' & tr' & N' & RD' & RS & NS).
  exists out, parts. split; auto. split; auto. split; auto. rewrite N in N'. injection N' as <-. rewrite (reading_fun _ _ _ _ RD RD'). split; [exact RS|]. split; [|exact NS].
  rewrite <- (reading_fun _ _ _ _ RD RD') in *. apply (lines_drilled acc LA o fuel file); auto. split; auto.
Qed.
Print Assumptions C97_drilling.

(** ** deciding [replaceable], for words without free text and lines without program names *)
Definition up_to (n : Z) (x : Qc) : bool := Qcleb x (frac n 1) && Qcleb (frac (- n) 1) x.
Definition z_readable_b {ar : Arith} (z : Qc) : bool := readable_b (Word LZ (VFloat z)) && up_to 998 z.
Definition drill_ready_b {ar : Arith} (fuel : nat) (m : machine) (g : gcode) : option (job * nat * Qc) :=
  match machine_pos m with
  | Raise _ => None
  | Ok p =>
      match param g LX, param g LY, param g LZ, param g LR, vget (pvals p) AZ with
      | Some (VFloat x), Some (VFloat y), Some (VFloat z), Some (VFloat r), Some z0 =>
          if drillable_b m g && negb (Qcltb r z) && coordinate_b AX x && coordinate_b AY y && z_readable_b z && z_readable_b r && z_readable_b z0 &&
             negb (is_incremental m) && forallb (fun a => Bool.eqb (vget (m_axes m) a) (vget xyz a)) all_axes &&
             match simplify_canned_cycle fuel g p (mode_class m MG_plane_selection) (mode_class m MG_distance) None (m_axes m) with Some _ => true | None => false end
          then Some (Job r z (fun _ => x) (fun _ => y), match param g LL with Some (VInt k) => Z.to_nat k | _ => 1 end, z0) else None
      | _, _, _, _, _ => None
      end
  end.
Lemma up_to_ex n x : up_to n x = true -> (Qabs (this x) <= inject_Z n)%Q.
Proof. unfold up_to. intros H. apply andb_prop in H as [A B]. apply Qcleb_le in A, B. unfold Qcle in A, B. rewrite this_frac in A, B. apply Qabs_bounds. split; [|exact A]. rewrite <- inject_Z_opp. exact B. Qed.
Lemma param_unique {ar : Arith} g l v w : gcode_wf g -> param g l = Some v -> In (l, w) (gparams g) -> wvalue w = v.
Proof. intros (LG & _) P I. apply param_in in P as (w' & I' & V). apply (pget_in g l w LG) in I. apply (pget_in g l w' LG) in I'. congruence. Qed.
Lemma z_readable_ex {ar : Arith} z : z_readable_b z = true -> readable (Word LZ (VFloat z)) /\ (Qabs (this z) <= 998)%Q.
Proof. unfold z_readable_b. intros H. apply andb_prop in H as [A B]. split; [apply readable_ex; [exact I|exact A]|apply (up_to_ex 998 z B)]. Qed.
Lemma drill_ready_ex {ar : Arith} fuel m g j n z0 : gcode_wf g -> drill_ready_b fuel m g = Some (j, n, z0) -> drill_ready fuel m g j n z0.
Proof.
  intros W H. unfold drill_ready_b in H. destruct (machine_pos m) as [p|] eqn:EP; [|discriminate H]. destruct (param g LX) as [[x| |]|] eqn:QX; try discriminate H. destruct (param g LY) as [[y| |]|] eqn:QY; try discriminate H. destruct (param g LZ) as [[z| |]|] eqn:QZ; try discriminate H. destruct (param g LR) as [[r| |]|] eqn:QR; try discriminate H. destruct (vget (pvals p) AZ) as [z1|] eqn:VZ; [|discriminate H].
  destruct (_ && _) eqn:B in H; [|discriminate H]. injection H as <- <- <-. apply andb_prop in B as [B B10]. apply andb_prop in B as [B B9]. apply andb_prop in B as [B B8]. apply andb_prop in B as [B B7]. apply andb_prop in B as [B B6]. apply andb_prop in B as [B B5]. apply andb_prop in B as [B B4]. apply andb_prop in B as [B B3]. apply andb_prop in B as [B1 B2].
  destruct (drillable_ex m g B1) as (C & CO & (n & AS & NP) & NA & NM & NR & _). apply z_readable_ex in B5 as [RD BD], B6 as [RR BR], B7 as [RZ BZ]. apply negb_true_iff in B2, B8. apply Qcltb_ge in B2.
  assert (NN : asked g (match param g LL with Some (VInt k) => Z.to_nat k | _ => 1 end) /\ 0 < match param g LL with Some (VInt k) => Z.to_nat k | _ => 1 end).
  { destruct AS as [(w & k & I & V & ->)|[N ->]].
    - destruct (param g LL) as [v|] eqn:QL; [|exfalso; eapply param_none; eauto]. pose proof (param_unique g LL v w W QL I) as E. rewrite V in E. subst v. split; [left; exists w, k; auto|exact NP].
    - destruct (param g LL) as [v|] eqn:QL; [apply param_in in QL as (w & I & _); destruct (N w I)|]. split; [right; auto|lia]. }
  split; auto. split; auto. split; [apply NN|]. split; [apply NN|]. split. { exists x, y. split; [exact (param_in _ _ _ QX)|]. split; [exact (param_in _ _ _ QY)|]. split; [exact (param_in _ _ _ QZ)|]. split; [exact (param_in _ _ _ QR)|]. intros i. split; reflexivity. }
  split; auto. split.
  { intros a v N. split; [exact (NA a v N)|]. destruct N as (w & I & V). pose proof (NA a v (ex_intro _ w (conj I V))) as J. destruct J as [<-|[<-|[<-|[]]]].
    - pose proof (param_unique g LX _ w W QX I) as E. rewrite V in E. injection E as ->. apply readable_ex; [exact Logic.I|exact B3].
    - pose proof (param_unique g LY _ w W QY I) as E. rewrite V in E. injection E as ->. apply readable_ex; [exact Logic.I|exact B4].
    - pose proof (param_unique g LZ _ w W QZ I) as E. rewrite V in E. injection E as ->. exact RD. }
  split; auto. split; auto. split; auto. split; auto. split; auto. split; [apply absolute_iff; auto|]. split. { apply v9_ext. intros a. rewrite forallb_forall in B9. apply eqb_prop. apply B9. destruct a; cbn; auto 10. }
  split; auto. split; auto. destruct (simplify_canned_cycle _ _ _ _ _ _ _) as [[moves rr]|] eqn:SI; [|discriminate B10]. exists p, moves, rr. split; auto.
Qed.
Definition replaceable_b {ar : Arith} (L : mathlib) (methods : lin_methods) (precision : Qc) (o : options) (fuel : nat) (m : machine) (l : line) : bool :=
  match block_modal_gcodes m (lblock l) with
  | Raise _ => false
  | Ok gs =>
      match split_at (arc_swapped_b o) gs with
      | None => restylable_b no_options m l
      | Some (a, g, _) =>
          restylable_b with_full m l && match lmacro l with None => true | Some _ => false end &&
          match steps (map gcode_process a) m with (n, Ok _) => match drill_ready_b fuel n g with Some _ => true | None => arc_ready_b L methods precision n g end | _ => false end
      end
  end.
Lemma replaceable_ex ar L methods precision o fuel m l s : ready (ar := ar) m -> mk_line (ar := ar) s = Ok l -> replaceable_b (ar := ar) L methods precision o fuel m l = true -> replaceable (ar := ar) L methods precision o fuel m l.
Proof.
  intros R ML H. unfold replaceable_b in H. destruct (block_modal_gcodes m (lblock l)) as [gs|] eqn:B; [|discriminate H]. exists gs. split; auto. pose proof R as (S & _). destruct (split_at (arc_swapped_b o) gs) as [[[a g] b]|] eqn:SP.
  - right. apply split_some in SP as [E SW]. apply andb_true_iff in H as [H H3]. apply andb_true_iff in H as [H1 H2]. destruct (steps (map gcode_process a) m) as [n [[]|]] eqn:ST; [|discriminate H3].
    apply passes_steps in ST as (ms & PA & LA). subst n. pose proof (modal_wf_any s l m gs ML S B) as W. rewrite E in W. apply Forall_app in W as [Wa W]. inversion W as [|? ? Wg Wb]; subst.
    destruct (restylable_ex _ _ _ _ S ML H1) as (F1 & _ & F2 & F3). exists a, g, b, ms. split; auto. split; [apply arc_swapped_ex; auto|]. split; [split; auto|]. split; [destruct (lmacro l); [discriminate H2|auto]|]. split; auto.
    destruct (drill_ready_b fuel (last ms m) g) as [[[j k] z0]|] eqn:DB; [right; exists j, k, z0; apply drill_ready_ex; auto|left; apply arc_ready_ex; auto].
  - left. split; [|exact (restylable_faithful _ _ _ S ML H)]. eapply Forall_impl; [|apply (split_none _ _ SP)]. intros g F SW. apply arc_swapped_ex in SW. rewrite F in SW. discriminate SW.
Qed.
Definition all_replaceable (ar : Arith) (L : mathlib) (methods : lin_methods) (precision : Qc) (o : options) (fuel : nat) (file : list text) : bool :=
  match new_machine (ar := ar) xyz false (o_machine_mode o) with Ok m => sync_b m && each_b (ar := ar) (replaceable_b (ar := ar) L methods precision o fuel) file m | _ => false end.
Lemma all_replaceable_ex ar L methods precision o fuel file : all_replaceable ar L methods precision o fuel file = true ->
  exists m tr, new_machine (ar := ar) xyz false (o_machine_mode o) = Ok m /\ in_sync m /\ reading (ar := ar) m file tr /\ Forall (fun x => replaceable (ar := ar) L methods precision o fuel (fst x) (snd x)) (from_states m tr).
Proof.
  unfold all_replaceable. destruct (new_machine (ar := ar) xyz false (o_machine_mode o)) as [m|] eqn:E; [|discriminate]. intros H. apply andb_true_iff in H as [Y H]. apply sync_ex in Y. destruct (new_machine_sound _ _ _ _ E) as (S & I & _).
  destruct (each_ready _ file m (conj S (conj I Y)) H) as (tr & R & F). exists m, tr. split; auto. split; auto. split; auto. eapply Forall_impl; [|exact F]. intros x (A & B & s & ML). eapply replaceable_ex; eauto.
Qed.
(** --canned_expand --arc_linearize --arc_lin_method i *)
Definition both64 : options := Options false false norm_machine_mode (Some (norm_linearize (ar := binary64) quarters inside_arcs (frac 1 200))) true (default_canned_codes (ar := binary64)) false false None false false false false [] false.
Definition drill_file : list text := lines ["G0 Z5 (up)"; "M3 G83 X1.1 Y2 Z-0.3 R1.5 Q0.7 F100 (peck)"; "G73 X4 Y2.2 Z-1 R1 Q1.3 L2"; "G80"; "G2 X6 I1"]%string.
(** lines with a cycle that starts above its bottom *)
Definition drills {ar : Arith} (o : options) (fuel : nat) (m : machine) (l : line) : Prop := exists a g b ms j n z0,
  block_modal_gcodes m (lblock l) = Ok (a ++ g :: b) /\ swapped o g /\ passes m a ms /\ drill_ready fuel (last ms m) g j n z0 /\ (jd j <= z0)%Qc.
Definition drills_b {ar : Arith} (o : options) (fuel : nat) (m : machine) (l : line) : bool :=
  match block_modal_gcodes m (lblock l) with
  | Ok gs => match split_at (arc_swapped_b o) gs with
             | Some (a, g, _) => match steps (map gcode_process a) m with (n, Ok _) => match drill_ready_b fuel n g with Some (j, _, z0) => Qcleb (jd j) z0 | None => false end | _ => false end
             | None => false
             end
  | Raise _ => false
  end.
Lemma drills_ex ar o fuel m l s : ready (ar := ar) m -> mk_line (ar := ar) s = Ok l -> drills_b (ar := ar) o fuel m l = true -> drills (ar := ar) o fuel m l.
Proof.
  intros (S & _) ML H. unfold drills_b in H. destruct (block_modal_gcodes m (lblock l)) as [gs|] eqn:B; [|discriminate H]. destruct (split_at (arc_swapped_b o) gs) as [[[a g] b]|] eqn:SP; [|discriminate H]. apply split_some in SP as [E SW]. destruct (steps (map gcode_process a) m) as [n [[]|]] eqn:ST; [|discriminate H].
  apply passes_steps in ST as (ms & PA & LA). subst n. pose proof (modal_wf_any s l m gs ML S B) as W. rewrite E in W. apply Forall_app in W as [Wa W]. inversion W as [|? ? Wg Wb]; subst. destruct (drill_ready_b fuel (last ms m) g) as [[[j k] z0]|] eqn:DB; [|discriminate H].
  exists a, g, b, ms, j, k, z0. split; auto. split; [apply arc_swapped_ex; auto|]. split; auto. split; [apply drill_ready_ex; auto|apply Qcleb_le; exact H].
Qed.
Lemma all_drills_ex ar o fuel file m : new_machine (ar := ar) xyz false (o_machine_mode o) = Ok m -> sync_b m && each_b (ar := ar) (drills_b (ar := ar) o fuel) file m = true ->
  exists tr, reading (ar := ar) m file tr /\ Forall (fun x => drills (ar := ar) o fuel (fst x) (snd x)) (from_states m tr).
Proof.
  intros E H. apply andb_true_iff in H as [Y H]. apply sync_ex in Y. destruct (new_machine_sound _ _ _ _ E) as (S & I & _). destruct (each_ready _ file m (conj S (conj I Y)) H) as (tr & R & F). exists tr. split; auto. eapply Forall_impl; [|exact F]. intros x (A & B & s & ML). eapply drills_ex; eauto.
Qed.
Example C97_drilling_ex : let o := both64 in
  accurate binary64 /\ monotone binary64 /\ idempotent binary64 /\ odd binary64 /\ lawful quarters /\ expanding (ar := binary64) o /\ (forall f, o_linearize o = Some f -> f = norm_linearize (ar := binary64) quarters inside_arcs (frac 1 200)) /\
  (exists m tr, new_machine (ar := binary64) xyz false (o_machine_mode o) = Ok m /\ in_sync m /\ reading (ar := binary64) m drill_file tr /\ Forall (fun x => replaceable (ar := binary64) quarters inside_arcs (frac 1 200) o 100 (fst x) (snd x)) (from_states m tr)) /\
  (forall m, new_machine (ar := binary64) xyz false (o_machine_mode o) = Ok m -> exists tr, reading (ar := binary64) m (firstn 2 (skipn 1 drill_file)) tr /\ Forall (fun x => drills (ar := binary64) o 100 (fst x) (snd x)) (from_states m tr)) /\
  norm (ar := binary64) o 100 drill_file = (map t ["G00 Z5 (up)"; "F100 M03"; "; expanded: <GCodeDrillingCyclePeck: G83{Q0.7, R1.5, X1.1, Y2, Z-0.3}>"; "G00 X1.1 Y2"; "    Z1.5"; "G01 Z0.8"; "G00 Z1.5"; "    Z0.9"; "G01 Z0.1"; "G00 Z1.5"; "    Z0.2"; "G01 Z-0.3"; "G00 Z5"; "(peck)"; "; expanded: <GCodeDrillingCycleChipBreaking: G73{L2, Q1.3, R1, X4, Y2.2, Z-1}>"; "G00 X4 Y2.2"; "    Z1"; "G01 Z-0.3"; "G00 Z0.2"; "    Z-0.2"; "G01 Z-1"; "G00 Z5"; "    X4 Y2.2"; "    Z1"; "G01 Z-0.3"; "G00 Z0.2"; "    Z-0.2"; "G01 Z-1"; "G00 Z5"; "G80"; "; linearized arc: <GCodeArcMoveCW: G02{I1, X6}>"; "G01 X5 Y3.2 Z5"; "    X6 Y2.2 Z5"]%string, Ok tt).
Proof.
  intros o. split; [exact binary64_accurate|]. split; [exact binary64_monotone|]. split; [exact binary64_idempotent|]. split; [exact binary64_odd|]. split; [exact quarters_lawful|]. split; [|split; [|split; [apply all_replaceable_ex; vm_compute; reflexivity|split; [|vm_compute; reflexivity]]]].
  - repeat (split; [reflexivity|]). intros g W N. exact (default_cycles g binary64_accurate W N).
  - intros f E. injection E as <-. reflexivity.
  - intros m E. assert (H : match new_machine (ar := binary64) xyz false (o_machine_mode o) with Ok m => sync_b m && each_b (ar := binary64) (drills_b (ar := binary64) o 100) (firstn 2 (skipn 1 drill_file)) m | _ => false end = true) by (vm_compute; reflexivity). rewrite E in H. exact (all_drills_ex _ _ _ _ _ E H).
Qed.
