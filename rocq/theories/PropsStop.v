(** Property C105: what stops the reading of a program and the machine running it. *)
From Coq Require Import Ascii String List Bool Arith ZArith QArith Qcanon Permutation Lia.
From Verif Require Import Base Num Words GTable GCode Line Position Machine BaseFacts WordOrder WordsSpec WordsProofs WordsProofs2 LineSpec CommentProofs GCodeSpec GCodeProofs GCodeProofs2 PropsGCode PropsWords ArithSpec
  PosSpec PosProofs ModeSpec ModeProofs PropsMode MachSpec MachProofs MachProofs2 MachProofs3 PropsMach PropsMach2 StopSpec StopProofs.
Import ListNotations.
Open Scope Z_scope.
Local Transparent set_for.

(** ** C105 Reading and running a program stops only for these reasons, each with its error *)
(** reading: with the error [e] exactly when the text has the fault of that error *)
Theorem C105_line : forall (ar : Arith) (s : text) (e : exn), mk_line s = Raise e <-> text_stop s e.
Proof. intros ar s e. apply text_stops. Qed.
Print Assumptions C105_line.
(** so only with one of three errors, if it is one line *)
Theorem C105_line_errors : forall (ar : Arith) (s : text) (e : exn), one_line s -> mk_line s = Raise e -> In e [EGCodeWordStrError; EGCodeParameterError; EAssertionError].
Proof. intros ar s e OL H. apply text_stops in H. inversion H; subst; [contradiction|cbn; auto..]. Qed.
Print Assumptions C105_line_errors.
(** running one command: only canned cycles can stop, exactly when they cannot be done; the cycle is then the motion mode, and nothing moved *)
Theorem C105_command : forall (ar : Arith) (m : machine) (g : gcode) (e : exn), sound m -> gcode_wf g ->
  ((exists m', gcode_process g m = (m', Raise e)) <-> is_canned g /\ cycle_stop m g e) /\
  (forall m', gcode_process g m = (m', Raise e) -> m_abs m' = m_abs m /\ m_min m' = m_min m /\ m_max m' = m_max m /\ exists c, modal_copy g = Ok c /\ gm_get (m_mode m') MG_motion = Some c).
Proof.
  intros ar m g e S W. split.
  - split; [intros (m' & E); apply command_stop in E as (_ & C & ST); auto|]. intros [C ST]. exists (set_for m g). apply command_stop; auto.
  - intros m' E. apply command_stop in E as (-> & C & _); auto. destruct (set_for_pos m g) as (A & B & D & _). split; auto. split; auto. split; auto. exists (modal_of g). split; [apply modal_copy_of; apply W|].
    unfold set_for. rewrite after_mode_mode. unfold set_effect. pose proof (canned_group g C) as G. unfold in_group in G. rewrite G. rewrite gm_get_set_same. reflexivity.
Qed.
Print Assumptions C105_command.
(** running a line *)
Theorem C105_block : forall (ar : Arith) (m : machine) (s : text) (l : line) (e : exn), reachable m -> mk_line s = Ok l ->
  (exists m', process_block (lblock l) m = (m', Raise e)) <-> block_stop m (lblock l) e.
Proof. intros ar m s l e R L. destruct (reachable_sound m R) as [S I]. destruct (line_bare s l L) as (B & WG & WW). apply block_stops; auto. Qed.
Print Assumptions C105_block.
Lemma steps_first {ar : Arith} (ls : list text) : forall m m' e, steps (map process_str ls) m = (m', Raise e) ->
  exists ls1 s ls2 m1, ls = ls1 ++ s :: ls2 /\ steps (map process_str ls1) m = (m1, Ok tt) /\ process_str s m1 = (m', Raise e).
Proof.
  induction ls as [|s ls IH]; intros m m' e; cbn [map steps]; [discriminate|]. unfold then_step. destruct (process_str s m) as [m1 [[]|e1]] eqn:E.
  - intros H. destruct (IH _ _ _ H) as (ls1 & s' & ls2 & m2 & -> & A & B). exists (s :: ls1), s', ls2, m2. split; auto. split; auto. cbn [map steps]. unfold then_step. rewrite E. auto.
  - intros H. injection H as <- <-. exists [], s, ls, m. auto.
Qed.
Lemma steps_usual {ar : Arith} (ls : list text) : forall m m', usual m -> steps (map process_str ls) m = (m', Ok tt) -> usual m'.
Proof.
  induction ls as [|s ls IH]; intros m m' U; cbn [map steps]; [intros H; injection H as <-; auto|]. unfold then_step. destruct (process_str s m) as [m1 [[]|e1]] eqn:E; [|discriminate]. apply IH. eapply str_keeps_usual; eauto.
Qed.
Lemma steps_no_r {ar : Arith} (ls : list text) : forall m m', usual m -> ~ returns_to_r m -> never_g99 ls -> steps (map process_str ls) m = (m', Ok tt) -> ~ returns_to_r m'.
Proof.
  induction ls as [|s ls IH]; intros m m' U R N; cbn [map steps]; [intros H; injection H as <-; auto|]. unfold then_step. destruct (process_str s m) as [m1 [[]|e1]] eqn:E; [|discriminate]. apply IH; [eapply str_keeps_usual; eauto| |].
  - pose proof U as (S & I & _). eapply str_keeps_no_r; eauto. intros l g L G. eapply N; eauto. left. auto.
  - intros s' l g I L G. eapply N; eauto. right. auto.
Qed.
(** a program: the first line that cannot be read or run stops it; on a usual machine the only faults are those of the text, a word the motion mode
    does not take, and a cycle that is to return to R and has none, or has no normal to go along *)
Theorem C105_program : forall (ar : Arith) (m m' : machine) (ls : list text) (e : exn), usual m -> steps (map process_str ls) m = (m', Raise e) ->
  exists ls1 s ls2 m1, ls = ls1 ++ s :: ls2 /\ steps (map process_str ls1) m = (m1, Ok tt) /\ usual m1 /\
   ((text_stop s e /\ m' = m1) \/
    exists l, mk_line s = Ok l /\
     ((e = EMachineInvalidState /\ m' = m1 /\ m_ignore m1 = false /\ exists w, In w (bmodal (lblock l)) /\ ~ usable m1 w) \/
      (e = ETypeError /\ exists l1 g l2 ps m2, block_modal_gcodes m1 (lblock l) = Ok (l1 ++ g :: l2) /\ path m1 l1 ps m2 /\ is_canned g /\ returns_to_r m2 /\ ((forall b, ~ normal m2 b) \/ ~ has_r g)))).
Proof.
  intros ar m m' ls e U H. destruct (steps_first ls m m' e H) as (ls1 & s & ls2 & m1 & -> & A & B). pose proof (steps_usual ls1 m m1 U A) as U1. exists ls1, s, ls2, m1. split; auto. split; auto. split; auto.
  unfold process_str in B. destruct (mk_line s) as [l|e0] eqn:L; [|left; injection B as <- <-; split; auto; apply text_stops; auto]. right. exists l. split; auto. destruct (line_bare s l L) as (BB & WG & WW). pose proof U1 as (S & I & _).
  assert (ST : block_stop m1 (lblock l) e) by (apply block_stops; eauto). destruct (usual_stop m1 (lblock l) e U1 WG WW BB ST) as [(-> & IG & w & IW & NU)|X]; [left|right; exact X]. split; auto. split; [|eauto].
  unfold process_block, process_gcodes in B. destruct (machine_modal_gcode m1 (bmodal (lblock l))) as [og|e1] eqn:O; [|injection B as <- _; auto]. exfalso.
  assert (WF : Forall gcode_wf (sort_gcodes (bgcodes (lblock l) ++ match og with Some g => [g] | None => [] end))) by (apply sort_wf, Forall_app; split; auto; destruct og as [g|]; constructor; auto; eapply modal_gcode_wf; eauto).
  apply steps_stop in B as (l1 & g & l2 & ps & m2 & E & P & C & CS & _); auto. inversion CS.
Qed.
Print Assumptions C105_program.
(** hence a program without G99, each line of which can be read, stops at most because of a word the motion mode does not take *)
Theorem C105_no_g99 : forall (ar : Arith) (m m' : machine) (ls : list text) (e : exn), usual m -> ~ returns_to_r m -> never_g99 ls -> Forall (fun s => exists l, mk_line s = Ok l) ls ->
  steps (map process_str ls) m = (m', Raise e) ->
  e = EMachineInvalidState /\ m_ignore m' = false /\ exists ls1 s ls2 l w, ls = ls1 ++ s :: ls2 /\ steps (map process_str ls1) m = (m', Ok tt) /\ mk_line s = Ok l /\ In w (bmodal (lblock l)) /\ ~ usable m' w.
Proof.
  intros ar m m' ls e U R N F H. destruct (C105_program ar m m' ls e U H) as (ls1 & s & ls2 & m1 & -> & A & U1 & X). apply Forall_app in F as [_ F]. inversion F as [|? ? (l0 & L0) _]; subst.
  assert (N1 : never_g99 ls1) by (intros s' l g I; apply N; apply in_app_iff; auto). pose proof (steps_no_r ls1 m m1 U R N1 A) as R1. destruct X as [(T & _)|(l & L & X)]; [apply text_stops in T; congruence|].
  destruct X as [(-> & -> & IG & w & IW & NU)|(-> & l1 & g & l2 & ps & m2 & BE & PA & _ & R2 & _)].
  - split; auto. split; auto. exists ls1, s, ls2, l, w. auto 8.
  - exfalso. destruct (line_bare s l L) as (BB & WG & WW). pose proof U1 as (S & I & _). revert R2. apply (no_r_path m1 (lblock l) l1 (g :: l2) ps m2 S I R1); auto. intros x X. apply (N s l x); auto. apply in_app_iff. right. left. auto.
Qed.
Print Assumptions C105_no_g99.
(** and on a machine that ignores such words, never *)
Lemma steps_ignore {ar : Arith} (ls : list text) : forall m m', usual m -> steps (map process_str ls) m = (m', Ok tt) -> m_ignore m' = m_ignore m.
Proof.
  induction ls as [|s ls IH]; intros m m' U; cbn [map steps]; [intros H; injection H as <-; auto|]. unfold then_step. destruct (process_str s m) as [m1 [[]|e1]] eqn:E; [|discriminate]. intros H. rewrite (IH m1 m'); [|eapply str_keeps_usual; eauto|auto].
  unfold process_str in E. destruct (mk_line s) as [l|] eqn:L; [|discriminate]. destruct (line_bare s l L) as (_ & WG & WW). pose proof U as (S & I & _). destruct (process_gcodes_inv (bgcodes (lblock l)) (bmodal (lblock l)) m S I WG WW) as (_ & _ & K). unfold process_block in E. rewrite E in K. cbn [fst] in K. apply K.
Qed.
Theorem C105_ignoring : forall (ar : Arith) (m : machine) (ls : list text), usual m -> ~ returns_to_r m -> m_ignore m = true -> never_g99 ls -> Forall (fun s => exists l, mk_line s = Ok l) ls ->
  exists m', steps (map process_str ls) m = (m', Ok tt).
Proof.
  intros ar m ls U R IG N F. destruct (steps (map process_str ls) m) as [m' [[]|e]] eqn:E; [eauto|]. exfalso. destruct (C105_no_g99 ar m m' ls e U R N F E) as (_ & IG' & ls1 & s & ls2 & l & w & _ & A & _). rewrite (steps_ignore ls1 m m' U A) in IG'. congruence.
Qed.
Print Assumptions C105_ignoring.

(** non-vacuity: a program on the default machine; what each fault is *)
Definition usual_b (m : machine) : bool := match gm_get (m_mode m) MG_plane_selection with Some _ => true | None => false end && vget (m_axes m) AX && vget (m_axes m) AY && vget (m_axes m) AZ.
Definition returns_b (m : machine) : bool := match gm_get (m_mode m) MG_canned_cycles_return with Some r => subclass (gcls r) GCodeCannedCycleReturnToR | None => false end.
Lemma usual_ex {ar : Arith} m : sound m -> inside m -> usual_b m = true -> usual m.
Proof.
  intros S I. unfold usual_b. rewrite !andb_true_iff. intros (((P & X) & Y) & Z). split; auto. split; auto. split; [unfold plane_selected; destruct (gm_get (m_mode m) MG_plane_selection); [eauto|discriminate]|]. unfold has. pose proof S as ((_ & A & _) & _). rewrite A. auto.
Qed.
Lemma returns_ex m : returns_b m = false -> ~ returns_to_r m.
Proof. unfold returns_b. intros H (g & E & D). rewrite E in H. apply subclass_derives in D. congruence. Qed.
Definition no_g99_b (s : text) : bool := match mk_line (ar := binary64) s with Ok l => forallb (fun g => negb (subclass (gcls g) GCodeCannedCycleReturnToR)) (bgcodes (lblock l)) | Raise _ => true end.
Lemma never_ex ls : forallb no_g99_b ls = true -> never_g99 (ar := binary64) ls.
Proof.
  rewrite forallb_forall. intros F s l g I L G D. specialize (F s I). unfold no_g99_b in F. rewrite L in F. rewrite forallb_forall in F. specialize (F g G). apply subclass_derives in D. rewrite D in F. discriminate F.
Qed.
Definition reads_b (s : text) : bool := match mk_line (ar := binary64) s with Ok _ => true | Raise _ => false end.
Lemma reads_ex ls : forallb reads_b ls = true -> Forall (fun s => exists l, mk_line (ar := binary64) s = Ok l) ls.
Proof. rewrite forallb_forall. intros F. apply Forall_forall. intros s I. specialize (F s I). unfold reads_b in F. destruct (mk_line (ar := binary64) s); [eauto|discriminate]. Qed.
Definition outcome (ls : list text) (m : machine) : text * text * option exn :=
  match steps (map (process_str (ar := binary64)) ls) m with (m', r) => (mode_text m', concat (pos_text m'), match r with Ok _ => None | Raise e => Some e end) end.
Definition good_prog : list text := map t ["G0 X1 Y2 (go)"; "G81 X3 Z-1 R2 L2"; "X4"; "G80 M5"; "G91 G1 X1 F100"; "Y3"]%string.
Definition stuck_prog : list text := map t ["G0 X1 Y2 Z5"; "G99 G81 X3 Z-1"; "X7"]%string.
Example C105_ex : exists m, default_machine (ar := binary64) = Ok m /\ usual (ar := binary64) m /\ ~ returns_to_r m /\ never_g99 (ar := binary64) good_prog /\ Forall (fun s => exists l, mk_line (ar := binary64) s = Ok l) good_prog /\
  (snd (outcome good_prog m), snd (outcome (good_prog ++ [t "D3"]) m)) = (None, Some EMachineInvalidState) /\
  (outcome stuck_prog m) = (t "G81 X3 Z-1 G17 G90 G91.1 G94 G21 G40 G49 G99 G54 G61 G97 M05 M09 F0 S0 T0", t "125", Some ETypeError) /\
  map (fun s => snd (outcome [t s] m)) ["G17.1 G99 G81 X1 Z-1 R2"; "G0 X1 X2"; "G0 G1 X1"; "G0 !"; "X1 E"]%string = [Some ETypeError; Some EGCodeParameterError; Some EAssertionError; Some EGCodeWordStrError; Some EGCodeWordStrError].
Proof.
  destruct (from_default (fun m => (usual_b m, returns_b m, (snd (outcome good_prog m), snd (outcome (good_prog ++ [t "D3"]) m)), outcome stuck_prog m, map (fun s => snd (outcome [t s] m)) ["G17.1 G99 G81 X1 Z-1 R2"; "G0 X1 X2"; "G0 G1 X1"; "G0 !"; "X1 E"]%string))
    (true, false, (None, Some EMachineInvalidState), (t "G81 X3 Z-1 G17 G90 G91.1 G94 G21 G40 G49 G99 G54 G61 G97 M05 M09 F0 S0 T0", t "125", Some ETypeError), [Some ETypeError; Some EGCodeParameterError; Some EAssertionError; Some EGCodeWordStrError; Some EGCodeWordStrError])) as (m & D & E); [vm_compute; reflexivity|].
  apply pair_equal_spec in E as [E E5]. apply pair_equal_spec in E as [E E4]. apply pair_equal_spec in E as [E E3]. apply pair_equal_spec in E as [E1 E2].
  destruct (new_machine_sound _ _ _ _ D) as (S & I & _). exists m. split; auto. split; [apply usual_ex; auto|]. split; [apply returns_ex; auto|]. split; [apply never_ex; vm_compute; reflexivity|]. split; [apply reads_ex; vm_compute; reflexivity|]. auto.
Qed.
