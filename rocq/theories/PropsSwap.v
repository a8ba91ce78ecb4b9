(** Property C110: X and Y exchanged. *)
From Coq Require Import Ascii String List Bool Arith ZArith QArith Qcanon Lia.
From Verif Require Import Base Num Words GTable GCode Line Position Machine Float64 ModeSpec MachSpec MachProofs2 SwapSpec SwapProofs SwapProofs2.
Import ListNotations.

(** ** C110 X and Y are treated alike *)
(** A program with X and Y exchanged, on a machine with X and Y exchanged, does the same with X and Y exchanged, errors included. *)
Theorem C110_swap : forall (ar : Arith) (m m1 : machine) (ss : list text) (r : result unit), reachable m -> level_machine m -> Forall level_line ss ->
  steps (map process_str ss) m = (m1, r) -> steps (map process_str (map swap_text ss)) (swap_machine m) = (swap_machine m1, r).
Proof. intros ar m m1 ss r R L F E. rewrite program_swap by (auto; apply reachable_flat; auto). rewrite E. reflexivity. Qed.
Print Assumptions C110_swap.
(** On a machine as made: what is read off it afterwards. *)
Theorem C110_default : forall (ar : Arith) (m m1 : machine) (ss : list text) (r : result unit), default_machine = Ok m -> level_machine m -> Forall level_line ss -> steps (map process_str ss) m = (m1, r) ->
  exists m2, steps (map process_str (map swap_text ss)) m = (m2, r) /\
    forall a, pos_getattr (m_abs m2) (swap_axis a) = pos_getattr (m_abs m1) a /\ pos_getattr (m_min m2) (swap_axis a) = pos_getattr (m_min m1) a /\ pos_getattr (m_max m2) (swap_axis a) = pos_getattr (m_max m1) a /\
      rmap (fun p => pos_getattr p (swap_axis a)) (machine_pos m2) = rmap (fun p => pos_getattr p a) (machine_pos m1).
Proof.
  intros ar m m1 ss r D L F E. assert (R : reachable m) by (exists xyz, false, default_mode_lines, m, []; split; [exact D|]; split; [constructor|reflexivity]). exists (swap_machine m1). split.
  - rewrite <- (C110_swap ar m m1 ss r R L F E). f_equal. symmetry. apply (new_swap xyz false default_mode_lines); [reflexivity|apply default_fixed|exact D].
  - intros a. cbn [swap_machine m_abs m_min m_max]. rewrite !attr_swap. repeat split. unfold machine_pos. cbn [swap_machine m_abs]. fold (swap_machine m1). rewrite abs2work_swap. destruct (abs2work m1 (m_abs m1)); cbn [rmap]; [rewrite attr_swap|]; reflexivity.
Qed.
Print Assumptions C110_default.

Definition tilted_b (g : gcode) : bool := gclass_eqb (gcls g) GCodeSelectZXPlane || gclass_eqb (gcls g) GCodeSelectYZPlane.
Definition level_b {ar : Arith} (s : text) : bool := match mk_line s with Ok l => negb (existsb tilted_b (bgcodes (lblock l))) | Raise _ => true end.
Lemma tilted_b_ex g : tilted_b g = false -> ~ tilted (gcls g). Proof. unfold tilted_b. intros B [T|T]; rewrite T in B; discriminate B. Qed.
Lemma level_b_ex {ar : Arith} ss : forallb level_b ss = true -> Forall level_line ss.
Proof.
  rewrite forallb_forall, Forall_forall. intros H s I l g M G. specialize (H s I). unfold level_b in H. rewrite M in H. apply tilted_b_ex. destruct (tilted_b g) eqn:T; auto. rewrite (proj2 (existsb_exists _ _) (ex_intro _ g (conj G T))) in H. discriminate H.
Qed.
Definition level_machine_b (m : machine) : bool := match gm_get (m_mode m) MG_plane_selection with Some g => negb (tilted_b g) | None => true end.
Lemma level_machine_b_ex m : level_machine_b m = true -> level_machine m.
Proof. intros B g E. unfold level_machine_b in B. rewrite E in B. apply tilted_b_ex. destruct (tilted_b g); [discriminate B|reflexivity]. Qed.
Definition place (m : machine) : list text := map (fun a => match pos_getattr (m_abs m) a with Ok x => clean_float (ar := binary64) x | Raise _ => [] end) [AX; AY; AZ].
Lemma ok_inj {A} (a b : A) : Ok a = Ok b -> a = b. Proof. congruence. Qed.
Lemma ran_ok (x : machine * result unit) : match snd x with Ok _ => true | Raise _ => false end = true -> x = (fst x, Ok tt). Proof. destruct x as [m [[]|e]]; [reflexivity|discriminate]. Qed.
Definition swap_ex : list text := map t ["G0 X1.5 y-2 (over the hole)"; "G91 X0.1"; "G90 G99 G81 X3 Y4 Z-1 R2"; "x5 F100"]%string.
(** moves, an incremental one, a drilling cycle, bare words, a comment with x and y in it *)
Example C110_ex : exists m m1 m2, default_machine (ar := binary64) = Ok m /\ level_machine m /\ Forall (level_line (ar := binary64)) swap_ex /\ steps (map (process_str (ar := binary64)) swap_ex) m = (m1, Ok tt) /\ place m1 = map t ["5"; "4"; "2"]%string /\
  map swap_text swap_ex = map t ["G0 Y1.5 x-2 (over the hole)"; "G91 Y0.1"; "G90 G99 G81 Y3 X4 Z-1 R2"; "y5 F100"]%string /\ steps (map (process_str (ar := binary64)) (map swap_text swap_ex)) m = (m2, Ok tt) /\ place m2 = map t ["4"; "5"; "2"]%string.
Proof.
  assert (X : rmap (fun m => (level_machine_b m, let r := steps (map (process_str (ar := binary64)) swap_ex) m in (match snd r with Ok _ => true | Raise _ => false end, place (fst r)), let r := steps (map (process_str (ar := binary64)) (map swap_text swap_ex)) m in (match snd r with Ok _ => true | Raise _ => false end, place (fst r)))) (default_machine (ar := binary64)) = Ok (true, (true, map t ["5"; "4"; "2"]%string), (true, map t ["4"; "5"; "2"]%string))) by (vm_compute; reflexivity).
  destruct (default_machine (ar := binary64)) as [m|e]; [|discriminate X]. cbn [rmap] in X. apply ok_inj in X. cbv zeta in X. apply pair_equal_spec in X as [X X45]. apply pair_equal_spec in X as [X1 X23]. apply pair_equal_spec in X23 as [X2 X3]. apply pair_equal_spec in X45 as [X4 X5]. exists m, (fst (steps (map (process_str (ar := binary64)) swap_ex) m)), (fst (steps (map (process_str (ar := binary64)) (map swap_text swap_ex)) m)).
  split; [reflexivity|]. split; [apply level_machine_b_ex, X1|]. split; [apply level_b_ex; vm_compute; reflexivity|]. split; [|split; [exact X3|split; [vm_compute; reflexivity|split; [|exact X5]]]].
  - apply ran_ok, X2.
  - apply ran_ok, X4.
Qed.
(** a plane that singles out Y makes a difference to drilling: the hypothesis is needed *)
Definition tilted_ex : list text := map t ["G18"; "G81 X1 Y2 Z3 R4"]%string.
Example C110_level_needed : exists m, default_machine (ar := binary64) = Ok m /\ place (fst (steps (map (process_str (ar := binary64)) tilted_ex) m)) = map t ["1"; "0"; "3"]%string /\
  place (fst (steps (map (process_str (ar := binary64)) (map swap_text tilted_ex)) m)) = map t ["2"; "0"; "3"]%string.
Proof.
  assert (X : rmap (fun m => (place (fst (steps (map (process_str (ar := binary64)) tilted_ex) m)), place (fst (steps (map (process_str (ar := binary64)) (map swap_text tilted_ex)) m)))) (default_machine (ar := binary64)) = Ok (map t ["1"; "0"; "3"]%string, map t ["2"; "0"; "3"]%string)) by (vm_compute; reflexivity).
  destruct (default_machine (ar := binary64)) as [m|e]; [|discriminate X]. cbn [rmap] in X. apply ok_inj, pair_equal_spec in X as [X1 X2]. exists m. auto.
Qed.
