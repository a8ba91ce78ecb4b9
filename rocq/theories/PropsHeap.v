(** C100: changing a gcode changes that gcode only. *)
From Coq Require Import Ascii String List Bool Arith ZArith QArith Qcanon Lia.
From Verif Require Import Base Num Regex Words GTable GCode Line Position Machine BaseFacts Float64 Heap HeapProofs HeapProofs2 HeapProofs3.
Import ListNotations.
Open Scope nat_scope.

(** ** C100 Assigning to a parameter of a gcode changes that gcode, and nothing else *)
(** [cs]: anything a program did before: lines read, blocks processed by the machine, modes cleared, parameters assigned. *)

(** the gcode assigned to becomes what assignment on values says (C28), its neighbours and the bare parameters stay *)
Theorem C100_assigned : forall (ar : Arith) (cs : list cmd) (n k : nat) (l : letter) (v : value) (b : block) (g : gcode),
  nth_error (seen_blocks (run cs)) n = Some b -> nth_error (bgcodes b) k = Some g ->
  exists b', nth_error (seen_blocks (run (cs ++ [CAssign n k l v]))) n = Some b' /\
    nth_error (bgcodes b') k = Some (match gcode_setattr g l v with Ok g' => g' | Raise _ => g end) /\
    (forall j, j <> k -> nth_error (bgcodes b') j = nth_error (bgcodes b) j) /\
    bmodal b' = bmodal b /\
    (forall p w, nth_error (bwords b) p = Some w -> wletter w <> l -> nth_error (bwords b') p = Some w).
Proof.
  intros ar cs n k l v b g B G. pose proof (run_sound cs) as S. rewrite seen_nth in B.
  destruct (nth_error (s_blocks (run cs)) n) as [hb|] eqn:N; [|discriminate]. injection B as <-.
  cbn [bval bgcodes] in G. rewrite nth_error_map in G. destruct (nth_error (hb_gcodes hb) k) as [i|] eqn:K; [|discriminate]. injection G as <-.
  rewrite run_snoc. cbn [run1]. rewrite N, K.
  exists (bval (assign (s_heap (run cs)) (i, l, v)) hb). split; [rewrite seen_nth; cbn [s_heap s_blocks]; rewrite N; reflexivity|].
  unfold bval. cbn [bgcodes bmodal bwords]. split; [|split; [|split]].
  - rewrite nth_error_map, K. cbn [option_map]. f_equal.
    apply assign_self; [apply S|exact (assign_i_lt (run cs) n k hb i S N K)|exact (assign_i_own (run cs) n k hb i S N K)].
  - intros j J. rewrite !nth_error_map. destruct (nth_error (hb_gcodes hb) j) as [x|] eqn:X; [|reflexivity]. cbn [option_map]. f_equal.
    apply (assign_other_gval (run cs) n k l v hb i S N K).
    + apply in_flat_map. exists hb. split; eapply nth_error_In; eauto.
    + exact (gcodes_same (run cs) n k hb i S N K j x X J).
  - apply (assign_modal (run cs) n k l v hb i S N K). eapply nth_error_In; eauto.
  - intros p w P W. rewrite nth_error_map in *. destruct (nth_error (hb_words hb) p) as [r|] eqn:R; [|discriminate]. injection P as <-. cbn. f_equal.
    apply (assign_words_letter (run cs) n k l v hb i S N K); auto.
    apply (inv_bwords _ _ _ S hb r); eapply nth_error_In; eauto.
Qed.
Print Assumptions C100_assigned.

(** the other lines stay as they are: their words, their gcodes, their bare parameters *)
Theorem C100_other_lines : forall (ar : Arith) (cs : list cmd) (n m k : nat) (l : letter) (v : value), m <> n ->
  nth_error (seen_blocks (run (cs ++ [CAssign n k l v]))) m = nth_error (seen_blocks (run cs)) m.
Proof.
  intros ar cs n m k l v M. pose proof (run_sound cs) as S. rewrite run_snoc. cbn [run1].
  destruct (nth_error (s_blocks (run cs)) n) as [hb|] eqn:N; [|reflexivity]. destruct (nth_error (hb_gcodes hb) k) as [i|] eqn:K; [|reflexivity].
  rewrite !seen_nth. cbn [s_heap s_blocks]. destruct (nth_error (s_blocks (run cs)) m) as [c|] eqn:C; [|reflexivity]. cbn [option_map]. f_equal.
  exact (assign_block_other (run cs) n k l v hb i S N K m c M C).
Qed.
Print Assumptions C100_other_lines.

(** the machine that processed the gcode keeps its mode, unless a parameter of a canned cycle is assigned that the
    machine remembers; missing: that case *)
Theorem C100_mode_partial : forall (ar : Arith) (cs : list cmd) (n k : nat) (l : letter) (v : value) (b : block) (g : gcode),
  nth_error (seen_blocks (run cs)) n = Some b -> nth_error (bgcodes b) k = Some g -> ~ In l (modal_param_letters (gcls g)) ->
  forall mg, seen_mode (run (cs ++ [CAssign n k l v])) mg = seen_mode (run cs) mg.
Proof.
  intros ar cs n k l v b g B G A mg. pose proof (run_sound cs) as S. rewrite seen_nth in B.
  destruct (nth_error (s_blocks (run cs)) n) as [hb|] eqn:N; [|discriminate]. injection B as <-.
  cbn [bval bgcodes] in G. rewrite nth_error_map in G. destruct (nth_error (hb_gcodes hb) k) as [i|] eqn:K; [|discriminate]. injection G as <-.
  rewrite run_snoc. cbn [run1]. rewrite N, K. unfold seen_mode. cbn [s_heap s_mode].
  destruct (assign_mode_cases (run cs) n k l v hb i S N K mg) as [H|[H _]]; auto. exfalso. apply A.
  unfold accepts_modal in H. apply existsb_exists in H as (x & X & E). apply letter_eqb_eq in E as ->. exact X.
Qed.
Print Assumptions C100_mode_partial.
(** and in that case it is the remembered cycle, of the same class, that is assigned to as well *)
Theorem C100_mode_follows_partial : forall (ar : Arith) (cs : list cmd) (n k : nat) (l : letter) (v : value) (b : block) (g : gcode),
  nth_error (seen_blocks (run cs)) n = Some b -> nth_error (bgcodes b) k = Some g ->
  forall mg, seen_mode (run (cs ++ [CAssign n k l v])) mg = seen_mode (run cs) mg \/
    In l (modal_param_letters (gcls g)) /\ exists old new, seen_mode (run cs) mg = Some old /\ gcls old = gcls g /\
      gcode_setattr old l v = Ok new /\ seen_mode (run (cs ++ [CAssign n k l v])) mg = Some new.
Proof.
  intros ar cs n k l v b g B G mg. pose proof (run_sound cs) as S. rewrite seen_nth in B.
  destruct (nth_error (s_blocks (run cs)) n) as [hb|] eqn:N; [|discriminate]. injection B as <-.
  cbn [bval bgcodes] in G. rewrite nth_error_map in G. destruct (nth_error (hb_gcodes hb) k) as [i|] eqn:K; [|discriminate]. injection G as <-.
  rewrite run_snoc. cbn [run1]. rewrite N, K. unfold seen_mode. cbn [s_heap s_mode].
  destruct (assign_mode_cases (run cs) n k l v hb i S N K mg) as [H|(H & o & w & H1 & H2 & H3 & H4)]; auto. right. split.
  - unfold accepts_modal in H. apply existsb_exists in H as (x & X & E). apply letter_eqb_eq in E as ->. exact X.
  - exists o, w. auto.
Qed.
Print Assumptions C100_mode_follows_partial.

(** Refuted in full: a drilling cycle is read and processed, then its depth is assigned; the machine, which has already
    processed it, now remembers the new depth. *)
Definition mode_text {ar : Arith} (st : session) : string :=
  match seen_mode st MG_motion with Some g => to_string (gcode_str g) | None => "" end.
Definition block_texts {ar : Arith} (st : session) : list string := map (fun b => to_string (block_str b)) (seen_blocks st).
Theorem C100_refuted : exists (cs : list cmd) (n k : nat) (l : letter) (v : value),
  mode_text (ar := binary64) (run (ar := binary64) cs) = "G81 R4 X1 Y2 Z-3"%string /\
  mode_text (ar := binary64) (run (ar := binary64) (cs ++ [CAssign n k l v])) = "G81 R4 X1 Y2 Z-30"%string.
Proof.
  exists [CParse true (t "G81 X1 Y2 Z-3 R4"); CProcess 0 9], 0, 0, LZ, (VFloat (frac (-30) 1)). split; vm_compute; reflexivity.
Qed.
Print Assumptions C100_refuted.
(** The other way round too: a line with bare parameters is processed after the assignment and drills to the new depth,
    although the line that set the depth was processed with the old one. *)
Example C100_ex_bare :
  mode_text (ar := binary64) (run (ar := binary64)
    [CParse true (t "G81 X1 Y2 Z-3 R4"); CProcess 0 9; CAssign 0 0 LZ (VFloat (frac (-30) 1)); CParse true (t "X5 R6"); CProcess 1 9])
  = "G81 R6 X5 Y2 Z-30"%string.
Proof. vm_compute. reflexivity. Qed.
(** an ordinary move: given and new parameters are assigned after processing, the machine and the other line stay *)
Example C100_ex :
  let cs := [CParse true (t "G1 X1 Y2 F100"); CParse true (t "G0 X7 M3 S9"); CProcess 0 9] in
  let cs' := cs ++ [CAssign 0 0 LX (VFloat (frac 5 1))] ++ [CAssign 0 0 LZ (VFloat (frac 6 1))] in
  block_texts (ar := binary64) (run (ar := binary64) cs) = ["G01 X1 Y2 F100"; "G00 X7 M03 S9"]%string /\
  block_texts (ar := binary64) (run (ar := binary64) cs') = ["G01 X5 Y2 Z6 F100"; "G00 X7 M03 S9"]%string /\
  mode_text (ar := binary64) (run (ar := binary64) cs) = "G01"%string /\ mode_text (ar := binary64) (run (ar := binary64) cs') = "G01"%string.
Proof. vm_compute. repeat split; reflexivity. Qed.

(** Lines and modes on the heap are those of the other model files. *)
Theorem C100_lines_as_read : forall (ar : Arith) (h : heap) (v : bool) (s : text),
  mk_block v s = rmap (fun p => bval (fst p) (snd p)) (h_mk_block h v s).
Proof. intros. apply mk_block_agrees. Qed.
Print Assumptions C100_lines_as_read.

Theorem C100_mode_as_processed : forall (ar : Arith) (cs : list cmd) (n k : nat) (b : block) (m : machine),
  nth_error (seen_blocks (run cs)) n = Some b -> m_ignore m = false -> (forall mg, seen_mode (run cs) mg = gm_get (m_mode m) mg) ->
  match machine_modal_gcode m (bmodal b) with
  | Raise _ => forall mg, seen_mode (run (cs ++ [CProcess n k])) mg = gm_get (m_mode m) mg
  | Ok og => forall md, mode_set_list (m_mode m) (firstn k (sort_gcodes (bgcodes b ++ match og with Some g => [g] | None => [] end))) = Ok md ->
      forall mg, seen_mode (run (cs ++ [CProcess n k])) mg = gm_get md mg
  end.
Proof.
  intros ar cs n k b m B IG M. pose proof (run_sound cs) as S. rewrite seen_nth in B.
  destruct (nth_error (s_blocks (run cs)) n) as [hb|] eqn:N; [|discriminate]. injection B as <-.
  rewrite run_snoc. cbn [run1]. rewrite N. unfold bval. cbn [bgcodes bmodal].
  rewrite (modal_gcode_agrees (s_heap (run cs)) (s_mode (run cs)) m (hb_modal hb) M IG).
  unfold h_process. destruct (h_modal_gcode (s_heap (run cs)) (s_mode (run cs)) (hb_modal hb)) as [[h1 og]|e] eqn:E; cbn [rmap bind fst snd]; [|exact M].
  destruct (modal_gcode_inv _ _ _ hb h1 og S (nth_error_In _ _ N) E) as (I1 & L1 & G1).
  pose proof (modal_gcode_old _ _ _ _ _ E) as OLD.
  set (l := hb_gcodes hb ++ match og with Some g => [g] | None => [] end).
  assert (IN : forall i, In i (hb_gcodes hb) -> i < length (objs (s_heap (run cs)))).
  { intros i I. apply (inv_bound _ _ _ S). apply in_flat_map. exists hb. split; auto. eapply nth_error_In; eauto. }
  assert (G : map (gval (s_heap (run cs))) (hb_gcodes hb) ++ match option_map (gval h1) og with Some g => [g] | None => [] end = map (gval h1) l).
  { unfold l. rewrite map_app. f_equal; [|destruct og; reflexivity]. apply map_ext_in. intros i I. symmetry. apply OLD. auto. }
  intros md. rewrite G, <- sort_gval, firstn_map.
  assert (M1 : mode_is h1 (s_mode (run cs)) (m_mode m)).
  { intros mg. rewrite <- (M mg). unfold seen_mode, mode_val. destruct (s_mode (run cs) mg) as [c|] eqn:C; [|reflexivity]. cbn. f_equal. apply OLD.
    apply (inv_mode _ _ _ S mg c C). }
  assert (F : Forall (fun i => i < length (objs h1)) (firstn k (sort (fun i => exec_order (hcls (obj h1 i))) l))).
  { apply Forall_forall. intros i X. apply in_firstn in X. apply (proj1 (in_sort _ _ _)) in X. apply in_app_iff in X as [X|X].
    - apply IN in X. lia.
    - destruct og as [g|]; [|destruct X]. destruct X as [<-|[]]. exact G1. }
  pose proof (mode_set_list_agrees _ h1 (s_mode (run cs)) (m_mode m) M1 (fun mg c X => proj1 (inv_mode _ _ _ I1 mg c X)) F) as A.
  intros R. rewrite R in A. destruct (h_mode_set_list h1 _ _) as [[h2 md2]|e]; [|discriminate]. destruct A as (mv & A1 & A2 & _). injection A1 as <-. exact A2.
Qed.
Print Assumptions C100_mode_as_processed.
