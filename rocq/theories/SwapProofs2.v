(** X and Y exchanged: whole lines and programs. *)
From Coq Require Import Ascii String List Bool Arith ZArith QArith Qcanon Lia.
From Verif Require Import Base Num Regex Words GTable GCode Line Position Machine ModeSpec MachSpec MachProofs2 SwapSpec SwapProofs.
Import ListNotations.

Section WithArith.
Context {ar : Arith}.
Definition flat_gcode (g : gcode) : Prop := ~ tilted (gcls g) /\ proper g.
Definition flat (m : machine) : Prop := forall mg g, gm_get (m_mode m) mg = Some g -> flat_gcode g.
Lemma flat_level m : flat m -> level_machine m. Proof. intros F g E. apply (F _ _ E). Qed.
Lemma reachable_flat m : reachable m -> level_machine m -> flat m.
Proof.
  intros R L mg g E. destruct (reachable_sound m R) as [(_ & _ & _ & _ & _ & MW & GW) _]. split; [|apply (GW _ _ E)]. intros T. destruct (MW _ _ E) as (G & _). assert (mg = MG_plane_selection).
  { unfold in_group in G. destruct T as [T|T]; rewrite T in G; vm_compute in G; injection G as <-; reflexivity. }
  subst mg. apply (L g E T).
Qed.

(** ** The mode *)
Lemma adds_kept ws : forall g g', add_parameters g ws = Ok g' -> gcls g' = gcls g /\ gword g' = gword g.
Proof.
  induction ws as [|w ws IH]; intros g g'; cbn [add_parameters]; [intros [= <-]; auto|]. unfold add_parameter. destruct (negb _); [discriminate|]. destruct (dmem _ _ _); [discriminate|]. cbn [bind]. intros E. apply IH in E. exact E.
Qed.
Lemma copy_kept g c : modal_copy g = Ok c -> gcls c = gcls g /\ gword c = gword g. Proof. apply (adds_kept _ (MkGCode (gcls g) (gword g) [] false)). Qed.
Lemma copy_flat g c : flat_gcode g -> modal_copy g = Ok c -> flat_gcode c. Proof. intros [A B] E. destruct (copy_kept _ _ E) as [C D]. unfold flat_gcode, proper. rewrite C, D. auto. Qed.
Lemma mode_set_swap md g : mode_set (map_modes swap_gcode md) [swap_gcode g] = rmap (map_modes swap_gcode) (mode_set md [g]).
Proof.
  unfold mode_set. cbn [sort_gcodes sort insert mode_set_list]. unfold mode_set1. cbn [swap_gcode gcls]. fold (swap_gcode g). destruct (modal_group (gcls g)) as [mg|]; [|reflexivity]. rewrite modal_copy_swap. destruct (modal_copy g) as [c|]; cbn [rmap bind]; [|reflexivity]. f_equal. apply (set_modes swap_gcode md mg (Some c)).
Qed.
Lemma set_mode_swap g m : machine_set_mode [swap_gcode g] (swap_machine m) = swap_out (machine_set_mode [g] m).
Proof.
  unfold machine_set_mode, atomic_step. cbn [swap_machine m_mode]. rewrite mode_set_swap. destruct (mode_set (m_mode m) [g]) as [md|]; cbn [rmap bind]; [|reflexivity]. rewrite get_modes.
  destruct (gm_get md MG_coordinate_system) as [c|]; cbn [option_map]; [|reflexivity]. cbn [swap_gcode gcls]. destruct (coord_system_id (gcls c)); reflexivity.
Qed.
Lemma gm_set_other {A} (md : gmap A) k v mg : gm_get (gm_set md k v) mg = v \/ gm_get (gm_set md k v) mg = gm_get md mg. Proof. destruct md, k, mg; cbn; auto. Qed.
Lemma set_mode_flat g m : flat_gcode g -> flat m -> flat (fst (machine_set_mode [g] m)).
Proof.
  intros G F. unfold machine_set_mode, atomic_step, mode_set. cbn [sort_gcodes sort insert mode_set_list]. unfold mode_set1.
  assert (K : forall md, (forall mg x, gm_get md mg = Some x -> flat_gcode x) -> flat (fst (match (match gm_get md MG_coordinate_system with None => Ok (with_mode m md) | Some x => match coord_system_id (gcls x) with None => Raise EAttributeError | Some i => Ok (with_state (with_mode m md) (State (coord_systems (m_state m)) i (st_offset (m_state m)))) end end) with Ok m' => (m', Ok tt) | Raise e => (m, @Raise unit e) end))).
  { intros md H. destruct (gm_get md MG_coordinate_system) as [x|]; [|exact H]. destruct (coord_system_id (gcls x)); [exact H|exact F]. }
  destruct (modal_group (gcls g)) as [k|]; cbn [bind]; [|apply K; exact F]. destruct (modal_copy g) as [c|e] eqn:C; cbn [bind]; [|exact F]. apply K. intros mg x E. destruct (gm_set_other (m_mode m) k (Some c) mg) as [Q|Q]; rewrite Q in E; [injection E as <-; eapply copy_flat; eauto|apply (F mg x E)].
Qed.
Lemma set_pos_mode p m : m_mode (fst (set_pos p m)) = m_mode m.
Proof. unfold set_pos, then_step, atomic_step. destruct (work2abs m p); cbn [bind]; [|reflexivity]. destruct (pos_min _ _); cbn [bind]; [|reflexivity]. destruct (pos_max _ _); reflexivity. Qed.
Lemma move_mode cs m : m_mode (fst (move_to cs m)) = m_mode m.
Proof.
  unfold move_to. destruct (machine_pos m) as [p|]; [|reflexivity]. destruct (is_incremental m).
  - match goal with |- context [existsb ?f cs] => destruct (existsb f cs) end; [reflexivity|]. destruct (pos_add p _); [apply set_pos_mode|reflexivity].
  - do 2 (match goal with |- context [existsb ?f cs] => destruct (existsb f cs) end; [reflexivity|]). destruct (pos_update p _); [apply set_pos_mode|reflexivity].
Qed.
Lemma repeat_mode n cs : forall m, m_mode (fst (repeat_step n (move_to cs) m)) = m_mode m.
Proof. induction n as [|n IH]; intros m; [reflexivity|]. cbn [repeat_step]. unfold then_step. pose proof (move_mode cs m) as Q. destruct (move_to cs m) as [m' [u|e]]; cbn [fst] in *; [rewrite IH|]; exact Q. Qed.
Lemma canned_mode g m : m_mode (fst (canned_process g m)) = m_mode m.
Proof.
  unfold canned_process. destruct (gm_get (m_mode m) MG_plane_selection) as [pl|]; [|reflexivity]. destruct (normal_axis (gcls pl)) as [na|]; [|reflexivity].
  destruct (match gm_get (m_mode m) MG_canned_cycles_return with Some r => _ | None => false end).
  - destruct (gcode_getattr g LR); [|reflexivity]. destruct na as [l|]; [|destruct (gcode_getattr g LL); reflexivity]. destruct (axis_of_letter l); [|reflexivity]. destruct (gcode_getattr g LL); [apply repeat_mode|reflexivity].
  - destruct (gcode_getattr g LL); [apply repeat_mode|reflexivity].
Qed.

(** ** One gcode, several gcodes *)
Lemma process_flat g m : flat_gcode g -> flat m -> flat (fst (gcode_process g m)).
Proof.
  intros G F. pose proof (set_mode_flat g m G F) as H. unfold gcode_process, then_step. destruct (machine_set_mode [g] m) as [m' [u|e]]; cbn [fst] in H; [|exact H]. unfold gcode_process_own.
  destruct (process_kind (gcls g)); [exact H| | |].
  - intros mg x. rewrite move_mode. apply H.
  - intros mg x. rewrite canned_mode. apply H.
  - intros mg x E. cbn [fst with_mode m_mode] in E. destruct (gm_set_other (m_mode m') MG_motion None mg) as [Q|Q]; rewrite Q in E; [discriminate E|apply (H mg x E)].
Qed.
Lemma process_swap g m : flat_gcode g -> flat m -> gcode_process (swap_gcode g) (swap_machine m) = swap_out (gcode_process g m).
Proof.
  intros G F. pose proof (set_mode_flat g m G F) as H. unfold gcode_process, then_step. rewrite set_mode_swap. destruct (machine_set_mode [g] m) as [m' [u|e]]; cbn [swap_out fst snd] in *; [|reflexivity]. unfold gcode_process_own. change (gcls (swap_gcode g)) with (gcls g).
  destruct (process_kind (gcls g)); [reflexivity| | |].
  - rewrite coords_swap. apply move_swap.
  - apply canned_swap, flat_level, H.
  - unfold swap_out. cbn [fst snd]. f_equal. unfold swap_machine, with_mode. cbn [m_mode m_state m_abs m_min m_max m_axes m_ignore]. f_equal. apply (set_modes swap_gcode (m_mode m') MG_motion None).
Qed.
Lemma steps_swap gs : forall m, Forall flat_gcode gs -> flat m ->
  steps (map gcode_process (map swap_gcode gs)) (swap_machine m) = swap_out (steps (map gcode_process gs) m) /\ flat (fst (steps (map gcode_process gs) m)).
Proof.
  induction gs as [|g gs IH]; intros m G F; [split; [reflexivity|exact F]|]. inversion G as [|g' gs' G1 G2]; subst. cbn [map steps]. unfold then_step. rewrite process_swap by auto. pose proof (process_flat g m G1 F) as H.
  destruct (gcode_process g m) as [m' [u|e]]; cbn [swap_out fst snd] in *; [apply IH; auto|split; [reflexivity|exact H]].
Qed.

(** ** Lines *)
Lemma made_flat all : forall l i gs, (forall p, In p l -> wi_class p = None \/ wi_class p = word_gcode_class (wi_word p)) -> make_gcodes all i l = Ok gs -> Forall (fun g => proper g) gs.
Proof.
  induction l as [|p l IH]; intros i gs H; cbn [make_gcodes]; [intros [= <-]; constructor|]. destruct (wi_class p) as [c|] eqn:C; [|apply IH; intros q Q; apply H; right; exact Q].
  destruct (mk_gcode c (wi_word p) (params_of all (Some i))) as [g|] eqn:G; cbn [bind]; [|discriminate]. destruct (make_gcodes all (S i) l) as [gs'|] eqn:M; cbn [bind]; [|discriminate]. intros [= <-]. constructor; [|eapply IH; [intros q Q; apply H; right; exact Q|exact M]].
  destruct (adds_kept _ _ _ G) as [A B]. cbn in A, B. unfold proper. rewrite A, B. destruct (H p (or_introl eq_refl)) as [X|X]; congruence.
Qed.
Lemma link_classes n : forall i l p, (forall p, In p l -> wi_class p = None \/ wi_class p = word_gcode_class (wi_word p)) -> In p (link n i l) -> wi_class p = None \/ wi_class p = word_gcode_class (wi_word p).
Proof.
  induction n as [|n IH]; intros i l p H; [apply H|]. destruct l as [|q l]; [intros []|]. cbn [link]. intros [<-|I]; [apply H; left; reflexivity|]. eapply IH; [|exact I].
  intros r R. destruct (wi_class q); [|apply H; right; exact R]. unfold claim in R. apply in_map_iff in R as (y & <- & Y). destruct (accepts _ _); [left; reflexivity|apply H; right; exact Y].
Qed.
Lemma infos_classes ws p : In p (word_infos ws) -> wi_class p = None \/ wi_class p = word_gcode_class (wi_word p).
Proof. unfold word_infos. intros I. apply in_map_iff in I as (w & <- & _). right. reflexivity. Qed.
Lemma grouped_proper ws gs u : words2gcodes ws = Ok (gs, u) -> Forall proper gs.
Proof.
  unfold words2gcodes. destruct (make_gcodes _ 0 _) as [gs'|] eqn:M; cbn [bind]; [|discriminate]. intros [= <- _]. eapply made_flat; [|exact M]. intros p P. eapply link_classes; [|exact P]. intros q. apply infos_classes.
Qed.
Lemma head_gcode w ws g u c : word_gcode_class w = Some c -> words2gcodes (w :: ws) = Ok ([g], u) -> gcls g = c.
Proof.
  intros C. unfold words2gcodes. cbn [word_infos map length link]. set (l := link _ _ _). cbn [make_gcodes wi_class wi_word]. rewrite C. destruct (mk_gcode c w _) as [g'|] eqn:G; cbn [bind]; [|discriminate].
  destruct (make_gcodes _ 1 l); cbn [bind]; [|discriminate]. intros [= -> _ _]. apply (adds_kept _ _ _ G).
Qed.
Lemma modal_swap m ps : machine_modal_gcode (swap_machine m) (map swap_word ps) = rmap (option_map swap_gcode) (machine_modal_gcode m ps).
Proof.
  unfold machine_modal_gcode. destruct ps as [|p ps]; [reflexivity|]. set (l := p :: ps). change (map swap_word (p :: ps)) with (map swap_word l).
  assert (Q : match map swap_word l with [] => Ok None | _ :: _ => do (gs, unassigned) <- match gm_get (m_mode (swap_machine m)) MG_motion with None => Ok ([], map swap_word l) | Some mo => words2gcodes (gword mo :: map snd (dupdate letter_eqb (gparams mo) (map (fun w => (wletter w, w)) (map swap_word l)))) end;
    if (match unassigned with [] => false | _ => true end) && negb (m_ignore (swap_machine m)) then Raise EMachineInvalidState else match gs with [] => Ok None | [g] => Ok (Some g) | _ => Raise EAssertionError end end =
    do (gs, unassigned) <- rmap swap_grouped (match gm_get (m_mode m) MG_motion with None => Ok ([], l) | Some mo => words2gcodes (gword mo :: map snd (dupdate letter_eqb (gparams mo) (map (fun w => (wletter w, w)) l))) end);
    if (match unassigned with [] => false | _ => true end) && negb (m_ignore m) then Raise EMachineInvalidState else match gs with [] => Ok None | [g] => Ok (Some g) | _ => Raise EAssertionError end).
  { cbn [swap_machine m_mode m_ignore]. rewrite get_modes. change (map swap_word l) with (swap_word p :: map swap_word ps) at 1. cbn iota. destruct (gm_get (m_mode m) MG_motion) as [mo|]; cbn [option_map]; [|reflexivity]. do 2 f_equal.
    rewrite <- words2gcodes_swap. cbn [map]. cbn [swap_gcode gword gparams]. do 2 f_equal.
    replace (map (fun w => (wletter w, w)) (map swap_word l)) with (map (fun kv => (swap_letter (fst kv), swap_word (snd kv))) (map (fun w => (wletter w, w)) l)) by (rewrite !map_map; reflexivity).
    rewrite (dupdate_both letter_eqb swap_letter swap_word letter_eqb_swap), !map_map. reflexivity. }
  rewrite Q. clear Q. destruct (match gm_get (m_mode m) MG_motion with None => _ | Some mo => _ end) as [[gs u]|e]; cbn [rmap bind]; [|reflexivity]. cbn [swap_grouped fst snd].
  destruct u; cbn [map]; destruct (m_ignore m); cbn [negb andb]; destruct gs as [|g [|h gs]]; reflexivity.
Qed.
Lemma modal_flat m ps g : flat m -> machine_modal_gcode m ps = Ok (Some g) -> flat_gcode g.
Proof.
  intros F. unfold machine_modal_gcode. destruct ps as [|p ps]; [discriminate|]. destruct (gm_get (m_mode m) MG_motion) as [mo|] eqn:E; cbn [bind].
  - destruct (words2gcodes _) as [[gs u]|] eqn:W; cbn [bind]; [|discriminate]. destruct (_ && _); [discriminate|]. destruct gs as [|x [|y gs]]; try discriminate. intros [= ->]. destruct (F _ _ E) as [T P]. split.
    + rewrite (head_gcode _ _ _ _ _ P W). exact T.
    + apply grouped_proper in W. inversion W; auto.
  - destruct (_ && _); discriminate.
Qed.
Lemma line_proper s l : mk_line s = Ok l -> Forall proper (bgcodes (lblock l)).
Proof.
  unfold mk_line. destruct (line_parts s) as [[bc mc]|]; cbn [bind]; [|discriminate]. destruct (split_line bc) as [b c]. destruct (mk_block true b) as [bl|] eqn:B; cbn [bind]; [|discriminate]. intros [= <-]. cbn [lblock]. unfold mk_block in B. destruct b as [|ch b]; [injection B as <-; constructor|].
  destruct (text2words _) as [ws|]; cbn [bind] in B; [|discriminate]. destruct (words2gcodes ws) as [[gs u]|] eqn:W; cbn [bind] in B; [|discriminate]. destruct (assert_gcodes [] [] gs); cbn [bind] in B; [|discriminate]. injection B as <-. eapply grouped_proper; eauto.
Qed.
Lemma sort_forall (P : gcode -> Prop) l : Forall P l -> Forall P (sort_gcodes l).
Proof.
  unfold sort_gcodes. induction 1 as [|x l X _ IH]; [constructor|]. cbn [sort]. induction IH as [|y r Y R IH']; cbn [insert]; [auto|]. destruct (_ <=? _)%Z; auto.
Qed.
Lemma str_swap s m : level_line s -> flat m -> process_str (swap_text s) (swap_machine m) = swap_out (process_str s m) /\ flat (fst (process_str s m)).
Proof.
  intros L F. unfold process_str. pose proof (line_swap s) as E. destruct (mk_line s) as [l|e] eqn:M; destruct (mk_line (swap_text s)) as [l'|e']; cbn [rmap] in E; try discriminate E; injection E as E.
  2:{ subst e'. split; [reflexivity|exact F]. }
  unfold process_block, process_gcodes. rewrite E. cbn [swap_block bgcodes bmodal]. rewrite modal_swap. destruct (machine_modal_gcode m (bmodal (lblock l))) as [og|e] eqn:O; cbn [rmap]; [|split; [reflexivity|exact F]].
  replace (map swap_gcode (bgcodes (lblock l)) ++ match option_map swap_gcode og with Some g => [g] | None => [] end) with (map swap_gcode (bgcodes (lblock l) ++ match og with Some g => [g] | None => [] end)) by (rewrite map_app; destruct og; reflexivity).
  rewrite sort_swap. apply steps_swap; auto. apply sort_forall, Forall_app. split.
  - pose proof (line_proper s l M) as P. rewrite Forall_forall in *. intros g G. split; [apply (L l g M G)|auto].
  - destruct og as [g|]; constructor; auto. eapply modal_flat; eauto.
Qed.
Lemma program_swap ss : forall m, Forall level_line ss -> flat m -> steps (map process_str (map swap_text ss)) (swap_machine m) = swap_out (steps (map process_str ss) m).
Proof.
  induction ss as [|s ss IH]; intros m L F; [reflexivity|]. inversion L; subst. cbn [map steps]. unfold then_step. destruct (str_swap s m) as [E H]; auto. rewrite E. destruct (process_str s m) as [m' [u|e]]; cbn [swap_out fst snd] in *; [apply IH; auto|reflexivity].
Qed.

(** ** A machine as made *)
Definition code_text (s : text) : result text := do (bc, _) <- line_parts s; Ok (fst (split_line bc)).
Lemma block_of_code s : rmap lblock (mk_line s) = do b <- code_text s; mk_block true b.
Proof. unfold mk_line, code_text. destruct (line_parts s) as [[bc mc]|]; cbn [bind rmap]; [|reflexivity]. destruct (split_line bc) as [b c]. cbn [fst]. destruct (mk_block true b); reflexivity. Qed.
Lemma fixed_line s l : code_text (swap_text s) = code_text s -> mk_line s = Ok l -> map swap_gcode (bgcodes (lblock l)) = bgcodes (lblock l).
Proof.
  intros C L. pose proof (line_swap s) as E. rewrite !block_of_code in E. rewrite C, <- block_of_code, L in E. cbn [rmap] in E. injection E as E. rewrite E at 2. reflexivity.
Qed.
Lemma fixed_lines ls : forall gs, Forall (fun s => code_text (swap_text s) = code_text s) ls -> lines_gcodes ls = Ok gs -> map swap_gcode gs = gs.
Proof.
  induction ls as [|s ls IH]; intros gs F; cbn [lines_gcodes]; [intros [= <-]; reflexivity|]. inversion F; subst. destruct (mk_line s) as [l|] eqn:L; cbn [bind]; [|discriminate]. destruct (lines_gcodes ls) as [r|]; cbn [bind]; [|discriminate].
  intros [= <-]. rewrite map_app, (fixed_line s l), (IH r) by auto. reflexivity.
Qed.
Lemma mode_list_swap gs : forall md, mode_set_list (map_modes swap_gcode md) (map swap_gcode gs) = rmap (map_modes swap_gcode) (mode_set_list md gs).
Proof.
  induction gs as [|g gs IH]; intros md; [reflexivity|]. cbn [mode_set_list map]. pose proof (mode_set_swap md g) as E. unfold mode_set in E. cbn [sort_gcodes sort insert mode_set_list] in E.
  assert (X : forall r : result mode, (do x <- r; Ok x) = r) by (intros []; reflexivity). rewrite !X in E. rewrite E. destruct (mode_set1 md g); cbn [rmap bind]; auto.
Qed.
Lemma new_swap axes ig ls m : swap9 axes = axes -> Forall (fun s => code_text (swap_text s) = code_text s) ls -> new_machine axes ig ls = Ok m -> swap_machine m = m.
Proof.
  intros A F. unfold new_machine, new_mode. destruct (lines_gcodes ls) as [gs|] eqn:L; cbn [bind]; [|discriminate]. apply fixed_lines in L; auto.
  pose proof (mode_list_swap (sort_gcodes gs) gm_empty) as E. rewrite <- sort_swap, L in E. change (map_modes swap_gcode gm_empty) with (@gm_empty gcode) in E. unfold mode_set. destruct (mode_set_list gm_empty (sort_gcodes gs)) as [md|]; cbn [rmap bind] in *; [|discriminate]. injection E as E.
  destruct (match gm_get md MG_units with None => _ | Some g => _ end) as [u|]; cbn [bind]; [|discriminate]. intros [= <-]. unfold swap_machine. cbn [m_mode m_state m_abs m_min m_max m_axes m_ignore].
  pose proof (mk_position_swap axes u []) as P. cbn [map] in P. rewrite A in P. rewrite <- P, A, <- E. f_equal. pose proof (zero_swap axes) as Z. rewrite A in Z. unfold new_state, swap_state. cbn [coord_systems cur_coord_sys st_offset swap_table map fst snd]. rewrite <- Z. reflexivity.
Qed.
Lemma default_fixed : Forall (fun s => code_text (swap_text s) = code_text s) default_mode_lines.
Proof. unfold default_mode_lines. cbn [map]. repeat constructor; vm_compute; reflexivity. Qed.
Lemma attr_swap p a : pos_getattr (swap_pos p) (swap_axis a) = pos_getattr p a.
Proof. unfold pos_getattr, pval. cbn [swap_pos paxes pvals]. rewrite !vget_swap. reflexivity. Qed.
End WithArith.
