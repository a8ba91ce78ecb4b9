(** The bound on the turns of the drilling loop does not matter, and what it takes for pygcode-norm to finish. *)
From Coq Require Import Ascii String List Bool Arith ZArith QArith Qcanon Lia.
From Verif Require Import Base Num Words GTable GCode Line Position Machine BaseFacts WordOrder WordsSpec WordsProofs LineSpec GCodeSpec GCodeProofs GCodeProofs2 ArithSpec
  PosSpec PosProofs ModeSpec ModeProofs MachSpec MachProofs MachProofs2 MachProofs3 Transform Arc FloatArc DrillProofs Scripts StopSpec StopProofs.
Import ListNotations.

(** ** what does not run out of turns *)
Definition quiet {A} (r : result A) : Prop := r <> Raise EOutOfFuel.
Lemma quiet_ok {A} (a : A) : quiet (Ok a). Proof. discriminate. Qed.
Lemma quiet_bind {A B} (r : result A) (k : A -> result B) : quiet r -> (forall a, r = Ok a -> quiet (k a)) -> quiet (bind r k).
Proof. intros Q K. destruct r as [a|e]; cbn [bind]; [auto|]. intros E. apply Q. congruence. Qed.
Lemma quiet_rmap {A B} (f : A -> B) r : quiet r -> quiet (rmap f r).
Proof. destruct r; cbn; [discriminate|]. intros Q E. apply Q. congruence. Qed.
Lemma quiet_raise {A B} (r : result A) e : r = Raise e -> quiet r -> quiet (@Raise B e).
Proof. intros -> Q E. apply Q. congruence. Qed.
Lemma ok_inj {A} (a b : A) : Ok a = Ok b -> a = b. Proof. congruence. Qed.
Create HintDb quiet.
Ltac qt := repeat first
  [ progress intros | discriminate | solve [auto with quiet] | apply quiet_rmap
  | match goal with
    | H : ?r = Raise ?e |- quiet (Raise ?e) => apply (quiet_raise r e H); clear H
    | |- quiet (bind _ _) => apply quiet_bind
    | |- quiet (match ?x with _ => _ end) => destruct x eqn:?
    | |- quiet (let (_, _) := ?x in _) => destruct x eqn:?
    end ].

Section WithArith.
Context {ar : Arith}.
Lemma q_getattr p a : quiet (pos_getattr p a). Proof. unfold pos_getattr. qt. Qed.
Lemma q_setattr p a x : quiet (pos_setattr p a x). Proof. unfold pos_setattr. qt. Qed.
Hint Resolve q_getattr q_setattr : quiet.
Lemma q_update cs : forall p, quiet (pos_update p cs). Proof. induction cs as [|[a x] cs IH]; intros p; cbn [pos_update]; qt. Qed.
Lemma q_add p q : quiet (pos_add p q). Proof. unfold pos_add. qt. Qed.
Lemma q_sub p q : quiet (pos_sub p q). Proof. unfold pos_sub. qt. Qed.
Lemma q_cmp k p q : quiet (pos_cmp k p q). Proof. unfold pos_cmp. qt. Qed.
Hint Resolve q_update q_add q_sub q_cmp : quiet.
Lemma q_py_float s : quiet (py_float s). Proof. unfold py_float. qt. Qed.
Lemma q_py_int s : quiet (py_int s). Proof. unfold py_int. qt. Qed.
Hint Resolve q_py_float q_py_int : quiet.
Lemma q_coerce l v : quiet (coerce l v). Proof. unfold coerce. qt. Qed.
Hint Resolve q_coerce : quiet.
Lemma q_mk_word l v : quiet (mk_word l v). Proof. unfold mk_word. qt. Qed.
Hint Resolve q_mk_word : quiet.
Lemma q_default_word c : quiet (default_word c). Proof. unfold default_word. qt. Qed.
Lemma q_kw_words kws : quiet (kw_words kws). Proof. induction kws as [|[l v] kws IH]; cbn [kw_words]; qt. Qed.
Lemma q_add_parameter g w : quiet (add_parameter g w). Proof. unfold add_parameter. qt. Qed.
Hint Resolve q_default_word q_kw_words q_add_parameter : quiet.
Lemma q_add_parameters ws : forall g, quiet (add_parameters g ws). Proof. induction ws as [|w ws IH]; intros g; cbn [add_parameters]; qt. Qed.
Hint Resolve q_add_parameters : quiet.
Lemma q_mk_gcode c w ps : quiet (mk_gcode c w ps). Proof. unfold mk_gcode. qt. Qed.
Hint Resolve q_mk_gcode : quiet.
Lemma q_mk_gcode_kw c kws : quiet (mk_gcode_kw c kws). Proof. unfold mk_gcode_kw. qt. Qed.
Lemma q_modal_copy g : quiet (modal_copy g). Proof. unfold modal_copy. qt. Qed.
Lemma q_gcode_getattr g l : quiet (gcode_getattr g l). Proof. unfold gcode_getattr. qt. Qed.
Lemma q_make_gcodes all l : forall i, quiet (make_gcodes all i l). Proof. induction l as [|p l IH]; intros i; cbn [make_gcodes]; qt. Qed.
Hint Resolve q_mk_gcode_kw q_modal_copy q_gcode_getattr q_make_gcodes : quiet.
Lemma q_words2gcodes ws : quiet (words2gcodes ws). Proof. unfold words2gcodes. qt. Qed.
Hint Resolve q_words2gcodes : quiet.
Lemma q_mk_line s : quiet (mk_line s). Proof. intros E. apply text_stops in E. inversion E. Qed.
Hint Resolve q_mk_line : quiet.
Lemma q_list_remove w l : quiet (list_remove w l). Proof. induction l; cbn [list_remove]; qt. Qed.
Hint Resolve q_list_remove : quiet.
Lemma q_list_remove_all ws : forall l, quiet (list_remove_all ws l). Proof. induction ws; intros l; cbn [list_remove_all]; qt. Qed.
Hint Resolve q_list_remove_all : quiet.
Lemma q_mode_set1 md g : quiet (mode_set1 md g). Proof. unfold mode_set1. qt. Qed.
Hint Resolve q_mode_set1 : quiet.
Lemma q_mode_set_list gs : forall md, quiet (mode_set_list md gs). Proof. induction gs; intros md; cbn [mode_set_list]; qt. Qed.
Hint Resolve q_mode_set_list : quiet.
Lemma q_mode_set md gs : quiet (mode_set md gs). Proof. unfold mode_set. qt. Qed.
Lemma q_lines_gcodes ls : quiet (lines_gcodes ls). Proof. induction ls; cbn [lines_gcodes]; qt. Qed.
Hint Resolve q_mode_set q_lines_gcodes : quiet.
Lemma q_new_machine axes ig lines : quiet (new_machine axes ig lines). Proof. unfold new_machine, new_mode. qt. Qed.
Hint Resolve q_new_machine : quiet.
Lemma q_modal_gcode m ps : quiet (machine_modal_gcode m ps). Proof. unfold machine_modal_gcode. qt. Qed.
Hint Resolve q_modal_gcode : quiet.
Lemma q_block_modal_gcodes m b : quiet (block_modal_gcodes m b). Proof. unfold block_modal_gcodes. qt. Qed.
Lemma q_clean_block m b : quiet (clean_block m b). Proof. unfold clean_block. qt. Qed.
Hint Resolve q_block_modal_gcodes q_clean_block : quiet.
Lemma q_coord_sys_offset m : quiet (coord_sys_offset m). Proof. unfold coord_sys_offset. qt. Qed.
Hint Resolve q_coord_sys_offset : quiet.
Lemma q_abs2work m p : quiet (abs2work m p). Proof. unfold abs2work. qt. Qed.
Lemma q_work2abs m p : quiet (work2abs m p). Proof. unfold work2abs. qt. Qed.
Hint Resolve q_abs2work q_work2abs : quiet.
Lemma q_machine_pos m : quiet (machine_pos m). Proof. unfold machine_pos. qt. Qed.
Hint Resolve q_machine_pos : quiet.

(** steps *)
Definition silent (s : step) : Prop := forall m, quiet (snd (s m)).
Lemma s_then a b : silent a -> silent b -> silent (then_step a b).
Proof. intros A B m. unfold then_step. specialize (A m). destruct (a m) as [m1 [[]|e]]; [apply B|exact A]. Qed.
Lemma s_atomic f : (forall m, quiet (f m)) -> silent (atomic_step f).
Proof. intros F m. unfold atomic_step. specialize (F m). destruct (f m) as [x|e]; cbn [snd]; [discriminate|]. intros E. apply F. congruence. Qed.
Lemma s_steps l : Forall silent l -> silent (steps l).
Proof. induction 1 as [|s l S L IH]; cbn [steps]; [intros m; discriminate|]. apply s_then; auto. Qed.
Lemma s_set_pos p : silent (set_pos p).
Proof. unfold set_pos. repeat apply s_then; apply s_atomic; intros m; unfold pos_min, pos_max; qt. Qed.
Lemma s_raise m e (r : result position) : r = Raise e -> quiet r -> quiet (snd (m : machine, @Raise unit e)).
Proof. apply quiet_raise. Qed.
Lemma s_move_to cs : silent (move_to cs).
Proof.
  intros m. unfold move_to. destruct (machine_pos m) as [p|e] eqn:E; [|cbn [snd]; eapply quiet_raise; eauto with quiet].
  destruct (is_incremental m).
  - match goal with |- context [existsb ?f cs] => destruct (existsb f cs) end; [discriminate|]. destruct (pos_add p _) as [q|e] eqn:E2; [apply s_set_pos|cbn [snd]; eapply quiet_raise; eauto with quiet].
  - match goal with |- context [existsb ?f cs] => destruct (existsb f cs) end; [discriminate|]. match goal with |- context [existsb ?f cs] => destruct (existsb f cs) end; [discriminate|]. destruct (pos_update p _) as [q|e] eqn:E2; [apply s_set_pos|cbn [snd]; eapply quiet_raise; eauto with quiet].
Qed.
Lemma s_repeat n s : silent s -> silent (repeat_step n s).
Proof. intros S. induction n; cbn [repeat_step]; [intros m; discriminate|]. apply s_then; auto. Qed.
Lemma s_canned g : silent (canned_process g).
Proof.
  intros m. unfold canned_process. destruct (gm_get (m_mode m) MG_plane_selection) as [pl|]; [|discriminate]. destruct (normal_axis (gcls pl)) as [na|]; [|discriminate].
  destruct (match gm_get (m_mode m) MG_canned_cycles_return with Some r => _ | None => false end).
  - destruct (gcode_getattr g LR) as [r|e] eqn:E; [|cbn [snd]; eapply quiet_raise; eauto with quiet]. destruct na as [l|].
    + destruct (axis_of_letter l); [|discriminate]. destruct (gcode_getattr g LL) as [v|e] eqn:E2; [|cbn [snd]; eapply quiet_raise; eauto with quiet]. apply s_repeat, s_move_to.
    + destruct (gcode_getattr g LL) as [v|e] eqn:E2; [discriminate|cbn [snd]; eapply quiet_raise; eauto with quiet].
  - destruct (gcode_getattr g LL) as [v|e] eqn:E2; [|cbn [snd]; eapply quiet_raise; eauto with quiet]. apply s_repeat, s_move_to.
Qed.
Lemma s_gcode g : silent (gcode_process g).
Proof.
  unfold gcode_process. apply s_then.
  - unfold machine_set_mode. apply s_atomic. intros m. qt.
  - intros m. unfold gcode_process_own. destruct (process_kind (gcls g)); try discriminate; [apply s_move_to|apply s_canned].
Qed.
Lemma s_process_gcodes gs ps : silent (process_gcodes gs ps).
Proof.
  intros m. unfold process_gcodes. destruct (machine_modal_gcode m ps) as [og|e] eqn:E; [|cbn [snd]; eapply quiet_raise; eauto with quiet].
  apply s_steps. apply Forall_map. apply Forall_forall. intros g _. apply s_gcode.
Qed.

(** generators *)
Lemma q_relative_move g p q : quiet (relative_move g p q). Proof. unfold relative_move. qt. Qed.
Hint Resolve q_relative_move : quiet.
Lemma g_abs2rel_loop l : forall m last, quiet last -> quiet (snd (abs2rel_loop m l last)).
Proof.
  induction l as [|g l IH]; intros m last Q; cbn [abs2rel_loop]; [exact Q|]. destruct (machine_pos m) as [p|e] eqn:E; [|cbn; eapply quiet_raise; eauto with quiet].
  pose proof (s_process_gcodes [g] [] m) as S. destruct (process_gcodes [g] [] m) as [m' [u|e]] eqn:E1; [|exact (quiet_raise _ e eq_refl S)].
  destruct (machine_pos m') as [q|e] eqn:E2; [|cbn; eapply quiet_raise; eauto with quiet]. destruct (modal_group (gcls g)) as [[]|]; try (cbn; auto; fail).
  destruct (_ || _); [|discriminate]. destruct (relative_move g p q) as [[x|]|e] eqn:E3; [cbn; auto..|]. cbn. eapply quiet_raise; eauto with quiet.
Qed.
Lemma g_abs2rel p c axes src : quiet (snd src) -> quiet (snd (gcodes_abs2rel p c axes src)).
Proof.
  intros Q. unfold gcodes_abs2rel. destruct (match c with None => true | Some c => _ end); auto. unfold absolute_coord_machine. destruct (new_machine _ _ _) as [m0|e] eqn:E; [|cbn; eapply quiet_raise; eauto with quiet].
  pose proof (s_set_pos p m0) as S. destruct (set_pos p m0) as [m [u|e]]; [apply g_abs2rel_loop; auto|exact (quiet_raise _ e eq_refl S)].
Qed.
Lemma g_omit_loop l : forall m last, quiet last -> quiet (snd (omit_loop m l last)).
Proof.
  induction l as [|g l IH]; intros m last Q; cbn [omit_loop]; [exact Q|]. set (g' := if redundant m g then white g else g).
  pose proof (s_process_gcodes [g'] [] m) as S. destruct (process_gcodes [g'] [] m) as [m' [u|e]] eqn:E1; [cbn; auto|exact (quiet_raise _ e eq_refl S)].
Qed.
Lemma g_omit src : quiet (snd src) -> quiet (snd (omit_redundant_modes src)).
Proof. intros Q. unfold omit_redundant_modes, null_machine. destruct (new_machine _ _ _) as [m|e] eqn:E; [apply g_omit_loop; auto|cbn; eapply quiet_raise; eauto with quiet]. Qed.
Definition oquiet (o : option gen) : Prop := forall s, o = Some s -> quiet (snd s).
Lemma o_raise e : e <> EOutOfFuel -> oquiet (Some (gen_raise e)). Proof. intros N s E. injection E as <-. cbn. intros X. apply N. congruence. Qed.
Lemma o_yield r k : quiet r -> oquiet k -> oquiet (yield r k).
Proof. intros Q K s. unfold yield. destruct r as [g|e]; [|intros E; injection E as <-; exact (quiet_raise _ e eq_refl Q)]. destruct k as [k|]; cbn; [|discriminate]. intros E. injection E as <-. cbn. apply K. auto. Qed.
Lemma o_yield_if b r k : quiet r -> oquiet k -> oquiet (yield_if b r k). Proof. intros Q K. unfold yield_if. destruct b; auto using o_yield. Qed.
Lemma o_lift r : quiet r -> (forall k, r = Ok k -> oquiet k) -> oquiet (lift r).
Proof. intros Q K. destruct r as [k|e]; cbn [lift]; [auto|]. apply o_raise. intros ->. apply Q. auto. Qed.
Lemma q_rapid_z z : quiet (rapid_z z). Proof. unfold rapid_z. qt. Qed.
Lemma q_linear_z z : quiet (linear_z z). Proof. unfold linear_z. qt. Qed.
Lemma q_rapid_xy x y : quiet (rapid_xy x y). Proof. unfold rapid_xy. qt. Qed.
Lemma q_need o : quiet (need o). Proof. unfold need. qt. Qed.
Hint Resolve q_rapid_z q_linear_z q_rapid_xy q_need : quiet.
Lemma o_drill chip retract drill delta k : oquiet k -> forall fuel cur last, oquiet (drill_loop fuel chip retract drill delta cur last k).
Proof.
  intros K. induction fuel as [|f IH]; intros cur last; cbn [drill_loop]; [discriminate|]. apply o_yield_if; auto with quiet. apply o_yield; auto with quiet. destruct (Qcleb _ drill); auto. apply o_yield; auto. destruct chip; auto with quiet.
Qed.
Lemma o_holes fuel g start incr to_r n : forall hx hy, oquiet (holes fuel n g start incr to_r hx hy).
Proof.
  induction n as [|n IH]; intros hx hy; cbn [holes]; [intros s E; injection E as <-; discriminate|]. apply o_lift.
  - qt.
  - intros k E. destruct (if incr then _ else _) as [[[[r d] x] y]|e] in E; cbn [bind] in E; [|discriminate]. destruct (Qcltb r d); [discriminate|]. destruct (if to_r then _ else _) as [sz|e] in E; cbn [bind] in E; [|discriminate].
    destruct (pos_getattr start AZ) as [z0|e]; cbn [bind] in E; [|discriminate]. apply ok_inj in E; rewrite <- E; clear E. apply o_yield_if; auto with quiet. apply o_yield; [qt|]. apply o_yield_if; auto with quiet. apply o_lift; [qt|].
    intros k2 E. destruct (if _ || _ then _ else _) as [delta|e] in E; cbn [bind] in E; [|discriminate]. apply ok_inj in E; rewrite <- E; clear E. apply o_drill. match goal with |- oquiet (if ?b then _ else _) => destruct b end; [apply o_raise; discriminate|]. apply o_yield; auto with quiet.
Qed.
Lemma o_simplify fuel g start plane dist rmode axes : oquiet (simplify_canned_cycle fuel g start plane dist rmode axes).
Proof.
  unfold simplify_canned_cycle. destruct (negb _); [apply o_raise; discriminate|]. destruct (negb _); [apply o_raise; discriminate|]. intros s E. destruct (lift _) as [inner|] eqn:L; cbn [option_map] in E; [|discriminate]. injection E as <-. apply g_abs2rel. revert inner L.
  match goal with |- forall s, ?x = Some s -> _ => change (oquiet x) end. apply o_lift; [qt|]. intros k E. destruct (gcode_getattr g LL) as [l|]; cbn [bind] in E; [|discriminate]. destruct (match l with None => _ | Some _ => _ end) as [n|]; cbn [bind] in E; [|discriminate]. apply ok_inj in E; rewrite <- E; clear E. apply o_holes.
Qed.

(** printers *)
Definition calm {A} (p : printer A) : Prop := quiet (snd p).
Lemma c_bind {A B} (p : printer A) (k : A -> printer B) : calm p -> (forall a, snd p = Ok a -> calm (k a)) -> calm (pbind p k).
Proof. intros Q K. destruct p as [o [a|e]]; cbn [pbind]; [|exact (quiet_raise _ e eq_refl Q)]. specialize (K a eq_refl). unfold calm in *. destruct (k a); exact K. Qed.
Lemma c_pure {A} (r : result A) : quiet r -> calm (pure r). Proof. auto. Qed.
Lemma c_ret {A} (a : A) : calm (ret a). Proof. discriminate. Qed.
Lemma c_print s : calm (print s). Proof. discriminate. Qed.
Lemma c_acts s m : silent s -> calm (acts s m).
Proof. intros S. unfold acts. specialize (S m). destruct (s m) as [m' [u|e]]; [discriminate|]. exact (quiet_raise _ e eq_refl S). Qed.
Lemma c_each {A} (f : A -> printer unit) l : (forall x, calm (f x)) -> calm (each f l).
Proof. intros F. induction l; cbn [each]; [apply c_ret|]. apply c_bind; auto. Qed.
Lemma c_write_line o gs ps c mac : calm (write_line o gs ps c mac).
Proof. unfold write_line. cbv zeta. destruct (join _ _); [destruct (o_rm_blanks o)|]; discriminate. Qed.
Lemma c_write o gs ps c mac : calm (write o gs ps c mac).
Proof.
  unfold write. assert (K : calm (if o_singles o && (2 <=? length gs)%nat then each (fun g => write_line o [g] [] c None) (sort_gcodes gs) else write_line o gs ps c mac)).
  { destruct (_ && _); [apply c_each; intros x|]; apply c_write_line. }
  destruct (o_full o); auto. destruct ps; auto. discriminate.
Qed.
Lemma c_write_all o s : quiet (snd s) -> calm (write_all o s).
Proof. intros Q. unfold write_all. apply c_bind; [apply c_each; intros x; apply c_write|]. intros _ _. apply c_pure. destruct (o_full o); auto using g_omit. Qed.
Lemma c_split o cls c body gs m : (forall m1 be g af, split_gcodes gs cls true = (be, [g], af) -> (be = [] /\ m1 = m \/ process_gcodes be [] m = (m1, Ok tt)) -> calm (body m1 g)) -> calm (split_and_process o cls c body gs m).
Proof.
  intros B. unfold split_and_process. destruct (split_gcodes gs cls true) as [[be [|g [|]]] af] eqn:E; try discriminate. apply c_bind.
  - destruct be; [apply c_ret|]. apply c_bind; [apply c_write|]. intros _ _. apply c_acts, s_process_gcodes.
  - intros m1 E1. apply c_bind.
    + apply (B m1 be g af eq_refl). destruct be; [left; cbn in E1; split; congruence|right]. unfold pbind in E1. destruct (write_gcodes o _) as [o1 [u|e]]; [|discriminate]. unfold acts in E1. destruct (process_gcodes _ [] m) as [m' [[]|e]]; cbn in E1; congruence.
    + intros _ _. apply c_bind; [apply c_acts, s_process_gcodes|]. intros m2 _. apply c_bind.
      * destruct af; [apply c_ret|]. apply c_bind; [apply c_write|]. intros _ _. apply c_acts, s_process_gcodes.
      * intros m3 _. apply c_bind; [destruct c; [apply c_write|apply c_ret]|]. intros _ _. apply c_ret.
Qed.
Lemma c_final o m : calm (norm_final o m).
Proof.
  unfold norm_final. cbv zeta. repeat first [apply c_bind; [|intros ? ?] | match goal with |- calm (if ?b then _ else _) => destruct b end | apply c_ret | apply c_write | apply c_pure; solve [auto with quiet] | match goal with |- calm (match ?x with _ => _ end) => destruct x end | apply c_pure; qt].
Qed.
End WithArith.
