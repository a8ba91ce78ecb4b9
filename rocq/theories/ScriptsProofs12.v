(** pygcode-norm with --canned_expand and --arc_linearize: the printed program, read back and run. *)
From Coq Require Import Ascii String List Bool Arith ZArith QArith Qcanon Permutation Lia Sorted.
From Verif Require Import Base Num Words GTable GCode Line Position Machine Transform BaseFacts WordOrder ArithSpec WordsSpec LineSpec PrintSpec PrintProofs GCodeSpec GCodeProofs GCodeProofs2 PropsLine BlockSpec BlockProofs LineProofs LineProofs2 PropsGCode ModeSpec ModeProofs MachSpec MachProofs MachProofs2 SimSpec SimProofs TransSpec TransProofs TransProofs2 PropsTrans ReadBackProofs
  Scripts ScriptsSpec ScriptsSpec2 ScriptsSpec3 ScriptsSpec5 ScriptsSpec6 ScriptsProofs ScriptsProofs4 ScriptsProofs5 ScriptsProofs6 ScriptsProofs7 ScriptsProofs8 ScriptsProofs9 ScriptsProofs10.
Import ListNotations.
Local Open Scope nat_scope.

Section WithArith.
Context {ar : Arith}.
(** ** runs of gcodes *)
Lemma passes_steps gs : forall m m1, (exists ms, passes m gs ms /\ last ms m = m1) <-> steps (map gcode_process gs) m = (m1, Ok tt).
Proof.
  induction gs as [|g gs IH]; intros m m1; cbn [map steps].
  - unfold ok_step. split; [intros (ms & P & <-); inversion P; reflexivity|]. intros E. injection E as <-. exists []. split; constructor.
  - unfold then_step. split.
    + intros (ms & P & <-). inversion P as [|? ? ? m2 ms' E P']; subst. rewrite E, last_cons. apply IH. exists ms'. auto.
    + destruct (gcode_process g m) as [m2 [[]|e]] eqn:E; [|discriminate]. intros H. apply IH in H as (ms & P & <-). exists (m2 :: ms). split; [econstructor; eauto|apply last_cons].
Qed.
Lemma passes_fun gs : forall m ms ms', passes m gs ms -> passes m gs ms' -> ms = ms'.
Proof. induction gs as [|g gs IH]; intros m ms ms' A B; inversion A; inversion B; subst; auto. rewrite H2 in H8. injection H8 as <-. f_equal. eauto. Qed.
Lemma passes_end gs m ms : passes m gs ms -> steps (map gcode_process gs) m = (last ms m, Ok tt).
Proof. intros P. apply passes_steps. eauto. Qed.
Lemma passes_good gs : Forall gcode_wf gs -> forall m ms, sound m -> inside m -> passes m gs ms -> sound (last ms m) /\ inside (last ms m) /\ m_ignore (last ms m) = m_ignore m.
Proof.
  intros F m ms S I P. apply passes_end in P. destruct (steps_inv gs m S I F) as (A & B & _ & K). rewrite P in A, B, K. cbn [fst] in *. split; auto. split; auto. apply K.
Qed.
(** *** on machines that differ in the motion mode *)
Definition moving (g : gcode) : bool := match modal_group (gcls g) with Some MG_motion => true | _ => false end.
Lemma like_false b m m' : like b m m' -> like false m m'.
Proof. intros [R _]. split; auto. discriminate. Qed.
Lemma process_like b g h m m' m1 : gcode_wf g -> same_gcode g h -> sound m -> inside m -> sound m' -> inside m' -> like b m m' -> gcode_process g m = (m1, Ok tt) ->
  exists m1', gcode_process h m' = (m1', Ok tt) /\ like (b || moving g) m1 m1' /\ sound m1 /\ inside m1 /\ sound m1' /\ inside m1'.
Proof.
  intros W G S I S' I' LK P. destruct (like_between b m m' S I S' LK) as (n & SM & NR & Sn & In_). destruct (process_sim g h m n) as [A B]; auto. rewrite P in A, B. destruct (gcode_process h n) as [n1 r] eqn:Pn. cbn [fst snd] in A, B. subst r.
  assert (Wh : gcode_wf h) by (eapply same_wf; eauto). destruct (process_near b h n m' n1 Wh Sn S' NR Pn) as (m1' & P' & N1 & _ & S1'). exists m1'. split; auto. destruct (process_keeps g m S I W) as [(S1 & I1 & _) _]. destruct (process_keeps h m' S' I' Wh) as [(_ & I1' & _) _]. rewrite P in S1, I1. rewrite P' in I1'. cbn [fst] in *.
  split; auto. eapply same_near; [exact B|]. unfold moving. destruct G as (E & _). rewrite E. exact N1.
Qed.
Lemma passes_like b gs : Forall gcode_wf gs -> forall hs m m' ms, Forall2 same_gcode gs hs -> sound m -> inside m -> sound m' -> inside m' -> like b m m' -> passes m gs ms ->
  exists ms', passes m' hs ms' /\ Forall2 resumed ms ms' /\ like (b || existsb moving gs) (last ms m) (last ms' m') /\ sound (last ms m) /\ inside (last ms m) /\ sound (last ms' m') /\ inside (last ms' m').
Proof.
  intros F. revert b. induction F as [|g gs W F IH]; intros b hs m m' ms G S I S' I' LK P; inversion G; subst; inversion P; subst.
  - exists []. cbn [existsb last]. rewrite orb_false_r. split; [constructor|]. auto 9.
  - destruct (process_like b g y m m' m1 W H1 S I S' I' LK H4) as (m1' & P' & LK1 & S1 & I1 & S1' & I1'). destruct (IH _ _ _ _ _ H3 S1 I1 S1' I1' LK1 H6) as (ms' & PS & R & Q). exists (m1' :: ms'). split; [econstructor; eauto|]. split; [constructor; [exact (proj1 LK1)|auto]|].
    rewrite !last_cons. cbn [existsb]. rewrite orb_assoc. exact Q.
Qed.
Lemma same_gcodes_refl (gs : list gcode) : Forall2 same_gcode gs gs.
Proof. induction gs; constructor; auto using same_gcode_refl. Qed.
(** the motion mode after gcodes without motion *)
Definition motion (m : machine) : option gcode := gm_get (m_mode m) MG_motion.
Lemma process_motion g m : sound m -> gcode_wf g -> moving g = false -> motion (fst (gcode_process g m)) = motion m \/ motion (fst (gcode_process g m)) = None.
Proof.
  intros S W N. unfold motion. rewrite gcode_process_mode; [|apply S|apply W]. unfold mode_effect. destruct (process_kind (gcls g)) eqn:K; try (left; unfold set_effect; unfold moving in N; destruct (modal_group (gcls g)) as [mg|]; auto; rewrite gm_get_set_other; auto; intros ->; discriminate).
  right. apply gm_get_set_same.
Qed.
Lemma passes_motion gs : Forall gcode_wf gs -> existsb moving gs = false -> forall m ms, sound m -> inside m -> passes m gs ms -> motion (last ms m) = motion m \/ motion (last ms m) = None.
Proof.
  induction 1 as [|g gs W F IH]; cbn [existsb]; intros N m ms S I P; inversion P; subst; auto. apply orb_false_iff in N as [N1 N2]. rewrite last_cons. destruct (process_keeps g m S I W) as [(S1 & I1 & _) _]. pose proof (process_motion g m S W N1) as M. rewrite H2 in S1, I1, M. cbn [fst] in *. destruct (IH N2 m1 ms0 S1 I1 H4) as [E|E]; rewrite E; auto.
Qed.
Lemma process_moving g m : sound m -> gcode_wf g -> moving g = true -> exists mo, motion (fst (gcode_process g m)) = Some mo /\ gcls mo = gcls g /\ gword mo = gword g.
Proof.
  intros S W M. assert (G : in_group MG_motion g) by (unfold moving in M; unfold in_group; destruct (modal_group (gcls g)) as [[]|]; try discriminate; auto). exists (modal_of g). unfold motion. rewrite gcode_process_mode; [|apply S|apply W]. rewrite (effect_in _ _ _ G). auto.
Qed.
(** ** the commands replaced *)
Lemma swapped_same o g h : gcls g = gcls h -> gword g = gword h -> swapped o g -> swapped o h.
Proof. unfold swapped, named. intros -> ->. auto. Qed.
Lemma arc_motion g : derives (gcls g) GCodeArcMove -> moving g = true.
Proof. intros D. apply subclass_derives in D. unfold moving. revert D. generalize (gcls g). intros c. destruct c; vm_compute; congruence. Qed.
Lemma canned_motion g : is_canned g -> moving g = true.
Proof. intros D. apply subclass_derives in D. unfold moving. revert D. generalize (gcls g). intros c. destruct c; vm_compute; congruence. Qed.
Lemma canned_not_arc g : is_canned g -> ~ derives (gcls g) GCodeArcMove.
Proof. intros D E. apply subclass_derives in D, E. revert D E. generalize (gcls g). intros c. destruct c; vm_compute; congruence. Qed.
Lemma straight_not g : straight g -> ~ derives (gcls g) GCodeArcMove /\ ~ is_canned g.
Proof. intros [D|D]; apply subclass_derives in D; split; intros E; apply subclass_derives in E; revert D E; generalize (gcls g); intros c; destruct c; vm_compute; congruence. Qed.
Lemma swapped_motion o g : expanding o -> gcode_wf g -> swapped o g -> moving g = true.
Proof. intros (_ & _ & _ & _ & _ & _ & _ & _ & _ & _ & C) W [[_ D]|[_ D]]; [apply arc_motion; auto|apply canned_motion; auto]. Qed.
Lemma straight_stays o g : expanding o -> gcode_wf g -> straight g -> ~ swapped o g.
Proof. intros (_ & _ & _ & _ & _ & _ & _ & _ & _ & _ & C) W S [[_ D]|[_ D]]; destruct (straight_not g S); auto. Qed.
Lemma others_still o a g b : expanding o -> ForallOrdPairs compatible (a ++ g :: b) -> moving g = true -> existsb moving a = false /\ existsb moving b = false.
Proof.
  intros E C M. assert (MG : forall h, moving h = true -> modal_group (gcls h) = Some MG_motion) by (intros h; unfold moving; destruct (modal_group (gcls h)) as [[]|]; congruence). split; apply existsb_false; apply forallb_forall; intros h I; apply negb_true_iff; destruct (moving h) eqn:K; auto; exfalso.
  - apply in_split in I as (x & y & ->). rewrite <- app_assoc in C. pose proof (fop_in _ _ _ _ C g) as [_ N]; [apply in_app_iff; right; left; auto|]. apply N. exists MG_motion. auto.
  - pose proof (fop_in _ _ _ _ C h I) as [_ N]. apply N. exists MG_motion. auto.
Qed.
(** ** what is printed *)
Definition told_moves (gs : list gcode) : Prop := Forall (fun h => straight h /\ gparams h <> [] /\ gcode_wf h /\ gwhite h = false) gs.
Lemma straight_motion g : straight g -> in_group MG_motion g.
Proof. intros [D|D]; apply subclass_derives in D; unfold in_group; revert D; generalize (gcls g); intros c; destruct c; vm_compute; congruence. Qed.
Lemma motion_word_read a g g' b : read_move g g' -> motion_word a g b -> motion_word a g' b.
Proof.
  intros (C & W & _) M. assert (G : is_g80 g <-> is_g80 g') by (unfold is_g80; rewrite C; tauto). assert (I : in_group MG_motion g <-> in_group MG_motion g') by (unfold in_group; rewrite C; tauto).
  inversion M; subst; [apply mw_clear; tauto|rewrite <- W; apply mw_set; tauto|apply mw_keep; tauto].
Qed.
Lemma read_wfs gs gs' : Forall2 read_move gs gs' -> Forall gcode_wf gs -> Forall gcode_wf gs'.
Proof. induction 1; intros F; inversion F; subst; constructor; auto. eapply read_wf; eauto. Qed.
(** *** the moves, each on its line, words that are in force left out *)
Lemma hidden_reads : accurate ar -> forall a gs out, hidden a gs out -> forall gs' m ms, sound m -> inside m -> told_moves gs -> Forall2 read_move gs gs' -> (forall w, a = Some w -> exists mo, gm_get (m_mode m) MG_motion = Some mo /\ gword mo = w) -> passes m gs' ms ->
  exists tr, reading m (map gcode_str out) tr /\ map snd tr = ms /\ forall y h, In y tr -> In h (bgcodes (lblock (fst y))) -> exists g, In g gs /\ gcls g = gcls h /\ gword g = gword h.
Proof.
  intros acc a gs out H. induction H as [a|a g gs b out N MW H IH|a g gs b out N EA MW H IH]; intros gs' m ms S I T RM K P; inversion RM as [|? g' ? gs2 RG RS]; subst; inversion P; subst.
  - exists []. split; [constructor|]. split; auto. intros y h [].
  - inversion T as [|? ? (SR & NP & W & WH) T2]; subst. destruct (straight_not g SR) as [_ NC]. pose proof (shown_process g g' m acc W WH NC RG) as PS. destruct (shown_line g g' acc W WH RG) as (ws & k & E & _ & SG). unfold process_str in PS. rewrite E in PS.
    pose proof (read_wf _ _ RG W) as W'. destruct (process_keeps g' m S I W') as [(S1 & I1 & _) _]. pose proof (motion_after _ _ _ m S W' (motion_word_read _ _ _ _ RG MW) K) as K1. rewrite H3 in *. cbn [fst] in *. destruct (IH gs2 m1 ms0 S1 I1 T2 RS K1 H5) as (tr & R2 & EM & Q). exists ((Line (Block ws [k] []) None None, m1) :: tr). split; [econstructor; eauto|]. split; [cbn [map snd]; congruence|].
    intros y h [<-|J] J2; [|destruct (Q y h J J2) as (q & J3 & J4); exists q; split; auto; right; auto]. cbn [fst lblock bgcodes] in J2. destruct J2 as [<-|[]]. exists g. split; [left; auto|]. destruct SG as (A & B & _), RG as (A' & B' & _). split; congruence.
  - inversion T as [|? ? (SR & NP & W & WH) T2]; subst. destruct (straight_not g SR) as [_ NC]. destruct (K _ eq_refl) as (mo & E & EW). pose proof (straight_motion g SR) as MG.
    pose proof (blank_process g g' mo m W S MG NC NP RG E EW) as PS. destruct (blank_line g g' W NP RG) as (ps & ML & _ & _); [intros l TL; apply (motion_letters (gcls g)); auto|]. unfold process_str in PS. rewrite ML in PS.
    pose proof (read_wf _ _ RG W) as W'. destruct (process_keeps g' m S I W') as [(S1 & I1 & _) _]. pose proof (motion_after _ _ _ m S W' (motion_word_read _ _ _ _ RG MW) K) as K1. rewrite H3 in *. cbn [fst] in *. destruct (IH gs2 m1 ms0 S1 I1 T2 RS K1 H5) as (tr & RT & EM & Q). exists ((Line (Block ps [] ps) None None, m1) :: tr). split; [econstructor; eauto|]. split; [cbn [map snd]; congruence|].
    intros y h [<-|J] J2; [contradiction|]. destruct (Q y h J J2) as (k & J3 & J4). exists k. split; auto. right. auto.
Qed.
Lemma moves_read moves moves' m ms : accurate ar -> sound m -> inside m -> told_moves moves -> Forall2 read_move moves moves' -> passes m moves' ms ->
  exists out tr, omit_redundant_modes (moves, Ok tt) = (out, Ok tt) /\ reading m (map gcode_str out) tr /\ map snd tr = ms /\ forall y h, In y tr -> In h (bgcodes (lblock (fst y))) -> exists g, In g moves /\ gcls g = gcls h /\ gword g = gword h.
Proof.
  intros acc S I T RM P. assert (W : Forall gcode_wf moves) by (eapply Forall_impl; [|exact T]; intros g H; apply H). destruct (omit_redundant_modes (moves, Ok tt)) as [out r] eqn:O.
  destruct (C57_words ar moves out (Ok tt) r W O) as (done & rest & E & H & [(-> & ->)|(g & rest' & e & -> & CG & _)]).
  - rewrite app_nil_r in E. subst done. destruct (hidden_reads acc None moves out H moves' m ms S I T RM) as (tr & Q); auto; [discriminate|]. exists out, tr. auto.
  - exfalso. subst moves. unfold told_moves in T. rewrite Forall_forall in T. destruct (T g) as (SR & _); [apply in_app_iff; right; left; auto|]. destruct (straight_not g SR) as [_ NC]. auto.
Qed.
(** *** comments *)
Lemma note_reads x : ~ In newline x -> ~ In "%"%char x -> exists l, mk_line (comment_str (Comment CommentSemicolon x)) = Ok l /\ lblock l = empty_block.
Proof.
  intros N P. unfold comment_str. cbn [cclass ctext]. pose proof (C14_semicolon_partial ar [] (space :: x) []) as H. cbn [app] in H. rewrite app_nil_r in H.
  assert (X : rmap lblock (mk_line [";"%char]) = Ok empty_block) by reflexivity. rewrite X in H. change (t "; " ++ x) with (";"%char :: space :: x).
  assert (E : rmap lblock (mk_line (";"%char :: space :: x)) = Ok empty_block). { apply H; [intros [Q|Q]|intros [Q|Q]|intros []]; try discriminate Q; auto. }
  destruct (mk_line (";"%char :: space :: x)) as [l|]; [|discriminate E]. exists l. split; auto. cbn [rmap] in E. congruence.
Qed.
Lemma class_calm c : Forall calm (t (class_name c)).
Proof.
  assert (X : forallb (fun a => negb (is_space a) && negb (existsb (Ascii.eqb a) (t "();%"))) (t (class_name c)) = true) by (destruct c; vm_compute; reflexivity).
  rewrite forallb_forall in X. apply Forall_forall. intros a I. specialize (X a I). apply andb_true_iff in X as [A B]. apply negb_true_iff in A, B. left. split; [unfold blank; congruence|]. intros J. assert (existsb (Ascii.eqb a) (t "();%") = true) by (apply existsb_exists; exists a; split; auto; apply Ascii.eqb_refl). congruence.
Qed.
Lemma calm_b s : forallb (fun a => Ascii.eqb a space || negb (is_space a) && negb (existsb (Ascii.eqb a) (t "();%"))) s = true -> Forall calm s.
Proof.
  rewrite forallb_forall. intros X. apply Forall_forall. intros a I. specialize (X a I). apply orb_true_iff in X as [X|X]; [right; apply Ascii.eqb_eq; auto|]. apply andb_true_iff in X as [A B]. apply negb_true_iff in A, B. left. split; [unfold blank; congruence|]. intros J. assert (existsb (Ascii.eqb a) (t "();%") = true) by (apply existsb_exists; exists a; split; auto; apply Ascii.eqb_refl). congruence.
Qed.
Lemma join_calm_sep sep l : Forall calm sep -> Forall (Forall calm) l -> Forall calm (join sep l).
Proof.
  intros S F. destruct l as [|x l]; [constructor|]. inversion F; subst. clear F. revert x H1. induction H2 as [|y l Y F IH]; intros x X; cbn [join]; auto. apply Forall_app. split; auto. apply Forall_app. split; [auto|exact (IH y Y)].
Qed.
Lemma word_calm w : readable w -> Forall calm (word_str w).
Proof. intros [_ H]. eapply Forall_impl; [|apply (word_str_plain w H)]. left. auto. Qed.
Lemma repr_calm g : legal g -> Forall readable (gword g :: map snd (gparams g)) -> Forall calm (gcode_repr g).
Proof.
  intros L R. inversion R as [|? ? R1 R2]; subst. unfold gcode_repr. constructor; [left; split; [discriminate|intros J; vm_compute in J; intuition discriminate]|]. apply Forall_app. split; [apply class_calm|]. apply Forall_app. split; [apply calm_b; reflexivity|]. apply Forall_app. split; [apply word_calm; auto|]. apply Forall_app. split; [|apply calm_b; reflexivity].
  destruct (gparams g) as [|kv d] eqn:E; [constructor|]. rewrite <- E in *. constructor; [left; split; [discriminate|intros J; vm_compute in J; intuition discriminate]|]. apply Forall_app. split; [|apply calm_b; reflexivity]. apply join_calm_sep; [apply calm_b; reflexivity|]. apply Forall_map. apply Forall_forall. intros x I. apply word_calm. rewrite Forall_forall in R2. apply R2. apply in_map. eapply Permutation_in; [|exact I]. apply sort_perm.
Qed.
(** *** what the script writes *)
Lemma write_gcodes_eq o gs : expanding o -> write_gcodes o gs = ([join [space] (map gcode_str gs)], Ok tt).
Proof.
  intros (A & B & _ & _ & _ & _ & C & D & E & F & _). unfold write_gcodes, write, write_line. rewrite A, B, C, D, E, F. cbn [andb map app]. rewrite !app_nil_r. destruct (join [space] (map gcode_str gs)) as [|x r]; reflexivity.
Qed.
Lemma write_comment_eq o c : expanding o -> write o [] [] (Some c) None = ([comment_str c], Ok tt).
Proof.
  intros (A & B & _ & _ & _ & _ & C & D & E & F & _). unfold write, write_line. rewrite A, B, C, D, E, F. cbn [andb map app join]. destruct (comment_str c) as [|x r]; reflexivity.
Qed.
Lemma write_note_eq o x : expanding o -> write_note o x = ([comment_str (Comment CommentSemicolon x)], Ok tt).
Proof. apply write_comment_eq. Qed.
Lemma write_kept o s l : expanding o -> mk_line s = Ok l -> write o (bgcodes (lblock l)) (bmodal (lblock l)) (lcomment l) (lmacro l) = ([line_str l], Ok tt).
Proof.
  intros (A & B & _ & _ & _ & _ & C & D & E & F & _) L. rewrite <- (proj2 (write_line_str s l [line_str l] L) eq_refl). unfold write, write_line. rewrite A, B, C, D, E, F. reflexivity.
Qed.
Lemma each_write o gs : expanding o -> each (fun g => write_gcodes o [g]) gs = (map gcode_str gs, Ok tt).
Proof.
  intros X. induction gs as [|g gs IH]; cbn [each map]; [reflexivity|]. rewrite (write_gcodes_eq o [g] X). apply pbind_ok. exists [gcode_str g], tt, (map gcode_str gs). split; [reflexivity|]. auto.
Qed.
Lemma write_all_eq o moves out : expanding o -> omit_redundant_modes (moves, Ok tt) = (out, Ok tt) -> write_all o (moves, Ok tt) = (map gcode_str out, Ok tt).
Proof.
  intros X O. pose proof X as (_ & B & _). unfold write_all. rewrite B, O. cbn [fst snd]. rewrite each_write by auto. apply pbind_ok. exists (map gcode_str out), tt, []. rewrite app_nil_r. auto.
Qed.
(** *** one line *)
Lemma norm_kept o fuel s l m gs m1 : expanding o -> mk_line s = Ok l -> block_modal_gcodes m (lblock l) = Ok gs -> Forall (fun g => ~ swapped o g) gs -> process_block (lblock l) m = (m1, Ok tt) ->
  norm_line o fuel s m = ([line_str l], Ok m1).
Proof.
  intros X L G N P. pose proof X as (_ & B & C & _). unfold norm_line. rewrite B, C. apply pbind_pure. exists l. split; auto. rewrite pbind_ret. apply pbind_pure. exists gs. split; auto. rewrite Forall_forall in N.
  assert (PL : pbind (write o (bgcodes (lblock l)) (bmodal (lblock l)) (lcomment l) (lmacro l)) (fun _ => acts (process_block (lblock l)) m) = ([line_str l], Ok m1)).
  { apply pbind_ok. exists [line_str l], tt, []. split; [eapply write_kept; eauto|]. split; [apply acts_ok; auto|reflexivity]. }
  assert (CN : o_canned_expand o && existsb (fun g => existsb (word_eqb (gword g)) (o_canned_codes o)) gs = false).
  { destruct (o_canned_expand o) eqn:E; auto. cbn [andb]. destruct (existsb _ gs) eqn:Q; auto. exfalso. apply existsb_exists in Q as (g & I & Q). apply (N g I). right. split; auto. apply named_b. auto. }
  rewrite CN. destruct (o_linearize o) as [f|] eqn:E; auto. destruct (existsb (fun g => subclass (gcls g) GCodeArcMove) gs) eqn:Q; auto. exfalso. apply existsb_exists in Q as (g & I & Q). apply (N g I). left. rewrite E. split; [discriminate|apply subclass_derives; auto].
Qed.
Definition ordered (gs : list gcode) : Prop := StronglySorted (fun a b => (exec_order (gcls a) <= exec_order (gcls b))%Z) gs.
Lemma ordered_sort gs : ordered gs -> sort_gcodes gs = gs.
Proof. intros S. symmetry. apply C25_only_order; auto. Qed.
Lemma ordered_app a b : ordered (a ++ b) -> ordered a /\ ordered b.
Proof.
  induction a as [|x a IH]; cbn [app]; intros S; [split; [constructor|auto]|]. inversion S; subst. destruct (IH H1). split; auto. constructor; auto. apply Forall_app in H2. apply H2.
Qed.
Lemma process_ordered gs m : ordered gs -> process_gcodes gs [] m = steps (map gcode_process gs) m.
Proof. intros S. unfold process_gcodes. cbn [machine_modal_gcode]. rewrite app_nil_r, ordered_sort; auto. Qed.
Lemma split_here cls a g b : existsb (fun h => subclass (gcls h) cls) a = false -> subclass (gcls g) cls = true -> split_at cls (a ++ g :: b) = Some (a, g, b).
Proof.
  induction a as [|x a IH]; cbn [existsb app split_at]; intros N S; [rewrite S; auto|]. apply orb_false_iff in N as [N1 N2]. rewrite N1, IH; auto.
Qed.
Lemma steps_app_ok gs hs m m1 m2 : steps (map gcode_process gs) m = (m1, Ok tt) -> steps (map gcode_process hs) m1 = (m2, Ok tt) -> steps (map gcode_process (gs ++ hs)) m = (m2, Ok tt).
Proof.
  revert m. induction gs as [|g gs IH]; intros m; cbn [map steps app]; [unfold ok_step; intros E; injection E as <-; auto|]. unfold then_step. destruct (gcode_process g m) as [x [[]|e]]; [|discriminate]. auto.
Qed.
(** the lines for gcodes: one, or none *)
Definition gcodes_out (gs : list gcode) : list text := match gs with [] => [] | _ => [join [space] (map gcode_str gs)] end.
Lemma norm_split o cls c body a g b m n n2 n3 bo : expanding o -> ordered (a ++ g :: b) -> existsb (fun h => subclass (gcls h) cls) a = false -> subclass (gcls g) cls = true ->
  steps (map gcode_process a) m = (n, Ok tt) -> body n g = (bo, Ok tt) -> gcode_process g n = (n2, Ok tt) -> steps (map gcode_process b) n2 = (n3, Ok tt) ->
  split_and_process o cls c body (a ++ g :: b) m = (gcodes_out a ++ bo ++ gcodes_out b ++ match c with Some c => [comment_str c] | None => [] end, Ok n3).
Proof.
  intros X S N K A B G C. unfold split_and_process, split_gcodes. rewrite (ordered_sort _ S), (split_here cls a g b N K). apply ordered_app in S as [Sa S]. inversion S as [|? ? Sb _]; subst.
  assert (part : forall gs x y, ordered gs -> steps (map gcode_process gs) x = (y, Ok tt) -> match gs with [] => ret x | _ :: _ => pbind (write_gcodes o gs) (fun _ => acts (process_gcodes gs []) x) end = (gcodes_out gs, Ok y)).
  { intros gs x y O E. destruct gs as [|h gs]; [cbn in E; injection E as <-; reflexivity|]. rewrite write_gcodes_eq by auto. apply pbind_ok. exists [join [space] (map gcode_str (h :: gs))], tt, []. split; [reflexivity|]. split; [|reflexivity]. apply acts_ok. split; auto. rewrite process_ordered; auto. }
  apply pbind_ok. exists (gcodes_out a), n, (bo ++ gcodes_out b ++ match c with Some c => [comment_str c] | None => [] end). split; [auto|]. split; [|reflexivity].
  apply pbind_ok. exists bo, tt, (gcodes_out b ++ match c with Some c => [comment_str c] | None => [] end). split; auto. split; [|reflexivity].
  apply pbind_acts. exists n2. split; [rewrite process_one; auto|].
  apply pbind_ok. exists (gcodes_out b), n3, (match c with Some c => [comment_str c] | None => [] end). split; [auto|]. split; [|reflexivity].
  apply pbind_ok. exists (match c with Some c => [comment_str c] | None => [] end), tt, []. split; [|split; [reflexivity|rewrite app_nil_r; auto]]. destruct c; [apply write_comment_eq; auto|reflexivity].
Qed.
Lemma still_none a cls : (forall h, subclass (gcls h) cls = true -> moving h = true) -> existsb moving a = false -> existsb (fun h => subclass (gcls h) cls) a = false.
Proof.
  intros H N. apply existsb_false, forallb_forall. intros h I. apply negb_true_iff. destruct (subclass (gcls h) cls) eqn:E; auto. exfalso. apply H in E. assert (existsb moving a = true) by (apply existsb_exists; eauto). congruence.
Qed.
Lemma norm_moves o fuel s l m a g b moves out n n2 n3 : expanding o -> mk_line s = Ok l -> block_modal_gcodes m (lblock l) = Ok (a ++ g :: b) -> swapped o g -> ordered (a ++ g :: b) -> Forall gcode_wf (a ++ g :: b) -> ForallOrdPairs compatible (a ++ g :: b) ->
  steps (map gcode_process a) m = (n, Ok tt) -> moves_for o fuel n g moves -> omit_redundant_modes (moves, Ok tt) = (out, Ok tt) -> gcode_process g n = (n2, Ok tt) -> steps (map gcode_process b) n2 = (n3, Ok tt) ->
  exists pre, In pre ["linearized arc: "; "expanded: "]%string /\
    norm_line o fuel s m = (gcodes_out a ++ (comment_str (Comment CommentSemicolon (t pre ++ gcode_repr g)) :: map gcode_str out) ++ gcodes_out b ++ match lcomment l with Some c => [comment_str c] | None => [] end, Ok n3).
Proof.
  intros X L G SW S W C A MV OM PG PB. pose proof X as (_ & B & RI & _ & _ & _ & _ & _ & _ & _ & CY). assert (Wg : gcode_wf g) by (rewrite Forall_forall in W; apply W; apply in_app_iff; right; left; auto).
  destruct (others_still o a g b X C (swapped_motion o g X Wg SW)) as [Na Nb]. pose proof (write_all_eq o moves out X OM) as WA.
  assert (AM : forall h : gcode, subclass (gcls h) GCodeArcMove = true -> moving h = true) by (intros h E; apply arc_motion; apply subclass_derives; auto).
  assert (CM : forall h : gcode, subclass (gcls h) GCodeCannedCycle = true -> moving h = true) by (intros h E; apply canned_motion; apply subclass_derives; auto).
  assert (line : forall k, k = norm_line o fuel s m -> k = pbind (pure (mk_line s)) (fun l => pbind (ret (lblock l)) (fun b => pbind (pure (block_modal_gcodes m b)) (fun gs =>
     let plain := pbind (write o (bgcodes b) (bmodal b) (lcomment l) (lmacro l)) (fun _ => acts (process_block b) m) in
     let canned := if o_canned_expand o && existsb (fun g => existsb (word_eqb (gword g)) (o_canned_codes o)) gs then split_and_process o GCodeCannedCycle (lcomment l) (expand o fuel) gs m else plain in
     match o_linearize o with Some f => if existsb (fun g => subclass (gcls g) GCodeArcMove) gs then split_and_process o GCodeArcMove (lcomment l) (linearize o f) gs m else canned | None => canned end)))).
  { intros k ->. unfold norm_line. rewrite B, RI. reflexivity. }
  rewrite (line _ eq_refl). clear line. destruct MV as [(D & f & EF & MF)|(CG & p & MP & SC)].
  - exists "linearized arc: "%string. split; [left; auto|]. apply pbind_pure. exists l. split; auto. rewrite pbind_ret. apply pbind_pure. exists (a ++ g :: b). split; auto. rewrite EF. pose proof (proj2 (subclass_derives _ _) D) as DS.
    assert (E : existsb (fun h => subclass (gcls h) GCodeArcMove) (a ++ g :: b) = true) by (apply existsb_exists; exists g; split; auto; apply in_app_iff; right; left; auto). rewrite E. refine (norm_split o GCodeArcMove (lcomment l) (linearize o f) a g b m n n2 n3 _ X S (still_none a _ AM Na) DS A _ PG PB).
    unfold linearize. rewrite write_note_eq, MF by auto. apply pbind_ok. exists [comment_str (Comment CommentSemicolon (t "linearized arc: " ++ gcode_repr g))], tt, (map gcode_str out). auto.
  - exists "expanded: "%string. split; [right; left; auto|]. apply pbind_pure. exists l. split; auto. rewrite pbind_ret. apply pbind_pure. exists (a ++ g :: b). split; auto. pose proof (canned_not_arc g CG) as NA. destruct SW as [[_ D]|[CE NM]]; [contradiction|].
    assert (E : existsb (fun h => existsb (word_eqb (gword h)) (o_canned_codes o)) (a ++ g :: b) = true) by (apply existsb_exists; exists g; split; [apply in_app_iff; right; left; auto|apply named_b; auto]). rewrite CE, E. cbn [andb].
    assert (E2 : existsb (fun h => subclass (gcls h) GCodeArcMove) (a ++ g :: b) = false).
    { rewrite existsb_app. cbn [existsb]. rewrite (still_none a _ AM Na), (still_none b _ AM Nb). destruct (subclass (gcls g) GCodeArcMove) eqn:Q; auto. apply subclass_derives in Q. contradiction. }
    assert (Z : split_and_process o GCodeCannedCycle (lcomment l) (expand o fuel) (a ++ g :: b) m = (gcodes_out a ++ (comment_str (Comment CommentSemicolon (t "expanded: " ++ gcode_repr g)) :: map gcode_str out) ++ gcodes_out b ++ match lcomment l with Some c => [comment_str c] | None => [] end, Ok n3)).
    { refine (norm_split o GCodeCannedCycle (lcomment l) (expand o fuel) a g b m n n2 n3 _ X S (still_none a _ CM Na) (proj2 (subclass_derives _ _) CG) A _ PG PB). unfold expand. rewrite write_note_eq by auto. apply pbind_ok. exists [comment_str (Comment CommentSemicolon (t "expanded: " ++ gcode_repr g))], tt, (map gcode_str out). split; [reflexivity|]. split; [|reflexivity]. apply pbind_pure. exists p. split; [exact MP|]. rewrite SC. exact WA. }
    rewrite E2. destruct (o_linearize o); exact Z.
Qed.
End WithArith.
