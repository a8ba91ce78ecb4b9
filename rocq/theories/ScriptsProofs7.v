(** The preamble printed by pygcode-crop, read back and run. *)
From Coq Require Import Ascii String List Bool Arith ZArith QArith Qcanon Permutation Lia.
From Verif Require Import Base Num Words GTable GCode Line Position Machine Transform BaseFacts ArithSpec WordsSpec PrintSpec PrintProofs PrintProofs2 PropsPrint WordOrder GCodeSpec GCodeProofs GCodeProofs2 GTableProofs PropsGCode PosSpec PosProofs BlockSpec BlockProofs ModeSpec ModeProofs MachSpec MachProofs MachProofs2 MachProofs3 PropsMach PropsMach3 SimSpec SimProofs TransSpec TransProofs TransProofs2
  Scripts ScriptsSpec ScriptsSpec2 ScriptsSpec3 ScriptsProofs ScriptsProofs4 ScriptsProofs5 ScriptsProofs6.
Import ListNotations.
Local Open Scope nat_scope.

Section WithArith.
Context {ar : Arith}.
(** coordinates are floats, and the coordinate system is the first one until one is selected *)
Definition steady (m : machine) : Prop :=
  in_sync m /\ (gm_get (m_mode m) MG_coordinate_system = None -> cur_coord_sys (m_state m) = Some 1%Z) /\ forall a, has (m_abs m) a -> float (pval (m_abs m) a).
Lemma iter_float n (f : Qc -> Qc) x : (forall y, float (f y)) -> float x -> float (iter n f x).
Proof. intros H. revert x. induction n as [|n IH]; intros x F; cbn [iter]; auto. Qed.
Local Transparent set_for.
Lemma process_steady g m m1 : idempotent ar -> sound m -> inside m -> gcode_wf g -> steady m -> gcode_process g m = (m1, Ok tt) -> steady m1.
Proof.
  intros ID S I W (Y & C & F) E. destruct (process_keeps g m S I W) as [(S1 & I1 & Y1) K1]. rewrite E in S1, I1, Y1, K1. cbn [fst] in *. split; auto.
  pose proof (set_for_sound m g S W) as S0. destruct (set_for_pos m g) as (A0 & _ & _ & X0 & _).
  assert (C0 : gm_get (m_mode (set_for m g)) MG_coordinate_system = None -> cur_coord_sys (m_state (set_for m g)) = Some 1%Z).
  { intros N. destruct (modal_group (gcls g)) as [mg|] eqn:G; [destruct (mgroup_eqb mg MG_coordinate_system) eqn:Q|].
    - apply mgroup_eqb_eq in Q. subst. pose proof (effect_in (m_mode m) MG_coordinate_system g G) as X. exfalso.
      assert (Z : m_mode (set_for m g) = set_effect (m_mode m) g) by (unfold set_for; apply after_mode_mode). rewrite Z in N. unfold set_effect in N. rewrite G, gm_get_set_same in N. discriminate N.
    - assert (NG : ~ in_group MG_coordinate_system g) by (unfold in_group; rewrite G; intros H; injection H as ->; discriminate Q). rewrite (set_for_sync m g Y NG). rewrite set_for_get in N; auto.
    - assert (NG : ~ in_group MG_coordinate_system g) by (unfold in_group; rewrite G; discriminate). rewrite (set_for_sync m g Y NG). rewrite set_for_get in N; auto. }
  destruct (process_cases g m S W) as [(e & E')|(cs & n & m' & E' & _ & [(_ & FR & _ & _ & V & _)|(_ & ->)])]; [congruence| |].
  - rewrite E in E'. injection E' as <-. destruct FR as (FM & FS & FA & _). rewrite FM, FS. split; auto. intros a Ha. assert (Ha' : has (m_abs (set_for m g)) a).
    { pose proof S0 as ((_ & Q & _) & _). pose proof S1 as ((_ & Q1 & _) & _). unfold has in *. congruence. }
    rewrite V by auto. apply iter_float; [intros y; apply ID|]. rewrite A0. rewrite A0 in Ha'. auto.
  - rewrite E in E'. injection E' as ->. cbn [with_mode m_mode m_state m_abs]. split; [rewrite gm_get_set_other by discriminate; auto|]. rewrite A0. auto.
Qed.
Lemma steps_steady gs : idempotent ar -> Forall gcode_wf gs -> forall m m1, sound m -> inside m -> steady m -> steps (map gcode_process gs) m = (m1, Ok tt) -> steady m1.
Proof.
  intros ID. induction gs as [|g gs IH]; intros F m m1 S I Y; cbn [map steps].
  - unfold ok_step. intros E. injection E as <-. auto.
  - inversion F; subst. unfold then_step. destruct (gcode_process g m) as [x [[]|e]] eqn:E; [|discriminate]. destruct (process_keeps g m S I H1) as [(S1 & I1 & _) _]. rewrite E in S1, I1. cbn [fst] in *. apply (IH H2 x m1 S1 I1). apply (process_steady g m x ID S I H1 Y E).
Qed.
Lemma process_gcodes_steady gs ps m m1 : idempotent ar -> Forall gcode_wf gs -> Forall word_wf ps -> sound m -> inside m -> steady m -> process_gcodes gs ps m = (m1, Ok tt) -> steady m1.
Proof.
  intros ID F W S I Y. unfold process_gcodes. destruct (machine_modal_gcode m ps) as [og|] eqn:O; [|discriminate]. apply steps_steady; auto. apply sort_wf, Forall_app. split; auto. destruct og as [g|]; constructor; auto. eapply modal_gcode_wf; eauto.
Qed.
Lemma reading_steady file : idempotent ar -> forall m tr, sound m -> inside m -> steady m -> reading m file tr -> sound (after m tr) /\ inside (after m tr) /\ steady (after m tr) /\ keeps m (after m tr).
Proof.
  intros ID. induction file as [|s r IH]; intros m tr S I Y R.
  - apply reading_empty in R. subst. split; auto. split; auto. split; auto. apply keeps_refl.
  - apply reading_step in R as (l & m1 & tr1 & L & P & R & <-). rewrite after_cons. destruct (mk_line_block _ _ L) as (bs & MB). destruct (mk_block_wf _ _ _ MB) as [F W].
    destruct (process_gcodes_inv (bgcodes (lblock l)) (bmodal (lblock l)) m S I F W) as (S1 & I1 & _ & K1). unfold process_block in P. rewrite P in S1, I1, K1. cbn [fst] in *.
    pose proof (process_gcodes_steady _ _ m m1 ID F W S I Y P) as Y1. destruct (IH m1 tr1 S1 I1 Y1 R) as (A & B & C & D). split; auto. split; auto. split; auto. eapply keeps_trans; eauto.
Qed.
Lemma null_steady m : accurate ar -> null_machine = Ok m -> sound m /\ inside m /\ steady m /\ no_offsets m /\ m_axes m = xyz /\ m_ignore m = false /\ m_mode m = gm_empty.
Proof.
  intros acc E. destruct (new_machine_sound _ _ _ _ E) as (S & I & O & A & G & C & V). assert (M : m_mode m = gm_empty) by (unfold null_machine in E; cbn in E; injection E as <-; reflexivity).
  split; auto. split; auto. split; [|auto]. split; [intros g; rewrite M, gm_get_empty; discriminate|]. split; auto. intros a _. rewrite V. destruct acc as [acc _]. exact (acc 0%Z ltac:(lia)).
Qed.
Lemma steady_pos m a x : sound m -> steady m -> no_offsets m -> pos_at m a x <-> has (m_abs m) a /\ x = pval (m_abs m) a.
Proof.
  intros S (_ & _ & F) O. rewrite pos_at_iff by auto. split; intros [H ->]; (split; [auto|]).
  - destruct (O a) as [O1 O2]. unfold wpos_of, fsub. rewrite O1, O2. assert (K2 : forall y, (y - Q2Qc 0)%Qc = y) by (intros; ring). rewrite !K2, !(F a H). auto.
  - destruct (O a) as [O1 O2]. unfold wpos_of, fsub. rewrite O1, O2. assert (K2 : forall y, (y - Q2Qc 0)%Qc = y) by (intros; ring). rewrite !K2, !(F a H). auto.
Qed.
Lemma null_offsets m0 m : null_machine = Ok m0 -> keeps m0 m -> no_offsets m.
Proof.
  intros E (_ & _ & C & O & _) a. assert (S : m_state m0 = new_state xyz) by (unfold null_machine in E; cbn in E; injection E as <-; reflexivity). unfold system_offset, temp_offset. rewrite C, O, S.
  split; [|apply zero_pos_val]. unfold new_state. cbn [coord_systems]. destruct (cur_coord_sys (m_state m)) as [i|]; auto.
  match goal with |- context [dget Z.eqb ?d i] => assert (Z : forall p, dget Z.eqb d i = Some p -> p = zero_pos xyz) end.
  { intros p H. apply (dget_in _ _ _ Z.eqb_eq) in H. cbn [map In] in H. repeat (destruct H as [H|H]; [injection H as _ <-; reflexivity|]). contradiction. }
  match goal with |- context [dget Z.eqb ?d i] => destruct (dget Z.eqb d i) as [p|] end; auto. rewrite (Z p eq_refl). apply zero_pos_val.
Qed.
End WithArith.

(** ** the line of modes *)
Section ModeLine.
Context {ar : Arith}.
Lemma steps_quiet gs : Forall gcode_wf gs -> Forall (fun g => ~ is_canned g) gs -> forall m, sound m -> inside m -> exists m1, steps (map gcode_process gs) m = (m1, Ok tt).
Proof.
  induction gs as [|g gs IH]; intros F N m S I; cbn [map steps]; [eexists; reflexivity|]. inversion F; inversion N; subst. unfold then_step. destruct (process_keeps g m S I H1) as [(S1 & I1 & _) _].
  assert (E : exists m1, gcode_process g m = (m1, Ok tt)).
  { destruct (process_kind (gcls g)) eqn:K.
    - rewrite process_own by (auto; apply H1). unfold gcode_process_own. rewrite K. eauto.
    - destruct (process_move g m S H1 K) as (m1 & E & _). eauto.
    - exfalso. apply kind_canned in K. auto.
    - rewrite process_own by (auto; apply H1). unfold gcode_process_own. rewrite K. eauto. }
  destruct E as (m1 & E). rewrite E in *. cbn [fst] in *. eauto.
Qed.
Lemma modal_letter w c mg : accurate ar -> word_wf w -> word_gcode_class w = Some c -> modal_group c = Some mg -> In (wletter w) [LG; LM; LF; LS; LT; LN; LO] /\ letter_kind (wletter w) <> KText.
Proof.
  intros acc W C M. split.
  - destruct (List.in_dec (fun a b => match letter_eqb a b as r return letter_eqb a b = r -> {a = b} + {a <> b} with true => fun e => left (proj1 (letter_eqb_eq a b) e) | false => fun e => right (fun q => eq_ind false (fun x => if x then False else True) I true (eq_trans (eq_sym e) (proj2 (letter_eqb_eq a b) q))) end eq_refl) (wletter w) [LG; LM; LF; LS; LT; LN; LO]) as [H|H]; auto. rewrite (C17_letters ar w H) in C. discriminate C.
  - intros K. apply ktext_O in K. apply (word_class_doc acc) in C; auto. unfold doc_class in C. rewrite K in C. destruct C as [C|(lo & hi & I & _)].
    + unfold doc_letters in C. cbn [In] in C. repeat (destruct C as [C|C]; [first [discriminate C|assert (C2 : c = GCodeProgramName) by congruence; rewrite C2 in M; discriminate M]|]). contradiction.
    + exfalso. assert (X : forallb (fun e => negb (letter_eqb (fst (fst (fst e))) LO)) doc_codes = true) by (vm_compute; reflexivity).
      rewrite forallb_forall in X. specialize (X _ I). cbn [fst] in X. discriminate X.
Qed.
Lemma modal_takes c mg l : modal_group c = Some mg -> c <> GCodeSpindleConstantSurfaceSpeedMode -> takes c l -> ~ In l [LG; LM; LF; LS; LT; LN; LO].
Proof.
  intros M N T. apply accepts_iff in T. assert (X : forallb (fun l => implb (match modal_group c with Some _ => true | _ => false end && negb (gclass_eqb c GCodeSpindleConstantSurfaceSpeedMode) && accepts c l) (negb (existsb (letter_eqb l) [LG; LM; LF; LS; LT; LN; LO]))) [LG; LM; LF; LS; LT; LN; LO] = true) by (clear; destruct c; vm_compute; reflexivity).
  intros I. rewrite forallb_forall in X. specialize (X l I). rewrite M, T in X. assert (Q : gclass_eqb c GCodeSpindleConstantSurfaceSpeedMode = false) by (destruct (gclass_eqb c GCodeSpindleConstantSurfaceSpeedMode) eqn:Q; auto; exfalso; apply N; apply gclass_eqb_eq; auto).
  rewrite Q in X. cbn [andb negb implb] in X. assert (Y : existsb (letter_eqb l) [LG; LM; LF; LS; LT; LN; LO] = true) by (apply existsb_exists; exists l; split; auto; apply letter_eqb_eq; auto). rewrite Y in X. discriminate X.
Qed.
Lemma distinct_pairs (gs : list gcode) : Forall gcode_wf gs -> NoDup (map (fun g => modal_group (gcls g)) gs) -> Forall (fun g => modal_group (gcls g) <> None) gs -> ForallOrdPairs compatible gs.
Proof.
  induction gs as [|g gs IH]; intros W N F; [constructor|]. inversion W; inversion N; inversion F; subst. constructor; auto. apply Forall_forall. intros h I. split.
  - intros E. apply H5. apply in_map_iff. exists h. split; auto. rewrite Forall_forall in H2. pose proof (H2 h I) as (_ & P & _). pose proof H1 as (_ & P' & _). unfold proper in P, P'. rewrite E in P'. rewrite P in P'. injection P' as ->. auto.
  - intros (mg & A & B). apply H5. apply in_map_iff. exists h. split; auto. congruence.
Qed.
(** gcodes without coordinates leave the machine where it is *)
Lemma steps_still gs : idempotent ar -> Forall gcode_wf gs -> Forall (fun g => ~ is_canned g) gs -> Forall (fun g => forall a x, ~ names g a x) gs ->
  forall m m1, sound m -> inside m -> steady m -> (forall n, keeps m n -> no_offsets n) -> steps (map gcode_process gs) m = (m1, Ok tt) -> forall a, has (m_abs m) a -> pval (m_abs m1) a = pval (m_abs m) a.
Proof.
  intros ID. induction gs as [|g gs IH]; intros F N Q m m1 S I Y O E a Ha; cbn [map steps] in E; [unfold ok_step in E; injection E as <-; auto|]. inversion F as [|? ? W F']; inversion N as [|? ? NC N']; inversion Q as [|? ? NN Q']; subst. unfold then_step in E.
  destruct (process_keeps g m S I W) as [(S1 & I1 & _) K1]. destruct (gcode_process g m) as [x [[]|e]] eqn:P; [|discriminate]. cbn [fst] in S1, I1, K1.
  pose proof (process_steady g m x ID S I W Y P) as Y1. assert (Hx : has (m_abs x) a) by (eapply has_axes; [|exact Ha]; destruct S as ((_ & Z & _) & _), S1 as ((_ & Z1 & _) & _), K1; congruence).
  rewrite (IH F' N' Q' x m1 S1 I1 Y1 (fun n K => O n (keeps_trans _ _ _ K1 K)) E a Hx).
  assert (ME : forall b, has (m_abs m) b -> pos_at m b (pval (m_abs m) b)) by (intros b Hb; apply steady_pos; auto; apply O, keeps_refl).
  destruct (process_kind (gcls g)) eqn:K.
  - rewrite process_own in P by (auto; apply W). unfold gcode_process_own in P. rewrite K in P. injection P as <-. apply (f_equal (fun q => pval q a)), (set_for_pos m g).
  - apply kind_move in K. assert (X : pos_at x a (pval (m_abs m) a)).
    { destruct (is_incremental m) eqn:IN.
      - apply is_incremental_iff in IN. destruct (C41_float ar m g ID S W K IN (proj1 Y) (O m (keeps_refl m))) as (x' & E' & _ & P2). rewrite P in E'. injection E' as <-. apply P2; auto.
      - assert (A : absolute m) by (apply absolute_iff; auto). destruct (C40_float ar m g ID S W K A (proj1 Y) (O m (keeps_refl m))) as (x' & E' & _ & P2); [intros b y Z; destruct (NN b y Z)|]. rewrite P in E'. injection E' as <-. apply P2; auto. }
    apply (steady_pos x a _ S1 Y1 (O x K1)) in X. symmetry. apply X.
  - exfalso. apply kind_canned in K. auto.
  - rewrite process_own in P by (auto; apply W). unfold gcode_process_own in P. rewrite K in P. injection P as <-. change (pval (m_abs (set_for m g)) a = pval (m_abs m) a). apply (f_equal (fun q => pval q a)), (set_for_pos m g).
Qed.
Lemma stored_still mg g a x : stored mg g -> ~ is_canned g -> ~ names g a x.
Proof.
  intros (_ & _ & _ & H) NC (w & I & _). specialize (H _ I). cbn [fst] in H.
  assert (F : forallb (fun l => negb (existsb (letter_eqb l) (modal_param_letters (gcls g))) || subclass (gcls g) GCodeCannedCycle) (map axis_letter all_axes) = true) by (clear; destruct (gcls g); vm_compute; reflexivity).
  rewrite forallb_forall in F. specialize (F (axis_letter a) ltac:(apply in_map; destruct a; cbn; auto 12)). assert (X : existsb (letter_eqb (axis_letter a)) (modal_param_letters (gcls g)) = true) by (apply existsb_exists; exists (axis_letter a); split; auto; apply letter_eqb_eq; auto).
  rewrite X in F. cbn [negb orb] in F. apply NC. apply subclass_derives. exact F.
Qed.
(** no mode is set in [m0] of a group that has none in [m] *)
Definition covers (m m0 : machine) : Prop := forall mg, mg <> MG_motion -> gm_get (m_mode m) mg = None -> gm_get (m_mode m0) mg = None.
Definition same_modes (m n : machine) : Prop := forall mg, mg <> MG_motion -> same_entry (gm_get (m_mode m) mg) (gm_get (m_mode n) mg).
Lemma fold_agree l mg : forall md md', gm_get md mg = gm_get md' mg \/ (exists g, In g l /\ in_group mg g) -> gm_get (fold_left set_effect l md) mg = gm_get (fold_left set_effect l md') mg.
Proof.
  induction l as [|g l IH]; intros md md' H; cbn [fold_left]; [destruct H as [H|(g & [] & _)]; exact H|]. apply IH. unfold set_effect. unfold in_group in H. destruct (modal_group (gcls g)) as [mg'|] eqn:G.
  - rewrite !gm_get_set. destruct (mgroup_eqb mg' mg) eqn:Q; [left; reflexivity|]. destruct H as [H|(h & [<-|I] & GH)]; [left; exact H| |right; eauto]. assert (mg' = mg) by congruence. subst. assert (X : mgroup_eqb mg mg = true) by (apply mgroup_eqb_eq; reflexivity). congruence.
  - destruct H as [H|(h & [<-|I] & GH)]; [left; exact H|congruence|right; eauto].
Qed.
(** reading the printed modes on a machine with no others *)
Lemma mode_line m0 m : accurate ar -> idempotent ar -> sound m0 -> inside m0 -> steady m0 -> covers m m0 -> (forall n, keeps m0 n -> no_offsets n) -> sound m -> restorable m -> mode_gcodes (m_mode m) <> [] ->
  exists l n, mk_line (mode_str (m_mode m)) = Ok l /\ process_block (lblock l) m0 = (n, Ok tt) /\ same_modes m n /\ sound n /\ inside n /\ steady n /\ keeps m0 n /\
    (forall a, has (m_abs m0) a -> pval (m_abs n) a = pval (m_abs m0) a).
Proof.
  intros acc ID S0 I0 Y0 E0 O0 S (NC & N96 & RM & _) NE. pose proof S as (_ & _ & _ & _ & _ & W & T). set (gs := mode_gcodes (m_mode m)) in *.
  assert (IN : forall g, In g gs -> exists mg, gm_get (m_mode m) mg = Some g) by (intros g I; apply mode_gcodes_in; auto).
  assert (WF : Forall gcode_wf gs) by (apply Forall_forall; intros g I; destruct (IN g I) as (mg & G); eauto).
  assert (WH : Forall (fun g => gwhite g = false) gs) by (apply Forall_forall; intros g I; destruct (IN g I) as (mg & G); apply (W mg g G)).
  assert (RD : Forall (fun g => Forall readable (gword g :: map snd (gparams g))) gs) by (apply Forall_forall; intros g I; destruct (IN g I) as (mg & G); eauto).
  assert (MG : Forall (fun g => modal_group (gcls g) <> None) gs) by (apply Forall_forall; intros g I; destruct (IN g I) as (mg & G); destruct (W mg g G) as (Q & _); unfold in_group in Q; congruence).
  assert (CP : ForallOrdPairs compatible gs) by (apply distinct_pairs; auto; apply mode_gcodes_groups; auto; apply all_mgroups_nodup).
  assert (IP : in_place gs).
  { clear -acc WF IN W N96. assert (X : forall l, (forall g, In g l -> In g gs) -> in_place l); [|apply X; auto]. induction l as [|g l IH]; intros H; [constructor|]. constructor; [|apply IH; intros; apply H; right; auto].
    apply Forall_forall. intros h I TK. assert (Ig : In g gs) by (apply H; left; auto). assert (Ih : In h gs) by (apply H; right; auto). rewrite Forall_forall in WF. destruct (WF h Ih) as (_ & PR & WW & _). destruct (IN h Ih) as (mh & Gh). destruct (IN g Ig) as (mg & Gg).
    destruct (W mg g Gg) as (Q & _). destruct (W mh h Gh) as (Qh & _). apply (modal_takes (gcls g) mg (wletter (gword h))); auto.
    - intros C. unfold in_group in Q. rewrite C in Q. injection Q as <-. apply (N96 g Gg C).
    - apply (modal_letter (gword h) (gcls h) mh); auto. }
  assert (NL : name_last (map gword gs)).
  { apply name_last_none. apply Forall_forall. intros w I. apply in_map_iff in I as (g & <- & I). rewrite Forall_forall in WF. destruct (WF g I) as (_ & PR & WW & _). destruct (IN g I) as (mg & Gg). destruct (W mg g Gg) as (Q & _). apply (modal_letter (gword g) (gcls g) mg); auto. }
  destruct (printed_gcodes gs acc NE WF WH RD CP IP NL) as (ws & hs & ML & SG & _ & WFh & _).
  assert (NCg : Forall (fun g => ~ is_canned g) (sort_gcodes gs)).
  { apply Forall_forall. intros g I C. eapply Permutation_in in I; [|apply sort_perm]. destruct (IN g I) as (mg & Gg). destruct (W mg g Gg) as (Q & _). pose proof (canned_group g C) as CG. unfold in_group in Q. assert (mg = MG_motion) by congruence. subst. apply (NC g Gg C). }
  destruct (steps_quiet (sort_gcodes gs) (sort_wf gs WF) NCg m0 S0 I0) as (n0 & E).
  assert (P0 : process_gcodes gs [] m0 = (n0, Ok tt)) by (unfold process_gcodes; cbn [machine_modal_gcode]; rewrite app_nil_r; exact E).
  assert (M0 : forall mg, mg <> MG_motion -> gm_get (m_mode n0) mg = gm_get (m_mode m) mg).
  { intros mg NM. assert (W0 : mode_wf (m_mode m0)) by apply S0. assert (LG : Forall legal (sort_gcodes gs)) by (eapply Forall_impl; [|apply sort_wf; exact WF]; intros g (L & _); auto). destruct (steps_mode (sort_gcodes gs) m0 n0 (Ok tt) W0 LG E) as (d & r & Q & MM & R). rewrite (R eq_refl), app_nil_r in Q. subst d.
    assert (RP : mode_set gm_empty gs = Ok (m_mode m)) by (apply replay; auto). rewrite mode_set_spec in RP by (eapply Forall_impl; [|exact WF]; intros g (L & _); auto). injection RP as RP.
    assert (X : forall l md, Forall (fun g => modal_group (gcls g) <> None) l -> fold_left mode_effect l md = fold_left set_effect l md).
    { clear. induction l as [|g l IH]; intros md F; cbn [fold_left]; auto. inversion F; subst. rewrite IH by auto. f_equal. unfold mode_effect. destruct (process_kind (gcls g)) eqn:K; auto. apply cancel_class in K. rewrite K in H1. exfalso. apply H1. reflexivity. }
    rewrite MM, X by (eapply Permutation_Forall; [symmetry; apply sort_perm|exact MG]). rewrite <- RP. apply fold_agree. destruct (gm_get (m_mode m) mg) as [g|] eqn:G.
    - right. exists g. split; [eapply Permutation_in; [symmetry; apply sort_perm|]; apply mode_gcodes_in; eauto|apply (W mg g G)].
    - left. rewrite gm_get_empty. apply E0; auto. }
  assert (SO : same_outcome (process_gcodes gs [] m0) (process_gcodes hs [] m0)) by (apply process_gcodes_same; auto; [apply same_machine_refl|constructor]).
  rewrite P0 in SO. destruct (process_gcodes hs [] m0) as [n r] eqn:P. destruct SO as [R SM]. cbn [fst snd] in R, SM. subst r.
  exists (Line (Block ws hs []) None None), n. split; [exact ML|]. split; [exact P|]. split; [intros mg NM; rewrite <- M0 by auto; destruct SM as (SM & _); exact (SM mg)|].
  destruct (process_gcodes_inv hs [] m0 S0 I0 WFh (Forall_nil _)) as (A & B & _ & K). rewrite P in A, B, K. cbn [fst] in *. split; [exact A|]. split; [exact B|]. split; [exact (process_gcodes_steady hs [] m0 n ID WFh (Forall_nil _) S0 I0 Y0 P)|]. split; [exact K|].
  intros a Ha. destruct SM as (_ & _ & <- & _). apply (steps_still (sort_gcodes gs)); auto; [apply sort_wf; auto|].
  apply Forall_forall. intros g Ig b x. rewrite Forall_forall in NCg. pose proof (NCg g Ig) as NCc. eapply Permutation_in in Ig; [|apply sort_perm]. destruct (IN g Ig) as (mg & Gg). apply (stored_still mg g b x (W mg g Gg) NCc).
Qed.
End ModeLine.

(** ** the moves into position *)
Section Rapid.
Context {ar : Arith}.
Definition g00 : word := match default_word GCodeRapidMove with Ok w => w | Raise _ => Word LG (VInt 0) end.
Definition rapid (cs : list (axis * Qc)) : gcode := MkGCode GCodeRapidMove g00 (map (fun c => (axis_letter (fst c), Word (axis_letter (fst c)) (VFloat (snd c)))) cs) false.
Lemma g00_eq : g00 = Word LG (VFloat (rnd (tenths 0))).
Proof. unfold g00. cbn [default_word default_word_attr option_map]. change (Word LG (VFloat (rnd (Qc_of_Z 0))) = Word LG (VFloat (rnd (tenths 0)))). do 3 f_equal. apply Qceqb_eq. vm_compute. reflexivity. Qed.
Lemma g00_readable : accurate ar -> readable g00.
Proof. intros acc. rewrite g00_eq. split; [|intros x H; discriminate H]. apply code_survives; auto. lia. Qed.
Lemma g00_class : accurate ar -> word_gcode_class g00 = Some GCodeRapidMove.
Proof.
  intros acc. rewrite g00_eq. apply (word_class_doc acc); [exact I|]. right. exists 0%Z, 0%Z. split; [left; reflexivity|]. eexists. split; [reflexivity|]. split; apply Qcle_refl.
Qed.
Lemma survives_float l x : idempotent ar -> survives (Word l (VFloat x)) -> float x.
Proof. intros ID (v & _ & _ & D). cbn [wletter wvalue] in D. inversion D; subst. apply ID. Qed.
Lemma rapid_line g m : accurate ar -> idempotent ar -> sound m -> inside m -> steady m -> no_offsets m -> absolute m -> gcode_wf g -> gwhite g = false -> gcls g = GCodeRapidMove ->
  Forall readable (gword g :: map snd (gparams g)) -> (forall a x, names g a x -> has (m_abs m) a) ->
  exists l m1, mk_line (gcode_str g) = Ok l /\ process_block (lblock l) m = (m1, Ok tt) /\ sound m1 /\ inside m1 /\ steady m1 /\ keeps m m1 /\ m_state m1 = m_state m /\
    (forall mg, mg <> MG_motion -> gm_get (m_mode m1) mg = gm_get (m_mode m) mg) /\ rapid_mode m1 /\
    (forall a x, names g a x -> pval (m_abs m1) a = x) /\ (forall a, has (m_abs m) a -> (forall x, ~ names g a x) -> pval (m_abs m1) a = pval (m_abs m) a).
Proof.
  intros acc ID S I Y O A W WH C R HA. destruct (printed_line g acc W WH R) as (ws & g' & ML & L' & SG). pose proof (proj1 W) as L.
  assert (NC : ~ is_canned g) by (unfold is_canned; rewrite C; intros D; apply subclass_derives in D; discriminate D).
  assert (MV : is_move g).
  { unfold is_move. rewrite C. split; [apply subclass_derives; reflexivity|]. split; [unfold is_g80; rewrite C; intros D; apply subclass_derives in D; discriminate D|]. intros D. apply subclass_derives in D. discriminate D. }
  assert (FL : forall a x, names g a x -> float x).
  { intros a x (w & Iw & V). rewrite Forall_forall in R. assert (RW : readable w) by (apply R; right; apply in_map_iff; exists (axis_letter a, w); auto). destruct RW as [RW _]. destruct w as [l v]. cbn [wvalue] in V. subst v. apply (survives_float l x ID RW). }
  destruct (C40_float ar m g ID S W MV A (proj1 Y) O FL) as (m1 & E & P1 & P2).
  pose proof (process_shown g m acc W WH NC R) as PS. unfold process_str in PS. rewrite ML in PS. rewrite E in PS.
  eexists. exists m1. split; [exact ML|]. split; [exact PS|]. destruct (process_keeps g m S I W) as [(S1 & I1 & _) K1]. rewrite E in S1, I1, K1. cbn [fst] in *. split; auto. split; auto.
  pose proof (process_steady g m m1 ID S I W Y E) as Y1. split; auto. split; auto.
  assert (G : in_group MG_motion g) by (unfold in_group; rewrite C; reflexivity). assert (NG : forall mg, mg <> MG_motion -> ~ in_group mg g) by (unfold in_group in *; intros mg N Q; congruence).
  assert (ST : m_state m1 = m_state m).
  { rewrite <- (set_for_sync m g (proj1 Y)) by (apply NG; discriminate). destruct (process_move g m S W) as (m2 & E2 & ((_ & FS & _) & _)); [rewrite C; reflexivity|]. congruence. }
  split; auto. pose proof (gcode_process_mode g m (proj1 (proj2 (proj2 (proj2 (proj2 (proj2 S)))))) L) as MM. rewrite E in MM. cbn [fst] in MM.
  split; [|split; [|]].
  - intros mg N. rewrite MM. unfold mode_effect, set_effect. rewrite C. cbn. apply gm_get_set_other. auto.
  - eexists. rewrite MM, (effect_in _ _ _ G). split; [reflexivity|]. unfold modal_of. rewrite C. cbn [gcls gparams]. split; auto. clear. induction (gparams g) as [|kv r IH]; auto.
  - assert (O1 : no_offsets m1). { intros a. unfold system_offset, temp_offset. rewrite ST. apply O. }
    split.
    + intros a x N. assert (Q := P1 a x (HA a x N) N). apply (steady_pos m1 a x S1 Y1 O1) in Q as [_ ->]. auto.
    + intros a Ha N. assert (Q : pos_at m a (pval (m_abs m) a)) by (apply steady_pos; auto). apply (P2 a _ N) in Q. apply (steady_pos m1 a _ S1 Y1 O1) in Q as [_ ->]. auto.
Qed.
End Rapid.

(** ** the whole preamble *)
Section Preamble.
Context {ar : Arith}.
Lemma rapid_names cs a x : names (rapid cs) a x <-> In (a, x) cs.
Proof.
  unfold names, rapid. cbn [gparams]. split.
  - intros (w & I & V). apply in_map_iff in I as ([b y] & E & I). cbn [fst snd] in E. injection E as E <-. cbn [wvalue] in V. injection V as <-. assert (a = b) by (destruct a, b; try reflexivity; discriminate E). subst. auto.
  - intros I. exists (Word (axis_letter a) (VFloat x)). split; auto. apply in_map_iff. exists (a, x). auto.
Qed.
Lemma rapid_wf cs : accurate ar -> NoDup (map fst cs) -> gcode_wf (rapid cs).
Proof.
  intros acc N. split; [split|].
  - unfold rapid. cbn [gparams gcls]. apply Forall_forall. intros kv I. apply in_map_iff in I as ([b y] & <- & _). cbn [fst snd]. split; [reflexivity|]. apply accepts_iff. destruct b; reflexivity.
  - unfold rapid. cbn [gparams]. rewrite map_map. cbn [fst]. rewrite <- (map_map fst axis_letter). apply FinFun.Injective_map_NoDup; auto. intros x y. destruct x, y; intros E; try reflexivity; discriminate E.
  - split; [apply g00_class; auto|]. split; [exact I|]. unfold rapid. cbn [gparams]. apply Forall_forall. intros w Iw. apply in_map_iff in Iw as ([b y] & <- & _). destruct b; exact I.
Qed.
Lemma rapid_kw1 a v : In a [AX; AY; AZ] -> mk_gcode_kw GCodeRapidMove [(axis_letter a, VFloat v)] = Ok (rapid [(a, v)]).
Proof. intros [<-|[<-|[<-|[]]]]; reflexivity. Qed.
Lemma rapid_kw2 a b v w : In (a, b) [(AX, AY); (AX, AZ); (AY, AZ)] -> mk_gcode_kw GCodeRapidMove [(axis_letter a, VFloat v); (axis_letter b, VFloat w)] = Ok (rapid [(a, v); (b, w)]).
Proof. intros [E|[E|[E|[]]]]; injection E as <- <-; reflexivity. Qed.

Lemma absolute_same m n : same_entry (gm_get (m_mode m) MG_distance) (gm_get (m_mode n) MG_distance) -> absolute m -> absolute n.
Proof. unfold absolute. intros E A g G. rewrite G in E. destruct (gm_get (m_mode m) MG_distance) as [h|]; [|contradiction]. destruct E as (<- & _). auto. Qed.
(** what makes the coordinates of a machine plain *)
Definition at_rest (m : machine) : Prop := sound m /\ steady m /\ no_offsets m /\ m_axes m = xyz.
Lemma traverse n a b c hi va vb vc : accurate ar -> idempotent ar -> sound n -> inside n -> steady n -> no_offsets n -> absolute n -> m_axes n = xyz ->
  In (a, b, c) [(AZ, AX, AY); (AY, AX, AZ); (AX, AY, AZ)] ->
  readable (Word (axis_letter a) (VFloat hi)) -> readable (Word (axis_letter a) (VFloat va)) -> readable (Word (axis_letter b) (VFloat vb)) -> readable (Word (axis_letter c) (VFloat vc)) ->
  exists tr, reading n [gcode_str (rapid [(a, hi)]); gcode_str (rapid [(b, vb); (c, vc)]); gcode_str (rapid [(a, va)])] tr /\
    let k := after n tr in sound k /\ inside k /\ steady k /\ keeps n k /\ m_state k = m_state n /\ (forall mg, mg <> MG_motion -> gm_get (m_mode k) mg = gm_get (m_mode n) mg) /\ rapid_mode k /\
      pval (m_abs k) a = va /\ pval (m_abs k) b = vb /\ pval (m_abs k) c = vc /\
      exists l1 l2 l3 n1 n2, tr = [(l1, n1); (l2, n2); (l3, k)] /\ at_rest n1 /\ at_rest n2 /\
        (pval (m_abs n1) a = hi /\ pval (m_abs n1) b = pval (m_abs n) b /\ pval (m_abs n1) c = pval (m_abs n) c) /\
        (pval (m_abs n2) a = hi /\ pval (m_abs n2) b = vb /\ pval (m_abs n2) c = vc).
Proof.
  intros acc ID S I Y O A X P Rh Ra Rb Rc. pose proof (g00_readable acc) as R0.
  assert (N : a <> b /\ a <> c /\ b <> c) by (destruct P as [P|[P|[P|[]]]]; injection P as <- <- <-; repeat split; discriminate). destruct N as (N1 & N2 & N3).
  assert (H : forall k, sound k -> m_axes k = xyz -> has (m_abs k) a /\ has (m_abs k) b /\ has (m_abs k) c).
  { intros k ((_ & Q & _) & _) Z. unfold has. rewrite Q, Z. destruct P as [P|[P|[P|[]]]]; injection P as <- <- <-; repeat split; reflexivity. }
  assert (W1 : forall x, gcode_wf (rapid [(a, x)])) by (intros x; apply rapid_wf; auto; cbn; constructor; [intros []|constructor]).
  assert (W2 : gcode_wf (rapid [(b, vb); (c, vc)])) by (apply rapid_wf; auto; cbn; constructor; [intros [Q|[]]; congruence|constructor; [intros []|constructor]]).
  assert (AB : forall m1 m2, (forall mg, mg <> MG_motion -> gm_get (m_mode m2) mg = gm_get (m_mode m1) mg) -> absolute m1 -> absolute m2) by (unfold absolute; intros m1 m2 E A1 g; rewrite E by discriminate; auto).
  assert (OF : forall m1 m2, m_state m2 = m_state m1 -> no_offsets m1 -> no_offsets m2) by (unfold no_offsets, system_offset, temp_offset; intros m1 m2 -> O1; exact O1).
  destruct (rapid_line (rapid [(a, hi)]) n acc ID S I Y O A (W1 hi) eq_refl eq_refl) as (l1 & n1 & L1 & P1 & S1 & I1 & Y1 & K1 & T1 & M1 & G1 & V1 & U1).
  { repeat constructor; apply R0 || apply Rh. } { intros d x Q. apply rapid_names in Q. destruct Q as [Q|[]]. injection Q as <- <-. apply (H n S X). }
  assert (X1 : m_axes n1 = xyz) by (destruct K1 as (K1 & _); congruence).
  destruct (rapid_line (rapid [(b, vb); (c, vc)]) n1 acc ID S1 I1 Y1 (OF _ _ T1 O) (AB _ _ M1 A) W2 eq_refl eq_refl) as (l2 & n2 & L2 & P2 & S2 & I2 & Y2 & K2 & T2 & M2 & G2 & V2 & U2).
  { repeat constructor; apply R0 || apply Rb || apply Rc. } { intros d x Q. apply rapid_names in Q. destruct Q as [Q|[Q|[]]]; injection Q as <- <-; apply (H n1 S1 X1). }
  assert (X2 : m_axes n2 = xyz) by (destruct K2 as (K2 & _); congruence).
  destruct (rapid_line (rapid [(a, va)]) n2 acc ID S2 I2 Y2 (OF _ _ T2 (OF _ _ T1 O)) (AB _ _ M2 (AB _ _ M1 A)) (W1 va) eq_refl eq_refl) as (l3 & n3 & L3 & P3 & S3 & I3 & Y3 & K3 & T3 & M3 & G3 & V3 & U3).
  { repeat constructor; apply R0 || apply Ra. } { intros d x Q. apply rapid_names in Q. destruct Q as [Q|[]]. injection Q as <- <-. apply (H n2 S2 X2). }
  exists [(l1, n1); (l2, n2); (l3, n3)]. split; [repeat (econstructor; eauto)|]. cbn. split; auto. split; auto. split; auto. split; [eapply keeps_trans; [exact K1|eapply keeps_trans; eauto]|].
  split; [congruence|]. split; [intros mg Q; rewrite M3, M2, M1; auto|]. split; auto. split; [apply V3, rapid_names; left; auto|].
  assert (NA : forall d x, d <> a -> ~ names (rapid [(a, va)]) d x) by (intros d x D Q; apply rapid_names in Q; destruct Q as [Q|[]]; congruence).
  assert (NH : forall d x, d <> a -> ~ names (rapid [(a, hi)]) d x) by (intros d x D Q; apply rapid_names in Q; destruct Q as [Q|[]]; congruence).
  assert (VB : pval (m_abs n2) b = vb) by (apply V2, rapid_names; cbn; auto). assert (VC : pval (m_abs n2) c = vc) by (apply V2, rapid_names; cbn; auto).
  split; [rewrite U3; [auto|apply (H n2 S2 X2)|intros x; apply NA; auto]|]. split; [rewrite U3; [auto|apply (H n2 S2 X2)|intros x; apply NA; auto]|].
  assert (VH : pval (m_abs n1) a = hi) by (apply V1, rapid_names; left; auto). pose proof (OF _ _ T1 O) as O1. pose proof (OF _ _ T2 O1) as O2.
  exists l1, l2, l3, n1, n2. split; [reflexivity|]. split; [repeat (split; [assumption|]); assumption|]. split; [repeat (split; [assumption|]); assumption|]. split.
  - split; [exact VH|]. split; (apply U1; [apply (H n S X)|intros x; apply NH; auto]).
  - split; [|auto]. rewrite U2; [exact VH|apply (H n1 S1 X1)|]. intros x Q. apply rapid_names in Q. destruct Q as [Q|[Q|[]]]; congruence.
Qed.
Lemma comment_line s m : (exists c, mk_line s = Ok (Line (Block [] [] []) c None)) -> exists l, mk_line s = Ok l /\ process_block (lblock l) m = (m, Ok tt).
Proof. intros (c & E). eexists. split; [exact E|reflexivity]. Qed.
Lemma after_all (P : machine -> Prop) m tr : P m -> Forall (fun x => P (snd x)) tr -> P (after m tr).
Proof. revert m. induction tr as [|[l n] tr IH]; intros m H F; [exact H|]. rewrite after_cons. inversion F; subst. apply IH; auto. Qed.
Lemma front_read m0 m : accurate ar -> idempotent ar -> sound m0 -> inside m0 -> steady m0 -> covers m m0 -> (forall n, keeps m0 n -> no_offsets n) -> sound m -> restorable m ->
  exists tr, reading m0 (match mode_str (m_mode m) with [] => [] | s => [note "machine mode before cropping"; s] end) tr /\
    let n := after m0 tr in same_modes m n /\ sound n /\ inside n /\ steady n /\ keeps m0 n /\ Forall (fun x => forall a, has (m_abs m0) a -> pval (m_abs (snd x)) a = pval (m_abs m0) a) tr /\ Forall (fun x => sound (snd x) /\ steady (snd x) /\ keeps m0 (snd x)) tr.
Proof.
  intros acc ID S0 I0 Y0 E0 O0 S R.
  assert (Z : forall s, mode_str (m_mode m) = s -> s = [] -> same_modes m m0).
  { intros s E ->. destruct (mode_gcodes (m_mode m)) as [|g gs] eqn:G.
    - intros mg NM. destruct (gm_get (m_mode m) mg) as [g|] eqn:Q; [|rewrite E0; auto; exact I]. assert (In g (mode_gcodes (m_mode m))) by (apply mode_gcodes_in; [apply S|eauto]). rewrite G in H. contradiction.
    - destruct (mode_line m0 m acc ID S0 I0 Y0 E0 O0 S R) as (l & n & L & P & SM & _); [congruence|]. rewrite E in L. assert (EL : mk_line [] = Ok (Line (Block [] [] []) None None)) by reflexivity. rewrite EL in L. injection L as <-. cbn in P. injection P as <-. auto. }
  destruct (mode_str (m_mode m)) as [|ch s] eqn:E.
  - exists []. split; [constructor|]. cbn. split; [apply (Z []); auto|]. split; auto. split; auto. split; auto. split; [apply keeps_refl|]. split; constructor.
  - destruct (mode_line m0 m acc ID S0 I0 Y0 E0 O0 S R) as (l & n & L & P & SM & A & B & C & D & ST); [intros Q; unfold mode_str in E; rewrite Q in E; discriminate E|].
    destruct (comment_line (note "machine mode before cropping") m0) as (lc & LC & PC); [eexists; vm_compute; reflexivity|]. rewrite E in L.
    exists [(lc, m0); (l, n)]. split; [repeat (econstructor; eauto)|]. cbn. do 5 (split; [assumption|]). pose proof (keeps_refl m0) as KR. split; (constructor; [cbn [snd]; auto|constructor; [cbn [snd]; auto|constructor]]).
Qed.
Theorem preamble_resumes z m0 m pre : accurate ar -> idempotent ar -> null_machine = Ok z -> keeps z m0 -> sound m0 -> inside m0 -> steady m0 -> covers m m0 -> sound m -> steady m -> keeps z m -> absolute m -> restorable m ->
  crop_preamble (machine_copy m) = (pre, Ok tt) -> exists tr, reading m0 pre tr /\ resumed m (after m0 tr) /\ rapid_mode (after m0 tr) /\ (sound (after m0 tr) /\ inside (after m0 tr)) /\
    forall a, upright m a -> approaches m0 m a (pval (m_max m) a) tr.
Proof.
  intros acc ID E0 KZ S0 I0 Y0 M0 S Y K A R H. destruct (null_steady z acc E0) as (_ & _ & _ & _ & XZ & _). pose proof (null_offsets z m E0 K) as O. pose proof (null_offsets z m0 E0 KZ) as O0.
  assert (X0 : m_axes m0 = xyz) by (destruct KZ; congruence).
  assert (X : m_axes m = xyz) by (destruct K; congruence).
  destruct (front_read m0 m acc ID S0 I0 Y0 M0 (fun k K0 => null_offsets z k E0 (keeps_trans _ _ _ KZ K0)) S R) as (tr1 & R1 & SM & S1 & I1 & Y1 & K1 & ST1 & SO1). set (n := after m0 tr1) in *.
  unfold crop_preamble in H. cbn [machine_copy m_mode m_max with_state] in H. apply pbind_ok in H as (o1 & [] & o2 & H1 & H & ->).
  assert (E1 : o1 = match mode_str (m_mode m) with [] => [] | s => [note "machine mode before cropping"; s] end).
  { destruct (mode_str (m_mode m)); [apply ret_ok in H1 as [-> _]; reflexivity|]. apply pbind_print in H1 as (o & H1 & ->). apply print_ok in H1 as [-> _]. reflexivity. }
  rewrite <- E1 in R1. clear E1 H1. apply pbind_print in H as (o3 & H & ->).
  assert (PL : forall pl na axs, normal_axis pl = Some (Some na) -> plane_axes pl = Some axs -> exists a b c, In (a, b, c) [(AZ, AX, AY); (AY, AX, AZ); (AX, AY, AZ)] /\ na = axis_letter a /\ (axs = [axis_letter b; axis_letter c] \/ axs = [axis_letter c; axis_letter b])).
  { clear. intros pl na axs Q1 Q2. destruct pl; vm_compute in Q1; try discriminate Q1; vm_compute in Q2; injection Q1 as <-; injection Q2 as <-.
    all: first [exists AZ, AX, AY; split; [left; reflexivity|]; split; [reflexivity|]; first [left; reflexivity|right; reflexivity] | exists AY, AX, AZ; split; [right; left; reflexivity|]; split; [reflexivity|]; first [left; reflexivity|right; reflexivity] | exists AX, AY, AZ; split; [right; right; left; reflexivity|]; split; [reflexivity|]; first [left; reflexivity|right; reflexivity]]. }
  destruct (normal_axis (crop_plane (m_mode m))) as [[na|]|] eqn:NA; try discriminate.
  apply pbind_ok in H as (o4 & [] & o5 & H2 & H & ->). apply pbind_pure in H as (p & MP & H). apply pbind_ok in H as (o6 & [] & o7 & H3 & H & ->).
  destruct (plane_axes (crop_plane (m_mode m))) as [axs|] eqn:PA; [|discriminate]. apply pbind_ok in H as (o8 & [] & o9 & H4 & H & ->). apply print_ok in H as [-> _].
  destruct (PL _ _ _ NA PA) as (a & b & c & Q & -> & AX_).
  assert (UP : forall d, upright m d -> d = a).
  { intros d [(pl & G & IP)|[G ->]]; unfold crop_plane in NA; rewrite G in NA.
    - assert (SC : subclass (gcls pl) GCodePlaneSelect = true) by (cbn [In planes] in IP; destruct IP as [IP|[IP|[IP|[]]]]; injection IP as <- <-; reflexivity). rewrite SC in NA.
      assert (NX : normal_axis (gcls pl) = Some (Some (axis_letter d))) by (cbn [In planes] in IP; destruct IP as [IP|[IP|[IP|[]]]]; injection IP as <- <-; reflexivity). rewrite NX in NA. injection NA as NA. destruct a, d; try reflexivity; discriminate NA.
    - change (Some (Some LZ) = Some (Some (axis_letter a))) in NA. destruct a; try discriminate NA; reflexivity. }
  clear PL NA PA.
  assert (MP' : machine_pos m = Ok p). { destruct (C51_copy_partial ar m S) as (_ & _ & _ & _ & _ & _ & _ & CP). rewrite <- CP; [exact MP|]. intros d. apply O. }
  destruct (machine_pos_spec m S) as (p' & MP2 & Gp & Ap & _ & _). rewrite MP' in MP2. injection MP2 as <-. rewrite X in Ap.
  assert (HA : forall d, In d [AX; AY; AZ] -> has (m_abs m) d). { intros d D. destruct S as ((_ & Z & _) & _). unfold has. rewrite Z, X. destruct D as [<-|[<-|[<-|[]]]]; reflexivity. }
  assert (HP : forall d, In d [AX; AY; AZ] -> pos_at m d (pval p d) /\ pval p d = pval (m_abs m) d).
  { intros d D. assert (PP : pos_at m d (pval p d)). { exists p. split; auto. apply getattr_ok. split; auto. unfold has. rewrite Ap. destruct D as [<-|[<-|[<-|[]]]]; reflexivity. } split; auto. apply (steady_pos m d _ S Y O) in PP. apply PP. }
  assert (D3 : In a [AX; AY; AZ] /\ In b [AX; AY; AZ] /\ In c [AX; AY; AZ]) by (destruct Q as [Q|[Q|[Q|[]]]]; injection Q as <- <- <-; cbn; auto 9). destruct D3 as (Da & Db & Dc).
  destruct R as (_ & _ & _ & RP & RM & _).
  (* the three moves *)
  unfold rapid_to in H2, H4. rewrite axis_of_axis_letter in H2, H4. apply pbind_pure in H2 as (hi & Hh & H2). apply pbind_pure in H4 as (va & Hv & H4).
  rewrite (rapid_kw1 a hi Da) in H2. rewrite (rapid_kw1 a va Da) in H4. apply pbind_pure in H2 as (g1 & Q1 & H2). injection Q1 as <-. apply print_ok in H2 as [-> _]. apply pbind_pure in H4 as (g3 & Q3 & H4). injection Q3 as <-. apply print_ok in H4 as [-> _].
  assert (VA : va = pval p a) by (apply getattr_ok in Hv; apply Hv). subst va.
  assert (OV : o6 = [gcode_str (rapid [(b, pval p b); (c, pval p c)])]).
  { unfold rapid_over in H3. rewrite Ap in H3. apply pbind_pure in H3 as (g2 & Q2 & H3). apply print_ok in H3 as [-> _]. do 2 f_equal.
    assert (Q4 : mk_gcode_kw GCodeRapidMove [(axis_letter b, VFloat (pval p b)); (axis_letter c, VFloat (pval p c))] = Ok g2).
    { rewrite <- Q2. f_equal. destruct AX_ as [-> | ->]; destruct Q as [Q|[Q|[Q|[]]]]; injection Q as <- <- <-; reflexivity. }
    rewrite rapid_kw2 in Q4; [congruence|]. destruct Q as [Q|[Q|[Q|[]]]]; injection Q as <- <- <-; cbn; auto. }
  subst o6.
  assert (AN : absolute n) by (apply (absolute_same m); auto; apply (SM MG_distance); discriminate).
  assert (XN : m_axes n = xyz) by (destruct K1; congruence). pose proof (null_offsets z n E0 (keeps_trans _ _ _ KZ K1)) as ON.
  destruct (traverse n a b c hi (pval p a) (pval p b) (pval p c) acc ID S1 I1 Y1 ON AN XN Q) as (tr2 & R2 & S2 & I2 & Y2 & K2 & T2 & M2 & G2 & Va & Vb & Vc & l1 & l2 & l3 & n1 & n2 & ET & AR1 & AR2 & (V1a & V1b & V1c) & (V2a & V2b & V2c)).
  { apply (RM a hi); auto. } { apply RP, HP; auto. } { apply RP, HP; auto. } { apply RP, HP; auto. }
  set (k := after n tr2) in *.
  destruct (comment_line (note "traverse into position, up, over, and down") n) as (lc & LC & PC); [eexists; vm_compute; reflexivity|].
  destruct (comment_line [] k) as (le & LE & PE); [eexists; vm_compute; reflexivity|].
  exists (tr1 ++ (lc, n) :: tr2 ++ [(le, k)]).
  assert (AF : after m0 (tr1 ++ (lc, n) :: tr2 ++ [(le, k)]) = k) by (rewrite after_app, after_cons, after_app; reflexivity). rewrite AF.
  split.
  { apply reading_app; auto. econstructor; eauto. cbn [app]. change (gcode_str (rapid [(a, hi)]) :: gcode_str (rapid [(b, pval p b); (c, pval p c)]) :: gcode_str (rapid [(a, pval p a)]) :: [[]]) with ([gcode_str (rapid [(a, hi)]); gcode_str (rapid [(b, pval p b); (c, pval p c)]); gcode_str (rapid [(a, pval p a)])] ++ [[]]). apply reading_app; auto. econstructor; eauto. constructor. }
  assert (ARk : at_rest k) by (split; [exact S2|]; split; [exact Y2|]; split; [exact (null_offsets z k E0 (keeps_trans _ _ _ KZ (keeps_trans _ _ _ K1 K2)))|destruct K2; congruence]).
  assert (ARm : at_rest m) by (split; [exact S|]; split; [exact Y|]; split; [exact O|exact X]). assert (AR0 : at_rest m0) by (split; [exact S0|]; split; [exact Y0|]; split; [exact O0|exact X0]).
  assert (AS : forall u v d, at_rest u -> at_rest v -> (In d [AX; AY; AZ] -> pval (m_abs u) d = pval (m_abs v) d) -> as_in u v d).
  { clear. intros u v d (Su & Yu & Ou & Xu) (Sv & Yv & Ov & Xv) E x. rewrite (steady_pos u d x Su Yu Ou), (steady_pos v d x Sv Yv Ov). destruct Su as ((_ & Au & _) & _), Sv as ((_ & Av & _) & _). unfold has. rewrite Au, Av, Xu, Xv.
    split; intros [H ->]; (split; [exact H|]); [|symmetry]; apply E; destruct d; cbn; auto; discriminate H. }
  assert (HU : forall u d, at_rest u -> In d [AX; AY; AZ] -> pos_at u d (pval (m_abs u) d)).
  { clear. intros u d (Su & Yu & Ou & Xu) D. apply steady_pos; auto. split; auto. destruct Su as ((_ & Au & _) & _). unfold has. rewrite Au, Xu. destruct D as [<-|[<-|[<-|[]]]]; reflexivity. }
  assert (ABC : forall d, In d [AX; AY; AZ] -> d = a \/ d = b \/ d = c) by (intros d D; destruct Q as [Q|[Q|[Q|[]]]]; injection Q as <- <- <-; destruct D as [<-|[<-|[<-|[]]]]; auto).
  assert (H0 : forall d, In d [AX; AY; AZ] -> has (m_abs m0) d) by (intros d D; destruct S0 as ((_ & Z & _) & _); unfold has; rewrite Z, X0; destruct D as [<-|[<-|[<-|[]]]]; reflexivity).
  assert (FR : Forall (fun x => forall d, as_in (snd x) m0 d) tr1).
  { rewrite Forall_forall in *. intros x Ix d. destruct (SO1 x Ix) as (Sx & Yx & Kx). apply AS; [split; [exact Sx|]; split; [exact Yx|]; split; [exact (null_offsets z _ E0 (keeps_trans _ _ _ KZ Kx))|destruct Kx; congruence]|exact AR0|]. intros D. apply (ST1 x Ix). auto. }
  assert (N0 : forall d, In d [AX; AY; AZ] -> pval (m_abs n) d = pval (m_abs m0) d).
  { intros d D. apply (after_all (fun q => pval (m_abs q) d = pval (m_abs m0) d) m0 tr1); auto. eapply Forall_impl; [|exact ST1]. intros x Hx. apply Hx. auto. }
  assert (ARn : at_rest n) by (split; [exact S1|]; split; [exact Y1|]; split; [exact ON|exact XN]).
  split; [|split; [exact G2|split; [split; [exact S2|exact I2]|]]].
  2: { intros d UD. rewrite (UP d UD). apply getattr_ok in Hh as [_ Hh]. rewrite <- Hh. exists (tr1 ++ [(lc, n)]), l1, n1, l2, n2, l3, k, le. split; [rewrite ET, <- app_assoc; reflexivity|].
    split; [apply Forall_app; split; [exact FR|constructor; [|constructor]]; cbn [snd]; intros e; apply AS; auto|].
    split; [split; [rewrite <- V1a; apply HU; auto|]; intros e NE; apply AS; auto; intros De; destruct (ABC e De) as [-> |[-> | ->]]; [contradiction| |]; (rewrite V1b || rewrite V1c); auto|].
    split; [split; [rewrite <- V2a; apply HU; auto|]; intros e NE; apply AS; auto; intros De; destruct (ABC e De) as [-> |[-> | ->]]; [contradiction| |]; (rewrite V2b || rewrite V2c); apply HP; auto|].
    intros e. apply AS; auto. intros De. rewrite <- (proj2 (HP e De)). destruct (ABC e De) as [-> |[-> | ->]]; auto. }
  pose proof (keeps_trans _ _ _ KZ (keeps_trans _ _ _ K1 K2)) as KK. destruct KK as (KA & KI & KC & KO & KU). destruct K as (QA & QI & QC & QO & QU).
  assert (SE : forall mg, mg <> MG_motion -> same_entry (gm_get (m_mode m) mg) (gm_get (m_mode k) mg)) by (intros mg N; rewrite M2 by auto; apply (SM mg); auto).
  split; [exact SE|]. split; [|split; [|split; congruence]].
  - assert (CC : cur_coord_sys (m_state m) = cur_coord_sys (m_state k)).
    { specialize (SE MG_coordinate_system ltac:(discriminate)). destruct Y as (Ys & Yn & _), Y2 as (Ys2 & Yn2 & _). unfold in_sync in *. destruct (gm_get (m_mode m) MG_coordinate_system) as [g|], (gm_get (m_mode k) MG_coordinate_system) as [h|]; try contradiction.
      - destruct SE as (SE & _). specialize (Ys g eq_refl). specialize (Ys2 h eq_refl). congruence.
      - rewrite Yn, Yn2; auto. }
    assert (EX : forall s s' : state, coord_systems s = coord_systems s' -> cur_coord_sys s = cur_coord_sys s' -> st_offset s = st_offset s' -> s = s') by (intros [] []; cbn; congruence). apply EX; congruence.
  - destruct S as ((Ga & Aa & _) & _). destruct S2 as ((Gk & Ak & _) & _). apply pos_ext; auto; try congruence. intros d Hd.
    assert (D : In d [AX; AY; AZ]) by (unfold has in Hd; rewrite Aa, X in Hd; destruct d; cbn; auto; discriminate Hd).
    rewrite <- (proj2 (HP d D)). assert (DD : d = a \/ d = b \/ d = c) by (destruct Q as [Q|[Q|[Q|[]]]]; injection Q as <- <- <-; destruct D as [<-|[<-|[<-|[]]]]; auto). destruct DD as [-> |[-> | ->]]; auto.
Qed.
Theorem preamble_restores m0 m pre : accurate ar -> idempotent ar -> null_machine = Ok m0 -> sound m -> steady m -> keeps m0 m -> absolute m -> restorable m ->
  crop_preamble (machine_copy m) = (pre, Ok tt) -> exists tr, reading m0 pre tr /\ resumed m (after m0 tr) /\ rapid_mode (after m0 tr) /\ (sound (after m0 tr) /\ inside (after m0 tr)) /\
    forall a, upright m a -> approaches m0 m a (pval (m_max m) a) tr.
Proof.
  intros acc ID E. destruct (null_steady m0 acc E) as (S0 & I0 & Y0 & _ & _ & _ & M0). apply (preamble_resumes m0 m0 m pre); auto; [apply keeps_refl|]. intros mg _ _. rewrite M0. apply gm_get_empty.
Qed.
Lemma preamble_total m : sound m -> m_axes m = xyz -> (forall a, system_offset m a = Q2Qc 0) -> (forall g, gm_get (m_mode m) MG_plane_selection = Some g -> In (gcls g) (map fst planes)) -> exists pre, crop_preamble (machine_copy m) = (pre, Ok tt).
Proof.
  intros S X O PL. destruct (C51_copy_partial ar m S) as (_ & _ & _ & _ & _ & _ & _ & CP). specialize (CP O). destruct (machine_pos_spec m S) as (p & MP & _ & Ap & _). rewrite MP in CP. rewrite X in Ap.
  assert (HM : forall a, In a [AX; AY; AZ] -> exists v, pos_getattr (m_max m) a = Ok v).
  { intros a D. exists (pval (m_max m) a). apply getattr_ok. split; auto. destruct S as ((_ & Aa & _) & _ & (_ & HH & _) & _). apply HH. unfold has. rewrite Aa, X. destruct D as [<-|[<-|[<-|[]]]]; reflexivity. }
  assert (HP : forall a, In a [AX; AY; AZ] -> pos_getattr p a = Ok (pval p a)) by (intros a D; apply getattr_ok; split; auto; unfold has; rewrite Ap; destruct D as [<-|[<-|[<-|[]]]]; reflexivity).
  assert (RT : forall a q v, In a [AX; AY; AZ] -> pos_getattr q a = Ok v -> rapid_to (axis_letter a) q = ([gcode_str (rapid [(a, v)])], Ok tt)).
  { intros a q v D V. unfold rapid_to. rewrite axis_of_axis_letter, V. cbn [pure pbind]. rewrite (rapid_kw1 a v D). reflexivity. }
  assert (PC : exists b, In (crop_plane (m_mode m), b) planes).
  { unfold crop_plane. destruct (gm_get (m_mode m) MG_plane_selection) as [g|] eqn:G; [|exists AZ; left; reflexivity]. specialize (PL g eq_refl). cbn [map planes fst In] in PL.
    destruct PL as [<-|[<-|[<-|[]]]]; vm_compute; eauto 6. }
  destruct PC as (b & PC).
  assert (FR : exists o, (match mode_str (m_mode m) with [] => ret tt | s => run _ <- print (note "machine mode before cropping"); print s end) = (o, Ok tt)) by (destruct (mode_str (m_mode m)); eexists; reflexivity).
  destruct FR as (o & FR). unfold crop_preamble. cbn [machine_copy m_mode m_max with_state].
  assert (HB : In b [AX; AY; AZ]) by (destruct PC as [Q|[Q|[Q|[]]]]; injection Q as _ <-; cbn; auto). destruct (HM b HB) as (hi & Hh).
  assert (NA : normal_axis (crop_plane (m_mode m)) = Some (Some (axis_letter b))) by (destruct PC as [Q|[Q|[Q|[]]]]; injection Q as <- <-; reflexivity).
  assert (OV : exists axs o2, plane_axes (crop_plane (m_mode m)) = Some axs /\ rapid_over axs p = (o2, Ok tt)).
  { destruct PC as [Q|[Q|[Q|[]]]]; injection Q as <- <-; eexists; eexists; (split; [reflexivity|]); unfold rapid_over; rewrite Ap; reflexivity. }
  destruct OV as (axs & o2 & PA & OV). eexists. apply pbind_ok. exists o, tt. eexists. split; [exact FR|]. split; [|reflexivity]. apply pbind_print. eexists. split; [|reflexivity]. rewrite NA.
  apply pbind_ok. eexists. exists tt. eexists. split; [apply RT; eauto|]. split; [|reflexivity]. apply pbind_pure. exists p. split; [exact CP|]. rewrite PA.
  apply pbind_ok. exists o2, tt. eexists. split; [exact OV|]. split; [|reflexivity]. apply pbind_ok. eexists. exists tt. eexists. split; [apply RT; eauto|]. split; reflexivity.
Qed.
Lemma reading_split m ls tr tr' : reading m ls (tr ++ tr') -> exists a b, ls = a ++ b /\ reading m a tr /\ reading (after m tr) b tr'.
Proof.
  revert m ls. induction tr as [|x tr IH]; intros m ls R; cbn [app] in R; [exists [], ls; split; auto; split; auto; constructor|]. inversion R as [|? s r l m1 ? L P R1]; subst. apply IH in R1 as (a & b & -> & Ra & Rb). exists (s :: a), b. split; auto. split; [econstructor; eauto|]. rewrite after_cons. auto.
Qed.
End Preamble.
