(** When the machine stops with an error: canned cycles, commands, blocks. *)
From Coq Require Import Ascii String List Bool Arith ZArith QArith Qcanon Permutation Sorting.Sorted Lia.
From Verif Require Import Base Num Words GTable GCode Line Position Machine BaseFacts WordOrder WordsSpec WordsProofs WordsProofs2 LineSpec CommentProofs GCodeSpec GCodeProofs GCodeProofs2 PropsGCode ArithSpec
  PosSpec PosProofs ModeSpec ModeProofs MachSpec MachProofs MachProofs2 MachProofs3 PropsMach PropsMach2 CannedProofs DrillProofs2 PropsLine LineProofs StopSpec.
Import ListNotations.
Local Open Scope Z_scope.

Lemma plane_class c : modal_group c = Some MG_plane_selection -> c <> GCodePlaneSelect ->
  (exists b, In (c, b) planes) \/ (normal_axis c = Some None /\ forall b, ~ In (c, b) planes).
Proof.
  intros G N. destruct c; vm_compute in G; try discriminate G; try (exfalso; apply N; reflexivity).
  all: first [left; eexists; unfold planes; cbn [In]; auto; fail | right; split; [reflexivity|]; intros b I; unfold planes in I; cbn [In] in I; repeat (destruct I as [I|I]; [discriminate I|]); exact I].
Qed.
Lemma planes_fun c b b' : In (c, b) planes -> In (c, b') planes -> b = b'.
Proof. intros I J. destruct (normal_axis_spec _ _ I) as [E _]. destruct (normal_axis_spec _ _ J) as [E' _]. rewrite E in E'. injection E' as E'. destruct b, b'; vm_compute in E'; congruence. Qed.
Lemma normal_fun m b b' : normal m b -> normal m b' -> b = b'.
Proof. intros (p & E & I) (p' & E' & I'). rewrite E in E'. injection E' as <-. eapply planes_fun; eauto. Qed.

Lemma cycle_stop_fun m g e e' : cycle_stop m g e -> cycle_stop m g e' -> e = e'.
Proof.
  intros A B. inversion A; inversion B; subst; auto; try contradiction; try congruence;
    repeat match goal with
    | N : ~ plane_selected m, P : normal m _ |- _ => destruct N; destruct P as (pl & P & _); exists pl; exact P
    | N : forall b, ~ normal m b, P : normal m _ |- _ => destruct (N _ P)
    | N : normal m ?b, P : normal m ?c |- _ => first [constr_eq b c; fail 1 | pose proof (normal_fun _ _ _ N P); subst; clear P]
    end; try contradiction.
Qed.

Section WithArith.
Context {ar : Arith}.
Lemma plane_proper g : gcode_wf g -> gcls g <> GCodePlaneSelect.
Proof.
  intros (_ & P & WW & _) Q. unfold proper in P. rewrite Q in P. apply word_class_claims1 in P. unfold claims in P. change (word_key GCodePlaneSelect) with (@None word) in P. destruct P as (f & P & _). vm_compute in P. discriminate P.
Qed.
(** the error of a move to coordinates that do not fit *)
Lemma move_to_raise cs m a : sound m -> In (a, None) cs -> (forall c, In c cs -> fst c <> a -> vget (m_axes m) (fst c) = true /\ exists x, snd c = Some x) ->
  has (m_abs m) a -> move_to cs m = (m, Raise ETypeError).
Proof.
  intros S I G Ha. destruct (machine_pos_spec m S) as (p & E & Gp & Ap & Up & Vp). unfold move_to. rewrite E.
  assert (Hp : has p a) by (eapply has_axes; [|exact Ha]; destruct S as ((_ & Aa & _) & _); congruence).
  destruct (is_incremental m).
  - replace (existsb _ cs) with true; auto. symmetry. apply existsb_exists. exists (a, None). split; auto. cbn [fst snd]. rewrite (good_some p a) by auto. reflexivity.
  - replace (existsb (fun c : axis * option Qc => negb (vget (paxes p) (fst c))) cs) with false.
    + replace (existsb _ cs) with true; auto. symmetry. apply existsb_exists. exists (a, None). auto.
    + symmetry. apply existsb_false, forallb_forall. intros c J. rewrite negb_involutive. destruct (axis_eqb (fst c) a) eqn:AB; [apply axis_eqb_eq in AB; rewrite AB; exact Hp|].
      destruct (G c J) as [V _]; [intros X; rewrite X, axis_eqb_refl in AB; discriminate|]. rewrite Ap. exact V.
Qed.
Lemma move_to_off cs m a o : sound m -> In (a, o) cs -> ~ has (m_abs m) a -> is_incremental m = false -> move_to cs m = (m, Raise EMachineInvalidAxis).
Proof.
  intros S I Ha IN. destruct (machine_pos_spec m S) as (p & E & Gp & Ap & Up & Vp). unfold move_to. rewrite E, IN.
  replace (existsb _ cs) with true; auto. symmetry. apply existsb_exists. exists (a, o). split; auto. cbn [fst]. apply negb_true_iff. destruct (vget (paxes p) a) eqn:V; auto. exfalso. apply Ha. unfold has. destruct S as ((_ & Aa & _) & _). congruence.
Qed.
Lemma canned_outcome g m : sound m -> gcode_wf g -> is_canned g ->
  ((exists m', gcode_process g m = (m', Ok tt)) /\ forall e, ~ cycle_stop m g e) \/ (exists e, gcode_process g m = (set_for m g, Raise e) /\ cycle_stop m g e).
Proof.
  intros S W C. pose proof (set_for_sound m g S W) as S1. destruct (set_for_pos m g) as (A1 & _ & _ & X1 & _). pose proof (proj2 (kind_canned g) C) as K. pose proof (canned_group g C) as G.
  destruct (canned_letters (gcls g) K (canned_proper g W)) as [AL AR]. rewrite process_own by (auto; apply W). unfold gcode_process_own. rewrite K. unfold canned_process.
  rewrite !set_for_get by (unfold in_group in *; rewrite G; discriminate).
  assert (INC : is_incremental (set_for m g) = is_incremental m) by (unfold is_incremental; rewrite set_for_get by (unfold in_group in *; rewrite G; discriminate); reflexivity).
  destruct (gcode_coords_spec (set_for m g) g W) as [(GC & ND & GI) _]. set (cs0 := gcode_coords (set_for m g) g) in *. set (m1 := set_for m g) in *.
  destruct (gm_get (m_mode m) MG_plane_selection) as [pl|] eqn:PE; [|right; eexists; split; [reflexivity|]; apply stop_plane; intros (x & X); congruence].
  assert (PS : plane_selected m) by (exists pl; exact PE).
  assert (PC : (exists b, In (gcls pl, b) planes) \/ (normal_axis (gcls pl) = Some None /\ forall b, ~ In (gcls pl, b) planes)).
  { destruct S as (_ & _ & _ & _ & _ & MW & T). apply plane_class; [apply (MW _ _ PE)|apply plane_proper; apply (T _ _ PE)]. }
  unfold gcode_getattr. rewrite AL, AR.
  set (n := match option_map wvalue (pget (gparams g) LL) with Some (VInt z) => if z <=? 0 then 1 else z | _ => 1 end).
  assert (P : (0 < Z.to_nat n)%nat). { unfold n. destruct (option_map wvalue (pget (gparams g) LL)) as [[]|]; try lia. match goal with |- context [?z <=? 0] => destruct (Z.leb_spec z 0) end; lia. }
  assert (RR : (match gm_get (m_mode m) MG_canned_cycles_return with Some r => subclass (gcls r) GCodeCannedCycleReturnToR | None => false end = true) <-> returns_to_r m).
  { unfold returns_to_r. destruct (gm_get (m_mode m) MG_canned_cycles_return) as [r|]; [|split; [discriminate|intros (x & X & _); discriminate X]]. split; [intros Q; exists r; split; auto; apply subclass_derives; auto|intros (x & X & D); injection X as <-; apply subclass_derives; auto]. }
  assert (ONE : forall cs e, move_to cs m1 = (m1, Raise e) -> repeat_step (Z.to_nat n) (move_to cs) m1 = (m1, Raise e)).
  { intros cs e Q. destruct (Z.to_nat n) as [|k]; [lia|]. cbn [repeat_step]. unfold then_step. rewrite Q. reflexivity. }
  assert (ALLOK : forall cs, NoDup (map fst cs) -> good_coords m1 cs -> exists m', repeat_step (Z.to_nat n) (move_to cs) m1 = (m', Ok tt)).
  { intros cs N2 G2. destruct (repeat_spec (Z.to_nat n) cs m1 S1 N2 G2) as (m' & Q & _). eauto. }
  destruct (match gm_get (m_mode m) MG_canned_cycles_return with Some r => subclass (gcls r) GCodeCannedCycleReturnToR | None => false end).
  - assert (R : returns_to_r m) by (apply RR; reflexivity). destruct PC as [(b & PI)|[PN NP]].
    + assert (NM : normal m b) by (exists pl; auto). destruct (normal_axis_spec _ _ PI) as [-> _]. rewrite axis_of_axis_letter.
      set (v := match option_map wvalue (pget (gparams g) LR) with Some v => num_of_value v | None => None end). set (cs := dset axis_eqb cs0 b v).
      assert (N2 : NoDup (map fst cs)) by (apply (dset_nodup _ _ _ axis_eqb_eq); auto).
      assert (IC : In (b, v) cs) by (apply (dget_in _ _ _ axis_eqb_eq); unfold cs; rewrite (dget_dset _ _ _ axis_eqb_eq), axis_eqb_refl; auto).
      assert (OT : forall c, In c cs -> fst c <> b -> vget (m_axes m1) (fst c) = true /\ exists x, snd c = Some x).
      { intros [a o] I NE. cbn [fst] in NE. apply (in_dget _ _ _ axis_eqb_eq) in I; auto. unfold cs in I. rewrite (dget_dset _ _ _ axis_eqb_eq), axis_eqb_neq in I by auto. apply (dget_in _ _ _ axis_eqb_eq) in I. apply (GI _ I). }
      assert (OB : forall c, In c cs -> fst c = b -> c = (b, v)).
      { intros [a o] I Q. cbn [fst] in Q. subst a. apply (in_dget _ _ _ axis_eqb_eq) in I; auto. unfold cs in I. rewrite (dget_dset _ _ _ axis_eqb_eq), axis_eqb_refl in I. injection I as <-. auto. }
      assert (VR : (v = None /\ ~ has_r g) \/ (exists x, v = Some x) /\ has_r g).
      { unfold v. destruct (pget (gparams g) LR) as [w|] eqn:Q; cbn [option_map].
        - right. apply pget_in in Q; [|apply W]. split; [|exists w; auto]. destruct W as (L & _ & _ & WP). rewrite Forall_forall in WP. pose proof (WP _ Q) as WW. cbn [snd] in WW. destruct L as [L _]. rewrite Forall_forall in L. destruct (L _ Q) as [LE _]. cbn [fst snd] in LE.
          destruct w as [lt x]. cbn [wletter] in LE. subst lt. cbn [wvalue]. clear -WW. unfold word_wf in WW. cbn [wletter letter_class wvalue] in WW. destruct x as [x|x|x]; cbn in WW; try contradiction. exists x. reflexivity.
        - left. split; auto. intros (w & I). apply pget_in in I; [congruence|apply W]. }
      destruct (vget (m_axes m) b) eqn:VB.
      * assert (Hb : has (m_abs m) b). { unfold has. destruct S as ((_ & Aa & _) & _). congruence. }
        destruct VR as [[VN NR]|[(x & VX) HR]].
        -- right. exists ETypeError. split; [|eapply stop_r; eauto]. apply ONE. apply (move_to_raise cs m1 b); auto; [rewrite <- VN; auto|]. rewrite A1. exact Hb.
        -- left. split.
           ++ apply ALLOK; auto. split; [|intros _]; intros c I.
              ** intros _. destruct (axis_eqb (fst c) b) eqn:AB; [apply axis_eqb_eq in AB; rewrite (OB c I AB), VX; cbn [snd]; eauto|]. apply OT; auto. intros Q. rewrite Q, axis_eqb_refl in AB. discriminate.
              ** destruct (axis_eqb (fst c) b) eqn:AB; [apply axis_eqb_eq in AB; rewrite AB, X1; auto|]. apply OT; auto. intros Q. rewrite Q, axis_eqb_refl in AB. discriminate.
           ++ intros e ST. inversion ST; subst; [contradiction|destruct (H1 b NM)| |]; match goal with N : normal m ?c |- _ => pose proof (normal_fun _ _ _ NM N); subst c end; contradiction.
      * assert (Hb : ~ has (m_abs m) b). { unfold has. destruct S as ((_ & Aa & _) & _). congruence. }
        destruct (is_incremental m) eqn:IN.
        -- left. split.
           ++ apply ALLOK; auto. split; [|congruence]. intros c I V. apply OT; auto. intros Q. rewrite Q, X1 in V. congruence.
           ++ intros e ST. inversion ST; subst; [contradiction|destruct (H1 b NM)| |]; match goal with N : normal m ?c |- _ => pose proof (normal_fun _ _ _ NM N); subst c end; [|contradiction].
              match goal with A : absolute m |- _ => apply absolute_iff in A; congruence end.
        -- right. exists EMachineInvalidAxis. split; [|eapply stop_axis; eauto; apply absolute_iff; auto]. apply ONE. apply (move_to_off cs m1 b v); auto. rewrite A1. exact Hb.
    + rewrite PN. right. exists ETypeError. split; [reflexivity|]. apply stop_normal; auto. intros b (p & Q & I). rewrite PE in Q. injection Q as <-. apply (NP b I).
  - assert (R : ~ returns_to_r m) by (intros Q; apply RR in Q; discriminate Q). left. split.
    + assert (SUB : forall cs, (forall c, In c cs -> In c cs0) -> good_coords m1 cs). { intros cs I. split; [|intros _]; intros c J; [intros _|]; apply (GI c (I c J)). }
      destruct PC as [(b & PI)|[PN NP]].
      * destruct (normal_axis_spec _ _ PI) as [-> _]. rewrite axis_of_axis_letter. apply ALLOK; [apply dpop_nodup; auto|]. apply SUB. intros c. apply dpop_sub.
      * rewrite PN. apply ALLOK; auto.
    + intros e ST. inversion ST; contradiction.
Qed.
Lemma other_ok g m : sound m -> gcode_wf g -> ~ is_canned g -> exists m', gcode_process g m = (m', Ok tt).
Proof.
  intros S W N. destruct (process_kind (gcls g)) eqn:K.
  - rewrite process_own by (auto; apply W). unfold gcode_process_own. rewrite K. eauto.
  - destruct (process_move g m S W K) as (m' & E & _). eauto.
  - exfalso. apply N. apply kind_canned. exact K.
  - rewrite process_own by (auto; apply W). unfold gcode_process_own. rewrite K. eauto.
Qed.
Lemma canned_dec g : is_canned g \/ ~ is_canned g.
Proof. rewrite <- kind_canned. destruct (process_kind (gcls g)); (left; reflexivity) || (right; discriminate). Qed.
Lemma command_stop g m m' e : sound m -> gcode_wf g -> gcode_process g m = (m', Raise e) <-> m' = set_for m g /\ is_canned g /\ cycle_stop m g e.
Proof.
  intros S W. split.
  - intros E. destruct (canned_dec g) as [C|C].
    + destruct (canned_outcome g m S W C) as [((x & X) & _)|(e' & X & ST)]; [congruence|]. rewrite X in E. injection E as <- <-. auto.
    + destruct (other_ok g m S W C) as (x & X). congruence.
  - intros (-> & C & ST). destruct (canned_outcome g m S W C) as [(_ & N)|(e' & X & ST')]; [destruct (N e ST)|]. rewrite X. f_equal. f_equal. eapply cycle_stop_fun; eauto.
Qed.
Lemma process_wf_sound g m m' r : sound m -> inside m -> gcode_wf g -> gcode_process g m = (m', r) -> sound m' /\ inside m'.
Proof. intros S I W E. destruct (process_inv g m S I W) as [(A & B & _) _]. rewrite E in A, B. auto. Qed.
Lemma steps_stop l : forall m m' e, sound m -> inside m -> Forall gcode_wf l ->
  steps (map gcode_process l) m = (m', Raise e) <-> exists l1 g l2 ps m1, l = l1 ++ g :: l2 /\ path m l1 ps m1 /\ is_canned g /\ cycle_stop m1 g e /\ m' = set_for m1 g.
Proof.
  induction l as [|g l IH]; intros m m' e S I F; cbn [map steps].
  - split; [discriminate|]. intros (l1 & g & l2 & ps & m1 & X & _). destruct l1; discriminate X.
  - inversion F; subst. unfold then_step. destruct (gcode_process g m) as [m1 [[]|e1]] eqn:E.
    + destruct (process_wf_sound g m m1 _ S I H1 E) as [S1 I1]. rewrite IH by auto. split.
      * intros (l1 & g' & l2 & ps & m2 & -> & P & C & ST & ->). exists (g :: l1), g', l2, (m_abs m1 :: ps), m2. split; auto. split; [econstructor; eauto|auto].
      * intros (l1 & g' & l2 & ps & m2 & X & P & C & ST & ->). destruct l1 as [|g0 l1].
        -- exfalso. cbn [app] in X. injection X as <- <-. inversion P; subst. destruct (canned_outcome g m2 S H1 C) as [(_ & N)|(e' & X & _)]; [destruct (N e ST)|congruence].
        -- cbn [app] in X. injection X as <- ->. inversion P; subst. match goal with Q : gcode_process g m = (?y, Ok tt) |- _ => rewrite E in Q; injection Q as <- end. exists l1, g', l2, ps0, m2. auto.
    + pose proof (proj1 (command_stop g m m1 e1 S H1) E) as (-> & C & ST). split.
      * intros Q. injection Q as <- <-. exists [], g, l, [], m. split; auto. split; [constructor|auto].
      * intros (l1 & g' & l2 & ps & m2 & X & P & C' & ST' & ->). destruct l1 as [|g0 l1].
        -- cbn [app] in X. injection X as <- <-. inversion P; subst. f_equal. f_equal. eapply cycle_stop_fun; eauto.
        -- cbn [app] in X. injection X as <- ->. inversion P; subst. congruence.
Qed.
(** the words without a gcode *)
Lemma modal_stop m ps e : sound m -> words2gcodes ps = Ok ([], ps) ->
  machine_modal_gcode m ps = Raise e <-> e = EMachineInvalidState /\ m_ignore m = false /\ exists w, In w ps /\ ~ usable m w.
Proof.
  intros S B. apply bare_iff in B. destruct ps as [|p0 ps0]; [split; [discriminate|intros (_ & _ & w & [] & _)]|]. remember (p0 :: ps0) as ps. assert (NE : ps <> []) by (subst; discriminate).
  destruct (gm_get (m_mode m) MG_motion) as [mo|] eqn:E.
  - destruct (sound_motion ar m mo S E) as [L P]. rewrite (modal_gcode_spec m mo ps E L P B NE).
    assert (X : existsb (unfit (gcls mo)) ps = true <-> exists w, In w ps /\ ~ usable m w).
    { rewrite existsb_exists. split; intros (w & I & Q); exists w; split; auto.
      - intros U. apply (usable_fit m mo E) in U. unfold unfit, fit in *. rewrite U in Q. discriminate Q.
      - unfold unfit. apply negb_true_iff. destruct (accepts (gcls mo) (wletter w)) eqn:A; auto. exfalso. apply Q. apply (usable_fit m mo E). exact A. }
    destruct (existsb (unfit (gcls mo)) ps) eqn:Y, (m_ignore m) eqn:IG; cbn [andb negb].
    + split; [discriminate|]. intros (_ & Q & _). discriminate Q.
    + split; [|intros (-> & _); reflexivity]. intros Q. injection Q as <-. split; auto. split; auto. apply X. auto.
    + split; [discriminate|]. intros (_ & Q & _). discriminate Q.
    + split; [discriminate|]. intros (_ & _ & Q). apply X in Q. discriminate Q.
  - rewrite modal_gcode_none by auto. destruct (m_ignore m); [split; [discriminate|intros (_ & Q & _); discriminate Q]|]. split; [|intros (-> & _); auto]. intros Q. injection Q as <-. split; auto. split; auto.
    exists p0. split; [subst; left; auto|]. intros (mo & Q & _). congruence.
Qed.
Lemma block_stops b m e : sound m -> inside m -> Forall gcode_wf (bgcodes b) -> Forall word_wf (bmodal b) -> words2gcodes (bmodal b) = Ok ([], bmodal b) ->
  (exists m', process_block b m = (m', Raise e)) <-> block_stop m b e.
Proof.
  intros S I WG WW B. unfold process_block, process_gcodes. destruct (machine_modal_gcode m (bmodal b)) as [og|e0] eqn:O.
  - assert (BM : block_modal_gcodes m b = Ok (sort_gcodes (bgcodes b ++ match og with Some g => [g] | None => [] end))) by (unfold block_modal_gcodes; rewrite O; reflexivity).
    set (l := sort_gcodes _) in *. assert (WF : Forall gcode_wf l).
    { eapply Permutation_Forall; [apply Permutation_sym, sort_perm|]. apply Forall_app. split; auto. destruct og as [g|]; constructor; auto. eapply modal_gcode_wf; eauto. }
    split.
    + intros (m' & E). apply steps_stop in E as (l1 & g & l2 & ps & m1 & -> & P & C & ST & _); auto. eapply stop_cycle; eauto.
    + intros ST. inversion ST as [w IG IW NU|l1 g l2 ps m1 e' BE P C CS]; subst.
      * exfalso. assert (X : machine_modal_gcode m (bmodal b) = Raise EMachineInvalidState) by (apply modal_stop; eauto 6). congruence.
      * rewrite BM in BE. injection BE as BE. exists (set_for m1 g). apply steps_stop; auto. exists l1, g, l2, ps, m1. rewrite BE. auto.
  - apply modal_stop in O as (-> & IG & w & IW & NU); auto. split.
    + intros (m' & Q). injection Q as <- <-. econstructor; eauto.
    + intros ST. inversion ST as [w' _ _ _|l1 g l2 ps m1 e' BE P C CS]; subst; [eauto|]. exfalso. unfold block_modal_gcodes in BE.
      assert (X : machine_modal_gcode m (bmodal b) = Raise EMachineInvalidState) by (apply modal_stop; eauto 6). rewrite X in BE. discriminate BE.
Qed.

(** ** Reading *)
Lemma clean_no_control s c : In c (clean_text s) -> ~ (28 <= code c <= 31)%nat.
Proof.
  destruct (C05_clean_up_total s) as (ws & F & ->). intros I C. assert (V : Forall (Forall (fun c => ~ blank c)) ws) by (clear I; induction F; constructor; auto).
  assert (J : c = space \/ exists w, In w ws /\ In c w).
  { clear -I. revert I. induction ws as [|w ws IH]; cbn [join]; [contradiction|]. destruct ws as [|w2 ws].
    - intros I. right. exists w. split; auto. left. auto.
    - rewrite !in_app_iff. intros [I|[I|I]]; [right; exists w; split; auto; left; auto|left; destruct I as [I|[]]; auto|]. destruct (IH I) as [J|(x & A & B)]; auto. right. exists x. split; auto. right. auto. }
  destruct J as [->|(w & IW & IC)]; [vm_compute in C; lia|]. rewrite Forall_forall in V. pose proof (V w IW) as VW. rewrite Forall_forall in VW. apply (VW c IC). unfold blank, is_space.
  destruct C as [C1 C2]. replace ((28 <=? code c)%nat) with true by (symmetry; apply Nat.leb_le; lia). replace ((code c <=? 32)%nat) with true by (symmetry; apply Nat.leb_le; lia). rewrite orb_true_r. reflexivity.
Qed.
Lemma clean_error s e : text2words (clean_text s) = Raise e -> e = EGCodeWordStrError.
Proof. intros H. destruct (text2words_errors _ _ H) as [->| ->]; auto. apply text2words_value_error in H as (c & I & C). destruct (clean_no_control _ _ I C). Qed.
Lemma text_stops s e : mk_line s = Raise e <-> text_stop s e.
Proof.
  unfold mk_line. destruct (line_parts s) as [[bc mac]|e0] eqn:LP; cbn [bind].
  - apply line_parts_iff in LP. assert (U : forall bc' mac', line_split s bc' mac' -> bc' = bc /\ mac' = mac).
    { intros bc' mac' L. apply line_parts_iff in L. apply line_parts_iff in LP. rewrite L in LP. injection LP as -> ->. auto. }
    pose proof (line_split_one_line _ _ _ LP) as OL. destruct (split_line bc) as [bs c] eqn:SL. rewrite mk_block_clean.
    assert (F : fst (split_line bc) = bs) by (rewrite SL; reflexivity).
    destruct (text2words (clean_text bs)) as [ws|e1] eqn:T; cbn [bind].
    + pose proof (proj1 (text2words_reads _ _) T) as R. destruct (words2gcodes ws) as [[gs rest]|e2] eqn:G; cbn [bind].
      * pose proof (proj1 (words2gcodes_iff _ _ _) G) as (grs & GR & UN & ->).
        assert (WF : Forall word_wf (map gword (map built grs))).
        { apply Forall_forall. intros w I. apply in_map_iff in I as (g & <- & I). pose proof (words2gcodes_wf _ _ _ G (text2words_wf _ _ T)) as [Q _]. rewrite Forall_forall in Q. apply (Q g I). }
        destruct (assert_gcodes_total (map built grs) [] []) as [A|A]; rewrite A; cbn [bind].
        -- split; [discriminate|]. intros ST. exfalso. apply assert_gcodes_spec in A as [A _]; [|auto|constructor]. inversion ST as [N|bc' mac' L N|bc' mac' ws' grs' rest' L R' GR' N|bc' mac' ws' grs' rest' L R' GR' UN' N]; subst; [auto| | |].
           ++ destruct (U _ _ L) as [-> ->]. apply (N ws). rewrite SL. exact R.
           ++ destruct (U _ _ L) as [-> ->]. rewrite SL in R'. pose proof (reads_unique _ _ _ R R') as <-. destruct (grouped_unique _ _ _ _ _ GR GR') as [-> _]. auto.
           ++ destruct (U _ _ L) as [-> ->]. rewrite SL in R'. pose proof (reads_unique _ _ _ R R') as <-. destruct (grouped_unique _ _ _ _ _ GR GR') as [-> _]. auto.
        -- assert (NC : ~ ForallOrdPairs compatible (map built grs)).
           { intros Q. assert (X : assert_gcodes [] [] (map built grs) = Ok tt); [|congruence]. apply assert_gcodes_spec; auto. split; auto. apply Forall_forall. intros g _. split; auto. }
           split.
           ++ intros Q. injection Q as <-. eapply stop_conflict; eauto. rewrite F. exact R.
           ++ intros ST. inversion ST as [N|bc' mac' L N|bc' mac' ws' grs' rest' L R' GR' N|bc' mac' ws' grs' rest' L R' GR' UN' N]; subst; auto; [contradiction| |].
              ** destruct (U _ _ L) as [-> ->]. destruct (N ws). rewrite SL. exact R.
              ** destruct (U _ _ L) as [-> ->]. rewrite SL in R'. pose proof (reads_unique _ _ _ R R') as <-. destruct (grouped_unique _ _ _ _ _ GR GR') as [-> _]. contradiction.
      * pose proof (proj1 (words2gcodes_error _ _) G) as (-> & grs & rest & GR & UN). split.
        -- intros Q. injection Q as <-. eapply stop_params; eauto. rewrite F. exact R.
        -- intros ST. inversion ST as [N|bc' mac' L N|bc' mac' ws' grs' rest' L R' GR' N|bc' mac' ws' grs' rest' L R' GR' UN' N]; subst; auto; [contradiction| |].
           ++ destruct (U _ _ L) as [-> ->]. destruct (N ws). rewrite SL. exact R.
           ++ destruct (U _ _ L) as [-> ->]. rewrite SL in R'. pose proof (reads_unique _ _ _ R R') as <-. destruct (grouped_unique _ _ _ _ _ GR GR') as [-> _]. contradiction.
    + pose proof (clean_error _ _ T) as ->. assert (NR : forall ws, ~ reads (clean_text bs) ws). { intros ws Q. apply text2words_reads in Q. congruence. }
      split.
      * intros Q. injection Q as <-. eapply stop_words; eauto; rewrite F; auto.
      * intros ST. inversion ST as [N|bc' mac' L N|bc' mac' ws' grs' rest' L R' GR' N|bc' mac' ws' grs' rest' L R' GR' UN' N]; subst; [contradiction| | |]; destruct (U _ _ L) as [-> ->]; rewrite SL in *; cbn [fst] in *; try (destruct (NR _ R')). auto.
  - pose proof (line_parts_error _ _ LP) as ->. assert (NL : forall bc mac, ~ line_split s bc mac) by (intros bc mac L; apply line_parts_iff in L; congruence). split.
    + intros Q. injection Q as <-. apply stop_lines. intros OL. apply one_line_split in OL as (bc & mac & L). destruct (NL _ _ L).
    + intros ST. inversion ST; subst; auto; destruct (NL _ _ H).
Qed.

(** ** Programs *)
Lemma fold_plane gs : forall md, gm_get md MG_plane_selection <> None -> gm_get (fold_left mode_effect gs md) MG_plane_selection <> None.
Proof.
  induction gs as [|g gs IH]; intros md H; cbn [fold_left]; auto. apply IH. unfold mode_effect, set_effect. destruct (process_kind (gcls g)); try (rewrite gm_get_set; cbn [mgroup_eqb]; exact H); destruct (modal_group (gcls g)) as [mg|]; auto; rewrite gm_get_set; destruct (mgroup_eqb _ _); auto; discriminate.
Qed.
Definition no_r (md : mode) : Prop := forall g, gm_get md MG_canned_cycles_return = Some g -> ~ derives (gcls g) GCodeCannedCycleReturnToR.
Lemma fold_no_r gs : forall md, (forall g, In g gs -> ~ derives (gcls g) GCodeCannedCycleReturnToR) -> no_r md -> no_r (fold_left mode_effect gs md).
Proof.
  induction gs as [|g gs IH]; intros md F H; cbn [fold_left]; auto. apply IH; [intros; apply F; right; auto|]. intros x. unfold mode_effect, set_effect.
  assert (K : gm_get match modal_group (gcls g) with Some mg => gm_set md mg (Some (modal_of g)) | None => md end MG_canned_cycles_return = Some x -> ~ derives (gcls x) GCodeCannedCycleReturnToR).
  { destruct (modal_group (gcls g)) as [mg|]; [|apply H]. rewrite gm_get_set. destruct (mgroup_eqb _ _); [|apply H]. intros Q. injection Q as <-. cbn [modal_of gcls]. apply F. left. auto. }
  destruct (process_kind (gcls g)); auto. rewrite gm_get_set. destruct (mgroup_eqb _ _); [discriminate|apply H].
Qed.
Lemma no_r_iff m : no_r (m_mode m) <-> ~ returns_to_r m.
Proof. unfold no_r, returns_to_r. split; [intros H (g & E & D); apply (H g E D)|intros H g E D; apply H; eauto]. Qed.
Lemma path_mode gs : forall m ps m', sound m -> inside m -> Forall gcode_wf gs -> path m gs ps m' -> sound m' /\ inside m' /\ m_axes m' = m_axes m /\ m_mode m' = fold_left mode_effect gs (m_mode m).
Proof.
  induction gs as [|g gs IH]; intros m ps m' S I F P; inversion P; subst; cbn [fold_left]; auto. inversion F; subst. destruct (process_wf_sound g m m1 _ S I H1 H2) as [S1 I1].
  destruct (IH _ _ _ S1 I1 H3 H5) as (A & B & C & D). split; auto. split; auto. rewrite C, D. pose proof (process_inv g m S I H1) as (_ & X & _). pose proof (gcode_process_mode g m ltac:(apply S) ltac:(apply H1)) as M. rewrite H2 in X, M. cbn [fst] in *. rewrite X, M. auto.
Qed.
Lemma rest_is_bare ws gs rest : words2gcodes ws = Ok (gs, rest) -> words2gcodes rest = Ok ([], rest).
Proof.
  intros H. apply bare_iff. apply words2gcodes_iff in H as (grs & G & _ & _). induction G; [constructor|auto|auto|].
  unfold bare in *. apply Forall_app. split; auto.
Qed.
Lemma line_bare s l : mk_line s = Ok l -> words2gcodes (bmodal (lblock l)) = Ok ([], bmodal (lblock l)) /\ Forall gcode_wf (bgcodes (lblock l)) /\ Forall word_wf (bmodal (lblock l)).
Proof.
  intros L. unfold mk_line in L. destruct (line_parts s) as [[bc mac]|]; cbn [bind] in L; [|discriminate]. destruct (split_line bc) as [bs c]. destruct (mk_block true bs) as [b|] eqn:B; cbn [bind] in L; [|discriminate]. injection L as <-. cbn [lblock].
  split; [|eapply mk_block_wf; eauto]. rewrite mk_block_clean in B. destruct (text2words (clean_text bs)) as [ws|]; cbn [bind] in B; [|discriminate]. destruct (words2gcodes ws) as [[gs rest]|] eqn:W; cbn [bind] in B; [|discriminate].
  destruct (assert_gcodes [] [] gs); cbn [bind] in B; [|discriminate]. injection B as <-. cbn [bmodal]. eapply rest_is_bare; eauto.
Qed.
Lemma modal_gcode_motion m ps g : sound m -> words2gcodes ps = Ok ([], ps) -> machine_modal_gcode m ps = Ok (Some g) -> exists mo, gm_get (m_mode m) MG_motion = Some mo /\ gcls g = gcls mo.
Proof.
  intros S B H. apply bare_iff in B. destruct ps as [|p0 ps0]; [discriminate H|]. remember (p0 :: ps0) as ps. assert (NE : ps <> []) by (subst; discriminate).
  destruct (gm_get (m_mode m) MG_motion) as [mo|] eqn:E.
  - destruct (sound_motion ar m mo S E) as [L P]. rewrite (modal_gcode_spec m mo ps E L P B NE) in H. destruct (_ && _); [discriminate|]. injection H as <-. eauto.
  - rewrite modal_gcode_none in H by auto. destruct (m_ignore m); discriminate H.
Qed.
Lemma motion_not_r c : modal_group c = Some MG_motion -> ~ derives c GCodeCannedCycleReturnToR.
Proof. intros G D. apply subclass_derives in D. destruct c; vm_compute in G; try discriminate G; vm_compute in D; discriminate D. Qed.
Lemma block_commands m b l : sound m -> Forall gcode_wf (bgcodes b) -> Forall word_wf (bmodal b) -> words2gcodes (bmodal b) = Ok ([], bmodal b) -> block_modal_gcodes m b = Ok l ->
  Forall gcode_wf l /\ ((forall g, In g (bgcodes b) -> ~ derives (gcls g) GCodeCannedCycleReturnToR) -> forall g, In g l -> ~ derives (gcls g) GCodeCannedCycleReturnToR).
Proof.
  intros S WG WW B. unfold block_modal_gcodes. destruct (machine_modal_gcode m (bmodal b)) as [og|] eqn:O; cbn [bind]; [|discriminate]. intros H. injection H as <-. split.
  - apply sort_wf, Forall_app. split; auto. destruct og as [g|]; constructor; auto. eapply modal_gcode_wf; eauto.
  - intros N g I. eapply Permutation_in in I; [|apply sort_perm]. apply in_app_iff in I as [I|I]; auto. destruct og as [g'|]; [|contradiction]. destruct I as [<-|[]].
    destruct (modal_gcode_motion m _ _ S B O) as (mo & E & ->). apply motion_not_r. destruct S as (_ & _ & _ & _ & _ & MW & _). apply (MW _ _ E).
Qed.
Lemma str_keeps_usual s m m' : usual m -> process_str s m = (m', Ok tt) -> usual m'.
Proof.
  intros (S & I & P & HX & HY & HZ). unfold process_str. destruct (mk_line s) as [l|] eqn:L; [|discriminate]. destruct (line_bare s l L) as (B & WG & WW). unfold process_block, process_gcodes. destruct (machine_modal_gcode m (bmodal (lblock l))) as [og|] eqn:O; [|discriminate]. intros R.
  apply steps_path in R as (ps & R). assert (WF : Forall gcode_wf (sort_gcodes (bgcodes (lblock l) ++ match og with Some g => [g] | None => [] end))) by (apply sort_wf, Forall_app; split; auto; destruct og as [g|]; constructor; auto; eapply modal_gcode_wf; eauto).
  destruct (path_mode _ _ _ _ S I WF R) as (S' & I' & AX' & M). split; auto. split; auto. split.
  - unfold plane_selected in *. destruct P as (pl & P). destruct (gm_get (m_mode m') MG_plane_selection) as [x|] eqn:E; [eauto|]. exfalso. revert E. rewrite M. apply fold_plane. congruence.
  - assert (K : forall a, has (m_abs m) a -> has (m_abs m') a) by (intros a H; eapply has_axes; [|exact H]; destruct S as ((_ & Z & _) & _), S' as ((_ & Z' & _) & _); congruence). auto.
Qed.
Lemma str_keeps_no_r s m m' : sound m -> inside m -> (forall l g, mk_line s = Ok l -> In g (bgcodes (lblock l)) -> ~ derives (gcls g) GCodeCannedCycleReturnToR) -> ~ returns_to_r m -> process_str s m = (m', Ok tt) -> ~ returns_to_r m'.
Proof.
  intros S I N R. unfold process_str. destruct (mk_line s) as [l|] eqn:L; [|discriminate]. destruct (line_bare s l L) as (B & WG & WW). unfold process_block, process_gcodes. destruct (machine_modal_gcode m (bmodal (lblock l))) as [og|] eqn:O; [|discriminate]. intros Q.
  assert (BM : block_modal_gcodes m (lblock l) = Ok (sort_gcodes (bgcodes (lblock l) ++ match og with Some g => [g] | None => [] end))) by (unfold block_modal_gcodes; rewrite O; reflexivity).
  destruct (block_commands m (lblock l) _ S WG WW B BM) as [WF NR]. apply steps_path in Q as (ps & Q). destruct (path_mode _ _ _ _ S I WF Q) as (_ & _ & _ & M). apply (proj1 (no_r_iff m')). rewrite M. apply fold_no_r; [exact (NR (fun g => N l g eq_refl))|exact (proj2 (no_r_iff m) R)].
Qed.
(** what stops a block on a usual machine *)
Lemma usual_stop m b e : usual m -> Forall gcode_wf (bgcodes b) -> Forall word_wf (bmodal b) -> words2gcodes (bmodal b) = Ok ([], bmodal b) -> block_stop m b e ->
  (e = EMachineInvalidState /\ m_ignore m = false /\ exists w, In w (bmodal b) /\ ~ usable m w) \/
  (e = ETypeError /\ exists l1 g l2 ps m1, block_modal_gcodes m b = Ok (l1 ++ g :: l2) /\ path m l1 ps m1 /\ is_canned g /\ returns_to_r m1 /\ ((forall b, ~ normal m1 b) \/ ~ has_r g)).
Proof.
  intros (S & I & P & HX & HY & HZ) WG WW B ST. inversion ST as [w IG IW NU|l1 g l2 ps m1 e' BE PA C CS]; subst; [left; eauto 6|]. right.
  destruct (block_commands m b _ S WG WW B BE) as [WF _]. apply Forall_app in WF as [WF _]. destruct (path_mode _ _ _ _ S I WF PA) as (S1 & I1 & A1 & M).
  assert (P1 : plane_selected m1). { unfold plane_selected in *. destruct P as (pl & P). destruct (gm_get (m_mode m1) MG_plane_selection) as [x|] eqn:E; [eauto|]. exfalso. revert E. rewrite M. apply fold_plane. congruence. }
  inversion CS as [NP|_ R NN|b0 R NM NH AB|b0 R NM HB NR]; subst; [contradiction| | |].
  - split; auto. exists l1, g, l2, ps, m1. auto 8.
  - exfalso. apply NH. assert (K : forall a, has (m_abs m) a -> has (m_abs m1) a) by (intros a H; eapply has_axes; [|exact H]; destruct S as ((_ & Z & _) & _), S1 as ((_ & Z' & _) & _); congruence).
    destruct NM as (pl & _ & IN). unfold planes in IN. cbn [In] in IN. repeat (destruct IN as [IN|IN]; [injection IN as _ <-; auto|]). destruct IN.
  - split; auto. exists l1, g, l2, ps, m1. auto 8.
Qed.
Lemma no_r_path m b l1 l2 ps m1 : sound m -> inside m -> ~ returns_to_r m -> (forall g, In g (bgcodes b) -> ~ derives (gcls g) GCodeCannedCycleReturnToR) -> Forall gcode_wf (bgcodes b) -> Forall word_wf (bmodal b) ->
  words2gcodes (bmodal b) = Ok ([], bmodal b) -> block_modal_gcodes m b = Ok (l1 ++ l2) -> path m l1 ps m1 -> ~ returns_to_r m1.
Proof.
  intros S I R N WG WW B BE PA. destruct (block_commands m b _ S WG WW B BE) as [WF NR]. apply Forall_app in WF as [WF _]. destruct (path_mode _ _ _ _ S I WF PA) as (_ & _ & _ & M). apply (proj1 (no_r_iff m1)). rewrite M.
  apply fold_no_r; [|exact (proj2 (no_r_iff m) R)]. intros x X. apply (NR N). apply in_app_iff. auto.
Qed.
End WithArith.
