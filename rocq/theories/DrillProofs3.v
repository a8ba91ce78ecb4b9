(** Drilling cycles: machines running the expanded cycle. *)
From Coq Require Import String List Bool Arith ZArith QArith Qcanon Lia Lqa.
From Verif Require Import Base Num Words GTable GCode Line Position Machine BaseFacts WordsSpec PrintSpec PrintProofs BlockSpec GCodeSpec GCodeProofs GCodeProofs2 PropsGCode ArithSpec Float64 PosSpec PosProofs ModeSpec ModeProofs MachSpec MachProofs MachProofs2 MachProofs3 PropsMach CannedProofs Transform TransSpec TransProofs TransProofs2 PropsTrans DrillSpec DrillProofs DrillProofs2.
Import ListNotations.

(** *** gcodes as commands *)
Definition fwords (g : gcode) : Prop := legal g /\ Forall (fun kv => word_wf (snd kv)) (gparams g).
Lemma fvalue_iff g a x : fwords g -> axis_value g a = Some x <-> names g a x.
Proof.
  intros (L & F). unfold axis_value, names. split.
  - destruct (pget (gparams g) (axis_letter a)) as [w|] eqn:E; [|discriminate]. intros H. apply legal_pget in E; auto. exists w. split; auto. rewrite Forall_forall in F. specialize (F _ E). cbn [snd] in F.
    destruct L as [L _]. rewrite Forall_forall in L. destruct (L _ E) as [Q _]. cbn [fst snd] in Q. destruct (axis_float a w F (eq_sym Q)) as [y Y]. rewrite Y in *. cbn [num_of_value] in H. congruence.
  - intros (w & I & V). apply legal_pget in I; auto. rewrite I, V. reflexivity.
Qed.
Lemma fvalue_none g a : fwords g -> axis_value g a = None <-> forall x, ~ names g a x.
Proof.
  intros W. split.
  - intros H x N. apply fvalue_iff in N; auto. congruence.
  - intros H. destruct (axis_value g a) as [x|] eqn:E; auto. apply fvalue_iff in E; auto. destruct (H x E).
Qed.
Lemma commands_iff gs : Forall fwords gs -> forall v l, commands v gs l <-> l = apath v gs.
Proof.
  induction 1 as [|g gs W F IH]; intros v l; cbn [apath].
  - split; [inversion 1; auto|intros ->; constructor].
  - assert (K : forall v', (forall a x, names g a x -> vget v a <> None -> vget v' a = Some x) /\ (forall a, (forall x, ~ names g a x) \/ vget v a = None -> vget v' a = vget v a) <-> v' = moved_abs g v).
    { intros v'. split.
      - intros [A B]. apply v9_ext. intros a. unfold moved_abs. rewrite vget_vfun. destruct (vget v a) as [x|] eqn:E; [|rewrite B; auto]. destruct (axis_value g a) as [y|] eqn:Q.
        + apply fvalue_iff in Q; auto. apply A; auto. congruence.
        + rewrite fvalue_none in Q by auto. rewrite B; auto.
      - intros ->. unfold moved_abs. split; intros a; [intros x N H|intros [N|N]]; rewrite vget_vfun.
        + apply fvalue_iff in N; auto. rewrite N. destruct (vget v a); [auto|contradiction].
        + apply fvalue_none in N; auto. rewrite N. destruct (vget v a); auto.
        + rewrite N. auto. }
    split.
    + inversion 1 as [|v0 g0 gs0 v' l' A B Cm]; subst. assert (v' = moved_abs g v) by (apply K; auto). subst v'. apply IH in Cm. subst. auto.
    + intros ->. assert (KK := proj2 (K (moved_abs g v)) eq_refl). destruct KK as [A B]. constructor; auto. apply IH. auto.
Qed.
Section Words.
Context {ar : Arith}.
Lemma rz_words z : fwords (rz z).
Proof. split; [split; [constructor; [split; [reflexivity|apply accepts_iff; reflexivity]|constructor]|constructor; [intros []|constructor]]|]. constructor; [exact I|constructor]. Qed.
Lemma lz_words z : fwords (lz z).
Proof. split; [split; [constructor; [split; [reflexivity|apply accepts_iff; reflexivity]|constructor]|constructor; [intros []|constructor]]|]. constructor; [exact I|constructor]. Qed.
Lemma rxy_words x y : fwords (rxy x y).
Proof.
  split; [split; [constructor; [split; [reflexivity|apply accepts_iff; reflexivity]|constructor; [split; [reflexivity|apply accepts_iff; reflexivity]|constructor]]|constructor; [intros [X|[]]; discriminate X|constructor; [intros []|constructor]]]|]. constructor; [exact I|constructor; [exact I|constructor]].
Qed.
Lemma if_words (b : bool) z : Forall fwords (if b then [rz z] else []). Proof. destruct b; constructor; auto using rz_words. Qed.
Lemma bores_words chip r d delta c gs : bores chip r d delta c gs -> Forall fwords gs.
Proof. induction 1; repeat (apply Forall_app; split); auto using if_words; repeat constructor; auto using rz_words, lz_words; apply rz_words || apply lz_words. Qed.
Lemma drilled_words chip r d delta z0 sz X Y i n gs : drilled chip r d delta z0 sz X Y i n gs -> Forall fwords gs.
Proof.
  induction 1 as [i|i n bs gs B H IH]; [constructor|]. apply Forall_app. split; [apply if_words|]. constructor; [apply rxy_words|]. apply Forall_app. split; [apply if_words|]. apply Forall_app. split; [eapply bores_words; eauto|]. constructor; auto using rz_words.
Qed.
End Words.

(** *** paths without stops *)
Fixpoint fin (v : where_) (l : list spot) : where_ := match l with [] => v | (_, w) :: l => fin w l end.
Lemma fin_apath v gs : fin v (apath v gs) = aend v gs. Proof. revert v. induction gs; intros v; cbn; auto. Qed.
Lemma ws_fin v vs l : without_stops v vs l -> fin v l = fin v vs. Proof. induction 1; cbn [fin]; auto. Qed.
Lemma ws_in v vs l s : without_stops v vs l -> In s l -> In s vs. Proof. induction 1; intros I; [auto|right; auto|]. destruct I as [I|I]; [left|right]; auto. Qed.
Lemma ws_reach v vs l w : without_stops v vs l -> In w (v :: map snd vs) -> In w (v :: map snd l).
Proof.
  induction 1 as [v|v c vs l H IH|v c v' vs l N H IH]; cbn [map snd]; intros I; auto.
  - apply IH. cbn in *. tauto.
  - destruct I as [I|I]; [left; auto|]. right. apply IH. auto.
Qed.
Lemma safe_lower r d v f l : safe r d v f l -> forall f', (f' <= f)%Qc -> safe r d v f' l.
Proof.
  induction 1 as [v f|v f c v' z l D V H L S IH|v f c v' z l D H H' L S IH|v f c v' z z' l D V H H' L L' S IH]; intros f' F.
  - constructor.
  - eapply safe_rapid; eauto. eapply Qcle_trans; eauto.
  - eapply safe_side; eauto.
  - eapply safe_feed; eauto. apply IH. destruct (Qcltb z' f') eqn:Q; destruct (Qcltb z' f) eqn:Q2; auto using Qcle_refl.
    + apply Qcltb_lt in Q. apply Qcltb_ge in Q2. clear - Q Q2 F. qcl.
    + apply Qcltb_ge in Q. auto.
Qed.
Lemma safe_stops r d v vs l : without_stops v vs l -> forall f z, safe r d v f vs -> (f <= r)%Qc -> height v z -> (f <= z)%Qc -> safe r d v f l.
Proof.
  induction 1 as [v|v c vs l H IH|v c v' vs l N H IH]; intros f z S F HZ FZ.
  - constructor.
  - inversion S as [|v0 f0 c0 w z1 l0 D V H1 L S1|v0 f0 c0 w z1 l0 D H1 H2 L S1|v0 f0 c0 w z1 z2 l0 D V H1 H2 L L' S1]; subst.
    + apply (IH f z); auto.
    + apply (IH f z); auto. apply (safe_lower _ _ _ r); auto.
    + assert (z2 = z1) by (unfold height in *; congruence). assert (z1 = z) by (unfold height in *; congruence). subst. apply Qcltb_ge in FZ. rewrite FZ in S1. apply Qcltb_ge in FZ. apply (IH f z); auto.
  - inversion S as [|v0 f0 c0 w z1 l0 D V H1 L S1|v0 f0 c0 w z1 l0 D H1 H2 L S1|v0 f0 c0 w z1 z2 l0 D V H1 H2 L L' S1]; subst.
    + eapply safe_rapid; eauto.
    + eapply safe_side; eauto. eapply IH; eauto using Qcle_refl.
    + eapply safe_feed; eauto. destruct (Qcltb z2 f) eqn:Q.
      * eapply IH; eauto using Qcle_refl. apply Qcltb_lt in Q. eapply Qcle_trans; [apply Qclt_le_weak; eauto|auto].
      * apply Qcltb_ge in Q. eapply IH; eauto.
Qed.
(** the same when the first move is a rapid move *)
Lemma safe_stops_first r d v vs l f : without_stops v vs l -> safe r d v f vs -> (f <= r)%Qc -> match vs with [] => True | (c, _) :: _ => derives c GCodeRapidMove end -> safe r d v f l.
Proof.
  intros H S F A. inversion S as [v0 f0|v0 f0 c0 w z1 l0 D V H1 L S1|v0 f0 c0 w z1 l0 D H1 H2 L S1|v0 f0 c0 w z1 z2 l0 D V H1 H2 L L' S1]; subst.
  - inversion H; subst. constructor.
  - inversion H as [|v1 c1 vs1 l1 H3|v1 c1 w1 vs1 l1 N H3]; subst; [eapply safe_stops; eauto|]. eapply safe_rapid; eauto. eapply safe_stops; eauto.
  - inversion H as [|v1 c1 vs1 l1 H3|v1 c1 w1 vs1 l1 N H3]; subst.
    + apply (safe_stops r d w l0 l H3 f z1); auto; [apply (safe_lower _ _ _ r); auto|]. eapply Qcle_trans; eauto.
    + eapply safe_side; eauto. eapply safe_stops; eauto using Qcle_refl.
  - exfalso. eapply linear_not_rapid; eauto.
Qed.
(** every feed moves *)
Fixpoint feeds_move (v : where_) (l : list spot) : Prop := match l with [] => True | (c, w) :: l => (derives c GCodeLinearMove -> w <> v) /\ feeds_move w l end.
Lemma feeds_move_app v a b : feeds_move v (a ++ b) <-> feeds_move v a /\ feeds_move (fin v a) b.
Proof. revert v. induction a as [|[c w] a IH]; intros v; cbn [app feeds_move fin]; [tauto|]. rewrite IH. tauto. Qed.
Definition sfeeds (l : list spot) : nat := length (filter (fun s => subclass (fst s) GCodeLinearMove) l).
Lemma ws_feeds v vs l : without_stops v vs l -> feeds_move v vs -> sfeeds l = sfeeds vs.
Proof.
  unfold sfeeds. induction 1 as [v|v c vs l H IH|v c v' vs l N H IH]; cbn [feeds_move filter fst]; auto.
  - intros [A B]. destruct (subclass c GCodeLinearMove) eqn:E; auto. apply subclass_derives in E. destruct (A E eq_refl).
  - intros [A B]. destruct (subclass c GCodeLinearMove); cbn [length]; auto.
Qed.
Lemma sfeeds_apath v gs : sfeeds (apath v gs) = nfeeds gs.
Proof. unfold sfeeds, nfeeds. revert v. induction gs as [|g gs IH]; intros v; cbn [apath filter fst]; auto. destruct (subclass (gcls g) GCodeLinearMove); cbn [length]; auto. Qed.
Lemma rapids_move v l : Forall (fun s : spot => fst s = GCodeRapidMove) l -> feeds_move v l.
Proof. intros F. revert v. induction F as [|[c w] l E F IH]; intros v; cbn [feeds_move]; auto. split; auto. cbn [fst] in E. subst c. intros L. destruct (linear_not_rapid _ L (der_self _)). Qed.

Section Exact.
Local Existing Instance exact_arith.
Lemma visits_fun m gs vs m1 ws m2 : visits m gs vs m1 -> visits m gs ws m2 -> vs = ws /\ m1 = m2.
Proof.
  intros A. revert ws m2. induction A as [m|m g gs ma v vs m1 E P A IH]; intros ws m2 B; inversion B as [|m' g' gs' mb w ws' m2' E' P' B']; subst; auto.
  rewrite E in E'. injection E' as <-. destruct (IH _ _ B') as [-> ->]. rewrite (place_unique _ _ _ P P'). auto.
Qed.
Lemma visits_fin m gs vs m' v : visits m gs vs m' -> place m v -> place m' (fin v vs).
Proof. intros A. revert v. induction A as [m|m g gs ma w vs m1 E P A IH]; intros v H; cbn [fin]; auto. Qed.
Lemma visits_feeds m gs vs m' : visits m gs vs m' -> sfeeds vs = nfeeds gs.
Proof. unfold sfeeds, nfeeds. induction 1; cbn [filter fst]; auto. destruct (subclass (gcls g) GCodeLinearMove); cbn [length]; auto. Qed.
Lemma run_abs gs : Forall plain_move gs -> forall m v, ready m -> absolute m -> place m v -> exists m', visits m gs (apath v gs) m' /\ ready m' /\ absolute m' /\ m_axes m' = m_axes m /\ place m' (aend v gs).
Proof.
  induction 1 as [|g gs [W T] F IH]; intros m v R A P; cbn [apath aend].
  - exists m. split; [constructor|]. auto.
  - destruct (step_abs g m v R A P W (straight_move g T)) as (m1 & E & R1 & A1 & X1 & P1). destruct (IH m1 _ R1 A1 P1) as (m' & V & R' & A' & X' & P'). exists m'. split; [econstructor; eauto|]. split; auto. split; auto. split; auto. congruence.
Qed.
(** the conversion to incremental distances on such moves *)
Lemma run_inc start c mi gs : good start -> known_unit (punit start) -> derives c GCodeIncrementalDistanceMode -> ready mi -> incremental mi -> m_axes mi = paxes start -> place mi (pvals start) -> Forall plain_move gs ->
  exists out l mi', gcodes_abs2rel start (Some c) (paxes start) (gs, Ok tt) = (out, Ok tt) /\ visits mi out l mi' /\ without_stops (pvals start) (apath (pvals start) gs) l /\ without_stops (pvals start) l l /\ place mi' (aend (pvals start) gs).
Proof.
  intros G U D Ri Ii Xi Pi F. unfold gcodes_abs2rel. rewrite (proj2 (subclass_derives _ _) D).
  destruct (absolute_machine_ok (paxes start)) as (m0 & E0 & A0). rewrite E0. destruct (new_machine_sound (ar := exact_arith) (paxes start) false [t "G90"] m0 E0) as (S0 & I0 & _ & X0 & _).
  destruct (C42_assign m0 start S0 G (eq_sym X0) U) as (m & E & PM). rewrite E. cbn [fst snd].
  destruct (set_pos_spec (ar := exact_arith) start m0 S0 G (eq_sym X0) U) as (m' & E' & Fr & S & _ & _ & I & _). rewrite E in E'. injection E' as <-. pose proof Fr as (F1 & F2 & F3 & _).
  assert (Y : in_sync m) by (apply (frame_sync m0 m Fr); intros x X; rewrite (proj1 A0) in X; discriminate X).
  assert (R : ready m) by (split; auto). assert (A : absolute m) by (unfold absolute; rewrite F1; exact (proj2 A0)). assert (P : place m (pvals start)) by (exists start; auto).
  destruct (loop_path gs m m mi (pvals start) (Ok tt)) as (out & va & vi & l & ma' & mi' & H1 & H2 & H3 & H4 & H5 & H6 & H7 & H8); auto; try congruence.
  - eapply Forall_impl; [|exact F]. intros g [W _]. auto.
  - eapply Forall_impl; [|exact F]. intros g [_ T]. auto.
  - destruct (run_abs gs F m _ R A P) as (mm & V & _). destruct (visits_fun _ _ _ _ _ _ H2 V) as [-> _]. rewrite H8 in * by (eapply Forall_impl; [|exact F]; intros g [_ T]; auto). exists out, l, mi'. split; auto. split; auto. split; auto. split; auto.
    pose proof (visits_fin _ _ _ _ _ H3 Pi) as Q. rewrite (ws_fin _ _ _ H4), fin_apath in Q. auto.
Qed.
(** feeds really move *)
Lemma bores_move chip r d q c gs : bores chip r d (- q)%Qc c gs -> (Q2Qc 0 < q)%Qc -> (d < c)%Qc -> (c <= r)%Qc -> forall v z, height v z -> (c <= z)%Qc -> feeds_move v (apath v gs).
Proof.
  intros B Q. induction B as [c E|c c' gs E L B IH]; intros D CR v z H Z.
  - destruct (approach exact_laws r d c v z eq_refl Z H) as (z' & Z1 & Z2 & Z3 & _). set (pre := if Qcltb _ r then _ else _) in *. rewrite apath_app, feeds_move_app. split.
    + unfold pre. destruct (Qcltb _ r); cbn [apath feeds_move]; auto. split; auto. intros X. destruct (linear_not_rapid _ X (der_self _)).
    + rewrite fin_apath. set (v' := aend v pre) in *. cbn [apath feeds_move]. split; auto. intros _. unfold lz. rewrite moved_z by (unfold height in Z2; congruence). intros X. assert (Y : height (with_z v' d) d) by apply with_z_height. rewrite X in Y. unfold height in *. rewrite Z2 in Y. injection Y as ->. clear - D Z1. qcl.
  - destruct (approach exact_laws r d c v z eq_refl Z H) as (z' & Z1 & Z2 & Z3 & _). set (pre := if Qcltb _ r then _ else _) in *. rewrite !apath_app, !feeds_move_app. split.
    + unfold pre. destruct (Qcltb _ r); cbn [apath feeds_move]; auto. split; auto. intros X. destruct (linear_not_rapid _ X (der_self _)).
    + rewrite fin_apath. set (v' := aend v pre) in *. assert (C1 : (c' < c)%Qc). { rewrite E, exact_add. clear - Q. qcl. }
      split.
      * cbn [apath feeds_move]. split; [|split; auto; intros X; destruct (linear_not_rapid _ X (der_self _))]. intros _. unfold lz. rewrite moved_z by (unfold height in Z2; congruence). intros X. assert (Y : height (with_z v' c') c') by apply with_z_height. rewrite X in Y. unfold height in *. rewrite Z2 in Y. injection Y as ->. clear - C1 Z1. qcl.
      * cbn [apath fin aend]. unfold lz, rz. rewrite !moved_z by (try (unfold height in Z2; congruence); rewrite ?moved_z by (unfold height in Z2; congruence); unfold with_z; rewrite vget_vset_same; discriminate).
        set (u := if chip then fadd c' (flit 5 10) else r). destruct (Qcltb u c') eqn:UC.
        -- exfalso. apply Qcltb_lt in UC. unfold u in UC. destruct chip; [pose proof (fadd_up exact_laws c' 5 10 eq_refl ltac:(lia)) as U; clear - U UC; qcl|clear - UC C1 CR; qcl].
        -- apply Qcltb_ge in UC. apply (IH L) with (z := u); auto; [clear - C1 CR; qcl|]. rewrite with_z_twice. apply with_z_height.
Qed.
End Exact.
