(** Properties C40-C45: where gcodes take the machine. *)
From Coq Require Import Ascii String List Bool Arith ZArith QArith Qcanon Permutation Lia.
From Verif Require Import Base Num Words GTable GCode Line Position Machine BaseFacts WordOrder WordsSpec GCodeSpec GCodeProofs GCodeProofs2 PropsGCode ArithSpec Float64 PosSpec PosProofs PropsPos ModeSpec ModeProofs PropsMode MachSpec MachProofs MachProofs2 MachProofs3.
Import ListNotations.
Open Scope Z_scope.

Lemma fadd_exact x y : fadd (ar := exact_arith) x y = (x + y)%Qc. Proof. reflexivity. Qed.
Lemma back_exact m a x : back (ar := exact_arith) m a x = x.
Proof. unfold back, wpos_of, apos_of, fadd, fsub. cbn [rnd exact_arith]. ring. Qed.

(** every machine made by the constructor and used with fitting actions is sound: the hypothesis of the theorems below *)
Theorem C40_sound : forall (ar : Arith) (m : machine), reachable m -> sound m /\ inside m.
Proof. intros ar m. apply reachable_sound. Qed.
Print Assumptions C40_sound.
(** every gcode and every left-over word read from text is well formed *)
Theorem C40_text : forall (ar : Arith) (v : bool) (s : text) (b : block), mk_block v s = Ok b -> Forall gcode_wf (bgcodes b) /\ Forall word_wf (bmodal b).
Proof. intros ar v s b. apply mk_block_wf. Qed.
Print Assumptions C40_text.
(** the coordinate system in use is that of the mode from the first processed gcode on *)
Theorem C40_sync : forall (ar : Arith) (m : machine) (a : action), sound m -> inside m -> fits (m_axes m) a -> (forall v, a <> Assign MG_coordinate_system v) ->
  in_sync m -> in_sync (fst (do_action a m)).
Proof. intros ar m a S I F N. apply (action_inv a m S I F). auto. Qed.
Print Assumptions C40_sync.

(** ** C40 Absolute moves *)
Theorem C40_absolute : forall (m : machine) (g : gcode), sound (ar := exact_arith) m -> gcode_wf (ar := exact_arith) g -> is_move g -> absolute m -> in_sync m ->
  exists m', gcode_process (ar := exact_arith) g m = (m', Ok tt) /\
    (forall a x, has (m_abs m) a -> names g a x -> pos_at (ar := exact_arith) m' a x) /\
    (forall a x, (forall y, ~ names g a y) -> pos_at (ar := exact_arith) m a x -> pos_at (ar := exact_arith) m' a x).
Proof.
  intros m g S W M A Y. destruct (move_pos_exact (ar := exact_arith) g m S W M Y) as (m' & E & _ & P1 & P2 & P3); try (intros; apply back_exact).
  - intros _ a y _. rewrite fadd_exact. ring.
  - exists m'. split; auto.
Qed.
Print Assumptions C40_absolute.
(** the same with rounding arithmetic when no offset is in force *)
Theorem C40_float : forall (ar : Arith) (m : machine) (g : gcode), idempotent ar -> sound m -> gcode_wf g -> is_move g -> absolute m -> in_sync m -> no_offsets m ->
  (forall a x, names g a x -> float x) ->
  exists m', gcode_process g m = (m', Ok tt) /\
    (forall a x, has (m_abs m) a -> names g a x -> pos_at m' a x) /\
    (forall a x, (forall y, ~ names g a y) -> pos_at m a x -> pos_at m' a x).
Proof.
  intros ar m g ID S W M A Y O F. destruct (move_pos_exact g m S W M Y) as (m' & E & _ & P1 & P2 & P3).
  - intros a x _ N _. apply back_float; eauto.
  - intros a x _ N I. apply absolute_iff in A. apply is_incremental_iff in I. congruence.
  - intros a y P. apply back_float; auto. eapply pos_at_float; eauto.
  - intros I. apply absolute_iff in A. apply is_incremental_iff in I. congruence.
  - exists m'. split; auto.
Qed.
Print Assumptions C40_float.

(** ** C41 Incremental moves *)
Theorem C41_incremental : forall (m : machine) (g : gcode), sound (ar := exact_arith) m -> gcode_wf (ar := exact_arith) g -> is_move g -> incremental m -> in_sync m ->
  exists m', gcode_process (ar := exact_arith) g m = (m', Ok tt) /\
    (forall a x y, names g a x -> pos_at (ar := exact_arith) m a y -> pos_at (ar := exact_arith) m' a (y + x)%Qc) /\
    (forall a x, (forall y, ~ names g a y) -> pos_at (ar := exact_arith) m a x -> pos_at (ar := exact_arith) m' a x).
Proof.
  intros m g S W M A Y. destruct (move_pos_exact (ar := exact_arith) g m S W M Y) as (m' & E & _ & P1 & P2 & P3); try (intros; apply back_exact).
  - intros _ a y _. rewrite fadd_exact. ring.
  - exists m'. repeat split; auto.
Qed.
Print Assumptions C41_incremental.
Theorem C41_float : forall (ar : Arith) (m : machine) (g : gcode), idempotent ar -> sound m -> gcode_wf g -> is_move g -> incremental m -> in_sync m -> no_offsets m ->
  exists m', gcode_process g m = (m', Ok tt) /\
    (forall a x y, names g a x -> pos_at m a y -> pos_at m' a (fadd y x)) /\
    (forall a x, (forall y, ~ names g a y) -> pos_at m a x -> pos_at m' a x).
Proof.
  intros ar m g ID S W M A Y O. destruct (move_pos_exact g m S W M Y) as (m' & E & _ & P1 & P2 & P3).
  - intros a x _ N I. apply absolute_iff in I. apply is_incremental_iff in A. congruence.
  - intros a x _ N I y P. apply back_float; auto. apply fadd_float; auto.
  - intros a y P. apply back_float; auto. eapply pos_at_float; eauto.
  - intros _ a y P. unfold fadd. replace (y + Q2Qc 0)%Qc with y by ring. exact (pos_at_float m a y ID S P).
  - exists m'. split; auto.
Qed.
Print Assumptions C41_float.
(** a program of incremental moves *)
Theorem C41_program : forall (m : machine) (gs : list gcode), sound (ar := exact_arith) m -> inside m -> Forall (gcode_wf (ar := exact_arith)) gs -> Forall is_move gs -> incremental m -> in_sync m ->
  exists ps m', path (ar := exact_arith) m gs ps m' /\
    forall a x s, pos_at (ar := exact_arith) m a x -> total gs a s -> pos_at (ar := exact_arith) m' a (x + s)%Qc.
Proof.
  intros m gs. revert m. induction gs as [|g gs IH]; intros m S I F M A Y.
  - exists [], m. split; [constructor|]. intros a x s P T. inversion T; subst. replace (x + Q2Qc 0)%Qc with x by ring. auto.
  - inversion F; subst. inversion M; subst. destruct (C41_incremental m g S H1 H3 A Y) as (m1 & E & P1 & P2). destruct (process_keeps (ar := exact_arith) g m S I H1) as [(S1 & I1 & Y1) _]. rewrite E in *. cbn [fst] in *.
    assert (A1 : incremental m1).
    { destruct A as (d & D & X). exists d. split; auto. pose proof S as (_ & _ & _ & _ & _ & MW & _). pose proof (gcode_process_mode (ar := exact_arith) g m MW (proj1 H1)) as MM. rewrite E in MM. cbn [fst] in MM. rewrite MM, effect_other; auto.
      intros [Q|[Q _]]; [|discriminate]. apply move_group in H3. unfold in_group in *. congruence. }
    destruct (IH m1 S1 I1 H2 H4 A1 Y1) as (ps & m2 & P & V). exists (m_abs m1 :: ps), m2. split; [econstructor; eauto|]. intros a x s PA T. inversion T; subst.
    + replace (x + (x0 + s0))%Qc with ((x + x0) + s0)%Qc by ring. apply V; auto.
    + apply V; auto.
Qed.
Print Assumptions C41_program.

(** examples: a machine with offsets, positions as text *)
Definition act_text (s : string) : action := match mk_line (ar := binary64) (t s) with Ok l => Process (bgcodes (lblock l)) (bmodal (lblock l)) | Raise _ => Process [] [] end.
Lemma act_text_fits axes s : fits (ar := binary64) axes (act_text s).
Proof.
  unfold act_text. destruct (mk_line (ar := binary64) (t s)) as [ln|] eqn:L; [|split; constructor]. unfold mk_line in L. destruct (line_parts (t s)) as [[bc mac]|]; cbn [bind] in L; [|discriminate]. destruct (split_line bc) as [bs c]. destruct (mk_block (ar := binary64) true bs) as [b|] eqn:B; cbn [bind] in L; [|discriminate].
  injection L as <-. cbn [lblock fits]. apply (mk_block_wf (ar := binary64) true bs). exact B.
Qed.
Definition val_text (r : result Qc) : text := match r with Ok x => fmt_g false x | Raise _ => t "?" end.
Definition pos_text (m : machine) : list text :=
  match machine_pos (ar := binary64) m with Ok p => map (fun a => val_text (pos_getattr p a)) [AX; AY; AZ] | Raise _ => [] end.
Definition range_text (m : machine) : list text := map (fun a => val_text (pos_getattr (m_min m) a)) [AX; AY; AZ] ++ map (fun a => val_text (pos_getattr (m_max m) a)) [AX; AY; AZ].
Definition after (l : list action) (f : machine -> list text) : result (list text) := rmap (fun m => f (history (ar := binary64) l m)) (default_machine (ar := binary64)).
Definition off (x y z : Z) : position := mk_position xyz UNIT_METRIC [(AX, Qc_of_Z x); (AY, Qc_of_Z y); (AZ, Qc_of_Z z)].
Example C40_ex : after [SetSystem 1 (off 10 20 0); SetOffset (off 0 0 5); act_text "G0 X1 Y2 Z3"; act_text "G1 Y7"] pos_text = Ok [t "1"; t "7"; t "3"]
  /\ after [SetSystem 1 (off 10 20 0); SetOffset (off 0 0 5); act_text "G0 X1 Y2 Z3"; act_text "G1 Y7"] range_text = Ok [t "0"; t "0"; t "0"; t "11"; t "27"; t "8"].
Proof. split; vm_compute; reflexivity. Qed.
Example C41_ex : after [act_text "G0 X1 Y2 Z3"; act_text "G91 G1 X1"; act_text "X1 Y-2"; act_text "Z-1 X-0.5"] pos_text = Ok [t "2.5"; t "0"; t "2"].
Proof. vm_compute. reflexivity. Qed.
Lemma move_ex (g : gcode) : subclass (gcls g) GCodeMotion = true -> subclass (gcls g) GCodeCancelCannedCycle = false -> subclass (gcls g) GCodeDwell = false -> is_move g.
Proof. intros A B C. split; [apply subclass_derives; auto|]. split; apply not_derives; auto. Qed.
Definition named_b (g : gcode) (a : axis) (x : Qc) : bool :=
  existsb (fun kv => letter_eqb (fst kv) (axis_letter a) && match wvalue (snd kv) with VFloat y => Qceqb y x | _ => false end) (gparams g).
Lemma named_names g a x : named_b g a x = true -> names g a x.
Proof.
  intros H. apply existsb_exists in H as ([k w] & I & H). cbn [fst snd] in H. apply andb_true_iff in H as [H1 H2]. apply letter_eqb_eq in H1. subst k. exists w. split; auto. destruct (wvalue w); try discriminate. apply Qceqb_eq in H2. subst. reflexivity.
Qed.
Lemma not_named g a : existsb (fun kv => letter_eqb (fst kv) (axis_letter a)) (gparams g) = false -> forall y, ~ names g a y.
Proof. intros H y (w & I & _). rewrite existsb_false, forallb_forall in H. specialize (H _ I). cbn [fst] in H. rewrite (proj2 (letter_eqb_eq _ _) eq_refl) in H. discriminate. Qed.
Example C40_hyp : is_move (text_gcode "G1 X1 Y2") /\ names (text_gcode "G1 X1 Y2") AX (q1 1 1) /\ (forall y, ~ names (text_gcode "G1 X1 Y2") AZ y).
Proof. split; [apply move_ex; vm_compute; reflexivity|]. split; [apply named_names|apply not_named]; vm_compute; reflexivity. Qed.

(** ** C42 Work and absolute coordinates *)
Theorem C42_work_abs : forall (m : machine) (p : position), sound (ar := exact_arith) m -> good p -> paxes p = m_axes m ->
  exists q, work2abs (ar := exact_arith) m p = Ok q /\ abs2work (ar := exact_arith) m q = Ok p.
Proof.
  intros m p S G A. destruct (work2abs_spec (ar := exact_arith) m p S G A) as (q & E & Gq & Aq & Uq & Vq). exists q. split; auto. destruct (abs2work_spec (ar := exact_arith) m q S Gq Aq) as (r & E' & Gr & Ar & Ur & Vr). rewrite E'. f_equal.
  apply pos_ext; auto; try congruence. intros a Ha. assert (Hp : has p a) by (eapply has_axes; [|exact Ha]; congruence). assert (Hq : has q a) by (eapply has_axes; [|exact Ha]; congruence). rewrite Vr, Vq by auto. apply back_exact.
Qed.
Print Assumptions C42_work_abs.
Theorem C42_abs_work : forall (m : machine) (p : position), sound (ar := exact_arith) m -> good p -> paxes p = m_axes m ->
  exists q, abs2work (ar := exact_arith) m p = Ok q /\ work2abs (ar := exact_arith) m q = Ok p.
Proof.
  intros m p S G A. destruct (abs2work_spec (ar := exact_arith) m p S G A) as (q & E & Gq & Aq & Uq & Vq). exists q. split; auto. destruct (work2abs_spec (ar := exact_arith) m q S Gq Aq) as (r & E' & Gr & Ar & Ur & Vr). rewrite E'. f_equal.
  apply pos_ext; auto; try congruence. intros a Ha. assert (Hp : has p a) by (eapply has_axes; [|exact Ha]; congruence). assert (Hq : has q a) by (eapply has_axes; [|exact Ha]; congruence). rewrite Vr, Vq by auto. unfold apos_of, wpos_of, fadd, fsub. cbn [rnd exact_arith]. ring.
Qed.
Print Assumptions C42_abs_work.
Theorem C42_assign : forall (m : machine) (p : position), sound (ar := exact_arith) m -> good p -> paxes p = m_axes m -> known_unit (punit p) ->
  exists m', set_pos (ar := exact_arith) p m = (m', Ok tt) /\ machine_pos (ar := exact_arith) m' = Ok p.
Proof.
  intros m p S G A U. destruct (set_pos_spec (ar := exact_arith) p m S G A U) as (m' & E & F & S' & U' & V & _). exists m'. split; auto. destruct (machine_pos_spec (ar := exact_arith) m' S') as (q & E' & Gq & Aq & Uq & Vq). rewrite E'. f_equal. pose proof F as (_ & _ & FA & _). pose proof S' as ((_ & Am & _) & _).
  apply pos_ext; auto; try congruence. intros a Ha. assert (Hp : has p a) by (eapply has_axes; [|exact Ha]; congruence). rewrite Vq by (eapply has_axes; [|exact Ha]; congruence). rewrite V by auto.
  destruct (frame_offsets m m' a F) as [O1 O2]. unfold wpos_of. rewrite O1, O2. apply (back_exact m a).
Qed.
Print Assumptions C42_assign.
(** with rounding arithmetic, without offsets *)
Theorem C42_float : forall (ar : Arith) (m : machine) (p : position), idempotent ar -> sound m -> no_offsets m -> good p -> paxes p = m_axes m -> known_unit (punit p) -> (forall a x, pos_getattr p a = Ok x -> float x) ->
  (exists q, work2abs m p = Ok q /\ abs2work m q = Ok p) /\ exists m', set_pos p m = (m', Ok tt) /\ machine_pos m' = Ok p.
Proof.
  intros ar m p ID S O G A U FL. assert (B : forall a, has p a -> back m a (pval p a) = pval p a) by (intros a Ha; apply back_float; auto; apply (FL a); apply getattr_ok; auto). split.
  - destruct (work2abs_spec m p S G A) as (q & E & Gq & Aq & Uq & Vq). exists q. split; auto. destruct (abs2work_spec m q S Gq Aq) as (r & E' & Gr & Ar & Ur & Vr). rewrite E'. f_equal.
    apply pos_ext; auto; try congruence. intros a Ha. assert (Hp : has p a) by (eapply has_axes; [|exact Ha]; congruence). assert (Hq : has q a) by (eapply has_axes; [|exact Ha]; congruence). rewrite Vr, Vq by auto. apply B. auto.
  - destruct (set_pos_spec p m S G A U) as (m' & E & F & S' & U' & V & _). exists m'. split; auto. destruct (machine_pos_spec m' S') as (q & E' & Gq & Aq & Uq & Vq). rewrite E'. f_equal. pose proof F as (_ & _ & FA & _). pose proof S' as ((_ & Am & _) & _).
    apply pos_ext; auto; try congruence. intros a Ha. assert (Hp : has p a) by (eapply has_axes; [|exact Ha]; congruence). rewrite Vq by (eapply has_axes; [|exact Ha]; congruence). rewrite V by auto.
    destruct (frame_offsets m m' a F) as [O1 O2]. unfold wpos_of. rewrite O1, O2. apply (B a). auto.
Qed.
Print Assumptions C42_float.
(** with offsets binary64 does not bring the assigned position back: X = 0.1 in a system with offset 1 *)
Theorem C42_refuted : exists m p x y, reachable (ar := binary64) m /\ good p /\ paxes p = m_axes m /\ pos_getattr p AX = Ok x /\ float (ar := binary64) x /\
  (exists m', set_pos (ar := binary64) p m = (m', Ok tt) /\ pos_at (ar := binary64) m' AX y) /\ x <> y.
Proof.
  set (tenth := rnd (Arith := binary64) (q1 1 10)). set (p := mk_position xyz UNIT_METRIC [(AX, tenth)]).
  destruct (from_default (fun m => let m1 := fst (do_action (ar := binary64) (SetSystem 1 (off 1 0 0)) m) in
      match set_pos (ar := binary64) p m1 with (m', Ok tt) => match machine_pos (ar := binary64) m' with Ok q => match pos_getattr q AX with Ok y => (axset_eqb (m_axes m1) xyz, Qceqb y tenth) | _ => (false, true) end | _ => (false, true) end | _ => (false, true) end) (true, false)) as (m & D & E); [vm_compute; reflexivity|].
  cbv zeta in E. set (m1 := fst (do_action (ar := binary64) (SetSystem 1 (off 1 0 0)) m)) in *.
  destruct (set_pos (ar := binary64) p m1) as [m' [[]|]] eqn:SP; [|discriminate]. destruct (machine_pos (ar := binary64) m') as [q|] eqn:MP; [|discriminate]. destruct (pos_getattr q AX) as [y|] eqn:Y; [|discriminate].
  injection E as E1 E2. exists m1, p, tenth, y. apply axset_eqb_eq in E1. split; [|split; [|split; [|split; [|split; [|split]]]]].
  - exists xyz, false, default_mode_lines, m, [SetSystem 1 (off 1 0 0)]. split; [exact D|]. split; [|reflexivity]. constructor; [|constructor]. split; [|reflexivity]. apply mk_position_good. intros a x [I|[I|[I|[]]]]; injection I as <- <-; reflexivity.
  - apply mk_position_good. intros a x [I|[]]. injection I as <- <-. reflexivity.
  - rewrite E1. reflexivity.
  - reflexivity.
  - unfold float, tenth. apply binary64_idempotent.
  - exists m'. split; auto. exists q. auto.
  - intros X. rewrite <- X in E2. rewrite (proj2 (Qceqb_eq tenth tenth) eq_refl) in E2. discriminate.
Qed.
Print Assumptions C42_refuted.
Example C42_ex : after [SetSystem 1 (off 10 20 0); SetOffset (off 0 0 5); SetPos (off 1 2 3)] pos_text = Ok [t "1"; t "2"; t "3"].
Proof. vm_compute. reflexivity. Qed.

(** ** C43 The recorded range *)
Theorem C43_box : forall (ar : Arith) (m m' : machine) (gs : list gcode) (ps : list position), monotone ar -> sound m -> inside m -> Forall gcode_wf gs -> path m gs ps m' ->
  forall a, has (m_abs m) a -> exists lo hi lo0 hi0, pos_getattr (m_min m') a = Ok lo /\ pos_getattr (m_max m') a = Ok hi /\ pos_getattr (m_min m) a = Ok lo0 /\ pos_getattr (m_max m) a = Ok hi0 /\
    (lo <= lo0)%Qc /\ (hi0 <= hi)%Qc /\
    (forall p, In p (m_abs m :: ps) -> exists x, pos_getattr p a = Ok x /\ punit p = punit (m_abs m) /\ (lo <= x)%Qc /\ (x <= hi)%Qc) /\
    (lo = lo0 \/ exists p, In p ps /\ pos_getattr p a = Ok lo) /\ (hi = hi0 \/ exists p, In p ps /\ pos_getattr p a = Ok hi).
Proof.
  intros ar m m' gs ps M S I F P a Ha. destruct (path_box m gs ps m' M P S I F a Ha) as (H1 & H2 & B & L & H & AL & AH). pose proof S as (_ & (_ & Hm & _) & (_ & Hx & _) & _).
  exists (pval (m_min m') a), (pval (m_max m') a), (pval (m_min m) a), (pval (m_max m) a). do 4 (split; [apply getattr_ok; auto|]). split; auto. split; auto. split; [|split].
  - intros p [<-|Ip].
    + destruct (inside_val m a S I Ha). exists (pval (m_abs m) a). split; [apply getattr_ok; auto|]. split; auto. split; eapply Qcle_trans; eauto.
    + destruct (B p Ip) as (X1 & X2 & X3 & X4). exists (pval p a). split; [apply getattr_ok; auto|]. auto.
  - destruct AL as [AL|(p & Ip & AL)]; auto. right. exists p. split; auto. apply getattr_ok. split; auto. apply B; auto.
  - destruct AH as [AH|(p & Ip & AH)]; auto. right. exists p. split; auto. apply getattr_ok. split; auto. apply B; auto.
Qed.
Print Assumptions C43_box.
(** from a new machine, running a program: both bounds are attained *)
Theorem C43_new : forall (ar : Arith) (axes : axset) (ignore : bool) (lines : list text) (m m' : machine) (bs : list block) (gs : list gcode), monotone ar ->
  new_machine axes ignore lines = Ok m -> Forall gcode_wf gs -> runs m bs gs m' ->
  exists ps, path m gs ps m' /\ forall a, vget axes a = true -> exists lo hi, pos_getattr (m_min m') a = Ok lo /\ pos_getattr (m_max m') a = Ok hi /\
    (forall p, In p (m_abs m :: ps) -> exists x, pos_getattr p a = Ok x /\ (lo <= x)%Qc /\ (x <= hi)%Qc) /\
    (exists p, In p (m_abs m :: ps) /\ pos_getattr p a = Ok lo) /\ (exists p, In p (m_abs m :: ps) /\ pos_getattr p a = Ok hi).
Proof.
  intros ar axes ignore lines m m' bs gs M N F R. destruct (new_machine_sound axes ignore lines m N) as (S & I & _ & A & _). destruct (runs_path m bs gs m' R) as [ps P]. exists ps. split; auto.
  intros a Ha. destruct (C34_origin ar axes ignore lines m N) as (_ & _ & _ & E1 & E2 & _). destruct (C43_box ar m m' gs ps M S I F P a) as (lo & hi & lo0 & hi0 & L & H & L0 & H0 & _ & _ & B & AL & AH); [apply sound_axes; auto; rewrite A; auto|].
  exists lo, hi. split; auto. split; auto. split; [|split].
  - intros p Ip. destruct (B p Ip) as (x & X1 & _ & X2). eauto.
  - destruct AL as [->|(p & Ip & AL)]; [exists (m_abs m); split; [left; auto|rewrite <- E1; auto]|exists p; split; [right; auto|auto]].
  - destruct AH as [->|(p & Ip & AH)]; [exists (m_abs m); split; [left; auto|rewrite <- E2; auto]|exists p; split; [right; auto|auto]].
Qed.
Print Assumptions C43_new.
Example C43_ex : after [act_text "G0 X5 Y-3"; act_text "G91 G81 X2 Y1 Z-4 R1 L3"; act_text "G80"; act_text "G90 G0 Z7 X0"] range_text = Ok [t "0"; t "-3"; t "0"; t "11"; t "0"; t "7"].
Proof. vm_compute. reflexivity. Qed.

(** ** C44 Only motion gcodes move the machine *)
Theorem C44_still : forall (ar : Arith) (m : machine) (g : gcode), sound m -> gcode_wf g -> ~ is_move g -> ~ is_canned g ->
  exists m', gcode_process g m = (m', Ok tt) /\ m_abs m' = m_abs m /\ m_min m' = m_min m /\ m_max m' = m_max m /\
    coord_systems (m_state m') = coord_systems (m_state m) /\ st_offset (m_state m') = st_offset (m_state m).
Proof.
  intros ar m g S W NM NC. rewrite <- kind_move in NM. rewrite <- kind_canned in NC. rewrite process_own by (auto; apply W). unfold gcode_process_own. destruct (set_for_pos m g) as (P1 & P2 & P3 & _). destruct (set_for_state m g) as (C1 & C2).
  destruct (process_kind (gcls g)); try contradiction; eexists; (split; [reflexivity|]); cbn [with_mode m_abs m_min m_max m_state]; auto.
Qed.
Print Assumptions C44_still.
Example C44_ex : ~ is_move (text_gcode "G92") /\ ~ is_canned (text_gcode "G92") /\ ~ is_move (text_gcode "G4 P1") /\ ~ is_move (text_gcode "G80 X1").
Proof.
  split; [intros [M _]; apply subclass_derives in M; vm_compute in M; discriminate|]. split; [intros M; apply subclass_derives in M; vm_compute in M; discriminate|]. split.
  - intros (_ & _ & M). apply M. apply subclass_derives. vm_compute. reflexivity.
  - intros (_ & M & _). apply M. unfold is_g80. apply subclass_derives. vm_compute. reflexivity.
Qed.

(** ** C45 Selecting a coordinate system *)
Theorem C45_select : forall (ar : Arith) (m : machine) (g : gcode) (i : Z), sound m -> gcode_wf g -> In (gcls g, i) systems ->
  exists m' d p, gcode_process g m = (m', Ok tt) /\ m_abs m' = m_abs m /\ m_min m' = m_min m /\ m_max m' = m_max m /\
    coord_systems (m_state m) = CSDict d /\ coord_systems (m_state m') = CSDict d /\ dget Z.eqb d i = Some p /\ st_offset (m_state m') = st_offset (m_state m) /\ cur_coord_sys (m_state m') = Some i /\
    forall a x o s, pos_getattr (m_abs m) a = Ok x -> pos_getattr p a = Ok o -> pos_getattr (st_offset (m_state m)) a = Ok s -> pos_at m' a (fsub (fsub x o) s).
Proof.
  intros ar m g i S W I. apply systems_spec in I as (ID & G & K & B). rewrite process_own by (auto; apply W). unfold gcode_process_own. rewrite K. destruct (set_for_pos m g) as (P1 & P2 & P3 & P4 & _). destruct (set_for_state m g) as (C1 & C2).
  pose proof (set_for_sound m g S W) as S1. pose proof S as (_ & _ & _ & _ & (d & D & KD & PD) & _).
  assert (L : exists p, dget Z.eqb d i = Some p).
  { destruct (dget Z.eqb d i) as [p|] eqn:E; [eauto|]. exfalso. apply (dget_none _ _ _ Z.eqb_eq) in E. apply E. rewrite KD. cbn [In]. lia. }
  destruct L as [p L]. exists (set_for m g), d, p. assert (CC : cur_coord_sys (m_state (set_for m g)) = Some i) by (apply set_for_cur; auto).
  do 4 (split; auto). split; auto. split; [congruence|]. split; auto. split; auto. split; auto. intros a x o s X O T. apply getattr_ok in X as [Ha ->]. apply getattr_ok in O as [_ ->]. apply getattr_ok in T as [_ ->].
  apply pos_at_iff; auto. rewrite P1. split; auto. unfold wpos_of, system_offset, temp_offset. rewrite C1, C2, D, CC, L. auto.
Qed.
Print Assumptions C45_select.
Example C45_ex : after [SetSystem 2 (off 10 20 0); SetSystem 9 (off 100 0 0); SetOffset (off 0 0 5); act_text "G0 X1 Y2 Z3"; act_text "G55"] pos_text = Ok [t "-9"; t "-18"; t "3"]
  /\ after [SetSystem 2 (off 10 20 0); SetSystem 9 (off 100 0 0); SetOffset (off 0 0 5); act_text "G0 X1 Y2 Z3"; act_text "G59.3"] pos_text = Ok [t "-99"; t "2"; t "3"].
Proof. split; vm_compute; reflexivity. Qed.
