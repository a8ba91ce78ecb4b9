(** Lemmas for C97: drilling cycles replaced by moves, in floating point and as printed. *)
From Coq Require Import Ascii String List Bool Arith ZArith QArith Qcanon Qabs Permutation Lia Lqa.
From Verif Require Import Base Num Words GTable GCode Line Position Machine Transform BaseFacts NumFacts WordOrder ArithSpec WordsSpec LineSpec PrintSpec PrintProofs PrintProofs2 PropsPrint GCodeSpec GCodeProofs GCodeProofs2 PropsGCode BlockSpec BlockProofs Float64 PosSpec PosProofs ModeSpec ModeProofs MachSpec MachProofs MachProofs2 MachProofs3 PropsMach CannedProofs PropsCanned PropsMach2 SimSpec TransSpec TransProofs TransProofs2 ReadBackProofs
  DrillSpec DrillProofs DrillProofs2 DrillProofs3 DrillProofs4 PropsDrill Scripts ScriptArgs ScriptsSpec ScriptsSpec2 ScriptsSpec3 ScriptsSpec5 ScriptsSpec6 ScriptsSpec8 ScriptsSpec11 ScriptsProofs ScriptsProofs4 ScriptsProofs7 ScriptsProofs8 ScriptsProofs12 ScriptsProofs13 FloatArc FloatArcSpec FloatArcProofs FloatArcProofs2 ScriptsProofs16.
Import ListNotations.
Local Open Scope nat_scope.

Section WithArith.
Context {ar : Arith} (acc : accurate ar) (LA : laws).
Let ID : idempotent ar := proj1 (proj2 LA).
(** ** a number as it is read back, up to 999 *)
Definition rho (z : Qc) : Qc := rnd (thousandths (rhe (this z * 1000))).
Lemma rho_reads l (z : Qc) : letter_kind l = KFloat -> (Qabs z <= 999)%Q -> reads_as (Word l (VFloat z)) (Word l (VFloat (rho z))).
Proof.
  intros K B. split; [reflexivity|]. split; [|intros x E; discriminate E]. destruct (float_prints acc l z K ltac:(eapply Qle_trans; [exact B|discriminate])) as (s & d & E & V1 & V2 & _ & _ & X0 & _).
  assert (JB : (Z.abs (rhe (this z * 1000)) < 10 ^ 6)%Z). { pose proof (PrintProofs2.rhe_bound (this z) 999 B) as H. lia. }
  rewrite (X0 JB) in V2. rewrite E. apply single_reads; auto. rewrite K; auto.
Qed.
Lemma rho_mono x y : (x <= y)%Qc -> (rho x <= rho y)%Qc.
Proof.
  intros H. apply (proj1 LA). unfold Qcle, thousandths. rewrite !this_frac. assert (J : (rhe (this x * 1000) <= rhe (this y * 1000))%Z) by (apply rhe_mono; unfold Qcle in H; lra). unfold Qle. cbn. lia.
Qed.
Lemma rho_float z : float (rho z). Proof. apply ID. Qed.
Lemma reads_unique w a b : reads_as w a -> reads_as w b -> a = b.
Proof. intros (_ & A & _) (_ & B & _). rewrite A in B. injection B. auto. Qed.
Lemma rho_same l (z : Qc) : letter_kind l = KFloat -> (Qabs z <= 999)%Q -> readable (Word l (VFloat z)) -> rho z = z.
Proof. intros K B R. pose proof (reads_unique _ _ _ (rho_reads l z K B) (readable_reads _ R)) as E. injection E. auto. Qed.
(** ** places *)
Definition lift (v : where_) : where_ := match vget v AZ with Some z => with_z v (rho z) | None => v end.
Definition lifted (s : spot) : spot := (fst s, lift (snd s)).
Lemma lift_height v z : height v z -> lift v = with_z v (rho z).
Proof. unfold height, lift. intros ->. reflexivity. Qed.
Lemma lift_with v z : lift (with_z v z) = with_z v (rho z).
Proof. rewrite (lift_height _ z) by apply with_z_height. apply with_z_twice. Qed.
Lemma lift_xy v x y : lift (with_xy v x y) = with_xy (lift v) x y.
Proof. unfold lift. assert (E : vget (with_xy v x y) AZ = vget v AZ) by (unfold with_xy; rewrite !vget_vset; reflexivity). rewrite E. destruct (vget v AZ); [symmetry; apply with_xy_z|reflexivity]. Qed.
Lemma lift_other v a : a <> AZ -> vget (lift v) a = vget v a.
Proof. intros N. unfold lift. destruct (vget v AZ); auto. apply with_z_vertical. auto. Qed.
Lemma lift_known v : known v -> known (lift v).
Proof. intros K. unfold lift. destruct (vget v AZ); auto. apply known_z. auto. Qed.
Lemma lift_same v z : height v z -> rho z = z -> lift v = v.
Proof. intros H E. rewrite (lift_height v z H), E. apply with_z_same. auto. Qed.
(** ** safety does not suffer from printing *)
Lemma lift_vertical v v' : vertical v v' -> vertical (lift v) (lift v').
Proof. intros H a N. rewrite !lift_other by auto. apply H. auto. Qed.
Lemma lift_at v z : height v z -> height (lift v) (rho z).
Proof. intros H. rewrite (lift_height v z H). apply with_z_height. Qed.
Lemma safe_lift r d v f l : safe r d v f l -> safe (rho r) (rho d) (lift v) (rho f) (map lifted l).
Proof.
  induction 1 as [v f|v f c v' z l D V H B S IH|v f c v' z l D H H' B S IH|v f c v' z z' l D V H H' B B' S IH]; cbn [map]; try change (lifted (c, v')) with (c, lift v').
  - constructor.
  - eapply safe_rapid with (z := rho z); auto using lift_vertical, lift_at, rho_mono.
  - eapply safe_side with (z := rho z); auto using lift_at, rho_mono.
  - eapply safe_feed with (z := rho z) (z' := rho z'); auto using lift_vertical, lift_at, rho_mono.
    replace (if Qcltb (rho z') (rho f) then rho z' else rho f) with (rho (if Qcltb z' f then z' else f)); [exact IH|]. destruct (Qcltb z' f) eqn:E.
    + apply Qcltb_lt in E. destruct (Qcltb (rho z') (rho f)) eqn:E'; auto. apply Qcltb_ge in E'. apply Qcle_antisym; auto. apply rho_mono. apply Qclt_le_weak. auto.
    + apply Qcltb_ge in E. destruct (Qcltb (rho z') (rho f)) eqn:E'; auto. apply Qcltb_lt in E'. apply rho_mono in E. apply Qcle_not_lt in E. contradiction.
Qed.
(** ** the moves of the expansion and what is read back *)
Definition dmove (h : gcode) : Prop :=
  (exists z, (h = rz z \/ h = lz z) /\ (Qabs (this z) <= 999)%Q) \/ exists x y, h = rxy x y /\ readable (Word LX (VFloat x)) /\ readable (Word LY (VFloat y)).
Definition as_read (h : gcode) : gcode := MkGCode (gcls h) (gword h) (map (fun kv => match snd kv with Word LZ (VFloat z) => (fst kv, Word LZ (VFloat (rho z))) | _ => kv end) (gparams h)) (gwhite h).
Lemma move_words : readable (gword (rz (Q2Qc 0))) /\ readable (gword (lz (Q2Qc 0))).
Proof.
  split; (split; [|intros x E; discriminate E]).
  - change (gword (rz (Q2Qc 0))) with (Word LG (VFloat (rnd (Qc_of_Z 0)))). replace (Qc_of_Z 0) with (tenths 0) by (apply Qceqb_eq; reflexivity). apply (code_survives acc); [reflexivity|lia].
  - change (gword (lz (Q2Qc 0))) with (Word LG (VFloat (rnd (Qc_of_Z 1)))). replace (Qc_of_Z 1) with (tenths 10) by (apply Qceqb_eq; reflexivity). apply (code_survives acc); [reflexivity|lia].
Qed.
Lemma z_read c w (z : Qc) : readable w -> (Qabs z <= 999)%Q -> let h := MkGCode c w [(LZ, Word LZ (VFloat z))] false in read_move h (as_read h).
Proof. intros R B h. do 3 (split; [reflexivity|]). split; [exact R|]. constructor; [|constructor]. split; [reflexivity|]. apply rho_reads; auto. Qed.
Lemma dmove_read h : dmove h -> read_move h (as_read h).
Proof.
  destruct move_words as [W0 W1]. intros [(z & [->| ->] & B)|(x & y & -> & X & Y)]; [apply (z_read _ _ z W0 B)|apply (z_read _ _ z W1 B)|].
  do 3 (split; [reflexivity|]). split; [exact W0|]. cbn [gparams rxy as_read map snd]. constructor; [|constructor; [|constructor]]; (split; [reflexivity|]); apply readable_reads; auto.
Qed.
Lemma read_params (ps : dict letter word) : forall qs qs' : dict letter word, Forall2 (fun a b => fst b = fst a /\ reads_as (snd a) (snd b)) ps qs -> Forall2 (fun a b => fst b = fst a /\ reads_as (snd a) (snd b)) ps qs' -> qs = qs'.
Proof.
  induction ps as [|[k w] ps IH]; intros qs qs' A B; inversion A as [|? [k1 w1] ? ? [A1 A2] A3]; inversion B as [|? [k2 w2] ? ? [B1 B2] B3]; subst; auto. cbn [fst snd] in *. subst k1 k2. rewrite (reads_unique _ _ _ A2 B2). f_equal. auto.
Qed.
Lemma read_unique h a b : read_move h a -> read_move h b -> a = b.
Proof. intros (A1 & A2 & A3 & _ & A4) (B1 & B2 & B3 & _ & B4). destruct a, b. cbn in A1, A2, A3, A4, B1, B2, B3, B4. rewrite (read_params _ _ _ A4 B4). congruence. Qed.
Lemma reads_all gs : Forall dmove gs -> Forall2 read_move gs (map as_read gs).
Proof. induction 1; cbn [map]; constructor; auto using dmove_read. Qed.
Lemma reads_only gs gs' : Forall dmove gs -> Forall2 read_move gs gs' -> gs' = map as_read gs.
Proof. intros F R. induction R as [|h h' gs gs' H R IH]; cbn [map]; auto. inversion F; subst. f_equal; auto. eapply read_unique; [exact H|]. apply dmove_read. auto. Qed.
Lemma dmove_moves h v : dmove h -> known v -> moved_abs (as_read h) (lift v) = lift (moved_abs h v) /\ known (moved_abs h v).
Proof.
  intros D K. pose proof (lift_known v K) as K'. destruct K' as (KX & KY & KZ). destruct K as (X & Y & Z). destruct D as [(z & [->| ->] & _)|(x & y & -> & _)].
  - change (as_read (rz z)) with (rz (rho z)). unfold rz. rewrite !moved_z by auto. rewrite lift_with. split; [|apply known_z; repeat split; auto]. unfold lift. destruct (vget v AZ); [apply with_z_twice|reflexivity].
  - change (as_read (lz z)) with (lz (rho z)). unfold lz. rewrite !moved_z by auto. rewrite lift_with. split; [|apply known_z; repeat split; auto]. unfold lift. destruct (vget v AZ); [apply with_z_twice|reflexivity].
  - change (as_read (rxy x y)) with (rxy x y). rewrite !moved_xy by auto. split; [symmetry; apply lift_xy|apply known_xy; repeat split; auto].
Qed.
Lemma read_path gs : Forall dmove gs -> forall v, known v -> apath (lift v) (map as_read gs) = map lifted (apath v gs) /\ aend (lift v) (map as_read gs) = lift (aend v gs).
Proof.
  induction 1 as [|h gs D F IH]; intros v K; cbn [map apath aend]; auto. destruct (dmove_moves h v D K) as [E K1]. rewrite E. destruct (IH _ K1) as [A B]. rewrite A, B. split; auto.
Qed.
Lemma z_wf c w (z : Qc) : word_gcode_class w = Some c -> word_wf w -> In LZ (param_letters c) -> gcode_wf (MkGCode c w [(LZ, Word LZ (VFloat z))] false).
Proof.
  intros P W A. split; [split; [constructor; [split; [reflexivity|exact A]|constructor]|constructor; [intros []|constructor]]|]. split; [exact P|]. split; [exact W|]. constructor; [exact I|constructor].
Qed.
Lemma rz_wf_f z : gcode_wf (rz z). Proof. apply z_wf; [exact (g00_class acc)|exact I|apply accepts_iff; reflexivity]. Qed.
Lemma lz_wf_f z : gcode_wf (lz z). Proof. apply z_wf; [exact (proj1 (proj2 (g1_wf acc (FV z z z))))|exact I|apply accepts_iff; reflexivity]. Qed.
Lemma rxy_wf_f x y : gcode_wf (rxy x y).
Proof.
  split; [split; [constructor; [split; [reflexivity|apply accepts_iff; reflexivity]|constructor; [split; [reflexivity|apply accepts_iff; reflexivity]|constructor]]|constructor; [intros [X|[]]; discriminate X|constructor; [intros []|constructor]]]|].
  split; [exact (g00_class acc)|]. split; [exact I|]. constructor; [exact I|constructor; [exact I|constructor]].
Qed.
Lemma dmove_form h : dmove h -> straight h /\ gparams h <> [] /\ gcode_wf h /\ gwhite h = false.
Proof.
  intros [(z & [->| ->] & _)|(x & y & -> & _)]; (split; [(left; apply der_self) || (right; apply der_self)|]); (split; [discriminate|]); (split; [|reflexivity]); [apply rz_wf_f|apply lz_wf_f|apply rxy_wf_f].
Qed.
Definition plain_f (g : gcode) : Prop := gcode_wf g /\ straight g.
Lemma as_read_form h : dmove h -> plain_f (as_read h) /\ forall a x, names (as_read h) a x -> float x.
Proof.
  intros D. split.
  - destruct D as [(z & [->| ->] & _)|(x & y & -> & _)]; [split; [apply (rz_wf_f (rho z))|left; apply der_self]|split; [apply (lz_wf_f (rho z))|right; apply der_self]|split; [apply rxy_wf_f|left; apply der_self]].
  - intros a x (w & I & V). destruct D as [(z & [->| ->] & _)|(x0 & y0 & -> & X & Y)]; cbn in I.
    + destruct I as [I|[]]. injection I as E <-. cbn in V. injection V as <-. apply rho_float.
    + destruct I as [I|[]]. injection I as E <-. cbn in V. injection V as <-. apply rho_float.
    + destruct I as [I|[I|[]]]; injection I as E <-; cbn in V; injection V as <-; [apply (survives_float LX)|apply (survives_float LY)]; auto; [apply X|apply Y].
Qed.
(** *** the heights *)
Lemma near_top (x : Qc) : (Qabs x <= 998)%Q -> (Qabs x <= 999)%Q. Proof. intros H. lra. Qed.
Lemma between_bound (lo hi z : Qc) : (Qabs lo <= 999)%Q -> (Qabs hi <= 999)%Q -> (lo <= z)%Qc -> (z <= hi)%Qc -> (Qabs z <= 999)%Q.
Proof. intros A B C D. apply Qabs_bounds in A, B. apply Qabs_bounds. unfold Qcle in *. split; lra. Qed.
Lemma half_up (r : Qc) : (Qabs r <= 998)%Q -> (fadd r (flit 5 10) <= frac 999 1)%Qc.
Proof.
  intros H. apply Qabs_bounds in H. pose proof (proj2 acc) as A. pose proof (proj1 LA) as M. unfold fadd, flit.
  assert (R0 : (this (rnd (frac 5 10)) <= 6 # 10)%Q).
  { pose proof (A (frac 5 10)) as A1. rewrite this_sub in A1. rewrite !this_frac in A1. assert (E40 : forall x, (x / (2 ^ 40) == x * (1 # 1099511627776))%Q) by (intros; reflexivity). rewrite E40 in A1. change (Qabs (5 # 10)) with (5 # 10)%Q in A1. specialize (A1 ltac:(discriminate)). apply Qabs_bounds in A1. lra. }
  apply Qcle_trans with (rnd (frac 9986 10)); [apply M; unfold Qcle; rewrite this_add, this_frac; lra|]. unfold Qcle. rewrite this_frac.
  pose proof (A (frac 9986 10)) as A1. rewrite this_sub in A1. rewrite !this_frac in A1. assert (E40 : forall x, (x / (2 ^ 40) == x * (1 # 1099511627776))%Q) by (intros; reflexivity). rewrite E40 in A1. change (Qabs (9986 # 10)) with (9986 # 10)%Q in A1. specialize (A1 ltac:(discriminate)). apply Qabs_bounds in A1. lra.
Qed.
Lemma big_frac : (Qabs (this (frac 999 1)) <= 999)%Q. Proof. vm_compute. discriminate. Qed.
Lemma z_dmove (z : Qc) : (Qabs z <= 999)%Q -> dmove (rz z) /\ dmove (lz z). Proof. intros B. split; left; eauto. Qed.
Lemma pre_dmoves (b : bool) (z : Qc) : (b = true -> (Qabs z <= 999)%Q) -> Forall dmove (if b then [rz z] else []).
Proof. destruct b; intros H; constructor; auto. apply z_dmove. auto. Qed.
Lemma bores_dmoves chip (r d delta c : Qc) gs : bores chip r d delta c gs -> float c -> (delta <= Q2Qc 0)%Qc -> (d <= c)%Qc -> (c <= r)%Qc -> (Qabs r <= 998)%Q -> (Qabs d <= 998)%Q -> Forall dmove gs.
Proof.
  induction 1 as [c E|c c' gs E L B IH]; intros Fc D H1 H2 BR BD.
  - assert (UP := fadd_up LA c 1 10 Fc ltac:(lia)). apply Forall_app. split.
    + apply pre_dmoves. intros Q. apply Qcltb_lt in Q. apply (between_bound d r); auto using near_top, Qclt_le_weak. eapply Qcle_trans; [exact H1|exact UP].
    + constructor; [|constructor]. apply z_dmove. auto using near_top.
  - assert (UP := fadd_up LA c 1 10 Fc ltac:(lia)). assert (DN : (c' <= c)%Qc) by (rewrite E; apply fadd_down; auto). assert (Fc' : float c') by (rewrite E; apply fadd_float; auto). assert (CR : (c' <= r)%Qc) by (eapply Qcle_trans; eauto). apply Forall_app. split; [|apply Forall_app; split].
    + apply pre_dmoves. intros Q. apply Qcltb_lt in Q. apply (between_bound d r); auto using near_top, Qclt_le_weak. eapply Qcle_trans; [exact H1|exact UP].
    + constructor; [|constructor; [|constructor]].
      * apply z_dmove. apply (between_bound d r); auto using near_top, Qclt_le_weak.
      * apply z_dmove. destruct chip; [|auto using near_top]. apply (between_bound d (frac 999 1)); auto using near_top, big_frac.
        -- apply Qcle_trans with c'; [apply Qclt_le_weak; auto|]. apply (fadd_up LA); auto. lia.
        -- apply Qcle_trans with (fadd r (flit 5 10)); [|apply half_up; auto]. unfold fadd. apply (proj1 LA). clear - CR. qcl.
    + apply IH; auto using Qclt_le_weak.
Qed.
Lemma drilled_dmoves chip (r d delta z0 sz : Qc) X Y i n gs : drilled chip r d delta z0 sz X Y i n gs -> float r -> (delta <= Q2Qc 0)%Qc -> (d <= r)%Qc -> (Qabs r <= 998)%Q -> (Qabs d <= 998)%Q -> (Qabs sz <= 998)%Q ->
  (forall k, readable (Word LX (VFloat (X k))) /\ readable (Word LY (VFloat (Y k)))) -> Forall dmove gs.
Proof.
  induction 1 as [i|i n bs gs B H IH]; intros F D DR BR BD BS XY; [constructor|]. apply Forall_app. split; [apply pre_dmoves; auto using near_top|]. constructor; [right; exists (X i), (Y i); split; [reflexivity|apply XY]|].
  apply Forall_app. split; [apply pre_dmoves; auto using near_top|]. apply Forall_app. split; [eapply bores_dmoves; eauto using Qcle_refl|]. constructor; [apply z_dmove; auto using near_top|auto].
Qed.
(** ** machines *)
Definition floating (m : machine) : Prop := forall a, has (m_abs m) a -> float (pval (m_abs m) a).
Lemma straight_mover g : straight g -> mover g.
Proof. intros T. split; [apply straight_iff, straight_class in T; apply T|exact (move_group g (straight_move g T))]. Qed.
Lemma no_offsets_same m m1 : m_state m1 = m_state m -> no_offsets m -> no_offsets m1.
Proof. intros E O a. unfold system_offset, temp_offset. rewrite E. apply O. Qed.
Lemma step_f g m v : ready m -> absolute m -> no_offsets m -> place m v -> plain_f g -> (forall a x, names g a x -> float x) ->
  exists m1, gcode_process g m = (m1, Ok tt) /\ ready m1 /\ absolute m1 /\ no_offsets m1 /\ MachProofs2.keeps m m1 /\ m_state m1 = m_state m /\ (forall mg, mg <> MG_motion -> gm_get (m_mode m1) mg = gm_get (m_mode m) mg) /\
    floating m1 /\ place m1 (moved_abs g v).
Proof.
  intros R A O P [W T] F. pose proof R as (S & I & Y). destruct (mover_step g m R W (straight_mover g T) A) as (m1 & E & R1 & K1 & T1 & M1 & V1). exists m1. pose proof R1 as (S1 & _). pose proof K1 as (X & _).
  repeat (split; [solve [eauto using absolute_kept, no_offsets_same]|]). assert (HS : forall a, has (m_abs m1) a <-> has (m_abs m) a) by (intros a; apply (same_axes_has m m1); auto). split.
  - intros a Ha. apply HS in Ha. destruct (V1 a Ha) as [V11 V12]. destruct (axis_value g a) as [y|] eqn:V; [apply axis_value_iff in V; auto; rewrite (V11 y V); apply ID|]. rewrite V12 by (apply axis_value_none; auto). apply ID.
  - destruct (C40_float ar m g ID S W (straight_move g T) A Y O F) as (m' & E' & P1 & P2). rewrite E in E'. injection E' as <-. apply place_intro; auto.
    + intros a Ha. apply HS in Ha. unfold moved_abs. rewrite vget_vfun. destruct (proj2 (place_has m v a S P) Ha) as [x X0]. rewrite X0. destruct (axis_value g a) as [y|] eqn:V; [apply axis_value_iff in V; auto; eauto|].
      exists x. split; auto. apply P2; [apply axis_value_none; auto|]. apply (place_at m v S P). auto.
    + intros a Ha. rewrite HS in Ha. unfold moved_abs. rewrite vget_vfun. destruct (vget v a) eqn:Q; auto. exfalso. apply Ha. apply (place_has m v a S P). eauto.
Qed.
Lemma run_f gs : Forall (fun g => plain_f g /\ forall a x, names g a x -> float x) gs -> forall m v, ready m -> absolute m -> no_offsets m -> place m v -> exists ms, passes m gs ms /\ Forall2 (fun n (s : spot) => place n (snd s)) ms (apath v gs) /\
  let m1 := last ms m in ready m1 /\ absolute m1 /\ no_offsets m1 /\ MachProofs2.keeps m m1 /\ m_state m1 = m_state m /\ (forall mg, mg <> MG_motion -> gm_get (m_mode m1) mg = gm_get (m_mode m) mg) /\ (gs <> [] -> floating m1) /\ place m1 (aend v gs).
Proof.
  induction 1 as [|g gs [PG FG] F IH]; intros m v R A O P; cbn [apath aend].
  - exists []. split; [constructor|]. split; [constructor|]. cbn [last]. repeat (split; [solve [auto using MachProofs2.keeps_refl|intros H; contradiction]|]). auto.
  - destruct (step_f g m v R A O P PG FG) as (m1 & E & R1 & A1 & O1 & K1 & T1 & M1 & F1 & P1). destruct (IH m1 _ R1 A1 O1 P1) as (ms & PS & FS & R2 & A2 & O2 & K2 & T2 & M2 & F2 & P2). exists (m1 :: ms). split; [econstructor; eauto|]. split; [constructor; auto|]. rewrite last_cons. cbn zeta in *.
    split; auto. split; auto. split; auto. split; [eapply MachProofs2.keeps_trans; eauto|]. split; [congruence|]. split; [intros mg N; rewrite M2, M1; auto|]. split; auto. intros _. destruct gs as [|h hs]; [|apply F2; discriminate]. inversion PS; subst. exact F1.
Qed.
Lemma same_abs_f m1 m2 v : sound m1 -> sound m2 -> no_offsets m1 -> no_offsets m2 -> m_axes m1 = m_axes m2 -> punit (m_abs m1) = punit (m_abs m2) -> floating m1 -> floating m2 -> place m1 v -> place m2 v -> m_abs m1 = m_abs m2.
Proof.
  intros S1 S2 O1 O2 AX U F1 F2 P1 P2. pose proof S1 as ((G1 & A1 & _) & _). pose proof S2 as ((G2 & A2 & _) & _). apply pos_ext; auto; [congruence|]. intros a Ha.
  assert (H2 : has (m_abs m2) a) by (unfold has in *; rewrite A2, <- AX, <- A1; auto). pose proof Ha as Ha'. apply (place_has m1 v a S1 P1) in Ha' as [x V].
  assert (B1 := proj2 (place_at m1 v S1 P1 a x) V). assert (B2 := proj2 (place_at m2 v S2 P2 a x) V). apply pos_at_iff in B1 as [_ B1]; auto. apply pos_at_iff in B2 as [_ B2]; auto.
  rewrite (wpos_plain m1 a _ ID O1), (F1 a Ha) in B1. rewrite (wpos_plain m2 a _ ID O2), (F2 a H2) in B2. congruence.
Qed.
Lemma canned_floating g m b n : sound m -> gcode_wf g -> is_canned g -> normal m b -> has (m_abs m) b -> loops g n -> ~ returns_to_r m -> floating (fst (gcode_process g m)).
Proof.
  intros S W C NM Hb LO NR. destruct (canned_moves g m b n S W C NM Hb LO (fun R => False_ind _ (NR R))) as (m' & cs & E & NP & (F & S' & U & V & _) & _). rewrite E. cbn [fst]. intros a Ha.
  destruct (set_for_pos m g) as (A1 & _ & _ & X1 & _). pose proof (set_for_sound m g S W) as SS. assert (H1 : has (m_abs (set_for m g)) a). { rewrite A1. destruct F as (_ & _ & AXE & _). apply (same_axes_has m m'); auto. congruence. }
  rewrite (V a H1). destruct n as [|n]; [lia|]. rewrite iter_end. unfold shift at 1, apos_of at 1. apply ID.
Qed.
End WithArith.
