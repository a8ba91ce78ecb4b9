(** Lemmas for C96. *)
From Coq Require Import Ascii String List Bool ZArith QArith Qcanon Qabs Qreals Reals Lia Lra.
From Verif Require Import Base Num Words GTable GCode Line Position Machine Transform BaseFacts NumFacts WordOrder WordsSpec PrintSpec PrintProofs PrintProofs2 PropsPrint BlockSpec GCodeSpec PropsGCode ArithSpec ModeSpec PosSpec PosProofs MachSpec MachProofs MachProofs2 MachProofs3 CannedProofs SimSpec TransSpec TransProofs.
From Verif Require Import Scripts ScriptArgs ScriptsSpec ScriptsSpec2 ScriptsSpec3 ScriptsSpec5 ScriptsSpec6 ScriptsSpec8 ScriptsSpec10 ReadBackProofs ScriptsProofs ScriptsProofs2 ScriptsProofs4 ScriptsProofs7 ScriptsProofs8 ScriptsProofs12 ScriptsProofs13 ScriptsProofs14 ScriptsProofs16.
From Verif Require Ieee.
From Verif Require Import Arc ArcSpec FloatArc FloatArcSpec FloatArcSpec3 FloatArcProofs FloatArcProofs2 FloatArcProofs5 FloatArcProofs13 FloatArcProofs14.
Import ListNotations.
Open Scope R_scope.
Section Reading.
Context {ar : Arith} (acc : accurate ar) (ID : idempotent ar).
Notation q := Qc2R.
Lemma small_error l (v : Qc) : letter_kind l = KFloat -> (Qabs v <= 999)%Q -> exists y : Qc, text2words (word_str (Word l (VFloat v))) = Ok [Word l (VFloat y)] /\ float y /\ (Qabs (y - v)%Qc <= 1 # 1999)%Q.
Proof.
  intros K Hv. destruct (float_prints acc l v K ltac:(eapply Qle_trans; [exact Hv|discriminate])) as (s & d & E & V1 & V2 & _ & _ & X0 & _).
  exists (rnd d). rewrite E. split. { apply single_reads; auto. rewrite K; auto. } split; [apply ID|].
  set (j := rhe (this v * 1000)) in *. pose proof (rhe_err (this v * 1000)) as [R1 R2]. fold j in R1, R2. assert (JB : (Z.abs j < 10 ^ 6)%Z). { pose proof (rhe_bound (this v) 999 Hv) as H. fold j in H. lia. }
  rewrite (X0 JB). assert (X : (j # 1000 == inject_Z j * (1 # 1000))%Q) by (unfold Qeq; simpl; lia). assert (B0 : (- (1 # 2000) <= (j # 1000) - v <= 1 # 2000)%Q) by (rewrite X; split; Lqa.lra).
  rewrite this_sub. destruct (Z.eq_dec j 0) as [J|J].
  - rewrite J in *. unfold thousandths. rewrite rnd_frac0 by auto. change (this 0%Qc) with 0%Q. assert (Y : (0 # 1000 == 0)%Q) by reflexivity. rewrite Y in B0. apply Qabs_bounds. split; Lqa.lra.
  - assert (Hx : (1 # 1000 <= Qabs (j # 1000))%Q) by (unfold Qabs, Qle; simpl; lia). destruct acc as [_ A]. pose proof (A (thousandths j)) as A1. rewrite this_sub in A1. unfold thousandths at 1 3 4 in A1. rewrite !this_frac in A1.
    specialize (A1 ltac:(Lqa.lra)). assert (E40 : forall x, (x / (2 ^ 40) == x * (1 # 1099511627776))%Q) by (intros; reflexivity). rewrite E40 in A1.
    assert (HB : (Qabs (j # 1000) <= 1000)%Q) by (unfold Qabs, Qle; simpl; lia). assert (A2 : (Qabs (rnd (thousandths j) - (j # 1000)) <= 1 # 1000000000)%Q) by Lqa.lra. apply Qabs_bounds in A2. apply Qabs_bounds. split; Lqa.lra.
Qed.
Lemma read_error l (x : Qc) w' N : letter_kind l = KFloat -> reads_as (Word l (VFloat x)) w' -> Rabs (q x) <= N -> N <= 999999 -> exists y, w' = Word l (VFloat y) /\ float y /\ Rabs (q y - q x) <= print_error N.
Proof.
  intros K (_ & T & _) B NB. unfold print_error. destruct (Rle_dec N 999) as [S|S].
  - destruct (small_error l x K) as (y & T' & F & E). { apply Rle_Qle. rewrite Ieee.Q2R_abs. fold (Qc2R x). replace (Q2R 999) with 999 by (unfold Q2R; cbn; lra). lra. }
    rewrite T' in T. injection T as <-. exists y. split; auto. split; auto. apply Qle_Rle in E. rewrite Ieee.Q2R_abs in E. fold (Qc2R (y - x)%Qc) in E. rewrite q_sub in E. replace (Q2R (1 # 1999)) with (/ 1999) in E by (unfold Q2R; cbn; lra). exact E.
  - assert (XB : (Qabs x <= 999999)%Q). { apply Rle_Qle. rewrite Ieee.Q2R_abs. fold (Qc2R x). replace (Q2R 999999) with 999999 by (unfold Q2R; cbn; lra). lra. }
    destruct (C06_error ar l x acc K XB) as (y & T' & E). pose proof T' as T0. rewrite T in T'. injection T' as ->. exists y. split; auto. split.
    { destruct (float_prints acc l x K XB) as (s & d & E1 & V1 & V2 & _). assert (T2 : text2words (word_str (Word l (VFloat x))) = Ok [Word l (VFloat (rnd d))]) by (rewrite E1; apply single_reads; auto; rewrite K; auto). rewrite T0 in T2. injection T2 as ->. apply ID. }
    apply Qle_Rle in E. rewrite Q2R_plus, Q2R_div, !Ieee.Q2R_abs in E by discriminate. fold (Qc2R (y - x)%Qc) (Qc2R x) in E. rewrite q_sub in E. replace (Q2R (1 # 1999)) with (/ 1999) in E by (unfold Q2R; cbn; lra). replace (Q2R 199999) with 199999 in E by (unfold Q2R; cbn; lra). lra.
Qed.
Lemma error_pos N : 0 <= N -> 0 <= print_error N.
Proof. intros H. unfold print_error. destruct (Rle_dec N 999); lra. Qed.
(** ** the machine after a move that was read *)
Definition calm_at (m : machine) : Prop := ready m /\ no_offsets m /\ m_axes m = xyz.
Lemma xyz_has m a : sound m -> m_axes m = xyz -> In a [AX; AY; AZ] -> has (m_abs m) a.
Proof. intros ((_ & A0 & _) & _) AX3 J. unfold has. rewrite A0, AX3. destruct J as [<-|[<-|[<-|[]]]]; reflexivity. Qed.
Lemma calm_place m p a : calm_at m -> machine_pos m = Ok p -> In a [AX; AY; AZ] -> vget (pvals p) a = Some (rnd (pval (m_abs m) a)).
Proof.
  intros ((S & I & Y) & O & X) E J. destruct (machine_pos_spec m S) as (p' & EP & GP & AXP & _ & VP). rewrite E in EP. injection EP as <-. pose proof (xyz_has m a S X J) as H. assert (HP : has p a) by (unfold has; rewrite AXP, X; destruct J as [<-|[<-|[<-|[]]]]; reflexivity).
  pose proof (VP a H) as V. rewrite (wpos_plain m a _ ID O) in V. unfold pval in V at 1. destruct (vget (pvals p) a) eqn:W; [cbn in V; congruence|]. exfalso. apply (GP a) in W. contradiction.
Qed.
Lemma calm_stands m x y z : calm_at m -> pval (m_abs m) AX = x -> pval (m_abs m) AY = y -> pval (m_abs m) AZ = z -> float x -> float y -> float z -> stands_at m (V3 (q x) (q y) (q z)).
Proof.
  intros C X Y Z FX FY FZ. pose proof C as ((S & _) & _). destruct (machine_pos_spec m S) as (p & E & _). exists p. split; auto. exists x, y, z.
  rewrite !(calm_place m p _ C E) by (cbn; auto). rewrite X, Y, Z, FX, FY, FZ. auto.
Qed.
Lemma moved h h' m m1 x y z N : calm_at m -> absolute m -> linear_to h x y z -> read_move h h' -> gcode_process h' m = (m1, Ok tt) -> N <= 999999 -> inside N (V3 (q x) (q y) (q z)) ->
  calm_at m1 /\ absolute m1 /\ exists w, stands_at m1 w /\ by_each (print_error N) (V3 (q x) (q y) (q z)) w.
Proof.
  intros C A (LC & LW & LG & LP) RM P NB (BX & BY & BZ). pose proof C as (R & O & X). cbn [vx vy vz] in *.
  assert (W' : gcode_wf h'). { pose proof (read_wfs [h] [h'] (Forall2_cons _ _ RM (Forall2_nil _)) (Forall_cons _ LW (Forall_nil _))) as F. inversion F; auto. }
  destruct RM as (C' & _ & _ & _ & F). rewrite LP in F. inversion F as [|? [lx wx] ? ? [FX RX] F1]; subst. inversion F1 as [|? [ly wy] ? ? [FY RY] F2]; subst. inversion F2 as [|? [lz wz] ? ? [FZ RZ] F3]; subst. inversion F3; subst. cbn [fst snd] in *. subst lx ly lz.
  destruct (read_error LX x wx N eq_refl RX BX NB) as (x' & -> & FX' & EX). destruct (read_error LY y wy N eq_refl RY BY NB) as (y' & -> & FY' & EY). destruct (read_error LZ z wz N eq_refl RZ BZ NB) as (z' & -> & FZ' & EZ).
  assert (MV : mover h') by (unfold mover, in_group; rewrite C', LC; split; reflexivity).
  destruct (mover_step h' m R W' MV A) as (m1' & P' & R1 & K1 & T1 & M1 & V1). rewrite P in P'. injection P' as <-.
  assert (O1 : no_offsets m1) by (intros a; unfold system_offset, temp_offset; rewrite T1; apply O). pose proof K1 as (K11 & _). assert (C1 : calm_at m1) by (split; auto; split; auto; congruence). split; auto. split; [eapply absolute_kept; eauto|].
  assert (PV : forall a l t, In a [AX; AY; AZ] -> axis_letter a = l -> In (l, Word l (VFloat t)) (gparams h') -> float t -> pval (m_abs m1) a = t).
  { intros a l t J AL IN FT. destruct (V1 a (xyz_has m a (proj1 R) X J)) as [V _]. rewrite (V t). 2:{ exists (Word l (VFloat t)). rewrite AL. auto. } unfold apos_of. destruct (O a) as [-> ->]. unfold fadd. rewrite !Qcplus_0_r, !FT. reflexivity. }
  exists (V3 (q x') (q y') (q z')). split; [|repeat split; cbn [vx vy vz]; auto].
  apply calm_stands; auto; [apply (PV AX LX)|apply (PV AY LY)|apply (PV AZ LZ)]; auto; cbn; auto; match goal with H : _ = gparams h' |- _ => rewrite <- H end; cbn; auto.
Qed.
Lemma path_read N moves moves' vs : N <= 999999 -> Forall2 goes_to moves vs -> Forall2 read_move moves moves' -> Forall (inside N) vs -> forall m ms, calm_at m -> absolute m -> passes m moves' ms ->
  exists ws, Forall2 stands_at ms ws /\ Forall2 (by_each (print_error N)) vs ws.
Proof.
  intros NB GO. revert moves'. induction GO as [|h v moves vs (x & y & z & LT & ->) GO IH]; intros moves' RM IN m ms C A P.
  - inversion RM; subst. inversion P; subst. exists []. split; constructor.
  - inversion RM as [|? h' ? hs RH RT]; subst. inversion P as [|? ? ? m1 ms' PH PT]; subst. inversion IN as [|? ? I1 I2]; subst. destruct (moved h h' m m1 x y z N C A LT RH PH NB I1) as (C1 & A1 & w & SW & BE).
    destruct (IH hs RT I2 m1 ms' C1 A1 PT) as (ws & F1 & F2). exists (w :: ws). split; constructor; auto.
Qed.
Lemma stands_resumed m n v : resumed m n -> stands_at m v -> stands_at n v.
Proof. intros (_ & ST & AB & AX3 & _) (p & E & AT). exists p. split; auto. unfold machine_pos, abs2work, coord_sys_offset in *. rewrite <- ST, <- AB, <- AX3. exact E. Qed.
Lemma stands_along ms : forall part ws, Forall2 (fun n (y : line * machine) => resumed n (snd y)) ms part -> Forall2 stands_at ms ws -> Forall2 (fun z w => stands_at (snd z) w) part ws.
Proof. induction ms as [|m ms IH]; intros part ws F G; inversion F; inversion G; subst; constructor; auto. eapply stands_resumed; eauto. Qed.
Lemma stands_floats m p : calm_at m -> machine_pos m = Ok p -> forall a x, In a [AX; AY; AZ] -> vget (pvals p) a = Some x -> float x.
Proof. intros C E a x J V. rewrite (calm_place m p a C E J) in V. injection V as <-. apply ID. Qed.
Lemma calm_kept m n : calm_at m -> ready n -> MachProofs2.keeps m n -> (forall k, MachProofs2.keeps m k -> no_offsets k) -> calm_at n.
Proof. intros (_ & _ & X) R K O. split; auto. split; auto. destruct K; congruence. Qed.
(** ** one arc *)
Context (L : mathlib) (u i : R) (C : close_to_real ar L u i) (U : 0 < u <= / 1000000) (I : 0 < i <= u) (LW : lawful L).
Lemma arc_not_canned g : derives (gcls g) GCodeArcMove -> is_canned g -> False.
Proof. unfold is_canned. intros D E. apply subclass_derives in D. apply subclass_derives in E. revert D E. destruct (gcls g); vm_compute; intros D E; try discriminate D; discriminate E. Qed.
Lemma linearized_absolute g p plane m dist d adist e moves : linearize_arc L g p plane m dist adist e = (moves, Ok tt) -> dist = Some d -> ~ derives d GCodeIncrementalDistanceMode -> in_absolute dist.
Proof.
  intros E -> N. right. exists d. split; [reflexivity|]. destruct m as [m|]; [|discriminate E]. unfold linearize_arc in E. destruct (_ || _) eqn:Q; [discriminate E|]. apply orb_false_iff in Q as [Q _]. apply negb_false_iff in Q. apply andb_prop in Q as [Q _]. apply andb_prop in Q as [_ Q]. apply orb_prop in Q as [Q|Q]; apply subclass_derives in Q; auto. contradiction.
Qed.
Lemma arc_cut methods precision o fuel m g moves moves' ms M relative p0 q0 : o_linearize o = Some (norm_linearize L methods precision) -> calm_at m -> gcode_wf g -> moves_for o fuel m g moves -> Forall2 read_move moves moves' -> passes m moves' ms ->
  ordinary u M (q precision) m g relative p0 q0 ->
  exists meth ws, lin_method methods (gword g) = Ok meth /\ Forall2 stands_at ms ws /\ (exists before w, ws = before ++ [w] /\ by_each (print_error (4 * M + q precision)) q0 w) /\
    cuts u M meth (q precision) g relative p0 q0 (1500 * u * M + 3 / 2 * print_error (4 * M + q precision)) ws.
Proof.
  intros O K W MF RM PS (D & FL & AB & PL & AD & (p & EP & AT) & TG & M1 & PM & QM & RR & GM & AP & EL & BIG).
  destruct MF as [(_ & f & Of & E)|(CN & _)]; [|destruct (arc_not_canned g D CN)]. rewrite O in Of. injection Of as <-. unfold norm_linearize in E. rewrite EP in E. destruct (lin_method methods (gword g)) as [meth|] eqn:LM; [|discriminate].
  assert (DI : in_absolute (mode_class m MG_distance)).
  { destruct (gm_get (m_mode m) MG_distance) as [d|] eqn:MD; [|left; unfold mode_class; rewrite MD; reflexivity]. eapply (linearized_absolute _ _ _ _ _ (gcls d)); [exact E|unfold mode_class; rewrite MD; reflexivity|exact (AB d MD)]. }
  destruct (path_near L u i C U I LW acc ID g p _ meth _ _ precision moves p0 q0 relative M W (conj FL (stands_floats m p K EP)) AT TG PL DI AD M1 PM QM RR GM AP EL E) as (o0 & r & A & vs & ths & GO & (bs & LA) & NC & PA & RI & FH & FP & FI).
  destruct (path_read _ moves moves' vs BIG GO RM FI m ms K AB PS) as (ws & FS & FB). exists meth, ws. split; auto. split; auto.
  assert (E0 : 0 <= q precision) by nra. assert (H0 : 0 <= print_error (4 * M + q precision)) by (apply error_pos; lra). split.
  - subst vs. apply Forall2_app_inv_l in FB as (w1 & w2 & _ & FB & ->). inversion FB as [|? w ? ? BW F0]; subst. inversion F0; subst. eauto.
  - exists o0, r, A, ths. split; auto. split; auto. split; auto. split.
    + clear -FH FB. revert ws FB. induction FH as [|th v ths vs H F IH]; intros ws FB; inversion FB; subst; constructor; auto. eapply helix_each; eauto. left; reflexivity.
    + eapply pieces_each; eauto; [left; reflexivity|]. apply each_refl. auto.
Qed.
(** ** lines *)
Lemma line_cut methods precision o fuel m x part : o_linearize o = Some (norm_linearize L methods precision) -> calm_at m -> (forall k, MachProofs2.keeps m k -> no_offsets k) -> carried o fuel m x part -> cut_line u methods precision o m x part.
Proof.
  intros O K OK CA. destruct CA as [y SL RS _|a g b moves moves' before ms p1 y p2 p3 z part FG WW SW PA MF RM PS EP G1 GY RY FR _ G3 _ _ _ _]; [left; eauto|]. right. exists a, g, b, before, p1, y, p2, p3. repeat (split; [solve [auto]|]).
  intros M relative p0 q0 e OR. pose proof OR as (_ & _ & _ & _ & _ & ST & _). split; [eapply stands_resumed; eauto|].
  apply Forall_app in WW as [WA WG]. inversion WG as [|? ? Wg _]; subst. assert (KL : calm_at (last before m)).
  { pose proof K as (R & _). pose proof R as (S & IN & Y). apply (calm_kept m); auto; [exact (passes_ready_any a WA m before R PA)|]. pose proof (passes_end _ _ _ PA) as PE. destruct (steps_inv a m S IN WA) as (_ & _ & _ & KP). rewrite PE in KP. cbn [fst] in KP. exact KP. }
  destruct (arc_cut methods precision o fuel (last before m) g moves moves' ms M relative p0 q0 O KL Wg MF RM PS OR) as (meth & ws & LM & FS & LA & CU). exists meth, ws. split; auto. split; auto. eapply stands_along; eauto.
Qed.
Lemma lines_cut methods precision o fuel file : o_linearize o = Some (norm_linearize L methods precision) -> forall m tr parts, calm_at m -> (forall k, MachProofs2.keeps m k -> no_offsets k) -> reading m file tr -> carried_over o fuel m tr parts -> cut_lines u methods precision o m tr parts.
Proof.
  intros O. induction file as [|s r IH]; intros m tr parts K OK RD CO; [apply reading_empty in RD; subst; inversion CO; constructor|]. apply reading_step in RD as (l & m1 & tr1 & ML & P & RD & <-). inversion CO as [|? ? ? ? part parts' CA CO']; subst.
  constructor; [eapply line_cut; eauto|]. pose proof K as (R & _). pose proof R as (S & IN & Y). destruct (mk_line_block _ _ ML) as (bs & MB). destruct (mk_block_wf _ _ _ MB) as [F0 W]. destruct (process_gcodes_inv (bgcodes (lblock l)) (bmodal (lblock l)) m S IN F0 W) as (A & B & CC & KP). unfold process_block in P. rewrite P in A, B, CC, KP. cbn [fst] in *.
  apply IH; auto; [apply (calm_kept m); auto; split; auto|]. intros k KK. apply OK. exact (MachProofs2.keeps_trans _ _ _ KP KK).
Qed.
End Reading.
