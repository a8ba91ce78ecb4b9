(** The same line sent twice: each command, on each axis and in each modal group, either leaves what it finds, or sets it. *)
From Coq Require Import Ascii String List Bool Arith ZArith QArith Qcanon Lia Permutation Sorting.Sorted.
From Verif Require Import Base Num Words GTable GCode Line Position Machine BaseFacts WordOrder WordsSpec LineSpec GCodeSpec GCodeProofs GCodeProofs2 PropsGCode ArithSpec
  PosSpec PosProofs ModeSpec ModeProofs MachSpec MachProofs MachProofs2 MachProofs3 PropsMach PropsMach2 StopSpec StopProofs ScriptsProofs20 PlaceSpec PlaceProofs PropsPlace ResendSpec.
Import ListNotations.
Local Open Scope Z_scope.
Local Transparent set_for.

(** ** Modes *)
Definition sets (mg : mgroup) (g : gcode) : option (option gcode) :=
  match process_kind (gcls g) with
  | PCancelMotion => if mgroup_eqb MG_motion mg then Some None else None
  | _ => match modal_group (gcls g) with Some k => if mgroup_eqb k mg then Some (Some (modal_of g)) else None | None => None end
  end.
Definition settle (mg : mgroup) (o : option gcode) (g : gcode) : option gcode := match sets mg g with Some v => v | None => o end.
Lemma settle_effect md mg g : gm_get (mode_effect md g) mg = settle mg (gm_get md mg) g.
Proof.
  unfold mode_effect, settle, sets. destruct (process_kind (gcls g)); try (unfold set_effect; destruct (modal_group (gcls g)) as [k|]; [|reflexivity]; rewrite gm_get_set; destruct (mgroup_eqb k mg); reflexivity).
  rewrite gm_get_set. destruct (mgroup_eqb MG_motion mg); reflexivity.
Qed.
Lemma settle_effects mg gs : forall md, gm_get (fold_left mode_effect gs md) mg = fold_left (settle mg) gs (gm_get md mg).
Proof. induction gs as [|g gs IH]; intros md; cbn [fold_left]; auto. rewrite IH, settle_effect. reflexivity. Qed.
Lemma settles mg gs : (forall o, fold_left (settle mg) gs o = o) \/ exists v, forall o, fold_left (settle mg) gs o = v.
Proof.
  induction gs as [|g gs IH]; cbn [fold_left]; [left; auto|]. destruct IH as [IH|[v IH]]; [|right; exists v; auto]. unfold settle at 1. destruct (sets mg g) as [v|] eqn:E; [right; exists v; intros o|left; intros o]; rewrite IH; unfold settle; rewrite E; reflexivity.
Qed.
Lemma settles_twice mg gs o : fold_left (settle mg) gs (fold_left (settle mg) gs o) = fold_left (settle mg) gs o.
Proof. destruct (settles mg gs) as [H|[v H]]; rewrite !H; reflexivity. Qed.
Lemma settle_none mg gs : (forall g, In g gs -> sets mg g = None) -> forall o, fold_left (settle mg) gs o = o.
Proof. induction gs as [|g gs IH]; intros H o; cbn [fold_left]; auto. unfold settle at 2. rewrite (H g) by (left; auto). apply IH. intros; apply H; right; auto. Qed.
Lemma settle_filter mg (f : gcode -> bool) gs : (forall g, In g gs -> f g = false -> sets mg g = None) -> forall o, fold_left (settle mg) gs o = fold_left (settle mg) (filter f gs) o.
Proof.
  induction gs as [|g gs IH]; intros H o; cbn [filter fold_left]; auto. rewrite IH by (intros; apply H; auto; right; auto). destruct (f g) eqn:F; cbn [fold_left]; auto. unfold settle at 2. rewrite (H g); auto. left; auto.
Qed.

(** ** One axis *)
Section WithArith.
Context {ar : Arith}.
(** [c]: the coordinates each command goes to, if it moves *)
Definition act (c : gcode -> option (list coord)) (a : axis) (g : gcode) (x : Qc) : Qc :=
  match c g with Some l => rnd (match coord_at l a with Some y => y | None => x end) | None => x end.
Fixpoint acts (c : gcode -> option (list coord)) (a : axis) (gs : list gcode) (x : Qc) : Qc := match gs with [] => x | g :: gs' => acts c a gs' (act c a g x) end.
Fixpoint lows (c : gcode -> option (list coord)) (a : axis) (gs : list gcode) (x lo : Qc) : Qc := match gs with [] => lo | g :: gs' => lows c a gs' (act c a g x) (qmin (act c a g x) lo) end.
Fixpoint highs (c : gcode -> option (list coord)) (a : axis) (gs : list gcode) (x hi : Qc) : Qc := match gs with [] => hi | g :: gs' => highs c a gs' (act c a g x) (qmax (act c a g x) hi) end.
Lemma acts_app c a p : forall q x, acts c a (p ++ q) x = acts c a q (acts c a p x).
Proof. induction p as [|g p IH]; intros q x; cbn [app acts]; auto. Qed.
(** what a list of commands does on an axis: nothing, a rounding, or a fixed place *)
Inductive does (f : Qc -> Qc) : Prop :=
| does_stay : (forall x, f x = x) -> does f
| does_round : (forall x, f x = rnd x) -> does f
| does_go y : rnd y = y -> (forall x, f x = y) -> does f.
Context (ID : idempotent ar).
Lemma act_does c a g : does (act c a g).
Proof. unfold act. destruct (c g) as [l|]; [|apply does_stay; reflexivity]. destruct (coord_at l a) as [y|]; [|apply does_round; reflexivity]. apply (does_go _ (rnd y)); [apply ID|reflexivity]. Qed.
Lemma acts_does c a gs : does (acts c a gs).
Proof.
  induction gs as [|g gs IH]; cbn [acts]; [apply does_stay; reflexivity|]. destruct IH as [H|H|y Y H]; [| |apply (does_go _ y Y); intros; apply H].
  - destruct (act_does c a g) as [K|K|y Y K]; [apply does_stay|apply does_round|apply (does_go _ y Y)]; intros x; rewrite H; apply K.
  - destruct (act_does c a g) as [K|K|y Y K]; [apply does_round|apply does_round|apply (does_go _ y Y)]; intros x; rewrite H, K; auto.
Qed.
Lemma acts_twice c a gs x : acts c a gs (acts c a gs x) = acts c a gs x.
Proof. destruct (acts_does c a gs) as [H|H|y Y H]; rewrite !H; auto. Qed.
(** the second time, each command finds itself where the first time ended or where it was the first time *)
Lemma acts_again c a p q x : acts c a p (acts c a (p ++ q) x) = acts c a (p ++ q) x \/ acts c a p (acts c a (p ++ q) x) = acts c a p x.
Proof.
  destruct (acts_does c a p) as [H|H|y Y H]; [left; apply H| |right; rewrite !H; reflexivity]. left. rewrite H, acts_app. destruct (acts_does c a q) as [K|K|y Y K]; rewrite K; [rewrite H; apply ID|apply ID|exact Y].
Qed.
Lemma lows_le c a gs : forall x lo, (lows c a gs x lo <= lo)%Qc /\ forall p q, gs = p ++ q -> p <> [] -> (lows c a gs x lo <= acts c a p x)%Qc.
Proof.
  induction gs as [|g gs IH]; intros x lo; cbn [lows]; [split; [apply Qcle_refl|]|].
  - intros p q E N. destruct p; [contradiction|discriminate E].
  - destruct (qmin_spec (act c a g x) lo) as (A & B & _). destruct (IH (act c a g x) (qmin (act c a g x) lo)) as [L P]. split; [eapply Qcle_trans; eauto|]. intros [|g' p] q E N; [contradiction|]. injection E as <- E. cbn [acts].
    destruct p as [|h p]; [cbn [acts]; eapply Qcle_trans; eauto|]. apply (P _ _ E). discriminate.
Qed.
Lemma highs_ge c a gs : forall x hi, (hi <= highs c a gs x hi)%Qc /\ forall p q, gs = p ++ q -> p <> [] -> (acts c a p x <= highs c a gs x hi)%Qc.
Proof.
  induction gs as [|g gs IH]; intros x hi; cbn [highs]; [split; [apply Qcle_refl|]|].
  - intros p q E N. destruct p; [contradiction|discriminate E].
  - destruct (qmax_spec (act c a g x) hi) as (A & B & _). destruct (IH (act c a g x) (qmax (act c a g x) hi)) as [L P]. split; [eapply Qcle_trans; eauto|]. intros [|g' p] q E N; [contradiction|]. injection E as <- E. cbn [acts].
    destruct p as [|h p]; [cbn [acts]; eapply Qcle_trans; eauto|]. apply (P _ _ E). discriminate.
Qed.
Lemma lows_still c a gs : forall x lo, (forall p q, gs = p ++ q -> p <> [] -> (lo <= acts c a p x)%Qc) -> lows c a gs x lo = lo.
Proof.
  induction gs as [|g gs IH]; intros x lo H; cbn [lows]; auto. pose proof (H [g] gs eq_refl ltac:(discriminate)) as G. cbn [acts] in G. rewrite (qmin_r _ _ G). apply IH. intros p q E N. apply (H (g :: p) q); [rewrite E; reflexivity|discriminate].
Qed.
Lemma highs_still c a gs : forall x hi, (forall p q, gs = p ++ q -> p <> [] -> (acts c a p x <= hi)%Qc) -> highs c a gs x hi = hi.
Proof.
  induction gs as [|g gs IH]; intros x hi H; cbn [highs]; auto. pose proof (H [g] gs eq_refl ltac:(discriminate)) as G. cbn [acts] in G. rewrite (qmax_r _ _ G). apply IH. intros p q E N. apply (H (g :: p) q); [rewrite E; reflexivity|discriminate].
Qed.
Lemma lows_twice c a gs x lo : (lo <= x)%Qc -> lows c a gs (acts c a gs x) (lows c a gs x lo) = lows c a gs x lo.
Proof.
  intros L. apply lows_still. intros p q E N. destruct (lows_le c a gs x lo) as [A B]. subst gs. destruct (acts_again c a p q x) as [G|G]; rewrite G; [|apply (B p q); auto]. apply (B (p ++ q) []); [rewrite app_nil_r; auto|]. destruct p; [contradiction|discriminate].
Qed.
Lemma highs_twice c a gs x hi : (x <= hi)%Qc -> highs c a gs (acts c a gs x) (highs c a gs x hi) = highs c a gs x hi.
Proof.
  intros L. apply highs_still. intros p q E N. destruct (highs_ge c a gs x hi) as [A B]. subst gs. destruct (acts_again c a p q x) as [G|G]; rewrite G; [|apply (B p q); auto]. apply (B (p ++ q) []); [rewrite app_nil_r; auto|]. destruct p; [contradiction|discriminate].
Qed.

(** ** Commands without offsets in absolute mode *)
Lemma unoffset_keeps m n : unoffset m -> MachProofs2.keeps m n -> unoffset n.
Proof. intros [A B] (_ & _ & C & D & _). split; [rewrite C; exact A|]. intros a. unfold temp_offset. rewrite D. apply B. Qed.
Lemma unoffset_no m : unoffset m -> no_offsets m.
Proof.
  intros [A B] a. split; [|apply B]. unfold system_offset. destruct (coord_systems (m_state m)) as [d|] eqn:E; auto. destruct (cur_coord_sys (m_state m)) as [i|]; auto. destruct (dget Z.eqb d i) as [p|] eqn:D; auto. apply (dget_in _ _ _ Z.eqb_eq) in D. eapply A; eauto.
Qed.
Lemma fadd0 x : fadd x (Q2Qc 0) = rnd x. Proof. unfold fadd. f_equal. ring. Qed.
Lemma fsub0 x : fsub x (Q2Qc 0) = rnd x. Proof. unfold fsub. f_equal. ring. Qed.
Lemma shift_act m cs a x : no_offsets m -> is_incremental m = false -> shift m cs a x = rnd (match coord_at cs a with Some y => y | None => x end).
Proof.
  intros N I. destruct (N a) as [N1 N2]. unfold shift, apos_of, target, wpos_of. rewrite I, N1, N2, !fadd0. destruct (coord_at cs a) as [y|]; [apply ID|]. rewrite !fsub0, !ID. reflexivity.
Qed.
Lemma coords_axes m n g : m_axes n = m_axes m -> gcode_coords n g = gcode_coords m g.
Proof. intros E. unfold gcode_coords, axis_letters. rewrite E. reflexivity. Qed.
Lemma kind_exec g : process_kind (gcls g) = PMove \/ process_kind (gcls g) = PCanned -> exec_order (gcls g) = 242.
Proof. destruct (gcls g); vm_compute; intros [H|H]; try discriminate H; reflexivity. Qed.
(** the groups set before motion *)
Definition early (mg : mgroup) : Prop := In mg [MG_distance; MG_plane_selection; MG_canned_cycles_return].
Lemma early_exec mg g : early mg -> modal_group (gcls g) = Some mg -> exec_order (gcls g) < 242.
Proof. intros [<-|[<-|[<-|[]]]]; destruct (gcls g); vm_compute; intros H; try discriminate H; reflexivity. Qed.
Lemma sets_early mg g : early mg -> 242 <= exec_order (gcls g) -> sets mg g = None.
Proof.
  intros E L. unfold sets. assert (N : modal_group (gcls g) <> Some mg) by (intros Q; apply (early_exec _ _ E) in Q; lia). assert (M : mgroup_eqb MG_motion mg = false) by (destruct E as [<-|[<-|[<-|[]]]]; reflexivity). rewrite M.
  destruct (process_kind (gcls g)); [| | |reflexivity]; (destruct (modal_group (gcls g)) as [k|]; [|reflexivity]; destruct (mgroup_eqb k mg) eqn:K; [|reflexivity]; apply mgroup_eqb_eq in K; subst; destruct (N eq_refl)).
Qed.
(** where a canned cycle goes in the plane and with the return mode given, and how many times *)
Definition canned_aim (pl rt : option gcode) (coords : list coord) (g : gcode) : option (list coord * nat) :=
  match pl with
  | None => None
  | Some p =>
      match normal_axis (gcls p), gcode_getattr g LL with
      | Some na, Ok l =>
          let n := Z.to_nat match l with Some (VInt z) => if z <=? 0 then 1 else z | _ => 1 end in
          if match rt with Some r => subclass (gcls r) GCodeCannedCycleReturnToR | None => false end then
            match gcode_getattr g LR, na with
            | Ok r, Some k => match axis_of_letter k with Some a => Some (dset axis_eqb coords a (match r with Some v => num_of_value v | None => None end), n) | None => None end
            | _, _ => None
            end
          else Some (match na with Some k => match axis_of_letter k with Some a => dpop axis_eqb coords a | None => coords end | None => coords end, n)
      | _, _ => None
      end
  end.
Lemma canned_aimed g m : gcode_wf g ->
  match canned_aim (gm_get (m_mode m) MG_plane_selection) (gm_get (m_mode m) MG_canned_cycles_return) (gcode_coords m g) g with
  | Some (c, n) => canned_process g m = repeat_step n (move_to c) m /\ (0 < n)%nat /\ NoDup (map fst c)
  | None => exists e, canned_process g m = (m, Raise e)
  end.
Proof.
  intros W. unfold canned_aim, canned_process. destruct (gm_get (m_mode m) MG_plane_selection) as [pl|]; [|eauto]. destruct (normal_axis (gcls pl)) as [na|]; [|eauto]. destruct (gcode_coords_spec m g W) as [(GC & ND & GI) _].
  assert (P : forall l : option value, lt O (Z.to_nat match l with Some (VInt z) => if z <=? 0 then 1 else z | _ => 1 end)). { intros l. destruct l as [[]|]; try lia. match goal with |- context [?z <=? 0] => destruct (Z.leb_spec z 0) end; lia. }
  destruct (match gm_get (m_mode m) MG_canned_cycles_return with Some r => subclass (gcls r) GCodeCannedCycleReturnToR | None => false end); destruct (gcode_getattr g LL) as [l|e]; cbv zeta.
  - destruct (gcode_getattr g LR) as [r|e]; [|eauto]. destruct na as [k|]; [|eauto]. destruct (axis_of_letter k) as [a|]; [|eauto]. split; [reflexivity|]. split; [apply P|]. apply (dset_nodup _ _ _ axis_eqb_eq). exact ND.
  - destruct (gcode_getattr g LR) as [r|e']; [|eauto]. destruct na as [k|]; [|eauto]. destruct (axis_of_letter k) as [a|]; eauto.
  - split; [reflexivity|]. split; [apply P|]. destruct na as [k|]; [destruct (axis_of_letter k)|]; auto. apply dpop_nodup. exact ND.
  - eauto.
Qed.
(** the coordinates a command goes to *)
Definition aim (m0 : machine) (pl rt : option gcode) (g : gcode) : option (list coord) :=
  match process_kind (gcls g) with PMove => Some (gcode_coords m0 g) | PCanned => option_map fst (canned_aim pl rt (gcode_coords m0 g) g) | _ => None end.
(** a command that can be executed in absolute mode *)
Definition can (m0 : machine) (pl rt : option gcode) (g : gcode) : Prop :=
  process_kind (gcls g) = PCanned -> exists c n, canned_aim pl rt (gcode_coords m0 g) g = Some (c, n) /\ forall p, In p c -> vget (m_axes m0) (fst p) = true /\ exists x, snd p = Some x.
Lemma good_abs m c : is_incremental m = false -> (good_coords m c <-> forall p, In p c -> vget (m_axes m) (fst p) = true /\ exists x, snd p = Some x).
Proof. intros I. unfold good_coords. split; [intros [A B] p Ip; split; auto|]. intros H. split; intros; apply H; auto. Qed.
(** several moves to the same absolute coordinates *)
Lemma repeat_axis c n : NoDup (map fst c) -> forall m, sound m -> inside m -> no_offsets m -> is_incremental m = false -> good_coords m c ->
  exists m', repeat_step (Datatypes.S n) (move_to c) m = (m', Ok tt) /\ same_frame m m' /\ forall a, has (m_abs m) a -> let y := rnd (match coord_at c a with Some y => y | None => pval (m_abs m) a end) in
    pval (m_abs m') a = y /\ pval (m_min m') a = qmin y (pval (m_min m) a) /\ pval (m_max m') a = qmax y (pval (m_max m) a).
Proof.
  intros ND. induction n as [|n IH]; intros m S I N A G; cbn [repeat_step]; unfold then_step; destruct (move_to_cases c m S ND) as [(_ & m1 & E & F & S1 & U1 & V1 & R1 & G1)|(X & _)]; try contradiction; rewrite E.
  - exists m1. split; [reflexivity|]. split; auto. intros a H. destruct (G1 a H) as [L M]. rewrite L, M, (V1 a H), shift_act by auto. auto.
  - destruct (IH m1) as (m2 & E2 & F2 & V2); auto.
    + intros a. destruct (frame_offsets m m1 a F) as [-> ->]. apply N.
    + destruct F as (M & _). unfold is_incremental in *. rewrite M. exact A.
    + eapply frame_coords; eauto.
    + exists m2. split; [exact E2|]. split; [eapply same_frame_trans; eauto|]. intros a H. destruct (V2 a (sound_has m m1 a S S1 F H)) as (W1 & W2 & W3). destruct (G1 a H) as [L M]. rewrite W1, W2, W3, L, M, (V1 a H), shift_act by auto.
      assert (Y : rnd (match coord_at c a with Some y => y | None => rnd (match coord_at c a with Some y => y | None => pval (m_abs m) a end) end) = rnd (match coord_at c a with Some y => y | None => pval (m_abs m) a end)) by (destruct (coord_at c a); [reflexivity|apply ID]).
      rewrite Y. cbv zeta. split; [reflexivity|]. set (y := rnd _). destruct (qmin_spec y (pval (m_min m) a)) as (B1 & _). destruct (qmax_spec y (pval (m_max m) a)) as (B2 & _). rewrite (qmin_r _ _ B1), (qmax_r _ _ B2). auto.
Qed.
(** one command *)
Definition abs_if (m : machine) (g : gcode) : Prop := process_kind (gcls g) = PMove \/ process_kind (gcls g) = PCanned -> is_incremental m = false.
Definition modes_at (m : machine) (pl rt : option gcode) (g : gcode) : Prop := process_kind (gcls g) = PCanned -> gm_get (m_mode m) MG_plane_selection = pl /\ gm_get (m_mode m) MG_canned_cycles_return = rt.
Lemma set_for_early m g mg : process_kind (gcls g) = PMove \/ process_kind (gcls g) = PCanned -> early mg -> gm_get (m_mode (set_for m g)) mg = gm_get (m_mode m) mg.
Proof. intros K E. apply set_for_get. intros G. apply (early_exec _ _ E) in G. rewrite (kind_exec g K) in G. lia. Qed.
Lemma set_for_inc m g : process_kind (gcls g) = PMove \/ process_kind (gcls g) = PCanned -> is_incremental (set_for m g) = is_incremental m.
Proof. intros K. unfold is_incremental. rewrite set_for_early; auto. left. auto. Qed.
Lemma unoffset_set_for m g : unoffset m -> unoffset (set_for m g).
Proof. intros U. destruct (set_for_pos m g) as (P1 & P2 & P3 & P4 & P5). eapply unoffset_keeps; [exact U|]. destruct (set_for_state m g) as [Q1 Q2]. split; [auto|]. split; [auto|]. split; [auto|]. split; [auto|]. rewrite P1. auto. Qed.
Lemma step_can m0 pl rt g m m' : m_axes m = m_axes m0 -> sound m -> gcode_wf g -> abs_if m g -> modes_at m pl rt g -> gcode_process g m = (m', Ok tt) -> can m0 pl rt g.
Proof.
  intros AX S W AB MA E K. destruct (MA K) as [<- <-]. specialize (AB (or_intror K)). rewrite process_own in E by (auto; apply W). unfold gcode_process_own in E. rewrite K in E.
  pose proof (canned_aimed g (set_for m g) W) as CA. destruct (set_for_pos m g) as (_ & _ & _ & P4 & _).
  rewrite !set_for_early in CA by (try (right; exact K); unfold early; cbn [In]; auto). rewrite (coords_axes m0 (set_for m g) g) in CA by congruence.
  destruct (canned_aim _ _ _ _) as [[c n]|]; [|destruct CA as [e CA]; rewrite CA in E; discriminate E]. destruct CA as (CE & NP & ND). exists c, n. split; [reflexivity|]. rewrite CE in E.
  destruct n as [|n]; [lia|]. cbn [repeat_step] in E. unfold then_step in E. destruct (move_to_cases c (set_for m g) (set_for_sound m g S W) ND) as [(G & _)|(_ & e & X)]; [|rewrite X in E; discriminate E].
  assert (AI : is_incremental (set_for m g) = false) by (rewrite set_for_inc by (right; exact K); exact AB). pose proof (proj1 (good_abs (set_for m g) c AI) G) as G'. rewrite P4, AX in G'. exact G'.
Qed.
Lemma step_axis m0 pl rt g m : m_axes m = m_axes m0 -> sound m -> inside m -> gcode_wf g -> can m0 pl rt g -> unoffset m -> abs_if m g -> modes_at m pl rt g ->
  exists m', gcode_process g m = (m', Ok tt) /\ sound m' /\ inside m' /\ MachProofs2.keeps m m' /\ in_sync m' /\ m_mode m' = mode_effect (m_mode m) g /\ (gm_get (m_mode m') MG_coordinate_system = None -> m_state m' = m_state m) /\
    forall a, has (m_abs m) a -> has (m_abs m') a /\ pval (m_abs m') a = act (aim m0 pl rt) a g (pval (m_abs m) a) /\
      pval (m_min m') a = qmin (act (aim m0 pl rt) a g (pval (m_abs m) a)) (pval (m_min m) a) /\ pval (m_max m') a = qmax (act (aim m0 pl rt) a g (pval (m_abs m) a)) (pval (m_max m) a).
Proof.
  intros AX S I W C U AB MA. destruct (process_keeps g m S I W) as [(S1 & I1 & Y1) K1]. destruct (set_for_pos m g) as (P1 & P2 & P3 & P4 & P5). pose proof (unoffset_no _ (unoffset_set_for m g U)) as NO.
  assert (E : exists m', gcode_process g m = (m', Ok tt) /\ m_state m' = m_state (set_for m g) /\ forall a, has (m_abs m) a -> pval (m_abs m') a = act (aim m0 pl rt) a g (pval (m_abs m) a) /\
      pval (m_min m') a = qmin (act (aim m0 pl rt) a g (pval (m_abs m) a)) (pval (m_min m) a) /\ pval (m_max m') a = qmax (act (aim m0 pl rt) a g (pval (m_abs m) a)) (pval (m_max m) a)).
  { unfold act, aim. destruct (process_kind (gcls g)) eqn:K.
    2: { destruct (process_move g m S W K) as (m2 & E2 & (F & _ & _ & V & _ & R)). exists m2. split; auto. split; [apply F|]. intros a H. rewrite <- P1 in H. specialize (V a H). destruct (R a H) as [R1 R2]. rewrite P1, P2, P3 in *.
         rewrite shift_act in V by (auto; rewrite set_for_inc by (left; exact K); apply AB; left; exact K). rewrite (coords_axes m0 (set_for m g) g) in V by congruence. rewrite V in R1, R2. auto. }
    2: { destruct (C K) as (c & n & CE & GC). destruct (MA K) as [<- <-]. pose proof (canned_aimed g (set_for m g) W) as CA. rewrite !set_for_early in CA by (try (right; exact K); unfold early; cbn [In]; auto). rewrite (coords_axes m0 (set_for m g) g) in CA by congruence.
         rewrite CE in *. cbn [option_map fst]. destruct CA as (PE & NP & ND). destruct n as [|n]; [lia|].
         assert (AI : is_incremental (set_for m g) = false) by (rewrite set_for_inc by (right; exact K); apply AB; right; exact K).
         destruct (repeat_axis c n ND (set_for m g) (set_for_sound m g S W) (set_for_range m g I) NO AI) as (m2 & E2 & F & V). { apply (proj2 (good_abs (set_for m g) c AI)). rewrite P4, AX. exact GC. }
         exists m2. split; [rewrite process_own by (auto; apply W); unfold gcode_process_own; rewrite K, PE; exact E2|]. split; [apply F|]. intros a H. rewrite <- P1 in H. specialize (V a H). cbv zeta in V. rewrite P1, P2, P3 in V. exact V. }
    all: rewrite process_own by (auto; apply W); unfold gcode_process_own; rewrite K; eexists; split; [reflexivity|]; split; [reflexivity|]; intros a H; cbn [with_mode m_abs m_min m_max]; rewrite P1, P2, P3; destruct (inside_val m a S I H) as [L1 L2]; rewrite (qmin_r _ _ L1), (qmax_r _ _ L2); auto. }
  destruct E as (m' & E & FS & VV). exists m'. pose proof (process_mode g m m' S I W E) as M. split; auto. rewrite E in S1, I1, Y1, K1. cbn [fst] in *. split; auto. split; auto. split; auto. split; auto. split; auto.
  assert (HA : forall a, has (m_abs m) a -> has (m_abs m') a). { intros a H. destruct K1 as (KA & _). destruct S as ((_ & PA & _) & _), S1 as ((_ & PA' & _) & _). unfold has in *. rewrite PA', KA, <- PA. exact H. }
  split; [|intros a H; split; auto]. intros N. rewrite FS. unfold set_for, after_mode. replace (gm_get (set_effect (m_mode m) g) MG_coordinate_system) with (gm_get (m_mode m') MG_coordinate_system); [rewrite N; reflexivity|].
  rewrite M. unfold mode_effect. destruct (process_kind (gcls g)) eqn:K; auto. unfold set_effect. rewrite gm_get_set_other by discriminate. apply cancel_class in K. rewrite K. reflexivity.
Qed.
(** a list of commands in the order of execution *)
Definition in_order (gs : list gcode) : Prop := StronglySorted (fun a b => exec_order (gcls a) <= exec_order (gcls b)) gs.
Definition plain (gs : list gcode) : Prop := Forall gcode_wf gs /\ in_order gs.
Definition abs_at (o : option gcode) : Prop := forall g, o = Some g -> ~ derives (gcls g) GCodeIncrementalDistanceMode.
(** at a motion command the early groups are as they will be at the end *)
Lemma early_now mg g gs o : early mg -> in_order (g :: gs) -> process_kind (gcls g) = PMove \/ process_kind (gcls g) = PCanned -> fold_left (settle mg) (g :: gs) o = o.
Proof.
  intros E O K. inversion O as [|? ? O' L]; subst. apply settle_none. intros h [<-|Ih]; apply sets_early; auto; [rewrite (kind_exec g K); lia|]. rewrite Forall_forall in L. specialize (L _ Ih). rewrite (kind_exec g K) in L. exact L.
Qed.
Definition ends_in (gs : list gcode) (md : mode) (pl rt : option gcode) : Prop :=
  abs_at (fold_left (settle MG_distance) gs (gm_get md MG_distance)) /\ fold_left (settle MG_plane_selection) gs (gm_get md MG_plane_selection) = pl /\ fold_left (settle MG_canned_cycles_return) gs (gm_get md MG_canned_cycles_return) = rt.
Lemma ends_now g gs m pl rt : in_order (g :: gs) -> ends_in (g :: gs) (m_mode m) pl rt -> abs_if m g /\ modes_at m pl rt g.
Proof.
  intros O (A & B & C). split; intros K; [rewrite early_now in A by (auto; unfold early; cbn [In]; auto); apply absolute_is; exact A|]. rewrite early_now in B, C by (auto; unfold early; cbn [In]; auto). auto.
Qed.
Lemma ends_next g gs md pl rt : ends_in (g :: gs) md pl rt -> ends_in gs (mode_effect md g) pl rt.
Proof. unfold ends_in. rewrite !settle_effect. auto. Qed.
Lemma steps_can m0 pl rt gs : plain gs -> forall m m', m_axes m = m_axes m0 -> sound m -> inside m -> ends_in gs (m_mode m) pl rt -> steps (map gcode_process gs) m = (m', Ok tt) -> Forall (can m0 pl rt) gs.
Proof.
  induction gs as [|g gs IH]; intros (F & O) m m' AX S I EN E; constructor; inversion F as [|? ? W F']; subst; cbn [map steps] in E; unfold then_step in E; destruct (process_keeps g m S I W) as [(S1 & I1 & _) K1]; destruct (gcode_process g m) as [m1 [[]|e]] eqn:E1; try discriminate E; cbn [fst] in *.
  - destruct (ends_now _ _ _ _ _ O EN) as [A B]. eapply step_can; eauto.
  - inversion O as [|? ? O' L]; subst. eapply (IH (conj F' O')); [| | | |exact E]; auto; [destruct K1 as (KA & _); congruence|]. rewrite (process_mode g m m1 S I W E1). apply ends_next. exact EN.
Qed.
Lemma steps_axis m0 pl rt gs : plain gs -> Forall (can m0 pl rt) gs -> forall m, m_axes m = m_axes m0 -> sound m -> inside m -> unoffset m -> ends_in gs (m_mode m) pl rt ->
  exists m', steps (map gcode_process gs) m = (m', Ok tt) /\ sound m' /\ inside m' /\ MachProofs2.keeps m m' /\ (gs <> [] -> in_sync m') /\ m_mode m' = fold_left mode_effect gs (m_mode m) /\
    (fold_left (settle MG_coordinate_system) gs (gm_get (m_mode m) MG_coordinate_system) = None -> m_state m' = m_state m) /\
    forall a, has (m_abs m) a -> has (m_abs m') a /\ pval (m_abs m') a = acts (aim m0 pl rt) a gs (pval (m_abs m) a) /\ pval (m_min m') a = lows (aim m0 pl rt) a gs (pval (m_abs m) a) (pval (m_min m) a) /\ pval (m_max m') a = highs (aim m0 pl rt) a gs (pval (m_abs m) a) (pval (m_max m) a).
Proof.
  induction gs as [|g gs IH]; intros (F & O) C m AX S I U A; cbn [map steps fold_left acts lows highs].
  - exists m. split; auto. split; auto. split; auto. split; [apply keeps_refl|]. split; [intros N; destruct (N eq_refl)|]. split; [reflexivity|]. split; [reflexivity|]. intros a H. split; [exact H|]. auto.
  - destruct (ends_now _ _ _ _ _ O A) as [AB MA]. inversion F as [|? ? W F']; subst. inversion C as [|? ? NC C']; subst. inversion O as [|? ? O' L]; subst.
    destruct (step_axis m0 pl rt g m AX S I W NC U AB MA) as (m1 & E1 & S1 & I1 & K1 & Y1 & M1 & T1 & V1).
    destruct (IH (conj F' O') C' m1) as (m2 & E2 & S2 & I2 & K2 & Y2 & M2 & T2 & V2); auto.
    + destruct K1 as (KA & _). congruence.
    + eapply unoffset_keeps; eauto.
    + rewrite M1. apply ends_next. exact A.
    + exists m2. unfold then_step. rewrite E1. split; auto. split; auto. split; auto. split; [eapply keeps_trans; eauto|]. split. { intros _. destruct gs; [|apply Y2; discriminate]. cbn [map steps] in E2. injection E2 as <-. exact Y1. }
      split; [rewrite M2, M1; reflexivity|]. split.
      { intros N. rewrite T2; [apply T1|]; [|rewrite M1, settle_effect; exact N]. rewrite M1, settle_effect. clear - N. (* a group other than motion is never emptied *)
        revert N. generalize (settle MG_coordinate_system (gm_get (m_mode m) MG_coordinate_system) g). induction gs as [|h gs IH]; intros o N; cbn [fold_left] in N; auto. apply IH in N. unfold settle, sets in N. destruct (process_kind (gcls h)); auto; (destruct (modal_group (gcls h)) as [k|]; auto; destruct (mgroup_eqb k MG_coordinate_system); auto; discriminate N). }
      intros a H. destruct (V1 a H) as (H1 & Q1 & Q2 & Q3). destruct (V2 a H1) as (H2 & R1 & R2 & R3). rewrite R1, R2, R3, Q1, Q2, Q3. auto.
Qed.
(** the same commands again *)
Lemma steps_twice gs m m1 : plain gs -> sound m -> inside m -> unoffset m -> absolute m1 -> steps (map gcode_process gs) m = (m1, Ok tt) ->
  exists m2, steps (map gcode_process gs) m1 = (m2, Ok tt) /\ unchanged m1 m2.
Proof.
  intros P S I U A E.
  assert (M : m_mode m1 = fold_left mode_effect gs (m_mode m)). { destruct P as (F & _). destruct S as (_ & _ & _ & _ & _ & MW & _). destruct (steps_mode gs m m1 (Ok tt) MW) as (d & r & -> & Q & R); auto; [eapply Forall_impl; [|exact F]; intros g W; apply W|]. rewrite (R eq_refl), app_nil_r. exact Q. }
  set (pl := gm_get (m_mode m1) MG_plane_selection). set (rt := gm_get (m_mode m1) MG_canned_cycles_return).
  assert (AA : ends_in gs (m_mode m) pl rt). { unfold ends_in, pl, rt. rewrite <- !settle_effects, <- M. split; [exact A|auto]. }
  pose proof (steps_can m pl rt gs P m m1 eq_refl S I AA E) as CN.
  destruct (steps_axis m pl rt gs P CN m eq_refl S I U AA) as (m1' & E' & S1 & I1 & K1 & Y1 & _ & T1 & V1). rewrite E in E'. injection E' as <-.
  destruct (steps_axis m pl rt gs P CN m1) as (m2 & E2 & S2 & I2 & K2 & Y2 & M2 & T2 & V2); auto.
  - apply K1.
  - eapply unoffset_keeps; eauto.
  - unfold ends_in in *. rewrite M, !settle_effects, !settles_twice. exact AA.
  - exists m2. split; auto. assert (MM : forall mg, gm_get (m_mode m2) mg = gm_get (m_mode m1) mg). { intros mg. rewrite M2, M, !settle_effects. apply settles_twice. }
    split; auto. split.
    { destruct gs as [|g gs]; [cbn [map steps] in E2; injection E2 as <-; reflexivity|]. destruct (gm_get (m_mode m1) MG_coordinate_system) as [h|] eqn:Q.
      - pose proof (Y1 ltac:(discriminate) _ Q) as C1. pose proof (Y2 ltac:(discriminate) h ltac:(rewrite MM; exact Q)) as C2. destruct K2 as (_ & _ & Ka & Kb & _). destruct (m_state m1), (m_state m2). cbn in *. congruence.
      - apply T2. rewrite <- Q, <- (settle_effects MG_coordinate_system (g :: gs) (m_mode m1)), <- M2, MM. reflexivity. }
    destruct K2 as (Ka & Kb & _ & _ & Kc). split; auto. split; auto. split; auto. intros a H.
    assert (H1 : has (m_abs m1) a). { destruct S1 as ((_ & PA & _) & _). unfold has. rewrite PA. exact H. }
    assert (H0 : has (m_abs m) a). { destruct S as ((_ & PA & _) & _). destruct K1 as (KA & _). unfold has. rewrite PA, <- KA. exact H. }
    destruct (V1 a H0) as (_ & A1 & L1 & G1). destruct (V2 a H1) as (H2 & A2 & L2 & G2). destruct (inside_val m a S I H0) as [B1 B2].
    rewrite A1, acts_twice in A2. rewrite A1, L1, lows_twice in L2 by auto. rewrite A1, G1, highs_twice in G2 by auto.
    assert (Hn : has (m_min m1) a /\ has (m_min m2) a /\ has (m_max m1) a /\ has (m_max m2) a). { destruct S1 as (_ & (_ & X1 & _) & (_ & X2 & _) & _), S2 as (_ & (_ & X3 & _) & (_ & X4 & _) & _). auto. } destruct Hn as (N1 & N2 & N3 & N4).
    split; [exists (pval (m_abs m1) a)|split; [exists (pval (m_min m1) a)|exists (pval (m_max m1) a)]]; split; apply getattr_ok; split; auto; congruence.
Qed.
(** ** The motion mode after a line with bare words is the one they were read with *)
Lemma in_order_split k gs : in_order gs -> gs = filter (fun g => exec_order (gcls g) <? k) gs ++ filter (fun g => negb (exec_order (gcls g) <? k)) gs.
Proof.
  induction 1 as [|g gs O IH L]; cbn [filter app]; auto. destruct (exec_order (gcls g) <? k) eqn:K; cbn [negb app]; [rewrite <- IH; reflexivity|]. apply Z.ltb_ge in K.
  assert (N : filter (fun h => exec_order (gcls h) <? k) gs = []). { clear IH O. induction gs as [|h gs IH]; auto. inversion L; subst. cbn [filter]. replace (exec_order (gcls h) <? k) with false by (symmetry; apply Z.ltb_ge; lia). auto. }
  rewrite N in IH. rewrite N. cbn [app] in *. rewrite <- IH. reflexivity.
Qed.
Lemma sets_motion g : 242 <= exec_order (gcls g) -> exec_order (gcls g) <> 242 -> sets MG_motion g = None.
Proof. intros L N. unfold sets. destruct (gcls g); vm_compute in L, N; try (destruct (L eq_refl)); try (destruct (N eq_refl)); vm_compute; reflexivity. Qed.
Lemma motion_exec g : in_group MG_motion g -> exec_order (gcls g) = 242 /\ sets MG_motion g = Some (Some (modal_of g)).
Proof. unfold in_group, sets. intros G. rewrite G. split; [revert G; destruct (gcls g); vm_compute; intros H; try discriminate H; reflexivity|]. destruct (process_kind (gcls g)) eqn:K; try reflexivity. apply cancel_class in K. rewrite K in G. discriminate G. Qed.
Lemma motion_after bs g o : in_group MG_motion g -> fold_left (settle MG_motion) (sort_gcodes (bs ++ [g])) o = Some (modal_of g).
Proof.
  intros G. destruct (motion_exec g G) as [K Z]. destruct (C25_sorted (bs ++ [g])) as (_ & O & F). rewrite (in_order_split 242 _ O) at 1. rewrite fold_left_app. generalize (fold_left (settle MG_motion) (filter (fun g0 => exec_order (gcls g0) <? 242) (sort_gcodes (bs ++ [g]))) o). intros o'.
  rewrite (settle_filter MG_motion (fun h => exec_order (gcls h) =? 242)).
  - assert (FF : forall l, filter (fun h => exec_order (gcls h) =? 242) (filter (fun h => negb (exec_order (gcls h) <? 242)) l) = filter (fun h => exec_order (gcls h) =? 242) l).
    { induction l as [|h l IH]; cbn [filter]; auto. destruct (exec_order (gcls h) <? 242) eqn:Q; cbn [negb filter]; rewrite IH; auto. apply Z.ltb_lt in Q. replace (exec_order (gcls h) =? 242) with false; auto. symmetry. apply Z.eqb_neq. lia. }
    rewrite FF, F, filter_app. cbn [filter]. rewrite K. cbn [Z.eqb Pos.eqb]. rewrite fold_left_app. cbn [fold_left]. unfold settle at 1. rewrite Z. reflexivity.
  - intros h I Q. apply filter_In in I as [_ I]. apply sets_motion; [apply negb_true_iff, Z.ltb_ge in I; exact I|apply Z.eqb_neq; exact Q].
Qed.
Lemma remembers c k : modal_param_letters c <> [] -> accepts c k = true -> k <> LL -> accepts_modal c k = true.
Proof. destruct c; vm_compute; intros N; try (destruct (N eq_refl)); destruct k; intros A L; try discriminate A; try reflexivity; destruct (L eq_refl). Qed.
Lemma stored_no_params md mo : mode_wf md -> gm_get md MG_motion = Some mo -> modal_param_letters (gcls mo) = [] -> gparams mo = [].
Proof. intros W E N. destruct (W _ _ E) as (G & _ & _ & P). rewrite N in P. destruct (gparams mo) as [|kv l]; auto. destruct (P kv (or_introl eq_refl)). Qed.
(** updating a dictionary again with the same pairs *)
Lemma dict_ext (d d' : dict letter word) : map fst d = map fst d' -> NoDup (map fst d) -> (forall k, dget letter_eqb d k = dget letter_eqb d' k) -> d = d'.
Proof.
  revert d'. induction d as [|[k v] d IH]; intros [|[k' v'] d'] E N H; try discriminate E; auto. cbn [map fst] in E. injection E as <- E. inversion N as [|? ? N1 N2]; subst. pose proof (H k) as Q. cbn [dget] in Q. rewrite letter_eqb_refl in Q. injection Q as <-. f_equal. apply IH; auto.
  intros k'. specialize (H k'). cbn [dget] in H. destruct (letter_eqb k' k) eqn:K; auto. apply letter_eqb_eq in K. subst. rewrite (proj2 (dget_none _ _ _ letter_eqb_eq d k)) by auto. symmetry. apply (dget_none _ _ _ letter_eqb_eq). rewrite <- E. auto.
Qed.
Lemma dset_keys_has (d : dict letter word) k v : In k (map fst (dset letter_eqb d k v)).
Proof. induction d as [|[k' v'] d IH]; cbn [dset map fst]; [left; auto|]. destruct (letter_eqb k k') eqn:E; cbn [map fst]; [apply letter_eqb_eq in E; left; auto|right; auto]. Qed.
Lemma dset_keys_keep (d : dict letter word) k v x : In x (map fst d) -> In x (map fst (dset letter_eqb d k v)).
Proof. induction d as [|[k' v'] d IH]; cbn [dset map fst]; [intros []|]. destruct (letter_eqb k k'); cbn [map fst]; intros [->|I]; [left; auto|right; auto|left; auto|right; auto]. Qed.
Lemma dupdate_keys_keep l : forall (d : dict letter word) x, In x (map fst d) -> In x (map fst (dupdate letter_eqb d l)).
Proof. unfold dupdate. induction l as [|kv l IH]; intros d x I; cbn [fold_left]; auto. apply IH, dset_keys_keep, I. Qed.
Lemma dupdate_keys_has l : forall (d : dict letter word) kv, In kv l -> In (fst kv) (map fst (dupdate letter_eqb d l)).
Proof. induction l as [|p l IH]; intros d kv I; [destruct I|]. destruct I as [<-|I]; unfold dupdate; cbn [fold_left]; [apply dupdate_keys_keep, dset_keys_has|apply IH; auto]. Qed.
Lemma dupdate_keys_same l : forall d : dict letter word, (forall kv, In kv l -> In (fst kv) (map fst d)) -> map fst (dupdate letter_eqb d l) = map fst d.
Proof.
  unfold dupdate. induction l as [|p l IH]; intros d H; cbn [fold_left]; auto. assert (E : map fst (dset letter_eqb d (fst p) (snd p)) = map fst d) by (apply (dset_keys_in _ _ _ letter_eqb_eq), H; left; auto). rewrite IH; auto. intros kv I. rewrite E. apply H. right. auto.
Qed.
Lemma dupdate_twice (d : dict letter word) l : NoDup (map fst d) -> dupdate letter_eqb (dupdate letter_eqb d l) l = dupdate letter_eqb d l.
Proof.
  intros N. symmetry. apply dict_ext; [symmetry; apply dupdate_keys_same; intros; apply dupdate_keys_has; auto|apply (dupdate_nodup _ _ _ letter_eqb_eq); auto|]. intros k. rewrite !(dget_dupdate _ _ _ letter_eqb_eq). destruct (dget letter_eqb (rev l) k); auto.
Qed.
Lemma filter_dset (p : letter -> bool) k v (d : dict letter word) : filter (fun kv => p (fst kv)) (dset letter_eqb d k v) = if p k then dset letter_eqb (filter (fun kv => p (fst kv)) d) k v else filter (fun kv => p (fst kv)) d.
Proof.
  induction d as [|[k' v'] d IH]; cbn [dset filter fst]; [destruct (p k); reflexivity|]. destruct (letter_eqb k k') eqn:E; cbn [filter fst].
  - apply letter_eqb_eq in E. subst k'. destruct (p k); auto. cbn [dset]. rewrite letter_eqb_refl. reflexivity.
  - rewrite IH. destruct (p k'), (p k); cbn [dset]; rewrite ?E; reflexivity.
Qed.
Lemma filter_dupdate (p : letter -> bool) l : forall d : dict letter word, filter (fun kv => p (fst kv)) (dupdate letter_eqb d l) = dupdate letter_eqb (filter (fun kv => p (fst kv)) d) (filter (fun kv => p (fst kv)) l).
Proof. unfold dupdate. induction l as [|q l IH]; intros d; cbn [fold_left filter]; auto. rewrite IH, filter_dset. destruct (p (fst q)); reflexivity. Qed.
Lemma filter_dupdate_twice (p : letter -> bool) l (d : dict letter word) : NoDup (map fst d) ->
  filter (fun kv => p (fst kv)) (dupdate letter_eqb (filter (fun kv => p (fst kv)) (dupdate letter_eqb d l)) l) = filter (fun kv => p (fst kv)) (dupdate letter_eqb d l).
Proof.
  intros N. assert (FF : forall e : dict letter word, filter (fun kv => p (fst kv)) (filter (fun kv => p (fst kv)) e) = filter (fun kv => p (fst kv)) e). { induction e as [|q e IH]; cbn [filter]; auto. destruct (p (fst q)) eqn:Q; cbn [filter]; rewrite ?Q, IH; reflexivity. }
  rewrite (filter_dupdate p l (filter _ _)), FF, filter_dupdate. apply dupdate_twice. clear - N. induction d as [|[k v] d IH]; cbn [filter map fst]; auto. inversion N; subst. destruct (p k); cbn [map fst]; auto. constructor; auto. intros I. apply H1. apply in_map_iff in I as (kv & <- & I). apply filter_In in I as [I _]. apply in_map. exact I.
Qed.
Lemma modal_gcode_again m m1 ps g bs : sound m -> sound m1 -> words2gcodes ps = Ok ([], ps) -> machine_modal_gcode m ps = Ok (Some g) -> (forall mo, gm_get (m_mode m) MG_motion = Some mo -> no_bare_l mo ps) -> m_ignore m1 = m_ignore m ->
  gm_get (m_mode m1) MG_motion = fold_left (settle MG_motion) (sort_gcodes (bs ++ [g])) (gm_get (m_mode m) MG_motion) -> machine_modal_gcode m1 ps = machine_modal_gcode m ps.
Proof.
  intros S S1 B H NC IG MO. apply bare_iff in B. destruct ps as [|p0 ps0]; [discriminate H|]. remember (p0 :: ps0) as ps. assert (NE : ps <> []) by (subst; discriminate).
  destruct (gm_get (m_mode m) MG_motion) as [mo|] eqn:E; [|rewrite modal_gcode_none in H by auto; destruct (m_ignore m); discriminate H]. specialize (NC mo eq_refl).
  destruct (sound_motion ar m mo S E) as [L P]. pose proof (modal_gcode_spec m mo ps E L P B NE) as SP. pose proof H as H'. rewrite SP in H'. destruct (existsb (unfit (gcls mo)) ps && negb (m_ignore m)) eqn:UF in H'; [discriminate|]. injection H' as <-.
  pose proof S as (_ & _ & _ & _ & _ & MW & _). pose proof S1 as (_ & _ & _ & _ & _ & MW1 & _). destruct (MW _ _ E) as (G & _ & _ & MP).
  rewrite motion_after in MO by exact G. pose proof (sound_motion ar m1 _ S1 MO) as [L1 P1]. rewrite (modal_gcode_spec m1 _ ps MO L1 P1 B NE), H, IG. cbn [modal_of gcls gword]. rewrite UF. do 3 f_equal.
  assert (LT : forall e : gcode, legal e -> filter (fun kv => fit (gcls mo) (snd kv)) (updated e ps) = filter (fun kv => accepts (gcls mo) (fst kv)) (updated e ps)).
  { intros e Le. apply filter_ext_in. intros kv I. destruct (updated_in e ps kv Le I) as [Q _]. unfold fit. rewrite Q. reflexivity. }
  assert (K : modal_param_letters (gcls mo) <> [] \/ modal_param_letters (gcls mo) = []) by (destruct (modal_param_letters (gcls mo)); auto; left; discriminate). destruct K as [K|K].
  - assert (R : filter (fun kv => accepts_modal (gcls mo) (fst kv)) (filter (fun kv => fit (gcls mo) (snd kv)) (updated mo ps)) = filter (fun kv => fit (gcls mo) (snd kv)) (updated mo ps)).
    { apply filter_all. intros kv I. apply filter_In in I as [I F]. destruct (updated_in mo ps kv L I) as [Q [J|J]]; [apply accepts_modal_iff, MP; exact J|]. rewrite Q. apply remembers; auto. }
    cbn [modal_of] in L1. unfold modal_of in *. cbn [gcls gword gparams] in *. rewrite R in *. rewrite (LT _ L1), !(LT _ L). unfold updated. cbn [gparams]. apply filter_dupdate_twice. apply L.
  - assert (R : gparams (modal_of (MkGCode (gcls mo) (gword mo) (filter (fun kv => fit (gcls mo) (snd kv)) (updated mo ps)) false)) = gparams mo).
    { rewrite (stored_no_params _ _ MW E K). apply (stored_no_params _ _ MW1 MO K). }
    unfold updated at 1. rewrite R. reflexivity.
Qed.
End WithArith.
