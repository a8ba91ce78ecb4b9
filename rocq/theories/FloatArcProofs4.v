(** In incremental mode the thousandths of the moves add up to those of the arc. *)
From Coq Require Import List Bool ZArith QArith Qcanon Qabs Lia Lqa.
From Verif Require Import Base Num Words GTable GCode Position Machine Transform BaseFacts NumFacts WordOrder PrintSpec PrintProofs GCodeSpec GCodeProofs GTableProofs PropsGCode ArithSpec Float64 MachSpec MachProofs CannedProofs DrillProofs FloatArc FloatArcSpec FloatArcSpec2 FloatArcProofs FloatArcProofs2.
From Verif Require Arc.
Import ListNotations.
Open Scope Z_scope.

Section WithArith.
Context {ar : Arith} (L : mathlib) (acc : accurate ar) (LW : lawful L) (MO : monotone ar) (B u : Q) (WI : rounds_within ar B u).
(** the thousandths of the steps *)
Fixpoint steps_k (c : Qc) (xs : list Qc) : list Z := match xs with [] => [] | x :: xs => let k := rhe (this (fsub x c) * 1000) in k :: steps_k (fadd c (rnd (frac k 1000))) xs end.
Lemma steps_k_spec xs : forall c, steps1 c xs = map (fun k => rnd (frac k 1000)) (steps_k c xs).
Proof. induction xs as [|x xs IH]; intros c; [reflexivity|]. cbn [steps1 steps_k map]. rewrite <- IH. reflexivity. Qed.
Fixpoint zsum (ks : list Z) : Z := match ks with [] => 0 | k :: ks => k + zsum ks end.
Lemma zsum_app a b : zsum (a ++ b) = zsum a + zsum b. Proof. induction a; cbn; lia. Qed.
Lemma counts_map a vs ks : In a [AX; AY; AZ] -> map (coord a) vs = map (fun k => rnd (frac k 1000)) ks -> counts (map g1 vs) a (zsum ks).
Proof.
  intros I. revert ks. induction vs as [|v vs IH]; intros [|k ks] E; try discriminate E; cbn [map zsum]; [constructor|]. injection E as E1 E2. constructor; [rewrite <- E1; apply g1_names; auto|auto].
Qed.
Lemma rounds4 x : (- B <= this x <= B)%Q -> (- u <= this (rnd x) - this x <= u)%Q.
Proof. intros H. assert (Q := WI x ltac:(apply Qabs_bounds; exact H)). rewrite this_sub in Q. apply Qabs_bounds in Q. exact Q. Qed.
(** a number whose rounding is well within [B] is within [B] *)
Lemma within_inv x : (0 <= B)%Q -> (u <= 1 # 4)%Q -> (- (B - 1) <= this (rnd x) <= B - 1)%Q -> (- B <= this x <= B)%Q.
Proof.
  intros B0 U H. assert (TB : (this (Q2Qc B) == B)%Q) by (cbn [this Q2Qc]; apply Qred_correct). split.
  - destruct (Qlt_le_dec (this x) (- B)) as [C|C]; auto. exfalso. assert (LE : (x <= - Q2Qc B)%Qc) by (unfold Qcle; rewrite this_opp, TB; lra). apply MO in LE. unfold Qcle in LE. pose proof (rounds4 (- Q2Qc B)%Qc) as R. rewrite this_opp, TB in R. specialize (R ltac:(lra)). lra.
  - destruct (Qlt_le_dec B (this x)) as [C|C]; auto. exfalso. assert (LE : (Q2Qc B <= x)%Qc) by (unfold Qcle; rewrite TB; lra). apply MO in LE. unfold Qcle in LE. pose proof (rounds4 (Q2Qc B)) as R. rewrite TB in R. specialize (R ltac:(lra)). lra.
Qed.
Lemma this_thousandth k : (this (frac k 1000) == inject_Z k * (1 # 1000))%Q.
Proof. rewrite this_frac. unfold Qeq. cbn. lia. Qed.
Lemma sum_near ks : (0 <= B)%Q -> (0 <= u)%Q -> (u <= 1 # 4)%Q -> Forall (fun k => (- (B - 1) <= this (rnd (frac k 1000)) <= B - 1)%Q) ks ->
  let e := (count (length ks) * u)%Q in (- e <= this (sum1 (map (fun k => rnd (frac k 1000)) ks)) - inject_Z (zsum ks) * (1 # 1000) <= e)%Q.
Proof.
  intros B0 U0 U F. induction F as [|k ks H F IH]; cbn zeta in *; cbn [map sum1 zsum length].
  - change (this (Q2Qc 0)) with 0%Q. change (count 0) with 0%Q. change (inject_Z 0) with 0%Q. lra.
  - rewrite this_add, inject_Z_plus, count_S. pose proof (rounds4 _ (within_inv _ B0 U H)) as R. rewrite this_thousandth in R. lra.
Qed.
Lemma decimal_end g p plane meth dist adist e moves a c N : idempotent ar -> gcode_wf g -> in_incremental dist -> linearize_arc L g p plane meth dist adist e = (moves, Ok tt) ->
  In a [AX; AY; AZ] -> vget (pvals p) a = Some c -> leads g a (rnd (frac N 1000)) ->
  (Qabs (c + rnd (frac N 1000))%Qc <= B / 2 - 1)%Q -> (forall before after t, moves = before ++ after -> total before a t -> Qabs (c + t)%Qc <= B / 2 - 1)%Q -> ((count (length moves) + 3) * u <= 1 # 8000)%Q ->
  counts moves a N.
Proof.
  set (d := rnd (frac N 1000)). intros ID W D E I V LD BD BP K. destruct (arc_form _ _ _ _ _ _ _ _ _ _ E) as [->|(ab & ai & pl & a0 & f & m & -> & AB & AR & A & R & M)].
  { exfalso. unfold linearize_arc in E. destruct meth as [m|]; [|discriminate]. destruct (_ || _); [discriminate|]. destruct (arc_of L g p _ _ _ _) as [[a' f]|]; [|discriminate].
    destruct (line_ends L m f) as [vs r] eqn:Q. cbn [fst snd] in E. assert (r = Ok tt) by (destruct (subclass _ GCodeAbsoluteDistanceMode); [rewrite absolute_all in E|rewrite relative_all in E]; apply pair_equal_spec in E as [_ E]; exact E). subst r.
    destruct (line_ends_last L m f vs Q) as (b & ->). rewrite dist_incremental in E by auto. rewrite relative_all in E. apply pair_equal_spec in E as [E _]. destruct b; discriminate E. }
  rewrite dist_incremental in AB by auto. subst ab. destruct (arc_of_end L acc LW g p pl false ai e a0 f) as (b & EN & AD); [|exact A|].
  { intros a' b' EN. apply ends_incremental in EN as (_ & x & y & z & _ & _ & _ & ->); auto. repeat split; cbn [fx fy fz add3]; apply ID. }
  apply ends_incremental in EN as (VO & x & y & z & LX' & LY' & LZ' & EB); auto.
  assert (CB : coord a a0 = c /\ coord a b = fadd c d).
  { unfold vector_of in VO. destruct (vget (pvals p) AX) as [x0|] eqn:VX; [|discriminate]. destruct (vget (pvals p) AY) as [y0|] eqn:VY; [|discriminate]. destruct (vget (pvals p) AZ) as [z0|] eqn:VZ; [|discriminate]. injection VO as <-. subst b. cbn [add3 fx fy fz].
    destruct I as [<-|[<-|[<-|[]]]]; cbn [coord fx fy fz]; rewrite V in *; [injection VX as <-; rewrite (leads_fun g AX x d)|injection VY as <-; rewrite (leads_fun g AY y d)|injection VZ as <-; rewrite (leads_fun g AZ z d)]; auto. }
  destruct CB as [CA CB]. destruct (line_ends L m f) as [vs r] eqn:Q. cbn [fst snd] in *. subst r. destruct (line_ends_last L m f vs Q) as (bs & ->). rewrite AD in M. clear Q E.
  assert (P : map (coord a) (deltas a0 (bs ++ [b])) = steps1 c (map (coord a) bs) ++ [round3 (fsub (fadd c d) (stop1 c (map (coord a) bs)))]).
  { rewrite steps_coord, map_app by auto. cbn [map]. rewrite CA, CB. apply steps_app. }
  set (xs := map (coord a) bs) in *. set (q := stop1 c xs) in *. unfold round3 in P. set (z1 := rhe (this (fsub (fadd c d) q) * 1000)) in *.
  assert (LE : length moves = S (length xs)). { rewrite M, map_length, <- (map_length (coord a)), P, app_length, steps_len. cbn [length]. lia. }
  assert (PRE : forall before after, steps1 c xs = before ++ after -> (- (B / 2 - 1) <= this c + this (sum1 before) <= B / 2 - 1)%Q).
  { intros before after S1. assert (DE : exists b1 b2, deltas a0 (bs ++ [b]) = b1 ++ b2 /\ map (coord a) b1 = before).
    { exists (firstn (length before) (deltas a0 (bs ++ [b]))), (skipn (length before) (deltas a0 (bs ++ [b]))). split; [symmetry; apply firstn_skipn|]. rewrite <- firstn_map, P, S1, <- app_assoc. rewrite firstn_app, Nat.sub_diag, firstn_all. cbn [firstn]. apply app_nil_r. }
    destruct DE as (b1 & b2 & DE & MB). assert (Q := BP (map g1 b1) (map g1 b2) (sum1 before)). rewrite M, DE, map_app in Q. specialize (Q eq_refl). rewrite <- MB in Q |- *. assert (Q' := Q (proj2 (total_sum a b1 _ I) eq_refl)). rewrite this_add in Q'. apply Qabs_bounds in Q'. exact Q'. }
  rewrite LE, count_S in K. pose proof (count_pos (length xs)) as K0.
  assert (C0 := PRE [] (steps1 c xs) eq_refl). cbn [sum1] in C0. change (this (Q2Qc 0)) with 0%Q in C0. rewrite this_add in BD. apply Qabs_bounds in BD.
  assert (HB : (B / 2 == B * (1 # 2))%Q) by (unfold Qdiv; reflexivity). assert (U : (0 <= u)%Q) by (apply (u_pos B u WI); lra).
  assert (DR := drift B u WI (B / 2 - 1) xs ltac:(lra) c c 0%nat). change (count 0) with 0%Q in DR. cbn zeta in DR.
  assert (DR' : (- ((0 + count (length xs)) * u) <= this q - (this c + this (sum1 (steps1 c xs))) <= (0 + count (length xs)) * u)%Q) by (apply DR; [exact PRE|nra|lra]). clear DR.
  assert (PL := PRE (steps1 c xs) [] ltac:(symmetry; apply app_nil_r)).
  assert (KU : ((0 + count (length xs)) * u <= 1 # 4)%Q) by nra. assert (U4 : (u <= 1 # 4)%Q) by nra.
  assert (R1 := rounds4 (c + d)%Qc). rewrite this_add in R1. fold (fadd c d) in R1. specialize (R1 ltac:(lra)).
  assert (R2 := rounds4 (fadd c d - q)%Qc). rewrite this_sub in R2. fold (fsub (fadd c d) q) in R2. specialize (R2 ltac:(lra)).
  assert (RD : (- u <= this d - inject_Z N * (1 # 1000) <= u)%Q). { rewrite <- this_thousandth. apply rounds4, within_inv; [lra|lra|]. fold d. lra. }
  assert (SN : let e := (count (length (steps_k c xs)) * u)%Q in (- e <= this (sum1 (map (fun k => rnd (frac k 1000)) (steps_k c xs))) - inject_Z (zsum (steps_k c xs)) * (1 # 1000) <= e)%Q).
  { apply sum_near; [lra|lra|lra|]. apply Forall_forall. intros k J. apply in_split in J as (k1 & k2 & J). assert (S1 := steps_k_spec xs c). rewrite J, map_app in S1. cbn [map] in S1.
    pose proof (PRE _ _ S1) as Q1. assert (S2 : steps1 c xs = (map (fun k => rnd (frac k 1000)) k1 ++ [rnd (frac k 1000)]) ++ map (fun k => rnd (frac k 1000)) k2) by (rewrite <- app_assoc; exact S1). pose proof (PRE _ _ S2) as Q2. rewrite sum_app, this_add in Q2. cbn [sum1] in Q2. rewrite this_add in Q2. change (this (Q2Qc 0)) with 0%Q in Q2. lra. }
  cbn zeta in SN. rewrite <- steps_k_spec in SN. assert (LK : length (steps_k c xs) = length xs) by (clear; revert c; induction xs as [|x xs IH]; intros c; cbn; auto). rewrite LK in SN.
  assert (Z1 : z1 = N - zsum (steps_k c xs)).
  { apply rhe_near. unfold Z.sub. rewrite inject_Z_plus, inject_Z_opp. nra. }
  rewrite M. replace N with (zsum (steps_k c xs ++ [z1])) by (rewrite zsum_app; cbn [zsum]; lia). apply counts_map; auto. rewrite P, map_app, <- steps_k_spec. reflexivity.
Qed.
End WithArith.
