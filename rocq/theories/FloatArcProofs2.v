(** linearize_arc on floats: where the moves lead. *)
From Coq Require Import List Bool ZArith QArith Qcanon Qabs Lia Lqa.
From Verif Require Import Base Num Words GTable GCode Position Machine Transform BaseFacts NumFacts WordOrder PrintSpec PrintProofs GCodeSpec GCodeProofs GTableProofs PropsGCode ArithSpec Float64 MachSpec MachProofs CannedProofs DrillProofs FloatArc FloatArcSpec FloatArcProofs.
From Verif Require Arc.
Import ListNotations.
Open Scope Z_scope.

Section WithArith.
Context {ar : Arith} (L : mathlib) (acc : accurate ar).
Lemma g1_class : word_gcode_class (gword (g1 (FV zero zero zero))) = Some GCodeLinearMove.
Proof.
  change (gword (g1 (FV zero zero zero))) with (Word LG (VFloat (rnd (Qc_of_Z 1)))). replace (Qc_of_Z 1) with (frac 10 10) by (apply Qceqb_eq; reflexivity).
  apply (word_class_doc acc); [exact I|]. right. exists 10%Z, 10%Z. split; [right; left; reflexivity|]. eexists. split; [reflexivity|]. split; apply Qcle_refl.
Qed.
Lemma g1_linear v : linear_to (g1 v) (fx v) (fy v) (fz v).
Proof.
  split; [reflexivity|]. split; [|split; reflexivity]. split; [split|].
  - cbn [gparams gcls g1]. repeat constructor; try reflexivity; apply accepts_iff; reflexivity.
  - cbn [gparams g1 map fst]. repeat constructor; cbn; intuition discriminate.
  - split; [exact g1_class|]. split; [exact I|]. cbn [gparams g1]. repeat constructor.
Qed.
Definition coord (a : axis) (v : fvec) : Qc := match a with AX => fx v | AY => fy v | _ => fz v end.
Lemma g1_names v a x : In a [AX; AY; AZ] -> names (g1 v) a x <-> x = coord a v.
Proof.
  intros I. unfold names. cbn [gparams g1]. split.
  - intros (w & J & V). destruct I as [<-|[<-|[<-|[]]]]; cbn [axis_letter coord] in *; destruct J as [J|[J|[J|[]]]]; try discriminate J; injection J as <-; cbn in V; congruence.
  - intros ->. exists (Word (axis_letter a) (VFloat (coord a v))). split; auto. destruct I as [<-|[<-|[<-|[]]]]; cbn; auto.
Qed.
(** ** the moves *)
Lemma dist_absolute dist : in_absolute dist -> subclass (match dist with Some c => c | None => GCodeAbsoluteDistanceMode end) GCodeAbsoluteDistanceMode = true.
Proof. intros [->|(c & -> & D)]; [reflexivity|]. apply subclass_derives. exact D. Qed.
Lemma dist_incremental dist : in_incremental dist -> subclass (match dist with Some c => c | None => GCodeAbsoluteDistanceMode end) GCodeAbsoluteDistanceMode = false.
Proof. intros (c & -> & D). apply subclass_derives in D. destruct c; revert D; vm_compute; congruence. Qed.
Lemma arc_form g p plane meth dist adist e moves r : linearize_arc L g p plane meth dist adist e = (moves, r) ->
  moves = [] \/ exists ab ai pl a f m, meth = Some m /\ ab = subclass (match dist with Some c => c | None => GCodeAbsoluteDistanceMode end) GCodeAbsoluteDistanceMode /\
    derives (gcls g) GCodeArcMove /\ arc_of L g p pl ab ai e = Ok (a, f) /\ r = snd (line_ends L m f) /\ moves = map g1 (if ab then fst (line_ends L m f) else deltas a (fst (line_ends L m f))).
Proof.
  unfold linearize_arc. destruct meth as [m|]; [|unfold gen_raise; intros E; injection E as <- <-; auto]. destruct (_ || _) eqn:B; [unfold gen_raise; intros E; injection E as <- <-; auto|].
  apply orb_false_iff in B as [B _]. apply negb_false_iff in B. repeat (apply andb_prop in B as [B _]).
  destruct (arc_of L g p _ _ _ _) as [[a f]|] eqn:A; [|unfold gen_raise; intros E; injection E as <- <-; auto]. intros E. right. do 6 eexists. split; [reflexivity|]. split; [reflexivity|]. split; [apply subclass_derives; exact B|]. split; [exact A|].
  destruct (subclass _ GCodeAbsoluteDistanceMode).
  - rewrite absolute_all in E. apply pair_equal_spec in E as [<- <-]. auto.
  - rewrite relative_all in E. apply pair_equal_spec in E as [<- <-]. auto.
Qed.
Lemma moves_linear g p plane meth dist adist e moves r : linearize_arc L g p plane meth dist adist e = (moves, r) -> exists vs, moves = map g1 vs.
Proof. intros E. destruct (arc_form _ _ _ _ _ _ _ _ _ E) as [->|(ab & ai & pl & a & f & m & _ & _ & _ & _ & _ & ->)]; [exists []; auto|]. eauto. Qed.
Context (LW : lawful L).
Lemma absolute_end g p plane meth dist adist e moves : gcode_wf g -> float_arc g p -> in_absolute dist -> linearize_arc L g p plane meth dist adist e = (moves, Ok tt) ->
  exists vs v, moves = map g1 vs ++ [g1 v] /\ ends_at g p AX (fx v) /\ ends_at g p AY (fy v) /\ ends_at g p AZ (fz v).
Proof.
  intros W F D E. destruct (arc_form _ _ _ _ _ _ _ _ _ E) as [->|(ab & ai & pl & a & f & m & -> & AB & AR & A & R & M)].
  - exfalso. unfold linearize_arc in E. destruct meth as [m|]; [|discriminate]. destruct (_ || _); [discriminate|]. destruct (arc_of L g p _ _ _ _) as [[a f]|]; [|discriminate].
    destruct (line_ends L m f) as [vs r] eqn:Q. cbn [fst snd] in E. assert (r = Ok tt) by (destruct (subclass _ GCodeAbsoluteDistanceMode); [rewrite absolute_all in E|rewrite relative_all in E]; apply pair_equal_spec in E as [_ E]; exact E). subst r.
    destruct (line_ends_last L m f vs Q) as (b & ->). rewrite dist_absolute in E by auto. rewrite absolute_all, map_app in E. apply pair_equal_spec in E as [E _]. destruct (map g1 b); discriminate E.
  - rewrite dist_absolute in AB by auto. subst ab. destruct (arc_of_end L acc LW g p pl true ai e a f) as (b & EN & AD); [intros a' b' EN; apply (ends_absolute g p a' b' W F EN)|exact A|].
    destruct (line_ends L m f) as [vs r] eqn:Q. cbn [fst snd] in *. subst r. destruct (line_ends_last L m f vs Q) as (bs & ->). exists bs, b. destruct (ends_absolute g p a b W F EN) as (_ & X & Y & Z). rewrite map_app, AD in M. auto.
Qed.
(** ** increments on one axis *)
Fixpoint steps1 (c : Qc) (xs : list Qc) : list Qc := match xs with [] => [] | x :: xs => let d := round3 (fsub x c) in d :: steps1 (fadd c d) xs end.
Fixpoint stop1 (c : Qc) (xs : list Qc) : Qc := match xs with [] => c | x :: xs => stop1 (fadd c (round3 (fsub x c))) xs end.
Fixpoint sum1 (ds : list Qc) : Qc := match ds with [] => Q2Qc 0 | d :: ds => (d + sum1 ds)%Qc end.
Lemma steps_coord a vs : In a [AX; AY; AZ] -> forall c, map (coord a) (deltas c vs) = steps1 (coord a c) (map (coord a) vs).
Proof. intros I. induction vs as [|v vs IH]; intros c; [reflexivity|]. cbn [deltas map steps1]. rewrite IH. destruct I as [<-|[<-|[<-|[]]]]; reflexivity. Qed.
Lemma steps_app xs x : forall c, steps1 c (xs ++ [x]) = steps1 c xs ++ [round3 (fsub x (stop1 c xs))].
Proof. induction xs as [|y xs IH]; intros c; cbn; auto. rewrite IH. auto. Qed.
Lemma sum_app ds es : sum1 (ds ++ es) = (sum1 ds + sum1 es)%Qc.
Proof. induction ds as [|d ds IH]; cbn [sum1 app]; [change (Q2Qc 0) with 0%Qc; ring|]. rewrite IH. ring. Qed.
Lemma total_sum a vs s : In a [AX; AY; AZ] -> total (map g1 vs) a s <-> s = sum1 (map (coord a) vs).
Proof.
  intros I. revert s. induction vs as [|v vs IH]; intros s; cbn [map sum1].
  - split; [inversion 1; auto|intros ->; constructor].
  - split.
    + inversion 1 as [|? ? ? x s' N T|? ? ? ? N T]; subst.
      * apply g1_names in N; auto. subst x. apply IH in T. subst. auto.
      * exfalso. apply (N (coord a v)). apply g1_names; auto.
    + intros ->. constructor; [apply g1_names; auto|]. apply IH. auto.
Qed.
Lemma steps_len xs : forall c, length (steps1 c xs) = length xs. Proof. induction xs; cbn; auto. Qed.

Context (B u : Q) (WI : rounds_within ar B u).
Lemma u_pos : (0 <= B)%Q -> (0 <= u)%Q.
Proof. intros H. eapply Qle_trans; [apply Qabs_nonneg|]. apply (WI (Q2Qc 0)). exact H. Qed.
Lemma rounds x : (- B <= this x <= B)%Q -> (- u <= this (rnd x) - this x <= u)%Q.
Proof. intros H. assert (Q := WI x ltac:(apply Qabs_bounds; exact H)). rewrite this_sub in Q. apply Qabs_bounds in Q. exact Q. Qed.
Definition count (n : nat) : Q := inject_Z (Z.of_nat n).
Lemma count_S n : (count (S n) == count n + 1)%Q.
Proof. unfold count. rewrite Nat2Z.inj_succ. unfold Z.succ. rewrite inject_Z_plus. reflexivity. Qed.
Lemma count_pos n : (0 <= count n)%Q. Proof. unfold count. change 0%Q with (inject_Z 0). rewrite <- Zle_Qle. lia. Qed.
Lemma drift M xs : (M + (1 # 4) <= B)%Q -> forall cur c k,
  (forall before after, steps1 cur xs = before ++ after -> (- M <= this c + this (sum1 before) <= M)%Q) ->
  ((count k + count (length xs)) * u <= 1 # 4)%Q -> (- (count k * u) <= this cur - this c <= count k * u)%Q ->
  let e := ((count k + count (length xs)) * u)%Q in (- e <= this (stop1 cur xs) - (this c + this (sum1 (steps1 cur xs))) <= e)%Q.
Proof.
  intros MB. induction xs as [|x xs IH]; intros cur c k H K D; cbn [steps1 stop1 sum1 length].
  - cbn zeta. change (this (Q2Qc 0)) with 0%Q. change (count 0) with 0%Q. lra.
  - cbn zeta. set (d := round3 (fsub x cur)) in *. cbn [length] in K. rewrite count_S in K |- *. pose proof (count_pos k) as K0. pose proof (count_pos (length xs)) as K1.
    assert (M0 : (- M <= this c + 0 <= M)%Q) by (apply (H [] _ eq_refl)). assert (U : (0 <= u)%Q) by (apply u_pos; lra).
    assert (H1 : (- M <= this c + this d <= M)%Q).
    { assert (Q := H [d] (steps1 (fadd cur d) xs) eq_refl). cbn [sum1] in Q. rewrite this_add in Q. change (this (Q2Qc 0)) with 0%Q in Q. lra. }
    assert (KU : (count k * u <= 1 # 4)%Q) by nra.
    assert (R := rounds (cur + d)%Qc). rewrite this_add in R. fold (fadd cur d) in R. assert (R' := R ltac:(lra)). clear R.
    assert (IH' := IH (fadd cur d) (c + d)%Qc (S k)). cbn zeta in IH'. rewrite count_S, this_add in IH'. rewrite this_add.
    assert (G : (- ((count k + 1 + count (length xs)) * u) <= this (stop1 (fadd cur d) xs) - (this c + this d + this (sum1 (steps1 (fadd cur d) xs))) <= (count k + 1 + count (length xs)) * u)%Q).
    { apply IH'.
      - intros before after Q. assert (Q' := H (d :: before) after). cbn [steps1 app sum1] in Q'. rewrite this_add in Q'. fold d in Q'. rewrite Q in Q'. specialize (Q' eq_refl). rewrite this_add. lra.
      - lra.
      - assert ((count k + 1) * u == count k * u + u)%Q by ring. lra. }
    assert (((count k + 1 + count (length xs)) * u == (count k + (count (length xs) + 1)) * u)%Q) by ring. lra.
Qed.
Lemma round3_near x : (- (B - 1) <= this x <= B - 1)%Q -> (- (u + (1 # 2000)) <= this (round3 x) - this x <= u + (1 # 2000))%Q.
Proof.
  intros H. unfold round3. pose proof (rhe_err (this x * 1000)) as E. assert (R := rounds (frac (rhe (this x * 1000)) 1000)). rewrite this_frac in R.
  assert (T : (rhe (this x * 1000) # 1000 == inject_Z (rhe (this x * 1000)) * (1 # 1000))%Q) by (unfold Qeq; cbn; lia). rewrite T in R. specialize (R ltac:(lra)). lra.
Qed.
Lemma leads_fun g a x y : gcode_wf g -> leads g a x -> leads g a y -> x = y.
Proof.
  intros W [N|[N ->]] [N'|[N' ->]]; auto.
  - destruct N as (w & J & V), N' as (w' & J' & V'). apply (pget_in g _ _ (proj1 W)) in J, J'. congruence.
  - exfalso. apply (N' x). exact N.
  - exfalso. apply (N y). exact N'.
Qed.
Lemma incremental_end g p plane meth dist adist e moves a c d s : idempotent ar -> gcode_wf g -> in_incremental dist -> linearize_arc L g p plane meth dist adist e = (moves, Ok tt) ->
  In a [AX; AY; AZ] -> vget (pvals p) a = Some c -> leads g a d -> total moves a s ->
  (Qabs (c + d)%Qc <= B / 2 - 1)%Q -> (forall before after t, moves = before ++ after -> total before a t -> Qabs (c + t)%Qc <= B / 2 - 1)%Q -> (count (length moves) * u <= 1 # 4)%Q ->
  (Qabs (s - d)%Qc <= (1 # 2000) + (count (length moves) + 3) * u)%Q.
Proof.
  intros ID W D E I V LD T BD BP K. destruct (arc_form _ _ _ _ _ _ _ _ _ E) as [->|(ab & ai & pl & a0 & f & m & -> & AB & AR & A & R & M)].
  { exfalso. unfold linearize_arc in E. destruct meth as [m|]; [|discriminate]. destruct (_ || _); [discriminate|]. destruct (arc_of L g p _ _ _ _) as [[a' f]|]; [|discriminate].
    destruct (line_ends L m f) as [vs r] eqn:Q. cbn [fst snd] in E. assert (r = Ok tt) by (destruct (subclass _ GCodeAbsoluteDistanceMode); [rewrite absolute_all in E|rewrite relative_all in E]; apply pair_equal_spec in E as [_ E]; exact E). subst r.
    destruct (line_ends_last L m f vs Q) as (b & ->). rewrite dist_incremental in E by auto. rewrite relative_all in E. apply pair_equal_spec in E as [E _]. destruct b; discriminate E. }
  rewrite dist_incremental in AB by auto. subst ab. destruct (arc_of_end L acc LW g p pl false ai e a0 f) as (b & EN & AD); [|exact A|].
  { intros a' b' EN. apply ends_incremental in EN as (_ & x & y & z & _ & _ & _ & ->); auto. repeat split; cbn [fx fy fz add3]; apply ID. }
  apply ends_incremental in EN as (VO & x & y & z & LX' & LY' & LZ' & EB); auto.
  assert (CB : coord a a0 = c /\ coord a b = fadd c d).
  { unfold vector_of in VO. destruct (vget (pvals p) AX) as [x0|] eqn:VX; [|discriminate]. destruct (vget (pvals p) AY) as [y0|] eqn:VY; [|discriminate]. destruct (vget (pvals p) AZ) as [z0|] eqn:VZ; [|discriminate]. injection VO as <-. subst b. cbn [add3 fx fy fz].
    destruct I as [<-|[<-|[<-|[]]]]; cbn [coord fx fy fz]; rewrite V in *; [injection VX as <-; rewrite (leads_fun g AX x d)|injection VY as <-; rewrite (leads_fun g AY y d)|injection VZ as <-; rewrite (leads_fun g AZ z d)]; auto. }
  destruct CB as [CA CB]. destruct (line_ends L m f) as [vs r] eqn:Q. cbn [fst snd] in *. subst r. destruct (line_ends_last L m f vs Q) as (bs & ->). rewrite AD in M. clear Q E.
  assert (P : map (coord a) (deltas a0 (bs ++ [b])) = steps1 c (map (coord a) bs) ++ [round3 (fsub (fadd c d) (stop1 c (map (coord a) bs)))]).
  { rewrite steps_coord, map_app by auto. cbn [map]. rewrite CA, CB. apply steps_app. }
  set (xs := map (coord a) bs) in *. set (q := stop1 c xs) in *. set (z1 := round3 (fsub (fadd c d) q)) in *.
  assert (LE : length moves = S (length xs)). { rewrite M, map_length, <- (map_length (coord a)), P, app_length, steps_len. cbn [length]. lia. }
  rewrite M in T. apply total_sum in T; auto. rewrite P, sum_app in T. cbn [sum1] in T. rewrite LE, count_S in *. pose proof (count_pos (length xs)) as K0.
  assert (PRE : forall before after, steps1 c xs = before ++ after -> (- (B / 2 - 1) <= this c + this (sum1 before) <= B / 2 - 1)%Q).
  { intros before after S1. assert (DE : exists b1 b2, deltas a0 (bs ++ [b]) = b1 ++ b2 /\ map (coord a) b1 = before).
    { exists (firstn (length before) (deltas a0 (bs ++ [b]))), (skipn (length before) (deltas a0 (bs ++ [b]))). split; [symmetry; apply firstn_skipn|]. rewrite <- firstn_map, P, S1, <- app_assoc. rewrite firstn_app, Nat.sub_diag, firstn_all. cbn [firstn]. apply app_nil_r. }
    destruct DE as (b1 & b2 & DE & MB). assert (Q := BP (map g1 b1) (map g1 b2) (sum1 before)). rewrite M, DE, map_app in Q. specialize (Q eq_refl). rewrite <- MB in Q |- *. assert (Q' := Q (proj2 (total_sum a b1 _ I) eq_refl)). rewrite this_add in Q'. apply Qabs_bounds in Q'. exact Q'. }
  assert (C0 := PRE [] (steps1 c xs) eq_refl). cbn [sum1] in C0. change (this (Q2Qc 0)) with 0%Q in C0. rewrite this_add in BD. apply Qabs_bounds in BD.
  assert (HB : (B / 2 == B * (1 # 2))%Q) by (unfold Qdiv; reflexivity). assert (U : (0 <= u)%Q) by (apply u_pos; lra).
  assert (DR := drift (B / 2 - 1) xs ltac:(lra) c c 0%nat). change (count 0) with 0%Q in DR. cbn zeta in DR.
  assert (DR' : (- ((0 + count (length xs)) * u) <= this q - (this c + this (sum1 (steps1 c xs))) <= (0 + count (length xs)) * u)%Q) by (apply DR; [exact PRE|nra|lra]). clear DR.
  assert (PL := PRE (steps1 c xs) [] ltac:(symmetry; apply app_nil_r)).
  assert (KU : ((0 + count (length xs)) * u <= 1 # 4)%Q) by nra. assert (U4 : (u <= 1 # 4)%Q) by nra.
  assert (R1 := rounds (c + d)%Qc). rewrite this_add in R1. fold (fadd c d) in R1. specialize (R1 ltac:(lra)).
  assert (R2 := rounds (fadd c d - q)%Qc). rewrite this_sub in R2. fold (fsub (fadd c d) q) in R2. specialize (R2 ltac:(lra)).
  assert (R3 := round3_near (fsub (fadd c d) q)). fold z1 in R3. specialize (R3 ltac:(lra)).
  rewrite this_sub, T, !this_add. change (this (Q2Qc 0)) with 0%Q. apply Qabs_bounds.
  assert (EQ : ((count (length xs) + 1 + 3) * u == (0 + count (length xs)) * u + 4 * u)%Q) by ring. lra.
Qed.
End WithArith.
