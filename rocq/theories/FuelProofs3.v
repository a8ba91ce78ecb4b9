(** When the expansion of a cycle ends. *)
From Coq Require Import Ascii String List Bool Arith ZArith QArith Qabs Qcanon Lia Permutation.
From Verif Require Import Base Num Regex Words GTable GCode Line Position Machine BaseFacts WordOrder WordsSpec WordsProofs LineSpec LineProofs GCodeSpec GCodeProofs GCodeProofs2 PropsGCode ArithSpec PrintSpec PrintProofs
  PosSpec PosProofs ModeSpec ModeProofs MachSpec MachProofs MachProofs2 MachProofs3 Transform Arc FloatArc DrillSpec DrillProofs DrillProofs2 DrillProofs4 Float64 Scripts ScriptArgs StopSpec StopProofs ScriptsProofs4 ScriptsProofs15 FuelSpec FuelProofs FuelProofs2.
Import ListNotations.

Section WithArith.
Context {ar : Arith}.
Definition getnum (g : gcode) (l : letter) : option Qc := match gcode_getattr g l with Ok v => number v | Raise _ => None end.
Definition pecks (g : gcode) : bool := subclass (gcls g) GCodeDrillingCyclePeck || subclass (gcls g) GCodeDrillingCycleChipBreaking.
(** the retract height, the depth and the step *)
Definition plan (g : gcode) (start : position) (incr : bool) : option (Qc * Qc * Qc) :=
  match getnum g LR, getnum g LZ with
  | Some R, Some Z =>
      match (if incr then match pos_getattr start AZ with Ok z => Some (fadd z R, fadd (fadd z R) Z) | Raise _ => None end else Some (R, Z)) with
      | Some (r, d) => match (if pecks g then option_map (fun q => - fabs q)%Qc (getnum g LQ) else Some (fsub d r)) with Some delta => Some (r, d, delta) | None => None end
      | None => None
      end
  | _, _ => None
  end.
Lemma getnum_need g l (v : option value) x : gcode_getattr g l = Ok v -> need (number v) = Ok x -> getnum g l = Some x.
Proof. intros E. unfold getnum. rewrite E. unfold need. destruct (number v); congruence. Qed.
Lemma yield_some r k : k <> None -> yield r k <> None. Proof. intros K. unfold yield. destruct r; [|discriminate]. destruct k; [discriminate|contradiction]. Qed.
Lemma yield_if_some b r k : k <> None -> yield_if b r k <> None. Proof. intros K. unfold yield_if. destruct b; auto using yield_some. Qed.
Lemma holes_end g start incr to_r : (forall r d delta, plan g start incr = Some (r, d, delta) -> (d <= r)%Qc -> exists bs, bores (subclass (gcls g) GCodeDrillingCycleChipBreaking) r d delta r bs) ->
  exists f, forall n hx hy, holes f n g start incr to_r hx hy <> None.
Proof.
  intros HB. assert (X : exists f, forall r d delta, plan g start incr = Some (r, d, delta) -> (d <= r)%Qc -> forall k, k <> None -> drill_loop f (subclass (gcls g) GCodeDrillingCycleChipBreaking) r d delta r r k <> None).
  { destruct (plan g start incr) as [[[r d] delta]|]; [|exists O; discriminate]. destruct (Qcltb r d) eqn:Q.
    - exists O. intros r' d' delta' E L. injection E as <- <- <-. apply Qcltb_lt in Q. exfalso. clear - Q L. qcl.
    - apply Qcltb_ge in Q. destruct (HB r d delta eq_refl Q) as [bs B]. destruct (bores_drill _ _ _ _ _ _ B) as [f F]. exists f. intros r' d' delta' E L k K. injection E as <- <- <-. rewrite (F f k (le_n _)). destruct k; [discriminate|contradiction]. }
  clear HB. destruct X as [f F]. exists f. induction n as [|n IH]; intros hx hy; cbn [holes]; [discriminate|].
  destruct (if incr then _ else _) as [[[[r d] x] y]|e] eqn:E; cbn [bind lift]; [|discriminate]. destruct (Qcltb r d) eqn:Q; [discriminate|]. apply Qcltb_ge in Q.
  destruct (if to_r then _ else _) as [sz|e]; cbn [bind lift]; [|discriminate]. destruct (pos_getattr start AZ) as [z0|e] eqn:PZ; cbn [bind lift]; [|discriminate]. apply yield_if_some, yield_some, yield_if_some.
  destruct (if _ || _ then _ else _) as [delta|e] eqn:D; cbn [bind lift]; [|discriminate]. apply F; auto.
  - assert (D' : (if pecks g then option_map (fun q => - fabs q)%Qc (getnum g LQ) else Some (fsub d r)) = Some delta).
    { unfold pecks. destruct (_ || _); [|congruence]. destruct (gcode_getattr g LQ) as [q0|] eqn:GQ; cbn [bind] in D; [|discriminate]. destruct (need (number q0)) as [q|] eqn:NQ; cbn [bind] in D; [|discriminate]. rewrite (getnum_need _ _ _ _ GQ NQ). cbn. congruence. }
    unfold plan. destruct incr.
    + destruct (gcode_getattr g LR) as [r0|] eqn:GR; cbn [bind] in E; [|discriminate]. destruct (need (number r0)) as [R|] eqn:NR; cbn [bind] in E; [|discriminate]. destruct (gcode_getattr g LZ) as [d0|] eqn:GZ; cbn [bind] in E; [|discriminate]. destruct (need (number d0)) as [Z|] eqn:NZ; cbn [bind] in E; [|discriminate].
      destruct (gcode_getattr g LX) as [x0|]; cbn [bind] in E; [|discriminate]. destruct (gcode_getattr g LY) as [y0|]; cbn [bind] in E; [|discriminate]. destruct (need (number x0)) as [xx|]; cbn [bind] in E; [|discriminate]. destruct (need (number y0)) as [yy|]; cbn [bind] in E; [|discriminate].
      apply ok_inj in E. apply pair_equal_spec in E as [E _]. apply pair_equal_spec in E as [E _]. apply pair_equal_spec in E as [<- <-]. rewrite (getnum_need _ _ _ _ GR NR), (getnum_need _ _ _ _ GZ NZ), PZ, D'. reflexivity.
    + destruct (gcode_getattr g LR) as [r0|] eqn:GR; cbn [bind] in E; [|discriminate]. destruct (gcode_getattr g LZ) as [d0|] eqn:GZ; cbn [bind] in E; [|discriminate]. destruct (gcode_getattr g LX) as [x0|]; cbn [bind] in E; [|discriminate]. destruct (gcode_getattr g LY) as [y0|]; cbn [bind] in E; [|discriminate].
      destruct (need (number r0)) as [R|] eqn:NR; cbn [bind] in E; [|discriminate]. destruct (need (number d0)) as [Z|] eqn:NZ; cbn [bind] in E; [|discriminate]. apply ok_inj in E. apply pair_equal_spec in E as [E _]. apply pair_equal_spec in E as [E _]. apply pair_equal_spec in E as [<- <-]. rewrite (getnum_need _ _ _ _ GR NR), (getnum_need _ _ _ _ GZ NZ), D'. reflexivity.
  - match goal with |- (if ?b then _ else _) <> None => destruct b end; [discriminate|]. apply yield_some. apply IH.
Qed.
Definition incr_of (dist : option gclass) : bool := negb (subclass (match dist with Some c => c | None => GCodeAbsoluteDistanceMode end) GCodeAbsoluteDistanceMode).
Lemma simplify_ends g start plane dist rmode axes : (forall r d delta, plan g start (incr_of dist) = Some (r, d, delta) -> (d <= r)%Qc -> exists bs, bores (subclass (gcls g) GCodeDrillingCycleChipBreaking) r d delta r bs) ->
  exists n, simplify_canned_cycle n g start plane dist rmode axes <> None.
Proof.
  intros HB. destruct (holes_end g start (incr_of dist) (subclass (match rmode with Some c => c | None => GCodeCannedCycleReturnPrevLevel end) GCodeCannedCycleReturnToR) HB) as [f F]. exists f. unfold simplify_canned_cycle. destruct (negb _); [discriminate|]. destruct (negb _); [discriminate|].
  destruct (gcode_getattr g LL) as [l|]; cbn [bind lift]; [|discriminate]. destruct (match l with None => _ | Some _ => _ end) as [n|]; cbn [bind lift]; [|discriminate]. intros E. apply (F (Z.to_nat n) (pval start AX) (pval start AY)). unfold incr_of. destruct (holes _ _ _ _ _ _ _ _); [discriminate|auto].
Qed.
Lemma plan_delta g start incr r d delta : plan g start incr = Some (r, d, delta) -> pecks g = false -> delta = fsub d r.
Proof. unfold plan. intros H P. rewrite P in H. destruct (getnum g LR), (getnum g LZ); try discriminate. destruct (if incr then _ else _) as [[r' d']|]; [|discriminate]. injection H as <- <- <-. auto. Qed.
Lemma plan_q g start incr r d delta : plan g start incr = Some (r, d, delta) -> pecks g = true -> exists q, getnum g LQ = Some q /\ delta = (- fabs q)%Qc.
Proof. unfold plan. intros H P. rewrite P in H. destruct (getnum g LR), (getnum g LZ); try discriminate. destruct (if incr then _ else _) as [[r' d']|]; [|discriminate]. destruct (getnum g LQ) as [qq|]; cbn in H; [|discriminate]. injection H as <- <- <-. eauto. Qed.
Lemma plan_absolute g start r d delta : plan g start false = Some (r, d, delta) -> getnum g LR = Some r /\ getnum g LZ = Some d.
Proof. unfold plan. destruct (getnum g LR), (getnum g LZ); try discriminate. destruct (if pecks g then _ else _); [|discriminate]. intros H. injection H as <- <- <-. auto. Qed.
Lemma getnum_word (P : word -> Prop) g l x : made P g -> getnum g l = Some x -> exists w, wletter w = l /\ num_of_value (wvalue w) = Some x /\ P w.
Proof.
  intros [W F]. unfold getnum, gcode_getattr. destruct (accepts (gcls g) l); [|discriminate]. destruct (pget (gparams g) l) as [w|] eqn:E; cbn; [|discriminate]. intros N. exists w. unfold pget in E. apply (dget_in _ _ _ letter_eqb_eq) in E.
  destruct W as ((LG & _) & _). rewrite Forall_forall in LG. destruct (LG _ E) as [LW _]. cbn in LW. split; auto. split; auto. inversion F as [|? ? _ F2]; subst. rewrite Forall_forall in F2. apply F2. apply in_map_iff. exists (wletter w, w). split; auto.
Qed.
End WithArith.

(** exact arithmetic: down by the same step until the depth is reached *)
Lemma bores_exact chip r d delta : (d <= r)%Qc -> (delta <= Q2Qc 0)%Qc -> (delta = Q2Qc 0 -> d = r) -> exists bs, bores (ar := exact_arith) chip r d delta r bs.
Proof.
  intros L N Z. destruct (Qc_dec d r) as [[Q|Q]|Q]; [|exfalso; clear - L Q; qcl|].
  - assert (P : (Q2Qc 0 < - delta)%Qc). { destruct (Qc_dec delta (Q2Qc 0)) as [[A|A]|A]; [clear - A; qcl|exfalso; clear - A N; qcl|]. exfalso. specialize (Z A). subst. clear - Q. qcl. }
    destruct (enough_ex (- delta)%Qc (r - d)%Qc P) as (n & N1 & N2); [clear - Q; qcl|]. destruct (bores_count chip r d (- delta)%Qc P n r N1 N2) as (bs & B & _). exists bs. rewrite Qcopp_involutive in B. exact B.
  - subst. eexists. apply bore_last. rewrite exact_add. destruct (Qcltb (r + delta) r) eqn:E; auto. apply Qcltb_ge in E. clear - E N. qcl.
Qed.
(** rounding arithmetic *)
Section Float.
Context {ar : Arith}.
Lemma bores_rounded chip r d delta : laws -> accurate ar -> float r -> float d -> (d <= r)%Qc -> within r -> within d -> (delta <= Q2Qc 0)%Qc -> (d = r \/ (delta <= Qcopp (frac 1 2000))%Qc) -> exists bs, bores chip r d delta r bs.
Proof.
  intros LA A Fr Fd L Wr Wd N [->|D]; [|apply bores_float; auto]. eexists. apply bore_last. assert (X : (fadd r delta <= r)%Qc). { unfold float in Fr. rewrite <- Fr at 2. unfold fadd. apply (proj1 LA). clear - N. qcl. }
  destruct (Qcltb (fadd r delta) r) eqn:E; auto. apply Qcltb_ge in E. clear - X E. qcl.
Qed.
Lemma py_float_float s x : idempotent ar -> py_float s = Ok x -> float x.
Proof.
  intros I. unfold py_float. destruct (take_minus _) as [neg s0]. destruct (span is_digit s0) as [ip r]. destruct r as [|c r].
  - destruct ip; [discriminate|]. intros H. injection H as <-. apply I.
  - destruct (Ascii.eqb c _); [|destruct (existsb _ _); discriminate]. destruct (span is_digit r) as [fp [|]]; [|discriminate]. destruct (ip ++ fp); [discriminate|]. intros H. injection H as <-. apply I.
Qed.
Lemma fuel_float n : idempotent ar -> forall s ws, text2words_fuel n s = Ok ws -> forall w x, In w ws -> wvalue w = VFloat x -> float x.
Proof.
  intros I. induction n as [|n IH]; intros s ws; cbn [text2words_fuel]; [discriminate|]. destruct (Regex.search next_word s) as [m|]; [|destruct (existsb _ s); [discriminate|]; intros H; injection H as <-; contradiction].
  destruct (Regex.group m 1) as [[|c [|]]|]; try discriminate. destruct (letter_of_ascii c) as [l|]; [|discriminate]. destruct (Regex.search _ _) as [v|]; [|discriminate]. destruct (mk_word l (VStr (mtext v))) as [w0|] eqn:MW; cbn [bind]; [|discriminate]. destruct (text2words_fuel n _) as [ws'|] eqn:E; cbn [bind]; [|discriminate].
  intros H. injection H as <-. intros w x [<-|J]; [|eapply IH; eauto]. intros V. unfold mk_word, coerce in MW. destruct (letter_class l).
  - destruct (py_float (mtext v)) as [y|] eqn:PF; cbn in MW; [|discriminate]. injection MW as <-. cbn in V. injection V as <-. eapply py_float_float; eauto.
  - destruct (py_int (mtext v)); cbn in MW; [|discriminate]. injection MW as <-. discriminate V.
  - injection MW as <-. discriminate V.
Qed.
Lemma written_float ls w x : idempotent ar -> written ls w -> wvalue w = VFloat x -> float x.
Proof.
  intros I (s & l & _ & L & J) V. destruct (mk_line_block s l L) as (bs & B). rewrite mk_block_clean in B. destruct (text2words (clean_text bs)) as [ws|] eqn:T; cbn [bind] in B; [|discriminate]. destruct (words2gcodes ws) as [[gs rest]|]; cbn [bind] in B; [|discriminate].
  destruct (assert_gcodes [] [] gs); cbn [bind] in B; [|discriminate]. apply ok_inj in B. rewrite <- B in J. cbn [bwords] in J. eapply fuel_float; eauto.
Qed.
Lemma written_wf ls w : written ls w -> word_wf w.
Proof.
  intros (s & l & _ & L & J). destruct (mk_line_block s l L) as (bs & B). rewrite mk_block_clean in B. destruct (text2words (clean_text bs)) as [ws|] eqn:T; cbn [bind] in B; [|discriminate]. destruct (words2gcodes ws) as [[gs rest]|]; cbn [bind] in B; [|discriminate].
  destruct (assert_gcodes [] [] gs); cbn [bind] in B; [|discriminate]. apply ok_inj in B. rewrite <- B in J. cbn [bwords] in J. apply text2words_wf in T. rewrite Forall_forall in T. auto.
Qed.
End Float.
(** linearizing an arc takes a number of turns that is known beforehand *)
Section Arcs.
Context {ar : Arith} (L : mathlib).
Create HintDb arcs.
Local Ltac qa := repeat first
  [ progress intros | discriminate | solve [auto with arcs] | solve [auto with quiet]
  | match goal with
    | H : ?r = Raise ?e |- quiet (Raise ?e) => apply (quiet_raise r e H); clear H
    | |- quiet (bind _ _) => apply quiet_bind
    | |- quiet (match ?x with _ => _ end) => destruct x eqn:?
    | |- quiet (let (_, _) := ?x in _) => destruct x eqn:?
    end ].
Lemma qa_div a b : quiet (div a b). Proof. unfold div. qa. Qed.
Lemma qa_sqrt x : quiet (FloatArc.sqrt L x). Proof. unfold FloatArc.sqrt. qa. Qed.
Lemma qa_acos x : quiet (FloatArc.acos L x). Proof. unfold FloatArc.acos. qa. Qed.
Hint Resolve qa_div qa_sqrt qa_acos : arcs.
Lemma qa_magnitude a : quiet (magnitude L a). Proof. unfold magnitude. qa. Qed.
Hint Resolve qa_magnitude : arcs.
Lemma qa_unit3 a : quiet (unit3 L a). Proof. unfold unit3. qa. Qed.
Hint Resolve qa_unit3 : arcs.
Lemma qa_projection a n : quiet (FloatArc.projection L a n). Proof. unfold FloatArc.projection. qa. Qed.
Lemma qa_max_wedge m a : quiet (max_wedge L m a). Proof. unfold max_wedge. qa. Qed.
Hint Resolve qa_projection qa_max_wedge : arcs.
Lemma qa_wedges m a : quiet (wedges_of L m a). Proof. unfold wedges_of. qa. Qed.
Hint Resolve qa_wedges : arcs.
Lemma qa_wedge m a : quiet (wedge_of L m a). Proof. unfold wedge_of. qa. Qed.
Hint Resolve qa_wedge : arcs.
Lemma qa_outer m a : quiet (outer_of L m a). Proof. unfold outer_of. qa. Qed.
Lemma qa_vertex a v c : quiet (vertex_at L a v c). Proof. unfold vertex_at. qa. Qed.
Hint Resolve qa_outer qa_vertex : arcs.
Lemma qa_turns m a outer w count n : forall k, quiet (snd (turns L m a outer w count n k)).
Proof. induction n as [|n IH]; intros k; cbn [turns]; [discriminate|]. match goal with |- quiet (snd (if ?b then _ else _)) => destruct b end; [|discriminate]. match goal with |- quiet (snd (match ?x with _ => _ end)) => destruct x eqn:E end; [apply IH|]. cbn [snd]. qa. Qed.
Lemma qa_line_ends m a : quiet (snd (line_ends L m a)).
Proof.
  unfold line_ends. match goal with |- quiet (snd (match ?x with _ => _ end)) => assert (Q : quiet x) by qa; destruct x as [[v n]|e] eqn:E end; [|exact (quiet_raise _ e eq_refl Q)].
  destruct (n <=? 0)%Z; [discriminate|]. destruct (wedge_of L m a) eqn:E2; [apply qa_turns|cbn [snd]; qa].
Qed.
Lemma qa_param g l : quiet (param_value g l). Proof. unfold param_value. qa. Qed.
Lemma qa_vector p : quiet (vector_of p). Proof. unfold vector_of. qa. Qed.
Hint Resolve qa_param qa_vector : arcs.
Lemma qa_check g : quiet (check_params g). Proof. unfold check_params. qa. Qed.
Lemma qa_ends g s b : quiet (ends_of g s b). Proof. unfold ends_of. qa. Qed.
Lemma qa_middle g n p q r : quiet (middle L g n p q r). Proof. unfold middle. qa. Qed.
Hint Resolve qa_check qa_ends qa_middle : arcs.
Lemma qa_circle g a b n i e : quiet (circle_of L g a b n i e). Proof. unfold circle_of. qa. Qed.
Hint Resolve qa_circle : arcs.
Lemma qa_arc g s p b i e : quiet (arc_of L g s p b i e). Proof. unfold arc_of. qa. Qed.
Lemma qa_linear v : quiet (linear_xyz v). Proof. unfold linear_xyz. apply q_mk_gcode_kw. Qed.
Lemma qa_absolute vs last : quiet last -> quiet (snd (absolute_moves vs last)).
Proof. intros Q. induction vs as [|v vs IH]; cbn [absolute_moves]; [auto|]. pose proof (qa_linear v) as X. destruct (linear_xyz v) as [g|e]; [exact IH|exact (quiet_raise _ e eq_refl X)]. Qed.
Lemma qa_relative vs last : quiet last -> forall c, quiet (snd (relative_moves c vs last)).
Proof. intros Q. induction vs as [|v vs IH]; intros c; cbn [relative_moves]; [auto|]. match goal with |- context [linear_xyz ?d] => pose proof (qa_linear d) as X; destruct (linear_xyz d) as [g|e] end; [apply IH|exact (quiet_raise _ e eq_refl X)]. Qed.
Lemma linearize_quiet methods precision m g : quiet (snd (norm_linearize L methods precision m g)).
Proof.
  unfold norm_linearize. pose proof (q_machine_pos m) as QP. destruct (machine_pos m) as [p|e]; [|exact (quiet_raise _ e eq_refl QP)]. assert (QL : quiet (lin_method methods (gword g))) by (unfold lin_method; qa). destruct (lin_method methods (gword g)) as [c|e]; [|exact (quiet_raise _ e eq_refl QL)].
  unfold linearize_arc. cbv zeta. match goal with |- quiet (snd (if ?b then _ else _)) => destruct b end; [discriminate|]. match goal with |- context [arc_of L g p ?a ?b ?c ?d] => pose proof (qa_arc g p a b c d) as X; destruct (arc_of L g p a b c d) as [[a0 arc]|e] end; [|exact (quiet_raise _ e eq_refl X)].
  match goal with |- quiet (snd (if ?b then _ else _)) => destruct b end; [apply qa_absolute|apply qa_relative]; apply qa_line_ends.
Qed.
End Arcs.
