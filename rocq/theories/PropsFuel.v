(** Property C106: pygcode-norm finishes, unless a pecking cycle makes no progress. *)
From Coq Require Import Ascii String List Bool Arith ZArith QArith Qabs Qcanon Lia Lqa Permutation.
From Verif Require Import Base Num Words GTable GCode Line Position Machine BaseFacts WordOrder WordsSpec WordsProofs LineSpec GCodeSpec GCodeProofs GCodeProofs2 PropsGCode ArithSpec PrintSpec PrintProofs
  PosSpec PosProofs ModeSpec ModeProofs MachSpec MachProofs MachProofs2 MachProofs3 Transform Arc FloatArc DrillSpec DrillProofs DrillProofs2 DrillProofs4 PropsDrill Float64 Scripts ScriptArgs ScriptsProofs ScriptsProofs4 ScriptsProofs16 ScriptsProofs20 StopSpec StopProofs
  FuelSpec FuelProofs FuelProofs2 FuelProofs3.
Import ListNotations.

(** ** C106 pygcode-norm finishes unless a pecking cycle makes no progress *)
(** what a run that ends prints, and how it ends, does not depend on the number of turns allowed *)
Theorem C106_turns : forall (ar : Arith) (o : options) (file : list text) (n k : nat), (n <= k)%nat -> snd (norm o n file) <> Raise EOutOfFuel -> norm o k file = norm o n file.
Proof. intros ar o file n k L Q. symmetry. apply ple_norm; auto. Qed.
Print Assumptions C106_turns.
(** without --canned_expand every run ends *)
Theorem C106_plain : forall (ar : Arith) (o : options) (file : list text), arcs_finish o -> o_canned_expand o = false -> finishes o file.
Proof. intros ar o file AF CE. apply (norm_finishes (fun _ => True) o AF); auto. intros H. rewrite CE in H. discriminate H. Qed.
Print Assumptions C106_plain.
(** --arc_linearize always ends, whatever the functions of math and euclid3 compute *)
Theorem C106_arcs : forall (ar : Arith) (o : options), (o_linearize o = None \/ exists L methods precision, o_linearize o = Some (norm_linearize L methods precision)) -> arcs_finish o.
Proof.
  intros ar o [E|(L & ms & p & E)] f m g F; rewrite E in F; [discriminate F|]. injection F as <-. apply linearize_quiet.
Qed.
Print Assumptions C106_arcs.

(** exact arithmetic: with --canned_expand, unless some Q of the program is zero *)
Theorem C106_exact : forall (o : options) (file : list text), arcs_finish o ->
  (forall w, written (ar := exact_arith) (o_machine_mode o ++ file) w -> wletter w = LQ -> num_of_value (wvalue w) <> Some (Q2Qc 0)) -> finishes (ar := exact_arith) o file.
Proof.
  intros o file AF Q. apply (norm_finishes (ar := exact_arith) (written (ar := exact_arith) (o_machine_mode o ++ file)) o AF); auto. intros _ m g p _ MG _. apply simplify_ends. intros r d delta PL LE.
  destruct (pecks g) eqn:PK.
  - destruct (plan_q g _ _ r d delta PL PK) as (q & GQ & ->). destruct (getnum_word _ g LQ q MG GQ) as (w & WL & WN & WR). assert (q <> Q2Qc 0) by (intros ->; eapply Q; eauto). apply bores_exact; auto.
    + pose proof (fabs_nonneg q) as N. clear - N. qcl.
    + intros E. exfalso. pose proof (fabs_pos q H) as N. clear - N E. assert (fabs q = Q2Qc 0) by (rewrite <- (Qcopp_involutive (fabs q)), E; reflexivity). rewrite H in N. exact (Qclt_not_eq _ _ N eq_refl).
  - rewrite (plan_delta g _ _ r d delta PL PK). apply bores_exact; auto; unfold fsub; cbn [rnd exact_arith].
    + clear - LE. qcl.
    + intros E. replace d with ((d - r) + r)%Qc by ring. rewrite E. ring.
Qed.
Print Assumptions C106_exact.
(** rounding arithmetic: when every Q is a thousandth or more, no G91 is used and every hole is within a million units and no shallower than a thousandth *)
Theorem C106_float : forall (ar : Arith) (o : options) (file : list text), monotone ar -> idempotent ar -> odd ar -> accurate ar -> arcs_finish o ->
  let said l x := exists w, written (o_machine_mode o ++ file) w /\ wletter w = l /\ num_of_value (wvalue w) = Some x in
  (forall q, said LQ q -> (1 # 1000 <= Qabs (this q))%Q) -> (forall x, said LR x \/ said LZ x -> within x) ->
  (forall r z, said LR r -> said LZ z -> (z < r)%Qc -> (frac 1 1000 <= r - z)%Qc) ->
  (forall w c, written (o_machine_mode o ++ file) w -> word_gcode_class w = Some c -> ~ derives c GCodeIncrementalDistanceMode) -> finishes o file.
Proof.
  intros ar o file M ID OD AC AF said HQ HW HD HG. assert (LA : laws) by (split; auto). apply (norm_finishes (written (o_machine_mode o ++ file)) o AF); auto. intros _ m g p MI MG _. apply simplify_ends. intros r d delta PL LE.
  assert (IN : incr_of (mode_class m MG_distance) = false).
  { destruct MI as (S & _ & MM). assert (A : absolute m). { intros h E. destruct (MM _ _ E) as ((_ & PR & _) & F). inversion F as [|? ? F1 _]; subst. apply (HG (gword h)); auto. }
    pose proof (absolute_mode m S A) as B. unfold incr_of. destruct B as [->|(c & -> & D)]; [reflexivity|]. apply subclass_derives in D. rewrite D. reflexivity. }
  rewrite IN in PL. destruct (plan_absolute g p r d delta PL) as [GR GZ]. destruct (getnum_word _ g LR r MG GR) as (wr & LR' & NR & WR). destruct (getnum_word _ g LZ d MG GZ) as (wz & LZ' & NZ & WZ).
  assert (SR : said LR r) by (exists wr; auto). assert (SZ : said LZ d) by (exists wz; auto).
  assert (FF : forall w x l, wletter w = l -> letter_class l = CFloat -> written (o_machine_mode o ++ file) w -> num_of_value (wvalue w) = Some x -> float x).
  { intros w x l WL CF W N. pose proof (written_wf _ _ W) as WW. unfold word_wf in WW. rewrite WL, CF in WW. unfold num_of_value in N. destruct (wvalue w) eqn:V; try contradiction. injection N as <-. eapply written_float; eauto. }
  assert (Wr : within r) by auto. assert (Wd : within d) by auto. assert (NEG : (delta <= Q2Qc 0)%Qc /\ (d = r \/ (delta <= Qcopp (frac 1 2000))%Qc)).
  { destruct (pecks g) eqn:PK.
    - destruct (plan_q g _ _ r d delta PL PK) as (q & GQ & ->). destruct (getnum_word _ g LQ q MG GQ) as (w & WL & WN & WQ). pose proof (fabs_nonneg q) as NN. split; [clear - NN; qcl|]. right. specialize (HQ q (ex_intro _ w (conj WQ (conj WL WN)))).
      assert (F : (this (fabs q) == Qabs (this q))%Q). { unfold fabs. destruct (Qcltb q (Q2Qc 0)) eqn:E; [apply Qcltb_lt in E; rewrite this_opp; rewrite Qabs_neg; [reflexivity|apply Qlt_le_weak; exact E]|]. apply Qcltb_ge in E. rewrite Qabs_pos; [reflexivity|exact E]. }
      unfold Qcle. rewrite !this_opp, this_frac, F. lra.
    - rewrite (plan_delta g _ _ r d delta PL PK). assert (ND : (fsub d r <= Q2Qc 0)%Qc). { pose proof (rnd_zero LA) as Z. rewrite <- Z. unfold fsub. apply M. clear - LE. qcl. } split; auto.
      destruct (Qc_dec d r) as [[L|L]|L]; [|exfalso; clear - L LE; qcl|auto]. right. pose proof (HD r d SR SZ L) as HP. unfold fsub. apply Qabs_Qle_condition in Wr, Wd. pose proof (rnd_above (d - r)%Qc M AC) as U. rewrite this_sub in U. unfold Qcle in *. rewrite this_sub, this_frac in HP. rewrite this_opp, this_frac.
      assert (B : (Qabs (this d - this r) <= 2000000)%Q) by (apply Qabs_Qle_condition; split; lra). specialize (U B). lra. }
  destruct NEG as [N1 N2]. apply bores_rounded; auto; [apply (FF wr r LR)|apply (FF wz d LZ)]; auto.
Qed.
Print Assumptions C106_float.

(** ** when it does not end *)
Section WithArith.
Context {ar : Arith}.
Lemma canned_no_arc g : is_canned g -> subclass (gcls g) GCodeArcMove = false.
Proof. intros C. apply subclass_derives in C. revert C. destruct (gcls g); vm_compute; auto. Qed.
Lemma write_done o gs c : snd (write o gs [] c None) = Ok tt.
Proof.
  assert (WL : forall gs, snd (write_line o gs [] c None) = Ok tt). { intros gs'. unfold write_line. cbv zeta. match goal with |- snd (match ?x with _ => _ end) = _ => destruct x; [destruct (o_rm_blanks o)|]; reflexivity end. }
  unfold write. assert (E : snd (if o_singles o && (2 <=? length gs)%nat then each (fun g => write_line o [g] [] c None) (sort_gcodes gs) else write_line o gs [] c None) = Ok tt); [|destruct (o_full o); exact E].
  destruct (_ && _); [|apply WL]. induction (sort_gcodes gs) as [|g l IH]; [reflexivity|]. cbn [each]. specialize (WL [g]). destruct (write_line o [g] [] c None) as [x r]. cbn in WL. subst. cbn [pbind]. destruct (each _ l). exact IH.
Qed.
Lemma pbind_snd {A B} (p : printer A) (k : A -> printer B) a : snd p = Ok a -> snd (pbind p k) = snd (k a).
Proof. destruct p as [x r]. cbn. intros ->. cbn [pbind]. destruct (k a). reflexivity. Qed.
Lemma pbind_snd_raise {A B} (p : printer A) (k : A -> printer B) e : snd p = Raise e -> snd (pbind p k) = Raise e.
Proof. destruct p as [x r]. cbn. intros ->. reflexivity. Qed.
Lemma line_stuck o s l m g p f : o_canned_expand o = true -> o_rm_invalid_modal o = false -> mk_line s = Ok l -> block_modal_gcodes m (lblock l) = Ok [g] -> is_canned g -> existsb (word_eqb (gword g)) (o_canned_codes o) = true ->
  machine_pos m = Ok p -> simplify_canned_cycle f g p (mode_class m MG_plane_selection) (mode_class m MG_distance) None (m_axes m) = None -> snd (norm_line o f s m) = Raise EOutOfFuel.
Proof.
  intros CE RI ML BM C EX MP SC. unfold norm_line. rewrite ML, RI. rewrite (pbind_snd (pure (Ok l)) _ l eq_refl), (pbind_snd (ret (lblock l)) _ (lblock l) eq_refl), BM, (pbind_snd (pure (Ok [g])) _ [g] eq_refl). cbv zeta.
  cbn [existsb]. rewrite (canned_no_arc g C), CE, EX. cbn [andb orb]. assert (S : snd (split_and_process o GCodeCannedCycle (lcomment l) (expand o f) [g] m) = Raise EOutOfFuel); [|destruct (o_linearize o); exact S].
  unfold split_and_process. assert (SP : split_gcodes [g] GCodeCannedCycle true = ([], [g], [])). { unfold split_gcodes. change (sort_gcodes [g]) with [g]. cbn [split_at]. apply subclass_derives in C. rewrite C. reflexivity. }
  rewrite SP. rewrite (pbind_snd (ret m) _ m eq_refl). apply pbind_snd_raise. unfold expand, write_note. rewrite (pbind_snd _ _ tt (write_done _ _ _)), MP, (pbind_snd (pure (Ok p)) _ p eq_refl), SC. reflexivity.
Qed.
End WithArith.
(** the run never ends when it comes to a pecking cycle whose step is zero, or is lost in rounding at the height R *)
Theorem C106_stuck : forall (ar : Arith) (o : options) (ls1 ls2 : list text) (s : text) (n : nat) (out : list text) (m0 m : machine) (l : line) (g : gcode) (j : job) (k : nat) (q a : Qc),
  new_machine xyz (o_rm_invalid_modal o) (o_machine_mode o) = Ok m0 -> norm_loop o n ls1 m0 = (out, Ok m) -> m_axes m = xyz ->
  o_canned_expand o = true -> o_rm_invalid_modal o = false -> mk_line s = Ok l -> block_modal_gcodes m (lblock l) = Ok [g] ->
  is_canned g -> existsb (word_eqb (gword g)) (o_canned_codes o) = true -> complete g -> asked g k -> (0 < k)%nat -> xy_plane (mode_class m MG_plane_selection) -> absolute m -> job_absolute g j -> (jd j < jr j)%Qc ->
  pecking g -> q_word g q -> (Q2Qc 0 <= a)%Qc -> q = a \/ q = (- a)%Qc -> fsub (jr j) a = jr j -> never_finishes o (ls1 ++ s :: ls2).
Proof.
  intros ar o ls1 ls2 s n out m0 m l g j k q a NM NL AX' CE RI ML BM C EX CO AS KP PL AB JA DR PK QW AP QA ST f.
  assert (MI : minv (fun _ => True) m). { pose proof (new_made (fun _ => True) _ _ _ _ NM (fun _ _ => I)) as M0. clear - M0 NL. revert m0 out NL M0. induction ls1 as [|s ls1 IH]; intros m0 out; cbn [norm_loop]; [intros H; injection H as _ <-; auto|].
    destruct (norm_line o n s m0) as [x [m1|e]] eqn:E; cbn [pbind]; [|discriminate]. destruct (norm_loop o n ls1 m1) as [y r] eqn:E2. intros H M0. injection H as _ ->. apply (IH m1 y); auto. apply (line_inv (fun _ => True) o n s m0 m1 M0); [intros l' _; apply Forall_forall; auto|rewrite E; reflexivity]. }
  destruct MI as (SD & _ & _). destruct (machine_pos_spec m SD) as (p & MP & GP & PP & _). assert (KN : knows_xyz (pvals p)). { intros x IX V. apply GP in V. apply V. unfold has. rewrite PP, AX'. cbn in IX. destruct IX as [<-|[<-|[<-|[]]]]; reflexivity. }
  assert (WG : gcode_wf g) by (exact (Forall_inv (modal_wf_any s l m [g] ML SD BM))).
  assert (LS : forall f, snd (norm_line o f s m) = Raise EOutOfFuel).
  { intros f'. apply (line_stuck o s l m g p f'); auto. apply (C60_stuck ar f' g p _ _ None _ j k q a); auto; [apply absolute_mode; auto|right; left; reflexivity]. }
  unfold norm. rewrite NM. rewrite (pbind_snd (pure (Ok m0)) _ m0 eq_refl). apply pbind_snd_raise.
  assert (LP : forall ls m0, snd (norm_loop o f (ls ++ s :: ls2) m0) = Raise EOutOfFuel \/ quiet (snd (norm_loop o f ls m0)) /\ forall m1, snd (norm_loop o f ls m0) = Ok m1 -> snd (norm_loop o f (ls ++ s :: ls2) m0) = snd (norm_loop o f (s :: ls2) m1)).
  { clear. induction ls as [|s' ls IH]; intros m0; cbn [app].
    - right. split; [discriminate|]. intros m1 E. injection E as <-. reflexivity.
    - change (norm_loop o f (s' :: ls ++ s :: ls2) m0) with (pbind (norm_line o f s' m0) (norm_loop o f (ls ++ s :: ls2))). change (norm_loop o f (s' :: ls) m0) with (pbind (norm_line o f s' m0) (norm_loop o f ls)).
      destruct (snd (norm_line o f s' m0)) as [m1|e] eqn:E.
      + rewrite !(pbind_snd _ _ m1 E). apply IH.
      + rewrite !(pbind_snd_raise _ _ e E). destruct e; try (right; split; [discriminate|discriminate]). left; reflexivity. }
  destruct (LP ls1 m0) as [H|[Q K]]; auto. assert (NQ : norm_loop o f ls1 m0 = norm_loop o n ls1 m0).
  { destruct (Nat.le_ge_cases f n) as [L|L]; [apply (ple_loop o f n ls1 L m0); exact Q|symmetry; apply (ple_loop o n f ls1 L m0); rewrite NL; discriminate]. }
  rewrite NQ, NL in K. rewrite (K m eq_refl). cbn [norm_loop]. apply pbind_snd_raise. apply LS.
Qed.
Print Assumptions C106_stuck.

(** *** examples *)
Definition expanding (ar : Arith) : options := Options false false norm_machine_mode None true default_canned_codes false false None false false false false [] false.
Lemma expanding_arcs {ar : Arith} : arcs_finish (expanding ar). Proof. intros f m g H. discriminate H. Qed.
Definition stuck_at (ar : Arith) (s : text) (a : Qc) : bool :=
  match new_machine (ar := ar) xyz false norm_machine_mode, mk_line (ar := ar) s with
  | Ok m, Ok l =>
      match block_modal_gcodes (ar := ar) m (lblock l), mode_class m MG_plane_selection, mode_class m MG_distance with
      | Ok [g], Some pl, Some di =>
          cycle_b g && existsb (word_eqb (gword g)) (default_canned_codes (ar := ar)) && match pget (gparams g) LL with None => true | Some _ => false end && subclass pl GCodeSelectXYPlane && negb (subclass di GCodeIncrementalDistanceMode) &&
          Qcltb (jd (job_of g)) (jr (job_of g)) && pecks g && Qceqb (value_of g LQ) a && Qceqb (fsub (ar := ar) (jr (job_of g)) a) (jr (job_of g)) && vget (m_axes m) AX && vget (m_axes m) AY && vget (m_axes m) AZ
      | _, _, _ => false
      end
  | _, _ => false
  end.
Lemma stuck_ex (ar : Arith) s a : (ar = binary64 \/ ar = exact_arith) -> stuck_at ar s a = true -> (Q2Qc 0 <= a)%Qc -> never_finishes (ar := ar) (expanding ar) [s].
Proof.
  intros AR H AP. unfold stuck_at in H. destruct (new_machine (ar := ar) xyz false norm_machine_mode) as [m|] eqn:NM; [|discriminate H]. destruct (mk_line (ar := ar) s) as [l|] eqn:ML; [|discriminate H]. destruct (block_modal_gcodes (ar := ar) m (lblock l)) as [[|g [|]]|] eqn:BM; try discriminate H.
  destruct (mode_class m MG_plane_selection) as [pl|] eqn:PL; [|discriminate H]. destruct (mode_class m MG_distance) as [di|] eqn:DI; [|discriminate H].
  rewrite !andb_true_iff in H. destruct H as (((((((((((CB & EX) & LL') & XP) & AB) & DR) & PK) & QA) & ST) & _) & _) & _).
  destruct (new_machine_sound _ _ _ _ NM) as (SD & _ & _ & AXS & _). assert (WG : gcode_wf g) by (exact (Forall_inv (modal_wf_any s l m [g] ML SD BM))). destruct (cycle_ex g WG CB) as (C & CO & J & PQ). destruct (PQ PK) as [PG QW]. apply Qceqb_eq in QA, ST. apply Qcltb_lt in DR.
  apply (C106_stuck ar (expanding ar) [] [] s O [] m m l g (job_of g) 1 (value_of g LQ) a); auto.
  - apply asked_one; [destruct (pget (gparams g) LL); [discriminate LL'|reflexivity]|]. destruct AR as [->| ->]; auto.
  - right. exists pl. split; auto. apply subclass_derives. auto.
  - intros h E D. unfold mode_class in DI. rewrite E in DI. injection DI as <-. apply subclass_derives in D. rewrite D in AB. discriminate AB.
Qed.
(** with --canned_expand it need not end: Q0, and a Q that is lost in rounding *)
Theorem C106_endless : (exists o file, arcs_finish o /\ never_finishes (ar := exact_arith) o file) /\ (exists o file, arcs_finish o /\ never_finishes (ar := binary64) o file /\
  forall w, written (ar := binary64) (o_machine_mode o ++ file) w -> wletter w = LQ -> num_of_value (wvalue w) <> Some (Q2Qc 0)).
Proof.
  split.
  - exists (expanding exact_arith), [t "G83 X1 Y2 Z-3 R1 Q0"]. split; [apply expanding_arcs|]. apply (stuck_ex exact_arith _ (Q2Qc 0)); [auto|vm_compute; reflexivity|apply Qcle_refl].
  - exists (expanding binary64), [t "G83 X1 Y2 Z-3 R10000000000000000 Q1"]. split; [apply expanding_arcs|]. split; [apply (stuck_ex binary64 _ (Q2Qc 1)); [auto|vm_compute; reflexivity|apply Qclt_le_weak, Qcltb_lt; vm_compute; reflexivity]|].
    assert (A : forall ls P, forallb (fun s => match mk_line (ar := binary64) s with Ok l => forallb P (bwords (lblock l)) | Raise _ => true end) ls = true -> forall w, written (ar := binary64) ls w -> P w = true).
    { intros ls P H w (s & l & I & ML & J). rewrite forallb_forall in H. specialize (H s I). rewrite ML in H. rewrite forallb_forall in H. auto. }
    intros w W L N. apply (A _ (fun w => negb (letter_eqb (wletter w) LQ && match num_of_value (wvalue w) with Some x => Qceqb x (Q2Qc 0) | None => false end))) in W; [|vm_compute; reflexivity]. rewrite L, N in W. discriminate W.
Qed.
Print Assumptions C106_endless.
Lemma written_ex (ar : Arith) ls P : forallb (fun s => match mk_line (ar := ar) s with Ok l => forallb P (bwords (lblock l)) | Raise _ => true end) ls = true -> forall w, written (ar := ar) ls w -> P w = true.
Proof. intros H w (s & l & I & ML & J). rewrite forallb_forall in H. specialize (H s I). rewrite ML in H. rewrite forallb_forall in H. auto. Qed.
Definition peck_file : list text := [t "G90 G17"; t "G83 X1 Y2 Z-3 R1 Q1.5 (a peck)"; t "X5"; t "G80"].
Example C106_exact_ex : arcs_finish (expanding exact_arith) /\ (forall w, written (ar := exact_arith) (o_machine_mode (expanding exact_arith) ++ peck_file) w -> wletter w = LQ -> num_of_value (wvalue w) <> Some (Q2Qc 0)) /\
  map (String.string_of_list_ascii) (fst (norm (ar := exact_arith) (expanding exact_arith) 2 peck_file)) = ["G90 G17"; "; expanded: <GCodeDrillingCyclePeck: G83{Q1.5, R1, X1, Y2, Z-3}>"]%string /\ snd (norm (ar := exact_arith) (expanding exact_arith) 2 peck_file) = Raise EOutOfFuel /\
  length (fst (norm (ar := exact_arith) (expanding exact_arith) 3 peck_file)) = 25%nat /\ snd (norm (ar := exact_arith) (expanding exact_arith) 3 peck_file) = Ok tt.
Proof.
  split; [apply expanding_arcs|]. split.
  - intros w W L N. apply (written_ex _ _ (fun w => negb (letter_eqb (wletter w) LQ && match num_of_value (wvalue w) with Some x => Qceqb x (Q2Qc 0) | None => false end))) in W; [|vm_compute; reflexivity]. rewrite L, N in W. discriminate W.
  - vm_compute. auto.
Qed.
Example C106_float_ex : let said l x := exists w, written (ar := binary64) (o_machine_mode (expanding binary64) ++ peck_file) w /\ wletter w = l /\ num_of_value (wvalue w) = Some x in
  (forall q, said LQ q -> (1 # 1000 <= Qabs (this q))%Q) /\ (forall x, said LR x \/ said LZ x -> within x) /\ (forall r z, said LR r -> said LZ z -> (z < r)%Qc -> (frac 1 1000 <= r - z)%Qc) /\
  (forall w c, written (ar := binary64) (o_machine_mode (expanding binary64) ++ peck_file) w -> word_gcode_class (ar := binary64) w = Some c -> ~ derives c GCodeIncrementalDistanceMode) /\ snd (norm (ar := binary64) (expanding binary64) 10 peck_file) = Ok tt.
Proof.
  intros said.
  assert (A : forall l x, said l x -> (l = LQ -> x = frac 3 2) /\ (l = LR -> x = frac 1 1) /\ (l = LZ -> x = frac (-3) 1)).
  { intros l x (w & W & L & N). pose (P := fun w => match wletter w, num_of_value (wvalue w) with LQ, Some x => Qceqb x (frac 3 2) | LR, Some x => Qceqb x (frac 1 1) | LZ, Some x => Qceqb x (frac (-3) 1) | _, _ => true end).
    apply (written_ex _ _ P) in W; [|vm_compute; reflexivity]. unfold P in W. rewrite L, N in W. split; [|split]; intros ->; apply Qceqb_eq; exact W. }
  split; [intros q S; rewrite (proj1 (A _ _ S) eq_refl); vm_compute; discriminate|]. split; [intros x [S|S]; [rewrite (proj1 (proj2 (A _ _ S)) eq_refl)|rewrite (proj2 (proj2 (A _ _ S)) eq_refl)]; vm_compute; discriminate|].
  split; [intros r z S1 S2 _; rewrite (proj1 (proj2 (A _ _ S1)) eq_refl), (proj2 (proj2 (A _ _ S2)) eq_refl); vm_compute; discriminate|]. split.
  - intros w c W E D. apply (written_ex _ _ (fun w => match word_gcode_class (ar := binary64) w with Some c => negb (subclass c GCodeIncrementalDistanceMode) | None => true end)) in W; [|vm_compute; reflexivity]. rewrite E in W. apply subclass_derives in D. rewrite D in W. discriminate W.
  - vm_compute. auto.
Qed.
