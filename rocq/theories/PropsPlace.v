(** Property C107: the same program run from another place. *)
From Coq Require Import Ascii String List Bool Arith ZArith QArith Qcanon Lia Permutation.
From Verif Require Import Base Num Words GTable GCode Line Position Machine BaseFacts WordOrder WordsSpec LineSpec GCodeSpec GCodeProofs GCodeProofs2 PropsGCode ArithSpec Float64
  PosSpec PosProofs ModeSpec ModeProofs MachSpec MachProofs MachProofs2 MachProofs3 PropsMach StopSpec StopProofs ScriptsProofs20 PlaceSpec PlaceProofs.
Import ListNotations.
Local Transparent set_for.

Section WithArith.
Context {ar : Arith}.
Definition fine (m m' : machine) : Prop := sound m /\ inside m /\ sound m' /\ inside m' /\ same_frame m m'.
Lemma fine_along g m m' m1 m1' cs n : fine m m' -> along g m m' m1 m1' cs n -> fine m1 m1'.
Proof. intros (S & I & S' & I' & F) (F1 & S1 & S1' & I1 & I1' & _). unfold fine. auto 6. Qed.
Lemma fine_set g m m' : fine m m' -> gcode_wf g -> fine (set_for m g) (set_for m' g).
Proof. intros (S & I & S' & I' & F) W. unfold fine. auto 8 using set_for_sound, set_for_range, set_for_twin. Qed.
Lemma along_has g m m' m1 m1' cs n a : fine m m' -> gcode_wf g -> gcode_process g m = (m1, Ok tt) -> along g m m' m1 m1' cs n -> has (m_abs m1) a <-> has (m_abs m) a.
Proof.
  intros (S & I & _) W E (_ & S1 & _). destruct (process_inv g m S I W) as (_ & A & _). rewrite E in A. cbn [fst] in A. unfold has. destruct S as ((_ & X & _) & _), S1 as ((_ & X1 & _) & _). rewrite X, X1, A. reflexivity.
Qed.
Lemma process_mode g m m1 : sound m -> inside m -> gcode_wf g -> gcode_process g m = (m1, Ok tt) -> m_mode m1 = mode_effect (m_mode m) g.
Proof. intros S I W E. destruct (path_mode [g] m [m_abs m1] m1 S I) as (_ & _ & _ & M); auto. econstructor; [exact E|constructor]. Qed.
Lemma effect_distance md g : gm_get (mode_effect md g) MG_distance = match modal_group (gcls g) with Some MG_distance => Some (modal_of g) | _ => gm_get md MG_distance end.
Proof.
  assert (ST : gm_get (set_effect md g) MG_distance = match modal_group (gcls g) with Some MG_distance => Some (modal_of g) | _ => gm_get md MG_distance end). { unfold set_effect. destruct (modal_group (gcls g)) as [mg|]; auto. rewrite gm_get_set. destruct mg; reflexivity. }
  unfold mode_effect. destruct (process_kind (gcls g)) eqn:K; auto. rewrite gm_get_set. change (mgroup_eqb MG_motion MG_distance) with false. cbv iota. revert K. destruct (gcls g); vm_compute; intros K; try discriminate K; reflexivity.
Qed.
Lemma absolute_effect m g m1 : sound m -> inside m -> gcode_wf g -> gcode_process g m = (m1, Ok tt) -> absolute m -> ~ derives (gcls g) GCodeIncrementalDistanceMode -> absolute m1.
Proof.
  intros S I W E A N h. rewrite (process_mode g m m1 S I W E), effect_distance. destruct (modal_group (gcls g)) as [[]|]; try apply A. intros Q. injection Q as <-. exact N.
Qed.
Lemma incremental_effect m g m1 : sound m -> inside m -> gcode_wf g -> gcode_process g m = (m1, Ok tt) -> incremental m -> ~ derives (gcls g) GCodeAbsoluteDistanceMode -> incremental m1.
Proof.
  intros S I W E A N. unfold incremental. rewrite (process_mode g m m1 S I W E), effect_distance. destruct (modal_group (gcls g)) as [[]|] eqn:G; try apply A. exists (modal_of g). split; auto. destruct (distance_classes _ G) as [D|D]; [contradiction|exact D].
Qed.
Lemma absolute_is m : absolute m <-> is_incremental m = false.
Proof.
  unfold absolute, is_incremental. destruct (gm_get (m_mode m) MG_distance) as [g|]; [|split; [reflexivity|intros _ g H; discriminate H]]. split.
  - intros H. specialize (H g eq_refl). rewrite <- subclass_derives in H. destruct (subclass _ _); auto. destruct (H eq_refl).
  - intros H h E D. injection E as <-. apply subclass_derives in D. congruence.
Qed.
Lemma incremental_is m : incremental m <-> is_incremental m = true.
Proof.
  unfold incremental, is_incremental. destruct (gm_get (m_mode m) MG_distance) as [g|]; [|split; [intros (g & H & _); discriminate H|discriminate]]. split.
  - intros (h & E & D). injection E as <-. apply subclass_derives. auto.
  - intros H. exists g. split; auto. apply subclass_derives. auto.
Qed.
(** the distance mode of a command other than G90 and G91 *)
Lemma named_steps a gs : Forall gcode_wf gs -> (forall g, In g gs -> ~ derives (gcls g) GCodeIncrementalDistanceMode) -> forall m m' m1 m1', fine m m' -> absolute m -> has (m_abs m) a ->
  (Exists (fun g => is_move g /\ exists x, names g a x) gs \/ pval (m_abs m) a = pval (m_abs m') a) -> steps (map gcode_process gs) m = (m1, Ok tt) -> steps (map gcode_process gs) m' = (m1', Ok tt) ->
  fine m1 m1' /\ has (m_abs m1) a /\ pval (m_abs m1) a = pval (m_abs m1') a.
Proof.
  induction 1 as [|g gs W WS IH]; intros NI m m' m1 m1' F A H X; cbn [map steps].
  - intros E E'. injection E as <-. injection E' as <-. destruct X as [X|X]; [inversion X|auto].
  - unfold then_step. pose proof F as (S & I & S' & I' & FR). destruct (process_twin g m m' S S' W FR) as [(e & E & E')|(cs & n & m2 & m2' & E & E' & AL)]; rewrite E, E'; [discriminate|]. apply IH; auto.
    + intros g' I2. apply NI. right. auto.
    + eapply fine_along; eauto.
    + exact (absolute_effect m g m2 S I W E A (NI g (or_introl eq_refl))).
    + eapply along_has; eauto.
    + destruct AL as (_ & _ & _ & _ & _ & VV & K). destruct (VV a H) as [V V']. rewrite V, V'. destruct X as [X|X]; [|right; rewrite X; reflexivity]. inversion X as [? ? (MV & x & NM)|]; subst; auto. right.
      destruct (K (proj2 (kind_move g) MV)) as [-> ->]. cbn [iter]. unfold shift. f_equal. unfold target. assert (AI : is_incremental (set_for m g) = false).
      { rewrite set_for_incremental; [apply absolute_is; auto|]. unfold in_group. pose proof (proj2 (kind_move g) MV) as KM. clear - KM. revert KM. destruct (gcls g); vm_compute; intros Q; try discriminate Q; discriminate. }
      rewrite AI. rewrite (coord_at_named _ g a x); auto. destruct (set_for_pos m g) as (_ & _ & _ & XA & _). rewrite XA. destruct S as ((_ & PA & _) & _). rewrite <- PA. exact H.
Qed.
End WithArith.
(** ** C107 What a program does does not depend on where the machine is *)
(** the errors and the modes: any arithmetic *)
Theorem C107_alike : forall (ar : Arith) (m m' m1 m1' : machine) (ls : list text) (r r' : result unit), reachable m -> reachable m' -> alike m m' ->
  steps (map process_str ls) m = (m1, r) -> steps (map process_str ls) m' = (m1', r') -> r' = r /\ alike m1 m1'.
Proof.
  intros ar m m' m1 m1' ls r r' R R' A E E'. destruct (reachable_sound m R) as [S I]. destruct (reachable_sound m' R') as [S' I'].
  destruct (lines_twin fine (fun _ => True) ltac:(intros ? ? H; exact H) ltac:(intros; eapply fine_along; eauto) ltac:(intros; apply fine_set; auto) ls ltac:(intros; apply Forall_forall; auto) m m') as [X Y]; [unfold fine; auto|].
  rewrite E, E' in X, Y. cbn in X, Y. split; [congruence|]. apply Y.
Qed.
Print Assumptions C107_alike.
(** once at the same place on an axis, they stay together on it: any arithmetic *)
Theorem C107_level : forall (ar : Arith) (m m' m1 m1' : machine) (ls : list text) (a : axis) (r r' : result unit), reachable m -> reachable m' -> alike m m' -> level a m m' ->
  steps (map process_str ls) m = (m1, r) -> steps (map process_str ls) m' = (m1', r') -> level a m1 m1'.
Proof.
  intros ar m m' m1 m1' ls a r r' R R' A (x & X1 & X2) E E'. destruct (reachable_sound m R) as [S I]. destruct (reachable_sound m' R') as [S' I']. apply getattr_ok in X1 as [H ->], X2 as [H' EQ].
  destruct (lines_twin (fun m m' => fine m m' /\ has (m_abs m) a /\ pval (m_abs m) a = pval (m_abs m') a) (fun _ => True)) with (ls := ls) (m := m) (m' := m') as [X Y].
  - intros ? ? [Q _]; exact Q.
  - intros g n n' n1 n1' cs k (F & HA & V) W _ EP AL. split; [eapply fine_along; eauto|]. split; [eapply along_has; eauto|]. destruct AL as (_ & _ & _ & _ & _ & VV & _). destruct (VV a HA) as [-> ->]. rewrite V. reflexivity.
  - intros g n n' (F & HA & V) W _. split; [apply fine_set; auto|]. rewrite !(proj1 (set_for_pos _ g)). auto.
  - intros; apply Forall_forall; auto.
  - split; [unfold fine; auto|auto].
  - rewrite E, E' in Y. cbn in Y. destruct Y as ((S1 & _ & S1' & _ & F) & HA & V). exists (pval (m_abs m1) a). split; apply getattr_ok; split; auto. eapply sound_has; [exact S1|exact S1'|exact F|exact HA].
Qed.
Print Assumptions C107_level.
(** a move that names the axis in absolute mode brings them together on it: any arithmetic *)
Theorem C107_named : forall (ar : Arith) (m m' m1 m1' : machine) (s : text) (l : line) (gs : list gcode) (g : gcode) (a : axis) (x : Qc), reachable m -> reachable m' -> alike m m' -> absolute m -> has (m_abs m) a ->
  mk_line s = Ok l -> block_modal_gcodes m (lblock l) = Ok gs -> In g gs -> is_move g -> names g a x -> (forall h, In h gs -> ~ derives (gcls h) GCodeIncrementalDistanceMode) ->
  process_str s m = (m1, Ok tt) -> process_str s m' = (m1', Ok tt) -> level a m1 m1'.
Proof.
  intros ar m m' m1 m1' s l gs g a x R R' A AB H L B I MV NM NI E E'. destruct (reachable_sound m R) as [S IN]. destruct (reachable_sound m' R') as [S' IN']. destruct (line_bare s l L) as (BA & WG & WW). destruct (block_commands m (lblock l) gs S WG WW BA B) as [W _].
  unfold process_str in E, E'. rewrite L in E, E'. unfold process_block, process_gcodes in E, E'. rewrite (modal_twin m m' _ A) in E'. unfold block_modal_gcodes in B. destruct (machine_modal_gcode m (bmodal (lblock l))) as [og|]; cbn [bind] in B; [|discriminate B]. injection B as B. rewrite B in E, E'.
  destruct (named_steps a gs W NI m m' m1 m1') as ((S1 & _ & S1' & _ & F) & HA & V); auto; [unfold fine; auto|left; apply Exists_exists; eauto|]. exists (pval (m_abs m1) a). split; apply getattr_ok; split; auto. eapply sound_has; [exact S1|exact S1'|exact F|exact HA].
Qed.
Print Assumptions C107_named.
Lemma iter_exact m cs a n e : (is_incremental m = true \/ n = O \/ coord_at cs a = None) -> forall x, iter n (shift (ar := exact_arith) m cs a) (x + e)%Qc = (iter n (shift (ar := exact_arith) m cs a) x + e)%Qc.
Proof.
  intros D. induction n as [|n IH]; intros x; cbn [iter]; [reflexivity|]. assert (E : shift (ar := exact_arith) m cs a (x + e)%Qc = (shift (ar := exact_arith) m cs a x + e)%Qc).
  { unfold shift, apos_of, target, wpos_of, fadd, fsub. cbn [rnd exact_arith]. destruct (is_incremental m); [ring|]. destruct D as [D|[D|D]]; try discriminate D. rewrite D. ring. }
  rewrite E. apply IH. destruct D as [D|[D|D]]; auto. discriminate D.
Qed.
Lemma iter_same m cs a n : is_incremental m = false -> coord_at cs a <> None -> (0 < n)%nat -> forall x y, iter n (shift (ar := exact_arith) m cs a) x = iter n (shift (ar := exact_arith) m cs a) y.
Proof. intros I C P x y. destruct n as [|n]; [lia|]. cbn [iter]. assert (E : shift (ar := exact_arith) m cs a x = shift (ar := exact_arith) m cs a y); [|rewrite E; reflexivity]. unfold shift, target. rewrite I. destruct (coord_at cs a); [reflexivity|contradiction]. Qed.
(** exact arithmetic: on each axis the machines stay as far apart as they were, or have come together *)
Theorem C107_displaced : forall (m m' m1 m1' : machine) (d : axis -> Qc) (ls : list text) (r r' : result unit), reachable (ar := exact_arith) m -> reachable (ar := exact_arith) m' -> displaced d m m' ->
  steps (map (process_str (ar := exact_arith)) ls) m = (m1, r) -> steps (map (process_str (ar := exact_arith)) ls) m' = (m1', r') ->
  exists d', displaced d' m1 m1' /\ forall a, d' a = d a \/ d' a = Q2Qc 0.
Proof.
  intros m m' m1 m1' d ls r r' R R' [A DD] E E'. destruct (reachable_sound m R) as [S I]. destruct (reachable_sound m' R') as [S' I'].
  destruct (lines_twin (ar := exact_arith) (fun m m' => fine (ar := exact_arith) m m' /\ exists d', (forall a, has (m_abs m) a -> pval (m_abs m') a = (pval (m_abs m) a + d' a)%Qc) /\ forall a, d' a = d a \/ d' a = Q2Qc 0) (fun _ => True)) with (ls := ls) (m := m) (m' := m') as [X Y].
  - intros ? ? [Q _]; exact Q.
  - intros g n n' n1 n1' cs k (F & e & V & D) W _ EP AL. split; [eapply fine_along; eauto|]. pose proof (fun a => proj1 (along_has (ar := exact_arith) g n n' n1 n1' cs k a F W EP AL)) as HA. destruct AL as (_ & _ & _ & _ & _ & VV & _).
    exists (fun a => if is_incremental (set_for n g) then e a else match k, coord_at cs a with O, _ | _, None => e a | _, Some _ => Q2Qc 0 end). split.
    + intros a H. apply HA in H. destruct (VV a H) as [V1 V2]. rewrite V1, V2, (V a H). destruct (is_incremental (set_for n g)) eqn:IN; [apply iter_exact; auto|]. destruct k as [|k]; [reflexivity|]. destruct (coord_at cs a) eqn:C; [|apply iter_exact; auto]. rewrite Qcplus_0_r. apply iter_same; auto; [congruence|lia].
    + intros a. destruct (is_incremental _); auto. destruct k; auto. destruct (coord_at cs a); auto.
  - intros g n n' (F & e & V & D) W _. split; [apply fine_set; auto|]. exists e. rewrite !(proj1 (set_for_pos _ g)). auto.
  - intros; apply Forall_forall; auto.
  - split; [unfold fine; auto|]. exists d. split; auto. intros a H. assert (G : pos_getattr (m_abs m) a = Ok (pval (m_abs m) a)) by (apply getattr_ok; auto). apply DD in G. apply getattr_ok in G as [_ G]. auto.
  - rewrite E, E' in Y. cbn in Y. destruct Y as ((S1 & _ & S1' & _ & F) & e & V & D). exists e. split; auto. split; auto. intros a x G. apply getattr_ok in G as [H ->]. apply getattr_ok. split; [eapply (sound_has (ar := exact_arith)); [exact S1|exact S1'|exact F|exact H]|]. symmetry. auto.
Qed.
Print Assumptions C107_displaced.
(** exact arithmetic: a program in G91 does the same moves from wherever it starts *)
Theorem C107_g91 : forall (m m' m1 m1' : machine) (d : axis -> Qc) (ls : list text) (r r' : result unit), reachable (ar := exact_arith) m -> reachable (ar := exact_arith) m' -> displaced d m m' -> incremental m ->
  (forall s l g, In s ls -> mk_line (ar := exact_arith) s = Ok l -> In g (bgcodes (lblock l)) -> ~ derives (gcls g) GCodeAbsoluteDistanceMode) ->
  steps (map (process_str (ar := exact_arith)) ls) m = (m1, r) -> steps (map (process_str (ar := exact_arith)) ls) m' = (m1', r') -> r' = r /\ displaced d m1 m1' /\ incremental m1.
Proof.
  intros m m' m1 m1' d ls r r' R R' [A DD] INC NA E E'. destruct (reachable_sound m R) as [S I]. destruct (reachable_sound m' R') as [S' I'].
  destruct (lines_twin (ar := exact_arith) (fun m m' => fine (ar := exact_arith) m m' /\ incremental m /\ forall a, has (m_abs m) a -> pval (m_abs m') a = (pval (m_abs m) a + d a)%Qc) (fun g => ~ derives (gcls g) GCodeAbsoluteDistanceMode)) with (ls := ls) (m := m) (m' := m') as [X Y].
  - intros ? ? [Q _]; exact Q.
  - intros g n n' n1 n1' cs k (F & IM & V) W NG EP AL. split; [eapply fine_along; eauto|]. pose proof (fun a => proj1 (along_has (ar := exact_arith) g n n' n1 n1' cs k a F W EP AL)) as HA. destruct AL as (_ & _ & _ & _ & _ & VV & _). pose proof F as (SN & IN & _). split; [eapply (incremental_effect (ar := exact_arith)); eauto|].
    intros a H. apply HA in H. destruct (VV a H) as [V1 V2]. rewrite V1, V2, (V a H). apply iter_exact. left. clear - NG IM SN W. unfold is_incremental. apply incremental_is in IM. unfold is_incremental in IM. unfold set_for. rewrite after_mode_mode. unfold set_effect. destruct (modal_group (gcls g)) as [mg|] eqn:G; auto. rewrite gm_get_set. destruct (mgroup_eqb mg MG_distance) eqn:Q; auto.
    apply mgroup_eqb_eq in Q. subst. cbn [modal_of gcls]. destruct (distance_classes _ G) as [D|D]; [contradiction|]. apply subclass_derives. exact D.
  - intros g n n' (F & IM & V) W NG. split; [apply fine_set; auto|]. split; [|rewrite !(proj1 (set_for_pos _ g)); auto]. apply incremental_is. clear - NG IM W. apply incremental_is in IM. unfold is_incremental in *. unfold set_for. rewrite after_mode_mode. unfold set_effect. destruct (modal_group (gcls g)) as [mg|] eqn:G; auto. rewrite gm_get_set. destruct (mgroup_eqb mg MG_distance) eqn:Q; auto.
    apply mgroup_eqb_eq in Q. subst. cbn [modal_of gcls]. destruct (distance_classes _ G) as [D|D]; [contradiction|]. apply subclass_derives. exact D.
  - intros s l IS L n n' gs ((SN & _) & _) B. destruct (line_bare s l L) as (BA & WG & WW). apply Forall_forall. intros g IG. unfold block_modal_gcodes in B. destruct (machine_modal_gcode n (bmodal (lblock l))) as [og|] eqn:O; cbn [bind] in B; [|discriminate B]. injection B as <-. eapply Permutation_in in IG; [|apply sort_perm]. apply in_app_iff in IG as [IG|IG]; [eapply NA; eauto|].
    destruct og as [g'|]; [|contradiction]. destruct IG as [<-|[]]. destruct (modal_gcode_motion (ar := exact_arith) n _ _ SN BA O) as (mo & EM & ->). destruct SN as (_ & _ & _ & _ & _ & MW & _). destruct (MW _ _ EM) as [G _]. unfold in_group in G. rewrite <- subclass_derives. clear - G. revert G. destruct (gcls mo); vm_compute; intros G; try discriminate G; discriminate.
  - split; [unfold fine; auto|]. split; auto. intros a H. assert (G : pos_getattr (m_abs m) a = Ok (pval (m_abs m) a)) by (apply getattr_ok; auto). apply DD in G. apply getattr_ok in G as [_ G]. auto.
  - rewrite E, E' in X, Y. cbn in X, Y. destruct Y as ((S1 & _ & S1' & _ & F) & IM & V). split; [congruence|]. split; auto. split; auto. intros a x G. apply getattr_ok in G as [H ->]. apply getattr_ok. split; [eapply (sound_has (ar := exact_arith)); [exact S1|exact S1'|exact F|exact H]|]. symmetry. auto.
Qed.
Print Assumptions C107_g91.
(** example: the machine as made and the same machine put at X10 Y20 Z3 *)
Lemma set_pos_alike {ar : Arith} p m : alike m (fst (set_pos p m)).
Proof.
  unfold set_pos, then_step, atomic_step, alike. destruct (work2abs m p) as [q|]; cbn [bind fst]; auto. destruct (pos_min _ _) as [q'|]; cbn [bind fst]; auto. destruct (pos_max _ _) as [q''|]; cbn [bind fst]; auto.
Qed.
Definition apart_b (d : list (axis * Qc)) (m m' : machine) : bool :=
  forallb (fun c => match pos_getattr (m_abs m) (fst c), pos_getattr (m_abs m') (fst c) with Ok x, Ok y => Qceqb y (x + snd c)%Qc | _, _ => false end) d.
Definition by_of (d : list (axis * Qc)) (a : axis) : Qc := match dget axis_eqb d a with Some x => x | None => Q2Qc 0 end.
Definition abs_text (m : machine) : list text := map (fun a => val_text (pos_getattr (m_abs m) a)) [AX; AY; AZ].
Definition place_run (ls : list string) (m : machine) : list text := abs_text (fst (steps (map (fun s => process_str (ar := exact_arith) (t s)) ls) m)).
Definition place_d : list (axis * Qc) := [(AX, Qc_of_Z 10); (AY, Qc_of_Z 20); (AZ, Qc_of_Z 3)].
Definition place_abs : list string := ["G91 G1 F100 X1 Z-2"; "G90 Y5"; "X7"; "G91 X0.5"]%string.
Definition place_inc : list string := ["G91 G1 F100 X1 Z-2"; "Y5"; "G2 X3 I1.5"]%string.
Lemma apart_ex m m' : alike m m' -> m_axes m = xyz -> sound (ar := exact_arith) m -> apart_b place_d m m' = true -> displaced (by_of place_d) m m'.
Proof.
  intros A X ((_ & P & _) & _) B. split; auto. intros a x G. pose proof G as [H _]%getattr_ok. unfold has in H. rewrite P, X in H. unfold apart_b in B. rewrite forallb_forall in B.
  assert (I : exists v, In (a, v) place_d /\ by_of place_d a = v). { destruct a; vm_compute in H; try discriminate H; (eexists; split; [|reflexivity]); cbn [place_d In]; auto. }
  destruct I as (v & I & ->). specialize (B _ I). cbn [fst snd] in B. rewrite G in B. destruct (pos_getattr (m_abs m') a) as [y|]; [|discriminate B]. apply Qceqb_eq in B. congruence.
Qed.
Lemma from_exact {A} (f : machine -> A) (x : A) : rmap f (default_machine (ar := exact_arith)) = Ok x -> exists m, default_machine (ar := exact_arith) = Ok m /\ f m = x.
Proof. unfold rmap. generalize (default_machine (ar := exact_arith)). intros [m|e]; [|discriminate]. intros H. injection H as <-. eauto. Qed.
Lemma off_good x y z : good (off x y z).
Proof. apply mk_position_good. intros a v [H|[H|[H|[]]]]; apply (f_equal fst) in H; cbn [fst] in H; subst a; reflexivity. Qed.
Example C107_ex : exists m m', reachable (ar := exact_arith) m /\ reachable (ar := exact_arith) m' /\ displaced (by_of place_d) m m' /\ absolute m /\
  (place_run place_abs m, place_run place_abs m') = (map t ["7.5"; "5"; "-2"], map t ["7.5"; "5"; "1"])%string /\
  (place_run place_inc m, place_run place_inc m') = (map t ["4"; "5"; "-2"], map t ["14"; "25"; "1"])%string.
Proof.
  assert (Q : rmap (fun m => let m' := fst (set_pos (ar := exact_arith) (off 10 20 3) m) in (is_incremental m, apart_b place_d m m', (place_run place_abs m, place_run place_abs m'), (place_run place_inc m, place_run place_inc m'))) (default_machine (ar := exact_arith))
    = Ok (false, true, (map t ["7.5"; "5"; "-2"], map t ["7.5"; "5"; "1"])%string, (map t ["4"; "5"; "-2"], map t ["14"; "25"; "1"])%string)) by (vm_compute; reflexivity).
  apply from_exact in Q as (m & D & Q). cbv beta zeta in Q.
  apply pair_equal_spec in Q as [Q Q4]. apply pair_equal_spec in Q as [Q Q3]. apply pair_equal_spec in Q as [Q1 Q2]. exists m, (fst (set_pos (ar := exact_arith) (off 10 20 3) m)). unfold default_machine in D. destruct (new_machine_sound (ar := exact_arith) _ _ _ _ D) as (S & I & _ & X & _).
  split; [exists xyz, false, default_mode_lines, m, []; split; [exact D|split; [constructor|reflexivity]]|]. split; [exists xyz, false, default_mode_lines, m, [SetPos (off 10 20 3)]; split; [exact D|split; [|reflexivity]]|].
  { constructor; [|constructor]. cbn [fits]. split; [apply off_good|]. split; [reflexivity|]. right. reflexivity. }
  split; [apply apart_ex; auto; apply set_pos_alike|]. split; [apply absolute_is; auto|]. split; [exact Q3|exact Q4].
Qed.
