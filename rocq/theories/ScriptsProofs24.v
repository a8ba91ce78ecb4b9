(** The pieces cut by pygcode-crop, read back one after the other. *)
From Coq Require Import Ascii String List Bool Arith ZArith QArith Qcanon Permutation Lia.
From Verif Require Import Base Num Words GTable GCode Line Position Machine Transform BaseFacts WordOrder ArithSpec WordsSpec WordsProofs PrintSpec PrintProofs PrintProofs2 PropsPrint GCodeSpec GCodeProofs GTableProofs PosSpec PosProofs BlockSpec BlockProofs ModeSpec ModeProofs MachSpec MachProofs MachProofs2 SimSpec SimProofs TransSpec
  Scripts ScriptsSpec ScriptsSpec2 ScriptsSpec3 ScriptsSpec14 ScriptsProofs ScriptsProofs3 ScriptsProofs4 ScriptsProofs5 ScriptsProofs6 ScriptsProofs7 ScriptsProofs8 PropsScripts PropsScripts2 PropsScripts3.
Import ListNotations.
Local Open Scope nat_scope.

Section WithArith.
Context {ar : Arith}.
Lemma number_chars s x c : number_text s x -> In c s -> digit c \/ c = "-"%char \/ c = "."%char.
Proof.
  intros H I. destruct H as [neg ip dot fp D _ F _ _]. rewrite Forall_forall in D, F. apply in_app_or in I as [I|I]; [destruct neg; cbn in I; [destruct I as [<-|[]]; auto|contradiction]|].
  apply in_app_or in I as [I|I]; [left; auto|]. unfold dotted in I. destruct dot; [|contradiction]. destruct I as [<-|I]; auto.
Qed.
Lemma number_no s x c : number_text s x -> ~ digit c -> c <> "-"%char -> c <> "."%char -> ~ In c s.
Proof. intros H A B C I. destruct (number_chars s x c H I) as [D|[D|D]]; auto. Qed.
Lemma not_digit c : is_digit c = false -> ~ digit c.
Proof. intros H D. apply digit_iff in D. congruence. Qed.
Lemma number_some s x : number_text s x -> s <> [].
Proof. intros [neg ip dot fp _ N _ _ _]. destruct neg; [discriminate|]. destruct ip; [contradiction|discriminate]. Qed.
Lemma number_side s n : number_text s (Qc_of_Z (Z.of_nat n)) -> side_text s [Cond LN CEq (Qc_of_Z (Z.of_nat n))].
Proof.
  intros H. right. exists [s]. split; [apply (number_some s _ H)|]. split; [reflexivity|].
  split; [constructor; [|constructor]; apply (number_no s _ _ H); [apply not_digit; reflexivity|discriminate|discriminate]|].
  split; [constructor; [|constructor]|constructor; [|constructor]; intros _; exists (Z.of_nat n); reflexivity].
  pose proof (ct_number [] s _ [] (Forall_nil _) (Forall_nil _) H) as X. cbn [app] in X. rewrite app_nil_r in X. exact X.
Qed.
Lemma line_holds n k p : all_hold [Cond LN CEq (Qc_of_Z (Z.of_nat k))] n p <-> n = k.
Proof.
  split.
  - intros H. inversion H as [|? ? (P & C & HP) _]; subst. assert (Q := at_line n p CEq (Qc_of_Z (Z.of_nat k))). pose proof (proj1 (cond_at_one _ _ _ _ _ C Q) HP) as X. cbn [compares] in X. apply Qc_of_Z_inj in X. lia.
  - intros ->. constructor; [|constructor]. eexists. split; [apply at_line|]. reflexivity.
Qed.
(** what the two sides of the argument of a piece say *)
Lemma piece_says s lo hi last : piece_range s lo hi last -> exists f l, range_type s = Ok (f, l) /\
  (forall n m p, 1 <= n <= lo -> machine_pos m = Ok p -> says f n m (n =? lo)) /\
  ((forall n m p, machine_pos m = Ok p -> says l n m (n =? hi)) \/ last /\ forall n m p, machine_pos m = Ok p -> says l n m false).
Proof.
  intros (a & b & -> & A & B).
  assert (NA : ~ In newline a /\ ~ In ":"%char a) by (destruct A as [A|[-> _]]; [split; apply (number_no a _ _ A); try (apply not_digit; reflexivity); discriminate|split; intros []]).
  assert (NB : ~ In newline b /\ ~ In ":"%char b) by (destruct B as [B|[-> _]]; [split; apply (number_no b _ _ B); try (apply not_digit; reflexivity); discriminate|split; intros []]).
  set (cs := match a with [] => [] | _ => [Cond LN CEq (Qc_of_Z (Z.of_nat lo))] end). set (ds := match b with [] => [] | _ => [Cond LN CEq (Qc_of_Z (Z.of_nat hi))] end).
  assert (SA : side_text a cs) by (destruct A as [A|[-> _]]; [unfold cs; destruct a; [destruct (number_some _ _ A eq_refl)|apply number_side; auto]|left; auto]).
  assert (SB : side_text b ds) by (destruct B as [B|[-> _]]; [unfold ds; destruct b; [destruct (number_some _ _ B eq_refl)|apply number_side; auto]|left; auto]).
  destruct (C83_accepted ar (a ++ ":"%char :: b) cs ds) as (f & l & E & F & L).
  { intros I. apply in_app_or in I as [I|[I|I]]; [exact (proj1 NA I)|discriminate I|exact (proj1 NB I)]. }
  { exists a, b. split; [reflexivity|]. split; [apply NA|]. split; [apply NB|]. split; [exact SA|exact SB]. }
  assert (AN : forall k p, answers [Cond LN CEq k] p) by (intros k p; constructor; [|constructor]; intros d D; destruct d; discriminate D).
  assert (ANs : forall p, answers cs p /\ answers ds p) by (intros p; unfold cs, ds; split; [destruct a|destruct b]; auto; constructor).
  exists f, l. split; [exact E|]. split.
  - intros n m p N MP. exists p. split; [exact MP|]. destruct (F n p (proj1 (ANs p))) as (v & Ef & V). rewrite Ef. f_equal. unfold cs in V. destruct a as [|ch a].
    + destruct A as [A|[_ ->]]; [destruct (number_some _ _ A eq_refl)|]. assert (n = 1) by lia. subst. apply V. constructor.
    + rewrite line_holds in V. destruct (n =? lo) eqn:Q; [apply Nat.eqb_eq in Q; apply V; auto|apply Nat.eqb_neq in Q]. destruct v; auto. exfalso. apply Q, V. reflexivity.
  - destruct b as [|ch b]; [right|left].
    + destruct B as [B|[_ B]]; [destruct (number_some _ _ B eq_refl)|]. split; auto. intros n m p MP. exists p. split; [exact MP|]. destruct (L n p (proj2 (ANs p))) as (v & El & V). rewrite El. f_equal. destruct v; auto. exfalso. apply (proj1 (proj1 V eq_refl)). reflexivity.
    + intros n m p MP. exists p. split; [exact MP|]. destruct (L n p (proj2 (ANs p))) as (v & El & V). rewrite El. f_equal. unfold ds in V. rewrite line_holds in V. destruct (n =? hi) eqn:Q; [apply Nat.eqb_eq in Q; apply V; split; [discriminate|auto]|apply Nat.eqb_neq in Q]. destruct v; auto. exfalso. apply Q, V. reflexivity.
Qed.
Lemma reading_places file m tr x : sound m -> inside m -> reading m file tr -> In x tr -> exists p, machine_pos (snd x) = Ok p.
Proof. intros S I R H. destruct (reading_sound_all file m tr S I R x H) as (S1 & _). destruct (machine_pos_spec _ S1) as (q & E & _). eauto. Qed.
(** pygcode-crop cuts out the piece *)
Lemma piece_crop z file a p c s pre : accurate ar -> null_machine = Ok z -> reading z file (a ++ p ++ c) -> p <> [] -> piece_range s (S (length a)) (S (length a) + length p) (c = []) ->
  crop_preamble (machine_copy (after z a)) = (pre, Ok tt) -> exists r, range_type s = Ok r /\ crop r file = (pre ++ map (fun x => line_str (fst x)) p, Ok tt).
Proof.
  intros acc E R NE PR CP. destruct (piece_says _ _ _ _ PR) as (f & l & RT & F & L). exists (f, l). split; [exact RT|]. destruct (null_steady z acc E) as (S0 & I0 & _).
  assert (PL : forall x, In x (a ++ p ++ c) -> exists q, machine_pos (snd x) = Ok q) by (intros x Ix; apply (reading_places file z _ x S0 I0 R Ix)).
  assert (SF : forall i x, nth_error (a ++ p ++ c) i = Some x -> i <= length a -> says f (S i) (snd x) (S i =? S (length a))) by (intros i x Q Li; destruct (PL x (nth_error_In _ _ Q)) as (q & Eq); apply (F (S i) (snd x) q); [lia|exact Eq]).
  assert (FA : forall i x, nth_error a i = Some x -> says f (S i) (snd x) false).
  { intros i x Q. assert (Li : i < length a) by (apply nth_error_Some; congruence). specialize (SF i x). rewrite nth_error_app1 in SF by auto. specialize (SF Q ltac:(lia)). replace (S i =? S (length a)) with false in SF by (symmetry; apply Nat.eqb_neq; lia). exact SF. }
  assert (FP : forall x r r', p ++ r' = x :: r -> incl (p ++ r') (p ++ c) -> says f (S (length a)) (snd x) true).
  { intros x r r' Q _. destruct p as [|y p]; [contradiction|]. cbn [app] in Q. injection Q as -> _. specialize (SF (length a) x). rewrite nth_error_app2, Nat.sub_diag in SF by lia. specialize (SF eq_refl ltac:(lia)). rewrite Nat.eqb_refl in SF. exact SF. }
  destruct c as [|x c].
  - apply (C70_cropped ar f l file z _ E). exists file, [], a, p, []. rewrite !app_nil_r in *. split; [reflexivity|]. split; [exact R|]. split; [|split; [auto|right; exists pre; split; auto]].
    split; [exact FA|]. split; [intros y r Q; apply (FP y r []); [exact Q|rewrite app_nil_r; apply incl_refl]|]. split; [|auto].
    intros i y Q. assert (Li : i < length p) by (apply nth_error_Some; congruence). destruct (PL y ltac:(apply in_or_app; right; apply (nth_error_In _ _ Q))) as (q & Eq). destruct L as [L|[_ L]]; [|apply (L _ _ q); exact Eq].
    specialize (L (S (length a + i)) (snd y) q Eq). replace (S (length a + i) =? S (length a) + length p) with false in L by (symmetry; apply Nat.eqb_neq; lia). exact L.
  - destruct L as [L|[L _]]; [|discriminate L]. assert (RS : exists rd un, file = rd ++ un /\ reading z rd (a ++ p ++ [x])).
    { change (a ++ p ++ x :: c) with (a ++ p ++ [x] ++ c) in R. rewrite (app_assoc p), (app_assoc a) in R. apply reading_split in R as (rd & un & -> & R & _). eauto. }
    destruct RS as (rd & un & -> & R1). apply (C70_cropped ar f l _ z _ E). exists rd, un, a, p, [x]. split; [reflexivity|]. split; [exact R1|]. split; [|split; [discriminate|right; exists pre; split; auto; destruct p; [contradiction|discriminate]]].
    split; [exact FA|]. split; [intros y r Q; apply (FP y r [x]); [exact Q|intros w; rewrite !in_app_iff; cbn [In]; intuition]|]. split.
    + intros i y Q. assert (Li : i < length p) by (apply nth_error_Some; congruence). destruct (PL y ltac:(rewrite !in_app_iff; right; left; apply (nth_error_In _ _ Q))) as (q & Eq). specialize (L (S (length a + i)) (snd y) q Eq). replace (S (length a + i) =? S (length a) + length p) with false in L by (symmetry; apply Nat.eqb_neq; lia). exact L.
    + right. exists x. split; [reflexivity|]. destruct (PL x ltac:(rewrite !in_app_iff; cbn [In]; auto)) as (q & Eq). specialize (L (S (length a + length p)) (snd x) q Eq). replace (S (length a + length p) =? S (length a) + length p) with true in L by (symmetry; apply Nat.eqb_eq; lia). exact L.
Qed.

Lemma resumed_covers m k : resumed m k -> covers m k.
Proof. intros (H & _) mg N G. specialize (H mg N). rewrite G in H. destruct (gm_get (m_mode k) mg); [contradiction|reflexivity]. Qed.
Lemma Forall2_after {P : machine -> machine -> Prop} {Q : line -> line -> Prop} p p' m k : p <> [] -> Forall2 (fun x y => Q (fst x) (fst y) /\ P (snd x) (snd y)) p p' -> P (after m p) (after k p').
Proof.
  intros N F. revert m k. induction F as [|x y p p' [_ H] F IH]; intros m k; [contradiction|]. destruct x as [l n], y as [l' n']. rewrite !after_cons. cbn [snd] in *. destruct F as [|x y p p' H' F]; [exact H|]. apply IH. discriminate.
Qed.
Lemma pieces_run z file ps : accurate ar -> idempotent ar -> null_machine = Ok z -> forall a k ss, keeps z k -> sound k -> inside k -> steady k -> covers (after z a) k ->
  reading z file (a ++ concat ps) -> cut_at (S (length a)) ps ss -> separable (after z a) ps ->
  exists outs tr, Forall2 (fun s out => exists r, range_type s = Ok r /\ crop r file = (out, Ok tt)) ss outs /\ reading k (concat outs) tr /\ rejoined (after z a) k ps tr.
Proof.
  intros acc ID E. destruct (null_steady z acc E) as (S0 & I0 & Y0 & _ & X0 & _). induction ps as [|p ps IH]; intros a k ss KK SK IK YK CK R CT SP.
  - inversion CT; subst. exists [], []. split; [constructor|]. split; constructor.
  - cbn [concat] in R. inversion CT as [|? ? ? s ss' NE PR CT']; subst. inversion SP as [|? ? ? A RS FA NM SP']; subst. set (m := after z a) in *.
    destruct (reading_split _ _ _ _ R) as (fa & fb & EF & Ra & Rb). destruct (reading_split _ _ _ _ Rb) as (fp & fc & EF2 & Rp & _). fold m in Rp.
    destruct (reading_steady fa ID z a S0 I0 Y0 Ra) as (S & I & Y & K). fold m in S, I, Y, K.
    destruct (preamble_total m S) as (pre & P); [destruct K; congruence|intros d; apply (null_offsets z m E K)|apply RS|].
    destruct (preamble_resumes z k m pre acc ID E KK SK IK YK CK S Y K A RS P) as (front & RF & RM & RP & (SF & IF) & AP).
    assert (YF : steady (after k front) /\ keeps k (after k front)) by (destruct (reading_steady pre ID k front SK IK YK RF) as (_ & _ & Q); exact Q). destruct YF as [YF KF].
    assert (KP : exists p', reading (after k front) (map (fun x => line_str (fst x)) p) p' /\ Forall2 (fun x y => same_line (fst x) (fst y) /\ resumed (snd x) (snd y)) p p' /\ (motion_named (map fst p) -> alike (after m p) (after (after k front) p'))).
    { destruct NM as [NM|(h & H & HC & HP)].
      - destruct (kept_resumed fp acc m (after k front) p S I SF IF RM Rp FA NM) as (p' & Rb' & FR & AL). eauto.
      - assert (AL : alike m (after k front)). { split; auto. destruct RP as (g & G & GC & GP). rewrite H, G. apply rapid_word; auto; [destruct S as (_ & _ & _ & _ & _ & _ & T)|destruct SF as (_ & _ & _ & _ & _ & _ & T)]; eauto. }
        destruct (kept_alike fp acc m (after k front) p S I SF IF AL Rp FA) as (p' & Rb' & FR). exists p'. split; auto. split; [|intros _; exact (Forall2_after p p' m (after k front) NE FR)]. eapply Forall2_impl_in; [|exact FR]. intros x y _ [Q1 [Q2 _]]. auto. }
    destruct KP as (p' & RP' & FR & FL). destruct (reading_steady _ ID _ p' SF IF YF RP') as (S1 & I1 & Y1 & K1).
    pose proof (Forall2_after p p' m (after k front) NE FR) as RA.
    destruct (IH (a ++ p) (after k (front ++ p')) ss') as (outs & tr & CR & RT & RJ).
    { rewrite after_app. eapply keeps_trans; [exact KK|]. eapply keeps_trans; eauto. } { rewrite after_app. exact S1. } { rewrite after_app. exact I1. } { rewrite after_app. exact Y1. }
    { rewrite !after_app. apply resumed_covers. exact RA. } { rewrite <- app_assoc. exact R. } { rewrite app_length, <- Nat.add_succ_l. exact CT'. } { rewrite after_app. exact SP'. }
    assert (PR' : piece_range s (Datatypes.S (length a)) (Datatypes.S (length a) + length p) (concat ps = [])).
    { destruct PR as (u & v & Q1 & Q2 & Q3). exists u, v. split; auto. split; auto. destruct Q3 as [Q3|[Q3 ->]]; auto. }
    destruct (piece_crop z file a p (concat ps) s pre acc E R NE PR' P) as (r & RR & CC).
    exists ((pre ++ map (fun x => line_str (fst x)) p) :: outs), (front ++ p' ++ tr). split; [constructor; eauto|]. split.
    + cbn [concat]. rewrite <- app_assoc. apply reading_app; [exact RF|]. apply reading_app; [exact RP'|]. rewrite <- after_app. exact RT.
    + econstructor; eauto. 2: { intros MN. rewrite after_app. apply FL. exact MN. } 2: { rewrite (after_app z a p) in RJ. exact RJ. } intros d UD. exists (pval (m_max m) d). split; [|apply AP; exact UD]. apply getattr_ok. split; [|reflexivity]. apply S.
      destruct S as ((_ & Q & _) & _). unfold has. rewrite Q. replace (m_axes m) with xyz by (destruct K; congruence). destruct UD as [(pl & _ & IP)|[_ ->]]; [|reflexivity]. cbn [In planes] in IP. destruct IP as [IP|[IP|[IP|[]]]]; injection IP as _ <-; reflexivity.
Qed.

Lemma rejoined_end m k ps tr : ps <> [] -> Forall (fun p => p <> []) ps -> rejoined m k ps tr -> resumed (after m (concat ps)) (after k tr).
Proof.
  intros N F J. induction J as [|m k front p p' ps tr _ _ _ FR _ J IH]; [contradiction|]. inversion F as [|? ? NE F']; subst. destruct ps as [|q ps].
  - inversion J; subst. cbn [concat]. rewrite !app_nil_r, after_app. apply (Forall2_after p p' m (after k front) NE FR).
  - change (concat (p :: q :: ps)) with (p ++ concat (q :: ps)). rewrite (after_app m), app_assoc, (after_app k). apply IH; [discriminate|auto].
Qed.
(** ** the first piece: nothing to restore *)
Lemma effects_other gs md : Forall (fun g => ~ in_group MG_motion g) gs -> gm_get md MG_motion = None -> gm_get (fold_left mode_effect gs md) MG_motion = None.
Proof.
  revert md. induction gs as [|g gs IH]; intros md F Z; cbn [fold_left]; auto. inversion F as [|? ? N F']; subst. apply IH; auto. unfold mode_effect. unfold in_group in N. destruct (process_kind (gcls g)) eqn:K.
  all: try (unfold set_effect; destruct (modal_group (gcls g)) as [mg|]; [rewrite gm_get_set_other by congruence|]; exact Z).
  apply gm_get_set_same.
Qed.
Lemma motion_dec gs : {g | In g gs /\ in_group MG_motion g} + {Forall (fun g => ~ in_group MG_motion g) gs}.
Proof.
  induction gs as [|g gs IH]; [right; constructor|]. destruct IH as [(h & I & G)|F]; [left; exists h; split; [right|]; auto|].
  destruct (modal_group (gcls g)) as [mg|] eqn:Q; [destruct (mgroup_eqb mg MG_motion) eqn:M|].
  - left. exists g. split; [left; auto|]. unfold in_group. rewrite Q. f_equal. apply mgroup_eqb_eq. exact M.
  - right. constructor; auto. unfold in_group. rewrite Q. intros X. injection X as ->. assert (Y : mgroup_eqb MG_motion MG_motion = true) by reflexivity. congruence.
  - right. constructor; auto. unfold in_group. rewrite Q. discriminate.
Qed.
Lemma null_names file : forall m tr, sound m -> inside m -> m_ignore m = false -> gm_get (m_mode m) MG_motion = None -> reading m file tr -> names_motion (map fst tr).
Proof.
  induction file as [|s r IH]; intros m tr S I IG MO R; [apply reading_empty in R; subst; constructor|]. apply reading_step in R as (l & m1 & tr1 & L & P & R & <-). cbn [map fst].
  destruct (mk_line_block _ _ L) as (bs & MB). destruct (mk_block_wf _ _ _ MB) as [F W].
  destruct (process_gcodes_inv (bgcodes (lblock l)) (bmodal (lblock l)) m S I F W) as (S1 & I1 & _ & K1). unfold process_block in P. rewrite P in S1, I1, K1. cbn [fst] in *.
  assert (BM : bmodal (lblock l) = []). { destruct (bmodal (lblock l)) as [|w ws]; [reflexivity|exfalso]. unfold process_gcodes, machine_modal_gcode in P. rewrite MO in P. cbn [bind] in P. rewrite IG in P. cbn [andb negb] in P. discriminate P. }
  destruct (motion_dec (bgcodes (lblock l))) as [(g & Ig & G)|N]; [apply nm_here; eauto|]. apply nm_later; auto. apply (IH m1); auto; [destruct K1 as (_ & Q & _); congruence|].
  rewrite BM in P. unfold process_gcodes in P. cbn [machine_modal_gcode] in P. rewrite app_nil_r in P.
  destruct (steps_mode (sort_gcodes (bgcodes (lblock l))) m m1 (Ok tt)) as (d & e & Q & MM & RR); auto; [apply S|eapply Forall_impl; [|apply sort_wf; exact F]; intros g (X & _); exact X|].
  rewrite (RR eq_refl), app_nil_r in Q. subst d. rewrite MM. apply effects_other; auto. eapply Permutation_Forall; [symmetry; apply sort_perm|exact N].
Qed.
Lemma zero_readable a : accurate ar -> readable (Word (axis_letter a) (VFloat (Q2Qc 0))).
Proof.
  intros acc. split; [|discriminate]. assert (Z : Q2Qc 0 = rnd (thousandths 0)). { assert (Q : thousandths 0 = Qc_of_Z 0%Z) by (apply Qceqb_eq; vm_compute; reflexivity). rewrite Q, (proj1 acc) by lia. apply Qceqb_eq. vm_compute. reflexivity. }
  rewrite Z. apply float_survives; auto; [destruct a; reflexivity|lia].
Qed.
Lemma null_max z a x : null_machine = Ok z -> pos_getattr (m_max z) a = Ok x -> x = Q2Qc 0.
Proof. intros E H. unfold null_machine in E. cbn in E. injection E as <-. cbn [m_max] in H. apply getattr_ok in H as [_ H]. rewrite H. apply zero_pos_val. Qed.
Lemma null_restorable z : accurate ar -> null_machine = Ok z -> absolute z /\ restorable z.
Proof.
  intros acc E. destruct (null_steady z acc E) as (S & I & Y & O & X & G & M). assert (N : forall mg g, gm_get (m_mode z) mg = Some g -> False) by (intros mg g; rewrite M, gm_get_empty; discriminate).
  split; [intros g H; destruct (N _ _ H)|]. split; [intros g H; destruct (N _ _ H)|]. split; [intros g H; destruct (N _ _ H)|]. split; [intros mg g H; destruct (N _ _ H)|]. split; [|split; [|intros g H; destruct (N _ _ H)]].
  - intros a x P. apply (steady_pos z a x S Y O) in P as [_ ->]. destruct (new_machine_sound _ _ _ _ E) as (_ & _ & _ & _ & _ & _ & V). rewrite V. apply zero_readable; auto.
  - intros a x _ P. rewrite (null_max z a x E P). apply zero_readable; auto.
Qed.
End WithArith.
