(** Lemmas for C98: programs read back from what [norm] prints. *)
From Coq Require Import Ascii String List Bool Arith ZArith QArith Qcanon Qabs Permutation Lia Lqa.
From Verif Require Import Base Num Words GTable GCode Line Position Machine BaseFacts NumFacts WordOrder ArithSpec WordsSpec LineSpec PrintSpec PrintProofs PrintProofs2 PropsPrint GCodeSpec GCodeProofs GTableProofs GCodeProofs2 PropsGCode BlockSpec BlockProofs LineProofs PosSpec PosProofs ModeSpec ModeProofs MachSpec MachProofs MachProofs2 MachProofs3 PropsMach SimSpec SimProofs
  Scripts ScriptsSpec ScriptsSpec2 ScriptsProofs ScriptsProofs4 ScriptsProofs5 ScriptsProofs7 ScriptsProofs8 ScriptsSpec12 ScriptsProofs21 WordsProofs.
Import ListNotations.
Local Open Scope nat_scope.

Section WithArith.
Context {ar : Arith} (acc : accurate ar) (MO : monotone ar) (ID : idempotent ar).
Section Bound.
Context (M : Q) (M0 : (0 <= M)%Q) (M6 : (M <= 999999)%Q).
Notation glike := (like_gcode (wrel M)).
Notation mlike := (like_machine (wrel M)).
Notation times := (times M).
Definition small (w : word) : Prop := coordinate_letter (wletter w) -> forall x, wvalue w = VFloat x -> (Qabs x <= M)%Q.
Definition legible_small (w : word) : Prop := legible_word w /\ small w.
Notation same := (read_as (fun w _ => small w)).
Lemma legible_reads s ws w : text2words s = Ok ws -> In w ws -> legible_small w -> exists w', same w w'.
Proof.
  intros _ _ [[[SV|(x & K & V & B)] _] SM].
  - exists w. split; auto. split; auto. split; [apply survives_reads; auto|auto].
  - destruct w as [l v]. cbn [wletter wvalue] in *. subst v. destruct (C06_error ar l x acc K B) as (y & T & _). exists (Word l (VFloat y)). split; auto.
Qed.
Lemma same_wrel w w' : same w w' -> wrel M w w'.
Proof. intros (L & SM & T & D). split; auto. split; auto. destruct D; auto. Qed.
Lemma same_params (ps ps' : dict letter word) l : Forall2 (fun a b => fst b = fst a /\ same (snd a) (snd b)) ps ps' ->
  match dget letter_eqb ps l, dget letter_eqb ps' l with None, None => True | Some w, Some w' => wrel M w w' | _, _ => False end.
Proof.
  induction 1 as [|[j w] [j' w'] ps ps' [E R] F IH]; cbn [dget]; auto. cbn [fst snd] in *. subst. destruct (letter_eqb l j); auto. apply same_wrel; auto.
Qed.
Lemma same_glike g g' : gcode_wf g -> gcode_read_as (fun w _ => small w) g g' -> glike g g'.
Proof.
  intros ((_ & N) & _) (C & W & ps & P & F). split; auto. split; [apply same_wrel; auto|]. intros l. rewrite <- (dget_perm _ letter_eqb_eq ps (gparams g) l); [apply same_params; auto| |auto].
  eapply Permutation_NoDup; [symmetry; apply Permutation_map; exact P|exact N].
Qed.
Lemma wrel_back w w' : wrel M w w' -> reads_back w w'. Proof. intros [H _]. auto. Qed.
Lemma glike_mono (V W : word -> word -> Prop) g g' : (forall w w', V w w' -> W w w') -> like_gcode V g g' -> like_gcode W g g'.
Proof. intros H (A & B & P). split; auto. split; auto. intros l. specialize (P l). destruct (dget letter_eqb (gparams g) l), (dget letter_eqb (gparams g') l); auto. Qed.
Lemma mlike_mono (V W : word -> word -> Prop) e m m' : (forall w w', V w w' -> W w w') -> like_machine V e m m' -> like_machine W e m m'.
Proof. intros H (A & B). split; auto. intros mg. specialize (A mg). destruct (gm_get (m_mode m) mg), (gm_get (m_mode m') mg); auto. eapply glike_mono; eauto. Qed.
Lemma legible_line s l : mk_line s = Ok l -> legible l -> modest M l ->
  exists l', mk_line (line_str l) = Ok l' /\ Forall2 glike (bgcodes (lblock l)) (bgcodes (lblock l')) /\ Forall2 (wrel M) (bmodal (lblock l)) (bmodal (lblock l')) /\ lcomment l' = lcomment l /\ lmacro l' = lmacro l.
Proof.
  intros L (LW & SE & C) MD. destruct (mk_line_block _ _ L) as (bs & MB). destruct (mk_block_wf _ _ _ MB) as [F W].
  assert (DD : Forall legible_small (bwords (lblock l))). { rewrite Forall_forall in *. intros w I. split; auto. intros CL x V. eapply MD; eauto. }
  destruct (line_reread acc (fun w _ => small w) legible_small legible_reads (fun w H => proj2 (proj1 H)) s l L DD SE) as (b' & MB' & G & P & _ & E).
  assert (CA : comment_again (lcomment l) (lmacro l) = lcomment l).
  { unfold comment_again. destruct (lcomment l) as [[[] x]|] eqn:K; auto. destruct (C x eq_refl) as [->|H]; auto. destruct (lmacro l); auto. rewrite H. auto. }
  rewrite CA in E. exists (Line b' (lcomment l) (lmacro l)). cbn [lblock lcomment lmacro]. split; auto. split; [|split; auto].
  - clear -G F. revert F. induction G; intros F; constructor; inversion F; subst; auto. apply same_glike; auto.
  - clear -P. induction P; constructor; auto. apply same_wrel; auto.
Qed.
Lemma block_wider b m m1 v s : mk_block v s = Ok b -> sound m -> inside m -> process_block b m = (m1, Ok tt) -> wider m m1 /\ sound m1 /\ inside m1 /\ m_axes m1 = m_axes m.
Proof.
  intros MB S I E. destruct (mk_block_wf _ _ _ MB) as [F W]. unfold process_block, process_gcodes in E. destruct (machine_modal_gcode m (bmodal b)) as [og|] eqn:EO; [|discriminate E].
  refine (steps_wider MO _ m m1 S I _ E). apply sort_wf, Forall_app. split; auto. destruct og as [g|]; [constructor; [eapply modal_gcode_wf; [exact S|exact W|exact EO]|constructor]|constructor].
Qed.
Lemma reading_wider file : forall m tr, sound m -> inside m -> reading m file tr -> wider m (after m tr) /\ sound (after m tr) /\ inside (after m tr) /\ m_axes (after m tr) = m_axes m.
Proof.
  induction file as [|s r IH]; intros m tr S I R; [apply reading_empty in R; subst; split; [apply wider_refl|auto]|].
  apply reading_step in R as (l & m1 & tr1 & L & P & R & <-). rewrite after_cons. cbn [snd]. destruct (mk_line_block _ _ L) as (bs & MB). destruct (block_wider _ m m1 _ _ MB S I P) as (A & S1 & I1 & A1).
  destruct (IH m1 tr1 S1 I1 R) as (B & S2 & I2 & A2). split; [|split; [exact S2|split; [exact I2|congruence]]]. eapply wider_trans; [exact S|exact S1|exact A1|exact A|exact B].
Qed.
Lemma reading_rounded file : forall m m' tr k K, fine m -> fine m' -> mlike (times (1 + k)) m m' -> reading m file tr -> Forall (fun x => legible (fst x) /\ modest M (fst x)) tr -> spans M (after m tr) -> run_strides m tr K -> (times (1 + k + K) <= M + 1000)%Q ->
  exists tr', reading m' (map (fun x => line_str (fst x)) tr) tr' /\ rounded M k m tr tr'.
Proof.
  induction file as [|s r IH]; intros m m' tr k K F F' ML R LG SP RS EM.
  - apply reading_empty in R. subst. exists []. split; constructor.
  - apply reading_step in R as (l & m1 & tr1 & L & P & R & <-). inversion LG as [|? ? [LG1 LG2] LG3]; subst. cbn [fst] in LG1, LG2. inversion RS as [|? ? ? ? gs n j BG ST RS']; subst.
    destruct (mk_line_block _ _ L) as (bs & MB). destruct (mk_block_wf _ _ _ MB) as [W V]. pose proof F as (S & I & _). destruct (block_wider _ m m1 _ _ MB S I P) as (_ & S1 & I1 & _). rewrite after_cons in SP. destruct (reading_wider r m1 tr1 S1 I1 R) as (WD & S2 & _ & A2).
    assert (SP1 : spans M m1) by (eapply spans_back; [exact S1|exact I1|exact S2|exact A2|exact WD|exact SP]).
    destruct (legible_line s l L LG1 LG2) as (l' & L' & G & WR & LC & LM). destruct (mk_line_block _ _ L') as (bs' & MB'). destruct (mk_block_wf _ _ _ MB') as [W' V'].
    pose proof (times_plus M (1 + k) n) as T1. pose proof (times_plus M (1 + k + n) j) as T2. pose proof (times_pos M M0 M6 j) as TJ. pose proof (times_plus M 1 k) as T3. pose proof (times_pos M M0 M6 k) as TK.
    assert (T0 : (times 1 == unit_error M)%Q) by (unfold ScriptsProofs21.times; change (inject_Z (Z.of_nat 1)) with 1%Q; ring).
    replace (1 + k + (n + j)) with (1 + k + n + j) in EM by lia.
    destruct (block_like acc MO ID M M0 M6 (lblock l) (lblock l') (times (1 + k)) m m' m1 gs n G WR W W' V V' (block_bare _ _ _ MB) (block_bare _ _ _ MB') F F' ML ltac:(lra) BG ST ltac:(lra) SP1 P) as (m1' & P' & F1 & F1' & ML1).
    assert (ML2 : mlike (times (1 + (k + n))) m1 m1'). { eapply like_le; [|exact ML1]. replace (1 + (k + n)) with (1 + k + n) by lia. lra. }
    destruct (IH m1 m1' tr1 (k + n) j F1 F1' ML2 R LG3 SP RS') as (tr' & R' & RD). { replace (1 + (k + n) + j) with (1 + k + n + j) by lia. exact EM. }
    exists ((l', m1') :: tr'). split; [cbn [map fst]; econstructor; [exact L'|exact P'|exact R']|]. econstructor; [exact BG|exact ST| | |exact RD].
    + split; [|split; [|auto]].
      * clear -G. induction G; constructor; auto. eapply glike_mono; [|eauto]. exact wrel_back.
      * clear -WR. induction WR; constructor; auto. apply wrel_back; auto.
    + eapply mlike_mono; [exact wrel_back|exact ML2].
Qed.
Lemma new_fine axes ig ls m : new_machine axes ig ls = Ok m -> fine m.
Proof.
  intros E. destruct (new_machine_sound _ _ _ _ E) as (S & I & O & A & G & C & V). split; auto. split; auto. split; [intros k K; eapply new_offsets; eauto|]. intros a _. rewrite V. destruct acc as [Z _]. exact (Z 0%Z ltac:(lia)).
Qed.
(** the machine of the script starts with a mode without coordinates *)
Definition no_coords (g : gcode) : Prop := forall w, w = gword g \/ In w (map snd (gparams g)) -> ~ coordinate_letter (wletter w).
Lemma modal_no_coords g : no_coords g -> no_coords (modal_of g).
Proof.
  intros H w [E|I]; [apply H; left; exact E|]. apply H. right. apply in_map_iff in I as (kv & E & I). cbn [modal_of gparams] in I. apply filter_In in I as [I _]. apply in_map_iff. eauto.
Qed.
Lemma effects_no_coords gs : forall md, (forall mg g, gm_get md mg = Some g -> no_coords g) -> Forall no_coords gs -> forall mg g, gm_get (fold_left set_effect gs md) mg = Some g -> no_coords g.
Proof.
  induction gs as [|x gs IH]; intros md H F; cbn [fold_left]; auto. inversion F; subst. apply IH; auto. intros mg g. unfold set_effect. destruct (modal_group (gcls x)) as [mx|]; [|apply H]. rewrite gm_get_set. destruct (mgroup_eqb mx mg); [|apply H].
  intros E. injection E as <-. apply modal_no_coords; auto.
Qed.
Lemma reads_letters s ws : reads s ws -> forall w, In w ws -> exists c, In c s /\ char_letter c (wletter w).
Proof.
  induction 1 as [s B|junk c l v r val ws J C L D R IH]; intros w I; [destruct I|]. destruct I as [<-|I].
  - exists c. split; [apply in_or_app; right; left; auto|exact C].
  - destruct (IH w I) as (c' & I' & C'). exists c'. split; [|exact C']. apply in_or_app. right. right. apply in_or_app. auto.
Qed.
Lemma norm_mode_coords m : new_machine xyz false norm_machine_mode = Ok m -> forall mg g, gm_get (m_mode m) mg = Some g -> no_coords g.
Proof.
  intros E. unfold new_machine, new_mode in E. destruct (lines_gcodes norm_machine_mode) as [gs|] eqn:LG; cbn [bind] in E; [|discriminate E]. pose proof (lines_wf _ _ LG) as W.
  assert (NC : Forall no_coords gs).
  { unfold norm_machine_mode in LG. cbn [lines_gcodes] in LG. destruct (mk_line (t "G0 G54 G17 G21 G90 G94 M5 M9 T0 F0 S0")) as [l|] eqn:L; cbn [bind] in LG; [|discriminate LG]. injection LG as <-. rewrite app_nil_r.
    unfold mk_line in L. destruct (line_parts (t "G0 G54 G17 G21 G90 G94 M5 M9 T0 F0 S0")) as [[bc mac]|] eqn:LP; [|discriminate L]. vm_compute in LP. injection LP as <- <-. cbn [bind] in L.
    match type of L with context [split_line ?x] => destruct (split_line x) as [bs c] eqn:SP end. vm_compute in SP. injection SP as <- <-.
    match type of L with context [mk_block true ?x] => destruct (mk_block true x) as [b|] eqn:MB end; cbn [bind] in L; [|discriminate L]. injection L as <-. cbn [lblock].
    assert (BW : forall w, In w (bwords b) -> ~ coordinate_letter (wletter w)).
    { rewrite mk_block_clean in MB. match type of MB with context [clean_text ?x] => destruct (text2words (clean_text x)) as [ws|] eqn:TW end; cbn [bind] in MB; [|discriminate MB]. destruct (words2gcodes ws) as [[gs0 r]|]; cbn [bind] in MB; [|discriminate MB].
      assert (EB : bwords b = ws). { destruct (assert_gcodes [] [] gs0); cbn [bind] in MB; [injection MB as <-; auto|discriminate MB]. }
      rewrite EB. intros w I CL. apply text2words_reads in TW. destruct (reads_letters _ _ TW w I) as (ch & IC & CC). clear -IC CC CL. vm_compute in IC.
      assert (X : forall a, code ch = code (letter_ascii a) \/ code ch = code (letter_ascii a) + 32 -> coordinate_letter a -> False).
      { clear CC CL w. intros a H CL. destruct CL as [->|(x & ->)]; [|destruct x]; (repeat (destruct IC as [IC|IC]; [subst ch; vm_compute in H; destruct H; discriminate|])); contradiction. }
      exact (X _ CC CL). }
    apply Forall_forall. intros g Ig w [->|Iw]; apply BW; eapply block_words; eauto. }
  rewrite mode_set_spec in E by (apply wf_legal; auto). cbn [bind] in E. set (md := fold_left _ _ _) in E.
  assert (EM : m_mode m = md). { destruct (gm_get md MG_units) as [g|]; [destruct (unit_id (gcls g))|]; cbn [bind] in E; try discriminate E; injection E as <-; reflexivity. }
  rewrite EM. apply effects_no_coords; [intros mg g; rewrite gm_get_empty; discriminate|]. eapply Permutation_Forall; [symmetry; apply sort_perm|exact NC].
Qed.
Lemma norm_mode_like m : new_machine xyz false norm_machine_mode = Ok m -> mlike (times 1) m m.
Proof.
  intros E. pose proof (norm_mode_coords m E) as NC. pose proof (times_pos M M0 M6 1) as T.
  assert (R : forall w, ~ coordinate_letter (wletter w) -> wrel M w w) by (intros w H; split; [split; auto|intros C; contradiction]).
  split; [|repeat (split; [reflexivity|]); intros a _; split; [|split]; apply off_by_refl; exact T].
  intros mg. specialize (NC mg). destruct (gm_get (m_mode m) mg) as [g|]; auto. specialize (NC g eq_refl). split; auto. split; [apply R, NC; auto|].
  intros l. destruct (dget letter_eqb (gparams g) l) as [w|] eqn:D; auto. apply R, NC. right. apply (dget_in _ _ _ letter_eqb_eq) in D. apply in_map_iff. exists (l, w). auto.
Qed.
End Bound.
End WithArith.
