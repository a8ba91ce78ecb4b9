(** pygcode-norm with --canned_expand and --arc_linearize: line by line. *)
From Coq Require Import Ascii String List Bool Arith ZArith QArith Qcanon Permutation Lia Sorted.
From Verif Require Import Base Num Words GTable GCode Line Position Machine Transform BaseFacts WordOrder ArithSpec WordsSpec LineSpec PrintSpec PrintProofs GCodeSpec GCodeProofs GCodeProofs2 PropsLine BlockSpec BlockProofs LineProofs LineProofs2 PropsGCode ModeSpec ModeProofs MachSpec MachProofs MachProofs2 SimSpec SimProofs TransSpec TransProofs TransProofs2 MachProofs3 PropsTrans ReadBackProofs
  Scripts ScriptsSpec ScriptsSpec2 ScriptsSpec3 ScriptsSpec5 ScriptsSpec6 ScriptsProofs ScriptsProofs4 ScriptsProofs5 ScriptsProofs6 ScriptsProofs7 ScriptsProofs8 ScriptsProofs9 ScriptsProofs10 ScriptsProofs12.
Import ListNotations.
Local Open Scope nat_scope.

Section WithArith.
Context {ar : Arith}.
Lemma fop_app {A} (R : A -> A -> Prop) l l' : ForallOrdPairs R (l ++ l') -> ForallOrdPairs R l /\ ForallOrdPairs R l'.
Proof.
  induction l as [|x l IH]; cbn [app]; intros H; [split; [constructor|auto]|]. inversion H; subst. destruct (IH H3). split; auto. constructor; auto. apply Forall_app in H2. apply H2.
Qed.
Lemma steps_rest gs hs m m1 m2 : steps (map gcode_process (gs ++ hs)) m = (m2, Ok tt) -> steps (map gcode_process gs) m = (m1, Ok tt) -> steps (map gcode_process hs) m1 = (m2, Ok tt).
Proof.
  revert m. induction gs as [|g gs IH]; intros m; cbn [map steps app]; [unfold ok_step; intros H E; injection E as <-; auto|]. unfold then_step. destruct (gcode_process g m) as [x [[]|e]]; [|discriminate]. apply IH.
Qed.
Lemma ordered_same gs hs : Forall2 same_gcode gs hs -> ordered gs -> ordered hs.
Proof.
  intros F S. revert hs F. induction S as [|g gs S IH A]; intros hs F; inversion F; subst; constructor; [apply IH; auto|]. rewrite Forall_forall in *. intros h I.
  assert (exists k, In k gs /\ same_gcode k h) as (k & K1 & K2). { clear - H3 I. induction H3; [contradiction|]. destruct I as [<-|I]; [exists x; split; [left|]; auto|]. destruct (IHForall2 I) as (k & A & B). exists k. split; auto. right. auto. }
  specialize (A k K1). destruct H1 as (E1 & _), K2 as (E2 & _). rewrite <- E1, <- E2. exact A.
Qed.
(** what is needed to print gcodes on one line *)
Definition printable (gs : list gcode) : Prop := Forall told gs /\ ForallOrdPairs compatible gs /\ in_place gs /\ name_last (map gword gs) /\ ordered gs.
Lemma printable_app a b : printable (a ++ b) -> printable a /\ printable b.
Proof.
  intros (T & C & P & N & O). apply Forall_app in T as [T1 T2]. apply fop_app in C as [C1 C2], P as [P1 P2]. rewrite map_app in N. apply name_last_app in N as (N1 & N2 & _). apply ordered_app in O as [O1 O2]. split; repeat (split; auto).
Qed.
Lemma told_wf gs : Forall told gs -> Forall gcode_wf gs.
Proof. intros T. eapply Forall_impl; [|exact T]. intros g H. apply H. Qed.
Lemma gcodes_read b gs m m' ms : accurate ar -> printable gs -> sound m -> inside m -> sound m' -> inside m' -> like b m m' -> passes m gs ms ->
  exists part, reading m' (gcodes_out gs) part /\ only_gcodes part gs /\ like (b || existsb moving gs) (last ms m) (after m' part) /\ sound (after m' part) /\ inside (after m' part) /\
    forall y h, In y part -> In h (bgcodes (lblock (fst y))) -> exists g, In g gs /\ same_gcode g h.
Proof.
  intros acc (T & C & IP & NL & O) S I S' I' LK P. destruct gs as [|g gs].
  - inversion P; subst. exists []. cbn [existsb gcodes_out last]. rewrite orb_false_r. split; [constructor|]. split; [split; constructor|]. change (after m' []) with m'. split; auto. split; auto. split; auto. intros y h [].
  - destruct (printed_gcodes (g :: gs) acc) as (ws & hs & E & SG & _); auto; [discriminate|apply told_wf; auto|eapply Forall_impl; [|exact T]; intros x H; apply H|eapply Forall_impl; [|exact T]; intros x H; apply H|].
    destruct (passes_like b (g :: gs) (told_wf _ T) hs m m' ms SG S I S' I' LK P) as (ms' & P' & _ & LK1 & _ & _ & S1 & I1).
    exists [(Line (Block ws hs []) None None, last ms' m')]. split.
    { cbn [gcodes_out]. econstructor; [exact E| |constructor]. unfold process_block. cbn [lblock bgcodes bmodal]. rewrite process_ordered by (eapply ordered_same; eauto). apply passes_end. auto. }
    split; [split; [repeat constructor|cbn [flat_map fst lblock bgcodes]; rewrite app_nil_r; auto]|]. rewrite after_cons. cbn [snd]. change (after (last ms' m') []) with (last ms' m'). split; auto. split; auto. split; auto.
    intros y h [<-|[]] J. cbn [fst lblock bgcodes] in J. clear - SG J. induction SG; [contradiction|]. destruct J as [<-|J]; [exists x; split; [left|]; auto|]. destruct (IHSG J) as (k & A & B). exists k. split; auto. right. auto.
Qed.
Lemma comment_reads s l c : mk_line s = Ok l -> lmacro l = None -> lcomment l = Some c -> mk_line (comment_str c) = Ok (Line empty_block (Some c) None).
Proof.
  intros L M C. destruct (C15_split ar s l L) as (bc & LS & _ & CM). rewrite M in LS. pose proof (line_around s bc None (Some c) [] empty_block LS) as H. assert (CA : comment_again (Some c) None = Some c) by (unfold comment_again; destruct c as [[] ?]; reflexivity). rewrite CA in H.
  apply H; [left; congruence|constructor|left; reflexivity|reflexivity].
Qed.
Lemma aside_resumed a b c : motion_aside a b -> resumed b c -> resumed a c.
Proof.
  intros (A & B & C & D & E) (A' & B' & C' & D' & E'). split; [|repeat split; congruence]. intros mg N. rewrite A by auto. auto.
Qed.
Lemma last_state m (tr : list (line * machine)) : tr <> [] -> exists before z, tr = before ++ [z] /\ snd z = after m tr.
Proof. intros N. destruct (exists_last N) as (b & z & ->). exists b, z. split; auto. rewrite after_app. reflexivity. Qed.
(** the motion mode of the script's machine where that of the reader's machine may be another one *)
Definition pending (o : options) (m : machine) : Prop := forall mo, motion m = Some mo -> swapped o mo.
Lemma not_moving o g : expanding o -> gcode_wf g -> moving g = false -> ~ swapped o g.
Proof. intros X W M S. rewrite (swapped_motion o g X W S) in M. discriminate. Qed.
Lemma passes_modes gs : Forall gcode_wf gs -> Forall (fun h => straight h) gs -> forall m ms, sound m -> inside m -> passes m gs ms -> Forall2 in_mode_of gs ms.
Proof.
  induction 1 as [|g gs W F IH]; intros T m ms S I P; inversion P as [|? ? ? m1 ms' E P']; subst; constructor; inversion T as [|? ? T1 T2]; subst.
  - pose proof (gcode_process_mode g m (proj1 (proj2 (proj2 (proj2 (proj2 (proj2 S)))))) (proj1 W)) as MD. rewrite E in MD. cbn [fst] in MD. exists (modal_of g). rewrite MD. split; [|split; reflexivity].
    apply effect_in. exact (move_group g (straight_move g T1)).
  - destruct (process_keeps g m S I W) as [(S1 & I1 & _) _]. rewrite E in S1, I1. cbn [fst] in S1, I1. apply (IH T2 m1); auto.
Qed.
Lemma read_moving moves moves' : Forall (fun h => straight h /\ gparams h <> [] /\ gcode_wf h /\ gwhite h = false) moves -> Forall2 read_move moves moves' -> Forall (fun h => straight h) moves'.
Proof. intros F R. induction R as [|h h' l l' H R IH]; inversion F as [|? ? F1 F2]; subst; constructor; auto. destruct H as (C & _). unfold straight in *. rewrite C. apply F1. Qed.
Lemma existsb_in gs g : existsb moving gs = false -> In g gs -> moving g = false.
Proof. intros E I. destruct (moving g) eqn:M; auto. assert (existsb moving gs = true) by (apply existsb_exists; eauto). congruence. Qed.
Lemma same_not_swapped o g h : same_gcode g h -> ~ swapped o g -> ~ swapped o h.
Proof. intros (A & B & _) N S. apply N. eapply swapped_same; [| |exact S]; congruence. Qed.
Theorem carried_line o fuel s l m m' m1 : accurate ar -> expanding o -> sound m -> inside m -> sound m' -> inside m' -> m_ignore m = false -> resumed m m' -> (alike m m' \/ pending o m) ->
  mk_line s = Ok l -> process_block (lblock l) m = (m1, Ok tt) -> tractable o fuel m l ->
  exists out part, norm_line o fuel s m = (out, Ok m1) /\ reading m' out part /\ carried o fuel m (l, m1) part /\
    sound (after m' part) /\ inside (after m' part) /\ resumed m1 (after m' part) /\ (alike m1 (after m' part) \/ pending o m1).
Proof.
  intros acc X S I S' I' IG RS J L P (gs & G & T). pose proof (fun g => swapped_motion o g X) as SM. destruct (mk_line_block _ _ L) as (bs & MB). destruct (mk_block_wf _ _ _ MB) as [WF WP].
  destruct (effective m l s gs acc S IG L G) as (gs0 & E0 & FG & W0 & EF). destruct T as [(N & F)|(a & g & b & moves & moves' & ms & EG & SW & FL & NM & PA & MV & ST)].
  - (* the line is kept *)
    rewrite Forall_forall in N.
    assert (CL : exists bb, like bb m m' /\ (bb = true \/ bmodal (lblock l) = []) /\ (bb = true \/ pending o m)).
    { destruct J as [J|J]; [exists true; split; [split; auto|auto]|]. exists false. split; [split; [auto|discriminate]|]. split; [|auto]. right. destruct FG as [E|mo h NE MO FI]; auto. exfalso. destruct FI as (E1 & E2 & _). apply (N h).
      - eapply Permutation_in; [symmetry; apply C25_sorted|]. apply in_app_iff. right. left. auto.
      - apply (swapped_same o mo); auto. }
    destruct CL as (bb & LK & BB & JJ). destruct (kept_line bb s l m m' m1 acc S I S' I' LK L F BB P) as (l' & m1' & L' & SL & P' & S1 & I1 & S1' & I1' & LK1).
    exists [line_str l], [(l', m1')]. split; [eapply norm_kept; eauto; apply Forall_forall; auto|]. split; [econstructor; eauto; constructor|]. rewrite after_cons. cbn [snd]. change (after m1' []) with m1'. split; [|split; [|split; [|split]]]; auto; [|exact (proj1 LK1)|].
    + apply ca_kept; [exact SL|exact (proj1 LK1)|]. cbn [fst]. intros h Ih. destruct SL as (SG & _). assert (exists k, In k (bgcodes (lblock l)) /\ same_gcode k h) as (k & K1 & K2). { clear - SG Ih. induction SG; [contradiction|]. destruct Ih as [<-|Ih]; [exists x; split; [left|]; auto|]. destruct (IHSG Ih) as (k & A & B). exists k. split; auto. right. auto. }
      apply (same_not_swapped o k); auto. apply N. destruct FG as [E|mo q NE MO FI]; (eapply Permutation_in; [symmetry; apply C25_sorted|]); auto. apply in_app_iff. auto.
    + destruct JJ as [->|JJ]; [left; exact (proj2 LK1 eq_refl)|]. destruct (existsb moving (bgcodes (lblock l))) eqn:EM.
      * left. apply (proj2 LK1). fold moving. apply orb_true_iff. right. exact EM.
      * right. intros mo Mo. assert (M1 : motion m1 = motion m \/ motion m1 = None); [|destruct M1 as [M1|M1]; [apply JJ; congruence|congruence]].
        rewrite (steps_ok _ _ _ G) in P. apply passes_steps in P as (ms & PS & <-). destruct FG as [E|mo' h NE MO FI].
        -- apply (passes_motion (sort_gcodes (bgcodes (lblock l)))); auto; [apply sort_wf; auto|]. apply existsb_false, forallb_forall. intros k Ik. apply negb_true_iff. apply (existsb_in (bgcodes (lblock l))); auto. eapply Permutation_in; [apply C25_sorted|auto].
        -- exfalso. destruct FI as (E1 & E2 & _). apply (N h); [eapply Permutation_in; [symmetry; apply C25_sorted|]; apply in_app_iff; right; left; auto|]. apply (swapped_same o mo'); auto.
  - (* moves in the place of a command *)
    subst gs.
    assert (PR : printable (a ++ g :: b)).
    { destruct (EF (Options false true [] None false [] false false None false true true false [] false) eq_refl) as (A & B & C & D); [|split; [auto|split; [auto|split; [auto|split; [auto|]]]]].
      - destruct FL as (A & B & C). split; auto. split; [discriminate|]. cbn [o_full]. split; auto.
      - unfold ordered; rewrite E0; apply C25_sorted. }
    destruct (printable_app _ _ PR) as [PRa PRg]. destruct (printable_app [g] b PRg) as [_ PRb]. pose proof PR as (TD & CO & _ & _ & OR). pose proof (told_wf _ TD) as WW.
    assert (Wg : gcode_wf g) by (rewrite Forall_forall in WW; apply WW; apply in_app_iff; right; left; auto). pose proof (SM g Wg SW) as MG. destruct (others_still o a g b X CO MG) as [Na Nb].
    set (n := last ms m) in *. destruct (gcodes_read false a m m' ms acc PRa S I S' I') as (p1 & R1 & O1 & LK1 & S1' & I1' & Q1); auto; [split; [auto|discriminate]|]. fold n in LK1. set (n' := after m' p1) in *.
    assert (WA : Forall gcode_wf a) by (apply Forall_app in WW; apply WW). destruct (passes_good a WA m ms S I PA) as (Sn & In_ & _). fold n in Sn, In_.
    destruct ST as (TM & RB & n2 & mv & PG & PM & AS). assert (WM : Forall gcode_wf moves) by (eapply Forall_impl; [|exact TM]; intros h H; apply H). destruct (passes_like false moves' (read_wfs _ _ RB WM) moves' n n' mv (same_gcodes_refl _) Sn In_ S1' I1' (like_false _ _ _ LK1) PM) as (mv' & PM' & RM & LKM & _ & _ & SM' & IM').
    destruct (moves_read moves moves' n' mv' acc S1' I1' TM RB PM') as (om & p2 & OM & R2 & EM & Q2).
    assert (A2 : after n' p2 = last mv' n') by (unfold after; rewrite EM; reflexivity).
    destruct (process_keeps g n Sn In_ Wg) as [(S2 & I2 & _) _]. rewrite PG in S2, I2. cbn [fst] in S2, I2.
    assert (LK2 : like false n2 (after n' p2)) by (split; [rewrite A2; eapply aside_resumed; [exact AS|exact (proj1 LKM)]|discriminate]).
    pose proof P as P0. rewrite (steps_ok _ _ _ G) in P0. pose proof (steps_rest a (g :: b) m n m1 P0 (passes_end _ _ _ PA)) as P1. cbn [map steps] in P1. unfold then_step in P1. rewrite PG in P1. pose proof P1 as PB0. apply passes_steps in P1 as (msb & PB & EB).
    destruct (gcodes_read false b n2 (after n' p2) msb acc PRb S2 I2) as (p3 & R3 & O3 & LK3 & S3' & I3' & Q3); auto; [rewrite A2; auto|rewrite A2; auto|]. rewrite EB in LK3. set (k := after (after n' p2) p3) in *.
    destruct (norm_moves o fuel s l m a g b moves om n n2 m1 X L G SW OR WW CO (passes_end _ _ _ PA) MV OM PG PB0) as (pre & Ipre & NL).
    assert (CAL : Forall calm (t pre ++ gcode_repr g)).
    { apply Forall_app. split; [destruct Ipre as [<-|[<-|[]]]; apply calm_b; reflexivity|]. apply repr_calm; [apply Wg|]. rewrite Forall_forall in TD. apply (TD g). apply in_app_iff. right. left. auto. }
    destruct (note_reads (t pre ++ gcode_repr g)) as (ln & LN & BN); [eapply calm_not; eauto; left; auto|eapply calm_not; eauto; vm_compute; tauto|].
    assert (p4 : exists p4, reading k (match lcomment l with Some c => [comment_str c] | None => [] end) p4 /\ after k p4 = k /\ only_gcodes p4 [] /\ (lcomment l <> None -> exists w, In w p4 /\ lcomment (fst w) = lcomment l)).
    { destruct (lcomment l) as [c|] eqn:EC; [|exists []; split; [constructor|split; [reflexivity|split; [split; constructor|congruence]]]]. pose proof (comment_reads s l c L NM EC) as CR. exists [(Line empty_block (Some c) None, k)]. split; [econstructor; [exact CR|reflexivity|constructor]|]. split; [reflexivity|]. split; [split; repeat constructor|]. intros _. eexists. split; [left; reflexivity|reflexivity]. }
    destruct p4 as (p4 & R4 & A4 & O4 & C4).
    set (part := p1 ++ (ln, n') :: p2 ++ p3 ++ p4).
    assert (PART : after m' part = k). { unfold part. rewrite after_app, after_cons, !after_app. exact A4. }
    exists (gcodes_out a ++ (comment_str (Comment CommentSemicolon (t pre ++ gcode_repr g)) :: map gcode_str om) ++ gcodes_out b ++ match lcomment l with Some c => [comment_str c] | None => [] end), part. split; auto.
    assert (RP : reading m' (gcodes_out a ++ (comment_str (Comment CommentSemicolon (t pre ++ gcode_repr g)) :: map gcode_str om) ++ gcodes_out b ++ match lcomment l with Some c => [comment_str c] | None => [] end) part).
    { apply reading_app; auto. fold n'. cbn [app]. econstructor; [exact LN|rewrite BN; reflexivity|]. apply reading_app; auto. apply reading_app; auto. }
    split; auto. rewrite PART. assert (RK : resumed m1 k) by exact (proj1 LK3). split; [|split; [auto|split; [auto|split; [auto|right]]]].
    + destruct (last_state m' part) as (before & z & EZ & SZ); [unfold part; destruct p1; discriminate|]. rewrite PART in SZ.
      eapply (ca_moves o fuel m (l, m1) a g b moves moves' ms mv p1 (ln, n') p2 (p3 ++ p4) z part); cbn [fst snd]; auto.
      * split; [repeat constructor; cbn [fst]; rewrite BN; reflexivity|]. cbn [flat_map fst]. rewrite BN. constructor.
      * exact (proj1 LK1).
      * subst mv'. clear - RM. remember (map snd p2) as l eqn:E. revert p2 E. induction RM as [|x y l l' R F IH]; intros p2 E; destruct p2 as [|z p2]; try discriminate; constructor; cbn [map] in E; injection E as -> E; auto.
      * subst mv'. assert (IM : Forall2 in_mode_of moves' (map snd p2)) by (apply (passes_modes moves' (read_wfs _ _ RB WM) (read_moving _ _ TM RB) n'); auto). clear - IM. revert moves' IM. induction p2 as [|z p2 IH]; intros hs F; inversion F; subst; constructor; auto.
      * destruct O3 as [O3 O3'], O4 as [O4 O4']. split; [apply Forall_app; auto|]. rewrite flat_map_app. inversion O4' as [Z|]. rewrite app_nil_r. auto.
      * intros H. destruct (C4 H) as (w & Iw & Ew). exists w. split; auto. apply in_app_iff. auto.
      * intros h w Iw Ih. unfold part in Iw. apply in_app_iff in Iw as [Iw|[<-|Iw]]; [| |apply in_app_iff in Iw as [Iw|Iw]; [|apply in_app_iff in Iw as [Iw|Iw]]].
        -- destruct (Q1 w h Iw Ih) as (q & Iq & Sq). apply (same_not_swapped o q); auto. apply not_moving; auto; [rewrite Forall_forall in WA; auto|apply (existsb_in a); auto].
        -- cbn [fst] in Ih. rewrite BN in Ih. contradiction.
        -- destruct (Q2 w h Iw Ih) as (q & Iq & Sq1 & Sq2). unfold told_moves in TM. rewrite Forall_forall in TM. destruct (TM q Iq) as (T1 & _ & T2 & _). intros Z. apply (straight_stays o q X T2 T1). apply (swapped_same o h q); auto.
        -- destruct (Q3 w h Iw Ih) as (q & Iq & Sq). apply (same_not_swapped o q); auto. apply not_moving; auto; [rewrite Forall_forall in WW; apply WW; apply in_app_iff; right; right; auto|apply (existsb_in b); auto].
        -- exfalso. destruct O4 as [_ O4]. assert (H : In h (flat_map (fun y => bgcodes (lblock (fst y))) p4)) by (apply in_flat_map; eauto). revert H. inversion O4. intros [].
      * eauto.
      * rewrite SZ. exact RK.
    + intros mo Mo. assert (WB : Forall gcode_wf b) by (apply Forall_app in WW as [_ WW]; inversion WW; auto). pose proof (passes_motion b WB Nb n2 msb S2 I2 PB) as M2. rewrite EB in M2. destruct M2 as [M2|M2]; [|congruence]. destruct (process_moving g n Sn Wg MG) as (mo' & E1 & E2 & E3). rewrite PG in E1. cbn [fst] in E1. assert (mo = mo') by congruence. subst mo'. apply (swapped_same o g); auto.
Qed.
Theorem carried_file o fuel file : accurate ar -> expanding o -> forall m m' tr, sound m -> inside m -> sound m' -> inside m' -> m_ignore m = false -> resumed m m' -> (alike m m' \/ pending o m) -> reading m file tr ->
  Forall (fun x => tractable o fuel (fst x) (snd x)) (from_states m tr) ->
  exists out parts, norm_loop o fuel file m = (out, Ok (after m tr)) /\ reading m' out (concat parts) /\ carried_over o fuel m tr parts.
Proof.
  intros acc X. induction file as [|s r IH]; intros m m' tr S I S' I' IG RS J R F.
  - apply reading_empty in R. subst. exists [], []. split; [reflexivity|]. split; constructor.
  - apply reading_step in R as (l & m1 & tr1 & L & P & R & <-). cbn [from_states] in F. inversion F as [|? ? F1 F2]; subst. cbn [fst snd] in F1.
    destruct (carried_line o fuel s l m m' m1 acc X S I S' I' IG RS J L P F1) as (o1 & part & N1 & R1 & C1 & S1' & I1' & RS1 & J1). destruct (line_keeps l s m m1 L S I P) as [S1 I1]. pose proof (line_ignore _ _ _ _ L S I P) as G1. rewrite IG in G1.
    destruct (IH m1 (after m' part) tr1 S1 I1 S1' I1' G1 RS1 J1 R F2) as (o2 & parts & N2 & R2 & C2). exists (o1 ++ o2), (part :: parts). split.
    + cbn [norm_loop]. rewrite after_cons. cbn [snd]. apply pbind_ok. exists o1, m1, o2. auto.
    + split; [cbn [concat]; apply reading_app; auto|]. constructor; auto.
Qed.
End WithArith.
