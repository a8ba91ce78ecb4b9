(** pygcode-norm run on what it printed: --singles, --canned_expand and --arc_linearize. *)
From Coq Require Import Ascii String List Bool Arith ZArith QArith Qcanon Permutation Lia Sorted.
From Verif Require Import Base ScriptsProofs8 Num Words GTable GCode Line Position Machine Transform BaseFacts ArithSpec WordsSpec LineSpec PrintSpec GCodeSpec GCodeProofs GCodeProofs2 PropsLine BlockSpec BlockProofs LineProofs LineProofs2 PropsGCode ModeSpec ModeProofs MachSpec MachProofs MachProofs2 SimSpec SimProofs
  Scripts ScriptsSpec ScriptsSpec2 ScriptsSpec3 ScriptsSpec5 ScriptsSpec6 ScriptsProofs ScriptsProofs4 ScriptsProofs5 ScriptsProofs9 ScriptsProofs10 ScriptsProofs12 ScriptsProofs13 ScriptsProofs16 AgainProofs.
Import ListNotations.
Local Open Scope nat_scope.

Section WithArith.
Context {ar : Arith}.
Lemma reading_cut a b : forall m tr, reading m (a ++ b) tr -> exists p q, tr = p ++ q /\ reading m a p /\ reading (after m p) b q.
Proof.
  induction a as [|s a IH]; intros m tr R.
  - exists [], tr. split; auto. split; [constructor|]. exact R.
  - cbn [app] in R. apply reading_step in R as (l & m1 & tr1 & L & P & R & <-). destruct (IH _ _ R) as (p & q & -> & R1 & R2). exists ((l, m1) :: p), q. split; auto. split; [econstructor; eauto|]. rewrite after_cons. exact R2.
Qed.
(** ** --singles *)
Lemma singles_again s l gs : accurate ar -> mk_line s = Ok l -> lmacro l = None -> Forall told gs ->
  forall m tr, reading m (map (single_line (lcomment l)) gs) tr -> flat_map (fun x => single_lines (fst x)) tr = map (single_line (lcomment l)) gs.
Proof.
  intros acc L M. induction gs as [|g gs IH]; intros T m tr R.
  - apply reading_empty in R. subst. reflexivity.
  - cbn [map] in R. apply reading_step in R as (l1 & m1 & tr1 & L1 & _ & R & <-). inversion T as [|? ? T1 T2]; subst. destruct T1 as (W1 & H1 & R1).
    destruct (printed_commented [g] s l) as (b & E & F & BM); auto; try discriminate; try (constructor; auto; fail); [constructor; constructor|constructor; constructor|split; auto; exact Logic.I|].
    pose proof (line_white _ _ E) as WH. cbn [lblock] in WH. inversion F as [|? g' ? ? SG F0 E1 E2]; subst. inversion F0; subst. rewrite <- E2 in WH. inversion WH as [|? ? WG _]; subst.
    assert (ES : gcode_str g' = gcode_str g) by (symmetry; apply same_str; [apply W1|auto|congruence]).
    cbn [map join] in E. unfold single_line in L1. cbn [join] in L1. rewrite L1 in E. injection E as ->. cbn [flat_map fst]. unfold single_lines at 1. cbn [lblock]. rewrite <- E2. cbn [length Nat.leb app map]. f_equal; [|eapply IH; eauto].
    unfold line_str. cbn [lblock lcomment lmacro]. assert (BB : block_bool b = true). { unfold block_bool. destruct (bwords b) eqn:BW; auto. exfalso. destruct (mk_line_block _ _ L1) as (bs & MB). cbn [lblock] in MB. pose proof (block_words _ _ _ MB (gword g')) as Q. rewrite BW in Q. apply Q. right. exists g'. rewrite <- E2. split; [left|left]; auto. }
    rewrite BB. unfold block_str. rewrite <- E2, BM. cbn [map app join]. rewrite ES, app_nil_r. reflexivity.
Qed.
Lemma told_block s l : mk_line s = Ok l -> faithful l -> Forall told (bgcodes (lblock l)).
Proof.
  intros L (F & _). destruct (mk_line_block _ _ L) as (bs & MB). destruct (mk_block_wf _ _ _ MB) as [W WW]. pose proof (line_white _ _ L) as WH. rewrite Forall_forall in *. intros g Ig. split; [auto|]. split; [auto|].
  constructor; [apply F; eapply block_words; eauto|]. apply Forall_forall. intros w Iw. apply F. eapply block_words; eauto.
Qed.
Lemma singles_file file : accurate ar -> forall m m' tr tr', reading m file tr -> Forall (fun x => faithful (fst x) /\ splits (fst x)) tr -> reading m' (flat_map (fun x => single_lines (fst x)) tr) tr' ->
  flat_map (fun x => single_lines (fst x)) tr' = flat_map (fun x => single_lines (fst x)) tr.
Proof.
  intros acc. induction file as [|s r IH]; intros m m' tr tr' R F R'.
  - apply reading_empty in R. subst. apply reading_empty in R'. subst. reflexivity.
  - apply reading_step in R as (l & m1 & tr1 & L & P & R & <-). inversion F as [|? ? [F1 F1'] F2]; subst. cbn [fst flat_map] in *. apply reading_cut in R' as (p & q & -> & R1 & R2). rewrite flat_map_app. f_equal; [|eapply IH; eauto].
    clear R2. unfold single_lines at 2. unfold single_lines in R1. destruct (2 <=? length (bgcodes (lblock l))) eqn:E.
    + destruct (F1' (proj1 (Nat.leb_le _ _) E)) as [_ LM]. eapply singles_again; eauto. eapply Permutation_Forall; [symmetry; apply sort_perm|]. eapply told_block; eauto.
    + destruct (faithful_line s l acc L F1) as (l' & L' & SL & ES). apply reading_step in R1 as (l1 & m2 & tr2 & L1 & _ & R1 & <-). rewrite L' in L1. injection L1 as <-. apply reading_empty in R1. subst. cbn [flat_map fst]. rewrite app_nil_r.
      unfold single_lines. destruct SL as (SG & _). apply Forall2_len in SG. rewrite <- SG, E, ES. reflexivity.
Qed.
(** ** programs in which nothing is replaced *)
Lemma modal_gcode_word m ps g : sound m -> machine_modal_gcode m ps = Ok (Some g) -> exists mo, motion m = Some mo /\ gcls g = gcls mo /\ gword g = gword mo.
Proof.
  intros S. unfold machine_modal_gcode, motion. destruct ps as [|p ps]; [discriminate|]. destruct (gm_get (m_mode m) MG_motion) as [mo|] eqn:MO; [|cbn [bind]; destruct (_ && _); discriminate].
  destruct (words2gcodes _) as [[gs un]|] eqn:E; cbn [bind]; [|discriminate]. destruct (_ && _); [discriminate|]. apply words2gcodes_iff in E as (grs & G & U & ->). destruct (sound_mode m mo S MO) as [WM _].
  destruct (grouped_first _ _ _ _ (gcls mo) G) as (ps0 & gs' & ->); [apply WM|]. cbn [map]. destruct (map built gs'); [|discriminate]. intros H. injection H as <-. exists mo. auto.
Qed.
Lemma modal_not_swapped o m b gs : sound m -> Forall (fun g => ~ swapped o g) (bgcodes b) -> (forall mo, motion m = Some mo -> ~ swapped o mo) -> block_modal_gcodes m b = Ok gs -> Forall (fun g => ~ swapped o g) gs.
Proof.
  intros S F MO H. unfold block_modal_gcodes in H. destruct (machine_modal_gcode m (bmodal b)) as [og|] eqn:E; cbn [bind] in H; [|discriminate]. injection H as <-. eapply Permutation_Forall; [symmetry; apply sort_perm|]. apply Forall_app. split; auto.
  destruct og as [g|]; [|constructor]. destruct (modal_gcode_word m _ g S E) as (mo & EM & EC & EW). constructor; [|constructor]. intros SW. apply (MO mo EM). eapply swapped_same; eauto.
Qed.
Lemma passes_calm o gs : Forall gcode_wf gs -> Forall (fun g => ~ swapped o g) gs -> forall m ms, sound m -> inside m -> (forall mo, motion m = Some mo -> ~ swapped o mo) -> passes m gs ms -> forall mo, motion (last ms m) = Some mo -> ~ swapped o mo.
Proof.
  induction 1 as [|g gs W F IH]; intros N m ms S I MO P; inversion P as [|? ? ? m1 ms' E P']; subst; auto. inversion N as [|? ? N1 N2]; subst. rewrite last_cons. destruct (process_keeps g m S I W) as [(S1 & I1 & _) _]. rewrite E in S1, I1. cbn [fst] in *. apply (IH N2 m1 ms' S1 I1); auto.
  intros mo Mo. destruct (moving g) eqn:MG.
  - destruct (process_moving g m S W MG) as (mo' & E1 & E2 & E3). rewrite E in E1. cbn [fst] in E1. assert (mo = mo') by congruence. subst mo'. intros SW. apply N1. eapply swapped_same; [| |exact SW]; congruence.
  - pose proof (process_motion g m S W MG) as M. rewrite E in M. cbn [fst] in M. destruct M as [M|M]; [apply MO|]; congruence.
Qed.
Lemma untouched_loop o fuel file : expanding o -> forall m tr, sound m -> inside m -> (forall mo, motion m = Some mo -> ~ swapped o mo) -> reading m file tr -> Forall (fun x => Forall (fun g => ~ swapped o g) (bgcodes (lblock (fst x)))) tr ->
  norm_loop o fuel file m = (map (fun x => line_str (fst x)) tr, Ok (after m tr)).
Proof.
  intros X. induction file as [|s r IH]; intros m tr S I MO R F.
  - apply reading_empty in R. subst. reflexivity.
  - apply reading_step in R as (l & m1 & tr1 & L & P & R & <-). inversion F as [|? ? F1 F2]; subst. cbn [fst] in F1. destruct (modal_gcodes_ok _ _ _ P) as (gs & G). pose proof (modal_not_swapped o m (lblock l) gs S F1 MO G) as N.
    pose proof (norm_kept o fuel s l m gs m1 X L G N P) as NK. destruct (line_keeps l s m m1 L S I P) as [S1 I1]. pose proof P as P0. rewrite (steps_ok _ _ _ G) in P0. apply passes_steps in P0 as (ms & PS & EL). pose proof (modal_wf_any s l m gs L S G) as W.
    assert (MO1 : forall mo, motion m1 = Some mo -> ~ swapped o mo) by (subst m1; eapply passes_calm; eauto).
    cbn [norm_loop map fst]. rewrite after_cons. cbn [snd]. apply pbind_ok. exists [line_str l], m1, (map (fun x => line_str (fst x)) tr1). split; auto.
Qed.
End WithArith.
