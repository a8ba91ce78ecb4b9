(** Property C90: pygcode-norm with --canned_expand and --arc_linearize. *)
From Coq Require Import Ascii String List Bool Arith ZArith QArith Qcanon Permutation Lia.
From Verif Require Import Base Num BaseFacts Words WordsSpec WordsProofs WordOrder GTable GTableProofs GCode GCodeSpec GCodeProofs GCodeProofs2 PropsGCode Line Position Machine Transform Float64 ArithSpec ModeSpec ModeProofs PropsMode MachSpec MachProofs MachProofs2 PrintSpec PrintProofs BlockSpec PropsBlock LineProofs2 PropsMach TransSpec TransProofs PropsTrans SimSpec SimProofs PosSpec PosProofs DrillSpec DrillProofs PropsDrill
  Scripts ScriptsSpec ScriptsSpec2 ScriptsSpec3 ScriptsSpec5 ScriptsSpec6 ScriptsProofs ScriptsProofs4 ScriptsProofs5 ScriptsProofs6 ScriptsProofs8 ScriptsProofs9 ScriptsProofs10 ScriptsProofs12 ScriptsProofs13 ScriptsProofs14 PropsScripts2 PropsScripts3 PropsScripts4 PropsScripts5.
Import ListNotations.
Local Open Scope nat_scope.

Lemma alike_refl m : alike m m.
Proof. assert (Q : forall x, same_entry x x) by (intros [g|]; cbn; [split; [auto|split; auto]|auto]). split; [|apply Q]. split; [intros; apply Q|]. auto. Qed.
(** the whole script: line by line, moves in the place of the commands named, everything else as it was *)
Theorem C90_whole_partial : forall (ar : Arith) (o : options) (fuel : nat) (file : list text) (m0 : machine) (tr : list (line * machine)), accurate ar -> expanding o ->
  new_machine xyz false (o_machine_mode o) = Ok m0 -> reading m0 file tr -> Forall (fun x => tractable o fuel (fst x) (snd x)) (from_states m0 tr) ->
  exists out parts, norm o fuel file = (out, Ok tt) /\ reading m0 (printed out) (concat parts) /\ carried_over o fuel m0 tr parts.
Proof.
  intros ar o fuel file m0 tr acc X E R F. destruct (new_machine_sound _ _ _ _ E) as (S & I & _ & _ & G & _). destruct (alike_refl m0) as [RS AL].
  destruct (carried_file o fuel file acc X m0 m0 tr S I S I G RS (or_introl (alike_refl m0)) R F) as (out & parts & N & RD & CO). exists out, parts. split; [|split; [apply reading_newline; auto|auto]].
  destruct X as (_ & _ & X3 & X4 & X5 & X6 & _). unfold norm. rewrite X3, E. cbn [pure pbind app]. rewrite N. cbn [pbind]. unfold norm_final. rewrite X4, X5, X6. cbn. rewrite app_nil_r. reflexivity.
Qed.
Print Assumptions C90_whole_partial.
Lemma after_concat m p q : after m (p ++ q) = after (after m p) q.
Proof. unfold after. rewrite map_app. revert m. induction p as [|x p IH]; intros m; cbn [map app]; auto. rewrite !last_cons. apply IH. Qed.
Lemma carried_end {ar : Arith} o fuel m x part n : carried o fuel m x part -> resumed (snd x) (after n part) /\ forall y h, In y part -> In h (bgcodes (lblock (fst y))) -> ~ swapped o h.
Proof.
  intros [y SL RS NS|a g b moves moves' before ms p1 y p2 p3 z part' _ _ _ _ _ _ _ _ _ _ _ _ _ _ _ NS (bf & ->) RS].
  - split; [exact RS|]. intros w h [<-|[]]. apply NS.
  - split; [|intros w h I; apply NS; auto]. rewrite after_concat. exact RS.
Qed.
(** none of the commands named is left, and the program ends where the original ended, in the same modes except that of motion *)
Theorem C90_outcome_partial : forall (ar : Arith) (o : options) (fuel : nat) (file : list text) (m0 : machine) (tr : list (line * machine)), accurate ar -> expanding o ->
  new_machine xyz false (o_machine_mode o) = Ok m0 -> reading m0 file tr -> Forall (fun x => tractable o fuel (fst x) (snd x)) (from_states m0 tr) ->
  exists out tr', norm o fuel file = (out, Ok tt) /\ reading m0 (printed out) tr' /\ resumed (after m0 tr) (after m0 tr') /\
    forall x g, In x tr' -> In g (bgcodes (lblock (fst x))) -> ~ swapped o g.
Proof.
  intros ar o fuel file m0 tr acc X E R F. destruct (C90_whole_partial ar o fuel file m0 tr acc X E R F) as (out & parts & N & RD & CO). exists out, (concat parts). split; auto. split; auto. clear -CO.
  assert (Q : forall m n, resumed m n -> carried_over o fuel m tr parts -> resumed (after m tr) (after n (concat parts)) /\ forall x g, In x (concat parts) -> In g (bgcodes (lblock (fst x))) -> ~ swapped o g); [|apply Q; auto; apply alike_refl].
  clear. intros m n RS CO. revert n RS. induction CO as [m|m l m1 tr part parts C CO IH]; intros n RS; [split; [exact RS|intros x g []]|].
  destruct (carried_end o fuel m (l, m1) part n C) as [RS1 NS]. destruct (IH _ RS1) as [A B]. cbn [concat]. rewrite after_cons, after_concat. split; auto. intros x g I. apply in_app_iff in I as [I|I]; eauto.
Qed.
Print Assumptions C90_outcome_partial.
(** drilling cycles: with exact arithmetic the moves do lead where the cycle leads, in programs of the kind described in ScriptsSpec6.v *)
Theorem C90_cycles_partial : forall (o : options) (fuel : nat) (file : list text) (m0 : machine) (tr : list (line * machine)), expanding (ar := exact_arith) o ->
  new_machine (ar := exact_arith) xyz false (o_machine_mode o) = Ok m0 -> in_sync m0 -> reading (ar := exact_arith) m0 file tr ->
  Forall (fun x => expandable (ar := exact_arith) o fuel (fst x) (snd x)) (from_states m0 tr) ->
  exists out parts, norm (ar := exact_arith) o fuel file = (out, Ok tt) /\ reading (ar := exact_arith) m0 (printed out) (concat parts) /\ carried_over (ar := exact_arith) o fuel m0 tr parts /\
    resumed (after m0 tr) (after m0 (concat parts)).
Proof.
  intros o fuel file m0 tr X E Y R F. destruct (new_machine_sound _ _ _ _ E) as (S & I & _). pose proof (tractable_reading o fuel file m0 tr (conj S (conj I Y)) R F) as T.
  destruct (C90_whole_partial exact_arith o fuel file m0 tr exact_accurate X E R T) as (out & parts & N & RD & CO). destruct (C90_outcome_partial exact_arith o fuel file m0 tr exact_accurate X E R T) as (out' & tr' & N' & RD' & RS & _).
  exists out, parts. split; auto. split; auto. split; auto. rewrite N in N'. injection N' as <-. rewrite (reading_fun _ _ _ _ RD RD'). exact RS.
Qed.
Print Assumptions C90_cycles_partial.

(** the codes taken by default satisfy the condition on --canned_codes *)
Lemma default_cycles {ar : Arith} g : accurate ar -> gcode_wf g -> named (default_canned_codes (ar := ar)) g -> is_canned g.
Proof.
  intros acc (_ & PR & WW & _) (w & I & E). unfold default_canned_codes in I. apply in_flat_map in I as (c & _ & I). destruct (subclass c GCodeCannedCycle) eqn:SC; [|destruct I]. destruct (word_key c) as [k|] eqn:K; [|destruct I]. destruct I as [<-|[]].
  assert (CL : claims c (gword g)) by (unfold claims; rewrite K; exact E). apply word_class_claims in CL; auto. unfold proper in PR. assert (c = gcls g) by congruence. subst c. apply subclass_derives. exact SC.
Qed.
Definition expand_codes {ar : Arith} (codes : list word) : options := Options false false norm_machine_mode None true codes false false None false false false false [] false.
Definition expand_all {ar : Arith} : options := expand_codes (default_canned_codes (ar := ar)).
Lemma expand_all_ok {ar : Arith} : accurate ar -> expanding (ar := ar) (expand_all (ar := ar)).
Proof. intros acc. repeat (split; [reflexivity|]). intros g W N. apply default_cycles; auto. Qed.

(** ** decides [drillable] and [expandable], for words without free text and lines without program names *)
Definition param (g : gcode) (l : letter) : option value := option_map (fun kv => wvalue (snd kv)) (find (fun kv => letter_eqb (fst kv) l) (gparams g)).
Lemma param_in g l v : param g l = Some v -> exists w, In (l, w) (gparams g) /\ wvalue w = v.
Proof.
  unfold param. destruct (find _ _) as [[k w]|] eqn:F; [|discriminate]. apply find_some in F as [I E]. cbn [fst] in E. apply letter_eqb_eq in E. subst k. intros Q. injection Q as <-. eauto.
Qed.
Lemma param_none g l : param g l = None -> forall w, ~ In (l, w) (gparams g).
Proof.
  unfold param. destruct (find _ _) as [kv|] eqn:F; [discriminate|]. intros _ w I. apply (find_none _ _ F) in I. cbn [fst] in I. assert (letter_eqb l l = true) by (apply letter_eqb_eq; auto). congruence.
Qed.
Definition others : list axis := [AA; AB; AC; AU; AV; AW].
Lemma in_dec_axis a : In a others \/ In a [AX; AY; AZ].
Proof. destruct a; cbn; tauto. Qed.
Definition known_b (v : v9 (option Qc)) (a : axis) : bool := match vget v a with Some _ => true | None => false end.
Definition in_xy_b (m : machine) : bool := match gm_get (m_mode m) MG_plane_selection with Some pl => gclass_eqb (gcls pl) GCodeSelectXYPlane | None => false end.
Definition drillable_b {ar : Arith} (m : machine) (g : gcode) : bool :=
  subclass (gcls g) GCodeCannedCycle && negb (subclass (gcls g) GCodeDrillingCycleDwell) &&
  match param g LQ with Some (VFloat _) => true | _ => negb (subclass (gcls g) GCodeDrillingCyclePeck || subclass (gcls g) GCodeDrillingCycleChipBreaking) end &&
  match param g LL with Some (VInt z) => (0 <? z)%Z | Some _ => false | None => true end &&
  forallb (fun a => match param g (axis_letter a) with None => true | Some _ => false end) others && in_xy_b m &&
  match gm_get (m_mode m) MG_canned_cycles_return with Some r => negb (subclass (gcls r) GCodeCannedCycleReturnToR) | None => true end &&
  match machine_pos m with
  | Raise _ => false
  | Ok p => forallb (known_b (pvals p)) [AX; AY; AZ] &&
      match param g LX, param g LY, param g LZ, param g LR with
      | Some (VFloat _), Some (VFloat _), Some (VFloat z), Some (VFloat r) =>
          match mode_class m MG_distance with
          | Some d => (subclass d GCodeAbsoluteDistanceMode && negb (Qcltb r z)) || (subclass d GCodeIncrementalDistanceMode && negb (Qcltb (Q2Qc 0) z))
          | None => negb (Qcltb r z)
          end
      | _, _, _, _ => false
      end
  end.
Lemma drillable_ex {ar : Arith} m g : drillable_b m g = true -> drillable m g.
Proof.
  unfold drillable_b. intros H. apply andb_true_iff in H as [H HP]. apply andb_true_iff in H as [H HR]. apply andb_true_iff in H as [H HX]. apply andb_true_iff in H as [H HO]. apply andb_true_iff in H as [H HL]. apply andb_true_iff in H as [H HQ]. apply andb_true_iff in H as [HC HD].
  split; [apply subclass_derives; auto|]. split; [split|split; [|split; [|split; [|split]]]].
  - intros D. apply subclass_derives in D. rewrite D in HD. discriminate HD.
  - intros PK. destruct (param g LQ) as [[q|z|x]|] eqn:Q; try (exfalso; destruct PK as [D|D]; apply subclass_derives in D; rewrite D, ?orb_true_r in HQ; discriminate HQ). exists q. apply param_in in Q as (w & I & V). exists w. auto.
  - destruct (param g LL) as [[q|z|x]|] eqn:Q; try discriminate HL.
    + apply param_in in Q as (w & I & V). apply Z.ltb_lt in HL. exists (Z.to_nat z). split; [|lia]. left. exists w, z. auto.
    + exists 1. split; [|lia]. right. split; auto. apply param_none. auto.
  - intros a x (w & I & V). rewrite forallb_forall in HO. destruct (in_dec_axis a) as [K|K]; auto. exfalso. specialize (HO a K). destruct (param g (axis_letter a)) eqn:Q; [discriminate HO|]. eapply param_none; eauto.
  - unfold in_xy_b in HX. destruct (gm_get (m_mode m) MG_plane_selection) as [pl|] eqn:Q; [|discriminate HX]. apply gclass_eqb_eq in HX. exists pl. split; auto. rewrite HX. left. auto.
  - intros (r & Q & D). rewrite Q in HR. apply subclass_derives in D. rewrite D in HR. discriminate HR.
  - destruct (machine_pos m) as [p|] eqn:EP; [|discriminate HP]. apply andb_true_iff in HP as [KN HP]. rewrite forallb_forall in KN. assert (KX : knows_xyz (pvals p)) by (intros a I; specialize (KN a I); unfold known_b in KN; destruct (vget (pvals p) a); [discriminate|discriminate KN]).
    destruct (param g LX) as [[x| |]|] eqn:QX; try discriminate HP. destruct (param g LY) as [[y| |]|] eqn:QY; try discriminate HP. destruct (param g LZ) as [[z| |]|] eqn:QZ; try discriminate HP. destruct (param g LR) as [[r| |]|] eqn:QR; try discriminate HP.
    apply param_in in QX, QY, QZ, QR. exists p.
    assert (AB : abs_mode (mode_class m MG_distance) -> Qcltb r z = false -> exists j, Ok p = Ok p /\ knows_xyz (pvals p) /\ drilling g (pvals p) (mode_class m MG_distance) j /\ (jd j <= jr j)%Qc).
    { intros A L. exists (Job r z (fun _ => x) (fun _ => y)). split; auto. split; auto. split; [left; split; auto|apply Qcltb_ge; exact L]. exists x, y. split; [exact QX|]. split; [exact QY|]. split; [exact QZ|]. split; [exact QR|]. intros i. split; reflexivity. }
    destruct (mode_class m MG_distance) as [d|] eqn:MC.
    + apply orb_true_iff in HP as [HP|HP]; apply andb_true_iff in HP as [H1 H2]; apply negb_true_iff in H2; apply subclass_derives in H1.
      * apply AB; auto. right. exists d. auto.
      * destruct (vget (pvals p) AX) as [x0|] eqn:VX; [|destruct (KX AX); cbn; auto]. destruct (vget (pvals p) AY) as [y0|] eqn:VY; [|destruct (KX AY); cbn; auto]. destruct (vget (pvals p) AZ) as [z0|] eqn:VZ; [|destruct (KX AZ); cbn; auto].
        exists (Job (z0 + r)%Qc (z0 + r + z)%Qc (fun i => (x0 + Qc_of_Z (Z.of_nat i) * x)%Qc) (fun i => (y0 + Qc_of_Z (Z.of_nat i) * y)%Qc)). split; auto. split; auto. split.
        -- right. split; [exists d; auto|]. exists x0, y0, z0. split; auto. split; auto. split; auto. exists x, y, z, r. split; [exact QX|]. split; [exact QY|]. split; [exact QZ|]. split; [exact QR|]. split; [reflexivity|]. split; [reflexivity|]. intros i. split; reflexivity.
        -- cbn [jd jr]. apply Qcltb_ge in H2. replace (z0 + r)%Qc with (z0 + r + 0)%Qc at 2 by ring. apply Qcplus_le_compat; [apply Qcle_refl|exact H2].
    + apply AB; [left; auto|]. apply negb_true_iff in HP. auto.
Qed.
Definition swapped_b (o : options) (g : gcode) : bool := o_canned_expand o && existsb (word_eqb (gword g)) (o_canned_codes o).
Lemma swapped_ex o g : o_linearize o = None -> swapped_b o g = true <-> swapped o g.
Proof.
  intros N. unfold swapped_b, swapped. rewrite andb_true_iff, named_b, N. split; auto. intros [[H _]|H]; auto. contradiction.
Qed.
(** the gcodes before the first that [f] accepts, that one, and the rest *)
Fixpoint split_at (f : gcode -> bool) (l : list gcode) : option (list gcode * gcode * list gcode) :=
  match l with
  | [] => None
  | x :: r => if f x then Some ([], x, r) else match split_at f r with Some (a, g, b) => Some (x :: a, g, b) | None => None end
  end.
Lemma split_some f l : forall a g b, split_at f l = Some (a, g, b) -> l = a ++ g :: b /\ f g = true.
Proof.
  induction l as [|x r IH]; cbn [split_at]; intros a g b; [discriminate|]. destruct (f x) eqn:F; [intros E; injection E as <- <- <-; auto|]. destruct (split_at f r) as [[[a' g'] b']|]; [|discriminate]. intros E. injection E as <- <- <-. destruct (IH _ _ _ eq_refl) as [-> H]. auto.
Qed.
Lemma split_none f l : split_at f l = None -> Forall (fun g => f g = false) l.
Proof. induction l as [|x r IH]; cbn [split_at]; [constructor|]. destruct (f x) eqn:F; [discriminate|]. destruct (split_at f r) as [[[a' g'] b']|]; [discriminate|]. auto. Qed.
Definition with_full {ar : Arith} : options := Options false true norm_machine_mode None false [] false false None false false false false [] false.
Definition expandable_b {ar : Arith} (o : options) (fuel : nat) (m : machine) (l : line) : bool :=
  match block_modal_gcodes m (lblock l) with
  | Raise _ => false
  | Ok gs =>
      match split_at (swapped_b o) gs with
      | None => restylable_b no_options m l
      | Some (a, g, _) =>
          restylable_b with_full m l && match lmacro l with None => true | Some _ => false end &&
          match steps (map gcode_process a) m with
          | (n, Ok _) => drillable_b n g &&
              match machine_pos n with
              | Ok p => match simplify_canned_cycle fuel g p (mode_class n MG_plane_selection) (mode_class n MG_distance) None (m_axes n) with
                        | Some (moves, _) => forallb (fun h => forallb readable_b (gword h :: map snd (gparams h))) moves
                        | None => false
                        end
              | Raise _ => false
              end
          | _ => false
          end
      end
  end.
Lemma restylable_faithful {ar : Arith} m l s : sound m -> mk_line s = Ok l -> restylable_b no_options m l = true -> faithful l.
Proof. intros S L H. destruct (restylable_ex _ _ _ _ S L H) as (F1 & F2 & F3). split; [exact F1|]. split; [exact F3|]. apply F2. reflexivity. Qed.
Lemma expandable_ex o fuel m l s : o_linearize o = None -> ready (ar := exact_arith) m -> mk_line (ar := exact_arith) s = Ok l -> expandable_b (ar := exact_arith) o fuel m l = true -> expandable (ar := exact_arith) o fuel m l.
Proof.
  intros LN R L H. unfold expandable_b in H. destruct (block_modal_gcodes (ar := exact_arith) m (lblock l)) as [gs|] eqn:B; [|discriminate H]. exists gs. split; auto. pose proof R as (S & _). destruct (split_at (swapped_b o) gs) as [[[a g] b]|] eqn:SP.
  - right. apply split_some in SP as [E SW]. apply andb_true_iff in H as [H H3]. apply andb_true_iff in H as [H1 H2]. destruct (steps (map (gcode_process (ar := exact_arith)) a) m) as [n [[]|]] eqn:ST; [|discriminate H3]. apply andb_true_iff in H3 as [DR SI].
    apply (passes_steps (ar := exact_arith)) in ST as (ms & PA & LA). subst n. apply drillable_ex in DR. pose proof (modal_wf s l m gs L S B) as W. rewrite E in W. apply Forall_app in W as [Wa W]. inversion W as [|? ? Wg Wb]; subst. pose proof (passes_ready a Wa m ms R PA) as RD.
    destruct (restylable_ex _ _ _ _ S L H1) as (F1 & _ & F2 & F3). exists a, g, b, ms. split; auto. split; [apply swapped_ex; auto|]. split; [split; auto|]. split; [destruct (lmacro l); [discriminate H2|auto]|]. split; auto. split; auto.
    intros p EP. rewrite EP in SI. destruct (simplify_canned_cycle (ar := exact_arith) fuel g p _ _ None _) as [[moves r]|] eqn:SC; [|discriminate SI]. exists moves, r. split; auto. rewrite forallb_forall in SI. apply Forall_forall. intros h I. apply Forall_forall. intros w J. specialize (SI h I). rewrite forallb_forall in SI.
    apply readable_ex; auto. destruct (cycle_stands fuel (last ms m) g moves r RD Wg DR) as (_ & IF & _); [intros q Q; rewrite EP in Q; injection Q as <-; exact SC|]. rewrite Forall_forall in IF. destruct (IF h I) as (_ & _ & (_ & _ & A & C) & _). destruct J as [<-|J]; [exact A|]. apply in_map_iff in J as (kv & <- & J). rewrite Forall_forall in C. auto.
  - left. split; [|exact (restylable_faithful _ _ _ S L H)]. eapply Forall_impl; [|apply (split_none _ _ SP)]. intros g F SW. apply swapped_ex in SW; auto. rewrite F in SW. discriminate SW.
Qed.
(** every line, with the state before it *)
Lemma each_ready {ar : Arith} f file : forall m, ready m -> each_b f file m = true ->
  exists tr, reading m file tr /\ Forall (fun x => f (fst x) (snd x) = true /\ ready (fst x) /\ exists s, mk_line s = Ok (snd x)) (from_states m tr).
Proof.
  induction file as [|s r IH]; intros m R E; [exists []; split; constructor|]. cbn [each_b] in E. destruct (mk_line s) as [l|] eqn:L; [|discriminate E]. apply andb_true_iff in E as [F E]. destruct (process_block (lblock l) m) as [m1 [[]|]] eqn:P; [|discriminate E].
  destruct (mk_line_block _ _ L) as (bs & MB). destruct (mk_block_wf _ _ _ MB) as [WF WP]. destruct R as (S & I & Y). destruct (process_gcodes_inv (bgcodes (lblock l)) (bmodal (lblock l)) m S I WF WP) as (S1 & I1 & Y1 & _). unfold process_block in P. rewrite P in S1, I1, Y1. cbn [fst] in *.
  destruct (IH m1 (conj S1 (conj I1 (Y1 Y))) E) as (tr & RD & A). exists ((l, m1) :: tr). split; [econstructor; eauto|]. constructor; auto. cbn [fst snd]. split; auto. split; [split; auto|]. eauto.
Qed.
Definition all_expandable (o : options) (fuel : nat) (file : list text) : bool :=
  match new_machine (ar := exact_arith) xyz false (o_machine_mode o) with Ok m => sync_b m && each_b (ar := exact_arith) (expandable_b (ar := exact_arith) o fuel) file m | _ => false end.
Lemma all_expandable_ex o fuel file : o_linearize o = None -> all_expandable o fuel file = true ->
  exists m tr, new_machine (ar := exact_arith) xyz false (o_machine_mode o) = Ok m /\ in_sync m /\ reading (ar := exact_arith) m file tr /\ Forall (fun x => expandable (ar := exact_arith) o fuel (fst x) (snd x)) (from_states m tr).
Proof.
  unfold all_expandable. intros LN. destruct (new_machine (ar := exact_arith) xyz false (o_machine_mode o)) as [m|] eqn:E; [|discriminate]. intros H. apply andb_true_iff in H as [Y H]. apply sync_ex in Y. destruct (new_machine_sound _ _ _ _ E) as (S & I & _).
  destruct (each_ready _ file m (conj S (conj I Y)) H) as (tr & R & F). exists m, tr. split; auto. split; auto. split; auto. eapply Forall_impl; [|exact F]. intros x (A & B & s & L). eapply expandable_ex; eauto.
Qed.
Definition drill_file : list text := lines ["G0 Z5 (up)"; "N10 G98 G81 X1 Y1 Z-1 R2 F100 (hole)"; "X2 ; again"; "G91 X1 L2"; "G80"; "%macro%"; "M8 G83 X1 Y1 Z-3 R-1 Q1"]%string.
Definition drill_out : list text := map t ["G00 Z5 (up)"; "N10 F100 G98"; "; expanded: <GCodeDrillingCycle: G81{R2, X1, Y1, Z-1}>"; "G00 X1 Y1"; "    Z2"; "G01 Z-1"; "G00 Z5"; "(hole)";
  "; expanded: <GCodeDrillingCycle: G81{R2, X2, Y1, Z-1}>"; "G00 X2 Y1"; "    Z2"; "G01 Z-1"; "G00 Z5"; "; again"; "G91";
  "; expanded: <GCodeDrillingCycle: G81{L2, R2, X1, Y1, Z-1}>"; "G00 Z2"; "    X1 Y1"; "G01 Z-1"; "G00 Z-1"; "    Z2"; "    X1 Y1"; "G01 Z-1"; "G00 Z-1"; "G80"; "%macro%"; "M08";
  "; expanded: <GCodeDrillingCyclePeck: G83{Q1, R-1, X1, Y1, Z-3}>"; "G00 X1 Y1"; "    Z-1"; "G01 Z-1"; "G00 Z1"; "    Z-0.9"; "G01 Z-1.1"; "G00 Z2"; "    Z-1.9"; "G01 Z-1.1"; "G00 Z4"]%string.
Example C90_ex : let o := expand_all (ar := exact_arith) in expanding (ar := exact_arith) o /\ exists m tr, new_machine (ar := exact_arith) xyz false (o_machine_mode o) = Ok m /\ in_sync m /\ reading (ar := exact_arith) m drill_file tr /\
  Forall (fun x => expandable (ar := exact_arith) o 100 (fst x) (snd x)) (from_states m tr) /\ Forall (fun x => tractable (ar := exact_arith) o 100 (fst x) (snd x)) (from_states m tr) /\ norm (ar := exact_arith) o 100 drill_file = (drill_out, Ok tt).
Proof.
  intros o. split; [apply expand_all_ok, exact_accurate|]. destruct (all_expandable_ex o 100 drill_file) as (m & tr & E & Y & R & F); [reflexivity|vm_compute; reflexivity|]. exists m, tr. split; [exact E|]. split; [exact Y|]. split; [exact R|]. split; [exact F|]. split; [|vm_compute; reflexivity].
  destruct (new_machine_sound _ _ _ _ E) as (S & I & _). exact (tractable_reading o 100 drill_file m tr (conj S (conj I Y)) R F).
Qed.
(** ** where the promise is not kept *)
Definition expand64 : options := expand_all (ar := binary64).
(** under G99 the printed moves return to the height of the start instead of R, so the programs end in different places *)
Theorem C90_return_refuted : exists file out x y, norm (ar := binary64) expand64 100 file = (out, Ok tt) /\ run_file file = Ok x /\ run_file (printed out) = Ok y /\ snd x = map t ["1"; "1"; "2"]%string /\ snd y = map t ["1"; "1"; "0"]%string.
Proof. exists (lines ["G99"; "G81 X1 Y1 Z-1 R2"]%string). do 3 eexists. split; [vm_compute; reflexivity|]. split; [vm_compute; reflexivity|]. split; [vm_compute; reflexivity|]. split; reflexivity. Qed.
Print Assumptions C90_return_refuted.
(** a macro on the line of a cycle is not printed *)
Theorem C90_macro_refuted : exists s l x out tr m, mk_line (ar := binary64) s = Ok l /\ lmacro l = Some x /\ norm (ar := binary64) expand64 100 [s] = (out, Ok tt) /\
  new_machine (ar := binary64) xyz false norm_machine_mode = Ok m /\ reading (ar := binary64) m (printed out) tr /\ Forall (fun y => lmacro (fst y) = None) tr.
Proof.
  exists (t "G81 X1 Y1 Z-1 R2 %macro%"). do 3 eexists.
  destruct (norm_to_reading (fun _ _ => true) (printed (map t ["; expanded: <GCodeDrillingCycle: G81{R2, X1, Y1, Z-1}>"; "G00 Z2"; "    X1 Y1"; "G01 Z-1"; "G00 Z0"]%string))) as (m & tr & E & R & _); [vm_compute; reflexivity|]. exists tr, m.
  split; [vm_compute; reflexivity|]. split; [vm_compute; reflexivity|]. split; [vm_compute; reflexivity|]. split; [exact E|]. split; [exact R|].
  clear E. unfold printed in R. cbn [map] in R. repeat (apply reading_step in R as (? & ? & ? & L & _ & R & <-); read_line L; constructor; [reflexivity|]). apply reading_empty in R. subst. constructor.
Qed.
Print Assumptions C90_macro_refuted.
(** G82 is among the codes taken by default and stops the script in the hole; so does every other code that is not a drilling cycle *)
Theorem C90_dwell_refuted : exists file x out, run_file file = Ok x /\ norm (ar := binary64) expand64 100 file = (out, Raise ENameError) /\ last out [] = t "G01 Z-1".
Proof. exists (lines ["G82 X1 Y1 Z-1 R2 P1"]%string). do 2 eexists. split; [vm_compute; reflexivity|]. split; [vm_compute; reflexivity|]. reflexivity. Qed.
Print Assumptions C90_dwell_refuted.
(** a word in --canned_codes that is not that of a cycle: the first line with it ends the script with a ValueError *)
Theorem C90_codes_refuted : exists codes file x out, run_file file = Ok x /\ norm (ar := binary64) (expand_codes (ar := binary64) codes) 100 file = (out, Raise EValueError).
Proof. exists (the_words "G0"), (lines ["G1 X1 F100"; "G0 X1"]%string). do 2 eexists. split; vm_compute; reflexivity. Qed.
Print Assumptions C90_codes_refuted.
