(** The final actions printed by pygcode-norm, read back and run. *)
From Coq Require Import Ascii String List Bool Arith ZArith QArith Qcanon Permutation Lia.
From Verif Require Import Base Num Words GTable GCode Line Position Machine Transform BaseFacts ArithSpec WordsSpec PrintSpec PrintProofs PrintProofs2 PropsPrint WordOrder GCodeSpec GCodeProofs GCodeProofs2 GTableProofs PropsGCode PosSpec PosProofs BlockSpec BlockProofs ModeSpec ModeProofs MachSpec MachProofs MachProofs2 MachProofs3 PropsMach PropsMach3 SimSpec SimProofs TransSpec TransProofs TransProofs2
  Scripts ScriptsSpec ScriptsSpec2 ScriptsSpec3 ScriptsSpec4 ScriptsProofs ScriptsProofs4 ScriptsProofs5 ScriptsProofs6 ScriptsProofs7.
Import ListNotations.
Local Open Scope nat_scope.

Section WithArith.
Context {ar : Arith}.
(** ** machines made with any mode *)
Lemma new_offsets axes ig ls m0 m : new_machine axes ig ls = Ok m0 -> keeps m0 m -> no_offsets m.
Proof.
  intros E (_ & _ & C & O & _) a. assert (S : m_state m0 = new_state axes).
  { unfold new_machine in E. destruct (new_mode ls) as [md|]; cbn [bind] in E; [|discriminate]. destruct (gm_get md MG_units) as [g|]; [destruct (unit_id (gcls g))|]; cbn [bind] in E; try discriminate; injection E as <-; reflexivity. }
  unfold system_offset, temp_offset. rewrite C, O, S. split; [|apply zero_pos_val]. unfold new_state. cbn [coord_systems]. destruct (cur_coord_sys (m_state m)) as [i|]; auto.
  match goal with |- context [dget Z.eqb ?d i] => assert (Z : forall p, dget Z.eqb d i = Some p -> p = zero_pos axes) end.
  { intros p H. apply (dget_in _ _ _ Z.eqb_eq) in H. cbn [map In] in H. repeat (destruct H as [H|H]; [injection H as _ <-; reflexivity|]). contradiction. }
  match goal with |- context [dget Z.eqb ?d i] => destruct (dget Z.eqb d i) as [p|] end; auto. rewrite (Z p eq_refl). apply zero_pos_val.
Qed.
Lemma new_steady axes ig ls m : accurate ar -> new_machine axes ig ls = Ok m -> in_sync m -> steady m.
Proof.
  intros acc E Y. destruct (new_machine_sound _ _ _ _ E) as (S & I & O & A & G & C & V). split; auto. split; auto. intros a _. rewrite V. destruct acc as [acc _]. exact (acc 0%Z ltac:(lia)).
Qed.

(** ** one gcode behind which a comment is printed *)
Lemma process_single b g m : Forall2 same_gcode [g] (bgcodes b) -> bmodal b = [] -> exists g', same_gcode g g' /\ process_block b m = gcode_process g' m.
Proof. intros F B. inversion F as [|? g' ? gs SG F' E1 E2]; subst. inversion F'; subst. exists g'. split; auto. unfold process_block. rewrite <- E2, B. apply process_one. Qed.
Lemma names_same g g' a x : same_gcode g g' -> names g a x <-> names g' a x.
Proof. intros (_ & _ & P). unfold names. split; intros (w & I & V); exists w; split; auto; [eapply Permutation_in; eauto|eapply Permutation_in; [apply Permutation_sym|]; eauto]. Qed.
Definition goodm (m : machine) : Prop := sound m /\ inside m /\ steady m /\ no_offsets m /\ m_axes m = xyz.
Lemma rapid_block cs b m : accurate ar -> idempotent ar -> goodm m -> absolute m -> NoDup (map fst cs) -> Forall (fun c => In (fst c) [AX; AY; AZ] /\ float (snd c)) cs ->
  Forall2 same_gcode [rapid cs] (bgcodes b) -> bmodal b = [] ->
  exists m1, process_block b m = (m1, Ok tt) /\ goodm m1 /\ keeps m m1 /\ (forall mg, mg <> MG_motion -> gm_get (m_mode m1) mg = gm_get (m_mode m) mg) /\ absolute m1 /\
    (forall a x, In (a, x) cs -> pos_at m1 a x) /\ (forall a, ~ In a (map fst cs) -> stays a m m1).
Proof.
  intros acc ID (S & I & Y & O & X) A ND FC FG BM. destruct (process_single b _ m FG BM) as (g & SG & ->). pose proof (same_wf _ _ (rapid_wf cs acc ND) SG) as W. pose proof (proj1 W) as L. assert (C : gcls g = GCodeRapidMove) by (symmetry; apply SG).
  assert (MV : is_move g).
  { unfold is_move. rewrite C. split; [apply subclass_derives; reflexivity|]. split; [unfold is_g80; rewrite C; intros D; apply subclass_derives in D; discriminate D|]. intros D. apply subclass_derives in D. discriminate D. }
  assert (NM : forall a x, names g a x <-> In (a, x) cs) by (intros; rewrite <- (names_same _ _ _ _ SG); apply rapid_names).
  rewrite Forall_forall in FC. assert (FL : forall a x, names g a x -> float x) by (intros a x N; apply NM in N; apply (FC _ N)).
  destruct (C40_float ar m g ID S W MV A (proj1 Y) O FL) as (m1 & E & P1 & P2). exists m1. split; auto.
  destruct (process_keeps g m S I W) as [(S1 & I1 & _) K1]. rewrite E in S1, I1, K1. cbn [fst] in *. pose proof (process_steady g m m1 ID S I W Y E) as Y1.
  assert (G : in_group MG_motion g) by (unfold in_group; rewrite C; reflexivity). assert (NG : forall mg, mg <> MG_motion -> ~ in_group mg g) by (unfold in_group in *; intros mg N Q; congruence).
  assert (ST : m_state m1 = m_state m).
  { rewrite <- (set_for_sync m g (proj1 Y)) by (apply NG; discriminate). destruct (process_move g m S W) as (m2 & E2 & ((_ & FS & _) & _)); [rewrite C; reflexivity|]. congruence. }
  pose proof (gcode_process_mode g m (proj1 (proj2 (proj2 (proj2 (proj2 (proj2 S)))))) L) as MM. rewrite E in MM. cbn [fst] in MM.
  assert (O1 : no_offsets m1) by (intros a; unfold system_offset, temp_offset; rewrite ST; apply O).
  assert (ME : forall mg, mg <> MG_motion -> gm_get (m_mode m1) mg = gm_get (m_mode m) mg) by (intros mg N; rewrite MM; unfold mode_effect, set_effect; rewrite C; cbn; apply gm_get_set_other; auto).
  assert (HM : forall a, has (m_abs m) a <-> In a [AX; AY; AZ]) by (intros a; destruct S as ((_ & Z & _) & _); unfold has; rewrite Z, X; destruct a; cbn; intuition discriminate).
  split; [|split; [auto|split; [auto|split; [unfold absolute in *; rewrite ME by discriminate; auto|split]]]].
  - split; auto. split; auto. split; auto. split; auto. destruct K1; congruence.
  - intros a x IN. apply P1; [|apply NM; auto]. apply HM. apply (FC _ IN).
  - intros a N x. assert (NN : forall y, ~ names g a y) by (intros y Q; apply NM in Q; apply N; apply (in_map fst) in Q; exact Q). split; [apply P2; auto|].
    intros Q. apply (steady_pos m1 a x S1 Y1 O1) in Q as [H1 ->]. assert (Ha : has (m_abs m) a) by (eapply has_axes; [|exact H1]; destruct S as ((_ & Z & _) & _), S1 as ((_ & Z1 & _) & _), K1; congruence).
    pose proof (P2 a _ NN (proj2 (steady_pos m a _ S Y O) (conj Ha eq_refl))) as Q. apply (steady_pos m1 a _ S1 Y1 O1) in Q as [_ Q]. rewrite <- Q. apply steady_pos; auto.
Qed.
(** a gcode that only changes the mode of its group *)
Lemma mode_block mg g0 b m : idempotent ar -> goodm m -> gcode_wf g0 -> process_kind (gcls g0) = PNothing -> modal_group (gcls g0) = Some mg -> mg <> MG_coordinate_system ->
  Forall2 same_gcode [g0] (bgcodes b) -> bmodal b = [] ->
  exists m1, process_block b m = (m1, Ok tt) /\ goodm m1 /\ keeps m m1 /\ (forall k, k <> mg -> gm_get (m_mode m1) k = gm_get (m_mode m) k) /\
    (exists g, gm_get (m_mode m1) mg = Some g /\ gcls g = gcls g0) /\ forall a, stays a m m1.
Proof.
  intros ID (S & I & Y & O & X) W0 PK MG NC FG BM. destruct (process_single b _ m FG BM) as (g & SG & ->). pose proof (same_wf _ _ W0 SG) as W. pose proof (proj1 W) as L. assert (C : gcls g = gcls g0) by (symmetry; apply SG).
  assert (E : gcode_process g m = (set_for m g, Ok tt)) by (rewrite process_own by auto; unfold gcode_process_own; rewrite C, PK; reflexivity).
  exists (set_for m g). split; auto. destruct (process_keeps g m S I W) as [(S1 & I1 & _) K1]. rewrite E in S1, I1, K1. cbn [fst] in *. pose proof (process_steady g m _ ID S I W Y E) as Y1.
  assert (ST : m_state (set_for m g) = m_state m) by (apply set_for_sync; [apply Y|unfold in_group; rewrite C, MG; congruence]).
  assert (O1 : no_offsets (set_for m g)) by (intros a; unfold system_offset, temp_offset; rewrite ST; apply O).
  pose proof (gcode_process_mode g m (proj1 (proj2 (proj2 (proj2 (proj2 (proj2 S)))))) L) as MM. rewrite E in MM. cbn [fst] in MM.
  split; [split; auto; split; auto; split; auto; split; auto; destruct K1; congruence|]. split; auto. split; [|split].
  - intros k N. rewrite MM. unfold mode_effect, set_effect. rewrite C, PK, MG. apply gm_get_set_other. auto.
  - eexists. rewrite MM, (effect_in _ mg); [|unfold in_group; congruence]. split; [reflexivity|]. unfold modal_of. cbn [gcls]. auto.
  - intros a x. rewrite (pos_at_iff _ _ _ S), (pos_at_iff _ _ _ S1). destruct (set_for_pos m g) as (A0 & _). rewrite A0. unfold wpos_of, system_offset, temp_offset. rewrite ST. tauto.
Qed.

(** ** what is printed *)
Lemma write_one o g c : o_rm_gcodes o = [] -> o_rm_whitespace o = false -> write o [g] [] (Some c) None = ([join [space] (gcode_str g :: if o_rm_comments o then [] else [comment_str c])], Ok tt).
Proof.
  intros RG RW. unfold write. cbn [length]. rewrite andb_false_r. assert (H : (match o_full o, @nil word with true, _ :: _ => pure (Raise EAssertionError) | _, _ => write_line o [g] [] (Some c) None end) = write_line o [g] [] (Some c) None) by (destruct (o_full o); reflexivity). rewrite H.
  unfold write_line. rewrite RG, RW. cbn [map app join]. pose proof (gcode_str_some g) as N. destruct (gcode_str g) as [|c0 r0] eqn:E; [congruence|]. destruct (o_rm_comments o); cbn [app join]; reflexivity.
Qed.
Lemma write_bare o g : o_rm_gcodes o = [] -> o_rm_whitespace o = false -> write_gcodes o [g] = ([gcode_str g], Ok tt).
Proof.
  intros RG RW. unfold write_gcodes, write. cbn [length]. rewrite andb_false_r. assert (H : (match o_full o, @nil word with true, _ :: _ => pure (Raise EAssertionError) | _, _ => write_line o [g] [] None None end) = write_line o [g] [] None None) by (destruct (o_full o); reflexivity). rewrite H.
  unfold write_line. rewrite RG, RW. cbn [map app join]. pose proof (gcode_str_some g) as N. destruct (gcode_str g) as [|c0 r0] eqn:E; [congruence|]. destruct (o_rm_comments o); cbn [app join]; reflexivity.
Qed.
Lemma write_comment o s : write_note o s = (if o_rm_comments o then if o_rm_blanks o then [] else [[]] else [comment_str (Comment CommentSemicolon s)], Ok tt).
Proof.
  unfold write_note, write. cbn [length]. rewrite andb_false_r. assert (H : (match o_full o, @nil word with true, _ :: _ => pure (Raise EAssertionError) | _, _ => write_line o [] [] (Some (Comment CommentSemicolon s)) None end) = write_line o [] [] (Some (Comment CommentSemicolon s)) None) by (destruct (o_full o); reflexivity). rewrite H.
  unfold write_line. assert (F : (match o_rm_gcodes o with [] => @nil gcode | ws => filter (fun g => negb (existsb (word_eqb (gword g)) ws)) [] end) = []) by (destruct (o_rm_gcodes o); reflexivity). rewrite F. cbn [map app join filter]. destruct (o_rm_whitespace o), (o_rm_comments o), (o_rm_blanks o); reflexivity.
Qed.
(** ** read back *)
Lemma one_reads (rc : bool) g s : accurate ar -> gcode_wf g -> gwhite g = false -> Forall readable (gword g :: map snd (gparams g)) -> mk_line (note s) = Ok (Line (Block [] [] []) (Some (Comment CommentSemicolon (t s))) None) ->
  exists b c, mk_line (join [space] (gcode_str g :: if rc then [] else [note s])) = Ok (Line b c None) /\ Forall2 same_gcode [g] (bgcodes b) /\ bmodal b = [].
Proof.
  intros acc W WH R N. set (x := if rc then @nil ascii else note s).
  assert (M : exists l, mk_line x = Ok l /\ lmacro l = None /\ lcomment l = if rc then None else Some (Comment CommentSemicolon (t s))).
  { unfold x. destruct rc; [eexists; split; [reflexivity|]; split; reflexivity|]. rewrite N. eexists. split; [reflexivity|]. split; reflexivity. }
  destruct M as (l & L & LM_ & LC). destruct (printed_commented [g] x l acc) as (b & E & F & B); auto; try discriminate; try (constructor; [assumption|constructor]); try (constructor; constructor).
  - exists b, (lcomment l). split; auto. rewrite <- E. cbn [map join]. rewrite LC. destruct rc; reflexivity.
Qed.
(** ** going through the lines *)
Definition leg (h : Qc) (m : machine) (out : list text) (n : machine) : Prop := exists tr, reading m out tr /\ after m tr = n /\ crosses_at h m (map snd tr).
Lemma last_cons {A} (x : A) l d : last (x :: l) d = last l x.
Proof. revert x d. induction l as [|y l IH]; intros x d; auto. change (last (x :: y :: l) d) with (last (y :: l) d). rewrite IH, <- (IH y x). reflexivity. Qed.
Lemma crosses_app h m l l' : crosses_at h m l -> crosses_at h (last l m) l' -> crosses_at h m (l ++ l').
Proof.
  revert m. induction l as [|n l IH]; intros m; cbn [crosses_at app]; auto. intros [A B] C. split; auto. apply IH; auto. rewrite last_cons in C. auto.
Qed.
Lemma after_last m tr : after m tr = last (map snd tr) m.
Proof. revert m. induction tr as [|[l n] tr IH]; intros m; [reflexivity|]. rewrite after_cons, IH. cbn [map snd]. rewrite last_cons. reflexivity. Qed.
Lemma leg_nil h m : leg h m [] m. Proof. exists []. split; [constructor|]. split; [reflexivity|exact I]. Qed.
Lemma leg_app h m o1 n o2 k : leg h m o1 n -> leg h n o2 k -> leg h m (o1 ++ o2) k.
Proof.
  intros (t1 & R1 & A1 & C1) (t2 & R2 & A2 & C2). exists (t1 ++ t2). subst n. split; [apply reading_app; auto|]. split; [rewrite after_app; auto|]. rewrite map_app. apply crosses_app; auto.
Qed.
Lemma leg_one h m s l n : mk_line s = Ok l -> process_block (lblock l) m = (n, Ok tt) -> (stays AX m n /\ stays AY m n) \/ (pos_at m AZ h /\ pos_at n AZ h) -> leg h m [s] n.
Proof. intros L P C. exists [(l, n)]. split; [econstructor; eauto; constructor|]. split; [reflexivity|]. cbn. auto. Qed.
Lemma stays_refl a m : stays a m m. Proof. intros x. tauto. Qed.
Lemma stays_trans a m n k : stays a m n -> stays a n k -> stays a m k. Proof. unfold stays. intros A B x. rewrite A. apply B. Qed.

(** ** the gcodes *)
Lemma plain_code c l k : accurate ar -> legal (MkGCode c (Word l (VFloat (rnd (tenths k)))) [] false) -> letter_kind l = KCode -> (0 <= k < 10 ^ 6)%Z -> doc_class (Word l (VFloat (rnd (tenths k)))) c ->
  gcode_wf (MkGCode c (Word l (VFloat (rnd (tenths k)))) [] false) /\ Forall readable [Word l (VFloat (rnd (tenths k)))].
Proof.
  intros acc L K B D. split.
  - split; auto. assert (W : word_wf (Word l (VFloat (rnd (tenths k))))) by (destruct l; try discriminate K; exact I). split; [apply (word_class_doc acc); auto|]. split; auto. constructor.
  - constructor; [|constructor]. split; [|intros x H; discriminate H]. apply code_survives; auto.
Qed.
Definition g90 : gcode := MkGCode GCodeAbsoluteDistanceMode (Word LG (VFloat (rnd (tenths 900)))) [] false.
Definition m05 : gcode := MkGCode GCodeStopSpindle (Word LM (VFloat (rnd (tenths 50)))) [] false.
Lemma g90_kw : mk_gcode_kw GCodeAbsoluteDistanceMode [] = Ok g90.
Proof. change (mk_gcode_kw GCodeAbsoluteDistanceMode []) with (Ok (MkGCode GCodeAbsoluteDistanceMode (Word LG (VFloat (rnd (Qc_of_Z 90)))) [] false)). unfold g90. do 5 f_equal. apply Qceqb_eq. vm_compute. reflexivity. Qed.
Lemma m05_kw : mk_gcode_kw GCodeStopSpindle [] = Ok m05.
Proof. change (mk_gcode_kw GCodeStopSpindle []) with (Ok (MkGCode GCodeStopSpindle (Word LM (VFloat (rnd (Qc_of_Z 5)))) [] false)). unfold m05. do 5 f_equal. apply Qceqb_eq. vm_compute. reflexivity. Qed.
Lemma g90_ok : accurate ar -> gcode_wf g90 /\ Forall readable [gword g90].
Proof.
  intros acc. apply plain_code; auto; [split; constructor|lia|]. right. exists 900%Z, 900%Z. split; [vm_compute; tauto|]. eexists. split; [reflexivity|]. split; apply Qcle_refl.
Qed.
Lemma m05_ok : accurate ar -> gcode_wf m05 /\ Forall readable [gword m05].
Proof.
  intros acc. apply plain_code; auto; [split; constructor|lia|]. right. exists 50%Z, 50%Z. split; [vm_compute; tauto|]. eexists. split; [reflexivity|]. split; apply Qcle_refl.
Qed.
Lemma zero_float : accurate ar -> float (Q2Qc 0). Proof. intros [acc _]. exact (acc 0%Z ltac:(lia)). Qed.
Lemma zero_readable a : accurate ar -> In a [AX; AY; AZ] -> readable (Word (axis_letter a) (VFloat (Q2Qc 0))).
Proof.
  intros acc D. split; [|intros x H; discriminate H]. assert (E : Q2Qc 0 = rnd (thousandths 0)) by (rewrite <- (zero_float acc) at 1; f_equal; apply Qceqb_eq; vm_compute; reflexivity). rewrite E. apply float_survives; auto; [|lia].
  destruct D as [<-|[<-|[<-|[]]]]; reflexivity.
Qed.

(** ** the stages *)
Lemma rapid_leg (o : options) cs s h m : accurate ar -> idempotent ar -> goodm m -> absolute m -> NoDup (map fst cs) -> Forall (fun c => In (fst c) [AX; AY; AZ] /\ readable (Word (axis_letter (fst c)) (VFloat (snd c)))) cs ->
  mk_line (note s) = Ok (Line (Block [] [] []) (Some (Comment CommentSemicolon (t s))) None) ->
  ((~ In AX (map fst cs) /\ ~ In AY (map fst cs)) \/ (pos_at m AZ h /\ ~ In AZ (map fst cs))) ->
  exists n, leg h m [join [space] (gcode_str (rapid cs) :: if o_rm_comments o then [] else [note s])] n /\ goodm n /\ absolute n /\ keeps m n /\ (forall mg, mg <> MG_motion -> gm_get (m_mode n) mg = gm_get (m_mode m) mg) /\
    (forall a x, In (a, x) cs -> pos_at n a x) /\ (forall a, ~ In a (map fst cs) -> stays a m n).
Proof.
  intros acc ID G A ND F N C. assert (FR : Forall readable (gword (rapid cs) :: map snd (gparams (rapid cs)))).
  { constructor; [apply g00_readable; auto|]. unfold rapid. cbn [gparams]. rewrite map_map. cbn [snd]. apply Forall_forall. intros w I. apply in_map_iff in I as (c & <- & I). rewrite Forall_forall in F. apply (F c I). }
  destruct (one_reads (o_rm_comments o) (rapid cs) s acc (rapid_wf cs acc ND) eq_refl FR N) as (b & c & L & FG & BM).
  assert (FF : Forall (fun c => In (fst c) [AX; AY; AZ] /\ float (snd c)) cs) by (eapply Forall_impl; [|exact F]; intros x [X1 [X2 _]]; split; auto; apply (survives_float _ _ ID X2)).
  destruct (rapid_block cs b m acc ID G A ND FF FG BM) as (n & P & Gn & K & M & An & P1 & P2). exists n. split; [|auto 9].
  eapply leg_one; [exact L|exact P|]. destruct C as [[C1 C2]|[C1 C2]]; [left; split; apply P2; auto|right; split; auto; apply (P2 AZ C2); auto].
Qed.
Lemma mode_leg (rc : bool) mg g s h m : accurate ar -> idempotent ar -> goodm m -> gcode_wf g -> gwhite g = false -> Forall readable (gword g :: map snd (gparams g)) -> process_kind (gcls g) = PNothing -> modal_group (gcls g) = Some mg -> mg <> MG_coordinate_system ->
  mk_line (note s) = Ok (Line (Block [] [] []) (Some (Comment CommentSemicolon (t s))) None) ->
  exists n, leg h m [join [space] (gcode_str g :: if rc then [] else [note s])] n /\ goodm n /\ keeps m n /\ (forall k, k <> mg -> gm_get (m_mode n) k = gm_get (m_mode m) k) /\
    (exists g', gm_get (m_mode n) mg = Some g' /\ gcls g' = gcls g) /\ forall a, stays a m n.
Proof.
  intros acc ID G W WH R PK MG NC N. destruct (one_reads rc g s acc W WH R N) as (b & c & L & FG & BM). destruct (mode_block mg g b m ID G W PK MG NC FG BM) as (n & P & Gn & K & M & E & ST). exists n. split; [|auto 9].
  eapply leg_one; [exact L|exact P|]. left. split; apply ST.
Qed.
Lemma absolute_not_incremental m g : gm_get (m_mode m) MG_distance = Some g -> derives (gcls g) GCodeAbsoluteDistanceMode -> absolute m.
Proof.
  intros E D k K Q. assert (k = g) as -> by congruence. clear -D Q. apply subclass_derives in D. apply subclass_derives in Q. destruct (gcls g); vm_compute in D; try discriminate D; vm_compute in Q; discriminate Q.
Qed.
Theorem final_reads o h m : accurate ar -> idempotent ar -> goodm m -> o_rm_gcodes o = [] -> o_rm_whitespace o = false -> (o_zero_xy o = true -> safe_height o m h /\ readable (Word LZ (VFloat h))) ->
  exists out n, norm_final o m = (out, Ok tt) /\ leg h m out n /\ finalized o h m n /\ goodm n.
Proof.
  intros acc ID G RG RW H.
  (* the note *)
  assert (S1 : exists o1, (if o_spindle_off o || o_zero_xy o || o_zero_z o then write_note o (t "pygcode-norm: finalizing") else ret tt) = (o1, Ok tt) /\ leg h m o1 m).
  { destruct (o_spindle_off o || o_zero_xy o || o_zero_z o); [|exists []; split; [reflexivity|apply leg_nil]]. rewrite write_comment. eexists. split; [reflexivity|].
    destruct (o_rm_comments o); [destruct (o_rm_blanks o); [apply leg_nil|]|]; (eapply leg_one; [vm_compute; reflexivity|reflexivity|left; split; apply stays_refl]). }
  destruct S1 as (o1 & E1 & L1).
  (* G90 *)
  assert (S2 : exists o2 m2, (if (o_zero_xy o || o_zero_z o) && negb (match gm_get (m_mode m) MG_distance with Some g => subclass (gcls g) GCodeAbsoluteDistanceMode | None => false end)
            then run g <- pure (mk_gcode_kw GCodeAbsoluteDistanceMode []); write_gcodes o [g] else ret tt) = (o2, Ok tt) /\ leg h m o2 m2 /\ goodm m2 /\ keeps m m2 /\ (o_zero_xy o || o_zero_z o = true -> absolute m2) /\
            (forall a, stays a m m2) /\ m_max m2 = m_max m /\ m_state m2 = m_state m /\ forall mg, mg <> MG_distance -> gm_get (m_mode m2) mg = gm_get (m_mode m) mg).
  { destruct (o_zero_xy o || o_zero_z o) eqn:Z; cbn [andb].
    - destruct (match gm_get (m_mode m) MG_distance with Some g => subclass (gcls g) GCodeAbsoluteDistanceMode | None => false end) eqn:D; cbn [negb].
      + exists [], m. split; [reflexivity|]. split; [apply leg_nil|]. split; auto. split; [apply keeps_refl|]. split; [|split; [intros; apply stays_refl|auto]]. intros _. destruct (gm_get (m_mode m) MG_distance) as [g|] eqn:Q; [|discriminate]. eapply absolute_not_incremental; eauto. apply subclass_derives. auto.
      + rewrite g90_kw. cbn [pure pbind]. rewrite (write_bare o g90 RG RW). destruct (g90_ok acc) as [W R].
        destruct (one_reads true g90 "x" acc W eq_refl R ltac:(vm_compute; reflexivity)) as (b & c & L & FG & BM). destruct (mode_block MG_distance g90 b m ID G W eq_refl eq_refl ltac:(discriminate) FG BM) as (n & P & Gn & K & M & (g' & M' & C') & ST).
        exists [gcode_str g90], n. split; [reflexivity|]. split; [eapply leg_one; [exact L|exact P|left; split; apply ST]|]. split; auto. split; auto. split; [intros _; eapply absolute_not_incremental; eauto; rewrite C'; apply subclass_derives; reflexivity|]. split; auto.
        destruct (process_single b g90 m FG BM) as (g & SG & PB). pose proof (same_wf _ _ W SG) as Wg. assert (C : gcls g = GCodeAbsoluteDistanceMode) by (symmetry; apply SG). destruct G as (S & _ & Y & _).
        assert (E : gcode_process g m = (set_for m g, Ok tt)) by (rewrite process_own by (auto; apply Wg); unfold gcode_process_own; rewrite C; reflexivity). rewrite PB, E in P. injection P as <-.
        split; [apply set_for_pos|]. split; [|auto]. apply set_for_sync; [apply Y|]. unfold in_group. rewrite C. discriminate.
    - exists [], m. split; [reflexivity|]. split; [apply leg_nil|]. split; auto. split; [apply keeps_refl|]. split; [discriminate|split; [intros; apply stays_refl|auto]]. }
  destruct S2 as (o2 & m2 & E2 & L2 & G2 & K2 & A2 & ST2 & MX2 & MS2 & M2).
  (* the spindle *)
  assert (S3 : exists o3 m3, (if o_spindle_off o then run g <- pure (mk_gcode_kw GCodeStopSpindle []); write o [g] [] (Some (Comment CommentSemicolon (t "spindle off"))) None else ret tt) = (o3, Ok tt) /\ leg h m2 o3 m3 /\ goodm m3 /\ keeps m2 m3 /\
            (forall a, stays a m2 m3) /\ (if o_spindle_off o then exists g, gm_get (m_mode m3) MG_spindle = Some g /\ gcls g = GCodeStopSpindle else gm_get (m_mode m3) MG_spindle = gm_get (m_mode m2) MG_spindle) /\
            forall mg, mg <> MG_spindle -> gm_get (m_mode m3) mg = gm_get (m_mode m2) mg).
  { destruct (o_spindle_off o).
    - rewrite m05_kw. cbn [pure pbind]. rewrite (write_one o m05 _ RG RW). destruct (m05_ok acc) as [W R].
      destruct (mode_leg (o_rm_comments o) MG_spindle m05 "spindle off" h m2 acc ID G2 W eq_refl R eq_refl eq_refl ltac:(discriminate) ltac:(vm_compute; reflexivity)) as (n & L & Gn & K & M & E & ST).
      eexists. exists n. split; [reflexivity|]. split; [exact L|]. auto 9.
    - exists [], m2. split; [reflexivity|]. split; [apply leg_nil|]. split; auto. split; [apply keeps_refl|]. split; [intros; apply stays_refl|auto]. }
  destruct S3 as (o3 & m3 & E3 & L3 & G3 & K3 & ST3 & SP3 & M3).
  assert (A3 : o_zero_xy o || o_zero_z o = true -> absolute m3) by (intros Z g Q; rewrite M3 in Q by discriminate; exact (A2 Z g Q)).
  (* across *)
  assert (S4 : exists o4 m4, (if o_zero_xy o then
              run h <- match o_height o with Some h => ret h | None => pure (do p <- abs2work m (m_max m); pos_getattr p AZ) end;
              run g <- pure (mk_gcode_kw GCodeRapidMove [(LZ, VFloat h)]);
              run _ <- write o [g] [] (Some (Comment CommentSemicolon (t "move to safe height"))) None;
              run g <- pure (mk_gcode_kw GCodeRapidMove [(LX, VFloat (Q2Qc 0)); (LY, VFloat (Q2Qc 0))]);
              write o [g] [] (Some (Comment CommentSemicolon (t "move to planar origin"))) None else ret tt) = (o4, Ok tt) /\ leg h m3 o4 m4 /\ goodm m4 /\ keeps m3 m4 /\
            (if o_zero_xy o then pos_at m4 AX (Q2Qc 0) /\ pos_at m4 AY (Q2Qc 0) /\ pos_at m4 AZ h else forall a, stays a m3 m4) /\ (o_zero_xy o || o_zero_z o = true -> absolute m4) /\
            forall mg, mg <> MG_motion -> gm_get (m_mode m4) mg = gm_get (m_mode m3) mg).
  { destruct (o_zero_xy o); [|exists [], m3; split; [reflexivity|]; split; [apply leg_nil|]; split; auto; split; [apply keeps_refl|]; split; [intros; apply stays_refl|auto]].
    destruct (H eq_refl) as [SH RH]. cbn [orb] in A3. specialize (A3 eq_refl).
    assert (EH : (match o_height o with Some h => ret h | None => pure (do p <- abs2work m (m_max m); pos_getattr p AZ) end) = ret h).
    { unfold safe_height in SH. destruct (o_height o) as [x|]; [subst; reflexivity|]. destruct SH as (p & -> & SH). cbn [bind]. rewrite SH. reflexivity. }
    rewrite EH. clear EH. cbn [ret pure pbind]. change LZ with (axis_letter AZ). change LX with (axis_letter AX). change LY with (axis_letter AY). rewrite (rapid_kw1 AZ h) by (cbn; auto). rewrite (rapid_kw2 AX AY) by (cbn; auto). rewrite !(write_one o _ _ RG RW). cbn [pbind app].
    destruct (rapid_leg o [(AZ, h)] "move to safe height" h m3 acc ID G3 A3) as (n1 & La & Ga & Aa & Ka & Ma & Pa & Sa); [constructor; [intros []|constructor]|constructor; [split; [cbn; auto|exact RH]|constructor]|vm_compute; reflexivity|left; split; intros [Q|[]]; discriminate Q|].
    assert (PZ : pos_at n1 AZ h) by (apply Pa; left; auto).
    destruct (rapid_leg o [(AX, Q2Qc 0); (AY, Q2Qc 0)] "move to planar origin" h n1 acc ID Ga Aa) as (n2 & Lb & Gb & Ab & Kb & Mb & Pb & Sb).
    { constructor; [intros [Q|[]]; discriminate Q|constructor; [intros []|constructor]]. } { constructor; [split; [cbn; auto|apply (zero_readable AX); cbn; auto]|constructor; [split; [cbn; auto|apply (zero_readable AY); cbn; auto]|constructor]]. } { vm_compute; reflexivity. } { right. split; auto. intros [Q|[Q|[]]]; discriminate Q. }
    eexists. exists n2. split; [reflexivity|]. split; [exact (leg_app _ _ _ _ _ _ La Lb)|]. split; auto. split; [eapply keeps_trans; eauto|]. split; [split; [apply Pb; cbn; auto|split; [apply Pb; cbn; auto|apply (Sb AZ); auto; intros [Q|[Q|[]]]; discriminate Q]]|]. split; auto.
    intros mg N. rewrite Mb, Ma; auto. }
  destruct S4 as (o4 & m4 & E4 & L4 & G4 & K4 & P4 & A4 & M4).
  (* down *)
  assert (S5 : exists o5 m5, (if o_zero_z o then run g <- pure (mk_gcode_kw GCodeRapidMove [(LZ, VFloat (Q2Qc 0))]); write o [g] [] (Some (Comment CommentSemicolon (t "move to zero height"))) None else ret tt) = (o5, Ok tt) /\ leg h m4 o5 m5 /\ goodm m5 /\
            stays AX m4 m5 /\ stays AY m4 m5 /\ (if o_zero_z o then pos_at m5 AZ (Q2Qc 0) else stays AZ m4 m5) /\
            forall mg, mg <> MG_motion -> gm_get (m_mode m5) mg = gm_get (m_mode m4) mg).
  { destruct (o_zero_z o); [|exists [], m4; split; [reflexivity|]; split; [apply leg_nil|]; split; auto; split; [apply stays_refl|split; [apply stays_refl|split; [apply stays_refl|auto]]]].
    rewrite orb_true_r in A4. specialize (A4 eq_refl). change LZ with (axis_letter AZ). rewrite (rapid_kw1 AZ) by (cbn; auto). cbn [pure pbind]. rewrite (write_one o _ _ RG RW). cbn [app].
    destruct (rapid_leg o [(AZ, Q2Qc 0)] "move to zero height" h m4 acc ID G4 A4) as (n & L & Gn & An & K & M & P & S); [constructor; [intros []|constructor]|constructor; [split; [cbn; auto|apply (zero_readable AZ); cbn; auto]|constructor]|vm_compute; reflexivity|left; split; intros [Q|[]]; discriminate Q|].
    eexists. exists n. split; [reflexivity|]. split; [exact L|]. split; auto. split; [apply S; intros [Q|[]]; discriminate Q|]. split; [apply S; intros [Q|[]]; discriminate Q|]. split; [apply P; left; auto|auto]. }
  destruct S5 as (o5 & m5 & E5 & L5 & G5 & SX5 & SY5 & P5 & M5).
  exists (o1 ++ o2 ++ o3 ++ o4 ++ o5), m5. split; [|split; [|split]].
  - unfold norm_final. rewrite E1, E2, E3, E4, E5. cbn [pbind]. rewrite <- ?app_assoc. reflexivity.
  - eapply leg_app; [exact L1|]. eapply leg_app; [exact L2|]. eapply leg_app; [exact L3|]. eapply leg_app; [exact L4|exact L5].
  - assert (S14 : forall a, stays a m m3) by (intros a; eapply stays_trans; [apply ST2|apply ST3]). split; [|split; [|split]].
    + destruct (o_zero_xy o); [destruct P4 as (PX & PY & _); split; [apply SX5|apply SY5]; auto|]. split; (eapply stays_trans; [apply S14|eapply stays_trans; [apply P4|auto]]).
    + destruct (o_zero_z o); [exact P5|]. destruct (o_zero_xy o); [apply P5, P4|]. eapply stays_trans; [apply S14|eapply stays_trans; [apply P4|exact P5]].
    + rewrite M5, M4 by discriminate. destruct (o_spindle_off o); auto. rewrite SP3. apply M2. discriminate.
    + intros mg N. cbn [In] in N. rewrite M5, M4, M3, M2; auto; intros ->; apply N; auto.
  - exact G5.
Qed.
(** ** the greatest Z recorded is above all that were reached *)
Lemma wpos_plain m a x : idempotent ar -> no_offsets m -> wpos_of m a x = rnd x.
Proof. intros ID O. unfold wpos_of. destruct (O a) as [-> ->]. unfold fsub. assert (K2 : forall y, (y - Q2Qc 0)%Qc = y) by (intros; ring). rewrite !K2. apply ID. Qed.
Lemma max_grows file : monotone ar -> forall m tr, sound m -> inside m -> reading m file tr -> forall a, has (m_abs m) a ->
  (pval (m_max m) a <= pval (m_max (after m tr)) a)%Qc /\ Forall (fun x => sound (snd x) /\ inside (snd x) /\ keeps m (snd x) /\ (pval (m_max (snd x)) a <= pval (m_max (after m tr)) a)%Qc) tr.
Proof.
  intros MO. induction file as [|s r IH]; intros m tr S I R a Ha.
  - apply reading_empty in R. subst. split; [apply Qcle_refl|constructor].
  - apply reading_step in R as (l & m1 & tr1 & L & P & R & <-). rewrite after_cons. destruct (mk_line_block _ _ L) as (bs & MB). destruct (mk_block_wf _ _ _ MB) as [F W].
    destruct (process_gcodes_inv (bgcodes (lblock l)) (bmodal (lblock l)) m S I F W) as (S1 & I1 & _ & K1). unfold process_block in P. rewrite P in S1, I1, K1. cbn [fst] in *.
    assert (H1 : has (m_abs m1) a) by (eapply has_axes; [|exact Ha]; destruct S as ((_ & Z & _) & _), S1 as ((_ & Z1 & _) & _), K1; congruence).
    assert (G : (pval (m_max m) a <= pval (m_max m1) a)%Qc).
    { unfold process_gcodes in P. destruct (machine_modal_gcode m (bmodal (lblock l))) as [og|] eqn:O; [|discriminate]. apply steps_path in P as (ps & P). assert (WF : Forall gcode_wf (sort_gcodes (bgcodes (lblock l) ++ match og with Some g => [g] | None => [] end))).
      { apply sort_wf, Forall_app. split; auto. destruct og as [g|]; constructor; auto. exact (modal_gcode_wf _ _ _ S W O). }
      destruct (path_box m _ ps m1 MO P S I WF a Ha) as (_ & _ & _ & _ & Q & _). exact Q. }
    destruct (IH m1 tr1 S1 I1 R a H1) as [G1 F1]. split; [eapply Qcle_trans; eauto|]. constructor; [cbn [snd]; auto|]. eapply Forall_impl; [|exact F1]. intros x (A & B & C & D). split; auto. split; auto. split; auto. eapply keeps_trans; eauto.
Qed.
Lemma reading_sound_all file : forall m tr, sound m -> inside m -> reading m file tr -> forall x, In x tr -> sound (snd x) /\ inside (snd x) /\ keeps m (snd x).
Proof.
  induction file as [|s r IH]; intros m tr S I R x Ix; [apply reading_empty in R; subst; contradiction|]. apply reading_step in R as (l & m1 & tr1 & L & P & R & <-). destruct (mk_line_block _ _ L) as (bs & MB). destruct (mk_block_wf _ _ _ MB) as [F W].
  destruct (process_gcodes_inv (bgcodes (lblock l)) (bmodal (lblock l)) m S I F W) as (S1 & I1 & _ & K1). unfold process_block in P. rewrite P in S1, I1, K1. cbn [fst] in *. destruct Ix as [<-|Ix]; [cbn [snd]; auto|]. destruct (IH m1 tr1 S1 I1 R x Ix) as (A & B & C). split; auto. split; auto. eapply keeps_trans; eauto.
Qed.
Lemma reading_sound file m tr : sound m -> inside m -> reading m file tr -> sound (after m tr) /\ keeps m (after m tr).
Proof.
  intros S I R. rewrite after_last. destruct (map snd tr) as [|y l] eqn:E; [cbn; split; auto; apply keeps_refl|]. assert (IN : In (last (y :: l) m) (map snd tr)) by (rewrite E, last_cons; clear; revert y; induction l as [|z l IH]; intros y; [left; auto|rewrite last_cons; right; apply IH]).
  apply in_map_iff in IN as (x & Q & IN). rewrite <- Q. destruct (reading_sound_all file m tr S I R x IN) as (A & _ & B). auto.
Qed.
Lemma highest axes ig ls m0 file tr h : monotone ar -> idempotent ar -> new_machine axes ig ls = Ok m0 -> reading m0 file tr -> (exists p, abs2work (after m0 tr) (m_max (after m0 tr)) = Ok p /\ pos_getattr p AZ = Ok h) ->
  Forall (fun x => forall z, pos_at (snd x) AZ z -> (z <= h)%Qc) tr.
Proof.
  intros MO ID E R (p & HP & HG). destruct (new_machine_sound _ _ _ _ E) as (S0 & I0 & _). apply Forall_forall. intros x Ix z P.
  assert (Sx : sound (snd x) /\ inside (snd x) /\ keeps m0 (snd x)) by (apply (reading_sound_all file m0 tr); auto).
  destruct Sx as (Sx & Ix' & Kx). apply (pos_at_iff _ _ _ Sx) in P as [Hz ->]. assert (Ha : has (m_abs m0) AZ) by (eapply has_axes; [|exact Hz]; destruct S0 as ((_ & Z & _) & _), Sx as ((_ & Z1 & _) & _), Kx; congruence).
  destruct (max_grows file MO m0 tr S0 I0 R AZ Ha) as [_ FM]. rewrite Forall_forall in FM. specialize (FM x Ix) as (_ & _ & _ & LE). destruct (inside_val _ AZ Sx Ix' Hz) as [_ LE2].
  rewrite wpos_plain by (auto; eapply new_offsets; eauto).
  assert (EM : sound (after m0 tr) /\ keeps m0 (after m0 tr)) by (apply (reading_sound file); auto).
  destruct EM as (SE & KE). set (m := after m0 tr) in *. pose proof (new_offsets _ _ _ _ _ E KE) as OE.
  assert (V : h = rnd (pval (m_max m) AZ)).
  { rewrite <- (wpos_plain m AZ _ ID OE). destruct (offset_ok m SE) as (o & EO & Go & Ao & Vo). pose proof SE as ((_ & Aa & _) & _ & (Gx & Hx & _) & (Gt & At) & _). unfold abs2work in HP. rewrite EO in HP. cbn [bind] in HP.
    assert (HX : has (m_max m) AZ) by (apply Hx; eapply has_axes; [|exact Ha]; destruct S0 as ((_ & Z & _) & _), KE; congruence).
    assert (HO : has o AZ) by (unfold has in *; rewrite Ao; destruct S0 as ((_ & Z & _) & _), KE; congruence). assert (HT : has (st_offset (m_state m)) AZ) by (unfold has in *; congruence).
    destruct (pos_sub (m_max m) o) as [q|e] eqn:Q; cbn [bind] in HP; [|discriminate]. apply sub_spec in Q as (_ & Gq & Aq & _ & Vq); auto. apply sub_spec in HP as (_ & Gp & Ap & _ & Vp); auto.
    apply getattr_ok in HG as [_ ->]. assert (HQ : has q AZ) by (unfold has in *; congruence). destruct (Vp AZ HQ) as [Vp1 _]. rewrite Vp1 by auto. destruct (Vq AZ HX) as [Vq1 _]. rewrite Vq1 by auto. rewrite Vo. reflexivity. }
  rewrite V. apply MO. eapply Qcle_trans; eauto.
Qed.
Lemma height_exists o m : sound m -> m_axes m = xyz -> exists h, safe_height o m h.
Proof.
  intros S X. unfold safe_height. destruct (o_height o) as [x|]; [eauto|]. destruct (offset_ok m S) as (of & EO & Go & Ao & Vo). pose proof S as ((_ & Aa & _) & _ & (Gx & Hx & _) & (Gt & At) & _). unfold abs2work. rewrite EO. cbn [bind].
  assert (HX : forall a, vget (m_axes m) a = true -> has (m_max m) a) by (intros a H; apply Hx; unfold has; congruence).
  destruct (pos_sub (m_max m) of) as [q|e] eqn:Q; [|exfalso; apply sub_error in Q as (_ & a & H1 & H2); apply H2, HX; unfold has in H1; congruence]. cbn [bind]. pose proof Q as Q2. apply sub_spec in Q2 as (_ & Gq & Aq & _ & _); auto.
  destruct (pos_sub q (st_offset (m_state m))) as [p|e] eqn:P; [|exfalso; apply sub_error in P as (_ & a & H1 & H2); apply H2; unfold has; rewrite Aq; apply HX; unfold has in H1; congruence]. apply sub_spec in P as (_ & Gp & Ap & _ & _); auto.
  exists (pval p AZ), p. split; auto. apply getattr_ok. split; auto. unfold has. rewrite Ap, Aq. apply HX. rewrite X. reflexivity.
Qed.
Lemma reading_good ig ls m0 file tr : accurate ar -> idempotent ar -> new_machine xyz ig ls = Ok m0 -> in_sync m0 -> reading m0 file tr -> goodm (after m0 tr).
Proof.
  intros acc ID E Y R. destruct (new_machine_sound _ _ _ _ E) as (S & I & _ & X & _). pose proof (new_steady _ _ _ _ acc E Y) as ST. destruct (reading_steady file ID m0 tr S I ST R) as (S1 & I1 & Y1 & K). split; auto. split; auto. split; auto. split; [eapply new_offsets; eauto|]. destruct K. congruence.
Qed.
Lemma norm_final_same o m n : same_machine m n -> norm_final o m = norm_final o n.
Proof.
  intros (MS & ST & _ & _ & MX & AX_ & _). unfold norm_final.
  assert (D : match gm_get (m_mode m) MG_distance with Some g => subclass (gcls g) GCodeAbsoluteDistanceMode | None => false end = match gm_get (m_mode n) MG_distance with Some g => subclass (gcls g) GCodeAbsoluteDistanceMode | None => false end).
  { specialize (MS MG_distance). destruct (gm_get (m_mode m) MG_distance), (gm_get (m_mode n) MG_distance); try contradiction; auto. destruct MS as (-> & _). auto. }
  assert (W : abs2work m (m_max m) = abs2work n (m_max n)) by (unfold abs2work, coord_sys_offset; rewrite ST, MX, AX_; reflexivity). rewrite D, W. reflexivity.
Qed.
End WithArith.
