(** Properties C16 and C24: printing blocks and lines and reading them back. *)
From Coq Require Import Ascii String List Bool Arith ZArith QArith Qcanon Permutation.
From Verif Require Import Base Num Words GTable GCode Line BaseFacts WordsSpec LineSpec PrintSpec PrintProofs PrintProofs2 GCodeSpec GCodeProofs PropsPrint BlockSpec BlockProofs LineProofs.
Import ListNotations.

(** ** C24 Printing a block preserves its meaning *)
(** Missing from the full claim: blocks with words that do not print well (their printed text is read as another number or not at all),
    and blocks whose leftover words stand before a gcode that takes them; both are refuted below. *)
Theorem C24_reprint_partial : forall (ar : Arith) (v : bool) (s : text) (b : block), accurate ar ->
  mk_block v s = Ok b -> Forall prints_well (bwords b) -> separate b ->
  exists b', mk_block v (block_str b) = Ok b' /\ block_str b' = block_str b /\
    Forall2 gcode_prints_as (bgcodes b) (bgcodes b') /\ Forall2 prints_as (bmodal b) (bmodal b').
Proof.
  intros ar v s b acc M P S. destruct (block_reprint acc v s b M P S) as (b' & A & B & C & D). exists b'. auto.
Qed.
Print Assumptions C24_reprint_partial.
(** when the words survive printing, the meaning is exactly the same *)
Lemma prints_as_survives {ar : Arith} w w' : survives w -> prints_as w w' -> w' = w.
Proof. intros S (_ & _ & R & _). rewrite survives_reads in R by auto. congruence. Qed.
Theorem C24_exact_partial : forall (ar : Arith) (v : bool) (s : text) (b : block), accurate ar ->
  mk_block v s = Ok b -> Forall (fun w => survives w /\ forall x, wvalue w = VStr x -> Forall plain x) (bwords b) -> separate b ->
  exists b', mk_block v (block_str b) = Ok b' /\ block_str b' = block_str b /\
    Forall2 same_gcode (bgcodes b) (bgcodes b') /\ bmodal b' = bmodal b.
Proof.
  intros ar v s b acc M P S.
  assert (P2 : Forall prints_well (bwords b)) by (eapply Forall_impl; [|exact P]; intros w [A B]; split; auto).
  assert (IN : forall w, In w (bmodal b) \/ (exists g, In g (bgcodes b) /\ (w = gword g \/ In w (map snd (gparams g)))) -> In w (bwords b)).
  { rewrite mk_block_clean in M. destruct (text2words _) as [ws|]; cbn [bind] in M; [|discriminate]. destruct (words2gcodes ws) as [[gs0 r]|] eqn:W; cbn [bind] in M; [|discriminate].
    assert (E : b = Block ws gs0 r). { destruct v; [|congruence]. destruct (assert_gcodes [] [] gs0); cbn [bind] in M; congruence. } subst b. cbn [bwords bgcodes bmodal].
    apply words2gcodes_iff in W as (gs & G & U & ->). apply grouped_perm in G. intros w H. eapply Permutation_in; [symmetry; exact G|]. apply in_app_iff.
    destruct H as [H|(g & I & H)]; auto. left. apply in_map_iff in I as (gr & <- & I). apply in_flat_map. exists gr. split; auto. cbn [built gword gparams] in H.
    destruct H as [->|H]; [left; auto|]. right. rewrite map_map, map_id in H. auto. }
  destruct (block_reprint acc v s b M P2 S) as (b' & A & B & C & D). exists b'. split; auto. split; auto. rewrite Forall_forall in P. split.
  - eapply Forall2_impl_in; [|exact B]. intros g g' I (E1 & E2 & ps & PP & F). split; auto. split.
    + symmetry. apply prints_as_survives; auto. apply P. apply IN. right. exists g. auto.
    + rewrite <- PP. assert (K : ps = gparams g'); [|rewrite K; auto].
      assert (IN2 : forall kv, In kv ps -> survives (snd kv)).
      { intros kv H. apply P, IN. right. exists g. split; auto. right. apply in_map. eapply Permutation_in; eauto. }
      clear - F IN2. induction F as [|x y l l' [H1 H2] F IH]; auto. f_equal; [|apply IH; intros; apply IN2; right; auto].
      destruct x, y. cbn [fst snd] in *. subst. f_equal. symmetry. apply prints_as_survives; auto. apply (IN2 (l0, w)). left; auto.
  - assert (IN2 : forall w, In w (bmodal b) -> survives w) by (intros w H; apply P, IN; auto).
    rename C into IN3. revert IN3 IN2. clear. generalize (bmodal b) (bmodal b'). intros l l2 F. induction F as [|x y l l2 H F IH]; intros IN2; auto. f_equal.
    + apply prints_as_survives; auto. apply IN2. left; auto.
    + apply IH. intros. apply IN2. right; auto.
Qed.
Print Assumptions C24_exact_partial.
(** the parameters given before their gcode are read back as parameters of it *)
Theorem C24_refuted : exists b b', mk_block (ar := binary64) true (t "X10 G0") = Ok b /\ mk_block (ar := binary64) true (block_str (ar := binary64) b) = Ok b' /\
  map wletter (bmodal b) = [LX] /\ map (fun g => map fst (gparams g)) (bgcodes b) = [[]] /\
  bmodal b' = [] /\ map (fun g => map fst (gparams g)) (bgcodes b') = [[LX]].
Proof. do 2 eexists. split; [vm_compute; reflexivity|]. split; [vm_compute; reflexivity|]. repeat split; vm_compute; reflexivity. Qed.
Print Assumptions C24_refuted.
(** the printed block need not even be readable *)
Theorem C24_unreadable_refuted : exists b, mk_block (ar := binary64) true (t "X1 G1 X2") = Ok b /\
  mk_block (ar := binary64) true (block_str (ar := binary64) b) = Raise EGCodeParameterError.
Proof. eexists. split; [vm_compute; reflexivity|]. vm_compute. reflexivity. Qed.
Print Assumptions C24_unreadable_refuted.


Lemma read_survives {ar : Arith} w : text2words (word_str w) = Ok [w] -> (forall s, wvalue w = VStr s -> Forall plain s) -> survives w /\ forall s, wvalue w = VStr s -> Forall plain s.
Proof. intros H P. split; auto. apply (prints_as_form (S := fun _ _ => True) w w); auto. split; auto. Qed.
Ltac safe_words := cbn [bwords lblock]; repeat apply Forall_cons; try apply Forall_nil; apply read_survives; try (vm_compute; reflexivity); intros ? X; vm_compute in X; discriminate X.
Ltac safe_block := split; [intros w g Hw Hg; vm_compute in Hw, Hg; repeat (destruct Hw as [Hw|Hw]; [subst w; repeat (destruct Hg as [Hg|Hg]; [subst g; apply accepts_false; vm_compute; reflexivity|]); contradiction|]); contradiction
                   |intros _ HO; vm_compute in HO; repeat (destruct HO as [HO|HO]; [discriminate HO|]); contradiction].
Example C24_example : exists b b', mk_block (ar := binary64) true (t "g1 z3 x1.5 f100 p2") = Ok b /\
  Forall (fun w => survives (ar := binary64) w /\ forall x, wvalue w = VStr x -> Forall plain x) (bwords b) /\ separate b /\
  length (bgcodes b) = 2%nat /\ map wletter (bmodal b) = [LP] /\
  block_str (ar := binary64) b = t "G01 X1.5 Z3 F100 P2" /\ mk_block (ar := binary64) true (block_str (ar := binary64) b) = Ok b'.
Proof.
  do 2 eexists. split; [vm_compute; reflexivity|]. split; [safe_words|]. split; [safe_block|].
  split; [vm_compute; reflexivity|]. split; [vm_compute; reflexivity|]. split; vm_compute; reflexivity.
Qed.

(** ** C16 Printing a line is a normal form *)
(** Missing from the full claim: as for C24, and lines with both a macro and a non-empty ';' comment, whose comment grows (C16_grows). *)
Theorem C16_reprint_partial : forall (ar : Arith) (s : text) (l : line), accurate ar ->
  mk_line s = Ok l -> Forall prints_well (bwords (lblock l)) -> separate (lblock l) ->
  (forall x, lcomment l = Some (Comment CommentSemicolon x) -> lmacro l = None \/ x = []) ->
  exists l', mk_line (line_str l) = Ok l' /\ line_str l' = line_str l /\ lcomment l' = lcomment l /\ lmacro l' = lmacro l /\
    Forall2 gcode_prints_as (bgcodes (lblock l)) (bgcodes (lblock l')) /\ Forall2 prints_as (bmodal (lblock l)) (bmodal (lblock l')).
Proof.
  intros ar s l acc M P S H. destruct (line_reprint acc s l M P S) as (b' & _ & Eb & G & Mo & Bb & E).
  assert (C : comment_again (lcomment l) (lmacro l) = lcomment l).
  { destruct (lcomment l) as [[[] x]|]; auto. cbn [comment_again]. destruct (H x eq_refl) as [-> | ->]; auto. destruct (lmacro l); auto. }
  rewrite C in E. exists (Line b' (lcomment l) (lmacro l)). split; auto. cbn [lcomment lmacro lblock]. split; [|auto].
  unfold line_str. cbn [lcomment lmacro lblock]. rewrite Bb, Eb. reflexivity.
Qed.
Print Assumptions C16_reprint_partial.
(** a non-empty ';' comment before a macro grows by one blank each time the line is printed *)
Theorem C16_grows : forall (ar : Arith) (s : text) (l : line) (x m : text), accurate ar ->
  mk_line s = Ok l -> Forall prints_well (bwords (lblock l)) -> separate (lblock l) ->
  lcomment l = Some (Comment CommentSemicolon x) -> x <> [] -> lmacro l = Some m ->
  exists l', mk_line (line_str l) = Ok l' /\ lcomment l' = Some (Comment CommentSemicolon (x ++ [space])) /\ lmacro l' = Some m /\
    length (line_str l') = S (length (line_str l)).
Proof.
  intros ar s l x m acc M P S C N Mc. destruct (line_reprint acc s l M P S) as (b' & _ & Eb & G & Mo & Bb & E).
  rewrite C, Mc in E. exists (Line b' (Some (Comment CommentSemicolon (x ++ [space]))) (Some m)). split; [rewrite E; destruct x; [congruence|reflexivity]|].
  split; auto. split; auto. destruct l as [b c0 m0]. cbn [lcomment lmacro lblock] in *. subst. rewrite !line_str_pre. unfold pre. rewrite Bb, Eb.
  destruct m as [|]; unfold comment_str; cbn [cclass ctext]; rewrite ?app_length; cbn [length]; rewrite ?app_length; cbn [length]; auto with arith; rewrite <- !plus_n_Sm; rewrite ?Nat.add_0_r; auto;
    repeat rewrite <- ?plus_n_Sm; repeat rewrite plus_Sn_m; auto.
Qed.
Print Assumptions C16_grows.
Theorem C16_refuted : exists l l', mk_line (ar := binary64) (t "Y1 X10 G0") = Ok l /\ mk_line (ar := binary64) (line_str (ar := binary64) l) = Ok l' /\
  line_str (ar := binary64) l = t "G00 Y1 X10" /\ line_str (ar := binary64) l' = t "G00 X10 Y1".
Proof. do 2 eexists. split; [vm_compute; reflexivity|]. split; [vm_compute; reflexivity|]. split; vm_compute; reflexivity. Qed.
Print Assumptions C16_refuted.
Example C16_example : exists l, mk_line (ar := binary64) (t "g1 z3 x1.5 (a) f100 (b) %m%") = Ok l /\
  Forall (prints_well (ar := binary64)) (bwords (lblock l)) /\ separate (lblock l) /\
  line_str (ar := binary64) l = t "G01 X1.5 Z3 F100 (a. b) %m%" /\
  (forall x, lcomment l = Some (Comment CommentSemicolon x) -> lmacro l = None \/ x = []).
Proof.
  eexists. split; [vm_compute; reflexivity|]. split.
  { assert (K : forall ws, Forall (fun w => survives (ar := binary64) w /\ forall x, wvalue w = VStr x -> Forall plain x) ws -> Forall (prints_well (ar := binary64)) ws).
    { intros ws H. eapply Forall_impl; [|exact H]. intros w [A B]. split; auto. }
    apply K. safe_words. }
  split; [safe_block|]. split; [vm_compute; reflexivity|]. intros x H. discriminate H.
Qed.
Example C16_grows_example : exists l, mk_line (ar := binary64) (t "G1 X1 ;foo %x%") = Ok l /\
  Forall (prints_well (ar := binary64)) (bwords (lblock l)) /\ separate (lblock l) /\ lcomment l = Some (Comment CommentSemicolon (t "foo ")) /\ lmacro l = Some (t "%x%").
Proof.
  eexists. split; [vm_compute; reflexivity|]. split.
  { assert (K : forall ws, Forall (fun w => survives (ar := binary64) w /\ forall x, wvalue w = VStr x -> Forall plain x) ws -> Forall (prints_well (ar := binary64)) ws).
    { intros ws H. eapply Forall_impl; [|exact H]. intros w [A B]. split; auto. }
    apply K. safe_words. }
  split; [safe_block|]. split; vm_compute; reflexivity.
Qed.
