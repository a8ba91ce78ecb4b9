(** Reading a printed line back: comments and macros around a printed block. *)
From Coq Require Import Ascii String List Bool Arith ZArith Permutation Lia.
From Verif Require Import Base Num Words GTable GCode Line BaseFacts WordsSpec WordsProofs WordsProofs2 LineSpec CommentProofs CleanProofs CleanProofs2 PrintSpec PrintProofs2
  GCodeSpec GCodeProofs PropsWords PropsLine BlockSpec BlockProofs.
Import ListNotations.
Local Open Scope nat_scope.

Lemma fields_blanks s l ws : fields s l -> Forall blank ws -> fields (s ++ ws) l.
Proof.
  intros F B. induction F as [b H|b w r l Hb N V R F IH].
  - constructor. apply Forall_app. auto.
  - rewrite <- !app_assoc. apply f_word; auto. destruct R as [ ->|(c & r' & -> & C)].
    + destruct ws as [|c ws]; auto. right. inversion B; subst. exists c, ws. auto.
    + right. exists c, (r' ++ ws). auto.
Qed.
Lemma clean_blanks s ws : Forall blank ws -> clean_text (s ++ ws) = clean_text s.
Proof.
  intros B. destruct (C05_clean_up_total s) as (l & F & E). rewrite E. apply clean_text_fields. apply fields_blanks; auto.
Qed.

Section WithArith.
Context {ar : Arith}.
Lemma mk_block_clean v s : mk_block v s =
  (do ws <- text2words (clean_text s); do (gs, unused) <- words2gcodes ws;
   if v then do _ <- assert_gcodes [] [] gs; Ok (Block ws gs unused) else Ok (Block ws gs unused)).
Proof. destruct s as [|c s]; auto. destruct v; reflexivity. Qed.
Lemma mk_block_blanks v s ws : Forall blank ws -> mk_block v (s ++ ws) = mk_block v s.
Proof. intros B. rewrite !mk_block_clean, clean_blanks by auto. reflexivity. Qed.
Lemma mk_block_nowords v s b : mk_block v s = Ok b -> block_bool b = false -> b = empty_block.
Proof.
  rewrite mk_block_clean. destruct (text2words (clean_text s)) as [ws|]; cbn [bind]; [|discriminate].
  destruct (words2gcodes ws) as [[gs r]|] eqn:W; cbn [bind]; [|discriminate].
  intros H B. assert (E : b = Block ws gs r). { destruct v; [|congruence]. destruct (assert_gcodes [] [] gs); cbn [bind] in H; congruence. }
  subst b. unfold block_bool in B. cbn [bwords] in B. destruct ws; [|discriminate]. cbn in W. injection W as <- <-. reflexivity.
Qed.

(** the characters of a printed block *)
Definition calm (c : ascii) : Prop := plain c \/ c = space.
Lemma join_calm l : Forall (Forall calm) l -> Forall calm (join [space] l).
Proof.
  induction 1 as [|x l H F IH]; [constructor|]. destruct l as [|y l]; [exact H|]. rewrite join_app1 by discriminate. apply Forall_app. split; auto.
  constructor; auto. right. auto.
Qed.
Lemma join_ends l : Forall (fun w => w <> [] /\ Forall (fun c => ~ blank c) w) l -> ends_visible (join [space] l).
Proof.
  induction 1 as [|x l [N V] F IH]; [left; auto|]. destruct l as [|y l].
  - right. cbn [join]. destruct (exists_last N) as (p & c & ->). exists p, c. split; auto. apply Forall_app in V as [_ V]. inversion V; auto.
  - rewrite join_app1 by discriminate. right. destruct IH as [E|(p & c & E & C)].
    + exfalso. inversion F as [|? ? [Ny _] _]; subst. destruct y as [|a y]; [congruence|]. destruct l; discriminate E.
    + exists (x ++ [space] ++ p), c. rewrite E, <- !app_assoc. auto.
Qed.
Lemma calm_not c s x : Forall calm s -> In x (newline :: t "();%") -> c = x -> ~ In c s.
Proof.
  intros F I -> H. rewrite Forall_forall in F. destruct (F x H) as [[B P]| ->].
  - destruct I as [<-|I]; auto. apply B. reflexivity.
  - vm_compute in I. repeat (destruct I as [I|I]; [discriminate I|]). auto.
Qed.
Lemma block_str_calm (D : word -> Prop) v s b : (forall w, D w -> forall s, wvalue w = VStr s -> Forall plain s) -> mk_block v s = Ok b -> Forall D (bwords b) -> Forall calm (block_str b) /\ ends_visible (block_str b).
Proof.
  intros DP.  rewrite mk_block_clean. destruct (text2words (clean_text s)) as [ws|]; cbn [bind]; [|discriminate].
  destruct (words2gcodes ws) as [[gs0 r]|] eqn:W; cbn [bind]; [|discriminate].
  intros H. assert (E : b = Block ws gs0 r). { destruct v; [|congruence]. destruct (assert_gcodes [] [] gs0); cbn [bind] in H; congruence. }
  subst b. cbn [bwords]. intros P. apply words2gcodes_iff in W as (gs & G & U & ->). rewrite block_str_words.
  assert (P2 : Forall D (printed_words gs r)) by (apply (Permutation_Forall' _ ws); [symmetry; apply printed_perm; auto|auto]).
  assert (X : Forall (fun x => x <> [] /\ Forall plain x) (map word_str (printed_words gs r))).
  { apply Forall_map. eapply Forall_impl; [|exact P2]. intros w Pw. split; [discriminate|]. apply word_str_plain. apply DP; auto. }
  split.
  - apply join_calm. eapply Forall_impl; [|exact X]. intros a [_ A]. eapply Forall_impl; [|exact A]. intros c C. left. auto.
  - apply join_ends. eapply Forall_impl; [|exact X]. intros a [N A]. split; auto. eapply Forall_impl; [|exact A]. intros c [C _]. auto.
Qed.

(** the shape of the comment of a read line *)
Lemma comment_shape bc c : ~ In newline bc -> snd (split_line bc) = Some c ->
  (cclass c = CommentSemicolon /\ starts_visible (ctext c) /\ (exists p, bc = p ++ ctext c)) \/
  (cclass c = CommentBrackets /\ ~ In ")"%char (ctext c) /\ ~ In ";"%char (ctext c) /\ incl (ctext c) (bc ++ t ". ")).
Proof.
  intros Hn H. rewrite <- (app_nil_r bc) in H. destruct (in_dec ascii_dec ";"%char bc) as [I|I].
  - left. destruct (C12_semicolon_total bc [] Hn (Forall_nil _) I) as (b & x & P & E). rewrite E in H. injection H as <-. cbn [cclass ctext].
    destruct P as (ws & ws' & Eb & _ & _ & _ & S & _). split; auto. split; auto. exists (b ++ ws ++ ";"%char :: ws'). rewrite Eb, <- !app_assoc. reflexivity.
  - right. destruct (C13_brackets_total bc) as (out & ins & P). rewrite (C13_brackets bc [] out ins Hn (Forall_nil _) I P) in H.
    assert (J : Forall (fun i => ~ In ")"%char i /\ incl i bc) ins).
    { clear H I Hn. induction P as [|a x r out ins A X P IH]; constructor.
      - split; auto. intros y Y. apply in_app_iff. right. right. apply in_app_iff. auto.
      - eapply Forall_impl; [|exact IH]. intros i [I1 I2]. split; auto. intros y Y. apply in_app_iff. right. right. apply in_app_iff. right. right. auto. }
    destruct ins as [|i ins]; [discriminate|]. cbn [snd] in H. remember (i :: ins) as l.
    assert (Ec : c = Comment CommentBrackets (join (t ". ") l)) by congruence. subst c. cbn [cclass ctext]. split; auto. clear -J I.
    assert (K : ~ In ")"%char (join (t ". ") l) /\ incl (join (t ". ") l) (bc ++ t ". ")).
    { induction J as [|x l [A B] F [IH1 IH2]]; [split; [simpl; auto|intros y []]|]. destruct l as [|y l].
      - cbn [join]. split; auto. intros y Y. apply in_app_iff. auto.
      - rewrite join_app1 by discriminate. rewrite !in_app_iff. split.
        + intros [H|[H|H]]; auto. vm_compute in H. intuition discriminate.
        + intros z Z. rewrite !in_app_iff in Z. apply in_app_iff. destruct Z as [Z|[Z|Z]]; auto. apply IH2 in Z. apply in_app_iff in Z. auto. }
    destruct K as [K1 K2]. split; auto. split; auto. intros H. apply K2 in H. apply in_app_iff in H as [H|H]; auto. vm_compute in H. intuition discriminate.
Qed.

Definition pre (b : block) (bs : text) : text := if block_bool b then bs ++ [space] else [].
Lemma line_str_pre b c m : line_str (Line b c m) =
  match c, m with
  | None, None => if block_bool b then block_str b else []
  | None, Some [] => if block_bool b then block_str b else []
  | Some c, None => pre b (block_str b) ++ comment_str c
  | Some c, Some [] => pre b (block_str b) ++ comment_str c
  | None, Some m => pre b (block_str b) ++ m
  | Some c, Some m => pre b (block_str b) ++ comment_str c ++ [space] ++ m
  end.
Proof.
  unfold line_str, pre. cbn [lblock lcomment lmacro]. destruct (block_bool b), c as [c|], m as [[|x m]|]; cbn [app join]; rewrite <- ?app_assoc; reflexivity.
Qed.

(** the comment of the line read back: a semicolon comment before a macro grows by one blank *)
Definition comment_again (c : option comment) (m : option text) : option comment :=
  match c, m with
  | Some (Comment CommentSemicolon x), Some _ => Some (Comment CommentSemicolon (if match x with [] => true | _ => false end then [] else x ++ [space]))
  | _, _ => c
  end.
Lemma starts_nonblank_app x y : starts_visible x -> x <> [] -> starts_visible (x ++ y).
Proof. intros [ ->|(c & r & -> & C)] N; [congruence|]. right. exists c, (r ++ y). auto. Qed.

Section Accurate.
Hypothesis acc : accurate ar.
Section Reread.
Context (S : word -> word -> Prop) (D : word -> Prop).
Hypothesis DR : forall s ws w, text2words s = Ok ws -> In w ws -> D w -> exists w', read_as S w w'.
Hypothesis DP : forall w, D w -> forall s, wvalue w = VStr s -> Forall plain s.
Theorem line_reread_any s bc m bs b c : line_split s bc m -> mk_block true bs = Ok b -> snd (split_line bc) = c -> Forall D (bwords b) -> separate b ->
  exists b', mk_block true (block_str b) = Ok b' /\ ((forall w w', S w w' -> word_str w' = word_str w) -> block_str b' = block_str b) /\
    Forall2 (gcode_read_as S) (bgcodes b) (bgcodes b') /\ Forall2 (read_as S) (bmodal b) (bmodal b') /\
    block_bool b' = block_bool b /\
    mk_line (line_str (Line b c m)) = Ok (Line b' (comment_again c m) m).
Proof.
  intros LS MB CM PW SE.
  destruct (block_reread acc S D DR DP _ _ _ MB PW SE) as (b' & MB' & G & Mo & St). exists b'. split; auto. split; auto. split; auto. split; auto.
  assert (BB : block_bool b' = block_bool b).
  { destruct (block_bool b) eqn:B1, (block_bool b') eqn:B2; auto; exfalso.
    - apply (mk_block_nowords _ _ _ MB') in B2. subst b'. inversion G; inversion Mo; subst.
      assert (E : b = empty_block); [|subst; discriminate]. rewrite mk_block_clean in MB. destruct (text2words _) as [ws|]; cbn [bind] in MB; [|discriminate].
      destruct (words2gcodes ws) as [[gs0 r]|] eqn:W; cbn [bind] in MB; [|discriminate].
      assert (E : b = Block ws gs0 r). { destruct (assert_gcodes [] [] gs0); cbn [bind] in MB; congruence. } subst b. cbn [bgcodes bmodal] in *. subst.
      apply words2gcodes_iff in W as (gs & Gr & U & E). destruct gs; [|discriminate]. apply grouped_perm in Gr. cbn in Gr. symmetry in Gr. apply Permutation_nil in Gr. subst. reflexivity.
    - apply (mk_block_nowords _ _ _ MB) in B1. subst b. cbn in MB'. injection MB' as <-. discriminate. }
  split; auto.
  destruct (block_str_calm D _ _ _ DP MB PW) as [CA EV].
  assert (Nbc : ~ In newline bc /\ ~ In "%"%char bc). { inversion LS; subst; auto. }
  assert (Bn : ~ In newline (block_str b)) by (eapply calm_not; eauto; left; auto).
  assert (Bp : ~ In "%"%char (block_str b)) by (eapply calm_not; eauto; vm_compute; tauto).
  assert (Bs : ~ In ";"%char (block_str b)) by (eapply calm_not; eauto; vm_compute; tauto).
  assert (Bo : ~ In "("%char (block_str b)) by (eapply calm_not; eauto; vm_compute; tauto).
  assert (SPACE : forall x, In x (newline :: t "();%") -> x <> space). { intros x H ->. vm_compute in H. intuition discriminate. }
  assert (Pre : forall x, In x (newline :: t "();%") -> ~ In x (pre b (block_str b))).
  { intros x I H. unfold pre in H. destruct (block_bool b); [|contradiction]. apply in_app_iff in H as [H|[H|[]]].
    - revert H. eapply calm_not; eauto.
    - apply (SPACE x); auto. }
  assert (Preb : mk_block true (pre b (block_str b)) = Ok b' /\ exists ws, Forall blank ws /\ pre b (block_str b) = (if block_bool b then block_str b else []) ++ ws).
  { assert (SP : Forall blank [space]) by (constructor; [reflexivity|constructor]).
    unfold pre. destruct (block_bool b) eqn:B. rewrite mk_block_blanks by auto. split; auto. exists [space]. auto.
    apply (mk_block_nowords _ _ _ MB) in B. subst b. split; [exact MB'|]. exists []. auto. }
  destruct Preb as [Preb (pw & PWb & Prew)].
  assert (Bt : mk_block true (if block_bool b then block_str b else []) = Ok b').
  { destruct (block_bool b) eqn:B; auto. apply (mk_block_nowords _ _ _ MB) in B. subst b. exact MB'. }
  assert (EV2 : ends_visible (if block_bool b then block_str b else [])) by (destruct (block_bool b); auto; left; auto).
  assert (NOP : forall p, (forall x, In x (newline :: t "();%") -> ~ In x p) -> split_line p = (p, None)).
  { intros p H. rewrite <- (app_nil_r p) at 1. apply C12_no_comment; auto; try (apply H; vm_compute; tauto). intros a z E _. apply (H "("%char); [vm_compute; tauto|]. rewrite E. apply in_app_iff. right. left. auto. }
  assert (LINE : forall s2 bc2 c2 bt, line_split s2 bc2 m -> split_line bc2 = (bt, c2) -> mk_block true bt = Ok b' -> mk_line s2 = Ok (Line b' c2 m)).
  { intros s2 bc2 c2 bt L SL B. unfold mk_line. apply line_parts_iff in L. rewrite L. cbn [bind]. rewrite SL, B. reflexivity. }
  rewrite line_str_pre.
  assert (MM : match m with Some x => exists y, x = "%"%char :: y /\ ~ In newline y | None => ends_visible bc end) by (inversion LS; subst; eauto).
  assert (Nl0 : forall x : ascii, In x (t "() ;") -> x <> newline /\ x <> "%"%char). { intros x H. vm_compute in H. intuition (subst; discriminate). }
  destruct c as [c|].
  - destruct (comment_shape bc c (proj1 Nbc) CM) as [(K & SV & (p & Ep))|(K & C1 & C2 & C3)]; destruct c as [k x]; cbn [cclass ctext] in *; subst k; unfold comment_str; cbn [cclass ctext].
    + (* semicolon *)
      assert (Cn : ~ In newline x) by (intros H; apply (proj1 Nbc); rewrite Ep; apply in_app_iff; auto).
      assert (Cp : ~ In "%"%char x) by (intros H; apply (proj2 Nbc); rewrite Ep; apply in_app_iff; auto).
      destruct m as [m|].
      * destruct MM as (y & -> & Ny). cbn [comment_again].
        apply (LINE _ (pre b (block_str b) ++ t "; " ++ x ++ [space]) _ (if block_bool b then block_str b else [])); auto.
        -- replace (pre b (block_str b) ++ (t "; " ++ x) ++ [space] ++ "%"%char :: y) with ((pre b (block_str b) ++ t "; " ++ x ++ [space]) ++ "%"%char :: y ++ []) by (rewrite app_nil_r, <- !app_assoc; reflexivity).
           apply ls_macro; auto.
           ++ rewrite !in_app_iff. intros [H|[H|[H|H]]]; auto. apply (Pre newline); [left; reflexivity|exact H]. vm_compute in H; intuition discriminate. vm_compute in H; intuition discriminate.
           ++ rewrite !in_app_iff. intros [H|[H|[H|H]]]; auto. apply (Pre "%"%char); [vm_compute; tauto|exact H]. vm_compute in H; intuition discriminate. vm_compute in H; intuition discriminate.
        -- rewrite <- (app_nil_r (_ ++ _ ++ _ ++ _)). apply C12_semicolon; auto.
           ++ rewrite !in_app_iff. intros [H|[H|[H|H]]]; auto. apply (Pre newline); [left; reflexivity|exact H]. vm_compute in H; intuition discriminate. vm_compute in H; intuition discriminate.
           ++ destruct x as [|x0 x].
              ** exists pw, [space; space]. rewrite Prew. split; [rewrite <- !app_assoc; reflexivity|]. split; auto. split; [constructor; [reflexivity|]; constructor; [reflexivity|constructor]|].
                 split; auto. split; [left; auto|]. destruct (block_bool b); auto.
              ** exists pw, [space]. rewrite Prew. split; [rewrite <- !app_assoc; reflexivity|]. split; auto. split; [constructor; [reflexivity|constructor]|].
                 split; auto. split; [apply starts_nonblank_app; auto; discriminate|]. destruct (block_bool b); auto.
      * cbn [comment_again].
        assert (X : exists z ws, pre b (block_str b) ++ t "; " ++ x = (pre b (block_str b) ++ z) ++ ws /\ Forall blank ws /\ (z = [";"%char] /\ x = [] \/ z = t "; " ++ x) /\ ends_visible (pre b (block_str b) ++ z)).
        { destruct x as [|x0 x].
          - exists [";"%char], [space]. split; [rewrite <- app_assoc; reflexivity|]. split; [constructor; [reflexivity|constructor]|]. split; auto.
            right. exists (pre b (block_str b)), ";"%char. split; auto. intros H. vm_compute in H. discriminate.
          - exists (t "; " ++ x0 :: x), []. rewrite app_nil_r. split; auto. split; auto. split; auto. right. destruct (exists_last (l := x0 :: x) ltac:(discriminate)) as (q & e & E). rewrite E.
            exists (pre b (block_str b) ++ t "; " ++ q), e. split; [rewrite <- !app_assoc; auto|]. destruct MM as [MM|(q2 & e2 & E2 & V)].
            + subst bc. destruct p; discriminate.
            + rewrite Ep, E, app_assoc in E2. apply app_inj_tail in E2 as [_ <-]. auto. }
        destruct X as (z & ws & -> & Bw & Z & Ev).
        assert (Zn : ~ In newline z /\ ~ In "%"%char z).
        { destruct Z as [[-> _]| ->]; [split; vm_compute; intuition discriminate|]. rewrite !in_app_iff. split; (intros [H|H]; auto; vm_compute in H; intuition discriminate). }
        destruct Zn as [Zn1 Zn2]. apply (LINE _ (pre b (block_str b) ++ z) _ (if block_bool b then block_str b else [])); auto.
        -- apply ls_plain; auto; rewrite in_app_iff; (intros [H|H]; [|contradiction]). apply (Pre newline); [left; reflexivity|exact H]. apply (Pre "%"%char); [vm_compute; tauto|exact H].
        -- rewrite <- (app_nil_r (_ ++ z)). apply C12_semicolon; auto.
           ++ rewrite in_app_iff. intros [H|H]; [|contradiction]. apply (Pre newline); [left; reflexivity|exact H].
           ++ exists pw. rewrite Prew. destruct Z as [[-> ->]| ->].
              ** exists []. split; [rewrite <- !app_assoc; reflexivity|]. split; auto. split; auto. split; auto. split; auto. destruct (block_bool b); auto.
              ** exists [space]. split; [rewrite <- !app_assoc; reflexivity|]. split; auto. split; [constructor; [reflexivity|constructor]|]. split; auto. split; auto. destruct (block_bool b); auto.
    + (* brackets *)
      assert (Cn : ~ In newline x /\ ~ In "%"%char x).
      { split; intros H; apply C3 in H; apply in_app_iff in H as [H|H]; try (apply Nbc; exact H); vm_compute in H; intuition discriminate. }
      set (bp := pre b (block_str b)) in *.
      assert (Q : forall ws, Forall blank ws -> ~ In newline ws -> ~ In ";"%char ws -> ~ In ")"%char ws -> ~ In "("%char ws -> split_line (bp ++ ("("%char :: x ++ [")"%char]) ++ ws) = (bp ++ ws, Some (Comment CommentBrackets x))).
      { intros ws Bw W1 W2 W3 W4. rewrite <- (app_nil_r (bp ++ _)). rewrite (C13_brackets _ [] (bp ++ ws) [x]); auto.
        - rewrite in_app_iff. cbn [app In]. rewrite !in_app_iff. intros [H|[H|[[H|[H|[]]]|H]]]; try discriminate H; auto. apply (Pre newline); [left; reflexivity|exact H]. apply (proj1 Cn); auto.
        - rewrite in_app_iff. cbn [app In]. rewrite !in_app_iff. intros [H|[H|[[H|[H|[]]]|H]]]; try discriminate H; auto. apply (Pre ";"%char); [vm_compute; tauto|exact H].
        - cbn [app]. rewrite <- app_assoc. cbn [app]. apply bp_comment; auto. apply Pre; vm_compute; tauto. apply bp_end. intros a z E. exfalso. apply W4. rewrite E. apply in_app_iff. right. left; auto. }
      destruct m as [m|].
      * destruct MM as (y & -> & Ny). cbn [comment_again].
        apply (LINE _ (bp ++ ("("%char :: x ++ [")"%char]) ++ [space]) _ (bp ++ [space])); auto.
        -- replace (bp ++ ("("%char :: x ++ [")"%char]) ++ [space] ++ "%"%char :: y) with ((bp ++ ("("%char :: x ++ [")"%char]) ++ [space]) ++ "%"%char :: y ++ []) by (rewrite app_nil_r, <- !app_assoc; reflexivity).
           destruct Cn as [Cn1 Cn2]. apply ls_macro; auto; rewrite in_app_iff; cbn [app In]; rewrite !in_app_iff; cbn [In]; (intros [H|[H|[[H|[H|[]]]|[H|[]]]]]; try discriminate H; try contradiction).
           ++ apply (Pre newline); [left; reflexivity|exact H].
           ++ apply (Pre "%"%char); [vm_compute; tauto|exact H].
        -- apply Q; [constructor; [reflexivity|constructor]|..]; vm_compute; intuition discriminate.
        -- rewrite mk_block_blanks; auto. constructor; [reflexivity|constructor].
      * cbn [comment_again]. apply (LINE _ (bp ++ ("("%char :: x ++ [")"%char])) _ bp); auto.
        -- rewrite <- (app_nil_r (bp ++ _)) at 1. apply ls_plain; auto.
           ++ rewrite in_app_iff; cbn [app In]; rewrite !in_app_iff; cbn [In]; (intros [H|[H|[H|[H|[]]]]]; try discriminate H). apply (Pre newline); [left; reflexivity|exact H]. apply (proj1 Cn); auto.
           ++ rewrite in_app_iff; cbn [app In]; rewrite !in_app_iff; cbn [In]; (intros [H|[H|[H|[H|[]]]]]; try discriminate H). apply (Pre "%"%char); [vm_compute; tauto|exact H]. apply (proj2 Cn); auto.
           ++ right. exists (bp ++ "("%char :: x), ")"%char. rewrite <- app_assoc. split; auto. intros H. vm_compute in H. discriminate.
        -- specialize (Q [] (Forall_nil _)). rewrite !app_nil_r in Q. apply Q; intros [].
  - cbn [comment_again]. destruct m as [m|].
    + destruct MM as (y & -> & Ny). apply (LINE _ (pre b (block_str b)) _ (pre b (block_str b))); auto.
      rewrite <- (app_nil_r y) at 1. apply ls_macro; auto; apply Pre; vm_compute; tauto.
    + apply (LINE _ (if block_bool b then block_str b else []) _ (if block_bool b then block_str b else [])); auto.
      * set (bt := if block_bool b then block_str b else []) in *. rewrite <- (app_nil_r bt) at 1. apply ls_plain; auto; unfold bt; destruct (block_bool b); auto.
      * apply NOP. intros z I. destruct (block_bool b); [|apply in_nil]. eapply calm_not; eauto.
Qed.
Theorem line_reread s l : mk_line s = Ok l -> Forall D (bwords (lblock l)) -> separate (lblock l) ->
  exists b', mk_block true (block_str (lblock l)) = Ok b' /\
    Forall2 (gcode_read_as S) (bgcodes (lblock l)) (bgcodes b') /\ Forall2 (read_as S) (bmodal (lblock l)) (bmodal b') /\
    block_bool b' = block_bool (lblock l) /\
    mk_line (line_str l) = Ok (Line b' (comment_again (lcomment l) (lmacro l)) (lmacro l)).
Proof.
  intros M PW SE. destruct (C15_split ar s l M) as (bc & LS & MB & CM). destruct l as [b c m]. cbn [lblock lcomment lmacro] in *.
  destruct (line_reread_any s bc m _ b c LS MB CM PW SE) as (b' & H1 & _ & H2 & H3 & H4 & H5). exists b'. auto.
Qed.
End Reread.
Theorem line_reprint_any s bc m bs b c : line_split s bc m -> mk_block true bs = Ok b -> snd (split_line bc) = c -> Forall prints_well (bwords b) -> separate b ->
  exists b', mk_block true (block_str b) = Ok b' /\ block_str b' = block_str b /\
    Forall2 gcode_prints_as (bgcodes b) (bgcodes b') /\ Forall2 prints_as (bmodal b) (bmodal b') /\
    block_bool b' = block_bool b /\
    mk_line (line_str (Line b c m)) = Ok (Line b' (comment_again c m) m).
Proof.
  intros LS MB CM PW SE. destruct (line_reread_any (fun w w' => word_str w' = word_str w) prints_well (word_prints acc) (fun w H => proj2 H) s bc m bs b c LS MB CM PW SE) as (b' & H1 & H2 & H3 & H4 & H5 & H6).
  exists b'. split; [exact H1|]. split; [apply H2; auto|]. split; [exact H3|]. split; [exact H4|]. split; [exact H5|exact H6].
Qed.
Theorem line_reprint s l : mk_line s = Ok l -> Forall prints_well (bwords (lblock l)) -> separate (lblock l) ->
  exists b', mk_block true (block_str (lblock l)) = Ok b' /\ block_str b' = block_str (lblock l) /\
    Forall2 gcode_prints_as (bgcodes (lblock l)) (bgcodes b') /\ Forall2 prints_as (bmodal (lblock l)) (bmodal b') /\
    block_bool b' = block_bool (lblock l) /\
    mk_line (line_str l) = Ok (Line b' (comment_again (lcomment l) (lmacro l)) (lmacro l)).
Proof.
  intros M PW SE. destruct (C15_split ar s l M) as (bc & LS & MB & CM). destruct l as [b c m]. cbn [lblock lcomment lmacro] in *. exact (line_reprint_any s bc m _ b c LS MB CM PW SE).
Qed.
End Accurate.
End WithArith.
