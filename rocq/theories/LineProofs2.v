(** Reading back a line made of a block's text, a comment and a macro. *)
From Coq Require Import Ascii String List Bool Arith ZArith Permutation Lia.
From Verif Require Import Base Num Words GTable GCode Line BaseFacts WordsSpec WordsProofs WordsProofs2 LineSpec CommentProofs CleanProofs CleanProofs2 PrintSpec PrintProofs2
  GCodeSpec GCodeProofs PropsWords PropsLine BlockSpec BlockProofs LineProofs.
Import ListNotations.
Local Open Scope nat_scope.

Definition filled (x : text) : bool := match x with [] => false | _ => true end.
Definition front (x : text) : text := if filled x then x ++ [space] else [].
(** the parts of a line, as Line.__str__ and write of pygcode-norm put them together *)
Definition line_text (x : text) (c : option comment) (m : option text) : text :=
  join [space] ((match x with [] => [] | _ => [x] end) ++ (match c with Some c => [comment_str c] | None => [] end) ++ (match m with Some ((_ :: _) as m) => [m] | _ => [] end)).
Lemma line_text_front x c m : line_text x c m =
  match c, m with
  | None, None => x
  | None, Some [] => x
  | Some c, None => front x ++ comment_str c
  | Some c, Some [] => front x ++ comment_str c
  | None, Some m => front x ++ m
  | Some c, Some m => front x ++ comment_str c ++ [space] ++ m
  end.
Proof.
  unfold line_text, front, filled. destruct x, c as [c|], m as [[|y m]|]; cbn [app join]; rewrite <- ?app_assoc; reflexivity.
Qed.

Section WithArith.
Context {ar : Arith}.
Lemma line_around s bc m c bx b' : line_split s bc m -> c = snd (split_line bc) \/ c = None -> Forall calm bx -> ends_visible bx -> mk_block true bx = Ok b' ->
  mk_line (line_text bx c m) = Ok (Line b' (comment_again c m) m).
Proof.
  intros LS CM0 CA EV MB'.
  assert (Nbc : ~ In newline bc /\ ~ In "%"%char bc). { inversion LS; subst; auto. }
  assert (Bn : ~ In newline bx) by (eapply calm_not; eauto; left; auto).
  assert (Bp : ~ In "%"%char bx) by (eapply calm_not; eauto; vm_compute; tauto).
  assert (Bs : ~ In ";"%char bx) by (eapply calm_not; eauto; vm_compute; tauto).
  assert (Bo : ~ In "("%char bx) by (eapply calm_not; eauto; vm_compute; tauto).
  assert (SPACE : forall x, In x (newline :: t "();%") -> x <> space). { intros x H ->. vm_compute in H. intuition discriminate. }
  assert (Pre : forall x, In x (newline :: t "();%") -> ~ In x (front bx)).
  { intros x I H. unfold front in H. destruct (filled bx); [|contradiction]. apply in_app_iff in H as [H|[H|[]]].
    - revert H. eapply calm_not; eauto.
    - apply (SPACE x); auto. }
  assert (Preb : mk_block true (front bx) = Ok b' /\ exists ws, Forall blank ws /\ front bx = bx ++ ws).
  { assert (SP : Forall blank [space]) by (constructor; [reflexivity|constructor]).
    unfold front, filled. destruct bx as [|b0 bx1] eqn:B; [split; auto; exists []; auto|]. rewrite mk_block_blanks by auto. split; auto. exists [space]. auto. }
  destruct Preb as [Preb (pw & PWb & Prew)].
  assert (NOP : forall p, (forall x, In x (newline :: t "();%") -> ~ In x p) -> split_line p = (p, None)).
  { intros p H. rewrite <- (app_nil_r p) at 1. apply C12_no_comment; auto; try (apply H; vm_compute; tauto). intros a z E _. apply (H "("%char); [vm_compute; tauto|]. rewrite E. apply in_app_iff. right. left. auto. }
  assert (LINE : forall s2 bc2 c2 bt, line_split s2 bc2 m -> split_line bc2 = (bt, c2) -> mk_block true bt = Ok b' -> mk_line s2 = Ok (Line b' c2 m)).
  { intros s2 bc2 c2 bt L S B. unfold mk_line. apply line_parts_iff in L. rewrite L. cbn [bind]. rewrite S, B. reflexivity. }
  rewrite line_text_front.
  assert (MM : match m with Some x => exists y, x = "%"%char :: y /\ ~ In newline y | None => ends_visible bc end) by (inversion LS; subst; eauto).
  assert (Nl0 : forall x : ascii, In x (t "() ;") -> x <> newline /\ x <> "%"%char). { intros x H. vm_compute in H. intuition (subst; discriminate). }
  destruct c as [c|].
  - assert (CM : snd (split_line bc) = Some c) by (destruct CM0; congruence). destruct (comment_shape bc c (proj1 Nbc) CM) as [(K & SV & (p & Ep))|(K & C1 & C2 & C3)]; destruct c as [k x]; cbn [cclass ctext] in *; subst k; unfold comment_str; cbn [cclass ctext].
    + (* semicolon *)
      assert (Cn : ~ In newline x) by (intros H; apply (proj1 Nbc); rewrite Ep; apply in_app_iff; auto).
      assert (Cp : ~ In "%"%char x) by (intros H; apply (proj2 Nbc); rewrite Ep; apply in_app_iff; auto).
      destruct m as [m|].
      * destruct MM as (y & -> & Ny). cbn [comment_again].
        apply (LINE _ (front bx ++ t "; " ++ x ++ [space]) _ bx); auto.
        -- replace (front bx ++ (t "; " ++ x) ++ [space] ++ "%"%char :: y) with ((front bx ++ t "; " ++ x ++ [space]) ++ "%"%char :: y ++ []) by (rewrite app_nil_r, <- !app_assoc; reflexivity).
           apply ls_macro; auto.
           ++ rewrite !in_app_iff. intros [H|[H|[H|H]]]; auto. apply (Pre newline); [left; reflexivity|exact H]. vm_compute in H; intuition discriminate. vm_compute in H; intuition discriminate.
           ++ rewrite !in_app_iff. intros [H|[H|[H|H]]]; auto. apply (Pre "%"%char); [vm_compute; tauto|exact H]. vm_compute in H; intuition discriminate. vm_compute in H; intuition discriminate.
        -- rewrite <- (app_nil_r (_ ++ _ ++ _ ++ _)). apply C12_semicolon; auto.
           ++ rewrite !in_app_iff. intros [H|[H|[H|H]]]; auto. apply (Pre newline); [left; reflexivity|exact H]. vm_compute in H; intuition discriminate. vm_compute in H; intuition discriminate.
           ++ destruct x as [|x0 x].
              ** exists pw, [space; space]. rewrite Prew. split; [rewrite <- !app_assoc; reflexivity|]. split; [auto|]. split; [constructor; [reflexivity|]; constructor; [reflexivity|constructor]|].
                 split; [auto|]. split; [left; auto|auto].
              ** exists pw, [space]. rewrite Prew. split; [rewrite <- !app_assoc; reflexivity|]. split; [auto|]. split; [constructor; [reflexivity|constructor]|].
                 split; [auto|]. split; [apply starts_nonblank_app; auto; discriminate|auto].
      * cbn [comment_again].
        assert (X : exists z ws, front bx ++ t "; " ++ x = (front bx ++ z) ++ ws /\ Forall blank ws /\ (z = [";"%char] /\ x = [] \/ z = t "; " ++ x) /\ ends_visible (front bx ++ z)).
        { destruct x as [|x0 x].
          - exists [";"%char], [space]. split; [rewrite <- app_assoc; reflexivity|]. split; [constructor; [reflexivity|constructor]|]. split; auto.
            right. exists (front bx), ";"%char. split; auto. intros H. vm_compute in H. discriminate.
          - exists (t "; " ++ x0 :: x), []. rewrite app_nil_r. split; auto. split; auto. split; auto. right. destruct (exists_last (l := x0 :: x) ltac:(discriminate)) as (q & e & E). rewrite E.
            exists (front bx ++ t "; " ++ q), e. split; [rewrite <- !app_assoc; auto|]. destruct MM as [MM|(q2 & e2 & E2 & V)].
            + subst bc. destruct p; discriminate.
            + rewrite Ep, E, app_assoc in E2. apply app_inj_tail in E2 as [_ <-]. auto. }
        destruct X as (z & ws & -> & Bw & Z & Ev).
        assert (Zn : ~ In newline z /\ ~ In "%"%char z).
        { destruct Z as [[-> _]| ->]; [split; vm_compute; intuition discriminate|]. rewrite !in_app_iff. split; (intros [H|H]; auto; vm_compute in H; intuition discriminate). }
        destruct Zn as [Zn1 Zn2]. apply (LINE _ (front bx ++ z) _ bx); auto.
        -- apply ls_plain; auto; rewrite in_app_iff; (intros [H|H]; [|contradiction]). apply (Pre newline); [left; reflexivity|exact H]. apply (Pre "%"%char); [vm_compute; tauto|exact H].
        -- rewrite <- (app_nil_r (_ ++ z)). apply C12_semicolon; auto.
           ++ rewrite in_app_iff. intros [H|H]; [|contradiction]. apply (Pre newline); [left; reflexivity|exact H].
           ++ exists pw. rewrite Prew. destruct Z as [[-> ->]| ->].
              ** exists []. split; [rewrite <- !app_assoc; reflexivity|]. split; [auto|]. split; [auto|]. split; [auto|]. auto.
              ** exists [space]. split; [rewrite <- !app_assoc; reflexivity|]. split; [auto|]. split; [constructor; [reflexivity|constructor]|]. split; [auto|]. auto.
    + (* brackets *)
      assert (Cn : ~ In newline x /\ ~ In "%"%char x).
      { split; intros H; apply C3 in H; apply in_app_iff in H as [H|H]; try (apply Nbc; exact H); vm_compute in H; intuition discriminate. }
      set (bp := front bx) in *.
      assert (Q : forall ws, Forall blank ws -> ~ In newline ws -> ~ In ";"%char ws -> ~ In ")"%char ws -> ~ In "("%char ws -> split_line (bp ++ ("("%char :: x ++ [")"%char]) ++ ws) = (bp ++ ws, Some (Comment CommentBrackets x))).
      { intros ws Bw W1 W2 W3 W4. rewrite <- (app_nil_r (bp ++ _)). rewrite (C13_brackets _ [] (bp ++ ws) [x]); auto.
        - rewrite in_app_iff. cbn [app In]. rewrite !in_app_iff. intros [H|[H|[[H|[H|[]]]|H]]]; try discriminate H; auto. apply (Pre newline); [left; reflexivity|exact H]. apply (proj1 Cn); auto.
        - rewrite in_app_iff. cbn [app In]. rewrite !in_app_iff. intros [H|[H|[[H|[H|[]]]|H]]]; try discriminate H; auto. apply (Pre ";"%char); [vm_compute; tauto|exact H].
        - cbn [app]. rewrite <- app_assoc. cbn [app]. apply bp_comment; auto. apply Pre; vm_compute; tauto. apply bp_end. intros a z E. exfalso. apply W4. rewrite E. apply in_app_iff. right. left; auto. }
      destruct m as [m|].
      * destruct MM as (y & -> & Ny). cbn [comment_again].
        apply (LINE _ (bp ++ ("("%char :: x ++ [")"%char]) ++ [space]) _ (bp ++ [space])); auto.
        -- replace (bp ++ ("("%char :: x ++ [")"%char]) ++ [space] ++ "%"%char :: y) with ((bp ++ ("("%char :: x ++ [")"%char]) ++ [space]) ++ "%"%char :: y ++ []) by (rewrite app_nil_r, <- !app_assoc; reflexivity).
           destruct Cn as [Cn1 Cn2]. apply ls_macro; auto; rewrite in_app_iff; cbn [app In]; rewrite !in_app_iff; cbn [In]; (intros [H|[H|[[H|[H|[]]]|[H|[]]]]]; try discriminate H; try contradiction).
           ++ apply (Pre newline); [left; reflexivity|exact H].
           ++ apply (Pre "%"%char); [vm_compute; tauto|exact H].
        -- apply Q; [constructor; [reflexivity|constructor]|..]; vm_compute; intuition discriminate.
        -- rewrite mk_block_blanks; auto. constructor; [reflexivity|constructor].
      * cbn [comment_again]. apply (LINE _ (bp ++ ("("%char :: x ++ [")"%char])) _ bp); auto.
        -- rewrite <- (app_nil_r (bp ++ _)) at 1. apply ls_plain; auto.
           ++ rewrite in_app_iff; cbn [app In]; rewrite !in_app_iff; cbn [In]; (intros [H|[H|[H|[H|[]]]]]; try discriminate H). apply (Pre newline); [left; reflexivity|exact H]. apply (proj1 Cn); auto.
           ++ rewrite in_app_iff; cbn [app In]; rewrite !in_app_iff; cbn [In]; (intros [H|[H|[H|[H|[]]]]]; try discriminate H). apply (Pre "%"%char); [vm_compute; tauto|exact H]. apply (proj2 Cn); auto.
           ++ right. exists (bp ++ "("%char :: x), ")"%char. rewrite <- app_assoc. split; auto. intros H. vm_compute in H. discriminate.
        -- specialize (Q [] (Forall_nil _)). rewrite !app_nil_r in Q. apply Q; intros [].
  - cbn [comment_again]. destruct m as [m|].
    + destruct MM as (y & -> & Ny). apply (LINE _ (front bx) _ (front bx)); auto.
      rewrite <- (app_nil_r y) at 1. apply ls_macro; auto; apply Pre; vm_compute; tauto.
    + apply (LINE _ bx _ bx); auto.
      * set (bt := bx) in *. rewrite <- (app_nil_r bt) at 1. apply ls_plain; auto; unfold bt; auto.
      * apply NOP. intros z I. apply (calm_not z bx z); auto.
Qed.
End WithArith.
