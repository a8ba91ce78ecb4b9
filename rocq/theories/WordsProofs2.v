(** Consequences of the tokeniser theorem: free spelling, case, junk, small functions on words. *)
From Coq Require Import Ascii String List Bool Arith ZArith QArith Qcanon Lia Permutation.
From Verif Require Import Base Num Regex Words BaseFacts RegexFacts WordsSpec WordsProofs.
Import ListNotations.
Local Open Scope nat_scope.

Section WithArith.
Context {ar : Arith}.

(** ** Free spelling *)
Definition stops (s : text) : Prop :=
  match s with [] => True | c :: _ => is_space c = true \/ is_letter c = true end.
Lemma stops_nodigit s : stops s -> match s with [] => True | c :: _ => is_digit c = false end.
Proof.
  destruct s; simpl; auto. intros [H|H]. apply space_not_digit; auto.
  destruct (is_digit a) eqn:E; auto. apply digit_not_letter in E. congruence.
Qed.
Lemma stops_nodot s : stops s -> match s with [] => True | c :: _ => Ascii.eqb "." c = false end.
Proof.
  destruct s; simpl; auto. intros [H|H]. apply space_dot; auto.
  destruct (Ascii.eqb "." a) eqn:E; auto. apply Ascii.eqb_eq in E. subst. discriminate.
Qed.
Lemma spelling_stops ws s : spelling ws s -> stops s.
Proof.
  intros H. inversion H; subst.
  - destruct s; simpl; auto. inversion H0; auto.
  - destruct b; simpl. right. apply is_letter_iff; eauto. inversion H0; auto.
  - destruct b; simpl. right. apply is_letter_iff; eauto. inversion H0; auto.
Qed.

Lemma span_digits_stop ip s : Forall digit ip -> stops s -> span is_digit (ip ++ s) = (ip, s).
Proof. intros H1 H2. apply span_app_l. apply Forall_digit; auto. apply stops_nodigit in H2. destruct s; auto. Qed.

Lemma scan_value_stop l v s : letter_kind l <> KText -> value_text (letter_kind l) v -> stops s ->
  scan_value l (v ++ s) = Some (v, s).
Proof.
  intros K H Hs. unfold scan_value.
  inversion H as [ws neg ip dot fp H1 H2 H3 H4 H5 Hk Hv|ws ip H1 H2 H3 Hk Hv|ws ip d H1 H2 H3 H4 Hk Hv|ws ip H1 H2 H3 Hk Hv|v' H1 H2 Hk Hv]; subst.
  - unfold scan_float. rewrite <- !app_assoc.
    pose proof (digits_head_nospace ip dot fp s H5 H2 H4) as Hh. rewrite <- app_assoc in Hh.
    rewrite span_blank_nondigit.
    + rewrite scan_minus_sign.
      * assert (E : scan_body (ip ++ dotted dot fp ++ s) = Some (ip ++ dotted dot fp, s)).
        { unfold scan_body. destruct dot; cbn [dotted app].
          - rewrite (span_app_l is_digit ip ("."%char :: fp ++ s)) by (auto; apply Forall_digit; auto).
            cbn [scan_frac]. replace (Ascii.eqb "." ".") with true by reflexivity.
            rewrite span_digits_stop by auto. destruct ip; destruct fp; auto. contradiction.
          - rewrite H4 in * by auto. rewrite app_nil_r in H5. rewrite span_digits_stop by auto.
            assert (X : scan_frac s = ([], s)).
            { unfold scan_frac. apply stops_nodot in Hs. destruct s; auto. rewrite Hs; auto. }
            rewrite X. destruct ip; auto. contradiction. }
        rewrite E. reflexivity.
      * intros ->. destruct (ip ++ dotted dot fp ++ s); [auto|apply Hh].
    + apply Forall_blank; auto.
    + destruct neg; simpl; [reflexivity|]. destruct (ip ++ dotted dot fp ++ s); [auto|apply Hh].
  - unfold scan_code. rewrite <- !app_assoc. rewrite span_blank_nondigit.
    + rewrite span_digits_stop by auto. destruct ip as [|e ip]; [contradiction|].
      apply stops_nodot in Hs. destruct s as [|a [|b s]]; auto. rewrite Hs. auto.
    + apply Forall_blank; auto.
    + pose proof (digits_head_nospace' ip s H3 H2). destruct (ip ++ s); tauto.
  - unfold scan_code. rewrite <- !app_assoc. rewrite span_blank_nondigit.
    + rewrite (span_app_l is_digit ip (["."%char; d] ++ s)) by (reflexivity || (apply Forall_digit; auto)).
      destruct ip as [|e ip]; [contradiction|]. apply digit_iff in H4. cbn [app]. rewrite H4. reflexivity.
    + apply Forall_blank; auto.
    + pose proof (digits_head_nospace' ip (["."%char; d] ++ s) H3 H2). destruct (ip ++ ["."%char; d] ++ s); tauto.
  - unfold scan_nat. rewrite <- !app_assoc. rewrite span_blank_nondigit.
    + rewrite span_digits_stop by auto. destruct ip as [|e ip]; [contradiction|]. auto.
    + apply Forall_blank; auto.
    + pose proof (digits_head_nospace' ip s H3 H2). destruct (ip ++ s); tauto.
  - congruence.
Qed.

Lemma blank_junk b : Forall blank b -> ~ In newline b -> Forall (fun x => (forall l', ~ char_letter x l') /\ x <> newline) b.
Proof.
  intros H N. rewrite Forall_forall in *. intros x Hx. split.
  - apply not_letter_iff. apply space_not_letter. apply H; auto.
  - intros ->; auto.
Qed.
Theorem spelling_reads ws s : spelling ws s -> reads s ws.
Proof.
  induction 1 as [b Hb|b c l v val ws s Hb Hn Hc K Hv Hd Hs IH|b c v nl Hb Hn Hc Hv Hnl].
  - constructor; auto.
  - apply reads_word; auto using blank_junk.
    apply (scan_value_iff l (v ++ s) v s). apply scan_value_stop; auto. eapply spelling_stops; eauto.
  - apply reads_word; auto using blank_junk.
    + inversion Hv; subst. split; [auto|]. split; auto. intros v' r' E H'. eapply (longest_text_end LO); eauto.
    + constructor; auto.
    + constructor. destruct Hnl as [->| ->]; repeat constructor.
Qed.
Theorem spelling_text2words ws s : spelling ws s -> text2words s = Ok ws.
Proof. intros H. apply text2words_reads, spelling_reads; auto. Qed.

(** every constructible number has a spelling: see the printing theorems *)

(** ** Case *)
Lemma same_char_digit x y : same_char x y -> is_digit x = is_digit y.
Proof.
  intros [->|(l & H1 & H2)]; auto.
  assert (A : forall z l, char_letter z l -> is_digit z = false).
  { intros z l' Hz. destruct (is_digit z) eqn:E; auto. apply digit_not_letter in E.
    assert (is_letter z = true) by (apply is_letter_iff; eauto). congruence. }
  rewrite (A x l), (A y l); auto.
Qed.
Lemma letter_char_not x l : char_letter x l -> is_space x = false /\ is_digit x = false /\ is_newline x = false /\
  Ascii.eqb "-" x = false /\ Ascii.eqb "." x = false.
Proof.
  intros H. assert (L : is_letter x = true) by (apply is_letter_iff; eauto). repeat split.
  - destruct (is_space x) eqn:E; auto. apply space_not_letter in E. congruence.
  - destruct (is_digit x) eqn:E; auto. apply digit_not_letter in E. congruence.
  - apply letter_not_newline; auto.
  - destruct (Ascii.eqb "-" x) eqn:E; auto. apply Ascii.eqb_eq in E; subst. discriminate.
  - destruct (Ascii.eqb "." x) eqn:E; auto. apply Ascii.eqb_eq in E; subst. discriminate.
Qed.
Lemma same_char_class x y : same_char x y ->
  is_space x = is_space y /\ is_digit x = is_digit y /\ is_newline x = is_newline y /\
  Ascii.eqb "-" x = Ascii.eqb "-" y /\ Ascii.eqb "." x = Ascii.eqb "." y /\ letter_of_ascii x = letter_of_ascii y /\
  (is_letter x = false -> x = y).
Proof.
  intros [->|(l & H1 & H2)].
  - repeat split; auto.
  - pose proof (letter_char_not x l H1). pose proof (letter_char_not y l H2). intuition try congruence.
    + apply char_letter_iff in H1, H2. congruence.
    + assert (is_letter x = true) by (apply is_letter_iff; eauto). congruence.
Qed.
Lemma span_same f a b : (forall x y, same_char x y -> f x = f y /\ (f x = true -> x = y)) -> same_but_case a b ->
  fst (span f a) = fst (span f b) /\ same_but_case (snd (span f a)) (snd (span f b)).
Proof.
  intros Hf. induction 1 as [|x y a b Hx Hab IH]; simpl; auto.
  - split; auto. constructor.
  - destruct (Hf x y Hx) as [E1 E2]. rewrite <- E1. destruct (f x).
    + rewrite E2 by auto. destruct (span f a), (span f b). simpl in *. destruct IH as [-> IH]. auto.
    + simpl. split; auto. constructor; auto.
Qed.
Lemma same_space x y : same_char x y -> is_space x = is_space y /\ (is_space x = true -> x = y).
Proof. intros H. apply same_char_class in H as (H1 & _ & _ & _ & _ & _ & H2). split; auto. intros; apply H2, space_not_letter; auto. Qed.
Lemma same_digit x y : same_char x y -> is_digit x = is_digit y /\ (is_digit x = true -> x = y).
Proof. intros H. apply same_char_class in H as (_ & H1 & _ & _ & _ & _ & H2). split; auto. intros; apply H2, digit_not_letter; auto. Qed.

Definition same_scan (a b : option (text * text)) : Prop :=
  match a, b with
  | Some (v, r), Some (v', r') => v = v' /\ same_but_case r r'
  | None, None => True
  | _, _ => False
  end.
Lemma scan_float_same a b : same_but_case a b -> same_scan (scan_float a) (scan_float b).
Proof.
  intros H. unfold scan_float. pose proof (span_same is_space a b same_space H) as [E1 H1].
  destruct (span is_space a) as [ws a1], (span is_space b) as [ws' b1]. simpl in E1, H1. subst ws'.
  assert (M : fst (scan_minus a1) = fst (scan_minus b1) /\ same_but_case (snd (scan_minus a1)) (snd (scan_minus b1))).
  { inversion H1; subst; simpl; auto. pose proof (same_char_class _ _ H0) as (_ & _ & _ & E & _ & _ & E2). rewrite <- E.
    destruct (Ascii.eqb "-" x) eqn:Em; simpl; auto. rewrite E2; auto. apply Ascii.eqb_eq in Em; subst; reflexivity. }
  destruct (scan_minus a1) as [m a2], (scan_minus b1) as [m' b2]. simpl in M. destruct M as [<- H2].
  assert (B : same_scan (scan_body a2) (scan_body b2)).
  { unfold scan_body. pose proof (span_same is_digit a2 b2 same_digit H2) as [E3 H3].
    destruct (span is_digit a2) as [ip a3], (span is_digit b2) as [ip' b3]. simpl in E3, H3. subst ip'.
    assert (F : fst (scan_frac a3) = fst (scan_frac b3) /\ same_but_case (snd (scan_frac a3)) (snd (scan_frac b3))).
    { inversion H3; subst; simpl; auto. pose proof (same_char_class _ _ H0) as (_ & _ & _ & _ & E & _ & E2). rewrite <- E.
      destruct (Ascii.eqb "." x) eqn:Em; simpl; auto.
      pose proof (span_same is_digit _ _ same_digit H4) as [E5 H5]. destruct (span is_digit l), (span is_digit l'). simpl in *. subst.
      rewrite E2; auto. apply Ascii.eqb_eq in Em; subst; reflexivity. }
    destruct (scan_frac a3) as [f a4], (scan_frac b3) as [f' b4]. simpl in F. destruct F as [<- F].
    destruct ip; destruct f as [|? [|? ?]]; simpl; auto. }
  destruct (scan_body a2) as [[? ?]|], (scan_body b2) as [[? ?]|]; simpl in *; try tauto. destruct B as [-> B]; auto.
Qed.
Lemma scan_nat_same a b : same_but_case a b -> same_scan (scan_nat a) (scan_nat b).
Proof.
  intros H. unfold scan_nat. pose proof (span_same is_space a b same_space H) as [E1 H1].
  destruct (span is_space a) as [ws a1], (span is_space b) as [ws' b1]. simpl in E1, H1. subst ws'.
  pose proof (span_same is_digit a1 b1 same_digit H1) as [E3 H3].
  destruct (span is_digit a1) as [ip a3], (span is_digit b1) as [ip' b3]. simpl in E3, H3. subst ip'.
  destruct ip; simpl; auto.
Qed.
Lemma scan_code_same a b : same_but_case a b -> same_scan (scan_code a) (scan_code b).
Proof.
  intros H. unfold scan_code. pose proof (span_same is_space a b same_space H) as [E1 H1].
  destruct (span is_space a) as [ws a1], (span is_space b) as [ws' b1]. simpl in E1, H1. subst ws'.
  pose proof (span_same is_digit a1 b1 same_digit H1) as [E3 H3].
  destruct (span is_digit a1) as [ip a3], (span is_digit b1) as [ip' b3]. simpl in E3, H3. subst ip'.
  destruct ip; simpl; auto.
  inversion H3 as [|x y l l' Hx Hl]; subst; simpl; auto.
  inversion Hl as [|x2 y2 l2 l2' Hx2 Hl2]; subst; simpl; auto.
  pose proof (same_char_class _ _ Hx) as (_ & _ & _ & _ & E & _ & E2).
  destruct (same_digit _ _ Hx2) as [E4 E5]. rewrite <- E, <- E4.
  destruct (Ascii.eqb "." x) eqn:Em; simpl; auto. destruct (is_digit x2); simpl; auto.
  split; auto. rewrite E5, E2; auto. apply Ascii.eqb_eq in Em; subst; reflexivity.
Qed.
Lemma scan_value_same l a b : letter_kind l <> KText -> same_but_case a b -> same_scan (scan_value l a) (scan_value l b).
Proof. intros K H. unfold scan_value. destruct (letter_kind l); auto using scan_float_same, scan_nat_same, scan_code_same. congruence. Qed.
Lemma next_letter_same a b : same_but_case a b ->
  match next_letter a, next_letter b with
  | Some (j, c, r), Some (j', c', r') => same_char c c' /\ same_but_case r r'
  | None, None => True
  | _, _ => False
  end.
Proof.
  induction 1 as [|x y a b Hx Hab IH]; simpl; auto.
  pose proof (same_char_class _ _ Hx) as (_ & _ & E & _ & _ & E2 & _).
  unfold is_letter. rewrite <- E2, <- E. destruct (letter_of_ascii x); auto. destruct (is_newline x); simpl; auto.
  destruct (next_letter a) as [[[j c] r]|], (next_letter b) as [[[j' c'] r']|]; simpl; auto.
Qed.
Theorem text2words_case a b : same_but_case a b -> ~ has_letter LO a -> text2words a = text2words b.
Proof.
  intros H. unfold text2words. assert (L : length a = length b) by (clear -H; induction H; simpl; auto). rewrite <- L. clear L.
  generalize (S (length a)). intros n. revert a b H. induction n as [|n IH]; intros a b H HO; auto.
  rewrite !text2words_step. pose proof (next_letter_same a b H) as N.
  destruct (next_letter a) as [[[j c] r]|] eqn:Ea, (next_letter b) as [[[j' c'] r']|]; try tauto.
  - destruct N as [Hc Hr]. pose proof (same_char_class _ _ Hc) as (_ & _ & _ & _ & _ & E & _). rewrite <- E.
    destruct (letter_of_ascii c) as [l|] eqn:El; auto.
    apply next_letter_spec in Ea as (-> & _ & _).
    assert (K : letter_kind l <> KText).
    { intros K. apply HO. assert (l = LO) by (destruct l; try discriminate; auto). subst. exists c. split.
      apply in_app_iff; right; left; auto. apply char_letter_iff; auto. }
    pose proof (scan_value_same l r r' K Hr) as S.
    destruct (scan_value l r) as [[v s]|] eqn:Es, (scan_value l r') as [[v' s']|]; simpl in S; try tauto.
    destruct S as [<- S]. destruct (mk_word l (VStr v)); simpl; auto. rewrite (IH s s'); auto.
    apply scan_value_iff in Es as [-> _]. intros (x & Hx & Hl). apply HO. exists x. split; auto.
    rewrite in_app_iff. simpl. rewrite in_app_iff. auto.
  - replace (forallb is_space b) with (forallb is_space a); auto.
    clear -H. induction H; simpl; auto. destruct (same_space _ _ H). rewrite H1, IHForall2; auto.
Qed.

(** ** Junk *)
(** after the last letter of an accepted text there is just its value and blanks *)
Theorem text2words_tail p c q l ws :
  text2words (p ++ c :: q) = Ok ws -> char_letter c l -> (forall x l', In x q -> ~ char_letter x l') -> ~ has_letter LO (p ++ c :: q) ->
  exists v b val ws', q = v ++ b /\ value_text (letter_kind l) v /\ value_denotes l v val /\ Forall blank b /\ ws = ws' ++ [Word l val].
Proof.
  rewrite text2words_reads. intros H Hc Hq HO. remember (p ++ c :: q) as s eqn:Es.
  revert p Es. induction H as [s Hs|j c' l' v r val ws Hj Hc' Hl Hv Hr IH]; intros p Es.
  - exfalso. subst. rewrite Forall_forall in Hs. assert (B : blank c) by (apply Hs, in_app_iff; right; left; auto).
    apply space_not_letter in B. assert (is_letter c = true) by (apply is_letter_iff; eauto). congruence.
  - assert (K : letter_kind l' <> KText).
    { intros K. apply HO. assert (l' = LO) by (destruct l'; try discriminate; auto). subst l'. exists c'. split; auto.
      rewrite in_app_iff. simpl; auto. }
    (* the characters of v are not letters *)
    assert (Vn : forall x, In x v -> is_letter x = false).
    { intros x Hx. destruct Hl as (Hvt & _ & _).
      assert (A : forall ds, Forall digit ds -> In x ds -> is_letter x = false) by
        (intros ds Hd Hi; apply digit_not_letter, digit_iff; rewrite Forall_forall in Hd; auto).
      assert (B : forall ds, Forall blank ds -> In x ds -> is_letter x = false) by
        (intros ds Hd Hi; apply space_not_letter; rewrite Forall_forall in Hd; apply Hd; auto).
      inversion Hvt; subst; try congruence; repeat (apply in_app_iff in Hx as [Hx|Hx]); eauto.
      - destruct neg; simpl in Hx; [|tauto]. destruct Hx as [<-|[]]. reflexivity.
      - destruct dot; simpl in Hx; [|tauto]. destruct Hx as [<-|Hx]; [reflexivity|eauto].
      - destruct Hx as [<-|[<-|[]]]; [reflexivity|]. apply digit_not_letter, digit_iff; auto. }
    assert (Cl : is_letter c = true) by (apply is_letter_iff; eauto).
    assert (Jn : forall x, In x j -> is_letter x = false).
    { intros x Hx. rewrite Forall_forall in Hj. apply Hj in Hx. apply not_letter_iff. tauto. }
    (* compare positions of c' and c *)
    destruct (Nat.lt_trichotomy (length p) (length j)) as [L|[L|L]].
    + exfalso. assert (E : nth_error (j ++ c' :: v ++ r) (length p) = Some c).
      { rewrite Es, nth_error_app2, Nat.sub_diag; auto. }
      rewrite nth_error_app1 in E by auto. apply nth_error_In in E. apply Jn in E. congruence.
    + assert (p = j /\ c = c' /\ q = v ++ r) as (-> & -> & ->).
      { assert (E : j = p). { rewrite <- (firstn_app_exact j (c' :: v ++ r)), Es, <- L. apply firstn_app_exact. }
        subst. apply app_inv_head in Es. inversion Es; auto. }
      assert (l' = l) by (apply char_letter_iff in Hc, Hc'; congruence). subst l'.
      assert (R : Forall blank r /\ ws = []).
      { inversion Hr; subst; auto. exfalso. eapply Hq; [|eassumption]. rewrite !in_app_iff. simpl. auto. }
      destruct R as [R ->]. exists v, r, val, []. split; auto. split; [apply Hl|]. auto.
    + (* c is in r *)
      assert (exists p', r = p' ++ c :: q /\ p = j ++ c' :: v ++ p') as (p' & -> & ->).
      { assert (P : exists p1, p = j ++ c' :: p1 /\ v ++ r = p1 ++ c :: q).
        { clear -L Es. revert p L Es. induction j as [|x j IH]; intros p L Es; destruct p as [|y p]; simpl in *; try lia.
          - inversion Es; subst. eauto.
          - inversion Es; subst. destruct (IH p) as (p1 & -> & E); auto. lia. eauto. }
        destruct P as (p1 & -> & E).
        destruct (le_lt_dec (length v) (length p1)) as [G|G].
        - exists (skipn (length v) p1). assert (F : v = firstn (length v) p1).
          { rewrite <- (firstn_app_exact v r) at 1. rewrite E, firstn_app. replace (length v - length p1) with 0 by lia.
            simpl. rewrite app_nil_r. auto. }
          assert (F2 : p1 = v ++ skipn (length v) p1) by (rewrite F at 1; rewrite firstn_skipn; auto).
          split.
          + rewrite F2, <- app_assoc in E. apply app_inv_head in E. auto.
          + f_equal. f_equal. auto.
        - exfalso. assert (X : nth_error (v ++ r) (length p1) = Some c).
          { rewrite E, nth_error_app2, Nat.sub_diag; auto. }
          rewrite nth_error_app1 in X by auto. apply nth_error_In in X. apply Vn in X. congruence. }
      destruct (IH) with (p := p') as (v1 & b1 & val1 & ws1 & -> & A1 & A2 & A3 & ->); auto.
      { intros (x & Hx & Hxl). apply HO. exists x. split; auto. rewrite in_app_iff. simpl. rewrite in_app_iff. auto. }
      exists v1, b1, val1, (Word l' val :: ws1). auto.
Qed.
Theorem text2words_noletter s : (forall x l, In x s -> ~ char_letter x l) ->
  text2words s = if forallb is_space s then Ok [] else Raise EGCodeWordStrError.
Proof.
  intros H. unfold text2words. rewrite text2words_step.
  replace (next_letter s) with (@None (text * ascii * text)); auto. symmetry. apply next_letter_none. left.
  apply forallb_forall. intros x Hx. apply negb_true_iff, not_letter_iff. auto.
Qed.

(** ** str2word, words2dict *)
Lemma str2word_spec s :
  str2word s = match text2words s with
               | Raise e => Raise e
               | Ok [] => Ok None
               | Ok [w] => Ok (Some w)
               | Ok (_ :: _ :: _) => Raise EGCodeWordStrError
               end.
Proof. unfold str2word. destruct (text2words s) as [[|w [|w' ws]]|e]; auto. Qed.

Lemma words2dict_get ws limit l :
  dget letter_eqb (words2dict ws limit) l =
  match limit with
  | Some ls => if existsb (letter_eqb l) ls then option_map wvalue (find (fun w => letter_eqb (wletter w) l) (rev ws)) else None
  | None => option_map wvalue (find (fun w => letter_eqb (wletter w) l) (rev ws))
  end.
Proof.
  unfold words2dict. rewrite dget_dupdate by apply letter_eqb_eq. cbn [dget].
  set (f := fun w => match limit with None => true | Some ls => existsb (letter_eqb (wletter w)) ls end).
  assert (E : dget letter_eqb (rev (map (fun w => (wletter w, wvalue w)) (filter f ws))) l =
              option_map wvalue (find (fun w => letter_eqb (wletter w) l) (filter f (rev ws)))).
  { rewrite <- map_rev. assert (R : rev (filter f ws) = filter f (rev ws)).
    { clear. induction ws as [|w ws IH]; simpl; auto. rewrite filter_app, <- IH. simpl. destruct (f w); simpl; auto. rewrite app_nil_r; auto. }
    rewrite R. clear R. induction (filter f (rev ws)) as [|w r IH]; simpl; auto. rewrite letter_eqb_sym.
    destruct (letter_eqb (wletter w) l); auto. }
  rewrite E. assert (F : find (fun w => letter_eqb (wletter w) l) (filter f (rev ws)) =
     if f (Word l (VInt 0)) then find (fun w => letter_eqb (wletter w) l) (rev ws) else None).
  { clear E. induction (rev ws) as [|w r IH]; simpl. destruct (f _); auto.
    destruct (letter_eqb (wletter w) l) eqn:El.
    - apply letter_eqb_eq in El. assert (f w = f (Word l (VInt 0))) as Ew. { unfold f. rewrite El. auto. }
      rewrite Ew. destruct (f (Word l (VInt 0))) eqn:X; simpl. rewrite El, letter_eqb_refl; auto. rewrite IH. auto.
    - destruct (f w); simpl; rewrite ?El; auto. }
  rewrite F. unfold f. cbn [wletter]. clear.
  assert (X : forall o : option value, match o with Some v => Some v | None => None end = o) by (intros []; auto).
  rewrite X. destruct limit as [ls|]; auto. destruct (existsb (letter_eqb l) ls); auto.
Qed.
End WithArith.
