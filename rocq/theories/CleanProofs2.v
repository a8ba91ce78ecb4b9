(** The words of a text do not change when blank runs are shortened. *)
From Coq Require Import Ascii String List Bool Arith ZArith QArith Qcanon Lia.
From Verif Require Import Base Num Regex Words GTable GCode Line BaseFacts RegexFacts FinditerFacts WordsSpec WordsProofs LineSpec CommentProofs CleanProofs.
Import ListNotations.
Local Open Scope nat_scope.

Inductive sim : text -> text -> Prop :=
| sim_end s s' : forallb is_space s = true -> forallb is_space s' = true -> sim s s'
| sim_char c s s' : is_space c = false -> sim s s' -> sim (c :: s) (c :: s')
| sim_run b b' c s s' : b <> [] -> b' <> [] -> forallb is_space b = true -> forallb is_space b' = true ->
    is_space c = false -> sim s s' -> sim (b ++ c :: s) (b' ++ c :: s').

Definition hdblank (s : text) : Prop := match s with [] => True | c :: _ => is_space c = true end.
Lemma sim_cases s s' : sim s s' ->
  (hdblank s /\ hdblank s') \/ (exists c r r', s = c :: r /\ s' = c :: r' /\ is_space c = false /\ sim r r').
Proof.
  intros [a a' H H'|c a a' H H'|b b' c a a' H1 H2 H3 H4 H5 H6].
  - left. split; [destruct a|destruct a']; simpl in *; auto; [apply andb_true_iff in H as [H _]|apply andb_true_iff in H' as [H' _]]; auto.
  - right. eauto 10.
  - left. destruct b; [tauto|]. destruct b'; [tauto|]. simpl in *. apply andb_true_iff in H3 as [H3 _], H4 as [H4 _]. auto.
Qed.
Lemma sim_span_space s s' : sim s s' -> exists ws s1 ws' s1', s = ws ++ s1 /\ s' = ws' ++ s1' /\
  span is_space s = (ws, s1) /\ span is_space s' = (ws', s1') /\ sim s1 s1' /\ forallb is_space ws = true /\ forallb is_space ws' = true.
Proof.
  intros [a a' H H'|c a a' H H'|b b' c a a' H1 H2 H3 H4 H5 H6].
  - exists a, [], a', []. rewrite !app_nil_r.
    pose proof (span_all is_space a [] H I) as X. pose proof (span_all is_space a' [] H' I) as Y. rewrite !app_nil_r in *.
    repeat split; auto. constructor; auto.
  - exists [], (c :: a), [], (c :: a'). simpl. rewrite H. repeat split; auto. constructor 2; auto.
  - exists b, (c :: a), b', (c :: a'). rewrite !span_all by auto. repeat split; auto. constructor 2; auto.
Qed.
Lemma hdblank_span_digit s : hdblank s -> span is_digit s = ([], s).
Proof. destruct s; auto. simpl. intros H. rewrite space_not_digit; auto. Qed.
Lemma sim_span_digit s s' : sim s s' -> exists d r r', span is_digit s = (d, r) /\ span is_digit s' = (d, r') /\ sim r r'.
Proof.
  intros H. induction H as [a a' H H'|c a a' H H' IH|b b' c a a' H1 H2 H3 H4 H5 H6 IH].
  - destruct (sim_cases a a') as [[A B]|(c & r & r' & -> & -> & _ & _)]; [constructor; auto| |].
    + exists [], a, a'. rewrite !hdblank_span_digit by auto. repeat split; auto. constructor; auto.
    + exists [], (c :: r), (c :: r'). simpl in H. apply andb_true_iff in H as [H H0].
      simpl. rewrite space_not_digit by auto. repeat split; auto. constructor; simpl; auto. rewrite H; auto.
  - destruct (is_digit c) eqn:E.
    + destruct IH as (d & r & r' & E1 & E2 & E3). exists (c :: d), r, r'. simpl. rewrite E, E1, E2. auto.
    + exists [], (c :: a), (c :: a'). simpl. rewrite E. repeat split; auto. constructor 2; auto.
  - exists [], (b ++ c :: a), (b' ++ c :: a'). rewrite !hdblank_span_digit.
    + repeat split; auto. constructor 3; auto.
    + destruct b'; [tauto|]. simpl in *. apply andb_true_iff in H4; tauto.
    + destruct b; [tauto|]. simpl in *. apply andb_true_iff in H3; tauto.
Qed.
(** a test on the first character that no blank passes *)
Lemma sim_head s s' x : sim s s' -> is_space x = false ->
  (exists r r', s = x :: r /\ s' = x :: r' /\ sim r r') \/
  (match s with c :: _ => Ascii.eqb x c = false | [] => True end /\ match s' with c :: _ => Ascii.eqb x c = false | [] => True end).
Proof.
  intros H Hx. assert (B : forall s, hdblank s -> match s with c :: _ => Ascii.eqb x c = false | [] => True end).
  { intros [|c r]; auto. simpl. intros Hc. destruct (Ascii.eqb x c) eqn:E; auto. apply Ascii.eqb_eq in E. subst. congruence. }
  destruct (sim_cases s s' H) as [[A A']|(c & r & r' & -> & -> & Hc & Hr)].
  { right. split; apply B; auto. }
  destruct (Ascii.eqb x c) eqn:E; auto. apply Ascii.eqb_eq in E. subst. left. eauto.
Qed.
Lemma sim_scan_minus s s' : sim s s' -> exists m r r', scan_minus s = (m, r) /\ scan_minus s' = (m, r') /\ sim r r'.
Proof.
  intros H. destruct (sim_head s s' "-"%char H eq_refl) as [(r & r' & -> & -> & Hr)|[A A']].
  - simpl. exists ["-"%char], r, r'. auto.
  - exists [], s, s'. unfold scan_minus. destruct s; destruct s'; rewrite ?A, ?A'; auto.
Qed.
Lemma sim_scan_frac s s' : sim s s' -> exists m r r', scan_frac s = (m, r) /\ scan_frac s' = (m, r') /\ sim r r'.
Proof.
  intros H. destruct (sim_head s s' "."%char H eq_refl) as [(r & r' & -> & -> & Hr)|[A A']].
  - destruct (sim_span_digit r r' Hr) as (d & q & q' & E1 & E2 & E3). simpl. rewrite E1, E2. exists ("."%char :: d), q, q'. auto.
  - exists [], s, s'. unfold scan_frac. destruct s; destruct s'; rewrite ?A, ?A'; auto.
Qed.
Lemma sim_scan_body s s' : sim s s' ->
  match scan_body s with
  | Some (b, r) => exists r', scan_body s' = Some (b, r') /\ sim r r'
  | None => scan_body s' = None
  end.
Proof.
  intros H. unfold scan_body. destruct (sim_span_digit s s' H) as (d & r & r' & -> & -> & Hr).
  destruct (sim_scan_frac r r' Hr) as (f & q & q' & -> & -> & Hq).
  destruct d; destruct f as [|x [|y f]]; auto; exists q'; auto.
Qed.
Lemma sim_scan l s s' : sim s s' -> letter_kind l <> KText ->
  match scan_value l s with
  | Some (v, r) => exists ws ws' core r', v = ws ++ core /\ scan_value l s' = Some (ws' ++ core, r') /\ sim r r' /\
      s = v ++ r /\ s' = (ws' ++ core) ++ r' /\ forallb is_space ws = true /\ forallb is_space ws' = true /\ core <> []
  | None => scan_value l s' = None
  end.
Proof.
  intros H K.
  assert (G : match scan_value l s with
  | Some (v, r) => exists ws ws' core r', v = ws ++ core /\ scan_value l s' = Some (ws' ++ core, r') /\ sim r r' /\
      forallb is_space ws = true /\ forallb is_space ws' = true /\ core <> []
  | None => scan_value l s' = None end).
  { destruct (sim_span_space s s' H) as (ws & s1 & ws' & s1' & _ & _ & E1 & E2 & Hs & Hw & Hw'). unfold scan_value.
    destruct (letter_kind l) eqn:KK; [| | |tauto].
    - unfold scan_float. rewrite E1, E2. destruct (sim_scan_minus s1 s1' Hs) as (m & r & r' & -> & -> & Hr).
      pose proof (sim_scan_body r r' Hr) as B. destruct (scan_body r) as [[b q]|] eqn:Eb; simpl.
      + destruct B as (q' & -> & Hq). exists ws, ws', (m ++ b), q'. repeat split; auto.
        apply scan_body_spec in Eb as (ip & dot & fp & -> & _ & _ & _ & Hd & Hn). intros X. apply app_eq_nil in X as [_ X].
        apply app_eq_nil in X as [-> X]. destruct dot; [discriminate|]. rewrite Hd in Hn; auto.
      + rewrite B. auto.
    - unfold scan_code. rewrite E1, E2. destruct (sim_span_digit s1 s1' Hs) as (d & r & r' & -> & -> & Hr).
      destruct d as [|x d]; auto.
      destruct (sim_head r r' "."%char Hr eq_refl) as [(q & q' & -> & -> & Hq)|[A A']].
      + destruct (sim_cases q q' Hq) as [[B B']|(c & z & z' & -> & -> & Hc & Hz)].
        * assert (Hq2 : sim ("."%char :: q) ("."%char :: q')) by (constructor 2; auto).
          destruct q as [|y q]; destruct q' as [|y' q']; simpl in B, B'; rewrite ?Ascii.eqb_refl, ?(space_not_digit y), ?(space_not_digit y') by auto;
            cbn [andb]; eexists ws, ws', (x :: d), _; repeat split; eauto; discriminate.
        * rewrite Ascii.eqb_refl. destruct (is_digit c); cbn [andb].
          -- exists ws, ws', ((x :: d) ++ ["."%char; c]), z'. repeat split; auto. discriminate.
          -- exists ws, ws', (x :: d), ("."%char :: c :: z'). repeat split; auto; try discriminate.
      + destruct r as [|y [|z r]]; destruct r' as [|y' [|z' r']]; rewrite ?A, ?A'; cbn [andb];
          eexists ws, ws', (x :: d), _; repeat split; eauto; discriminate.
    - unfold scan_nat. rewrite E1, E2. destruct (sim_span_digit s1 s1' Hs) as (d & r & r' & -> & -> & Hr).
      destruct d as [|x d]; auto. exists ws, ws', (x :: d), r'. repeat split; auto. discriminate. }
  destruct (scan_value l s) as [[v r]|] eqn:E; auto.
  destruct G as (ws & ws' & core & r' & -> & E2 & H1 & H2 & H3 & H4). exists ws, ws', core, r'. repeat split; auto.
  - apply scan_value_iff in E; tauto.
  - apply scan_value_iff in E2; tauto.
Qed.

(** a blank of [s] is an ordinary one: no newline, none of the codes 28-31 *)
Definition plain (s : text) : Prop := forall c, In c s -> is_space c = true -> is_newline c = false /\ is_numspace c = true.
Lemma plain_app a b : plain (a ++ b) <-> plain a /\ plain b.
Proof.
  unfold plain. split.
  - intros H. split; intros c Hc; apply H; apply in_app_iff; auto.
  - intros [H1 H2] c Hc. apply in_app_iff in Hc as [Hc|Hc]; auto.
Qed.
Lemma plain_blanks b : plain b -> forallb is_space b = true -> forallb is_numspace b = true /\ forallb (fun c => negb (is_newline c)) b = true.
Proof.
  intros H Hb. rewrite !forallb_forall in *. split; intros c Hc; destruct (H c Hc (Hb c Hc)) as [H1 H2]; auto. rewrite H1; auto.
Qed.

Lemma next_letter_skip b s : forallb is_space b = true -> forallb (fun c => negb (is_newline c)) b = true ->
  next_letter (b ++ s) = option_map (fun '(j, d, r) => (b ++ j, d, r)) (next_letter s).
Proof.
  induction b as [|c b IH]; simpl; intros H1 H2.
  - destruct (next_letter s) as [[[j d] r]|]; auto.
  - apply andb_true_iff in H1 as [H1 H1'], H2 as [H2 H2']. rewrite space_not_letter by auto.
    destruct (is_newline c); [discriminate|]. rewrite IH by auto. destruct (next_letter s) as [[[j d] r]|]; auto.
Qed.
Lemma next_letter_blank b : forallb is_space b = true -> next_letter b = None.
Proof.
  intros H. apply next_letter_none. left. rewrite forallb_forall in *. intros c Hc. rewrite space_not_letter; auto.
Qed.
Lemma next_letter_newline b s : forallb is_space b = true -> forallb (fun c => negb (is_newline c)) b = false -> next_letter (b ++ s) = None.
Proof.
  induction b as [|c b IH]; simpl; intros H1 H2; [discriminate|]. apply andb_true_iff in H1 as [H1 H1'].
  rewrite space_not_letter by auto. destruct (is_newline c); auto. rewrite IH; auto.
Qed.
Lemma sim_next s s' : sim s s' -> plain s' ->
  match next_letter s with
  | Some (j, c, r) => exists j' r', next_letter s' = Some (j', c, r') /\ sim r r'
  | None => plain s -> next_letter s' = None
  end.
Proof.
  intros H Hp. induction H as [a a' H H'|c a a' H H' IH|b b' c a a' H1 H2 H3 H4 H5 H6 IH].
  - rewrite next_letter_blank by auto. intros _. apply next_letter_blank; auto.
  - apply (plain_app [c]) in Hp as [_ Hp]. cbn [next_letter]. destruct (is_letter c). { exists [], a'. auto. }
    destruct (is_newline c) eqn:En. { apply newline_is_space in En. congruence. }
    specialize (IH Hp). destruct (next_letter a) as [[[j d] r]|]; cbn [option_map].
    + destruct IH as (j' & r' & -> & Hr). exists (c :: j'), r'. auto.
    + intros X. apply (plain_app [c]) in X as [_ X]. rewrite IH; auto.
  - apply plain_app in Hp as [Hp1 Hp]. apply (plain_app [c]) in Hp as [_ Hp].
    destruct (plain_blanks b' Hp1 H4) as [_ Hb'].
    destruct (forallb (fun c => negb (is_newline c)) b) eqn:Hb.
    2:{ rewrite next_letter_newline by auto. intros X. apply plain_app in X as [X _].
        destruct (plain_blanks b X H3) as [_ Y]. congruence. }
    rewrite !next_letter_skip by auto. cbn [next_letter]. destruct (is_letter c). { exists (b' ++ []), a'. auto. }
    destruct (is_newline c) eqn:En. { apply newline_is_space in En. congruence. }
    specialize (IH Hp). destruct (next_letter a) as [[[j d] r]|]; cbn [option_map].
    + destruct IH as (j' & r' & -> & Hr). exists (b' ++ c :: j'), r'. auto.
    + intros X. apply plain_app in X as [_ X]. apply (plain_app [c]) in X as [_ X]. rewrite IH; auto.
Qed.
Lemma sim_all_blank s s' : sim s s' -> forallb is_space s = forallb is_space s'.
Proof.
  intros [a a' H H'|c a a' H H'|b b' c a a' H1 H2 H3 H4 H5 H6].
  - congruence.
  - simpl. rewrite H. auto.
  - rewrite !forallb_app, H3, H4. simpl. rewrite H5. auto.
Qed.

Section WithArith.
Context {ar : Arith}.
Lemma num_strip_blanks ws ws' core : forallb is_numspace ws = true -> forallb is_numspace ws' = true ->
  num_strip (ws ++ core) = num_strip (ws' ++ core).
Proof. intros H1 H2. unfold num_strip. rewrite !drop_while_app by auto. auto. Qed.
Lemma coerce_blanks l ws ws' core : letter_class l <> CStr -> forallb is_space ws = true -> forallb is_numspace ws' = true ->
  (forallb is_numspace ws = true -> coerce l (VStr (ws ++ core)) = coerce l (VStr (ws' ++ core))) /\
  (forall x, coerce l (VStr (ws ++ core)) = Ok x -> coerce l (VStr (ws' ++ core)) = Ok x).
Proof.
  intros C Hw Hw'.
  assert (A : forallb is_numspace ws = true -> coerce l (VStr (ws ++ core)) = coerce l (VStr (ws' ++ core))).
  { intros H. unfold coerce, py_float, py_int. rewrite (num_strip_blanks ws ws' core) by auto. destruct (letter_class l); congruence.
 }
  split; auto. intros x Hx. destruct (numspace_split ws Hw) as [H|(a & c & b & -> & Ha & Hc & Hs)].
  - rewrite <- A; auto.
  - exfalso. rewrite <- app_assoc in Hx. simpl in Hx. unfold coerce in Hx. destruct (letter_class l); [| |tauto].
    + rewrite py_float_bad in Hx by auto. discriminate.
    + rewrite py_int_bad in Hx by auto. discriminate.
Qed.

Definition no_names (s : text) : Prop := ~ has_letter LO s /\ ~ has_letter LT s.
Lemma no_names_app a b : no_names (a ++ b) -> no_names b.
Proof.
  intros [H1 H2]. split; intros (c & Hc & H); [apply H1|apply H2]; exists c; split; auto; apply in_app_iff; auto.
Qed.
Lemma sim_words k k' s s' : length s < k -> length s' < k' -> sim s s' -> plain s' -> no_names s ->
  (forall ws, text2words_fuel k s = Ok ws -> text2words_fuel k' s' = Ok ws) /\
  (plain s -> text2words_fuel k s = text2words_fuel k' s').
Proof.
  revert k' s s'. induction k as [|k IH]; intros k' s s' Hk Hk' H Hp Hn; [lia|]. destruct k' as [|k']; [lia|].
  rewrite !text2words_step. pose proof (sim_next s s' H Hp) as N.
  destruct (next_letter s) as [[[j c] r]|] eqn:E.
  - destruct N as (j' & r' & E' & Hr). rewrite E'. pose proof E as E0. pose proof E' as E0'.
    apply next_letter_spec in E as (Es & Hc & _). apply next_letter_spec in E' as (Es' & _ & _).
    destruct (letter_of_ascii c) as [l|] eqn:El; [|split; auto; discriminate].
    assert (L : letter_kind l <> KText /\ letter_class l <> CStr).
    { destruct Hn as [H1 H2]. rewrite Es in H1, H2.
      assert (l <> LO) by (intros ->; apply H1; exists c; split; [apply in_app_iff; right; left; auto|apply char_letter_iff; auto]).
      assert (l <> LT) by (intros ->; apply H2; exists c; split; [apply in_app_iff; right; left; auto|apply char_letter_iff; auto]).
      destruct l; split; try discriminate; congruence. }
    destruct L as [L1 L2]. pose proof (sim_scan l r r' Hr L1) as S.
    destruct (scan_value l r) as [[v q]|] eqn:Ev.
    2:{ rewrite S. split; auto; discriminate. }
    destruct S as (ws & ws' & core & q' & -> & E2 & Hq & Er & Er' & Hw & Hw' & Hcore). rewrite E2.
    assert (Pw' : forallb is_numspace ws' = true).
    { apply plain_blanks; auto. rewrite Es', Er' in Hp. apply plain_app in Hp as [_ Hp]. apply (plain_app [c]) in Hp as [_ Hp].
      rewrite <- app_assoc in Hp. apply plain_app in Hp; tauto. }
    destruct (coerce_blanks l ws ws' core L2 Hw Pw') as [C1 C2]. unfold mk_word.
    assert (Q : (forall x, text2words_fuel k q = Ok x -> text2words_fuel k' q' = Ok x) /\ (plain q -> text2words_fuel k q = text2words_fuel k' q')).
    { apply IH; auto.
      - rewrite Es, Er in Hk. rewrite !app_length in Hk. simpl in Hk. rewrite !app_length in Hk. lia.
      - rewrite Es', Er' in Hk'. rewrite !app_length in Hk'. simpl in Hk'. rewrite !app_length in Hk'. lia.
      - rewrite Es', Er' in Hp. apply plain_app in Hp as [_ Hp]. apply (plain_app [c]) in Hp as [_ Hp]. apply plain_app in Hp; tauto.
      - rewrite Es, Er in Hn. apply no_names_app in Hn. apply (no_names_app [c]) in Hn. apply no_names_app in Hn. auto. }
    destruct Q as [Q1 Q2]. split.
    + intros wl. destruct (coerce l (VStr (ws ++ core))) as [x|]; [|discriminate]. rewrite (C2 x eq_refl). cbn.
      destruct (text2words_fuel k q) as [y|]; [|discriminate]. rewrite (Q1 y eq_refl). auto.
    + intros P. rewrite Es, Er in P. apply plain_app in P as [_ P]. apply (plain_app [c]) in P as [_ P]. apply plain_app in P as [P Pq].
      apply plain_app in P as [P _]. rewrite C1 by (apply plain_blanks; auto). rewrite Q2 by auto. auto.
  - rewrite <- (sim_all_blank s s' H). split.
    + intros ws. destruct (forallb is_space s) eqn:Eb; [|discriminate]. rewrite next_letter_blank; auto.
      rewrite <- (sim_all_blank s s' H). auto.
    + intros P. rewrite N; auto.
Qed.

(** leading blanks *)
Lemma lead_words b s : forallb is_space b = true ->
  (forall ws, text2words (b ++ s) = Ok ws -> text2words s = Ok ws) /\
  (plain b -> text2words (b ++ s) = text2words s).
Proof.
  intros Hb.
  assert (A : forallb (fun c => negb (is_newline c)) b = true -> text2words (b ++ s) = text2words s).
  { intros Hn. unfold text2words.
    assert (G : forall k, length s < k -> length (b ++ s) < k -> text2words_fuel k (b ++ s) = text2words_fuel k s).
    { intros [|k] H1 H2; [lia|]. rewrite !text2words_step, next_letter_skip by auto.
      destruct (next_letter s) as [[[j c] r]|]; cbn [option_map]; auto. rewrite forallb_app, Hb. auto. }
    rewrite G by (rewrite ?app_length; lia).
    (* more fuel changes nothing *)
    assert (F : forall n m s, length s < n -> length s < m -> text2words_fuel n s = text2words_fuel m s).
    { clear. induction n as [|n IH]; intros m s H1 H2; [lia|]. destruct m as [|m]; [lia|]. rewrite !text2words_step.
      destruct (next_letter s) as [[[j c] r]|] eqn:E; auto. apply next_letter_spec in E as (-> & _ & _).
      destruct (letter_of_ascii c) as [l|]; auto. destruct (scan_value l r) as [[v q]|] eqn:Ev; auto.
      apply scan_value_iff in Ev as [-> _]. rewrite (IH m q); auto;
      rewrite !app_length in *; simpl in *; rewrite !app_length in *; lia. }
    apply F; rewrite ?app_length; lia. }
  split.
  - intros ws H. destruct (forallb (fun c => negb (is_newline c)) b) eqn:Hn.
    + rewrite A in H; auto.
    + unfold text2words in H. rewrite text2words_step, next_letter_newline in H by auto.
      rewrite forallb_app, Hb in H. cbn [andb] in H. destruct (forallb is_space s) eqn:Es; [|discriminate].
      inversion H; subst. unfold text2words. rewrite text2words_step, next_letter_blank, Es; auto.
  - intros P. apply A. apply plain_blanks; auto.
Qed.
End WithArith.

(** ** from fields to [sim] *)
Lemma visible_forallb w : Forall (fun c => ~ blank c) w -> forallb (fun c => negb (is_space c)) w = true.
Proof. intros H. apply forallb_forall. intros c Hc. rewrite Forall_forall in H. apply H in Hc. apply visible_iff in Hc. rewrite Hc. auto. Qed.
Lemma sim_visible w s s' : Forall (fun c => ~ blank c) w -> sim s s' -> sim (w ++ s) (w ++ s').
Proof. intros H Hs. induction H; simpl; auto. constructor 2; auto. apply visible_iff; auto. Qed.
Lemma fields_sim s ws : fields s ws -> exists b s1, s = b ++ s1 /\ forallb is_space b = true /\ sim s1 (join [space] ws) .
Proof.
  intros H. induction H as [b Hb|b w r ws Hb Hn Hw Hr Hf (b' & s1 & -> & Hb' & Hs)].
  - exists b, []. rewrite app_nil_r. repeat split; auto. apply Forall_blank; auto. constructor; auto.
  - exists b, (w ++ b' ++ s1). repeat split; auto. apply Forall_blank; auto.
    destruct ws as [|w2 ws].
    + simpl in *. rewrite <- (app_nil_r w) at 2. apply sim_visible; auto. constructor; auto.
      pose proof (sim_all_blank _ _ Hs) as E. simpl in E. rewrite forallb_app, Hb', E. auto.
    + change (join [space] (w :: w2 :: ws)) with (w ++ [space] ++ join [space] (w2 :: ws)). apply sim_visible; auto.
      assert (E : exists c x x', s1 = c :: x /\ join [space] (w2 :: ws) = c :: x' /\ is_space c = false /\ sim x x').
      { inversion Hf as [|b2 w2' r2 ws2 Hb2 Hn2 Hw2 Hr2 Hf2 E1 E2]; subst.
        assert (V : exists c y, w2 = c :: y /\ is_space c = false).
        { destruct w2 as [|c y]; [tauto|]. exists c, y. inversion Hw2; subst. split; auto. apply visible_iff; auto. }
        destruct V as (c & y & -> & Hc).
        destruct (sim_cases _ _ Hs) as [[A B]|X]; auto.
        exfalso. destruct ws; simpl in B; congruence. }
      destruct E as (c & x & x' & -> & -> & Hc & Hx).
      apply (sim_run b' [space] c x x'); auto; try discriminate.
      intros ->. destruct Hr as [Hr|(d & r' & Hr & Hd)]; simpl in Hr; [discriminate|]. inversion Hr; subst. unfold blank in Hd. congruence.
Qed.
Lemma join_plain ws : Forall (Forall (fun c => ~ blank c)) ws -> plain (join [space] ws).
Proof.
  intros H. assert (V : forall w, Forall (fun c => ~ blank c) w -> plain w).
  { intros w Hw c Hc Hb. rewrite Forall_forall in Hw. apply Hw in Hc. unfold blank in Hc. congruence. }
  induction H as [|w ws Hw H IH]. intros c [].
  destruct ws as [|w2 ws]; [simpl; auto|].
  change (join [space] (w :: w2 :: ws)) with (w ++ [space] ++ join [space] (w2 :: ws)).
  apply plain_app. split; auto. apply plain_app. split; auto. intros c [<-|[]] _. split; reflexivity.
Qed.
Lemma fields_all_visible s ws : fields s ws -> Forall (Forall (fun c => ~ blank c)) ws.
Proof. intros H. induction H; constructor; auto. Qed.

Theorem clean_words {ar : Arith} s : no_names s ->
  (forall ws, text2words s = Ok ws -> text2words (clean_text s) = Ok ws) /\
  (plain s -> text2words (clean_text s) = text2words s).
Proof.
  intros Hn. destruct (fields_total s) as [ws Hf]. rewrite (clean_text_fields s ws Hf).
  pose proof (join_plain ws (fields_all_visible _ _ Hf)) as Pj.
  destruct (fields_sim s ws Hf) as (b & s1 & -> & Hb & Hs).
  destruct (lead_words b s1 Hb) as [L1 L2].
  destruct (sim_words (S (length s1)) (S (length (join [space] ws))) s1 (join [space] ws)) as [S1 S2]; auto.
  { eapply no_names_app; eauto. }
  split.
  - intros x Hx. apply S1. apply L1; auto.
  - intros P. apply plain_app in P as [P1 P2]. rewrite L2 by auto. symmetry. apply S2; auto.
Qed.
