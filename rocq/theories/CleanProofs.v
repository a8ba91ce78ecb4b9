(** Blank clean-up by [Block] (block.py:40-41) and its effect on the words. *)
From Coq Require Import Ascii String List Bool Arith ZArith QArith Qcanon Lia.
From Verif Require Import Base Num Regex Words GTable GCode Line BaseFacts RegexFacts FinditerFacts WordsSpec WordsProofs LineSpec CommentProofs.
Import ListNotations.
Local Open Scope nat_scope.

(** ** The two patterns *)
Lemma spaces_here prev s :
  re_here RE_SPACES prev s = match span is_space s with ([], _) => None | (a, b) => Some (MRes a [] b) end.
Proof.
  rewrite re_here_fm. unfold RE_SPACES, plus. rewrite fm_seq, fm_cls. destruct s as [|c s]; auto.
  simpl. destruct (is_space c); auto. destruct (span is_space s) as [a b] eqn:E.
  eapply fm_star_max; eauto.
Qed.
Lemma padding_here prev s :
  re_here RE_PADDING prev s =
  match span is_space s with
  | ([], _) => None
  | (a, b) => match prev, b with
              | None, _ | _, [] => Some (MRes a [(1, a)] b)
              | _, _ => None
              end
  end.
Proof.
  rewrite re_here_fm. unfold RE_PADDING, plus. rewrite fm_grp, fm_alt, !fm_seq, fm_bol, !fm_cls.
  destruct (span is_space s) as [a b] eqn:E. pose proof (span_inv _ _ _ _ E) as (Es & Ha & Hb).
  destruct s as [|c s].
  - destruct a; [|discriminate]. destruct prev; cbn [rest consumed captured]; rewrite ?fm_seq, ?fm_cls; auto.
  - simpl in E. destruct (is_space c) eqn:Ec.
    2:{ inversion E; subst. destruct prev; cbn [rest consumed captured]; rewrite ?fm_seq, ?fm_cls, ?Ec; auto. }
    destruct (span is_space s) as [a' b'] eqn:E'. inversion E; subst. clear E Es. pose proof (span_inv _ _ _ _ E') as (Es & Ha' & _).
    destruct prev.
    + cbn [rest consumed captured]. destruct b as [|d b].
      * rewrite fm_star_max with (a := a') (b := []) (x := MRes (c :: a') [(1, c :: a')] []); auto.
        cbn [rest consumed captured app]. rewrite fm_eol. rewrite app_nil_r. auto.
      * rewrite fm_star_only with (a := a') (b := d :: b); auto; cbn [rest consumed captured app].
        -- rewrite fm_eol. destruct b; auto. destruct (is_newline d) eqn:Ed; auto. apply newline_is_space in Ed. congruence.
        -- intros p x q _ _. rewrite fm_eol. destruct (q ++ d :: b) eqn:Eq; auto. destruct q; discriminate.
    + cbn [rest consumed captured]. rewrite fm_seq, fm_cls, Ec.
      rewrite fm_star_max with (a := a') (b := b) (x := MRes (c :: a') [(1, c :: a')] b); auto.
Qed.
Lemma visible_iff c : ~ blank c <-> is_space c = false.
Proof. unfold blank. destruct (is_space c); split; congruence. Qed.
Lemma ends_visible_tail c r : ends_visible (c :: r) -> ends_visible r.
Proof.
  intros [H|(p & d & H & Hd)]; [discriminate|]. destruct p; simpl in H; inversion H; subst.
  left; auto. right; exists p, d; auto.
Qed.
Lemma padding_first c core ws : ends_visible core -> forallb is_space ws = true -> ws <> [] ->
  first_match RE_PADDING (Some c) (core ++ ws) = Some (core, MRes ws [(1, ws)] []).
Proof.
  revert c. induction core as [|x core IH]; intros c He Hw Hn.
  - simpl app. pose proof (span_all is_space ws []) as Hs. rewrite app_nil_r in Hs.
    assert (E : re_here RE_PADDING (Some c) ws = Some (MRes ws [(1, ws)] [])).
    { rewrite padding_here, Hs by auto. destruct ws; congruence. }
    destruct ws; cbn [first_match]; rewrite E; auto.
  - cbn [app first_match]. rewrite padding_here.
    destruct (span_visible (x :: core) ws) as (p & d & q & E1 & E2 & E3); auto; [discriminate|].
    cbn [app] in E3. rewrite E3.
    rewrite (IH x); auto; [|eapply ends_visible_tail; eauto].
    destruct p; auto.
Qed.
Lemma padding_first_none c core : ends_visible core -> first_match RE_PADDING (Some c) core = None.
Proof.
  revert c. induction core as [|x core IH]; intros c He; cbn [first_match]; rewrite padding_here.
  - auto.
  - destruct (span_visible (x :: core) []) as (p & d & q & E1 & E2 & E3); auto; [discriminate|].
    rewrite app_nil_r in E3. rewrite E3. rewrite IH; [|eapply ends_visible_tail; eauto]. destruct p; auto.
Qed.
Lemma padding_tail k c core ws : ends_visible core -> forallb is_space ws = true -> length ws < k ->
  (let (l, tl) := pieces k RE_PADDING (Some c) (core ++ ws) in glue (fun _ => []) l tl) = core.
Proof.
  intros He Hw Hk. destruct k; [lia|]. cbn [pieces]. destruct ws as [|x ws].
  - rewrite app_nil_r, padding_first_none; auto.
  - rewrite padding_first; auto; [|discriminate]. cbn [rest consumed].
    assert (P : pieces k RE_PADDING (prev_after (Some c) (core ++ x :: ws)) [] = ([], [])).
    { destruct k; auto. cbn [pieces first_match]. rewrite padding_here. auto. }
    rewrite P. unfold glue. simpl. rewrite !app_nil_r. auto.
Qed.
Lemma prev_after_cons p x a : exists c, prev_after p (x :: a) = Some c.
Proof. simpl. eauto. Qed.
Lemma strip_spec b core ws : forallb is_space b = true -> forallb is_space ws = true -> starts_visible core -> ends_visible core ->
  (core = [] -> ws = []) -> re_sub RE_PADDING [] (b ++ core ++ ws) = core.
Proof.
  intros Hb Hw Hs He Hc. rewrite re_sub_pieces.
  assert (Hd : match core ++ ws with [] => True | c :: _ => is_space c = false end).
  { destruct Hs as [->|(c & r & -> & Hv)]; simpl; [rewrite Hc; auto|apply visible_iff; auto]. }
  destruct b as [|x b].
  - simpl app. destruct core as [|c core].
    { rewrite Hc by auto. cbn [app first_match pieces]. rewrite padding_here. auto. }
    cbn [app] in *. rewrite pieces_skip by (rewrite padding_here; cbn [span]; rewrite Hd; auto). f_equal.
    apply padding_tail; auto. eapply ends_visible_tail; eauto. simpl. rewrite app_length. lia.
  - assert (F : first_match RE_PADDING None ((x :: b) ++ core ++ ws) = Some ([], MRes (x :: b) [(1, x :: b)] (core ++ ws))).
    { cbn [app first_match]. rewrite padding_here. rewrite app_comm_cons, (span_all is_space (x :: b)); auto. }
    cbn [pieces]. rewrite F. cbn [rest consumed app]. destruct (prev_after_cons None x b) as [c ->].
    pose proof (padding_tail (length (x :: b ++ core ++ ws)) c core ws He Hw) as P.
    destruct (pieces _ RE_PADDING _ _) as [l tl]. unfold glue in *. cbn [flat_map fst snd]. simpl. apply P.
    simpl. rewrite !app_length. lia.
Qed.
Lemma spaces_first_none prev w : Forall (fun c => ~ blank c) w -> first_match RE_SPACES prev w = None.
Proof.
  intros H. revert prev. induction H as [|c w Hc H IH]; intros prev; cbn [first_match]; rewrite spaces_here; auto.
  apply visible_iff in Hc. simpl. rewrite Hc, IH. auto.
Qed.
Lemma spaces_first prev w b r : Forall (fun c => ~ blank c) w -> b <> [] -> forallb is_space b = true ->
  match r with [] => True | c :: _ => is_space c = false end ->
  first_match RE_SPACES prev (w ++ b ++ r) = Some (w, MRes b [] r).
Proof.
  intros H Hn Hb Hr. revert prev. induction H as [|c w Hc H IH]; intros prev.
  - simpl app. assert (E : re_here RE_SPACES prev (b ++ r) = Some (MRes b [] r)).
    { rewrite spaces_here, span_all; auto. destruct b; congruence. }
    destruct b; [congruence|]. cbn [app first_match] in *. rewrite E. auto.
  - cbn [app first_match]. rewrite spaces_here. apply visible_iff in Hc. cbn [span]. rewrite Hc. rewrite IH. auto.
Qed.
Lemma fields_visible w r ws : w <> [] -> Forall (fun c => ~ blank c) w -> (r = [] \/ exists c r', r = c :: r' /\ blank c) ->
  fields r ws -> fields (w ++ r) (w :: ws).
Proof. intros. apply (f_word []); auto. Qed.
Lemma collapse_spec k prev s ws : fields s ws -> starts_visible s -> ends_visible s -> length s < k ->
  (let (l, tl) := pieces k RE_SPACES prev s in glue (fun _ => [space]) l tl) = join [space] ws.
Proof.
  revert prev s ws. induction k as [|k IH]; intros prev s ws Hf Hs He Hk; [lia|]. cbn [pieces].
  destruct Hf as [b Hb|b w r ws Hb Hn Hw Hr Hf].
  - destruct b as [|c b].
    + cbn [first_match]. rewrite spaces_here. auto.
    + inversion Hb; subst. destruct Hs as [Hs|(x & y & E & Hx)]; [discriminate|]. inversion E; subst. tauto.
  - assert (b = []).
    { destruct b as [|c b]; auto. inversion Hb; subst. destruct Hs as [Hs|(x & y & E & Hx)]; [discriminate|].
      inversion E; subst. tauto. }
    subst b. simpl app in *. destruct Hr as [->|(c & r' & -> & Hc)].
    + rewrite app_nil_r. rewrite spaces_first_none by auto. inversion Hf; subst.
      * unfold glue. simpl. auto.
      * destruct b; destruct w0; try discriminate. congruence.
    + inversion Hf as [b Hb' E1 E2|b w' r'' ws' Hb' Hn' Hw' Hr' Hf' E1 E2]; subst.
      * exfalso. destruct He as [He|(p & d & He & Hd)]. destruct w; discriminate.
        destruct (exists_last (l := c :: r')) as (q & y & Eq); [discriminate|]. rewrite Eq in He, Hb'.
        rewrite app_assoc in He. apply app_inj_tail in He as [_ ->]. apply Forall_app in Hb' as [_ Hb']. inversion Hb'; auto.
      * assert (Bn : b <> []).
        { intros ->. simpl in E1. destruct w' as [|y w']; [tauto|]. inversion E1; subst. inversion Hw'; auto. }
        rewrite <- E1 in *. clear E1.
        assert (Hv : starts_visible (w' ++ r'')).
        { right. destruct w' as [|y w']; [tauto|]. exists y, (w' ++ r''). inversion Hw'; auto. }
        rewrite spaces_first; auto. 2: apply Forall_blank; auto.
        2:{ destruct Hv as [->|(y & z & -> & Hy)]; auto. apply visible_iff; auto. }
        cbn [rest consumed].
        specialize (IH (prev_after prev (w ++ b)) (w' ++ r'') (w' :: ws') (fields_visible _ _ _ Hn' Hw' Hr' Hf') Hv).
        destruct (pieces k RE_SPACES _ _) as [l tl]. unfold glue in *. cbn [flat_map fst snd]. rewrite <- !app_assoc.
        rewrite IH; [destruct ws'; auto| |].
        -- destruct He as [He|(p & d & He & Hd)]. { destruct w; [congruence|discriminate]. }
           assert (N : w' ++ r'' <> []) by (destruct w'; [tauto|discriminate]).
           destruct (exists_last N) as (q & y & Eq). rewrite Eq in *. rewrite !app_assoc in He. apply app_inj_tail in He as [_ ->].
           right. exists q, d. auto.
        -- rewrite !app_length in *. destruct w; [tauto|]. simpl in *. lia.
Qed.
Lemma fields_total s : exists ws, fields s ws.
Proof.
  remember (length s) as n. revert s Heqn. induction n as [n IH] using lt_wf_ind. intros s ->.
  destruct (span is_space s) as [b s1] eqn:E. apply span_inv in E as (-> & Hb & H1). apply Forall_blank in Hb.
  destruct (span (fun c => negb (is_space c)) s1) as [w r] eqn:E. apply span_inv in E as (-> & Hw & Hr).
  destruct w as [|c w].
  - destruct r as [|c r]; simpl in *.
    + exists []. rewrite app_nil_r. constructor; auto.
    + rewrite H1 in Hr. discriminate.
  - destruct (IH (length r)) with (s := r) as [ws Hf]; auto.
    { rewrite !app_length. simpl. lia. }
    exists ((c :: w) :: ws). constructor; auto. discriminate.
    + rewrite forallb_forall in Hw. apply Forall_forall. intros x Hx. apply visible_iff. apply Hw in Hx. destruct (is_space x); auto.
    + destruct r as [|d r]; auto. right. exists d, r. split; auto. unfold blank. destruct (is_space d); auto.
Qed.
(** trimming: a text with at least one visible character is blanks, a core, blanks *)
Lemma fields_strip s ws : fields s ws -> exists b core e, s = b ++ core ++ e /\ Forall blank b /\ Forall blank e /\
  starts_visible core /\ ends_visible core /\ fields core ws /\ (core = [] -> e = []).
Proof.
  intros H. induction H as [b Hb|b w r ws Hb Hn Hw Hr Hf (b' & core & e & -> & Hb' & He & Hs & Hv & Hf' & Hc)].
  - exists b, [], []. rewrite app_nil_r. repeat split; auto; try (left; auto; fail).
  - assert (Wv : starts_visible w /\ ends_visible w).
    { split; right.
      - destruct w as [|c w]; [tauto|]. exists c, w. inversion Hw; auto.
      - destruct (exists_last Hn) as (p & c & ->). exists p, c. split; auto. apply Forall_app in Hw as [_ Hw]. inversion Hw; auto. }
    destruct Wv as [Ws We].
    destruct core as [|c core].
    + rewrite Hc in * by auto. exists b, w, b'. simpl app. rewrite app_nil_r. repeat split; auto; [|tauto].
      inversion Hf'; subst.
      * apply (f_word [] w []) with (ws := []) in Hn; auto. simpl in Hn. rewrite app_nil_r in Hn. auto.
      * destruct b0; destruct w0; try discriminate; congruence.
    + exists b, (w ++ b' ++ c :: core), e. rewrite <- !app_assoc. repeat split; auto.
      * destruct Ws as [->|(y & z & -> & Hy)]; [tauto|]. right. exists y, (z ++ b' ++ c :: core). auto.
      * destruct Hv as [Hv|(p & d & Hv & Hd)]; [discriminate|]. right. exists (w ++ b' ++ p), d. rewrite Hv, !app_assoc. auto.
      * apply fields_visible; auto.
        -- destruct Hr as [Hr|(x & y & Hr & Hx)]; [destruct b'; discriminate|]. right.
           destruct b' as [|z b']; simpl in *; inversion Hr; subst; eauto.
        -- inversion Hf' as [b0 Hb0 E1 E2|b0 w0 r0 ws0 Hb0 Hn0 Hw0 Hr0 Hf0 E1 E2]; subst.
           ++ constructor. apply Forall_app; auto.
           ++ rewrite app_assoc. constructor; auto. apply Forall_app; auto.
      * intros E. destruct w; [tauto|discriminate].
Qed.
Lemma clean_text_fields s ws : fields s ws -> clean_text s = join [space] ws.
Proof.
  intros H. destruct (fields_strip s ws H) as (b & core & e & -> & Hb & He & Hs & Hv & Hf & Hc).
  apply Forall_blank in Hb. apply Forall_blank in He.
  unfold clean_text. rewrite strip_spec by auto. rewrite re_sub_pieces. apply collapse_spec; auto.
Qed.
