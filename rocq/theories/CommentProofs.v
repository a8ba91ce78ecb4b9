(** Comments and lines: the regexes do what LineSpec says. *)
From Coq Require Import Ascii String List Bool Arith Lia.
From Verif Require Import Base Num Regex Words GTable GCode Line BaseFacts RegexFacts FinditerFacts WordsSpec WordsProofs LineSpec.
Import ListNotations.
Local Open Scope nat_scope.

Lemma span_all {A} (f : A -> bool) a r :
  forallb f a = true -> (match r with [] => True | c :: _ => f c = false end) -> span f (a ++ r) = (a, r).
Proof.
  intros H Hr. induction a as [|x a IH]; simpl in *.
  - destruct r; auto. simpl. rewrite Hr. auto.
  - apply andb_true_iff in H as [Hx H]. rewrite Hx, IH; auto.
Qed.
Lemma span_inv {A} (f : A -> bool) s a r : span f s = (a, r) ->
  s = a ++ r /\ forallb f a = true /\ match r with [] => True | c :: _ => f c = false end.
Proof.
  revert a r. induction s as [|x s IH]; simpl; intros a r H.
  - inversion H; subst; auto.
  - destruct (f x) eqn:E.
    + destruct (span f s) as [a' b']. inversion H; subst. destruct (IH _ _ eq_refl) as (-> & H1 & H2).
      simpl. rewrite E. auto.
    + inversion H; subst. auto.
Qed.
Lemma no_newline_dot s : ~ In newline s <-> forallb is_dot s = true.
Proof.
  rewrite forallb_forall. unfold is_dot. split.
  - intros H c Hc. destruct (is_newline c) eqn:E; auto. apply newline_char in E. subst. tauto.
  - intros H Hn. apply H in Hn. discriminate.
Qed.
Lemma semi_not_space c : is_space c = true -> Ascii.eqb ";" c = false.
Proof. destruct (Ascii.eqb ";" c) eqn:E; auto. apply Ascii.eqb_eq in E. subst. discriminate. Qed.
Lemma eqb_refl_a c : Ascii.eqb c c = true. Proof. apply Ascii.eqb_refl. Qed.

(** ** Semicolon comments *)
Lemma semi_here prev s : ~ In newline s ->
  re_here RE_SEMICOLON prev s =
  match span is_space s with
  | (_, c :: b) => if Ascii.eqb ";" c then Some (MRes s [(1, snd (span is_space b))] []) else None
  | _ => None
  end.
Proof.
  intros Hn. rewrite re_here_fm. unfold RE_SEMICOLON. rewrite fm_seq.
  destruct (span is_space s) as [ws r] eqn:E. destruct (span_inv _ _ _ _ E) as (Es & Hw & Hr).
  rewrite (fm_star_only _ _ _ _ ws r E).
  2:{ intros p c q _ Hc. cbn [rest consumed]. rewrite fm_seq. unfold chr. rewrite fm_cls. rewrite semi_not_space; auto. }
  cbn [rest consumed captured]. rewrite fm_seq. unfold chr. rewrite fm_cls.
  destruct r as [|c b]; auto. destruct (Ascii.eqb ";" c) eqn:Ec; auto.
  cbn [rest consumed captured app]. rewrite fm_seq.
  destruct (span is_space b) as [ws' d] eqn:E'. destruct (span_inv _ _ _ _ E') as (Eb & Hw' & Hd). subst.
  eapply fm_star_max; eauto. cbn [rest consumed captured app]. rewrite fm_seq, fm_grp.
  eapply fm_star_max with (a := d) (b := []).
  { pose proof (span_all is_dot d []) as H. rewrite app_nil_r in H. apply H; auto.
    apply no_newline_dot. intros X. apply Hn. rewrite !in_app_iff. simpl. rewrite in_app_iff. auto. }
  cbn [rest consumed captured app]. rewrite fm_eol. rewrite app_nil_r. auto.
Qed.
Lemma span_visible a r : a <> [] -> ends_visible a ->
  exists p c q, a = p ++ c :: q /\ is_space c = false /\ span is_space (a ++ r) = (p, c :: q ++ r).
Proof.
  intros Hn He. destruct (span is_space a) as [p q] eqn:E. apply span_inv in E as (-> & Hp & Hq).
  destruct q as [|c q].
  - exfalso. rewrite app_nil_r in *. destruct He as [->|(z & c & -> & Hc)]; [tauto|].
    rewrite forallb_app in Hp. apply andb_true_iff in Hp as [_ Hp]. simpl in Hp. apply Hc. unfold blank.
    destruct (is_space c); auto.
  - exists p, c, q. split; auto. split; auto. rewrite <- app_assoc. simpl. apply span_all; auto.
Qed.
Lemma semi_first prev b ws c : ends_visible b -> ~ In ";"%char b -> forallb is_space ws = true ->
  ~ In newline (b ++ ws ++ ";"%char :: c) ->
  first_match RE_SEMICOLON prev (b ++ ws ++ ";"%char :: c) =
  Some (b, MRes (ws ++ ";"%char :: c) [(1, snd (span is_space c))] []).
Proof.
  revert prev. induction b as [|x b IH]; intros prev He Hs Hw Hn.
  - simpl app in *. rewrite (surjective_pairing (span is_space c)) in *.
    assert (E : re_here RE_SEMICOLON prev (ws ++ ";"%char :: c) = Some (MRes (ws ++ ";"%char :: c) [(1, snd (span is_space c))] [])).
    { rewrite semi_here by auto. rewrite span_all; auto. }
    destruct ws; cbn [app first_match] in *; rewrite E; auto.
  - cbn [app first_match]. rewrite semi_here by auto.
    destruct (span_visible (x :: b) (ws ++ ";"%char :: c)) as (p & d & q & E1 & E2 & E3); auto. discriminate.
    cbn [app] in E3. rewrite E3.
    destruct (Ascii.eqb ";" d) eqn:Ed.
    { apply Ascii.eqb_eq in Ed. subst d. exfalso. apply Hs. rewrite E1. apply in_app_iff. simpl; auto. }
    rewrite IH; auto.
    + destruct He as [He|(z & y & He & Hy)]; [discriminate|]. destruct z; simpl in He; inversion He; subst.
      left; auto. right; exists z, y; auto.
    + intros X. apply Hs. right; auto.
    + intros X. apply Hn. right; auto.
Qed.
Lemma semi_first_none prev s : ~ In newline s -> ~ In ";"%char s -> first_match RE_SEMICOLON prev s = None.
Proof.
  revert prev. induction s as [|x s IH]; intros prev Hn Hs; cbn [first_match]; rewrite semi_here by auto.
  - auto.
  - destruct (span is_space (x :: s)) as [ws [|c b]] eqn:E.
    + rewrite IH; auto; intros X; [apply Hn|apply Hs]; right; auto.
    + destruct (Ascii.eqb ";" c) eqn:Ec.
      * apply Ascii.eqb_eq in Ec. subst. apply span_inv in E as (E & _). exfalso. apply Hs. rewrite E.
        apply in_app_iff. simpl; auto.
      * rewrite IH; auto; intros X; [apply Hn|apply Hs]; right; auto.
Qed.
Lemma rstrip_newlines_spec s nls : ~ In newline s -> Forall (eq newline) nls -> rstrip_newlines (s ++ nls) = s.
Proof.
  intros Hs Hn. unfold rstrip_newlines. rewrite rev_app_distr.
  rewrite drop_while_app.
  2:{ rewrite forallb_rev. apply forallb_forall. intros x Hx. rewrite Forall_forall in Hn. rewrite <- (Hn x Hx). reflexivity. }
  destruct (rev s) as [|c r] eqn:E.
  - simpl. apply rev_eq_nil in E. auto.
  - simpl. destruct (is_newline c) eqn:Ec.
    + apply newline_char in Ec. subst. exfalso. apply Hs. apply in_rev. rewrite E. left; auto.
    + rewrite <- E. apply rev_involutive.
Qed.
Lemma split_line_semi s nls b c : ~ In newline s -> Forall (eq newline) nls -> semicolon_parts s b c ->
  split_line (s ++ nls) = (b, Some (Comment CommentSemicolon c)).
Proof.
  intros Hs Hn (ws & ws' & E & Hw & Hw' & Hb & Hc & Hsemi). unfold split_line.
  rewrite rstrip_newlines_spec by auto. apply Forall_blank in Hw. apply Forall_blank in Hw'.
  assert (H : span is_space (ws' ++ c) = (ws', c)).
  { apply span_all; auto. destruct Hc as [->|(x & r & -> & Hx)]; auto. unfold blank in Hx. destruct (is_space x); congruence. }
  assert (P : pieces (S (length s)) RE_SEMICOLON None s = ([(b, MRes (ws ++ ";"%char :: ws' ++ c) [(1, c)] [])], [])).
  { assert (F : first_match RE_SEMICOLON None s = Some (b, MRes (ws ++ ";"%char :: ws' ++ c) [(1, c)] [])).
    { rewrite E. rewrite semi_first; auto; [|rewrite <- E; auto]. rewrite H. auto. }
    cbn [pieces]. rewrite F. cbn [rest consumed snd].
    destruct s as [|x s]; [destruct b; destruct ws; discriminate|]. cbn [length pieces]. cbn [first_match].
    rewrite semi_here by auto. auto. }
  assert (R : remove_spans (finditer RE_SEMICOLON s) s = b).
  { rewrite remove_spans_finditer, P. unfold glue. simpl. rewrite !app_nil_r. auto. }
  assert (M : match_texts (finditer RE_SEMICOLON s) = [c]).
  { rewrite finditer_pieces, P. cbn [fst]. rewrite match_texts_spans. auto. }
  assert (N : finditer RE_SEMICOLON s <> []).
  { rewrite finditer_pieces, P. discriminate. }
  destruct (finditer RE_SEMICOLON s) as [|m ms]; [tauto|]. rewrite R, M. auto.
Qed.
Lemma finditer_semi_none s : ~ In newline s -> ~ In ";"%char s -> finditer RE_SEMICOLON s = [].
Proof. intros. rewrite finditer_pieces. cbn [pieces]. rewrite semi_first_none; auto. Qed.

(** ** Bracket comments *)
Lemma bracket_here prev s :
  re_here RE_BRACKETS prev s =
  match s with
  | c :: s' => if Ascii.eqb "(" c then
                 match span not_rparen s' with
                 | (x, d :: r) => Some (MRes (c :: x ++ [d]) [(1, x)] r)
                 | _ => None
                 end
               else None
  | [] => None
  end.
Proof.
  rewrite re_here_fm. unfold RE_BRACKETS. rewrite fm_seq. unfold chr at 1. rewrite fm_cls.
  destruct s as [|c s]; auto. destruct (Ascii.eqb "(" c); auto. cbn [rest consumed captured app].
  rewrite fm_seq, fm_grp. destruct (span not_rparen s) as [x r] eqn:E.
  rewrite (fm_star_only _ _ _ _ x r E).
  - cbn [rest consumed captured app]. unfold chr. rewrite fm_cls. destruct r as [|d r]; auto.
    apply span_inv in E as (_ & _ & Hd). unfold not_rparen in Hd. rewrite Ascii.eqb_sym. destruct (Ascii.eqb d ")"); auto. discriminate.
  - intros p d q Ex Hd. cbn [rest consumed captured app]. unfold chr. rewrite fm_cls.
    unfold not_rparen in Hd. rewrite Ascii.eqb_sym. destruct (Ascii.eqb d ")"); auto. discriminate.
Qed.
Lemma not_in_rparen c : ~ In ")"%char c <-> forallb not_rparen c = true.
Proof.
  rewrite forallb_forall. unfold not_rparen. split.
  - intros H x Hx. destruct (Ascii.eqb x ")") eqn:E; auto. apply Ascii.eqb_eq in E. subst. tauto.
  - intros H X. apply H in X. discriminate.
Qed.
Lemma bracket_first prev a c r : ~ In "("%char a -> ~ In ")"%char c ->
  first_match RE_BRACKETS prev (a ++ "("%char :: c ++ ")"%char :: r) =
  Some (a, MRes ("("%char :: c ++ [")"%char]) [(1, c)] r).
Proof.
  revert prev. induction a as [|x a IH]; intros prev Ha Hc; cbn [app first_match]; rewrite bracket_here.
  - rewrite span_all; auto. apply not_in_rparen; auto.
  - destruct (Ascii.eqb "(" x) eqn:E. apply Ascii.eqb_eq in E. subst. exfalso. apply Ha; left; auto.
    rewrite IH; auto. intros X; apply Ha; right; auto.
Qed.
Lemma bracket_first_none prev s : (forall a b, s = a ++ "("%char :: b -> ~ In ")"%char b) ->
  first_match RE_BRACKETS prev s = None.
Proof.
  revert prev. induction s as [|x s IH]; intros prev H; cbn [first_match]; rewrite bracket_here; auto.
  rewrite IH. 2:{ intros a b ->. apply (H (x :: a)); auto. }
  destruct (Ascii.eqb "(" x) eqn:E; auto. apply Ascii.eqb_eq in E. subst x.
  specialize (H [] s eq_refl). destruct (span not_rparen s) as [y [|d r]] eqn:Es; auto.
  apply span_inv in Es as (-> & _ & Hd). exfalso. apply H. apply in_app_iff. right; left.
  unfold not_rparen in Hd. destruct (Ascii.eqb d ")") eqn:E; [|discriminate]. apply Ascii.eqb_eq in E; auto.
Qed.
Lemma bracket_pieces k prev s out ins : bracket_parts s out ins -> length s < k ->
  exists l tl, pieces k RE_BRACKETS prev s = (l, tl) /\ glue (fun _ => []) l tl = out /\
    map (fun gm => match dget Nat.eqb (captured (snd gm)) 1 with Some x => x | None => [] end) l = ins.
Proof.
  intros H. revert k prev. induction H as [s H|a c r out ins Ha Hc H IH]; intros k prev Hk.
  - exists [], s. destruct k; [lia|]. cbn [pieces]. rewrite bracket_first_none; auto.
  - destruct k; [lia|]. cbn [pieces]. rewrite bracket_first by auto. cbn [rest consumed].
    destruct (IH k (prev_after prev (a ++ "("%char :: c ++ [")"%char]))) as (l & tl & -> & E1 & E2).
    { rewrite !app_length in Hk. simpl in Hk. rewrite app_length in Hk. simpl in Hk. lia. }
    eexists _, _. split; [reflexivity|]. unfold glue in *. cbn [flat_map fst snd captured map]. rewrite app_nil_r, <- app_assoc, E1, E2. auto.
Qed.
Lemma split_line_brackets s nls out ins : ~ In newline s -> Forall (eq newline) nls -> ~ In ";"%char s ->
  bracket_parts s out ins ->
  split_line (s ++ nls) = (out, match ins with [] => None | _ => Some (Comment CommentBrackets (join (t ". ") ins)) end).
Proof.
  intros Hs Hn Hsemi H. unfold split_line. rewrite rstrip_newlines_spec, finditer_semi_none by auto.
  destruct (bracket_pieces (S (length s)) None s out ins H) as (l & tl & P & E1 & E2); [lia|].
  pose proof (remove_spans_finditer RE_BRACKETS s) as R. rewrite P in R.
  assert (M : match_texts (finditer RE_BRACKETS s) = ins) by (rewrite finditer_pieces, P; cbn [fst]; rewrite match_texts_spans; auto).
  rewrite finditer_pieces, P in *. cbn [fst] in *. destruct l as [|[g m] l]; cbn [spans] in *.
  - unfold glue in *. simpl in *. subst. inversion H; subst; auto.
  - rewrite R, E1, M. subst ins. auto.
Qed.
Lemma first_paren_dec (s : text) : (exists a b, s = a ++ "("%char :: b /\ ~ In "("%char a) \/ ~ In "("%char s.
Proof.
  induction s as [|x s IH]; simpl; auto. destruct (ascii_dec x "(") as [->|N].
  - left. exists [], s. simpl; auto.
  - destruct IH as [(a & b & -> & H)|H].
    + left. exists (x :: a), b. simpl. split; auto. intros [X|X]; auto.
    + right. intros [X|X]; auto.
Qed.
Lemma bracket_parts_total s : exists out ins, bracket_parts s out ins.
Proof.
  remember (length s) as n. revert s Heqn. induction n as [n IH] using lt_wf_ind. intros s ->.
  destruct (first_paren_dec s) as [(a & b & -> & Ha)|H].
  - destruct (span not_rparen b) as [c [|d r]] eqn:E.
    + exists (a ++ "("%char :: b), []. constructor. intros a' b' Hb.
      assert (L : ~ In ")"%char b). { apply span_inv in E as (-> & H & _). rewrite app_nil_r. apply not_in_rparen; auto. }
      assert (G : forall x, In x b' -> In x b).
      { clear -Ha Hb. revert a' Hb. induction a as [|y a IH]; intros a' Hb.
        - destruct a'; simpl in Hb; inversion Hb; subst; auto. intros x Hx. apply in_app_iff. right; right; auto.
        - destruct a'; simpl in Hb; inversion Hb; subst.
          + exfalso. apply Ha; left; auto.
          + eapply IH; eauto. intros X; apply Ha; right; auto. }
      auto.
    + apply span_inv in E as (-> & Hc & Hd). unfold not_rparen in Hd. destruct (Ascii.eqb d ")") eqn:Ed; [|discriminate].
      apply Ascii.eqb_eq in Ed. subst d.
      destruct (IH (length r)) with (s := r) as (out & ins & H); auto.
      { rewrite !app_length. simpl. rewrite app_length. simpl. lia. }
      exists (a ++ out), (c :: ins). constructor; auto. apply not_in_rparen; auto.
  - exists s, []. constructor. intros a b ->. exfalso. apply H. apply in_app_iff. simpl; auto.
Qed.
Lemma semicolon_total s : In ";"%char s -> exists b c, semicolon_parts s b c.
Proof.
  intros H. apply in_split in H.
  assert (G : exists a r, s = a ++ ";"%char :: r /\ ~ In ";"%char a).
  { destruct H as (a & r & ->). revert r. induction a as [|x a IH]; intros r.
    - exists [], r. simpl; auto.
    - destruct (ascii_dec x ";") as [->|N].
      + exists [], (a ++ ";"%char :: r). simpl; auto.
      + destruct (IH r) as (a' & r' & E & H'). exists (x :: a'), r'. simpl. rewrite E. split; auto. intros [X|X]; auto. }
  clear H. destruct G as (a & r & -> & Ha).
  assert (V : exists b ws, a = b ++ ws /\ Forall blank ws /\ ends_visible b).
  { clear. induction a as [|x a (b & ws & -> & Hw & Hb)] using rev_ind.
    - exists [], []. repeat split; auto. left; auto.
    - destruct (is_space x) eqn:E.
      + exists b, (ws ++ [x]). rewrite app_assoc. repeat split; auto. apply Forall_app; auto.
      + exists ((b ++ ws) ++ [x]), []. rewrite app_nil_r. repeat split; auto. right. exists (b ++ ws), x.
        split; auto. unfold blank. congruence. }
  destruct V as (b & ws & -> & Hw & Hb).
  destruct (span is_space r) as [ws' c] eqn:E. apply span_inv in E as (-> & Hw' & Hc).
  exists b, c, ws, ws'. rewrite <- app_assoc. repeat split; auto.
  - apply Forall_blank; auto.
  - destruct c as [|x c]; [left; auto|right; exists x, c]. unfold blank. split; auto. congruence.
  - intros X. apply Ha. apply in_app_iff; auto.
Qed.
Lemma with_brackets_parts l last :
  Forall (fun gc => ~ In "("%char (fst gc) /\ ~ In ")"%char (snd gc)) l ->
  ~ In "("%char last ->
  bracket_parts (with_brackets l last) (flat_map fst l ++ last) (map snd l).
Proof.
  intros H Hl. induction H as [|[g c] l [Hg Hc] H IH]; unfold with_brackets in *; cbn [flat_map fst snd map].
  - constructor. intros a b E _. simpl in E. subst last. apply Hl. apply in_app_iff. simpl; auto.
  - rewrite <- !app_assoc. cbn [app]. rewrite <- !app_assoc. cbn [app]. constructor; auto.
Qed.

(** ** LINE_REGEX *)
Lemma ws_eol {B} prev s (k : mres -> option B) :
  (forallb is_space s = true -> k (MRes s [] []) <> None) ->
  fm (Seq (Star is_space) Eol) prev s k = if forallb is_space s then k (MRes s [] []) else None.
Proof.
  intros Hk. rewrite fm_seq. destruct (span is_space s) as [a b] eqn:E. pose proof (span_inv _ _ _ _ E) as (Es & Ha & Hb).
  destruct (forallb is_space s) eqn:Ef.
  - specialize (Hk eq_refl). destruct (k (MRes s [] [])) as [x|] eqn:Ek; [|tauto].
    assert (b = []). { destruct b as [|c b]; auto. subst s. rewrite forallb_app in Ef. simpl in Ef. rewrite Hb, andb_false_r in Ef. discriminate. }
    subst b. eapply fm_star_max; eauto. cbn [rest consumed captured app]. rewrite fm_eol. cbn [rest consumed captured app].
    rewrite app_nil_r in *. subst; auto.
  - rewrite (fm_star_only _ _ _ _ a b E); cbn [rest consumed captured app].
    + rewrite fm_eol. destruct b as [|c [|d b]]; auto.
      * subst. rewrite app_nil_r in Ef. congruence.
      * destruct (is_newline c) eqn:En; auto. apply newline_is_space in En. congruence.
    + intros p c q Ep Hc. rewrite fm_eol. destruct (q ++ b) as [|d r] eqn:Eq.
      * destruct (is_newline c) eqn:En; auto. subst. rewrite <- app_assoc in Ef. simpl in Ef. rewrite Eq in Ef.
        rewrite forallb_app in Ha. apply andb_true_iff in Ha as [Ha _]. rewrite forallb_app, Ha in Ef. simpl in Ef. rewrite Hc in Ef. discriminate.
      * auto.
Qed.
Definition MACRO_TAIL : re :=
  Seq (Opt (Grp 2 (Seq (chr "%"%char) (Seq (Star is_dot) (Opt (chr "%"%char)))))) (Seq (Star is_space) Eol).
Definition macro_tail (s : text) : option (text * option text) :=
  match s with
  | c :: m => if Ascii.eqb "%" c then
                let (d, tl) := span is_dot m in if forallb is_space tl then Some (s, Some (c :: d)) else None
              else if forallb is_space s then Some (s, None) else None
  | [] => Some ([], None)
  end.
Definition mcap (o : option text) : caps := match o with Some m => [(2, m)] | None => [] end.
Lemma macro_tail_fm {B} prev s (k : mres -> option B) :
  (forall a b c, k (MRes a b c) <> None) ->
  fm MACRO_TAIL prev s k = match macro_tail s with Some (x, m) => k (MRes x (mcap m) []) | None => None end.
Proof.
  intros Hk. unfold MACRO_TAIL. rewrite fm_seq, fm_opt, fm_grp, fm_seq. unfold chr at 1. rewrite fm_cls.
  destruct s as [|c m].
  - rewrite ws_eol by (intros; apply Hk). auto.
  - cbn [macro_tail]. destruct (Ascii.eqb "%" c) eqn:Ec.
    + apply Ascii.eqb_eq in Ec. subst c. cbn [rest consumed captured app]. rewrite fm_seq.
      destruct (span is_dot m) as [d tl] eqn:Ed. pose proof (span_inv _ _ _ _ Ed) as (Em & Hd & Ht).
      destruct (forallb is_space tl) eqn:Etl.
      * cbn [mcap]. destruct (k (MRes ("%"%char :: m) [(2, "%"%char :: d)] [])) as [x|] eqn:Ek; [|exfalso; eapply Hk; eauto].
        rewrite (fm_star_max _ _ _ _ d tl x Ed); auto. cbn [rest consumed captured app]. rewrite fm_opt. unfold chr. rewrite fm_cls.
        cbn [rest consumed captured app]. rewrite ws_eol by (intros; apply Hk). rewrite Etl. cbn [rest consumed captured app].
        rewrite (app_nil_r d), <- Em.
        destruct tl as [|e tl]; [exact Ek|]. destruct (Ascii.eqb "%" e) eqn:Ee; [|exact Ek].
        apply Ascii.eqb_eq in Ee. subst e. discriminate Etl.
      * rewrite (fm_star_only _ _ _ _ d tl Ed).
        -- cbn [rest consumed captured app]. rewrite fm_opt. unfold chr. rewrite fm_cls. rewrite ws_eol by (intros; apply Hk).
           cbn [rest consumed captured app]. rewrite Etl. rewrite ws_eol by (intros; apply Hk). simpl.
           destruct tl as [|e tl]; auto. rewrite ws_eol by (intros; apply Hk). cbn [rest].
           destruct (Ascii.eqb "%" e) eqn:Ee; auto. exfalso. apply Ascii.eqb_eq in Ee. subst e. discriminate Ht.
        -- intros p e q Ep He. cbn [rest consumed captured app]. rewrite fm_opt. unfold chr. rewrite fm_cls.
           assert (N1 : forallb is_space (q ++ tl) = false).
           { rewrite forallb_app, Etl, andb_false_r. auto. }
           cbn [rest consumed captured app].
           rewrite !ws_eol by (intros; apply Hk). cbn [forallb]. rewrite N1, andb_false_r. destruct (Ascii.eqb "%" e); auto.
    + rewrite ws_eol by (intros; apply Hk). cbn [rest consumed captured app mcap]. destruct (forallb is_space (c :: m)); auto.
Qed.
Fixpoint line_scan (s : text) : option (text * text * option text) :=
  match macro_tail s with
  | Some (x, m) => Some ([], x, m)
  | None => match s with
            | [] => None
            | c :: s' => if is_newline c then None else option_map (fun '(b, x, m) => (c :: b, x, m)) (line_scan s')
            end
  end.
Lemma line_scan_fm s (K : text -> text -> option text -> option mres) :
  (forall a b c, K a b c <> None) ->
  fm (StarLazy is_dot) None s (fun m => match macro_tail (rest m) with Some (x, o) => K (consumed m) x o | None => None end) =
  match line_scan s with Some (b, x, m) => K b x m | None => None end.
Proof.
  revert K. induction s as [|c s IH]; intros K HK; cbn [line_scan].
  - rewrite fm_lazy_nil. cbn. destruct (K [] [] None) eqn:E; auto.
  - rewrite fm_lazy_cons. cbn [rest consumed].
    destruct (macro_tail (c :: s)) as [[x o]|] eqn:E.
    + destruct (K [] x o) eqn:EK; auto. exfalso; eapply HK; eauto.
    + unfold is_dot at 1. destruct (is_newline c); cbn [negb]; auto. cbn [rest consumed].
      rewrite (IH (fun b x o => K (c :: b) x o)) by (intros; apply HK).
      destruct (line_scan s) as [[[b x] o]|]; auto.
Qed.
Lemma search_line s :
  line_parts s = match line_scan s with Some (b, _, m) => Ok (b, m) | None => Raise EAttributeError end.
Proof.
  unfold line_parts, LINE_REGEX. rewrite search_anchored.
  fold MACRO_TAIL. rewrite fm_seq, fm_opt, fm_grp.
  assert (E : fm (StarLazy is_dot) None s (fun m => fm MACRO_TAIL (prev_after None (consumed (MRes (consumed m) ((1, consumed m) :: captured m) (rest m))))
      (rest (MRes (consumed m) ((1, consumed m) :: captured m) (rest m)))
      (fun m' => Some (MRes (consumed (MRes (consumed m) ((1, consumed m) :: captured m) (rest m)) ++ consumed m')
         (captured (MRes (consumed m) ((1, consumed m) :: captured m) (rest m)) ++ captured m') (rest m')))) =
     match line_scan s with Some (b, x, m) => Some (MRes (b ++ x) ((1, b) :: mcap m) []) | None => None end).
  { rewrite <- (line_scan_fm s (fun b x m => Some (MRes (b ++ x) ((1, b) :: mcap m) []))) by discriminate.
    apply first_some_ext. intros m Hm. cbn [rest consumed captured]. rewrite macro_tail_fm by discriminate.
    destruct (macro_tail (rest m)) as [[x o]|]; auto. cbn [rest consumed captured].
    assert (captured m = []) as ->; auto.
    cbn [mtch] in Hm. apply in_rev in Hm. clear -Hm. revert m Hm. induction s as [|x s IH]; cbn; intros m Hm.
    - destruct Hm as [<-|[]]; auto.
    - destruct (is_dot x).
      + apply in_app_iff in Hm as [Hm|[<-|[]]]; auto. apply in_map_iff in Hm as (m' & <- & _). auto.
      + destruct Hm as [<-|[]]; auto. }
  rewrite E. destruct (line_scan s) as [[[b x] o]|] eqn:El.
  - simpl. unfold group. simpl. destruct o; auto.
  - rewrite macro_tail_fm by discriminate. cbn [rest consumed captured].
    destruct (macro_tail s) as [[x o]|] eqn:Em; auto.
    destruct s; cbn [line_scan] in El; rewrite Em in El; discriminate.
Qed.

Lemma one_line_tail d tl : ~ In newline d -> (tl = [] \/ exists ws, tl = newline :: ws /\ Forall blank ws) -> one_line (d ++ tl).
Proof.
  intros Hd Ht a b E. induction d as [|x d IH] in a, E, Hd |- *.
  - destruct Ht as [->|(ws & -> & Hw)]; simpl in E. destruct a; discriminate.
    destruct a as [|y a]; simpl in E; inversion E; subst; auto. apply Forall_app in Hw as [_ Hw]. inversion Hw; auto.
  - destruct a as [|y a]; simpl in E; inversion E; subst.
    + exfalso. apply Hd; left; auto.
    + refine (IH _ a _); auto. intros X; apply Hd; right; auto.
Qed.
Lemma Forall_blank_one_line bc ws : ~ In newline bc -> Forall blank ws -> one_line (bc ++ ws).
Proof.
  intros Hd Hw a b E. induction bc as [|x d IH] in a, E, Hd |- *.
  - simpl in E. subst. apply Forall_app in Hw as [_ Hw]. inversion Hw; auto.
  - destruct a as [|y a]; simpl in E; inversion E; subst.
    + exfalso. apply Hd; left; auto.
    + refine (IH _ a _); auto. intros X; apply Hd; right; auto.
Qed.
Lemma line_split_one_line s b m : line_split s b m -> one_line s.
Proof.
  intros [bc ws H1 H2 H3 H4|bc m' tl H1 H2 H3 H4].
  - apply Forall_blank_one_line; auto.
  - replace (bc ++ "%"%char :: m' ++ tl) with ((bc ++ "%"%char :: m') ++ tl) by (rewrite <- app_assoc; auto).
    apply one_line_tail; auto. rewrite in_app_iff. simpl. intros [X|[X|X]]; auto; discriminate.
Qed.
Lemma dot_false c : is_dot c = false -> c = newline.
Proof. unfold is_dot. intros H. apply newline_char. destruct (is_newline c); auto. Qed.
Lemma macro_tail_sound s x m : macro_tail s = Some (x, m) -> line_split s [] m.
Proof.
  destruct s as [|c s]; simpl.
  - intros H; inversion H; subst. apply (ls_plain [] []); auto. left; auto.
  - destruct (Ascii.eqb "%" c) eqn:E.
    + apply Ascii.eqb_eq in E. subst c. destruct (span is_dot s) as [d tl] eqn:Es. apply span_inv in Es as (-> & Hd & Ht).
      destruct (forallb is_space tl) eqn:Ew; [|discriminate]. intros H; inversion H; subst.
      apply (ls_macro [] d tl); auto. apply no_newline_dot; auto.
      destruct tl as [|y tl]; auto. right. exists tl. apply dot_false in Ht. subst. split; auto.
      simpl in Ew. apply Forall_blank; auto.
    + destruct (is_space c) eqn:Ec; [|discriminate]. destruct (forallb is_space s) eqn:Es; [|discriminate].
      simpl. intros H; inversion H; subst. apply (ls_plain [] (c :: s)); auto. left; auto.
      apply Forall_blank. simpl. rewrite Ec; auto.
Qed.
Lemma line_scan_sound s b x m : line_scan s = Some (b, x, m) -> line_split s b m.
Proof.
  revert b x m. induction s as [|c s IH]; intros b x m; cbn [line_scan].
  - destruct (macro_tail []) as [[y o]|] eqn:E; intros H; inversion H; subst. eapply macro_tail_sound; eauto.
  - destruct (macro_tail (c :: s)) as [[y o]|] eqn:E.
    { intros H; inversion H; subst. eapply macro_tail_sound; eauto. }
    destruct (is_newline c) eqn:En; [discriminate|]. destruct (line_scan s) as [[[b' x'] m']|]; [|discriminate].
    intros H; inversion H; subst. specialize (IH _ _ _ eq_refl). pose proof (line_split_one_line _ _ _ IH) as Hl.
    assert (Nc : c <> newline) by (intros ->; discriminate).
    simpl in E. destruct (Ascii.eqb "%" c) eqn:Ec.
    { exfalso. destruct (span is_dot s) as [d tl] eqn:Es. apply span_inv in Es as (-> & Hd & Ht).
      destruct (forallb is_space tl) eqn:Ew; [discriminate|]. destruct tl as [|y tl]; [discriminate|].
      apply dot_false in Ht. subst y. specialize (Hl d tl eq_refl). apply Forall_blank in Hl. simpl in Ew. rewrite Hl in Ew. discriminate. }
    assert (Np : c <> "%"%char) by (intros ->; discriminate).
    destruct IH as [bc ws H1 H2 H3 H4|bc m' tl H1 H2 H3 H4].
    + apply (ls_plain (c :: bc) ws); auto.
      * intros [X|X]; auto. * intros [X|X]; auto.
      * destruct H3 as [->|(p & d & -> & Hd)].
        -- simpl in E. apply Forall_blank in H4. rewrite H4, andb_true_r in E. right. exists [], c. split; auto.
           unfold blank. destruct (is_space c); congruence.
        -- right. exists (c :: p), d; auto.
    + apply (ls_macro (c :: bc) m' tl); auto; intros [X|X]; auto.
Qed.
Lemma macro_tail_none c s : c <> "%"%char -> ~ Forall blank (c :: s) -> macro_tail (c :: s) = None.
Proof.
  intros Hc Hb. simpl. destruct (Ascii.eqb "%" c) eqn:E. apply Ascii.eqb_eq in E; congruence.
  destruct (is_space c && forallb is_space s) eqn:E'; auto. exfalso. apply Hb. apply Forall_blank. auto.
Qed.
Lemma line_scan_complete s b m : line_split s b m -> exists x, line_scan s = Some (b, x, m).
Proof.
  intros [bc ws H1 H2 H3 H4|bc m' tl H1 H2 H3 H4].
  - induction bc as [|c bc IH].
    + exists ws. apply Forall_blank in H4. destruct ws as [|c ws]; auto. cbn [app line_scan macro_tail].
      simpl in H4. destruct (Ascii.eqb "%" c) eqn:E. apply Ascii.eqb_eq in E. subst. discriminate.
      simpl. rewrite H4. auto.
    + destruct IH as [x IH].
      * intros X; apply H1; right; auto. * intros X; apply H2; right; auto.
      * destruct H3 as [H3|(p & d & H3 & Hd)]; [discriminate|]. destruct p as [|y p]; simpl in H3; inversion H3; subst.
        left; auto. right; exists p, d; auto.
      * exists x. cbn [app line_scan]. rewrite macro_tail_none.
        -- destruct (is_newline c) eqn:En. exfalso. apply H1. left. apply newline_char; auto. rewrite IH. auto.
        -- intros ->. apply H2; left; auto.
        -- intros X. rewrite app_comm_cons in X. apply Forall_app in X as [X _].
           destruct H3 as [H3|(p & d & H3 & Hd)]; [discriminate|]. rewrite H3 in X. apply Forall_app in X as [_ X]. inversion X; auto.
  - induction bc as [|c bc IH].
    + exists ("%"%char :: m' ++ tl). cbn [app line_scan macro_tail]. rewrite Ascii.eqb_refl.
      rewrite span_all.
      * assert (X : forallb is_space tl = true). { destruct H4 as [->|(ws & -> & Hw)]; auto. simpl. apply Forall_blank; auto. }
        rewrite X. auto.
      * apply no_newline_dot; auto.
      * destruct H4 as [->|(ws & -> & Hw)]; auto.
    + destruct IH as [x IH].
      * intros X; apply H1; right; auto. * intros X; apply H2; right; auto.
      * exists x. cbn [app line_scan]. rewrite macro_tail_none.
        -- destruct (is_newline c) eqn:En. exfalso. apply H1. left. apply newline_char; auto. rewrite IH. auto.
        -- intros ->. apply H2; left; auto.
        -- intros X. rewrite app_comm_cons in X. apply Forall_app in X as [_ X]. inversion X; subst. discriminate.
Qed.
Lemma line_parts_iff s b m : line_parts s = Ok (b, m) <-> line_split s b m.
Proof.
  rewrite search_line. split.
  - destruct (line_scan s) as [[[b' x] m']|] eqn:E; [|discriminate]. intros H; inversion H; subst. eapply line_scan_sound; eauto.
  - intros H. apply line_scan_complete in H as [x ->]. auto.
Qed.
Lemma line_parts_error s e : line_parts s = Raise e -> e = EAttributeError.
Proof. rewrite search_line. destruct (line_scan s) as [[[b x] m]|]; congruence. Qed.
Lemma trailing_blanks (a : text) : exists b ws, a = b ++ ws /\ Forall blank ws /\ ends_visible b.
Proof.
  induction a as [|x a (b & ws & -> & Hw & Hb)] using rev_ind.
  - exists [], []. repeat split; auto. left; auto.
  - destruct (is_space x) eqn:E.
    + exists b, (ws ++ [x]). rewrite app_assoc. repeat split; auto. apply Forall_app; auto.
    + exists ((b ++ ws) ++ [x]), []. rewrite app_nil_r. repeat split; auto. right. exists (b ++ ws), x.
      split; auto. unfold blank. congruence.
Qed.
Lemma one_line_split s : one_line s -> exists b m, line_split s b m.
Proof.
  intros H. destruct (span is_dot s) as [d tl] eqn:E. apply span_inv in E as (-> & Hd & Ht).
  apply no_newline_dot in Hd.
  assert (T : tl = [] \/ exists ws, tl = newline :: ws /\ Forall blank ws).
  { destruct tl as [|c ws]; auto. right. apply dot_false in Ht. subst. exists ws. split; auto. apply (H d ws eq_refl). }
  destruct (in_dec ascii_dec "%"%char d) as [Hp|Hp].
  - assert (G : exists a r, d = a ++ "%"%char :: r /\ ~ In "%"%char a).
    { apply in_split in Hp. destruct Hp as (a & r & ->). clear. revert r. induction a as [|x a IH]; intros r.
      - exists [], r. simpl; auto.
      - destruct (ascii_dec x "%") as [->|N].
        + exists [], (a ++ "%"%char :: r). simpl; auto.
        + destruct (IH r) as (a' & r' & E & H'). exists (x :: a'), r'. simpl. rewrite E. split; auto. intros [X|X]; auto. }
    destruct G as (a & r & -> & Ha). exists a, (Some ("%"%char :: r)). rewrite <- app_assoc. simpl.
    apply ls_macro; auto; intros X; apply Hd; apply in_app_iff; simpl; auto.
  - destruct (trailing_blanks d) as (b & ws & -> & Hw & Hb). exists b, None. rewrite <- app_assoc.
    apply ls_plain; auto.
    + intros X; apply Hd; apply in_app_iff; auto.
    + intros X; apply Hp; apply in_app_iff; auto.
    + apply Forall_app. split; auto. destruct T as [->|(w & -> & Hw')]; auto. constructor; auto. reflexivity.
Qed.
