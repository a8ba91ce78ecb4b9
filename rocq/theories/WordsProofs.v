(** The tokeniser: scanners equal to the regexes, soundness and completeness of [text2words]. *)
From Coq Require Import Ascii String List Bool Arith ZArith QArith Qcanon Lia.
From Verif Require Import Base Num Regex Words BaseFacts RegexFacts WordsSpec.
Import ListNotations.
Local Open Scope nat_scope.

(** ** Character classes *)
Lemma digit_iff c : digit c <-> is_digit c = true.
Proof. unfold digit, is_digit. rewrite andb_true_iff, !Nat.leb_le. tauto. Qed.
Lemma Forall_digit ds : Forall digit ds <-> forallb is_digit ds = true.
Proof. rewrite forallb_forall, Forall_forall. split; intros H x Hx; apply digit_iff; auto. Qed.
Lemma Forall_blank ds : Forall blank ds <-> forallb is_space ds = true.
Proof. rewrite forallb_forall, Forall_forall. unfold blank. tauto. Qed.
Lemma numblank_iff c : numblank c <-> is_numspace c = true.
Proof.
  unfold numblank, blank, is_numspace. rewrite andb_true_iff, negb_true_iff, andb_false_iff, !Nat.leb_gt.
  split; intros [H1 H2]; split; auto; lia.
Qed.
Lemma Forall_numblank ds : Forall numblank ds <-> forallb is_numspace ds = true.
Proof. rewrite forallb_forall, Forall_forall. split; intros H x Hx; apply numblank_iff; auto. Qed.
Lemma numblank_blank c : numblank c -> blank c. Proof. intros [H _]; auto. Qed.
Lemma char_letter_iff c l : char_letter c l <-> letter_of_ascii c = Some l.
Proof.
  unfold char_letter. split.
  - intros [H|H].
    + apply code_inj in H. subst. apply letter_of_letter_ascii.
    + assert (E : c = ascii_of_nat (code (letter_ascii l) + 32)).
      { rewrite <- H. symmetry. apply ascii_nat_embedding. }
      subst c. destruct l; reflexivity.
  - intros H. unfold letter_of_ascii in H. apply find_some in H as [_ H].
    apply orb_true_iff in H as [H|H]; apply Nat.eqb_eq in H; auto.
Qed.
Lemma is_letter_iff c : is_letter c = true <-> exists l, char_letter c l.
Proof.
  unfold is_letter. split.
  - destruct (letter_of_ascii c) eqn:E; [|discriminate]. intros _. exists l. apply char_letter_iff; auto.
  - intros [l H]. apply char_letter_iff in H. rewrite H. auto.
Qed.
Lemma not_letter_iff c : is_letter c = false <-> forall l, ~ char_letter c l.
Proof.
  rewrite <- not_true_iff_false, is_letter_iff. split.
  - intros H l Hl. apply H. eauto.
  - intros H [l Hl]. eapply H; eauto.
Qed.
Lemma is_newline_iff c : is_newline c = true <-> c = newline.
Proof. split. apply newline_char. intros ->; reflexivity. Qed.
Lemma space_minus c : is_space c = true -> Ascii.eqb "-" c = false.
Proof. destruct (Ascii.eqb "-" c) eqn:E; auto. apply Ascii.eqb_eq in E. subst. discriminate. Qed.
Lemma space_dot c : is_space c = true -> Ascii.eqb "." c = false.
Proof. destruct (Ascii.eqb "." c) eqn:E; auto. apply Ascii.eqb_eq in E. subst. discriminate. Qed.
Lemma digit_minus c : is_digit c = true -> Ascii.eqb "-" c = false.
Proof. destruct (Ascii.eqb "-" c) eqn:E; auto. apply Ascii.eqb_eq in E. subst. discriminate. Qed.
Lemma digit_dot c : is_digit c = true -> Ascii.eqb "." c = false.
Proof. destruct (Ascii.eqb "." c) eqn:E; auto. apply Ascii.eqb_eq in E. subst. discriminate. Qed.
Lemma space_not_digit c : is_space c = true -> is_digit c = false.
Proof. intros H. destruct (is_digit c) eqn:E; auto. apply digit_not_space in E. congruence. Qed.

(** ** The next letter *)
Fixpoint next_letter (s : text) : option (text * ascii * text) :=
  match s with
  | [] => None
  | c :: s' => if is_letter c then Some ([], c, s')
               else if is_newline c then None
               else option_map (fun '(j, d, r) => (c :: j, d, r)) (next_letter s')
  end.
Lemma next_word_fm {B} s (k : mres -> option B) :
  (forall j c r, k (MRes (j ++ [c]) [(1, [c])] r) <> None) ->
  fm (Seq (StarLazy is_dot) (Grp 1 (Cls is_letter))) None s k =
  match next_letter s with Some (j, c, r) => k (MRes (j ++ [c]) [(1, [c])] r) | None => None end.
Proof.
  revert k. induction s as [|c s IH]; intros k Hk.
  - rewrite fm_seq, fm_lazy_nil. reflexivity.
  - rewrite fm_seq, fm_lazy_cons, fm_grp, fm_cls. cbn [rest consumed captured app next_letter].
    destruct (is_letter c) eqn:El.
    + specialize (Hk [] c s). cbn in *. destruct (k _); congruence.
    + unfold is_dot at 1. destruct (is_newline c); cbn [negb]; auto.
      specialize (IH (fun m => k (MRes (c :: consumed m) (captured m) (rest m)))).
      rewrite fm_seq in IH. cbn [rest consumed captured app] in *.
      transitivity (fm (StarLazy is_dot) None s
        (fun m => fm (Grp 1 (Cls is_letter)) (prev_after None (consumed m)) (rest m)
           (fun m' => k (MRes (c :: consumed m ++ consumed m') (captured m ++ captured m') (rest m'))))).
      * apply first_some_ext. intros m Hm. rewrite !fm_grp, !fm_cls. destruct (rest m) as [|d r]; auto.
        destruct (is_letter d); auto. cbn.
        cbn [mtch] in Hm. apply in_rev in Hm.
        assert (captured m = []) as ->; auto.
        clear -Hm. revert m Hm. induction s as [|x s IH]; cbn; intros m Hm.
        -- destruct Hm as [<-|[]]; auto.
        -- destruct (is_dot x).
           ++ apply in_app_iff in Hm as [Hm|[<-|[]]]; auto. apply in_map_iff in Hm as (m' & <- & _). auto.
           ++ destruct Hm as [<-|[]]; auto.
      * rewrite IH by (intros; apply (Hk (c :: j))).
        destruct (next_letter s) as [[[j d] r]|]; auto.
Qed.
Lemma search_next_word s :
  search next_word s =
  match next_letter s with
  | Some (j, c, r) => Some (SMatch 0 (length (j ++ [c])) (j ++ [c]) [(1, [c])])
  | None => None
  end.
Proof.
  unfold next_word. rewrite search_anchored, next_word_fm by congruence.
  destruct (next_letter s) as [[[j c] r]|]; auto.
Qed.
Lemma next_letter_spec s j c r :
  next_letter s = Some (j, c, r) <->
  s = j ++ c :: r /\ is_letter c = true /\ forallb (fun x => negb (is_letter x) && negb (is_newline x)) j = true.
Proof.
  revert j c r. induction s as [|x s IH]; simpl; intros j c r.
  - split; [discriminate|]. intros [H _]. destruct j; discriminate.
  - destruct (is_letter x) eqn:El.
    + split.
      * intros H; inversion H; subst. auto.
      * intros (H & H1 & H2). destruct j as [|y j]; simpl in *.
        -- inversion H; subst; auto.
        -- inversion H; subst. rewrite El in H2. discriminate.
    + destruct (is_newline x) eqn:En.
      * split; [discriminate|]. intros (H & H1 & H2). destruct j as [|y j]; simpl in *; inversion H; subst.
        -- congruence.
        -- rewrite En, andb_false_r in H2. discriminate.
      * destruct (next_letter s) as [[[j' d] r']|]; simpl.
        -- split.
           ++ intros H. inversion H; subst. destruct (proj1 (IH j' c r) eq_refl) as (-> & H1 & H2).
              simpl. rewrite El, En. auto.
           ++ intros (H & H1 & H2). destruct j as [|y j]; simpl in *; inversion H; subst.
              ** congruence.
              ** apply andb_true_iff in H2 as [_ H2].
                 assert (E : Some (j', d, r') = Some (j, c, r)) by (apply IH; auto). inversion E; subst; auto.
        -- split; [discriminate|]. intros (H & H1 & H2). destruct j as [|y j]; simpl in *; inversion H; subst.
           ++ congruence.
           ++ apply andb_true_iff in H2 as [_ H2]. assert (E : None = Some (j, c, r)) by (apply IH; auto). discriminate.
Qed.
Lemma next_letter_none s :
  next_letter s = None <->
  forallb (fun x => negb (is_letter x)) s = true \/
  exists a b, s = a ++ newline :: b /\ forallb (fun x => negb (is_letter x)) a = true.
Proof.
  induction s as [|x s IH]; simpl.
  - split; auto.
  - destruct (is_letter x) eqn:El; simpl.
    + split; [discriminate|]. intros [H|(a & b & H & H1)]; [discriminate|].
      destruct a as [|y a]; simpl in *; inversion H; subst. discriminate El. rewrite El in H1; discriminate.
    + destruct (is_newline x) eqn:En; simpl.
      * split; auto. intros _. right. exists [], s. apply newline_char in En. subst; auto.
      * destruct (next_letter s) as [[[j d] r]|]; simpl.
        -- split; [discriminate|]. intros [H|(a & b & H & H1)].
           ++ assert (E : Some (j, d, r) = None) by (apply IH; auto). discriminate.
           ++ destruct a as [|y a]; simpl in *; inversion H; subst; [discriminate|].
              apply andb_true_iff in H1 as [_ H1]. assert (E : Some (j, d, r) = None) by (apply IH; eauto). discriminate.
        -- split; auto. intros _. destruct (proj1 IH eq_refl) as [H|(a & b & -> & H)]; auto.
           right. exists (x :: a), b. simpl. rewrite El. auto.
Qed.

(** ** Value scanners *)
Definition scan_frac (s : text) : text * text :=   (* .ddd *)
  match s with
  | c :: s' => if Ascii.eqb "." c then let (fp, r) := span is_digit s' in (c :: fp, r) else ([], s)
  | [] => ([], [])
  end.
Definition scan_minus (s : text) : text * text :=
  match s with c :: s' => if Ascii.eqb "-" c then ([c], s') else ([], s) | [] => ([], []) end.
Definition scan_body (s : text) : option (text * text) :=   (* d+[.d* ] or .d+ *)
  let (ip, s1) := span is_digit s in
  let (fr, s2) := scan_frac s1 in
  match ip, fr with
  | [], [] | [], [_] => None
  | _, _ => Some (ip ++ fr, s2)
  end.
Definition scan_float (s : text) : option (text * text) :=
  let (ws, s1) := span is_space s in
  let (m, s2) := scan_minus s1 in
  option_map (fun '(b, r) => (ws ++ m ++ b, r)) (scan_body s2).
Definition scan_nat (s : text) : option (text * text) :=
  let (ws, s1) := span is_space s in
  match span is_digit s1 with
  | ([], _) => None
  | (ip, r) => Some (ws ++ ip, r)
  end.
Definition scan_code (s : text) : option (text * text) :=
  let (ws, s1) := span is_space s in
  match span is_digit s1 with
  | ([], _) => None
  | (ip, r) =>
      match r with
      | c :: d :: r' => if Ascii.eqb "." c && is_digit d then Some (ws ++ ip ++ [c; d], r') else Some (ws ++ ip, r)
      | _ => Some (ws ++ ip, r)
      end
  end.
Definition scan_all (s : text) : option (text * text) :=
  match span is_dot s with
  | ([], _) => None
  | (v, []) => Some (v, [])
  | (v, [c]) => Some (v, [c])
  | _ => None
  end.
Definition scan_value (l : letter) (s : text) : option (text * text) :=
  match letter_kind l with
  | KFloat => scan_float s | KCode => scan_code s | KNat => scan_nat s | KText => scan_all s
  end.

Lemma chr_cls {B} x prev s (k : mres -> option B) :
  fm (chr x) prev s k = match s with c :: s' => if Ascii.eqb x c then k (MRes [c] [] s') else None | [] => None end.
Proof. apply fm_cls. Qed.
Lemma fm_plus_max {B} f prev s (k : mres -> option B) ip r x :
  span f s = (ip, r) -> ip <> [] -> k (MRes ip [] r) = Some x -> fm (plus f) prev s k = Some x.
Proof.
  intros H Hn Hk. unfold plus. rewrite fm_seq, fm_cls. destruct s as [|c s]; simpl in H; [inversion H; congruence|].
  destruct (f c); [|inversion H; congruence]. destruct (span f s) as [a b] eqn:E. inversion H; subst.
  cbn. apply fm_star_max with a r; auto.
Qed.
Lemma fm_plus_none {B} f prev s (k : mres -> option B) :
  (match s with c :: _ => f c = false | [] => True end) -> fm (plus f) prev s k = None.
Proof. intros H. unfold plus. rewrite fm_seq, fm_cls. destruct s; auto. rewrite H; auto. Qed.
Lemma fm_plus_only {B} f prev s (k : mres -> option B) c a b :
  span f s = (c :: a, b) ->
  (forall p d q, a = p ++ d :: q -> f d = true -> k (MRes (c :: p) [] (d :: q ++ b)) = None) ->
  fm (plus f) prev s k = k (MRes (c :: a) [] b).
Proof.
  intros H Hk. unfold plus. rewrite fm_seq, fm_cls. destruct s as [|x s]; simpl in H; [discriminate|].
  destruct (f x); [|discriminate]. destruct (span f s) as [a' b'] eqn:E. inversion H; subst.
  cbn. rewrite (fm_star_only _ _ _ _ a b E); auto.
Qed.
Lemma span_head f (s a b : text) : span f s = (a, b) -> match b with c :: _ => f c = false | [] => True end.
Proof. intros H. apply span_spec in H. destruct H as (_ & _ & H). destruct b; auto. Qed.
Lemma span_nil_head {A} (f : A -> bool) s b : span f s = ([], b) -> s = b /\ match s with c :: _ => f c = false | [] => True end.
Proof.
  intros H. apply span_spec in H as (-> & _ & H). split; auto.
Qed.

Definition cr (m : mres) : text * text := (consumed m, rest m).

Lemma fm_body prev s ws mi caps1 :
  fm (Grp 1 (Alt (Seq (plus is_digit) (Seq (Opt (chr "."%char)) (Star is_digit)))
                 (Seq (chr "."%char) (plus is_digit)))) prev s
     (fun m => Some (cr (MRes (ws ++ mi ++ consumed m) (caps1 ++ captured m) (rest m))))
  = option_map (fun '(b, r) => (ws ++ mi ++ b, r)) (scan_body s).
Proof.
  rewrite fm_grp, fm_alt. unfold scan_body. destruct (span is_digit s) as [ip s1] eqn:E.
  pose proof (span_head _ _ _ _ E) as Hh.
  destruct ip as [|d ip].
  - destruct (span_nil_head _ _ _ E) as [-> Hn].
    rewrite fm_seq, fm_plus_none by auto. rewrite fm_seq, chr_cls.
    destruct s1 as [|c s1]; auto. simpl. destruct (Ascii.eqb "." c) eqn:Ed; auto. cbn.
    destruct (span is_digit s1) as [fp r] eqn:Ef. destruct fp as [|f fp].
    + destruct (span_nil_head _ _ _ Ef) as [-> Hn']. rewrite fm_plus_none; auto.
    + erewrite fm_plus_max; [|eassumption|discriminate|reflexivity]; reflexivity.
  - rewrite fm_seq. unfold scan_frac. destruct s1 as [|c s1].
    + erewrite fm_plus_max; [|eassumption|discriminate|].
      2:{ rewrite fm_seq, fm_opt, chr_cls. cbn. rewrite fm_star_nil. cbn. reflexivity. }
      cbn. rewrite ?app_nil_r. reflexivity.
    + destruct (Ascii.eqb "." c) eqn:Ed.
      * destruct (span is_digit s1) as [fp r] eqn:Ef.
        erewrite fm_plus_max; [|eassumption|discriminate|].
        2:{ rewrite fm_seq, fm_opt, chr_cls. cbn [rest]. rewrite Ed.
            erewrite fm_star_max; [|cbn [rest]; eassumption|reflexivity]. cbn. reflexivity. }
        cbn. reflexivity.
      * erewrite fm_plus_max; [|eassumption|discriminate|].
        2:{ rewrite fm_seq, fm_opt, chr_cls. cbn [rest]. rewrite Ed.
            cbn [rest]. rewrite fm_star_cons. rewrite Hh. cbn. reflexivity. }
        cbn. rewrite ?app_nil_r. reflexivity.
Qed.

Lemma scan_body_none c s : is_digit c = false -> Ascii.eqb "." c = false -> scan_body (c :: s) = None.
Proof. intros H1 H2. unfold scan_body. simpl. rewrite H1. simpl. rewrite H2. auto. Qed.

Lemma option_map_id {A} (o : option A) : option_map (fun x => x) o = o. Proof. destruct o; auto. Qed.

Lemma regex_float s : option_map cr (fm (Seq re_ws (Seq re_minus
    (Grp 1 (Alt (Seq (plus is_digit) (Seq (Opt (chr "."%char)) (Star is_digit)))
                (Seq (chr "."%char) (plus is_digit)))))) None s Some) = scan_float s.
Proof.
  rewrite fm_option_map, fm_seq. unfold re_ws, scan_float.
  destruct (span is_space s) as [ws s1] eqn:E.
  match goal with |- fm _ _ _ ?K = _ => set (k := K) end.
  assert (Hk : forall w caps0 s', k (MRes w caps0 s') = let (m, s2) := scan_minus s' in
      option_map (fun '(b, r) => (w ++ m ++ b, r)) (scan_body s2)).
  { intros w caps0 s'. subst k. cbn [consumed rest captured]. rewrite fm_seq. unfold re_minus. rewrite fm_opt, chr_cls.
    cbn [consumed rest captured]. unfold scan_minus.
    destruct s' as [|c s'].
    - etransitivity; [|apply (fm_body (prev_after (prev_after None w) []) [] w [] caps0)]. apply fm_ext. reflexivity.
    - destruct (Ascii.eqb "-" c) eqn:Em.
      + cbn [consumed rest captured].
        match goal with |- match ?X with _ => _ end = ?R => assert (EX : X = R) end.
        { etransitivity; [|apply (fm_body (prev_after (prev_after None w) [c]) s' w [c] caps0)]. apply fm_ext; reflexivity. }
        rewrite EX. destruct (scan_body s') as [[? ?]|]; cbn; auto.
        apply Ascii.eqb_eq in Em. subst c.
        etransitivity; [apply (fm_body _ ("-"%char :: s') w [] caps0)|]. reflexivity.
      + etransitivity; [|apply (fm_body (prev_after (prev_after None w) []) (c :: s') w [] caps0)]. apply fm_ext. reflexivity. }
  rewrite (fm_star_only _ _ _ _ ws s1 E); [apply Hk|].
  intros p c q -> Hc. rewrite Hk. unfold scan_minus. rewrite space_minus by auto.
  rewrite scan_body_none; auto using space_not_digit, space_dot.
Qed.

Lemma regex_nat s : option_map cr (fm (Seq re_ws (plus is_digit)) None s Some) = scan_nat s.
Proof.
  rewrite fm_option_map, fm_seq. unfold re_ws, scan_nat.
  destruct (span is_space s) as [ws s1] eqn:E.
  rewrite (fm_star_only _ _ _ _ ws s1 E).
  - cbn [consumed rest captured]. destruct (span is_digit s1) as [ip r] eqn:Ei. destruct ip as [|d ip].
    + rewrite fm_plus_none; auto. destruct (span_nil_head _ _ _ Ei). subst; auto.
    + erewrite fm_plus_max; [|eassumption|discriminate|reflexivity]; reflexivity.
  - intros p c q -> Hc. cbn [consumed rest captured]. rewrite fm_plus_none; auto using space_not_digit.
Qed.

Lemma regex_code s : option_map cr (fm (Seq re_ws (Seq (plus is_digit) (Opt (Grp 1 (Seq (chr "."%char) (Cls is_digit)))))) None s Some) = scan_code s.
Proof.
  rewrite fm_option_map, fm_seq. unfold re_ws, scan_code.
  destruct (span is_space s) as [ws s1] eqn:E.
  rewrite (fm_star_only _ _ _ _ ws s1 E).
  - cbn [consumed rest captured]. rewrite fm_seq. destruct (span is_digit s1) as [ip r] eqn:Ei. destruct ip as [|d ip].
    + rewrite fm_plus_none; auto. destruct (span_nil_head _ _ _ Ei). subst; auto.
    + destruct r as [|c r].
      * erewrite fm_plus_max; [|eassumption|discriminate|].
        2:{ rewrite fm_opt, fm_grp, fm_seq, chr_cls. cbn. reflexivity. }
        cbn. rewrite app_nil_r. auto.
      * destruct (Ascii.eqb "." c) eqn:Ed; cbn [andb].
        -- destruct r as [|e r].
           ++ erewrite fm_plus_max; [|eassumption|discriminate|].
              2:{ rewrite fm_opt, fm_grp, fm_seq, chr_cls. cbn [rest]. rewrite Ed. rewrite fm_cls. cbn. reflexivity. }
              cbn. rewrite app_nil_r. auto.
           ++ destruct (is_digit e) eqn:Ee.
              ** erewrite fm_plus_max; [|eassumption|discriminate|].
                 2:{ rewrite fm_opt, fm_grp, fm_seq, chr_cls. cbn [rest]. rewrite Ed. rewrite fm_cls. cbn [rest]. rewrite Ee. cbn. reflexivity. }
                 cbn. auto.
              ** erewrite fm_plus_max; [|eassumption|discriminate|].
                 2:{ rewrite fm_opt, fm_grp, fm_seq, chr_cls. cbn [rest]. rewrite Ed. rewrite fm_cls. cbn [rest]. rewrite Ee. cbn. reflexivity. }
                 cbn. rewrite app_nil_r. auto.
        -- erewrite fm_plus_max; [|eassumption|discriminate|].
           2:{ rewrite fm_opt, fm_grp, fm_seq, chr_cls. cbn [rest]. rewrite Ed. cbn. reflexivity. }
           cbn. rewrite app_nil_r. destruct r; auto.
  - intros p c q -> Hc. cbn [consumed rest captured]. rewrite fm_seq, fm_plus_none; auto using space_not_digit.
Qed.

Lemma regex_all s : option_map cr (fm (Seq (plus is_dot) Eol) None s Some) = scan_all s.
Proof.
  rewrite fm_option_map, fm_seq. unfold scan_all.
  destruct (span is_dot s) as [v r] eqn:E. destruct v as [|c v].
  - destruct (span_nil_head _ _ _ E). subst. rewrite fm_plus_none; auto.
  - erewrite fm_plus_only; eauto.
    + rewrite fm_eol. cbn [rest consumed captured]. pose proof (span_head _ _ _ _ E) as Hh.
      destruct r as [|x [|y r]]; cbn; rewrite ?app_nil_r; auto.
      unfold is_dot in Hh. apply negb_false_iff in Hh. rewrite Hh. auto.
    + intros p d q -> Hd. rewrite fm_eol. cbn. unfold is_dot in Hd. apply negb_true_iff in Hd. rewrite Hd.
      destruct (q ++ r); auto.
Qed.

Lemma search_value l s :
  match scan_value l s with
  | Some (v, r) => s = v ++ r /\ exists cs, search (value_regex l) s = Some (SMatch 0 (length v) v cs)
  | None => search (value_regex l) s = None
  end.
Proof.
  assert (G : forall r, option_map cr (fm r None s Some) = scan_value l s -> value_regex l = Seq Bol r ->
    match scan_value l s with
    | Some (v, r) => s = v ++ r /\ exists cs, search (value_regex l) s = Some (SMatch 0 (length v) v cs)
    | None => search (value_regex l) s = None
    end).
  { intros r H Hr. rewrite Hr. destruct (fm r None s Some) as [m|] eqn:E; rewrite <- H; cbn; rewrite search_anchored, E; cbn; auto.
    split; eauto. symmetry. eapply fm_some_split; eauto. }
  unfold scan_value in *.
  destruct l; first [ eapply G; [apply regex_float|reflexivity] | eapply G; [apply regex_code|reflexivity]
                    | eapply G; [apply regex_nat|reflexivity] | eapply G; [apply regex_all|reflexivity] ].
Qed.

(** ** Scanners find the longest value text *)
Lemma span_all {A} (f : A -> bool) (a b : list A) : forallb f a = true ->
  span f (a ++ b) = let (x, y) := span f b in (a ++ x, y).
Proof.
  induction a as [|c a IH]; simpl; intros H.
  - destruct (span f b); auto.
  - apply andb_true_iff in H as [-> H]. rewrite IH by auto. destruct (span f b); auto.
Qed.
Lemma span_blank_nondigit ws s : forallb is_space ws = true ->
  match s with c :: _ => is_space c = false | [] => True end -> span is_space (ws ++ s) = (ws, s).
Proof. intros. apply span_app_l; auto. Qed.
Lemma scan_minus_sign neg s :
  (neg = false -> match s with c :: _ => Ascii.eqb "-" c = false | [] => True end) ->
  scan_minus (sign neg ++ s) = (sign neg, s).
Proof. intros H. destruct neg; simpl; auto. unfold scan_minus. destruct s; auto. rewrite H; auto. Qed.
Lemma scan_minus_spec s m r : scan_minus s = (m, r) -> exists neg, m = sign neg /\ s = m ++ r.
Proof.
  unfold scan_minus. destruct s as [|c s]; intros H.
  - inversion H. exists false; auto.
  - destruct (Ascii.eqb "-" c) eqn:E; inversion H; subst.
    + apply Ascii.eqb_eq in E; subst. exists true; auto.
    + exists false; auto.
Qed.
Lemma scan_frac_spec s f r : scan_frac s = (f, r) ->
  exists dot fp, f = dotted dot fp /\ s = f ++ r /\ Forall digit fp /\ (dot = false -> fp = []) .
Proof.
  unfold scan_frac. destruct s as [|c s]; intros H.
  - inversion H. exists false, []; auto.
  - destruct (Ascii.eqb "." c) eqn:E.
    + destruct (span is_digit s) as [a b] eqn:Es. inversion H; subst. apply Ascii.eqb_eq in E; subst.
      apply span_spec in Es as (-> & H1 & _). exists true, a. repeat split; auto. apply Forall_digit; auto. discriminate.
    + inversion H; subst. exists false, []; auto.
Qed.
Lemma scan_body_spec s b r : scan_body s = Some (b, r) ->
  exists ip dot fp, b = ip ++ dotted dot fp /\ s = b ++ r /\ Forall digit ip /\ Forall digit fp /\ (dot = false -> fp = []) /\ ip ++ fp <> [].
Proof.
  unfold scan_body. destruct (span is_digit s) as [ip s1] eqn:E. destruct (scan_frac s1) as [f s2] eqn:Ef.
  apply span_spec in E as (-> & H1 & _). apply scan_frac_spec in Ef as (dot & fp & -> & -> & H2 & H3).
  intros H.
  assert (Hb : b = ip ++ dotted dot fp /\ r = s2 /\ ip ++ fp <> []).
  { destruct ip as [|d ip]; [destruct dot|]; simpl in *.
    - destruct fp; [discriminate|]. inversion H; subst. repeat split; auto. discriminate.
    - discriminate.
    - inversion H; subst. repeat split; auto. discriminate. }
  destruct Hb as (-> & -> & Hn). exists ip, dot, fp. repeat split; auto.
  - rewrite app_assoc; auto.
  - apply Forall_digit; auto.
Qed.

Lemma digits_head_nospace ip dot fp r : ip ++ fp <> [] -> Forall digit ip -> (dot = false -> fp = []) ->
  match (ip ++ dotted dot fp) ++ r with c :: _ => is_space c = false /\ Ascii.eqb "-" c = false | [] => False end.
Proof.
  intros H H1 H2. destruct ip as [|d ip]; simpl.
  - destruct dot; simpl. split; reflexivity. rewrite H2 in H by auto. contradiction.
  - inversion H1; subst. apply digit_iff in H4. auto using digit_not_space, digit_minus.
Qed.
Lemma digits_head_nospace' ip r : ip <> [] -> Forall digit ip ->
  match ip ++ r with c :: _ => is_space c = false | [] => False end.
Proof. intros H H1. destruct ip as [|d ip]; [contradiction|]. inversion H1; subst. simpl. apply digit_not_space, digit_iff; auto. Qed.

Lemma scan_body_longer ip dot fp r : ip ++ fp <> [] -> Forall digit ip -> Forall digit fp -> (dot = false -> fp = []) ->
  exists b r', scan_body ((ip ++ dotted dot fp) ++ r) = Some (b, r') /\ length (ip ++ dotted dot fp) <= length b.
Proof.
  intros H H1 H2 H3. apply Forall_digit in H1, H2. unfold scan_body. rewrite <- app_assoc, span_all by auto.
  destruct dot; simpl.
  - replace (is_digit "."%char) with false by reflexivity. rewrite app_nil_r. simpl.
    replace (Ascii.eqb "." ".") with true by reflexivity. rewrite span_all by auto.
    destruct (span is_digit r) as [x y]. destruct ip as [|d ip]; simpl in *.
    + destruct (fp ++ x) eqn:E.
      * apply app_eq_nil in E as [-> ->]. contradiction.
      * rewrite <- E. do 2 eexists; split; [reflexivity|]. simpl. rewrite app_length. lia.
    + do 2 eexists; split; [reflexivity|]. simpl. rewrite !app_length. simpl. rewrite app_length. lia.
  - rewrite H3 in H by auto. destruct (span is_digit r) as [x y] eqn:E.
    destruct (scan_frac y) as [f z] eqn:Ef. destruct ip as [|d ip]; [contradiction|].
    simpl. do 2 eexists; split; [reflexivity|]. simpl. rewrite !app_length. simpl. lia.
Qed.

Lemma value_text_scan l v r : value_text (letter_kind l) v -> (letter_kind l = KText -> r = [] \/ r = [newline]) ->
  exists v' r', scan_value l (v ++ r) = Some (v', r') /\ length v <= length v'.
Proof.
  unfold scan_value. intros H Hr.
  inversion H as [ws neg ip dot fp H1 H2 H3 H4 H5 Hk Hv|ws ip H1 H2 H3 Hk Hv|ws ip d H1 H2 H3 H4 Hk Hv|ws ip H1 H2 H3 Hk Hv|v' H1 H2 Hk Hv]; subst.
  - unfold scan_float. rewrite <- !app_assoc.
    pose proof (digits_head_nospace ip dot fp r H5 H2 H4) as Hh.
    rewrite <- app_assoc in Hh.
    rewrite span_blank_nondigit.
    + rewrite scan_minus_sign.
      * destruct (scan_body_longer ip dot fp r) as (b & r' & Hb & Hl); auto. rewrite <- app_assoc in Hb.
        rewrite Hb. simpl. do 2 eexists; split; [reflexivity|]. rewrite !app_length in *. lia.
      * intros ->. destruct (ip ++ dotted dot fp ++ r); [auto|apply Hh].
    + apply Forall_blank; auto.
    + destruct neg; simpl; [reflexivity|]. destruct (ip ++ dotted dot fp ++ r); [auto|apply Hh].
  - unfold scan_code. rewrite <- !app_assoc. rewrite span_blank_nondigit.
    + rewrite span_all by (apply Forall_digit; auto). destruct (span is_digit r) as [x y].
      destruct ip as [|e ip]; [contradiction|]. cbn [app].
      destruct y as [|a [|b y]]; [| |destruct (Ascii.eqb "." a && is_digit b)];
      do 2 eexists; (split; [reflexivity|]); repeat (simpl; rewrite ?app_length); lia.
    + apply Forall_blank; auto.
    + pose proof (digits_head_nospace' ip r H3 H2). destruct (ip ++ r); tauto.
  - unfold scan_code. rewrite <- !app_assoc. rewrite span_blank_nondigit.
    + rewrite span_all by (apply Forall_digit; auto).
      change (span is_digit (["."%char; d] ++ r)) with ([] : text, ["."%char; d] ++ r). cbn [app].
      destruct ip as [|e ip]; [contradiction|]. apply digit_iff in H4. rewrite H4.
      replace (Ascii.eqb "." ".") with true by reflexivity.
      do 2 eexists; (split; [reflexivity|]); repeat (simpl; rewrite ?app_length); lia.
    + apply Forall_blank; auto.
    + pose proof (digits_head_nospace' ip (["."%char; d] ++ r) H3 H2). destruct (ip ++ ["."%char; d] ++ r); tauto.
  - unfold scan_nat. rewrite <- !app_assoc. rewrite span_blank_nondigit.
    + rewrite span_all by (apply Forall_digit; auto). destruct (span is_digit r) as [x y].
      destruct ip as [|e ip]; [contradiction|].
      do 2 eexists; (split; [reflexivity|]); repeat (simpl; rewrite ?app_length); lia.
    + apply Forall_blank; auto.
    + pose proof (digits_head_nospace' ip r H3 H2). destruct (ip ++ r); tauto.
  - assert (E : span is_dot (v ++ r) = (v, r)).
    { apply span_app_l.
      - apply forallb_forall. intros x Hx. unfold is_dot. destruct (is_newline x) eqn:En; auto.
        apply newline_char in En; subst. contradiction.
      - destruct (Hr (eq_sym Hk)) as [->| ->]; auto. }
    unfold scan_all. rewrite E. destruct v as [|a v]; [contradiction|].
    destruct (Hr (eq_sym Hk)) as [->| ->]; do 2 eexists; (split; [reflexivity|]); lia.
Qed.

Lemma scan_value_text l s v r : scan_value l s = Some (v, r) ->
  s = v ++ r /\ value_text (letter_kind l) v /\ (letter_kind l = KText -> r = [] \/ r = [newline]).
Proof.
  unfold scan_value. destruct (letter_kind l) eqn:K.
  - unfold scan_float. destruct (span is_space s) as [ws s1] eqn:E. destruct (scan_minus s1) as [m s2] eqn:Em.
    destruct (scan_body s2) as [[b r']|] eqn:Eb; simpl; [|discriminate]. intros H; inversion H; subst.
    apply span_spec in E as (-> & H1 & _). apply scan_minus_spec in Em as (neg & -> & ->).
    apply scan_body_spec in Eb as (ip & dot & fp & -> & -> & H2 & H3 & H4 & H5).
    split; [rewrite !app_assoc; auto|]. split; [|discriminate]. constructor; auto. apply Forall_blank; auto.
  - unfold scan_code. destruct (span is_space s) as [ws s1] eqn:E. destruct (span is_digit s1) as [ip s2] eqn:Ei.
    apply span_spec in E as (-> & H1 & _). apply span_spec in Ei as (-> & H2 & _).
    destruct ip as [|e ip]; [discriminate|]. intros H. apply Forall_blank in H1. apply Forall_digit in H2.
    assert (N : e :: ip <> []) by discriminate.
    remember (e :: ip) as ip' eqn:Ip. clear Ip. split; [|split; [|discriminate]].
    + destruct s2 as [|a [|b s2]]; [inversion H; subst; rewrite !app_assoc; auto|inversion H; subst; rewrite !app_assoc; auto|].
      destruct (Ascii.eqb "." a && is_digit b); inversion H; subst; rewrite <- ?app_assoc; auto.
    + assert (G : value_text KCode (ws ++ ip')) by (constructor; auto).
      destruct s2 as [|a [|b s2]]; [inversion H; subst; auto|inversion H; subst; auto|].
      destruct (Ascii.eqb "." a) eqn:Ea; [|inversion H; subst; auto].
      destruct (is_digit b) eqn:Eb; [|inversion H; subst; auto].
      simpl in H. inversion H; subst. apply Ascii.eqb_eq in Ea; subst. apply vt_code_tenths; auto. apply digit_iff; auto.
  - unfold scan_nat. destruct (span is_space s) as [ws s1] eqn:E. destruct (span is_digit s1) as [ip s2] eqn:Ei.
    apply span_spec in E as (-> & H1 & _). apply span_spec in Ei as (-> & H2 & _).
    destruct ip as [|e ip]; [discriminate|]. intros H. inversion H; subst.
    split; [rewrite <- app_assoc; auto|]. split; [|discriminate]. constructor.
    apply Forall_blank; auto. apply Forall_digit; auto. discriminate.
  - unfold scan_all. destruct (span is_dot s) as [a b] eqn:E. pose proof (span_head _ _ _ _ E) as Hh.
    apply span_spec in E as (-> & H1 & _). destruct a as [|x a]; [discriminate|]. intros H.
    assert (Hn : ~ In newline (x :: a)).
    { intros Hi. rewrite forallb_forall in H1. apply H1 in Hi. discriminate. }
    destruct b as [|y [|z b]]; inversion H; subst.
    + split; auto. split; auto. constructor; auto. discriminate.
    + split; auto. split. constructor; auto; discriminate. intros _. right. f_equal.
      unfold is_dot in Hh. apply negb_false_iff in Hh. apply newline_char; auto.
Qed.

Lemma longest_unique l v r v' r' : longest_value l v r -> longest_value l v' r' -> v ++ r = v' ++ r' -> v = v' /\ r = r'.
Proof.
  intros (H1 & H2 & _) (H1' & H2' & _) E.
  pose proof (H2 v' r' (eq_sym E) H1'). pose proof (H2' v r E H1).
  assert (length v = length v') by lia.
  assert (v = v').
  { rewrite <- (firstn_app_exact v r), <- (firstn_app_exact v' r'), E, H3. auto. }
  subst. split; auto. eapply app_inv_head; eauto.
Qed.
Lemma longest_text_end l v r : letter_kind l = KText -> ~ In newline v -> r = [] \/ r = [newline] ->
  forall v' r', v' ++ r' = v ++ r -> value_text KText v' -> length v' <= length v.
Proof.
  intros K Hv Hr v' r' E H. inversion H; subst.
  destruct (le_lt_dec (length v') (length v)) as [L|L]; auto. exfalso.
  destruct Hr as [->| ->].
  - apply (f_equal (@length _)) in E. rewrite !app_length in E. simpl in E. lia.
  - apply H1. assert (nth_error (v' ++ r') (length v) = Some newline).
    { rewrite E, nth_error_app2, Nat.sub_diag; auto. }
    rewrite nth_error_app1 in H2 by auto. eapply nth_error_In; eauto.
Qed.
Lemma scan_value_iff l s v r : scan_value l s = Some (v, r) <-> s = v ++ r /\ longest_value l v r.
Proof.
  assert (A : forall s v r, scan_value l s = Some (v, r) -> s = v ++ r /\ longest_value l v r).
  { clear s v r. intros s v r H. destruct (scan_value_text l s v r H) as (-> & H1 & H2). split; auto. split; auto. split; auto.
    intros v' r' E Hv. destruct (letter_kind l) eqn:K; try
    (rewrite <- K in Hv; destruct (value_text_scan l v' r' Hv) as (v2 & r2 & E2 & L2); [congruence|]; rewrite E in E2; rewrite H in E2; inversion E2; subst; auto).
    inversion H1; subst. eapply longest_text_end; eauto. }
  split; [apply A|]. intros [-> H]. pose proof H as (H1 & _ & H3).
  destruct (value_text_scan l v r H1 H3) as (v2 & r2 & E2 & L2).
  destruct (A _ _ _ E2) as [E3 H4]. destruct (longest_unique _ _ _ _ _ H H4 E3) as [-> ->]. auto.
Qed.
Lemma scan_value_none l s : scan_value l s = None <-> ~ exists v r, s = v ++ r /\ longest_value l v r.
Proof.
  split.
  - intros H (v & r & E & L). assert (X : scan_value l s = Some (v, r)) by (apply scan_value_iff; auto). congruence.
  - intros H. destruct (scan_value l s) as [[v r]|] eqn:E; auto. exfalso. apply H. exists v, r. apply scan_value_iff; auto.
Qed.

(** ** Values *)
Lemma number_app a b : number (a ++ b) = (number a * 10 ^ Z.of_nat (length b) + number b)%Z.
Proof.
  induction a as [|c a IH]; cbn [app number].
  - lia.
  - rewrite IH, app_length, Nat2Z.inj_add, Z.pow_add_r by lia. ring.
Qed.
Lemma digits_val_number ds : digits_val ds = number ds.
Proof.
  unfold digits_val.
  assert (G : forall a, fold_left (fun a c => 10 * a + char_digit c)%Z ds a = (a * 10 ^ Z.of_nat (length ds) + number ds)%Z).
  { induction ds as [|c ds IH]; intros a.
    - simpl. lia.
    - cbn [fold_left number]. rewrite IH. unfold char_digit. cbn [length]. rewrite Nat2Z.inj_succ, Z.pow_succ_r by lia. ring. }
  rewrite G. lia.
Qed.
Lemma Q2Qc_opp q : Q2Qc (- q)%Q = (- Q2Qc q)%Qc.
Proof. apply Qc_is_canon. unfold Qcopp, Q2Qc. cbn [this]. rewrite !Qred_correct. reflexivity. Qed.
Lemma decimal_number_eq neg ip fp : decimal neg ip fp = decimal_number neg ip fp.
Proof.
  unfold decimal, decimal_number, frac. rewrite digits_val_number. destruct neg; auto.
  rewrite <- Q2Qc_opp. reflexivity.
Qed.

Lemma digit_not_numspace c : is_digit c = true -> is_numspace c = false.
Proof. intros H. unfold is_numspace. rewrite digit_not_space; auto. Qed.
Lemma num_strip_clean s :
  match s with c :: _ => is_numspace c = false | [] => True end ->
  match rev s with c :: _ => is_numspace c = false | [] => True end ->
  forall ws, forallb is_numspace ws = true -> num_strip (ws ++ s) = s.
Proof.
  intros H1 H2 ws Hw. unfold num_strip. rewrite drop_while_app by auto. rewrite (drop_while_none _ s) by (destruct s; auto).
  rewrite (drop_while_none _ (rev s)) by (destruct (rev s); auto). apply rev_involutive.
Qed.
Lemma rev_head_digits ip dot fp neg : ip ++ fp <> [] -> Forall digit ip -> Forall digit fp -> (dot = false -> fp = []) ->
  match rev (sign neg ++ ip ++ dotted dot fp) with c :: _ => is_numspace c = false | [] => True end.
Proof.
  intros H H1 H2 H3.
  assert (D : forall ds, Forall digit ds -> ds <> [] -> match rev ds with c :: _ => is_numspace c = false | [] => False end).
  { intros ds Hd Hn. destruct (rev ds) eqn:E. apply rev_eq_nil in E; auto.
    apply digit_not_numspace, digit_iff. rewrite Forall_forall in Hd. apply Hd, in_rev. rewrite E; left; auto. }
  rewrite !rev_app_distr. destruct dot; simpl.
  - destruct (rev fp) eqn:E; simpl; auto. specialize (D fp H2). rewrite E in D. apply D. intros ->; discriminate.
  - rewrite H3 in H by auto. rewrite app_nil_r in H. specialize (D ip H1 H). destruct (rev ip); simpl; tauto.
Qed.
Lemma head_digits neg ip dot fp : ip ++ fp <> [] -> Forall digit ip -> (dot = false -> fp = []) ->
  match sign neg ++ ip ++ dotted dot fp with c :: _ => is_numspace c = false | [] => True end.
Proof.
  intros H H1 H2. pose proof (digits_head_nospace ip dot fp [] H H1 H2) as Hh. rewrite app_nil_r in Hh.
  destruct neg; simpl; [reflexivity|]. destruct (ip ++ dotted dot fp); auto. unfold is_numspace. destruct Hh as [-> _]; auto.
Qed.

Lemma numspace_split ws : forallb is_space ws = true ->
  forallb is_numspace ws = true \/
  exists a c b, ws = a ++ c :: b /\ forallb is_numspace a = true /\ is_numspace c = false /\ is_space c = true.
Proof.
  induction ws as [|c ws IH]; simpl; auto. intros H. apply andb_true_iff in H as [H1 H2].
  destruct (is_numspace c) eqn:E.
  - destruct (IH H2) as [IH'|(a & d & b & -> & Ha & Hd & Hs)]; auto.
    right. exists (c :: a), d, b. simpl. rewrite E. auto.
  - right. exists [], c, ws. auto.
Qed.

Section WithArith.
Context {ar : Arith}.

Lemma py_float_ok ws neg ip dot fp :
  forallb is_numspace ws = true -> Forall digit ip -> Forall digit fp -> (dot = false -> fp = []) -> ip ++ fp <> [] ->
  py_float (ws ++ sign neg ++ ip ++ dotted dot fp) = Ok (rnd (decimal_number neg ip fp)).
Proof.
  intros Hw H1 H2 H3 H4. unfold py_float. rewrite num_strip_clean; [|apply head_digits; auto|apply rev_head_digits; auto|auto].
  assert (E : take_minus (sign neg ++ ip ++ dotted dot fp) = (neg, ip ++ dotted dot fp)).
  { destruct neg; simpl; auto. pose proof (digits_head_nospace ip dot fp [] H4 H1 H3) as Hh. rewrite app_nil_r in Hh.
    unfold take_minus. destruct (ip ++ dotted dot fp); auto. rewrite Ascii.eqb_sym. destruct Hh as [_ ->]. auto. }
  rewrite E. apply Forall_digit in H1, H2.
  rewrite span_app_l; auto.
  - destruct dot; simpl.
    + replace (Ascii.eqb "." ".") with true by reflexivity.
      rewrite <- (app_nil_r fp) at 1. rewrite span_app_l by auto.
      destruct (ip ++ fp) eqn:En; [contradiction|]. rewrite decimal_number_eq. auto.
    + rewrite H3 in * by auto. rewrite app_nil_r in H4. destruct ip; [contradiction|]. rewrite decimal_number_eq. auto.
  - destruct dot; simpl; auto.
Qed.
Lemma strip_bad a c b s : forallb is_numspace a = true -> is_numspace c = false ->
  exists s', num_strip (a ++ c :: b ++ s) = c :: s'.
Proof.
  intros Ha Hc. unfold num_strip. rewrite drop_while_app by auto. cbn [drop_while]. rewrite Hc.
  destruct (drop_while_spec is_numspace (rev (c :: b ++ s))) as (p & E & Hp & _).
  assert (E2 : c :: b ++ s = rev (drop_while is_numspace (rev (c :: b ++ s))) ++ rev p).
  { rewrite <- rev_app_distr, <- E, rev_involutive. auto. }
  destruct (rev (drop_while is_numspace (rev (c :: b ++ s)))) as [|x s'] eqn:E3.
  - simpl in E2. rewrite <- forallb_rev, <- E2 in Hp. simpl in Hp. rewrite Hc in Hp. discriminate.
  - simpl in E2. inversion E2; subst. eauto.
Qed.
Lemma py_float_bad a c b s : forallb is_numspace a = true -> is_numspace c = false -> is_space c = true ->
  py_float (a ++ c :: b ++ s) = Raise EValueError.
Proof.
  intros Ha Hc Hs. unfold py_float. destruct (strip_bad a c b s Ha Hc) as [s' ->].
  cbn [take_minus]. rewrite Ascii.eqb_sym, space_minus by auto. simpl. rewrite space_not_digit by auto.
  rewrite Ascii.eqb_sym, space_dot by auto. rewrite Hs. auto.
Qed.
Lemma py_int_ok ws ip : forallb is_numspace ws = true -> Forall digit ip -> ip <> [] ->
  py_int (ws ++ ip) = Ok (number ip).
Proof.
  intros Hw H1 H4. unfold py_int.
  pose proof (head_digits false ip false []) as Hh. pose proof (rev_head_digits ip false [] false) as Hr.
  simpl in Hh, Hr. rewrite !app_nil_r in *. rewrite num_strip_clean; [|apply Hh; auto|apply Hr; auto|auto].
  assert (E : take_minus ip = (false, ip)).
  { unfold take_minus. destruct ip; auto. inversion H1; subst. apply digit_iff in H2. rewrite Ascii.eqb_sym, digit_minus; auto. }
  rewrite E. rewrite <- (app_nil_r ip) at 1. rewrite span_app_l; auto.
  - destruct ip; [contradiction|]. rewrite digits_val_number. auto.
  - apply Forall_digit; auto.
Qed.
Lemma py_int_bad a c b s : forallb is_numspace a = true -> is_numspace c = false -> is_space c = true ->
  py_int (a ++ c :: b ++ s) = Raise EValueError.
Proof.
  intros Ha Hc Hs. unfold py_int. destruct (strip_bad a c b s Ha Hc) as [s' ->].
  cbn [take_minus]. rewrite Ascii.eqb_sym, space_minus by auto. simpl. rewrite space_not_digit by auto.
  cbn [existsb]; rewrite Hs. auto.
Qed.

Lemma value_denotes_coerce l v x : value_denotes l v x -> coerce l (VStr v) = Ok x.
Proof.
  intros H. inversion H; subst; unfold coerce; rewrite H0.
  - rewrite py_float_ok; auto. apply Forall_numblank; auto.
  - rewrite py_int_ok; auto. apply Forall_numblank; auto.
  - auto.
Qed.
Lemma coerce_value_text l v : value_text (letter_kind l) v ->
  (exists x, value_denotes l v x) \/ coerce l (VStr v) = Raise EValueError.
Proof.
  intros H. destruct (letter_class l) eqn:C.
  - (* floats and codes *)
    assert (G : exists ws neg ip dot fp, v = ws ++ sign neg ++ ip ++ dotted dot fp /\ Forall blank ws /\ Forall digit ip /\
                Forall digit fp /\ (dot = false -> fp = []) /\ ip ++ fp <> []).
    { inversion H; subst.
      - exists ws, neg, ip, dot, fp. auto 10.
      - exists ws, false, ip, false, []. simpl. rewrite !app_nil_r. auto 10.
      - exists ws, false, ip, true, [d]. simpl. repeat split; auto; try discriminate; destruct ip; discriminate.
      - destruct l; try discriminate.
      - destruct l; try discriminate. }
    destruct G as (ws & neg & ip & dot & fp & -> & H1 & H2 & H3 & H4 & H5).
    destruct (numspace_split ws) as [N|(a & c & b & -> & Ha & Hc & Hs)].
    + apply Forall_blank; auto.
    + left. eexists. apply vd_float; auto. apply Forall_numblank; auto.
    + right. unfold coerce. rewrite C. rewrite <- app_assoc. cbn [app]. rewrite py_float_bad; auto.
  - assert (G : exists ws ip, v = ws ++ ip /\ Forall blank ws /\ Forall digit ip /\ ip <> []).
    { destruct l; try discriminate; inversion H; subst; eauto 10. }
    destruct G as (ws & ip & -> & H1 & H2 & H3).
    destruct (numspace_split ws) as [N|(a & c & b & -> & Ha & Hc & Hs)].
    + apply Forall_blank; auto.
    + left. eexists. apply vd_int; auto. apply Forall_numblank; auto.
    + right. unfold coerce. rewrite C. rewrite <- app_assoc. cbn [app]. rewrite py_int_bad; auto.
  - left. eexists. apply vd_str; auto.
Qed.
Lemma coerce_value_denotes l v x : value_text (letter_kind l) v -> coerce l (VStr v) = Ok x -> value_denotes l v x.
Proof.
  intros H E. destruct (coerce_value_text l v H) as [[y Hy]|E']; [|congruence].
  pose proof (value_denotes_coerce _ _ _ Hy). congruence.
Qed.

(** ** The tokeniser *)
Lemma text2words_step k s :
  text2words_fuel (S k) s =
  match next_letter s with
  | None => if forallb is_space s then Ok [] else Raise EGCodeWordStrError
  | Some (j, c, s1) =>
      match letter_of_ascii c with
      | None => Raise EKeyError
      | Some l =>
          match scan_value l s1 with
          | None => Raise EGCodeWordStrError
          | Some (v, r) => do w <- mk_word l (VStr v); do ws <- text2words_fuel k r; Ok (w :: ws)
          end
      end
  end.
Proof.
  cbn [text2words_fuel]. rewrite search_next_word. destruct (next_letter s) as [[[j c] s1]|] eqn:E.
  - apply next_letter_spec in E as (-> & _ & _). cbn.
    destruct (letter_of_ascii c) as [l|]; auto.
    assert (E : skipn (length (j ++ [c])) (j ++ c :: s1) = s1).
    { change (c :: s1) with ([c] ++ s1). rewrite app_assoc. apply skipn_app_exact. }
    rewrite E. pose proof (search_value l s1) as H. destruct (scan_value l s1) as [[v r]|].
    + destruct H as (-> & cs & ->). cbn. rewrite skipn_app_exact. auto.
    + rewrite H. auto.
  - destruct (existsb (fun c => negb (is_space c)) s) eqn:Ex.
    + destruct (forallb is_space s) eqn:Ef; auto. exfalso. apply existsb_exists in Ex as (x & H1 & H2).
      rewrite forallb_forall in Ef. rewrite Ef in H2; auto. discriminate.
    + apply existsb_false in Ex. replace (forallb is_space s) with true; auto. symmetry.
      rewrite forallb_forall in *. intros x Hx. apply Ex in Hx. rewrite negb_involutive in Hx. auto.
Qed.

Lemma value_text_nonempty k v : value_text k v -> v <> [].
Proof.
  intros H; inversion H; subst; intros E.
  - apply app_eq_nil in E as [_ E]. apply app_eq_nil in E as [_ E]. apply app_eq_nil in E as [-> E].
    destruct dot; [discriminate|]. rewrite H3 in H4; auto.
  - apply app_eq_nil in E as [_ E]. auto.
  - apply app_eq_nil in E as [_ E]. apply app_eq_nil in E as [_ E]. discriminate.
  - apply app_eq_nil in E as [_ E]. auto.
  - auto.
Qed.

(** more fuel than the text is long is enough *)
Lemma text2words_sound_or_error k s : length s < k ->
  (exists ws, text2words_fuel k s = Ok ws /\ reads s ws) \/
  (exists e, text2words_fuel k s = Raise e /\ (e = EGCodeWordStrError \/ e = EValueError) /\ ~ exists ws, reads s ws).
Proof.
  revert s. induction k as [|k IH]; intros s Hk; [lia|].
  rewrite text2words_step. destruct (next_letter s) as [[[j c] s1]|] eqn:E.
  - pose proof E as E0. apply next_letter_spec in E as (-> & Hc & Hj).
    assert (Hjunk : Forall (fun x => (forall l', ~ char_letter x l') /\ x <> newline) j).
    { rewrite forallb_forall in Hj. apply Forall_forall. intros x Hx. apply Hj in Hx. apply andb_true_iff in Hx as [H1 H2].
      split. apply not_letter_iff. apply negb_true_iff; auto. intros ->. discriminate. }
    assert (Inv : forall ws, reads (j ++ c :: s1) ws ->
       exists l v r val ws', char_letter c l /\ longest_value l v r /\ s1 = v ++ r /\ value_denotes l v val /\ reads r ws' /\ ws = Word l val :: ws').
    { intros ws H. inversion H as [s0 Hs|j' c' l v r val ws' A1 A2 A3 A4 A5 A6 A7].
      - exfalso. rewrite Forall_forall in Hs. assert (B : blank c) by (apply Hs, in_app_iff; right; left; auto).
        apply space_not_letter in B. congruence.
      - assert (X : next_letter (j' ++ c' :: v ++ r) = Some (j', c', v ++ r)).
        { apply next_letter_spec. split; auto. split. apply is_letter_iff; eauto.
          apply forallb_forall. intros x Hx. rewrite Forall_forall in A1. apply A1 in Hx as [X1 X2].
          apply not_letter_iff in X1. rewrite X1. simpl. destruct (is_newline x) eqn:N; auto. apply newline_char in N. contradiction. }
        rewrite A6, E0 in X. inversion X; subst. exists l, v, r, val, ws'. auto 10. }
    destruct (letter_of_ascii c) as [l|] eqn:El.
    2:{ unfold is_letter in Hc. rewrite El in Hc. discriminate. }
    destruct (scan_value l s1) as [[v r]|] eqn:Es.
    + apply scan_value_iff in Es as [-> Hl].
      destruct (coerce_value_text l v (proj1 Hl)) as [[x Hx]|Ex].
      * unfold mk_word. rewrite (value_denotes_coerce _ _ _ Hx). cbn.
        destruct (IH r) as [(ws & Ew & Hw)|(e & Ee & He & Hn)].
        { rewrite app_length in Hk. simpl in Hk. rewrite app_length in Hk. lia. }
        -- left. rewrite Ew. cbn. eexists; split; [reflexivity|]. apply reads_word; auto. apply char_letter_iff; auto.
        -- right. rewrite Ee. cbn. eexists; split; [reflexivity|]. split; auto.
           intros (ws & Hws). apply Inv in Hws as (l' & v' & r' & val & ws' & B1 & B2 & B3 & B4 & B5 & B6).
           apply char_letter_iff in B1. assert (l' = l) by congruence. subst l'.
           destruct (longest_unique _ _ _ _ _ Hl B2 B3) as [-> ->]. apply Hn; eauto.
      * right. unfold mk_word. rewrite Ex. cbn. eexists; split; [reflexivity|]. split; auto.
        intros (ws & Hws). apply Inv in Hws as (l' & v' & r' & val & ws' & B1 & B2 & B3 & B4 & B5 & B6).
        apply char_letter_iff in B1. assert (l' = l) by congruence. subst l'.
        destruct (longest_unique _ _ _ _ _ Hl B2 B3) as [-> ->]. apply value_denotes_coerce in B4. congruence.
    + right. eexists; split; [reflexivity|]. split; auto.
      intros (ws & Hws). apply Inv in Hws as (l' & v' & r' & val & ws' & B1 & B2 & B3 & B4 & B5 & B6).
      apply char_letter_iff in B1. assert (l' = l) by congruence. subst l'.
      apply scan_value_none in Es. apply Es. eauto.
  - destruct (forallb is_space s) eqn:Ef.
    + left. eexists; split; [reflexivity|]. constructor. apply Forall_blank; auto.
    + right. eexists; split; [reflexivity|]. split; auto. intros (ws & Hws). inversion Hws; subst.
      * apply Forall_blank in H. congruence.
      * assert (X : next_letter (junk ++ c :: v ++ r) = Some (junk, c, v ++ r)).
        { apply next_letter_spec. split; auto. split. apply is_letter_iff; eauto.
          apply forallb_forall. intros x Hx. rewrite Forall_forall in H. apply H in Hx as [X1 X2].
          apply not_letter_iff in X1. rewrite X1. simpl. destruct (is_newline x) eqn:N; auto. apply newline_char in N. contradiction. }
        congruence.
Qed.

(** the reading of a text is unique *)
Lemma reads_unique s ws ws' : reads s ws -> reads s ws' -> ws = ws'.
Proof.
  intros H. revert ws'. induction H as [s Hs|j c l v r val ws Hj Hc Hl Hv Hr IH]; intros ws' H'.
  - inversion H'; subst; auto. exfalso. rewrite Forall_forall in Hs. assert (B : blank c) by (apply Hs, in_app_iff; right; left; auto).
    apply space_not_letter in B. assert (is_letter c = true) by (apply is_letter_iff; eauto). congruence.
  - assert (N : forall j c l v r, Forall (fun x => (forall l', ~ char_letter x l') /\ x <> newline) j -> char_letter c l ->
        next_letter (j ++ c :: v ++ r) = Some (j, c, v ++ r)).
    { clear. intros j c l v r Hj Hc. apply next_letter_spec. split; auto. split. apply is_letter_iff; eauto.
      apply forallb_forall. intros x Hx. rewrite Forall_forall in Hj. apply Hj in Hx as [X1 X2].
      apply not_letter_iff in X1. rewrite X1. simpl. destruct (is_newline x) eqn:N; auto. apply newline_char in N. contradiction. }
    inversion H' as [s0 Hs|j' c' l' v' r' val' ws'' A1 A2 A3 A4 A5 A6 A7].
    + exfalso. rewrite Forall_forall in Hs. assert (B : blank c) by (apply Hs, in_app_iff; right; left; auto).
      apply space_not_letter in B. assert (is_letter c = true) by (apply is_letter_iff; eauto). congruence.
    + subst. pose proof (N j c l v r Hj Hc) as N1. pose proof (N j' c' l' v' r' A1 A2) as N2.
      rewrite A6, N1 in N2. inversion N2; subst.
      apply char_letter_iff in Hc, A2. assert (l' = l) by congruence. subst l'.
      destruct (longest_unique _ _ _ _ _ Hl A3 H2) as [-> ->].
      apply value_denotes_coerce in Hv, A4. assert (val' = val) by congruence. subst. f_equal. auto.
Qed.

Theorem text2words_reads s ws : text2words s = Ok ws <-> reads s ws.
Proof.
  unfold text2words. destruct (text2words_sound_or_error (S (length s)) s) as [(ws' & E & H)|(e & E & He & H)]; auto.
  - rewrite E. split; intros H1. inversion H1; subst; auto. f_equal. eapply reads_unique; eauto.
  - rewrite E. split; [discriminate|]. intros H1. exfalso; eauto.
Qed.
Theorem text2words_errors s e : text2words s = Raise e -> e = EGCodeWordStrError \/ e = EValueError.
Proof.
  unfold text2words. destruct (text2words_sound_or_error (S (length s)) s) as [(ws' & E & H)|(e' & E & He & H)]; auto;
  rewrite E; intros H1; inversion H1; subst; auto.
Qed.
(** ValueError only comes from one of the exotic blanks 28-31 *)
Lemma coerce_error_exotic l v e : value_text (letter_kind l) v -> coerce l (VStr v) = Raise e ->
  exists c, In c v /\ 28 <= code c <= 31.
Proof.
  intros H E. destruct (existsb (fun c => (28 <=? code c) && (code c <=? 31)) v) eqn:X.
  - apply existsb_exists in X as (c & Hc & Hx). apply andb_true_iff in Hx as [H1 H2]. apply Nat.leb_le in H1, H2. eauto.
  - exfalso. apply existsb_false in X. rewrite forallb_forall in X.
    assert (N : forall ws r, v = ws ++ r -> Forall blank ws -> Forall numblank ws).
    { intros ws r -> Hb. apply Forall_forall. intros x Hx. rewrite Forall_forall in Hb. split; auto.
      specialize (X x). rewrite in_app_iff in X. specialize (X (or_introl Hx)). apply negb_true_iff, andb_false_iff in X.
      rewrite !Nat.leb_gt in X. lia. }
    assert (exists x, value_denotes l v x) as [x Hx].
    { destruct (letter_class l) eqn:C.
      - inversion H; subst; try (destruct l; discriminate).
        + eexists. apply vd_float; auto. eapply N; eauto.
        + exists (VFloat (rnd (decimal_number false ip []))).
          replace (ws ++ ip) with (ws ++ sign false ++ ip ++ dotted false []) by (simpl; rewrite app_nil_r; auto).
          apply vd_float; auto. eapply N; eauto. rewrite app_nil_r; auto.
        + exists (VFloat (rnd (decimal_number false ip [d]))).
          apply (vd_float l ws false ip true [d]); auto. eapply N; eauto. discriminate. destruct ip; discriminate.
      - inversion H; subst; try (destruct l; discriminate).
        eexists. apply vd_int; auto. eapply N; eauto.
      - eexists. apply vd_str; auto. }
    apply value_denotes_coerce in Hx. congruence.
Qed.
Theorem text2words_value_error s : text2words s = Raise EValueError -> exists c, In c s /\ 28 <= code c <= 31.
Proof.
  unfold text2words. generalize (S (length s)). intros n. revert s. induction n as [|n IH]; intros s H; [discriminate|].
  rewrite text2words_step in H. destruct (next_letter s) as [[[j c] s1]|] eqn:E.
  - apply next_letter_spec in E as (-> & _ & _). destruct (letter_of_ascii c) as [l|]; [|discriminate].
    destruct (scan_value l s1) as [[v r]|] eqn:Es; [|discriminate]. apply scan_value_iff in Es as [-> Hl].
    unfold mk_word in H. destruct (coerce l (VStr v)) eqn:Ec; cbn in H.
    + destruct (text2words_fuel n r) eqn:Er; cbn in H; [discriminate|]. inversion H; subst.
      destruct (IH r Er) as (x & Hx & Hr). exists x. split; auto. rewrite in_app_iff. simpl. rewrite in_app_iff. auto.
    + destruct (coerce_error_exotic _ _ _ (proj1 Hl) Ec) as (x & Hx & Hr). exists x. split; auto.
      rewrite in_app_iff. simpl. rewrite in_app_iff. auto.
  - destruct (forallb is_space s); discriminate.
Qed.
End WithArith.
