(** The argument types of pygcode-norm. *)
From Coq Require Import Ascii String List Bool Arith ZArith QArith Qcanon Lia.
From Verif Require Import Base Num BaseFacts NumFacts Regex RegexFacts FinditerFacts Words WordsSpec WordsProofs WordOrder PrintSpec PrintProofs PrintProofs2 GTable GCode GCodeSpec GCodeProofs GTableProofs Line LineSpec CommentProofs CleanProofs Position Machine Transform GCodeSpec MachSpec ModeSpec MachProofs2 Scripts ScriptsSpec ScriptsProofs2 ScriptArgs ScriptArgsSpec.
From Verif Require Arc.
Import ListNotations.
Local Open Scope nat_scope.

(** ** re.split *)
Lemma split_spans_pieces l tl p :
  split_spans (spans (length p) l) (p ++ glue consumed l tl) (length p) = map fst l ++ [tl].
Proof.
  revert p. induction l as [|[g m] l IH]; intros p; cbn [spans split_spans].
  - rewrite skipn_app_exact. auto.
  - cbn [mstart mend]. rewrite skipn_app_exact. unfold glue in *. cbn [flat_map fst snd map app]. rewrite <- !app_assoc.
    replace (length p + length g - length p) with (length g) by lia. rewrite firstn_app_exact. f_equal.
    specialize (IH (p ++ g ++ consumed m)). rewrite !app_length, <- !app_assoc in IH.
    rewrite <- Nat.add_assoc. rewrite IH. auto.
Qed.
Lemma re_split_pieces r s : re_split r s = let (l, tl) := pieces (S (length s)) r None s in map fst l ++ [tl].
Proof.
  unfold re_split. rewrite finditer_pieces. pose proof (pieces_glue (S (length s)) r None s) as H.
  destruct (pieces (S (length s)) r None s) as [l tl]. cbn [fst]. rewrite H at 1.
  apply (split_spans_pieces l tl []).
Qed.

Lemma comma_not_space c : is_space c = true -> Ascii.eqb "," c = false.
Proof. destruct (Ascii.eqb "," c) eqn:E; auto. apply Ascii.eqb_eq in E. subst. discriminate. Qed.
Lemma comma_here prev s :
  re_here RE_COMMA prev s =
  match span is_space s with
  | (a, c :: r) => if Ascii.eqb "," c then let (b, q) := span is_space r in Some (MRes (a ++ c :: b) [] q) else None
  | _ => None
  end.
Proof.
  rewrite re_here_fm. unfold RE_COMMA. rewrite fm_seq.
  destruct (span is_space s) as [ws r] eqn:E. destruct (span_inv _ _ _ _ E) as (Es & Hw & Hr).
  rewrite (fm_star_only _ _ _ _ ws r E).
  2:{ intros p c q _ Hc. cbn [rest consumed]. rewrite fm_seq. unfold chr. rewrite fm_cls. rewrite comma_not_space; auto. }
  cbn [rest consumed captured]. rewrite fm_seq. unfold chr. rewrite fm_cls.
  destruct r as [|c b]; auto. destruct (Ascii.eqb "," c) eqn:Ec; auto.
  cbn [rest consumed captured app].
  destruct (span is_space b) as [ws' d] eqn:E'.
  eapply fm_star_max; eauto.
Qed.
Lemma blanks_forallb a : Forall blank a -> forallb is_space a = true.
Proof. intros H. apply forallb_forall. rewrite Forall_forall in H. intros c I. exact (H c I). Qed.
Lemma starts_span b r : Forall blank b -> starts_visible r -> span is_space (b ++ r) = (b, r).
Proof.
  intros B S. apply span_all; [apply blanks_forallb; auto|]. destruct S as [->|(c & q & -> & V)]; auto. apply visible_iff; auto.
Qed.
Lemma comma_first prev x a b r : ~ In ","%char x -> ends_visible x -> Forall blank a -> Forall blank b -> starts_visible r ->
  first_match RE_COMMA prev (x ++ a ++ ","%char :: b ++ r) = Some (x, MRes (a ++ ","%char :: b) [] r).
Proof.
  revert prev. induction x as [|c x IH]; intros prev N E A B S.
  - cbn [app]. assert (H : re_here RE_COMMA prev (a ++ ","%char :: b ++ r) = Some (MRes (a ++ ","%char :: b) [] r)).
    { rewrite comma_here. rewrite span_all; [|apply blanks_forallb; auto|reflexivity]. rewrite Ascii.eqb_refl, starts_span; auto. }
    destruct a; cbn [app first_match] in *; rewrite H; auto.
  - cbn [app first_match]. rewrite comma_here.
    destruct (span_visible (c :: x) (a ++ ","%char :: b ++ r)) as (p & d & q & E1 & E2 & E3); auto; [discriminate|].
    cbn [app] in E3. rewrite E3. destruct (Ascii.eqb "," d) eqn:Ed.
    { apply Ascii.eqb_eq in Ed. subst d. exfalso. apply N. rewrite E1. apply in_app_iff. simpl; auto. }
    rewrite IH; auto; [intros X; apply N; right; auto|eapply ends_visible_tail; eauto].
Qed.
Lemma comma_first_none prev x : ~ In ","%char x -> first_match RE_COMMA prev x = None.
Proof.
  revert prev. induction x as [|c x IH]; intros prev N; cbn [first_match]; rewrite comma_here; auto.
  assert (N' : ~ In ","%char x) by (intros X; apply N; right; auto).
  destruct (span is_space (c :: x)) as [ws [|d b]] eqn:E; [rewrite IH; auto|].
  destruct (Ascii.eqb "," d) eqn:Ed; [|rewrite IH; auto].
  apply Ascii.eqb_eq in Ed. subst. apply span_inv in E as (E & _). exfalso. apply N. rewrite E. apply in_app_iff. simpl; auto.
Qed.
Lemma csv_pieces s l : csv s l -> forall k prev, length s < k -> let (ps, tl) := pieces k RE_COMMA prev s in map fst ps ++ [tl] = l.
Proof.
  induction 1 as [x N|x a b r l N E A B S C IH]; intros k prev L; (destruct k as [|k]; [lia|]); cbn [pieces].
  - rewrite comma_first_none; auto.
  - rewrite comma_first; auto. cbn [rest consumed]. specialize (IH k (prev_after prev (x ++ a ++ ","%char :: b))).
    rewrite !app_length in L. cbn [length] in L. rewrite app_length in L. specialize (IH ltac:(lia)).
    destruct (pieces k RE_COMMA _ r) as [ps tl]. cbn [map fst app]. rewrite IH. auto.
Qed.
Lemma csv_split s l : csv s l -> re_split RE_COMMA s = l.
Proof.
  intros C. rewrite re_split_pieces. pose proof (csv_pieces s l C (S (length s)) None ltac:(lia)) as H. destruct (pieces (S (length s)) RE_COMMA None s). exact H.
Qed.
Lemma leading_blanks (s : text) : exists b r, s = b ++ r /\ Forall blank b /\ starts_visible r.
Proof.
  destruct (span is_space s) as [b r] eqn:E. apply span_inv in E as (-> & B & R). exists b, r. split; auto. split.
  - apply Forall_forall. rewrite forallb_forall in B. intros c I. exact (B c I).
  - destruct r as [|c q]; [left; auto|]. right. exists c, q. split; auto. apply visible_iff; auto.
Qed.
Lemma csv_total s : exists l, csv s l.
Proof.
  remember (length s) as n eqn:Hn. assert (L : length s <= n) by lia. clear Hn. revert s L. induction n as [|n IH]; intros s L.
  - destruct s; [|cbn in L; lia]. exists [[]]. constructor. intros [].
  - destruct (List.in_dec ascii_dec ","%char s) as [I|N]; [|exists [s]; constructor; auto].
    assert (F : exists x r, s = x ++ ","%char :: r /\ ~ In ","%char x).
    { clear L. induction s as [|c s IHs]; [destruct I|]. destruct (ascii_dec c ","%char) as [->|D]; [exists [], s; split; auto; intros []|].
      destruct I as [I|I]; [congruence|]. destruct (IHs I) as (x & r & -> & N). exists (c :: x), r. split; auto. intros [H|H]; [congruence|auto]. }
    destruct F as (x & r & -> & N). destruct (trailing_blanks x) as (x' & a & -> & A & V). destruct (leading_blanks r) as (b & r' & -> & B & R).
    destruct (IH r') as (l & C). { rewrite !app_length in L. cbn [length] in L. rewrite app_length in L. lia. }
    exists (x' :: l). rewrite <- app_assoc. constructor; auto. intros X. apply N, in_app_iff. auto.
Qed.
Lemma csv_iff s l : re_split RE_COMMA s = l <-> csv s l.
Proof. split; [|apply csv_split]. intros <-. destruct (csv_total s) as (l & C). rewrite (csv_split s l C). exact C. Qed.

Lemma mapr_ok {A B} (f : A -> result B) l ys : mapr f l = Ok ys <-> Forall2 (fun x y => f x = Ok y) l ys.
Proof.
  revert ys. induction l as [|x l IH]; intros ys; cbn [mapr].
  - split; [intros H; injection H as <-; constructor|intros H; inversion H; auto].
  - destruct (f x) as [y|e] eqn:E; cbn [bind].
    + destruct (mapr f l) as [ys'|e'] eqn:E'; cbn [bind].
      * split; [intros H; injection H as <-; constructor; auto; apply IH; auto|]. intros H; inversion H as [|? y' ? l' F F' Q]; subst. assert (y' = y) by congruence. subst. apply IH in F'. congruence.
      * split; [discriminate|]. intros H; inversion H as [|? y' ? l' F F' Q]; subst. apply IH in F'. discriminate.
    + split; [discriminate|]. intros H; inversion H; subst. congruence.
Qed.

Section Words.
Context {ar : Arith}.
(** a word that is printed without loss is what [Word(text)] makes of its text *)
Lemma survives_word w : survives w -> mk_word_str (word_str w) = Ok w.
Proof.
  intros (v & E & V & D). rewrite E. cbn [mk_word_str]. assert (L : letter_of_ascii (letter_ascii (wletter w)) = Some (wletter w)) by (destruct (wletter w); reflexivity).
  rewrite L. unfold mk_word. rewrite (value_denotes_coerce _ _ _ D). destruct w; reflexivity.
Qed.
Lemma no_comma_digits ds : Forall digit ds -> ~ In ","%char ds.
Proof. intros D I. rewrite Forall_forall in D. apply D in I. apply digit_iff in I. discriminate I. Qed.
Lemma no_comma_blanks ds : Forall blank ds -> ~ In ","%char ds.
Proof. intros D I. rewrite Forall_forall in D. apply D in I. discriminate I. Qed.
Lemma no_comma_value k v : k <> KText -> value_text k v -> ~ In ","%char v.
Proof.
  intros K V I. inversion V; subst; try congruence; clear V.
  - rewrite !in_app_iff in I. destruct I as [I|[I|[I|I]]]; [revert I; apply no_comma_blanks; auto| |revert I; apply no_comma_digits; auto|].
    + destruct neg; cbn in I; [destruct I as [I|[]]; discriminate I|auto].
    + destruct dot; cbn [dotted In] in I; [|auto]. destruct I as [I|I]; [discriminate I|revert I; apply no_comma_digits; auto].
  - rewrite in_app_iff in I. destruct I as [I|I]; [revert I; apply no_comma_blanks; auto|revert I; apply no_comma_digits; auto].
  - rewrite !in_app_iff in I. destruct I as [I|[I|I]]; [revert I; apply no_comma_blanks; auto|revert I; apply no_comma_digits; auto|]. destruct I as [I|[I|[]]]; [discriminate I|]. subst d. eapply (no_comma_digits [","%char]); [constructor; auto|left; auto].
  - rewrite in_app_iff in I. destruct I as [I|I]; [revert I; apply no_comma_blanks; auto|revert I; apply no_comma_digits; auto].
Qed.
Lemma digit_visible d : digit d -> ~ blank d.
Proof. intros D B. apply digit_iff in D. unfold blank in B. unfold is_digit in D. unfold is_space in B. apply andb_true_iff in D as [D1 D2]. apply Nat.leb_le in D1, D2. rewrite !orb_true_iff, !andb_true_iff, !Nat.leb_le, !Nat.eqb_eq in B. lia. Qed.

Lemma ends_app a b : b <> [] -> ends_visible b -> ends_visible (a ++ b).
Proof. intros N [->|(p & c & -> & V)]; [congruence|]. right. exists (a ++ p), c. rewrite app_assoc. auto. Qed.
Lemma ends_digits ds : Forall digit ds -> ds <> [] -> ends_visible ds.
Proof.
  intros D N. destruct (exists_last N) as (p & c & ->). right. exists p, c. split; auto. apply Forall_app in D as [_ D]. inversion D; subst. apply digit_visible; auto.
Qed.
Lemma ends_dot : ends_visible ["."%char].
Proof. right. exists [], "."%char. split; auto. intros H. discriminate H. Qed.
Lemma value_ends k v : k <> KText -> value_text k v -> v <> [] /\ ends_visible v.
Proof.
  intros K V. inversion V; subst; try congruence; clear V.
  - destruct dot; cbn [dotted].
    + destruct fp as [|f fp].
      * split; [destruct ws, neg, ip; discriminate|]. rewrite !app_assoc. apply ends_app; [discriminate|apply ends_dot].
      * split; [destruct ws, neg, ip; discriminate|]. change ("."%char :: f :: fp) with (["."%char] ++ f :: fp). rewrite !app_assoc. apply ends_app; [discriminate|apply ends_digits; auto; discriminate].
    + rewrite H2, app_nil_r in * by auto. split; [destruct ws, neg, ip; try discriminate; congruence|]. rewrite app_assoc. apply ends_app; auto. apply ends_digits; auto.
  - split; [destruct ws; [auto|discriminate]|]. apply ends_app; auto. apply ends_digits; auto.
  - split; [destruct ws, ip; discriminate|]. rewrite app_assoc. change ["."%char; d] with (["."%char] ++ [d]). rewrite app_assoc. apply ends_app; [discriminate|]. apply ends_digits; [constructor; auto|discriminate].
  - split; [destruct ws; [auto|discriminate]|]. apply ends_app; auto. apply ends_digits; auto.
Qed.
(** the text of a word without free text: no comma, no blanks at its ends *)
Lemma word_element w : letter_kind (wletter w) <> KText -> survives w -> ~ In ","%char (word_str w) /\ starts_visible (word_str w) /\ ends_visible (word_str w).
Proof.
  intros K (v & E & V & _). rewrite E. destruct (value_ends _ _ K V) as [N Ev]. split; [|split].
  - intros [I|I]; [destruct (wletter w); discriminate I|]. eapply no_comma_value; eauto.
  - right. exists (letter_ascii (wletter w)), v. split; auto. intros B. unfold blank in B. destruct (wletter w); discriminate B.
  - change (letter_ascii (wletter w) :: v) with ([letter_ascii (wletter w)] ++ v). apply ends_app; auto.
Qed.
Lemma words_csv w ws : Forall (fun w => letter_kind (wletter w) <> KText /\ survives w) (w :: ws) -> csv (join (t ",") (map word_str (w :: ws))) (map word_str (w :: ws)).
Proof.
  revert w. induction ws as [|w' ws IH]; intros w F; inversion F as [|? ? [K S] F']; subst; destruct (word_element w K S) as (N & _ & V).
  - cbn [map join]. constructor; auto.
  - specialize (IH w' F'). inversion F' as [|? ? [K' S'] _]; subst. destruct (word_element w' K' S') as (_ & V' & _).
    assert (R : starts_visible (join (t ",") (map word_str (w' :: ws)))).
    { destruct V' as [V'|(c & q & E & V')]; [unfold word_str in V'; discriminate V'|]. right. cbn [map join]. destruct (map word_str ws); [exists c, q; auto|]. rewrite E. cbn [app]. eexists c, _. split; [reflexivity|auto]. }
    pose proof (csv_more (word_str w) [] [] _ _ N V (Forall_nil _) (Forall_nil _) R IH) as H. cbn [app] in H. exact H.
Qed.
Lemma words_back ws : ws <> [] -> Forall (fun w => letter_kind (wletter w) <> KText /\ survives w) ws -> word_list_type (join (t ",") (map word_str ws)) = Ok ws.
Proof.
  intros N F. destruct ws as [|w ws]; [congruence|]. unfold word_list_type. rewrite (csv_split _ _ (words_csv w ws F)). apply mapr_ok.
  clear N. induction F as [|x l [_ S] F IH]; cbn [map]; constructor; auto. apply survives_word; auto.
Qed.
(** ** the default list of canned codes *)
Lemma canned_keys c k : accurate ar -> subclass c GCodeCannedCycle = true -> word_key c = Some k -> letter_kind (wletter k) <> KText /\ survives k.
Proof.
  intros acc S K. assert (E : exists n, (0 <= n < 1000)%Z /\ k = Word LG (VFloat (rnd (tenths n)))).
  { pose proof (key_form c) as F. destruct c; try discriminate S;
    match type of F with match ?t with _ => _ end => let v := eval vm_compute in t in change t with v in F end; cbv iota in F;
    (destruct F as [[_ F]|[F _]] || destruct F as [F _]); rewrite F in K; try discriminate K; injection K as <-; (eexists; split; [|reflexivity]; lia). }
  destruct E as (n & R & ->). split; [discriminate|]. apply code_survives; auto. lia.
Qed.
End Words.

(** ** --arc_lin_method *)
Section Lin.
Context {ar : Arith}.
Definition lin_found (s : text) (cs : caps) : Prop :=
  exists c e, is_iom c = true /\ (e = [] \/ e = [newline]) /\
    ((s = c :: e /\ cs = [(1, [c])]) \/ exists d, is_iom d = true /\ s = c :: ","%char :: d :: e /\ cs = [(1, [c]); (2, [d])]).
Lemma lin_in s m : In m (mtch (Seq (Grp 1 (Cls is_iom)) (Seq (Opt (Seq (chr ","%char) (Grp 2 (Cls is_iom)))) Eol)) None s) -> lin_found s (captured m).
Proof.
  intros I. apply in_seq in I as (m1 & m2 & I1 & I2 & ->). apply in_grp in I1 as (m1' & I1 & ->). apply in_cls in I1 as (c & -> & C & E). cbn [rest consumed captured] in *. rewrite E in *. cbn [rest consumed captured app] in *.
  apply in_seq in I2 as (m3 & m4 & I2 & I3 & ->). apply in_eol in I3 as [I3 E4]. rewrite E4. cbn [rest consumed captured]. rewrite app_nil_r. apply in_opt in I2 as [I2|I2].
  - apply in_seq in I2 as (m5 & m6 & I5 & I6 & ->). apply in_chr in I5 as [E5 E6]. apply in_grp in I6 as (m7 & I6 & ->). apply in_cls in I6 as (d & E7 & D & E8). rewrite E6, E8 in *. cbn [rest consumed captured app] in *. exists c, (rest m7). split; auto. split; auto. right. exists d. split; auto. split; [|reflexivity]. rewrite E5, E7. reflexivity.
  - subst m3. cbn [rest captured] in *. exists c, (rest m1'). auto.
Qed.
Lemma lin_out s cs : lin_found s cs -> exists m, In m (mtch (Seq (Grp 1 (Cls is_iom)) (Seq (Opt (Seq (chr ","%char) (Grp 2 (Cls is_iom)))) Eol)) None s).
Proof.
  intros (c & e & C & E & [[-> _]|(d & D & -> & _)]).
  - eexists. apply in_seq. exists (MRes [c] [(1, [c])] e), (MRes [] [] e). split; [apply in_grp; exists (MRes [c] [] e); split; auto; apply in_cls; exists c; auto|]. split; [|reflexivity].
    apply in_seq. exists (MRes [] [] e), (MRes [] [] e). split; [apply in_opt; right; reflexivity|]. split; [apply in_eol; split; auto|reflexivity].
  - eexists. apply in_seq. exists (MRes [c] [(1, [c])] (","%char :: d :: e)), (MRes [","%char; d] [(2, [d])] e). split; [apply in_grp; exists (MRes [c] [] (","%char :: d :: e)); split; auto; apply in_cls; exists c; auto|]. split; [|reflexivity].
    apply in_seq. exists (MRes [","%char; d] [(2, [d])] e), (MRes [] [] e). split; [|split; [apply in_eol; split; auto|reflexivity]].
    apply in_opt. left. apply in_seq. exists (MRes [","%char] [] (d :: e)), (MRes [d] [(2, [d])] e). split; [apply in_chr; split; reflexivity|]. split; [|reflexivity].
    apply in_grp. exists (MRes [d] [] e). split; auto. apply in_cls. exists d. auto.
Qed.
Lemma lin_found_fun s cs cs' : lin_found s cs -> lin_found s cs' -> cs = cs'.
Proof.
  intros (c & e & C & E & [[-> ->]|(d & D & -> & ->)]) (c' & e' & C' & E' & [[H ->]|(d' & D' & H & ->)]).
  - injection H as <- _. reflexivity.
  - exfalso. destruct E as [->| ->]; discriminate H.
  - exfalso. destruct E' as [->| ->]; discriminate H.
  - injection H as <- <- _. reflexivity.
Qed.
Lemma lin_search s : (exists m cs, search RE_LIN s = Some m /\ mcaps m = cs /\ lin_found s cs) \/ (search RE_LIN s = None /\ forall cs, ~ lin_found s cs).
Proof.
  destruct (search RE_LIN s) as [m|] eqn:E.
  - left. exists m, (mcaps m). split; auto. split; auto. apply search_bol in E as (m' & I & ->). apply lin_in; auto.
  - right. split; auto. intros cs F. apply lin_out in F as (m & I). apply search_bol_some in I as (m' & I). unfold RE_LIN in E. congruence.
Qed.
Lemma lin_class_ok c m : lin_class [c] = Ok m <-> method_char c m.
Proof.
  split.
  - unfold lin_class. destruct (text_eqb [c] (t "i")) eqn:E1; [apply text_eqb_eq in E1; injection E1 as ->; intros H; injection H as <-; constructor|].
    destruct (text_eqb [c] (t "o")) eqn:E2; [apply text_eqb_eq in E2; injection E2 as ->; intros H; injection H as <-; constructor|].
    destruct (text_eqb [c] (t "m")) eqn:E3; [apply text_eqb_eq in E3; injection E3 as ->; intros H; injection H as <-; constructor|]. discriminate.
  - intros []; reflexivity.
Qed.
Lemma lin_class_raise s e : lin_class s = Raise e -> e = EKeyError.
Proof. unfold lin_class. destruct (text_eqb s (t "i")); [discriminate|]. destruct (text_eqb s (t "o")); [discriminate|]. destruct (text_eqb s (t "m")); [discriminate|]. congruence. Qed.
(** the two words *)
Definition arc_word (k : Z) : word := Word LG (VFloat (rnd (Qc_of_Z k))).
Lemma word_g2 : mk_word_str (t "g2") = Ok (arc_word 2).
Proof.
  change (mk_word_str (t "g2")) with (mk_word LG (VStr ["2"%char])). unfold mk_word, arc_word.
  rewrite (value_denotes_coerce LG ["2"%char] (VFloat (rnd (Qc_of_Z 2)))); auto.
  assert (E : Qc_of_Z 2 = decimal_number false ["2"%char] []) by (apply Qceqb_eq; vm_compute; reflexivity). rewrite E.
  apply (vd_float LG [] false ["2"%char] false []); auto; [constructor; [apply digit_iff; reflexivity|constructor]|discriminate].
Qed.
Lemma word_g3 : mk_word_str (t "g3") = Ok (arc_word 3).
Proof.
  change (mk_word_str (t "g3")) with (mk_word LG (VStr ["3"%char])). unfold mk_word, arc_word.
  rewrite (value_denotes_coerce LG ["3"%char] (VFloat (rnd (Qc_of_Z 3)))); auto.
  assert (E : Qc_of_Z 3 = decimal_number false ["3"%char] []) by (apply Qceqb_eq; vm_compute; reflexivity). rewrite E.
  apply (vd_float LG [] false ["3"%char] false []); auto; [constructor; [apply digit_iff; reflexivity|constructor]|discriminate].
Qed.
Lemma arc_words_differ : accurate ar -> word_eqb (arc_word 3) (arc_word 2) = false /\ word_eqb (arc_word 2) (arc_word 3) = false.
Proof. intros [A _]. unfold arc_word. rewrite !A by lia. split; vm_compute; reflexivity. Qed.
Lemma class_word c k g : accurate ar -> gcode_wf g -> gcls g = c ->
  forallb (fun e => negb (gclass_eqb (snd e) c) || (letter_eqb (fst (fst (fst e))) LG && Z.eqb (snd (fst (fst e))) (10 * k) && Z.eqb (snd (fst e)) (10 * k))) doc_codes = true ->
  forallb (fun e => negb (gclass_eqb (snd e) c)) doc_letters = true -> gword g = arc_word k.
Proof.
  intros acc (_ & P & W & _) C F1 F2. unfold proper in P. rewrite C in P. apply (word_class_doc acc) in P; auto. destruct (gword g) as [l v]. cbn [wletter wvalue] in P. destruct P as [P|(lo & hi & I & x & V & L1 & L2)].
  - exfalso. rewrite forallb_forall in F2. specialize (F2 _ P). cbn [snd] in F2. rewrite (proj2 (gclass_eqb_eq c c) eq_refl) in F2. discriminate F2.
  - cbn [wvalue] in V. subst v. rewrite forallb_forall in F1. specialize (F1 _ I). cbn [fst snd] in F1. rewrite (proj2 (gclass_eqb_eq c c) eq_refl) in F1. cbn [negb orb] in F1. apply andb_true_iff in F1 as [F1 F3]. apply andb_true_iff in F1 as [F1 F4]. apply letter_eqb_eq in F1. apply Z.eqb_eq in F3, F4. cbn [wletter] in F1. subst l lo hi.
    unfold arc_word. assert (E : Qc_of_Z k = frac (10 * k) 10). { apply Qc_is_canon. unfold Qc_of_Z, frac. cbn [this Q2Qc]. rewrite !Qred_correct. unfold Qeq. cbn [Qnum Qden inject_Z]. lia. }
    rewrite E. do 2 f_equal. apply Qcle_antisym; auto.
Qed.
End Lin.
