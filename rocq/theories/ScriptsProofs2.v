(** The range argument of pygcode-crop: what the regular expressions accept. *)
From Coq Require Import Ascii String List Bool Arith ZArith QArith Qcanon Qround Lia.
From Verif Require Import Base Num BaseFacts NumFacts Regex RegexFacts Words WordsSpec WordsProofs GTable GCode Line Position Machine PosSpec PosProofs Transform Scripts ScriptsSpec.
Import ListNotations.
Local Open Scope nat_scope.

(** ** matches as a relation *)
Lemma in_seq a b prev s m : In m (mtch (Seq a b) prev s) <->
  exists m1 m2, In m1 (mtch a prev s) /\ In m2 (mtch b (prev_after prev (consumed m1)) (rest m1)) /\
    m = MRes (consumed m1 ++ consumed m2) (captured m1 ++ captured m2) (rest m2).
Proof.
  cbn [mtch]. rewrite in_flat_map. split.
  - intros (m1 & I1 & I2). apply in_map_iff in I2 as (m2 & <- & I2). eauto 6.
  - intros (m1 & m2 & I1 & I2 & ->). exists m1. split; auto. apply in_map_iff. exists m2. auto.
Qed.
Lemma in_star f prev s m : In m (mtch (Star f) prev s) <-> exists a, s = a ++ rest m /\ Forall (fun c => f c = true) a /\ m = MRes a [] (rest m).
Proof.
  cbn [mtch]. revert m. induction s as [|c s IH]; intros m; cbn [star_opts].
  - split.
    + intros [<-|[]]. exists []. auto.
    + intros (a & E & _ & H). symmetry in E. apply app_eq_nil in E as [-> E]. left. rewrite H, E. reflexivity.
  - destruct (f c) eqn:F.
    + rewrite in_app_iff, in_map_iff. split.
      * intros [(m' & <- & I)|[<-|[]]]; [|exists []; auto]. apply IH in I as (a & E & Fa & Em). cbn [rest]. exists (c :: a). rewrite Em. cbn [consumed rest app]. rewrite <- E. auto.
      * intros (a & E & Fa & Em). destruct a as [|x a]; [right; left; rewrite Em; cbn [app] in E; rewrite <- E; reflexivity|]. cbn [app] in E. injection E as <- E. left. exists (MRes a [] (rest m)). split; [rewrite Em; reflexivity|].
        apply IH. exists a. inversion Fa; subst. auto.
    + split.
      * intros [<-|[]]. exists []. auto.
      * intros (a & E & Fa & Em). destruct a as [|x a]; [left; rewrite Em; cbn [app] in E; rewrite <- E; reflexivity|]. cbn [app] in E. injection E as <- _. inversion Fa; congruence.
Qed.
Lemma in_cls f prev s m : In m (mtch (Cls f) prev s) <-> exists c, s = c :: rest m /\ f c = true /\ m = MRes [c] [] (rest m).
Proof.
  cbn [mtch]. destruct s as [|c s].
  - split; [intros []|intros (c & E & _); discriminate].
  - destruct (f c) eqn:F; split.
    + intros [<-|[]]. exists c. auto.
    + intros (x & E & _ & Em). injection E as <- E. left. rewrite Em, E. reflexivity.
    + intros [].
    + intros (x & E & Fx & _). injection E as <- E. congruence.
Qed.
Lemma in_chr x prev s m : In m (mtch (chr x) prev s) <-> s = x :: rest m /\ m = MRes [x] [] (rest m).
Proof.
  unfold chr. rewrite in_cls. split.
  - intros (c & E & F & Em). apply Ascii.eqb_eq in F. subst c. auto.
  - intros [E Em]. exists x. rewrite Ascii.eqb_refl. auto.
Qed.
Lemma in_opt a prev s m : In m (mtch (Opt a) prev s) <-> In m (mtch a prev s) \/ m = MRes [] [] s.
Proof. cbn [mtch]. rewrite in_app_iff. cbn [In]. intuition congruence. Qed.
Lemma in_alt a b prev s m : In m (mtch (Alt a b) prev s) <-> In m (mtch a prev s) \/ In m (mtch b prev s).
Proof. cbn [mtch]. apply in_app_iff. Qed.
Lemma in_grp n a prev s m : In m (mtch (Grp n a) prev s) <-> exists m', In m' (mtch a prev s) /\ m = MRes (consumed m') ((n, consumed m') :: captured m') (rest m').
Proof. cbn [mtch]. rewrite in_map_iff. split; intros (m' & A & B); exists m'; auto. Qed.
Lemma in_plus f prev s m : In m (mtch (plus f) prev s) <-> exists a, a <> [] /\ s = a ++ rest m /\ Forall (fun c => f c = true) a /\ m = MRes a [] (rest m).
Proof.
  unfold plus. rewrite in_seq. setoid_rewrite in_cls. setoid_rewrite in_star. split.
  - intros (m1 & m2 & (c & E & F & E1) & (a & E2 & Fa & E3) & ->). rewrite E1, E3 in *. cbn [rest consumed captured app] in *. exists (c :: a). split; [discriminate|]. split; [rewrite E, E2; reflexivity|]. auto.
  - intros (a & N & E & Fa & Em). destruct a as [|c a]; [congruence|]. inversion Fa; subst. exists (MRes [c] [] (a ++ rest m)), (MRes a [] (rest m)). cbn [rest consumed captured app].
    split; [exists c; auto|]. split; [exists a; auto|]. rewrite Em. reflexivity.
Qed.
Lemma in_bol prev s m : In m (mtch Bol prev s) <-> prev = None /\ m = MRes [] [] s.
Proof. cbn [mtch]. destruct prev; cbn [In]; intuition (congruence || discriminate). Qed.
Lemma in_bolm_start s m : In m (mtch BolM None s) <-> m = MRes [] [] s.
Proof. cbn [mtch In]. intuition congruence. Qed.
Lemma in_eol prev s m : In m (mtch Eol prev s) <-> (s = [] \/ s = [newline]) /\ m = MRes [] [] s.
Proof.
  cbn [mtch]. destruct s as [|c [|d s]]; cbn [In].
  - intuition congruence.
  - destruct (is_newline c) eqn:E; cbn [In].
    + assert (c = newline) as ->. { unfold is_newline in E. apply Nat.eqb_eq in E. unfold newline. rewrite <- (ascii_nat_embedding c). f_equal. exact E. } intuition congruence.
    + split; [intros []|]. intros [[H|H] _]; [discriminate|]. injection H as ->. discriminate.
  - split; [intros []|]. intros [[H|H] _]; discriminate.
Qed.
Lemma is_newline_iff c : is_newline c = true <-> c = newline.
Proof.
  unfold is_newline. rewrite Nat.eqb_eq. split; [|intros ->; reflexivity]. intros E. unfold newline. rewrite <- (ascii_nat_embedding c). f_equal. exact E.
Qed.
Lemma in_eolm prev s m : ~ In newline s -> In m (mtch EolM prev s) <-> s = [] /\ m = MRes [] [] s.
Proof.
  intros N. cbn [mtch]. destruct s as [|c s]; cbn [In]; [intuition congruence|].
  destruct (is_newline c) eqn:E; [apply is_newline_iff in E; subst; exfalso; apply N; left; auto|]. split; [intros []|intros [H _]; discriminate].
Qed.

Lemma re_here_in r prev s m : re_here r prev s = Some m -> In m (mtch r prev s).
Proof. unfold re_here. destruct (mtch r prev s); cbn; [discriminate|]. intros H. injection H as ->. auto. Qed.
Lemma re_here_some r prev s m : In m (mtch r prev s) -> exists m', re_here r prev s = Some m'.
Proof. unfold re_here. destruct (mtch r prev s); cbn; [intros []|eauto]. Qed.

(** a pattern starting with the multi line ^ only matches at the start of a single line *)
Lemma search_bolm r s m : ~ In newline s -> search (Seq BolM r) s = Some m -> exists m', In m' (mtch r None s) /\ mcaps m = captured m'.
Proof.
  intros N. unfold search.
  assert (G : forall s i c, ~ In newline (c :: s) -> search_from (Seq BolM r) i (Some c) s = None).
  { clear. induction s as [|d s IH]; intros i c N; cbn [search_from].
    - assert (E : re_here (Seq BolM r) (Some c) [] = None). { unfold re_here. cbn [mtch]. destruct (is_newline c) eqn:E; [apply is_newline_iff in E; subst; exfalso; apply N; left; auto|]. reflexivity. }
      rewrite E. reflexivity.
    - assert (E : re_here (Seq BolM r) (Some c) (d :: s) = None). { unfold re_here. cbn [mtch]. destruct (is_newline c) eqn:E; [apply is_newline_iff in E; subst; exfalso; apply N; left; auto|]. reflexivity. }
      rewrite E. apply IH. intros I. apply N. right. exact I. }
  intros H. assert (K : exists m', re_here (Seq BolM r) None s = Some m' /\ mcaps m = captured m').
  { destruct s as [|c s]; cbn [search_from] in H.
    - destruct (re_here (Seq BolM r) None []) as [m'|]; [|discriminate]. injection H as <-. eauto.
    - destruct (re_here (Seq BolM r) None (c :: s)) as [m'|]; [injection H as <-; eauto|]. rewrite G in H by auto. discriminate. }
  destruct K as (m' & K & E). apply re_here_in in K. apply in_seq in K as (m1 & m2 & I1 & I2 & ->). apply in_bolm_start in I1. subst m1. cbn [consumed rest captured app] in *. exists m2. split; auto.
Qed.
Lemma search_bolm_some r s m : In m (mtch r None s) -> exists m', search (Seq BolM r) s = Some m'.
Proof.
  intros I. assert (I2 : In (MRes (consumed m) (captured m) (rest m)) (mtch (Seq BolM r) None s)). { apply in_seq. exists (MRes [] [] s), m. split; [apply in_bolm_start; auto|]. split; auto. }
  apply re_here_some in I2 as (m' & E). unfold search. destruct s; cbn [search_from]; rewrite E; eauto.
Qed.
Lemma search_bol r s m : search (Seq Bol r) s = Some m -> exists m', In m' (mtch r None s) /\ mcaps m = captured m'.
Proof.
  rewrite search_anchored. destruct (fm r None s Some) as [m'|] eqn:E; cbn [option_map]; [|discriminate]. intros H. injection H as <-. rewrite <- re_here_fm in E. apply re_here_in in E. exists m'. auto.
Qed.
Lemma search_bol_some r s m : In m (mtch r None s) -> exists m', search (Seq Bol r) s = Some m'.
Proof. intros I. rewrite search_anchored. rewrite <- re_here_fm. apply re_here_some in I as (m' & ->). cbn [option_map]. eauto. Qed.

(** ** one condition *)
Definition RE_OPS : re := Alt (Seq (chr "="%char) (Opt (chr "="%char)))
            (Alt (Seq (chr "!"%char) (chr "="%char))
            (Alt (Seq (chr "<"%char) (Opt (chr "="%char)))
                 (Seq (chr ">"%char) (Opt (chr "="%char))))).
Definition RE_NUM : re := Seq (Opt (chr "-"%char)) (Seq (plus is_digit) (Opt (Seq (chr "."%char) (plus is_digit)))).
Lemma in_op1 x prev s m : In m (mtch (Seq (chr x) (Opt (chr "="%char))) prev s) <->
  exists o, (o = [x] \/ o = [x; "="%char]) /\ s = o ++ rest m /\ m = MRes o [] (rest m).
Proof.
  rewrite in_seq. setoid_rewrite in_opt. setoid_rewrite in_chr. split.
  - intros (m1 & m2 & (E & E1) & [(E2 & E3)|E2] & ->).
    + rewrite E1, E3 in *. cbn [rest consumed captured app] in *. exists [x; "="%char]. split; auto. split; auto. cbn [app]. rewrite E, E2. reflexivity.
    + rewrite E1, E2 in *. cbn [rest consumed captured app] in *. exists [x]. auto.
  - intros (o & [-> | ->] & E & Em); cbn [app] in E.
    + exists (MRes [x] [] (rest m)), (MRes [] [] (rest m)). cbn [rest consumed captured app]. auto.
    + exists (MRes [x] [] ("="%char :: rest m)), (MRes ["="%char] [] (rest m)). cbn [rest consumed captured app]. auto.
Qed.
Lemma in_ops prev s m : In m (mtch RE_OPS prev s) <-> exists o op, In (o, op) op_texts /\ s = o ++ rest m /\ m = MRes o [] (rest m).
Proof.
  unfold RE_OPS. rewrite !in_alt, !in_op1. rewrite in_seq. setoid_rewrite in_chr. split.
  - intros [(o & [-> | ->] & E)|[(m1 & m2 & (E & E1) & (E2 & E3) & ->)|[(o & [-> | ->] & E)|(o & [-> | ->] & E)]]].
    1: exists (t "="), CEq. 2: exists (t "=="), CEq.
    3: { rewrite E1, E3 in *. cbn [rest consumed captured app] in *. exists (t "!="), CNe. split; [cbn; intuition|]. split; [rewrite E, E2; reflexivity|reflexivity]. }
    3: exists (t "<"), CLt. 4: exists (t "<="), CLe. 5: exists (t ">"), CGt. 6: exists (t ">="), CGe.
    all: split; [cbn; intuition|exact E].
  - intros (o & op & I & E & Em). cbn [op_texts In] in I.
    destruct I as [I|[I|[I|[I|[I|[I|[I|[]]]]]]]]; injection I as <- <-.
    + left. exists (t "="). auto.
    + left. exists (t "=="). auto.
    + right. left. exists (MRes ["!"%char] [] ("="%char :: rest m)), (MRes ["="%char] [] (rest m)). cbn [rest consumed captured app]. auto.
    + right. right. left. exists (t "<"). auto.
    + right. right. left. exists (t "<="). auto.
    + right. right. right. exists (t ">"). auto.
    + right. right. right. exists (t ">="). auto.
Qed.

Definition RE_DEC : re := Opt (Seq (chr "."%char) (plus is_digit)).
Lemma in_dec prev s m : In m (mtch RE_DEC prev s) <-> exists dot fp, Forall digit fp /\ (dot = false -> fp = []) /\ (dot = true -> fp <> []) /\ s = dotted dot fp ++ rest m /\ m = MRes (dotted dot fp) [] (rest m).
Proof.
  unfold RE_DEC. rewrite in_opt, in_seq. setoid_rewrite in_plus. setoid_rewrite in_chr. split.
  - intros [(m5 & m6 & (E5 & M5) & (fp & NF & E6 & F6 & M6) & ->)|M4].
    + exists true, fp. rewrite M5, M6 in *. cbn [rest consumed captured app dotted] in *. split; [eapply Forall_impl; [|exact F6]; intros c; apply digit_iff|]. split; [discriminate|]. split; auto. split; auto. rewrite E5, E6. reflexivity.
    + exists false, []. rewrite M4. cbn. split; auto. split; auto. split; [discriminate|]. auto.
  - intros (dot & fp & F & D1 & D2 & E & Em). destruct dot; [left|right; rewrite D1 in * by auto; cbn [dotted app] in *; subst s; exact Em]. cbn [dotted app] in *.
    exists (MRes ["."%char] [] (fp ++ rest m)), (MRes fp [] (rest m)). cbn [rest consumed captured app]. split; auto. split; auto. exists fp. split; auto. split; auto. split; auto. eapply Forall_impl; [|exact F]. intros c. apply digit_iff.
Qed.
Section WithArith.
Context {ar : Arith}.
Lemma in_num prev s m : In m (mtch RE_NUM prev s) <-> exists v x, number_text v x /\ s = v ++ rest m /\ m = MRes v [] (rest m).
Proof.
  unfold RE_NUM. fold RE_DEC. rewrite in_seq. setoid_rewrite in_opt. setoid_rewrite in_chr. split.
  - intros (m1 & m2 & M1 & M2 & ->). apply in_seq in M2 as (m3 & m4 & M3 & M4 & ->). apply in_plus in M3 as (ip & N & E3 & F3 & M3). apply in_dec in M4 as (dot & fp & D1 & D2 & D3 & D4 & D5). cbn [consumed captured rest] in *.
    assert (S : exists neg, s = sign neg ++ rest m1 /\ m1 = MRes (sign neg) [] (rest m1)). { destruct M1 as [[E M1]|M1]; [exists true|exists false]; auto. rewrite M1. auto. }
    destruct S as (neg & E & M1'). rewrite M1', M3, D5 in *. cbn [rest consumed captured app] in *.
    exists (sign neg ++ ip ++ dotted dot fp), (rnd (decimal_number neg ip fp)). split. { constructor; auto. eapply Forall_impl; [|exact F3]. intros c. apply digit_iff. }
    split; [|reflexivity]. rewrite E, E3, D4, <- !app_assoc. reflexivity.
  - intros (v & x & NT & E & Em). inversion NT as [neg ip dot fp I N F D1 D2 EV EX]. subst v x.
    exists (MRes (sign neg) [] (ip ++ dotted dot fp ++ rest m)), (MRes (ip ++ dotted dot fp) [] (rest m)). cbn [rest consumed captured app]. split.
    { destruct neg; [left|right]; cbn [sign app] in *; rewrite E, <- ?app_assoc; auto. }
    split; [|rewrite Em; reflexivity]. apply in_seq.
    exists (MRes ip [] (dotted dot fp ++ rest m)), (MRes (dotted dot fp) [] (rest m)). cbn [rest consumed captured app]. split.
    { apply in_plus. exists ip. split; auto. split; auto. split; auto. eapply Forall_impl; [|exact I]. intros c. apply digit_iff. }
    split; auto. apply in_dec. exists dot, fp. cbn [rest]. auto.
Qed.

Definition RE_VAR : re := Seq (Opt (Grp 1 (Cls is_param))) (Seq (Star is_space) (Grp 2 RE_OPS)).
Definition RE_TAIL : re := Seq (Star is_space) (Seq (Grp 3 RE_NUM) (Seq (Star is_space) EolM)).
Definition RE_BODY : re := Seq (Star is_space) (Seq (Opt RE_VAR) RE_TAIL).
Lemma RE_CMP_body : RE_CMP = Seq BolM RE_BODY. Proof. reflexivity. Qed.

Lemma blanks_iff w : Forall blank w <-> Forall (fun c => is_space c = true) w. Proof. reflexivity. Qed.
Ltac known M := let co := fresh "co" in let ca := fresh "ca" in let re := fresh "re" in
  match type of M with ?m = _ => destruct m as [co ca re]; cbn [consumed captured rest] in *; injection M as -> -> end.
Lemma in_tail prev s m : ~ In newline s -> In m (mtch RE_TAIL prev s) <->
  exists w3 v x w4, Forall blank w3 /\ Forall blank w4 /\ number_text v x /\ s = w3 ++ v ++ w4 /\ m = MRes s [(3, v)] [].
Proof.
  intros NL. unfold RE_TAIL. rewrite in_seq. split.
  - intros (m1 & m2 & M1 & M2 & ->). apply in_star in M1 as (w3 & E1 & F1 & M1). apply in_seq in M2 as (m3 & m4 & M3 & M4 & ->). apply in_grp in M3 as (m5 & M5 & ->). apply in_num in M5 as (v & x & NT & E5 & M5).
    apply in_seq in M4 as (m6 & m7 & M6 & M7 & ->). apply in_star in M6 as (w4 & E6 & F6 & M6). known M1; known M5; known M6. cbn [app] in *.
    apply in_eolm in M7 as [E7 M7]; [|intros I; apply NL; rewrite E1, E5, E6; rewrite !in_app_iff; auto]. known M7. cbn [app] in *.
    exists w3, v, x, w4. split; auto. split; auto. split; auto. subst. rewrite !app_nil_r. auto.
  - intros (w3 & v & x & w4 & F3 & F4 & NT & -> & ->). exists (MRes w3 [] (v ++ w4)), (MRes (v ++ w4) [(3, v)] []). cbn [rest consumed captured app]. split.
    { apply in_star. exists w3. auto. } split; auto. apply in_seq. exists (MRes v [(3, v)] w4), (MRes w4 [] []). cbn [rest consumed captured app]. split.
    { apply in_grp. exists (MRes v [] w4). split; auto. apply in_num. exists v, x. auto. } split; auto.
    apply in_seq. exists (MRes w4 [] []), (MRes [] [] []). cbn [rest consumed captured app]. split. { apply in_star. exists w4. rewrite app_nil_r. auto. } split; [|rewrite app_nil_r; reflexivity].
    apply in_eolm; auto.
Qed.
Lemma is_param_iff c : is_param c = true <-> exists l, char_letter c l /\ In l variables.
Proof.
  setoid_rewrite char_letter_iff. split.
  - intros H. assert (G : forallb (fun c => implb (is_param c) (match letter_of_ascii c with Some l => existsb (letter_eqb l) variables | None => false end)) all_chars = true) by (vm_compute; reflexivity).
    rewrite forallb_forall in G. specialize (G c (all_chars_in c)). rewrite H in G. cbn [implb] in G. destruct (letter_of_ascii c) as [l|]; [|discriminate]. exists l. split; auto. apply existsb_exists in G as (l' & I & E). apply letter_eqb_eq in E. subst. auto.
  - intros (l & L & I). assert (G : forallb (fun c => implb (match letter_of_ascii c with Some l => existsb (letter_eqb l) variables | None => false end) (is_param c)) all_chars = true) by (vm_compute; reflexivity).
    rewrite forallb_forall in G. specialize (G c (all_chars_in c)). rewrite L in G. replace (existsb (letter_eqb l) variables) with true in G; auto. symmetry. apply existsb_exists. exists l. split; auto. apply letter_eqb_refl.
Qed.
Lemma in_var prev s m : In m (mtch RE_VAR prev s) <->
  exists p w2 o op cs, Forall blank w2 /\ In (o, op) op_texts /\ s = p ++ w2 ++ o ++ rest m /\ m = MRes (p ++ w2 ++ o) (cs ++ [(2, o)]) (rest m) /\
    ((p = [] /\ cs = []) \/ exists c l, p = [c] /\ cs = [(1, [c])] /\ char_letter c l /\ In l variables).
Proof.
  unfold RE_VAR. rewrite in_seq. split.
  - intros (m1 & m2 & M1 & M2 & ->). apply in_seq in M2 as (m3 & m4 & M3 & M4 & ->). apply in_star in M3 as (w2 & E3 & F3 & M3). apply in_grp in M4 as (m5 & M5 & ->). apply in_ops in M5 as (o & op & I & E5 & M5).
    known M3; known M5. cbn [app] in *. apply in_opt in M1 as [M1|M1].
    + apply in_grp in M1 as (m6 & M6 & ->). apply in_cls in M6 as (c & E6 & F6 & M6). known M6. cbn [app] in *. apply is_param_iff in F6 as (l & C & L).
      exists [c], w2, o, op, [(1, [c])]. split; auto. split; auto. split; [rewrite E6, E3, E5; reflexivity|]. split; auto. right. exists c, l. auto.
    + subst m1. cbn [rest consumed captured app] in *. exists [], w2, o, op, []. split; auto. split; auto. split; [rewrite E3, E5; reflexivity|]. split; auto.
  - intros (p & w2 & o & op & cs & F & I & E & Em & D). exists (MRes p cs (w2 ++ o ++ rest m)), (MRes (w2 ++ o) [(2, o)] (rest m)). cbn [rest consumed captured]. split.
    { apply in_opt. destruct D as [[-> ->]|(c & l & -> & -> & C & L)]; [right; rewrite E; reflexivity|left]. apply in_grp. exists (MRes [c] [] (w2 ++ o ++ rest m)). split; auto. apply in_cls. exists c. split; [exact E|]. split; auto. apply is_param_iff. eauto. }
    split; auto. apply in_seq. exists (MRes w2 [] (o ++ rest m)), (MRes o [(2, o)] (rest m)). cbn [rest consumed captured app]. split; [apply in_star; exists w2; auto|]. split; auto.
    apply in_grp. exists (MRes o [] (rest m)). split; auto. apply in_ops. exists o, op. auto.
Qed.
(** what the pattern finds *)
Inductive found (s : text) : caps -> cond -> text -> Prop :=
| found_full w1 p l w2 o op w3 v x w4 cs : s = w1 ++ p ++ w2 ++ o ++ w3 ++ v ++ w4 ->
    Forall blank w1 -> Forall blank w2 -> Forall blank w3 -> Forall blank w4 -> In (o, op) op_texts -> number_text v x ->
    ((p = [] /\ cs = [] /\ l = LN) \/ exists c, p = [c] /\ cs = [(1, [c])] /\ char_letter c l /\ In l variables) ->
    found s (cs ++ [(2, o); (3, v)]) (Cond l op x) v
| found_number w1 v x w2 : s = w1 ++ v ++ w2 -> Forall blank w1 -> Forall blank w2 -> number_text v x -> found s [(3, v)] (Cond LN CEq x) v.
Lemma found_text s cs c v : found s cs c v -> cond_text s c.
Proof.
  intros [w1 p l w2 o op w3 v' x w4 cs' -> F1 F2 F3 F4 I NT D|w1 v' x w2 -> F1 F2 NT]; constructor; auto. destruct D as [(-> & _ & ->)|(c' & -> & _ & C & L)]; eauto.
Qed.
Lemma text_found s c : cond_text s c -> exists cs v, found s cs c v.
Proof.
  intros [w1 p l w2 o op w3 v x w4 F1 F2 F3 F4 D I NT|w1 v x w2 F1 F2 NT].
  - destruct D as [[-> ->]|(c' & -> & C & L)]; do 2 eexists; eapply found_full with (w1 := w1) (w2 := w2) (w3 := w3) (w4 := w4); eauto. right. eauto 6.
  - do 2 eexists. eapply found_number; eauto.
Qed.
Lemma in_body s m : ~ In newline s -> In m (mtch RE_BODY None s) <-> consumed m = s /\ rest m = [] /\ exists c v, found s (captured m) c v.
Proof.
  intros NL. unfold RE_BODY. rewrite in_seq. split.
  - intros (m1 & m2 & M1 & M2 & ->). apply in_star in M1 as (w1 & E1 & F1 & M1). apply in_seq in M2 as (m3 & m4 & M3 & M4 & ->). known M1. cbn [app] in *. apply in_opt in M3 as [M3|M3].
    + apply in_var in M3 as (p & w2 & o & op & cs & F2 & I & E3 & M3 & D). known M3. cbn [app] in *. apply in_tail in M4 as (w3 & v & x & w4 & F3 & F4 & NT & E4 & M4); [|intros X; apply NL; rewrite E1, E3; rewrite !in_app_iff; auto].
      known M4. cbn [app] in *. split; [rewrite E1, E3, <- !app_assoc; reflexivity|]. split; auto. rewrite <- app_assoc.
      destruct D as [[-> ->]|(c & l & -> & -> & C & L)].
      * exists (Cond LN op x), v. apply (found_full s w1 [] LN w2 o op w3 v x w4 []); auto. rewrite E1, E3, E4. reflexivity.
      * exists (Cond l op x), v. apply (found_full s w1 [c] l w2 o op w3 v x w4 [(1, [c])]); auto; [rewrite E1, E3, E4; reflexivity|]. right. exists c. auto.
    + subst m3. cbn [rest consumed captured app] in *. apply in_tail in M4 as (w3 & v & x & w4 & F3 & F4 & NT & E4 & M4); [|intros X; apply NL; rewrite E1; rewrite !in_app_iff; auto].
      known M4. cbn [app] in *. split; auto. split; auto. exists (Cond LN CEq x), v. apply (found_number s (w1 ++ w3) v x w4); auto; [rewrite E1, E4, <- app_assoc; reflexivity|]. apply Forall_app. auto.
  - intros (Ec & Er & c & v & Fd). destruct m as [co ca re]. cbn [consumed rest captured] in *. subst co re. destruct Fd as [w1 p l w2 o op w3 v' x w4 cs E F1 F2 F3 F4 I NT D|w1 v' x w2 E F1 F2 NT].
    + exists (MRes w1 [] (p ++ w2 ++ o ++ w3 ++ v' ++ w4)), (MRes (p ++ w2 ++ o ++ w3 ++ v' ++ w4) (cs ++ [(2, o); (3, v')]) []). cbn [rest consumed captured app].
      split; [apply in_star; exists w1; auto|]. split; [|rewrite <- E; reflexivity]. apply in_seq. exists (MRes (p ++ w2 ++ o) (cs ++ [(2, o)]) (w3 ++ v' ++ w4)), (MRes (w3 ++ v' ++ w4) [(3, v')] []). cbn [rest consumed captured].
      split. { apply in_opt. left. apply in_var. exists p, w2, o, op, cs. cbn [rest]. split; auto. split; auto. split; auto. split; auto. destruct D as [(-> & -> & _)|(c' & -> & -> & C & L)]; [auto|right; exists c', l; auto]. }
      split; [|rewrite <- !app_assoc; reflexivity]. apply in_tail; [intros X; apply NL; rewrite E; rewrite !in_app_iff in *; intuition|]. exists w3, v', x, w4. auto.
    + exists (MRes w1 [] (v' ++ w2)), (MRes (v' ++ w2) [(3, v')] []). cbn [rest consumed captured app]. split; [apply in_star; exists w1; auto|]. split; [|rewrite <- E; reflexivity].
      apply in_seq. exists (MRes [] [] (v' ++ w2)), (MRes (v' ++ w2) [(3, v')] []). cbn [rest consumed captured app]. split; [apply in_opt; auto|]. split; auto.
      apply in_tail; [intros X; apply NL; rewrite E; rewrite !in_app_iff in *; intuition|]. exists [], v', x, w2. auto.
Qed.
End WithArith.
