From Coq Require Import Ascii String List Bool Arith ZArith QArith Qcanon Qabs Permutation Sorted Lia.
From Verif Require Import Base Num Words GTable GCode Line BaseFacts WordOrder WordsSpec WordsProofs WordsProofs2 LineSpec CleanProofs CleanProofs2 NumFacts PrintSpec PrintProofs PrintProofs2
  GCodeSpec GCodeProofs GTableProofs GCodeProofs2 PropsWords PropsLine PropsPrint PropsGCode BlockSpec.
Import ListNotations.
Local Open Scope nat_scope.

(** ** Printed characters *)
Definition plainb (c : ascii) : bool := negb (is_space c) && negb (existsb (Ascii.eqb c) (t "();%")).
Lemma plainb_plain c : plainb c = true <-> plain c.
Proof.
  unfold plainb, plain, blank. rewrite andb_true_iff, !negb_true_iff. split; intros [H1 H2].
  - split; [congruence|]. intros I. assert (X : existsb (Ascii.eqb c) (t "();%") = true); [|congruence]. apply existsb_exists. exists c. split; auto. apply Ascii.eqb_refl.
  - split; [destruct (is_space c); congruence|]. destruct (existsb _ _) eqn:E; auto. exfalso. apply existsb_exists in E as (x & I & E). apply Ascii.eqb_eq in E. subst. auto.
Qed.
Lemma digit_plain c : digit c -> plain c.
Proof.
  intros D. apply plainb_plain.
  assert (H : forallb (fun c => implb (is_digit c) (plainb c)) all_chars = true) by (vm_compute; reflexivity).
  pose proof (forall_chars _ H c) as X. cbv beta in X. apply digit_iff in D. rewrite D in X. auto.
Qed.
Lemma letter_plain l : plain (letter_ascii l). Proof. apply plainb_plain. destruct l; vm_compute; reflexivity. Qed.
Lemma pad_digits_plain k n : Forall plain (pad_digits k n).
Proof. eapply Forall_impl; [exact digit_plain|]. apply pad_digits_digit. Qed.
Lemma dec_text_plain n : Forall plain (dec_text n). Proof. apply pad_digits_plain. Qed.
Lemma strip_zeros_plain s : Forall plain s -> Forall plain (strip_zeros s).
Proof.
  intros H. unfold strip_zeros. apply Forall_rev. apply Forall_rev in H. induction H as [|x l Hx H IH]; cbn [drop_while]; [constructor|].
  destruct (Ascii.eqb x "0"%char); auto.
Qed.
Lemma with_frac_plain a b : Forall plain a -> Forall plain b -> Forall plain (with_frac a b).
Proof.
  intros A B. unfold with_frac. apply strip_zeros_plain in B. destruct (strip_zeros b); auto. apply Forall_app. split; auto. constructor; auto. apply plainb_plain. reflexivity.
Qed.
Lemma fmt_g_pos_plain q : Forall plain (fmt_g_pos q).
Proof.
  unfold fmt_g_pos. destruct (sig6 q) as [m e]. destruct ((-4 <=? e)%Z && (e <? 6)%Z).
  - apply with_frac_plain; [apply dec_text_plain|apply pad_digits_plain].
  - apply Forall_app. split; [apply with_frac_plain; [apply dec_text_plain|apply pad_digits_plain]|].
    constructor; [apply plainb_plain; reflexivity|]. constructor; [destruct (e <? 0)%Z; apply plainb_plain; reflexivity|].
    destruct (Z.abs e <? 10)%Z; [constructor; [apply plainb_plain; reflexivity|]|]; apply dec_text_plain.
Qed.
Lemma fmt_g_plain nz x : Forall plain (fmt_g nz x).
Proof.
  unfold fmt_g. destruct (Qnum x); [destruct nz; repeat constructor; try (apply plainb_plain; reflexivity)|apply fmt_g_pos_plain|constructor; [apply plainb_plain; reflexivity|apply fmt_g_pos_plain]].
  all: cbn; intuition discriminate.
Qed.
Section WithArith.
Context {ar : Arith}.
Lemma word_str_plain w : (forall s, wvalue w = VStr s -> Forall plain s) -> Forall plain (word_str w).
Proof.
  intros H. unfold word_str. constructor; [apply letter_plain|]. unfold value_str. destruct (wvalue w) as [x|z|s] eqn:V.
  - assert (A : Forall plain (clean_code x)).
    { unfold clean_code. destruct (Qcltb x (Q2Qc 10)); [constructor; [apply plainb_plain; reflexivity|]|]; apply fmt_g_plain. }
    assert (B : Forall plain (clean_float x)) by apply fmt_g_plain. destruct (wletter w); auto.
  - assert (A : Forall plain (clean_int z)) by apply fmt_g_plain. destruct (wletter w); auto.
  - specialize (H s eq_refl). destruct (wletter w); auto.
Qed.

(** ** Joining *)
Lemma join_app1 (sep x : text) l : l <> [] -> join sep (x :: l) = x ++ sep ++ join sep l.
Proof. destruct l; [congruence|reflexivity]. Qed.
Lemma join_cons_app (sep : text) (a : list text) b : a <> [] -> b <> [] -> join sep (a ++ b) = join sep a ++ sep ++ join sep b.
Proof.
  intros Ha Hb. induction a as [|x a IH]; [congruence|]. destruct a as [|y a].
  - cbn [app]. rewrite join_app1 by auto. reflexivity.
  - change ((x :: y :: a) ++ b) with (x :: ((y :: a) ++ b)). rewrite join_app1 by discriminate. rewrite IH by discriminate.
    rewrite (join_app1 sep x (y :: a)) by discriminate. rewrite <- !app_assoc. reflexivity.
Qed.
Lemma join_concat (sep : text) (ls : list (list text)) : Forall (fun l => l <> []) ls -> join sep (map (join sep) ls) = join sep (concat ls).
Proof.
  induction 1 as [|l ls H F IH]; [reflexivity|]. destruct ls as [|l2 ls].
  - cbn [map concat]. rewrite app_nil_r. reflexivity.
  - cbn [map]. rewrite join_app1 by discriminate. cbn [map] in IH. rewrite IH. cbn [concat]. symmetry. apply join_cons_app; auto.
    inversion F; subst. destruct l2; [congruence|discriminate].
Qed.
Lemma fields_join l : Forall (fun w => w <> [] /\ Forall (fun c => ~ blank c) w) l -> forall b, Forall blank b -> fields (b ++ join [space] l) l.
Proof.
  assert (SP : blank space) by reflexivity.
  induction 1 as [|w l [N V] F IH]; intros b B.
  - cbn [join]. rewrite app_nil_r. constructor; auto.
  - destruct l as [|w2 l].
    + cbn [join]. rewrite <- (app_nil_r w) at 1. apply f_word; auto. constructor; constructor.
    + rewrite join_app1 by discriminate. apply f_word; auto. right. exists space. eexists. split; auto. reflexivity.
Qed.
Lemma clean_join l : Forall (fun w => w <> [] /\ Forall (fun c => ~ blank c) w) l -> clean_text (join [space] l) = join [space] l.
Proof. intros H. apply clean_text_fields. apply (fields_join l H []). constructor. Qed.

(** ** Reading back one word *)
Lemma prints_as_form {S} w w' : (forall s, wvalue w = VStr s -> Forall plain s) -> (read_as S) w w' ->
  exists v, word_str w = letter_ascii (wletter w) :: v /\ value_text (letter_kind (wletter w')) v /\ value_denotes (wletter w') v (wvalue w').
Proof.
  intros P (El & Es & R & _). apply text2words_reads in R. pose proof (word_str_plain w P) as PL. inversion R as [|junk c l v r val ws J C L D Rr Eq Ew]; subst.
  assert (r = []).
  { inversion Rr; subst. destruct r as [|x r]; auto. exfalso. assert (I : In x (word_str w)). { rewrite <- Eq. apply in_app_iff. right. right. apply in_app_iff. right. left. auto. }
    rewrite Forall_forall in PL. apply PL in I. inversion H; subst. destruct I. auto. }
  subst r. rewrite app_nil_r in Eq. destruct junk as [|x junk].
  - cbn [app] in Eq. exists v. cbn [wletter wvalue] in *. split; [|split; [apply L|auto]].
    cbn [app]. rewrite app_nil_r. assert (E : c = letter_ascii (wletter w)) by (unfold word_str in Eq; congruence). rewrite E. reflexivity.
  - exfalso. inversion J as [|? ? [J1 _] _]; subst. unfold word_str in Eq. cbn [app] in Eq. injection Eq as E1 _. apply (J1 (wletter w)). left. rewrite E1. auto.
Qed.
Lemma char_letter_self l : char_letter (letter_ascii l) l. Proof. left. auto. Qed.
(** words in printed form are a spelling; a program name can only be the last word *)
Fixpoint name_last (ws : list word) : Prop :=
  match ws with [] => True | w :: ws' => (letter_kind (wletter w) = KText -> ws' = []) /\ name_last ws' end.
Lemma spelling_join {S} ws ws' : Forall2 (read_as S) ws ws' -> Forall (fun w => forall s, wvalue w = VStr s -> Forall plain s) ws -> name_last ws ->
  forall b, Forall blank b -> ~ In newline b -> spelling ws' (b ++ join [space] (map word_str ws)).
Proof.
  assert (SP : blank space) by reflexivity.
  induction 1 as [|w w' ws ws' R F IH]; intros P NL b B NB.
  - cbn [map join]. rewrite app_nil_r. constructor; auto.
  - inversion P; subst. destruct NL as [N1 N2]. destruct (prints_as_form w w' H1 R) as (v & E & V & D). destruct R as (El & _ & _ & _). cbn [map].
    destruct w' as [l val]. cbn [wletter wvalue] in *. subst l.
    destruct (letter_kind (wletter w)) eqn:K.
    4: { specialize (N1 eq_refl). subst ws. inversion F; subst. cbn [map join]. rewrite E.
         assert (EL : wletter w = LO) by (destruct (wletter w); cbn in K; congruence). rewrite EL in *.
         inversion D; subst; try (cbn in H; discriminate). replace (letter_ascii LO :: v) with (letter_ascii LO :: v ++ []) by (rewrite app_nil_r; auto). apply sp_name; auto using char_letter_self. }
    all: destruct ws as [|w2 ws];
      [ inversion F; subst; cbn [map join]; rewrite E; replace (letter_ascii (wletter w) :: v) with (letter_ascii (wletter w) :: v ++ []) by (rewrite app_nil_r; auto); apply sp_word; auto using char_letter_self; try congruence; constructor; constructor
      | rewrite join_app1 by discriminate; rewrite E; cbn [app]; apply sp_word; auto using char_letter_self; try congruence;
        apply (IH H2 N2 [space]); [constructor; auto|cbn; intuition discriminate] ].
Qed.

(** ** Regrouping the printed words *)
Definition sorted_group (g : group) : group := Group (gr_class g) (gr_word g) (map snd (sorted_params (map (fun w => (wletter w, w)) (gr_params g)))).
Lemma sorted_group_perm g : Permutation (gr_params (sorted_group g)) (gr_params g).
Proof.
  unfold sorted_group. cbn [gr_params]. rewrite <- (kv_words (gr_params g)) at 2. apply Permutation_map. apply sort_perm.
Qed.
Lemma built_str g : gcode_str (built g) = join [space] (map word_str (group_words (sorted_group g))).
Proof.
  unfold gcode_str, built. cbn [gparams gwhite gword]. unfold group_words, sorted_group. cbn [gr_word gr_params map].
  destruct (gr_params g) as [|p ps] eqn:E.
  - cbn [map]. rewrite app_nil_r. reflexivity.
  - set (d := map (fun w => (wletter w, w)) (p :: ps)). assert (NE : sorted_params d <> []).
    { intros X. assert (P : Permutation (sorted_params d) d) by apply sort_perm. rewrite X in P. unfold d in P. cbn [map] in P. apply Permutation_nil_cons in P. auto. }
    assert (DD : match d with [] => [] | _ :: _ => space :: join [space] (map (fun kv => word_str (snd kv)) (sorted_params d)) end =
      space :: join [space] (map (fun kv => word_str (snd kv)) (sorted_params d))) by reflexivity.
    unfold d in *. cbn [map] in *. set (x := sorted_params _) in *. rewrite join_app1; [|destruct x; [congruence|discriminate]].
    rewrite map_map. reflexivity.
Qed.
Definition printed_words (gs : list group) (rest : list word) : list word := flat_map group_words (map sorted_group gs) ++ rest.
Lemma block_str_words ws gs rest : block_str (Block ws (map built gs) rest) = join [space] (map word_str (printed_words gs rest)).
Proof.
  unfold block_str, printed_words. cbn [bgcodes bmodal].
  assert (E : map gcode_str (map built gs) ++ map word_str rest =
    map (join [space]) (map (fun g => map word_str (group_words (sorted_group g))) gs ++ map (fun w => [word_str w]) rest)).
  { rewrite map_app, !map_map. f_equal. apply map_ext. intros g. apply built_str. }
  rewrite E, join_concat.
  - f_equal. rewrite concat_app, map_app. f_equal.
    + rewrite flat_map_concat_map, concat_map, !map_map. reflexivity.
    + clear. induction rest; cbn [map concat app]; auto. rewrite IHrest. reflexivity.
  - apply Forall_app. split; apply Forall_forall; intros x H; apply in_map_iff in H as (y & <- & _); discriminate.
Qed.
Definition group_as (g g' : group) : Prop :=
  gr_class g' = gr_class g /\ prints_as (gr_word g) (gr_word g') /\ Forall2 prints_as (gr_params g) (gr_params g').
Lemma split_words {P : word -> word -> Prop} gs rest l : Forall2 P (flat_map group_words gs ++ rest) l ->
  exists gs2 rest2, l = flat_map group_words gs2 ++ rest2 /\ Forall2 P rest rest2 /\
    Forall2 (fun g g' => gr_class g' = gr_class g /\ P (gr_word g) (gr_word g') /\ Forall2 P (gr_params g) (gr_params g')) gs gs2.
Proof.
  revert l. induction gs as [|g gs IH]; cbn [flat_map app]; intros l F.
  - exists [], l. split; auto.
  - unfold group_words at 1 in F. rewrite <- app_assoc in F. cbn [app] in F. inversion F as [|x y xs ys Pw F1]; subst.
    apply Forall2_app_inv_l in F1 as (p2 & l2 & F1 & F2 & ->). destruct (IH _ F2) as (gs2 & rest2 & -> & A & B).
    exists (Group (gr_class g) y p2 :: gs2), rest2. cbn [flat_map group_words gr_word gr_params app]. split; [rewrite <- app_assoc; auto|]. split; auto.
Qed.
Lemma grouped_rest ws gs rest : grouped ws gs [] ->
  Forall (fun w => Forall (fun g => ~ takes (gr_class g) (wletter w)) gs /\ word_gcode_class w = None) rest -> grouped (ws ++ rest) gs rest.
Proof.
  intros G F. induction rest as [|w rest IH] using rev_ind.
  - rewrite app_nil_r. auto.
  - apply Forall_app in F as [F1 F2]. inversion F2; subst. rewrite app_assoc. apply gr_left; tauto || auto.
Qed.
Lemma grouped_rest_class ws gs rest : grouped ws gs rest -> Forall (fun w => word_gcode_class w = None) rest.
Proof.
  induction 1 as [|ws gs1 c g ps gs2 rest w H IH T F|ws gs rest w c H IH F C|ws gs rest w H IH F C]; auto. apply Forall_app. auto.
Qed.
Lemma Forall2_letters {S} ws ws' : Forall2 (read_as S) ws ws' -> map wletter ws' = map wletter ws.
Proof. induction 1 as [|w w' ws ws' (E & _) F IH]; cbn [map]; congruence. Qed.
Lemma Forall2_str {S : word -> word -> Prop} ws ws' : (forall w w', S w w' -> word_str w' = word_str w) -> Forall2 (read_as S) ws ws' -> map word_str ws' = map word_str ws.
Proof. intros H. induction 1 as [|w w' ws ws' (_ & E & _) F IH]; cbn [map]; [|apply H in E]; congruence. Qed.

Section Accurate.
Hypothesis acc : accurate ar.
Lemma prints_as_class {S} w w' : word_wf w -> word_wf w' -> (read_as S) w w' -> word_gcode_class w' = word_gcode_class w.
Proof.
  intros W W' (El & _ & _ & [->|K]); auto.
  assert (D : forall c, doc_class w' c <-> doc_class w c).
  { assert (N : forall u c lo hi, wletter u = wletter w -> ~ In (wletter u, lo, hi, c) doc_codes).
    { intros u c lo hi E I. rewrite E in I. assert (X : forallb (fun e => match letter_kind (fst (fst (fst e))) with KCode => true | _ => false end) doc_codes = true) by (vm_compute; reflexivity).
      rewrite forallb_forall in X. specialize (X _ I). cbn [fst] in X. rewrite K in X. discriminate. }
    intros c. unfold doc_class. rewrite El. split; (intros [H|(lo & hi & H & _)]; [auto|exfalso; apply (N w c lo hi); auto]). }
  destruct (word_gcode_class w') as [c|] eqn:E1.
  - apply (word_class_doc acc) in E1; auto. symmetry. apply (word_class_doc acc); auto. apply D; auto.
  - destruct (word_gcode_class w) as [c|] eqn:E2; auto. apply (word_class_doc acc) in E2; auto. apply D in E2. apply (word_class_doc acc) in E2; auto. congruence.
Qed.
Lemma prints_as_wf {S} w w' : (read_as S) w w' -> word_wf w'.
Proof. intros (_ & _ & R & _). apply text2words_reads in R. apply reads_wf in R. inversion R; auto. Qed.

Lemma word_prints s ws w : text2words s = Ok ws -> In w ws -> prints_well w -> exists w', prints_as w w'.
Proof.
  intros R I [[S|[K P]] T].
  - exists w. split; auto. split; auto. split; auto. apply survives_reads; auto.
  - destruct (C07_readback_partial ar s ws w acc R I P) as (w' & A & B & C). exists w'. repeat split; auto.
Qed.
(** gcodes of F and S words share a modal group *)
Lemma float_class w c : word_wf w -> letter_kind (wletter w) = KFloat -> word_gcode_class w = Some c ->
  (wletter w = LF /\ modal_group c = Some MG_feed_rate) \/ (wletter w = LS /\ modal_group c = Some MG_spindle_speed).
Proof.
  intros W K C. apply (word_class_doc acc) in C; auto. destruct C as [C|(lo & hi & I & _)].
  - unfold doc_letters in C. cbn [In] in C. repeat (destruct C as [C|C]; [injection C as E <-; rewrite <- E in *; try discriminate K; auto|]). contradiction.
  - exfalso. assert (X : forallb (fun e => match letter_kind (fst (fst (fst e))) with KCode => true | _ => false end) doc_codes = true) by (vm_compute; reflexivity).
    rewrite forallb_forall in X. specialize (X _ I). cbn [fst] in X. rewrite K in X. discriminate.
Qed.
Lemma compatible_as {S} a b a' b' :
  word_wf (gword a) -> word_wf (gword b) -> word_gcode_class (gword a) = Some (gcls a) -> word_gcode_class (gword b) = Some (gcls b) ->
  gcls a' = gcls a -> gcls b' = gcls b -> read_as S (gword a) (gword a') -> read_as S (gword b) (gword b') -> compatible a b -> compatible a' b'.
Proof.
  intros Wa Wb Ca Cb Ea Eb Pa Pb [N1 N2]. split; [|rewrite Ea, Eb; auto]. intros E.
  assert (L : wletter (gword a) = wletter (gword b)). { destruct Pa as (L1 & _). destruct Pb as (L2 & _). congruence. }
  assert (F : letter_kind (wletter (gword a)) = KFloat -> False).
  { intros K. pose proof (float_class _ _ Wa K Ca) as A. rewrite L in K. pose proof (float_class _ _ Wb K Cb) as B. apply N2.
    destruct A as [[A1 A2]|[A1 A2]], B as [[B1 B2]|[B1 B2]]; try congruence; eauto. }
  destruct Pa as (_ & _ & _ & [Pa|Pa]); auto. destruct Pb as (_ & _ & _ & [Pb|Pb]); [congruence|]. rewrite <- L in Pb. auto.
Qed.
Lemma ForallOrdPairs_impl2 {A} (P Q : A -> A -> Prop) (R : A -> A -> Prop) (D : A -> Prop) l l' :
  (forall a b a' b', D a -> D b -> R a a' -> R b b' -> P a b -> Q a' b') -> Forall D l -> Forall2 R l l' -> ForallOrdPairs P l -> ForallOrdPairs Q l'.
Proof.
  intros H FD F. induction F as [|a a' l l' Ra F IH]; intros FP; [constructor|]. inversion FD; inversion FP; subst. constructor; auto.
  rewrite Forall_forall in *. clear IH FP. assert (X : forall b', In b' l' -> exists b, In b l /\ R b b').
  { clear -F. induction F; intros b' [].
    - subst. eexists. split; [left; reflexivity|auto].
    - destruct (IHF _ H0) as (b & I & Rb). exists b. split; auto. right; auto. }
  intros b' Hb. destruct (X b' Hb) as (b & I & Rb). apply (H a b); auto.
Qed.
Lemma sort_snd_built ps : StronglySorted (key_le _ (fun kv : letter * word => Z.of_nat (lnum (fst kv)))) (map (fun w => (wletter w, w)) ps) ->
  map snd (sorted_params (map (fun w => (wletter w, w)) ps)) = ps.
Proof. intros H. unfold sorted_params. rewrite sorted_sort_id by exact H. apply kv_words. Qed.
Lemma sorted_letters ps ps' : map wletter ps = map wletter ps' ->
  StronglySorted (key_le _ (fun kv : letter * word => Z.of_nat (lnum (fst kv)))) (map (fun w => (wletter w, w)) ps) ->
  StronglySorted (key_le _ (fun kv : letter * word => Z.of_nat (lnum (fst kv)))) (map (fun w => (wletter w, w)) ps').
Proof.
  intros E S.
  assert (G : forall ps, StronglySorted (key_le _ (fun kv : letter * word => Z.of_nat (lnum (fst kv)))) (map (fun w => (wletter w, w)) ps) <->
              StronglySorted (fun a b => (Z.of_nat (lnum a) <= Z.of_nat (lnum b))%Z) (map wletter ps)).
  { clear. induction ps as [|p ps IH]; cbn [map]; [split; constructor|]. split; intros H; inversion H; subst; constructor; try (apply IH; auto).
    - rewrite Forall_map in *. eapply Forall_impl; [|exact H3]. intros a. unfold key_le. auto.
    - rewrite Forall_map in *. eapply Forall_impl; [|exact H3]. intros a. unfold key_le. auto. }
  apply G. apply G in S. rewrite <- E. auto.
Qed.
(** the sorted parameters are sorted *)
Lemma sorted_group_sorted g : StronglySorted (key_le _ (fun kv : letter * word => Z.of_nat (lnum (fst kv)))) (map (fun w => (wletter w, w)) (gr_params (sorted_group g))).
Proof.
  unfold sorted_group. cbn [gr_params]. set (d := map (fun w => (wletter w, w)) (gr_params g)).
  assert (E : map (fun w => (wletter w, w)) (map snd (sorted_params d)) = sorted_params d).
  { rewrite map_map. rewrite <- (map_id (sorted_params d)) at 2. apply map_ext_in. intros [l w] I. cbn [snd].
    assert (I2 : In (l, w) d) by (eapply Permutation_in; [apply sort_perm|exact I]). unfold d in I2. apply in_map_iff in I2 as (x & Ex & _). injection Ex as <- ->. auto. }
  rewrite E. apply sort_sorted.
Qed.
Lemma name_last_reads s ws : reads s ws -> name_last ws.
Proof.
  induction 1 as [|junk c l v r val ws J C L D R IH]; cbn [name_last]; auto. split; auto. cbn [wletter]. intros K. destruct L as (_ & _ & L). specialize (L K).
  inversion R as [|junk2 c2 l2 v2 r2 val2 ws2 J2 C2 L2 D2 R2]; subst; auto. exfalso.
  destruct L as [L|L]; [destruct junk2; discriminate|]. destruct junk2 as [|x junk2]; cbn [app] in L; injection L as E1 E2.
  - subst c2. destruct C2 as [C2|C2]; destruct l2; discriminate C2.
  - subst x. inversion J2 as [|? ? [_ X] _]; subst. auto.
Qed.
Lemma no_takes_O c : ~ takes c LO.
Proof. intros H. apply accepts_iff in H. assert (X : accepts c LO = false) by (destruct c; vm_compute; reflexivity). congruence. Qed.
Lemma name_last_app a b : name_last (a ++ b) <-> name_last a /\ name_last b /\ (b <> [] -> Forall (fun w => letter_kind (wletter w) <> KText) a).
Proof.
  induction a as [|w a IH]; cbn [app name_last].
  - split; [intros H; repeat split; auto|tauto].
  - rewrite IH. split.
    + intros (H1 & H2 & H3 & H4). repeat split; auto.
      * intros K. specialize (H1 K). apply app_eq_nil in H1. tauto.
      * intros N. constructor; auto. intros K. specialize (H1 K). apply app_eq_nil in H1. tauto.
    + intros ((H1 & H2) & H3 & H4). repeat split; auto.
      * intros K. rewrite (H1 K). cbn [app]. destruct b as [|y b]; auto. specialize (H4 ltac:(discriminate)). inversion H4; subst. contradiction.
      * intros N. specialize (H4 N). inversion H4; auto.
Qed.
Lemma name_last_none ws : Forall (fun w => letter_kind (wletter w) <> KText) ws -> name_last ws.
Proof. induction 1; cbn [name_last]; auto. split; auto. contradiction. Qed.
Lemma ktext_O l : letter_kind l = KText <-> l = LO. Proof. destruct l; cbn; split; congruence. Qed.
Lemma Permutation_Forall' {A} (P : A -> Prop) l l' : Permutation l l' -> Forall P l -> Forall P l'.
Proof. intros H. rewrite !Forall_forall. intros F x I. apply F. eapply Permutation_in; [symmetry; exact H|auto]. Qed.
Lemma printed_perm ws gs rest : grouped ws gs rest -> Permutation (printed_words gs rest) ws.
Proof.
  intros G. apply grouped_perm in G. rewrite G. unfold printed_words. apply Permutation_app_tail.
  clear G. induction gs as [|g gs IH]; cbn [map flat_map]; auto. rewrite IH. apply Permutation_app_tail. unfold group_words. cbn [sorted_group gr_word]. apply perm_skip.
  apply sorted_group_perm.
Qed.
Lemma printed_name_last ws gs rest : grouped ws gs rest -> name_last ws -> (rest <> [] -> ~ In LO (map wletter ws)) -> name_last (printed_words gs rest).
Proof.
  intros G NL HO. destruct rest as [|r rest].
  2: { apply name_last_none. apply (Permutation_Forall' _ ws); [symmetry; apply printed_perm; auto|].
       apply Forall_forall. intros w I K. apply (HO ltac:(discriminate)). apply ktext_O in K. rewrite <- K. apply in_map; auto. }
  clear HO. remember [] as rest eqn:Er. induction G as [|ws gs1 c g ps gs2 rest w H IH T F|ws gs rest w c H IH F C|ws gs rest w H IH F C].
  - exact I.
  - apply name_last_app in NL as (N1 & N2 & N3). specialize (N3 ltac:(discriminate)).
    apply name_last_none. apply (Permutation_Forall' _ (ws ++ [w])).
    + symmetry. apply printed_perm. apply gr_param; auto.
    + apply Forall_app. split; auto. constructor; auto. intros K. apply ktext_O in K. rewrite K in T. apply no_takes_O in T. auto.
  - apply name_last_app in NL as (N1 & N2 & N3). specialize (N3 ltac:(discriminate)). subst rest.
    unfold printed_words. rewrite map_app, flat_map_app, app_nil_r. cbn [map flat_map sorted_group group_words gr_word gr_params app sorted_params sort]. cbn [map].
    apply name_last_app. split; [|split; [exact N2|]].
    + apply name_last_none. apply (Permutation_Forall' _ ws); auto. rewrite <- (app_nil_r (flat_map group_words _)). symmetry. apply (printed_perm ws gs []); auto.
    + intros _. apply (Permutation_Forall' _ ws); auto. rewrite <- (app_nil_r (flat_map group_words _)). symmetry. apply (printed_perm ws gs []); auto.
  - destruct rest; discriminate Er.
Qed.

Lemma placed_as gs gs' : Forall2 (fun g g' => gr_class g' = gr_class g /\ wletter (gr_word g') = wletter (gr_word g) /\ word_gcode_class (gr_word g') = word_gcode_class (gr_word g)) gs gs' ->
  forall before, well_placed before gs -> well_placed before gs'.
Proof.
  induction 1 as [|g g' gs gs' (E1 & E2 & E3) F IH]; intros before; cbn [well_placed]; auto.
  rewrite E1, E2, E3. intros (A & B & C). auto.
Qed.
Lemma Forall2_map_l {A B C} (f : A -> B) (P : B -> C -> Prop) l l' : Forall2 P (map f l) l' <-> Forall2 (fun a c => P (f a) c) l l'.
Proof.
  revert l'. induction l as [|a l IH]; intros l'; cbn [map]; split; intros H; inversion H; subst; constructor; auto; apply IH; auto.
Qed.
Lemma Forall2_impl_in {A B} (P Q : A -> B -> Prop) l l' : (forall a b, In a l -> P a b -> Q a b) -> Forall2 P l l' -> Forall2 Q l l'.
Proof. intros H F. induction F; constructor; auto. apply H; auto. left; auto. apply IHF. intros. apply H; auto. right; auto. Qed.
Lemma Forall2_in_r {A B} (P : A -> B -> Prop) l l' b : Forall2 P l l' -> In b l' -> exists a, In a l /\ P a b.
Proof. intros F. induction F; intros []; subst; [exists x; split; auto; left; auto|]. destruct (IHF H0) as (a & I & Pa). exists a. split; auto. right; auto. Qed.

Section Reread.
Context (S : word -> word -> Prop) (D : word -> Prop).
Hypothesis DR : forall s ws w, text2words s = Ok ws -> In w ws -> D w -> exists w', read_as S w w'.
Hypothesis DP : forall w, D w -> forall s, wvalue w = VStr s -> Forall plain s.
Theorem block_reread v s b : mk_block v s = Ok b -> Forall D (bwords b) -> separate b ->
  exists b', mk_block v (block_str b) = Ok b' /\ Forall2 (gcode_read_as S) (bgcodes b) (bgcodes b') /\
    Forall2 (read_as S) (bmodal b) (bmodal b') /\ ((forall w w', S w w' -> word_str w' = word_str w) -> block_str b' = block_str b).
Proof.
  intros M PW [SE SO]. destruct s as [|c0 s0].
  { cbn [mk_block] in M. injection M as <-. exists empty_block. repeat split; constructor. }
  unfold mk_block in M. set (s := clean_text (c0 :: s0)) in M. destruct (text2words s) as [ws|] eqn:T; cbn [bind] in M; [|discriminate].
  destruct (words2gcodes ws) as [[gs0 rest]|] eqn:W; cbn [bind] in M; [|discriminate].
  assert (M2 : b = Block ws gs0 rest /\ (v = true -> assert_gcodes [] [] gs0 = Ok tt)).
  { destruct v; [|injection M as <-; split; auto; discriminate]. destruct (assert_gcodes [] [] gs0) as [[]|]; cbn [bind] in M; [|discriminate]. injection M as <-. auto. }
  clear M. destruct M2 as [-> AG]. cbn [bwords bgcodes bmodal] in *.
  apply words2gcodes_iff in W as (gs & G & U & ->).
  assert (WF : Forall word_wf ws) by (apply (reads_wf s), text2words_reads; auto).
  pose proof (printed_perm _ _ _ G) as PP.
  assert (PW2 : Forall D (printed_words gs rest)) by (apply (Permutation_Forall' _ ws); [symmetry; auto|auto]).
  assert (RB : exists ws', Forall2 (read_as S) (printed_words gs rest) ws').
  { assert (X : Forall (fun w => exists w', (read_as S) w w') (printed_words gs rest)).
    { apply Forall_forall. intros w I. rewrite Forall_forall in PW2. apply (DR s ws); auto. eapply Permutation_in; eauto. }
    clear -X. induction X as [|w l (w' & H) X (l' & IH)]; [exists []; constructor|]. exists (w' :: l'). constructor; auto. }
  destruct RB as (ws' & RB).
  assert (TX : forall w, In w (printed_words gs rest) -> forall s, wvalue w = VStr s -> Forall plain s).
  { intros w I. rewrite Forall_forall in PW2. apply (DP w), (PW2 w I). }
  assert (NL : name_last (printed_words gs rest)).
  { apply (printed_name_last ws); auto. apply (name_last_reads s), text2words_reads; auto. }
  assert (T' : text2words (clean_text (block_str (Block ws (map built gs) rest))) = Ok ws').
  { rewrite block_str_words, clean_join.
    - apply spelling_text2words. apply (spelling_join _ _ RB) with (b := []); auto.
      apply Forall_forall. auto.
    - apply Forall_forall. intros x I. apply in_map_iff in I as (w & <- & I). split; [discriminate|].
      eapply Forall_impl; [|apply (word_str_plain w (TX w I))]. intros a [A _]. auto. }
  assert (WF' : Forall word_wf ws').
  { apply Forall_forall. intros w I. destruct (Forall2_in_r _ _ _ _ RB I) as (a & _ & P). eapply prints_as_wf; eauto. }
  assert (WFP : Forall word_wf (printed_words gs rest)) by (apply (Permutation_Forall' _ ws); [symmetry; auto|auto]).
  destruct (split_words (map sorted_group gs) rest ws' RB) as (gs2 & rest2 & -> & FR & FG).
  assert (CL : forall w w', In w (printed_words gs rest) -> (read_as S) w w' -> word_gcode_class w' = word_gcode_class w).
  { intros w w' I P. apply (prints_as_class (S := S)); auto. rewrite Forall_forall in WFP; auto. eapply prints_as_wf; eauto. }
  assert (GIN : forall g, In g (map sorted_group gs) -> In (gr_word g) (printed_words gs rest)).
  { intros g I. apply in_app_iff. left. apply in_flat_map. exists g. split; auto. left; auto. }
  assert (RIN : forall w, In w rest -> In w (printed_words gs rest)). { intros w I. apply in_app_iff. auto. }
  pose proof (grouped_placed _ _ _ G) as PL. pose proof (grouped_takes _ _ _ G) as TK. pose proof (grouped_rest_class _ _ _ G) as RC.
  assert (PL1 : well_placed [] (map sorted_group gs)).
  { apply (placed_as gs); auto. clear. induction gs; cbn [map]; constructor; auto. }
  assert (PL2 : well_placed [] gs2).
  { apply (placed_as (map sorted_group gs)); auto. eapply Forall2_impl_in; [|exact FG]. intros g g' I (E & P & _). cbv beta in *. split; auto. split; [apply P|]. apply CL; auto. }
  assert (TK1 : Forall (fun g => forall x, In x (gr_params g) -> takes (gr_class g) (wletter x)) (map sorted_group gs)).
  { apply Forall_map. eapply Forall_impl; [|exact TK]. intros g H x I. apply (H x). eapply Permutation_in; [apply sorted_group_perm|exact I]. }
  assert (TK2 : Forall (fun g => forall x, In x (gr_params g) -> takes (gr_class g) (wletter x)) gs2).
  { apply Forall_forall. intros g' I. destruct (Forall2_in_r _ _ _ _ FG I) as (g & Ig & E & _ & FP). intros x Ix.
    destruct (Forall2_in_r _ _ _ _ FP Ix) as (y & Iy & P). rewrite Forall_forall in TK1. rewrite E. destruct P as (-> & _). apply (TK1 g); auto. }
  assert (G2 : grouped (flat_map group_words gs2 ++ rest2) gs2 rest2).
  { apply grouped_rest. apply placed_grouped; auto. apply Forall_forall. intros w' I. destruct (Forall2_in_r _ _ _ _ FR I) as (w & Iw & P). split.
    - apply Forall_forall. intros g' Ig'. destruct (Forall2_in_r _ _ _ _ FG Ig') as (g & Ig & E & _). rewrite E. destruct P as (-> & _).
      apply in_map_iff in Ig as (g1 & <- & Ig1). apply (SE w (built g1)); auto. apply in_map; auto.
    - rewrite (CL w); auto. rewrite Forall_forall in RC. apply RC; auto. }
  assert (U2 : Forall unambiguous gs2).
  { apply Forall_forall. intros g' I. destruct (Forall2_in_r _ _ _ _ FG I) as (g & Ig & E & _ & FP). unfold unambiguous. rewrite (Forall2_letters _ _ FP).
    apply in_map_iff in Ig as (g1 & <- & Ig1). rewrite Forall_forall in U. specialize (U g1 Ig1). unfold unambiguous in U.
    eapply Permutation_NoDup; [|exact U]. apply Permutation_map. symmetry. apply sorted_group_perm. }
  assert (W2 : words2gcodes (flat_map group_words gs2 ++ rest2) = Ok (map built gs2, rest2)) by (apply words2gcodes_iff; eauto).
  assert (FG2 : Forall2 (fun g g' => gr_class g' = gr_class g /\ (read_as S) (gr_word g) (gr_word g') /\ Forall2 (read_as S) (gr_params (sorted_group g)) (gr_params g')) gs gs2).
  { apply Forall2_map_l in FG. exact FG. }
  assert (AG2 : v = true -> assert_gcodes [] [] (map built gs2) = Ok tt).
  { intros Ev. specialize (AG Ev). apply assert_gcodes_spec in AG; [|rewrite map_map; cbn [built gword]|constructor].
    2: { apply Forall_forall. intros x I. apply in_map_iff in I as (g & <- & I). rewrite Forall_forall in WF. apply WF. eapply grouped_words_in; eauto. }
    destruct AG as [AG _]. apply assert_gcodes_spec; [rewrite map_map; cbn [built gword]|constructor|].
    { apply Forall_forall. intros x I. apply in_map_iff in I as (g & <- & I). rewrite Forall_forall in WF'. apply WF'. eapply grouped_words_in; eauto. }
    split; [|apply Forall_forall; intros; split; [apply in_nil|intros; apply in_nil]].
    apply (ForallOrdPairs_impl2 compatible compatible (fun a a' => gcls a' = gcls a /\ (read_as S) (gword a) (gword a'))
             (fun a => word_wf (gword a) /\ word_gcode_class (gword a) = Some (gcls a)) (map built gs)); auto.
    - intros a b a' b' [Da1 Da2] [Db1 Db2] [Ra1 Ra2] [Rb1 Rb2]. apply (compatible_as (S := S)); auto.
    - apply Forall_map. apply Forall_forall. intros g I. cbn [built gword gcls]. split.
      + rewrite Forall_forall in WF. apply WF. eapply grouped_words_in; eauto.
      + clear -PL I. revert PL. generalize (@nil gclass). induction gs as [|x gs IH]; [contradiction|]. intros before (A & B & C). destruct I as [->|I]; eauto.
    - clear -FG2. induction FG2 as [|g g' gs gs2 (A & B & _) F IH]; cbn [map]; constructor; auto. }
  exists (Block (flat_map group_words gs2 ++ rest2) (map built gs2) rest2). cbn [bgcodes bmodal].
  split; [|split; [|split; [exact FR|]]].
  - unfold mk_block. destruct (block_str (Block ws (map built gs) rest)) as [|c1 s1] eqn:E.
    + (* nothing printed: no words *)
      cbn in T'. injection T' as E2. symmetry in E2. apply app_eq_nil in E2 as [E2 ->]. destruct gs2; [reflexivity|discriminate E2].
    + rewrite T'. cbn [bind]. rewrite W2. cbn [bind]. destruct v; auto. rewrite (AG2 eq_refl). reflexivity.
  - clear -FG2. induction FG2 as [|g g' gs gs2 (A & B & C) F IH]; cbn [map]; constructor; auto. split; auto. split; auto.
    exists (map (fun w => (wletter w, w)) (gr_params (sorted_group g))). split.
    + cbn [built gparams]. apply Permutation_map, sorted_group_perm.
    + cbn [built gparams]. clear -C. induction C as [|x y l l' P F IH]; cbn [map]; constructor; auto. cbn [fst snd]. split; auto. apply P.
  - intros SS. rewrite !block_str_words. f_equal.
    assert (E : map word_str (flat_map group_words gs2 ++ rest2) = map word_str (printed_words gs rest)) by (apply (Forall2_str (S := S)); auto).
    rewrite <- E. f_equal. unfold printed_words. f_equal. clear -FG2. induction FG2 as [|g g' gs gs2 (A & B & C) F IH]; cbn [map flat_map]; auto. f_equal; auto.
    unfold group_words, sorted_group. cbn [gr_word gr_params]. f_equal. apply sort_snd_built.
    apply (sorted_letters (gr_params (sorted_group g))); [symmetry; apply (Forall2_letters (S := S)); auto|]. apply sorted_group_sorted.
Qed.
End Reread.
Theorem block_reprint v s b : mk_block v s = Ok b -> Forall prints_well (bwords b) -> separate b ->
  exists b', mk_block v (block_str b) = Ok b' /\ Forall2 gcode_prints_as (bgcodes b) (bgcodes b') /\
    Forall2 prints_as (bmodal b) (bmodal b') /\ block_str b' = block_str b.
Proof.
  intros M PW SE. destruct (block_reread (fun w w' => word_str w' = word_str w) prints_well word_prints (fun w H => proj2 H) v s b M PW SE) as (b' & A & B & C & E).
  exists b'. split; [exact A|]. split; [exact B|]. split; [exact C|]. apply E. auto.
Qed.
End Accurate.
End WithArith.
