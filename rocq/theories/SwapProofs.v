(** X and Y exchanged: nothing in reading and running a program treats them differently. *)
From Coq Require Import Ascii String List Bool Arith ZArith QArith Qcanon Lia.
From Verif Require Import Base Num Regex Words GTable GCode Line Position Machine SwapSpec.
Import ListNotations.
Set Implicit Arguments.

(** ** Texts *)
Definition blind (f : ascii -> bool) : Prop := forall c, f (flip c) = f c.
Ltac chars := intros c; destruct c as [[] [] [] [] [] [] [] []]; vm_compute; reflexivity.
Lemma blind_digit : blind is_digit. Proof. chars. Qed.
Lemma blind_space : blind is_space. Proof. chars. Qed.
Lemma blind_numspace : blind is_numspace. Proof. chars. Qed.
Lemma blind_newline : blind is_newline. Proof. chars. Qed.
Lemma blind_dot : blind is_dot. Proof. chars. Qed.
Lemma blind_rparen : blind not_rparen. Proof. chars. Qed.
Lemma flip_flip c : flip (flip c) = c. Proof. revert c. chars. Qed.
Lemma letter_flip : forall c, letter_of_ascii (flip c) = option_map swap_letter (letter_of_ascii c). Proof. chars. Qed.
Lemma blind_letter : blind is_letter. Proof. intros c. unfold is_letter. rewrite letter_flip. destruct (letter_of_ascii c); reflexivity. Qed.
Lemma eqb_flip c k : flip k = k -> Ascii.eqb (flip c) k = Ascii.eqb c k.
Proof. intros K. destruct (Ascii.eqb_spec c k) as [->|N]; [rewrite K; apply Ascii.eqb_refl|]. apply Ascii.eqb_neq. intros E. apply N. rewrite <- K, <- E. symmetry. apply flip_flip. Qed.
Lemma blind_chr k : flip k = k -> blind (Ascii.eqb k).
Proof. intros K c. rewrite !(Ascii.eqb_sym k). apply eqb_flip; auto. Qed.

Fixpoint blind_re (r : re) : Prop :=
  match r with
  | Cls f | Star f | StarLazy f => blind f
  | Seq a b | Alt a b => blind_re a /\ blind_re b
  | Opt a | Grp _ a => blind_re a
  | _ => True
  end.
Definition flip_caps (c : caps) : caps := map (fun nt => (fst nt, swap_text (snd nt))) c.
Definition flip_res (m : mres) : mres := MRes (swap_text (consumed m)) (flip_caps (captured m)) (swap_text (rest m)).
Lemma swap_text_app a b : swap_text (a ++ b) = swap_text a ++ swap_text b. Proof. apply map_app. Qed.
Lemma star_flip f : blind f -> forall s, star_opts f (swap_text s) = map flip_res (star_opts f s).
Proof.
  intros B. induction s as [|c s IH]; [reflexivity|]. cbn [swap_text map star_opts]. rewrite B. destruct (f c); [|reflexivity].
  fold (swap_text s). rewrite IH, map_app, !map_map. reflexivity.
Qed.
Lemma last_flip c : forall x, last (map flip c) (flip x) = flip (last c x).
Proof. induction c as [|a c IH]; intros x; [reflexivity|]. destruct c; [reflexivity|]. cbn [map last] in *. apply IH. Qed.
Lemma prev_flip p c : prev_after (option_map flip p) (swap_text c) = option_map flip (prev_after p c).
Proof. destruct c as [|x c]; [reflexivity|]. cbn [swap_text map prev_after option_map]. change (flip x :: map flip c) with (map flip (x :: c)). rewrite last_flip. reflexivity. Qed.
Lemma mtch_flip r : blind_re r -> forall p s, mtch r (option_map flip p) (swap_text s) = map flip_res (mtch r p s).
Proof.
  induction r; cbn [blind_re]; intros B p s; cbn [mtch]; try reflexivity.
  - destruct s as [|c s]; [reflexivity|]. cbn [swap_text map]. rewrite B. destruct (f c); reflexivity.
  - destruct B as [B1 B2]. rewrite (IHr1 B1). rewrite flat_map_concat_map, map_map, flat_map_concat_map, concat_map, map_map. f_equal. apply map_ext. intros m.
    cbn [flip_res consumed captured rest]. rewrite prev_flip, (IHr2 B2), !map_map. apply map_ext. intros m'. unfold flip_res. cbn [consumed captured rest]. unfold flip_caps. rewrite swap_text_app, map_app. reflexivity.
  - destruct B as [B1 B2]. rewrite (IHr1 B1), (IHr2 B2), map_app. reflexivity.
  - apply star_flip; auto.
  - rewrite star_flip, map_rev by auto. reflexivity.
  - rewrite (IHr B), map_app. reflexivity.
  - rewrite (IHr B), !map_map. reflexivity.
  - destruct p; reflexivity.
  - destruct s as [|c [|d s]]; try reflexivity. cbn [swap_text map]. rewrite blind_newline. destruct (is_newline c); reflexivity.
  - destruct p as [c|]; [|reflexivity]. cbn [option_map]. rewrite blind_newline. destruct (is_newline c); reflexivity.
  - destruct s as [|c s]; [reflexivity|]. cbn [swap_text map]. rewrite blind_newline. destruct (is_newline c); reflexivity.
Qed.
Definition flip_match (m : smatch) : smatch := SMatch (mstart m) (mend m) (swap_text (mtext m)) (flip_caps (mcaps m)).
Lemma swap_length s : length (swap_text s) = length s. Proof. apply map_length. Qed.
Lemma search_flip r : blind_re r -> forall s i p, search_from r i (option_map flip p) (swap_text s) = option_map flip_match (search_from r i p s).
Proof.
  intros B. induction s as [|c s IH]; intros i p; cbn [search_from swap_text map]; unfold re_here.
  - pose proof (mtch_flip r B p []) as E. cbn [swap_text map] in E. rewrite E. destruct (mtch r p []) as [|m ms]; [reflexivity|]. cbn [map hd_error option_map]. unfold flip_match. cbn. rewrite swap_length. reflexivity.
  - change (flip c :: map flip s) with (swap_text (c :: s)). rewrite mtch_flip by auto. destruct (mtch r p (c :: s)) as [|m ms]; cbn [map hd_error option_map].
    + apply (IH (S i) (Some c)).
    + unfold flip_match. cbn. rewrite swap_length. reflexivity.
Qed.
Lemma search_flip0 r s : blind_re r -> search r (swap_text s) = option_map flip_match (search r s).
Proof. intros B. apply (search_flip r B s 0 None). Qed.
Lemma group_flip m n : group (flip_match m) n = option_map swap_text (group m n).
Proof. unfold group. cbn [flip_match mcaps]. induction (mcaps m) as [|[k x] l IH]; [reflexivity|]. cbn. destruct (n =? k)%nat; auto. Qed.
Lemma swap_skipn n s : swap_text (skipn n s) = skipn n (swap_text s). Proof. symmetry. apply skipn_map. Qed.
Lemma swap_firstn n s : swap_text (firstn n s) = firstn n (swap_text s). Proof. symmetry. apply firstn_map. Qed.
Lemma prev_at_flip s i : prev_at (swap_text s) i = option_map flip (prev_at s i).
Proof. destruct i; [reflexivity|]. apply nth_error_map. Qed.
Lemma finditer_flip r : blind_re r -> forall k s i, finditer_fuel k r (swap_text s) i = map flip_match (finditer_fuel k r s i).
Proof.
  intros B. induction k as [|k IH]; intros s i; [reflexivity|]. cbn [finditer_fuel]. rewrite prev_at_flip, <- swap_skipn, search_flip by auto.
  destruct (search_from r i (prev_at s i) (skipn i s)) as [m|]; [|reflexivity]. cbn. rewrite IH. reflexivity.
Qed.
Lemma finditer_flip0 r s : blind_re r -> finditer r (swap_text s) = map flip_match (finditer r s).
Proof. intros B. unfold finditer. rewrite swap_length. apply finditer_flip; auto. Qed.
Lemma spans_flip repl : forall ms s i, sub_spans (map flip_match ms) (swap_text repl) (swap_text s) i = swap_text (sub_spans ms repl s i).
Proof.
  induction ms as [|m ms IH]; intros s i; cbn [sub_spans map]; [rewrite <- swap_skipn; reflexivity|]. cbn [flip_match mstart mend]. rewrite IH, !swap_text_app, swap_firstn, swap_skipn. reflexivity.
Qed.
Lemma sub_flip r repl s : blind_re r -> swap_text repl = repl -> re_sub r repl (swap_text s) = swap_text (re_sub r repl s).
Proof. intros B R. unfold re_sub. rewrite finditer_flip0 by auto. rewrite <- R at 1. apply spans_flip. Qed.
Lemma drop_flip f : blind f -> forall s, drop_while f (swap_text s) = swap_text (drop_while f s).
Proof. intros B. induction s as [|c s IH]; [reflexivity|]. cbn [swap_text map drop_while]. rewrite B. destruct (f c); auto. Qed.
Lemma rev_flip s : rev (swap_text s) = swap_text (rev s). Proof. symmetry. apply map_rev. Qed.
Lemma span_cons (f : ascii -> bool) c s : span f (c :: s) = if f c then let (a, b) := span f s in (c :: a, b) else ([], c :: s). Proof. reflexivity. Qed.
Lemma span_flip f : blind f -> forall s, span f (swap_text s) = (swap_text (fst (span f s)), swap_text (snd (span f s))).
Proof. intros B. induction s as [|c s IH]; [reflexivity|]. change (swap_text (c :: s)) with (flip c :: swap_text s). rewrite !span_cons, B. destruct (f c); [|reflexivity]. rewrite IH. destruct (span f s); reflexivity. Qed.
Lemma existsb_flip f s : blind f -> existsb f (swap_text s) = existsb f s.
Proof. intros B. induction s as [|c s IH]; [reflexivity|]. cbn. rewrite B. f_equal. exact IH. Qed.
Ltac blinds := repeat first [exact I | apply conj | apply blind_digit | apply blind_space | apply blind_dot | apply blind_rparen | apply blind_letter | (apply blind_chr; reflexivity)].
Lemma blind_value l : blind_re (value_regex l). Proof. destruct l; cbn; blinds. Qed.
Lemma blind_next : blind_re next_word. Proof. cbn; blinds. Qed.

Section WithArith.
Context {ar : Arith}.
(** ** Words *)
Lemma digits_flip s : Forall (fun c => is_digit c = true) s -> swap_text s = s.
Proof. induction 1 as [|c s D _ IH]; [reflexivity|]. cbn. f_equal; [|exact IH]. revert D. destruct c as [[] [] [] [] [] [] [] []]; vm_compute; intros; (reflexivity || discriminate). Qed.
Lemma span_all (f : ascii -> bool) s : Forall (fun c => f c = true) (fst (span f s)).
Proof. induction s as [|c s IH]; [constructor|]. rewrite span_cons. destruct (f c) eqn:E; [|constructor]. destruct (span f s); cbn in *. constructor; auto. Qed.
Lemma strip_flip s : num_strip (swap_text s) = swap_text (num_strip s).
Proof. unfold num_strip. rewrite (drop_flip blind_numspace), rev_flip, (drop_flip blind_numspace), rev_flip. reflexivity. Qed.
Lemma minus_flip s : take_minus (swap_text s) = (fst (take_minus s), swap_text (snd (take_minus s))).
Proof. destruct s as [|c s]; [reflexivity|]. cbn [swap_text map take_minus]. rewrite eqb_flip by reflexivity. destruct (Ascii.eqb c "-"); reflexivity. Qed.
Lemma float_flip s : py_float (swap_text s) = py_float s.
Proof.
  unfold py_float. rewrite strip_flip, minus_flip. destruct (take_minus (num_strip s)) as [neg u]. cbn [fst snd]. rewrite (span_flip blind_digit). pose proof (span_all is_digit u) as A. destruct (span is_digit u) as [ip r]. cbn [fst snd] in *. rewrite (digits_flip A).
  destruct r as [|c r]; [reflexivity|]. cbn [swap_text map]. rewrite eqb_flip by reflexivity. destruct (Ascii.eqb c ".").
  - fold (swap_text r). rewrite (span_flip blind_digit). pose proof (span_all is_digit r) as D. destruct (span is_digit r) as [fp r']. cbn [fst snd] in *. rewrite (digits_flip D). destruct r'; reflexivity.
  - change (flip c :: map flip r) with (swap_text (c :: r)). rewrite (existsb_flip _ blind_space). reflexivity.
Qed.
Lemma int_flip s : py_int (swap_text s) = py_int s.
Proof.
  unfold py_int. rewrite strip_flip, minus_flip. destruct (take_minus (num_strip s)) as [neg u]. cbn [fst snd]. rewrite (span_flip blind_digit). pose proof (span_all is_digit u) as A. destruct (span is_digit u) as [ip r]. cbn [fst snd] in *. rewrite (digits_flip A).
  destruct r as [|c r]; [reflexivity|]. cbn [swap_text map]. change (flip c :: map flip r) with (swap_text (c :: r)). rewrite (existsb_flip _ blind_space). reflexivity.
Qed.
Lemma class_swap l : letter_class (swap_letter l) = letter_class l. Proof. destruct l; reflexivity. Qed.
Lemma mk_word_flip l s : mk_word (swap_letter l) (VStr (swap_text s)) = rmap swap_word (mk_word l (VStr s)).
Proof.
  unfold mk_word, coerce. rewrite class_swap. destruct (letter_class l); [rewrite float_flip; destruct (py_float s)|rewrite int_flip; destruct (py_int s)|]; reflexivity.
Qed.
Lemma regex_swap l : value_regex (swap_letter l) = value_regex l. Proof. destruct l; reflexivity. Qed.
Lemma words_fuel_flip : forall k s, text2words_fuel k (swap_text s) = rmap (map swap_word) (text2words_fuel k s).
Proof.
  induction k as [|k IH]; intros s; [reflexivity|]. cbn [text2words_fuel]. rewrite (search_flip0 _ _ blind_next). destruct (search next_word s) as [m|]; cbn [option_map].
  - rewrite group_flip. destruct (group m 1) as [[|c [|d g]]|]; cbn [option_map swap_text map]; try reflexivity. rewrite letter_flip. destruct (letter_of_ascii c) as [l|]; cbn [option_map]; [|reflexivity].
    rewrite regex_swap. cbn [flip_match mend]. change (map flip s) with (swap_text s). rewrite <- swap_skipn, (search_flip0 _ _ (blind_value l)). destruct (search (value_regex l) (skipn (mend m) s)) as [v|]; cbn [option_map]; [|reflexivity].
    cbn [flip_match mtext mend]. rewrite mk_word_flip. destruct (mk_word l (VStr (mtext v))) as [w|e]; cbn [rmap bind]; [|reflexivity]. rewrite <- swap_skipn, IH. destruct (text2words_fuel k _); reflexivity.
  - rewrite existsb_flip; [destruct (existsb _ s); reflexivity|]. intros c. rewrite blind_space. reflexivity.
Qed.
Lemma words_flip s : text2words (swap_text s) = rmap (map swap_word) (text2words s).
Proof. unfold text2words. rewrite swap_length. apply words_fuel_flip. Qed.

(** ** Gcodes *)
Lemma letter_eqb_swap a b : letter_eqb (swap_letter a) (swap_letter b) = letter_eqb a b. Proof. destruct a, b; reflexivity. Qed.
Lemma swap_inj a b : swap_text a = swap_text b -> a = b.
Proof. assert (F : forall x, swap_text (swap_text x) = x) by (intros x; unfold swap_text; rewrite map_map; erewrite map_ext; [apply map_id|exact flip_flip]). intros E. rewrite <- (F a), <- (F b), E. reflexivity. Qed.
Lemma text_eqb_swap a b : text_eqb (swap_text a) (swap_text b) = text_eqb a b.
Proof. unfold text_eqb. destruct (list_eq_dec ascii_dec a b) as [->|N]; destruct (list_eq_dec ascii_dec (swap_text _) (swap_text _)) as [E|E]; try reflexivity; exfalso; [apply E; reflexivity|apply N, swap_inj, E]. Qed.
Lemma word_eqb_swap a b : word_eqb (swap_word a) (swap_word b) = word_eqb a b.
Proof. unfold word_eqb. cbn. rewrite letter_eqb_swap. f_equal. destruct (wvalue a), (wvalue b); cbn; auto. apply text_eqb_swap. Qed.
Lemma key_plain c : match resolve_or own_word_key c None with Some (l, VStr _) => False | Some (l, _) => letter_class l <> CStr | None => True end.
Proof. destruct c; vm_compute; try exact I; discriminate. Qed.
Lemma key_number c k : word_key c = Some k -> match wvalue k with VStr _ => False | _ => True end.
Proof.
  unfold word_key. pose proof (key_plain c) as P. destruct (resolve_or own_word_key c None) as [[l v]|]; [|discriminate]. cbn. intros [= <-]. cbn. unfold coerce.
  destruct v; [| |destruct P]; destruct (letter_class l); cbn; auto.
Qed.
Lemma plain_letter l : gcode_letter l = true -> swap_letter l = l. Proof. destruct l; cbn; congruence. Qed.
Lemma find_ext' {A} (f g : A -> bool) l : (forall x, f x = g x) -> find f l = find g l. Proof. intros E. induction l as [|x l IH]; cbn; auto. rewrite E, IH. reflexivity. Qed.
Lemma word_class_swap w : word_gcode_class (swap_word w) = word_gcode_class w.
Proof.
  unfold word_gcode_class. assert (G : gcode_letter (wletter (swap_word w)) = gcode_letter (wletter w)) by (cbn; destruct (wletter w); reflexivity). rewrite G. destruct (gcode_letter (wletter w)) eqn:L; [|reflexivity]. cbn [negb]. pose proof (plain_letter _ L) as E.
  assert (F : find (fun c => match word_key c with Some k => word_eqb (swap_word w) k | None => false end) subclasses = find (fun c => match word_key c with Some k => word_eqb w k | None => false end) subclasses).
  { apply find_ext'. intros c. destruct (word_key c) as [k|] eqn:K; [|reflexivity]. apply key_number in K. unfold word_eqb. cbn [swap_word wletter wvalue]. rewrite E. f_equal. destruct (wvalue w), (wvalue k); cbn; auto. destruct K. }
  eapply eq_trans; [apply (f_equal (fun o => match o with Some c => Some c | None => option_map snd (find (fun e => matches (fst e) (swap_word w)) function_list) end) F)|]. cbn beta. clear F.
  match goal with |- match ?x with _ => _ end = _ => destruct x end; [reflexivity|]. f_equal. apply find_ext'. intros [f c]. cbn [fst]. unfold matches. cbn [swap_word wletter wvalue]. rewrite E. destruct f; auto; destruct (wvalue w); reflexivity.
Qed.
Lemma accepts_xy c : accepts c LX = accepts c LY /\ accepts_modal c LX = accepts_modal c LY. Proof. destruct c; vm_compute; auto. Qed.
Lemma accepts_swap c l : accepts c (swap_letter l) = accepts c l. Proof. destruct (accepts_xy c) as [E _]. destruct l; cbn [swap_letter]; auto. Qed.
Lemma accepts_modal_swap c l : accepts_modal c (swap_letter l) = accepts_modal c l. Proof. destruct (accepts_xy c) as [_ E]. destruct l; cbn [swap_letter]; auto. Qed.
Section Keys.
  Variables (K V W : Type) (eqb : K -> K -> bool) (f : K -> K) (h : V -> W).
  Hypothesis E : forall a b, eqb (f a) (f b) = eqb a b.
  Let both (kv : K * V) := (f (fst kv), h (snd kv)).
  Lemma dget_both d k : dget eqb (map both d) (f k) = option_map h (dget eqb d k).
  Proof. induction d as [|[a v] d IH]; [reflexivity|]. cbn. rewrite E. destruct (eqb k a); auto. Qed.
  Lemma dset_both d k v : dset eqb (map both d) (f k) (h v) = map both (dset eqb d k v).
  Proof. induction d as [|[a x] d IH]; [reflexivity|]. cbn. rewrite E. destruct (eqb k a); [reflexivity|]. cbn. rewrite IH. reflexivity. Qed.
  Lemma dpop_both d k : dpop eqb (map both d) (f k) = map both (dpop eqb d k).
  Proof. induction d as [|[a x] d IH]; [reflexivity|]. cbn. rewrite E. destruct (eqb k a); [reflexivity|]. cbn. rewrite IH. reflexivity. Qed.
  Lemma dupdate_both l : forall d, dupdate eqb (map both d) (map both l) = map both (dupdate eqb d l).
  Proof. unfold dupdate. induction l as [|[k v] l IH]; intros d; [reflexivity|]. cbn [map fold_left both fst snd]. rewrite dset_both. apply IH. Qed.
End Keys.
Lemma filter_map_comm {A B} (p : B -> bool) (q : A -> bool) (f : A -> B) l : (forall x, p (f x) = q x) -> filter p (map f l) = map f (filter q l).
Proof. intros E. induction l as [|x l IH]; [reflexivity|]. cbn. rewrite E. destruct (q x); cbn; rewrite IH; reflexivity. Qed.
Lemma existsb_map_comm {A B} (p : B -> bool) (q : A -> bool) (f : A -> B) l : (forall x, p (f x) = q x) -> existsb p (map f l) = existsb q l.
Proof. intros E. induction l as [|x l IH]; [reflexivity|]. cbn. rewrite E, IH. reflexivity. Qed.
Lemma pget_swap g l : pget (gparams (swap_gcode g)) (swap_letter l) = option_map swap_word (pget (gparams g) l).
Proof. apply (dget_both letter_eqb swap_letter swap_word letter_eqb_swap). Qed.
Lemma add_swap g w : add_parameter (swap_gcode g) (swap_word w) = rmap swap_gcode (add_parameter g w).
Proof.
  unfold add_parameter. cbn [swap_gcode gcls swap_word wletter]. rewrite accepts_swap. destruct (accepts (gcls g) (wletter w)); [|reflexivity]. cbn [negb]. unfold dmem.
  pose proof (pget_swap g (wletter w)) as P. unfold pget in P. unfold swap_gcode at 1. cbn [gparams gcls gword gwhite]. unfold swap_gcode in P. cbn [gparams] in P. rewrite P. destruct (dget letter_eqb (gparams g) (wletter w)); [reflexivity|]. cbn. unfold swap_gcode. cbn. do 2 f_equal.
  apply (dset_both letter_eqb swap_letter swap_word letter_eqb_swap).
Qed.
Lemma adds_swap ws : forall g, add_parameters (swap_gcode g) (map swap_word ws) = rmap swap_gcode (add_parameters g ws).
Proof. induction ws as [|w ws IH]; intros g; [reflexivity|]. cbn. rewrite add_swap. destruct (add_parameter g w); cbn; auto. Qed.
Lemma mk_gcode_swap c w ws : mk_gcode c (swap_word w) (map swap_word ws) = rmap swap_gcode (mk_gcode c w ws).
Proof. apply (adds_swap ws (MkGCode c w [] false)). Qed.
Lemma modal_copy_swap g : modal_copy (swap_gcode g) = rmap swap_gcode (modal_copy g).
Proof.
  unfold modal_copy. cbn [swap_gcode gcls gword gparams]. rewrite <- mk_gcode_swap. f_equal. rewrite (filter_map_comm _ (fun kv => accepts_modal (gcls g) (fst kv))) by (intros x; apply accepts_modal_swap). rewrite !map_map. reflexivity.
Qed.
Definition swap_info (p : winfo) : winfo := WInfo (swap_word (wi_word p)) (wi_class p) (wi_to p).
Lemma infos_swap ws : word_infos (map swap_word ws) = map swap_info (word_infos ws).
Proof. unfold word_infos. rewrite !map_map. apply map_ext. intros w. unfold swap_info. cbn. rewrite word_class_swap. reflexivity. Qed.
Lemma claim_swap i c l : claim i c (map swap_info l) = map swap_info (claim i c l).
Proof. unfold claim. rewrite !map_map. apply map_ext. intros p. cbn. rewrite accepts_swap. destruct (accepts c _); reflexivity. Qed.
Lemma link_swap n : forall i l, link n i (map swap_info l) = map swap_info (link n i l).
Proof. induction n as [|n IH]; intros i [|p l]; try reflexivity. cbn [link map]. f_equal. cbn [swap_info wi_class]. destruct (wi_class p); [rewrite claim_swap|]; apply IH. Qed.
Lemma params_of_swap l k : params_of (map swap_info l) k = map swap_word (params_of l k).
Proof. unfold params_of. rewrite (filter_map_comm _ (fun p => match wi_class p with Some _ => false | None => match wi_to p, k with None, None => true | Some a, Some b => Nat.eqb a b | _, _ => false end end)) by reflexivity. rewrite !map_map. reflexivity. Qed.
Lemma make_swap all : forall l i, make_gcodes (map swap_info all) i (map swap_info l) = rmap (map swap_gcode) (make_gcodes all i l).
Proof.
  induction l as [|p l IH]; intros i; [reflexivity|]. cbn [make_gcodes map]. cbn [swap_info wi_class wi_word]. destruct (wi_class p) as [c|]; [|apply IH].
  rewrite params_of_swap, mk_gcode_swap, IH. destruct (mk_gcode c _ _); cbn; [|reflexivity]. destruct (make_gcodes all (S i) l); reflexivity.
Qed.
Definition swap_grouped (r : list gcode * list word) := (map swap_gcode (fst r), map swap_word (snd r)).
Lemma words2gcodes_swap ws : words2gcodes (map swap_word ws) = rmap swap_grouped (words2gcodes ws).
Proof. unfold words2gcodes. rewrite infos_swap, map_length, link_swap, make_swap, params_of_swap. destruct (make_gcodes _ 0 _); reflexivity. Qed.
Lemma insert_swap g l : insert gorder (swap_gcode g) (map swap_gcode l) = map swap_gcode (insert gorder g l).
Proof. induction l as [|x l IH]; [reflexivity|]. cbn [insert map]. change (gorder (swap_gcode g)) with (gorder g). change (gorder (swap_gcode x)) with (gorder x). destruct (_ <=? _)%Z; [reflexivity|]. cbn [map]. rewrite IH. reflexivity. Qed.
Lemma sort_swap l : sort_gcodes (map swap_gcode l) = map swap_gcode (sort_gcodes l).
Proof. unfold sort_gcodes. induction l as [|x l IH]; [reflexivity|]. cbn [sort map]. rewrite IH. apply insert_swap. Qed.

(** ** Lines *)
Lemma assert_swap gs : forall ws mgs, assert_gcodes (map swap_word ws) mgs (map swap_gcode gs) = assert_gcodes ws mgs gs.
Proof.
  induction gs as [|g gs IH]; intros ws mgs; [reflexivity|]. cbn [assert_gcodes map]. rewrite (existsb_map_comm _ (word_eqb (gword g))) by (intros w; apply word_eqb_swap). destruct (existsb _ ws); [reflexivity|].
  cbn [swap_gcode gcls gword]. destruct (modal_group (gcls g)); [destruct (existsb _ mgs); [reflexivity|]|]; apply (IH (gword g :: ws)).
Qed.
Definition swap_block (b : block) : block := Block (map swap_word (bwords b)) (map swap_gcode (bgcodes b)) (map swap_word (bmodal b)).
Lemma clean_swap s : clean_text (swap_text s) = swap_text (clean_text s).
Proof. unfold clean_text. rewrite !sub_flip; auto; cbn; blinds. Qed.
Lemma block_swap v s : mk_block v (swap_text s) = rmap swap_block (mk_block v s).
Proof.
  destruct s as [|c s]; [reflexivity|]. unfold mk_block. change (swap_text (c :: s)) with (flip c :: swap_text s) at 1. rewrite clean_swap, words_flip. destruct (text2words _) as [ws|e]; cbn [rmap bind]; [|reflexivity].
  rewrite words2gcodes_swap. destruct (words2gcodes ws) as [[gs u]|e]; cbn [rmap bind swap_grouped fst snd]; [|reflexivity]. destruct v; [|reflexivity]. pose proof (assert_swap gs [] []) as A. cbn [map] in A. rewrite A. destruct (assert_gcodes [] [] gs); reflexivity.
Qed.
Lemma spans_removed ms : forall s, remove_spans (map flip_match ms) (swap_text s) = swap_text (remove_spans ms s).
Proof.
  intros s. unfold remove_spans. rewrite <- map_rev. revert s. induction (rev ms) as [|m l IH]; intros s; [reflexivity|]. cbn [fold_left map]. rewrite <- IH. f_equal. cbn [flip_match mstart mend]. rewrite swap_text_app, swap_firstn, swap_skipn. reflexivity.
Qed.
Lemma split_swap s : fst (split_line (swap_text s)) = swap_text (fst (split_line s)).
Proof.
  unfold split_line, rstrip_newlines. rewrite rev_flip, (drop_flip blind_newline), rev_flip. set (u := rev _).
  rewrite (finditer_flip0 RE_SEMICOLON) by (cbn; blinds). destruct (finditer RE_SEMICOLON u) as [|m ms]; cbn [map]; [|apply (spans_removed (m :: ms))].
  rewrite (finditer_flip0 RE_BRACKETS) by (cbn; blinds). destruct (finditer RE_BRACKETS u) as [|m ms]; cbn [map]; [reflexivity|apply (spans_removed (m :: ms))].
Qed.
Lemma line_swap s : rmap lblock (mk_line (swap_text s)) = rmap (fun l => swap_block (lblock l)) (mk_line s).
Proof.
  unfold mk_line, line_parts. rewrite search_flip0 by (cbn; blinds). destruct (search LINE_REGEX s) as [m|]; cbn [option_map]; [|reflexivity]. rewrite group_flip. destruct (group m 1) as [bc|]; cbn [option_map bind]; [|reflexivity].
  pose proof (split_swap bc) as E. destruct (split_line (swap_text bc)) as [b c], (split_line bc) as [b' c']. cbn [fst] in E. subst b. rewrite block_swap. destruct (mk_block true b'); reflexivity.
Qed.

(** ** Positions *)
Lemma axis_eqb_swap a b : axis_eqb (swap_axis a) (swap_axis b) = axis_eqb a b. Proof. destruct a, b; reflexivity. Qed.
Lemma vget_swap {A} (v : v9 A) a : vget (swap9 v) (swap_axis a) = vget v a. Proof. destruct a; reflexivity. Qed.
Lemma vset_swap {A} (v : v9 A) a x : vset (swap9 v) (swap_axis a) x = swap9 (vset v a x). Proof. destruct a; reflexivity. Qed.
Lemma vall_swap f g : (forall a, f (swap_axis a) = g a) -> vall f = vall g.
Proof. intros E. unfold vall, all_axes. cbn [forallb]. rewrite <- (E AX), <- (E AY), <- (E AZ), <- (E AA), <- (E AB), <- (E AC), <- (E AU), <- (E AV), <- (E AW). cbn [swap_axis]. destruct (f AX), (f AY); reflexivity. Qed.
Lemma sub_swap p q : pos_sub (swap_pos p) (swap_pos q) = rmap swap_pos (pos_sub p q).
Proof. unfold pos_sub, axset_sub. rewrite (vall_swap _ (fun x => implb (vget (paxes q) x) (vget (paxes p) x))) by (intros a; cbn [swap_pos paxes]; rewrite !vget_swap; reflexivity). destruct (vall _); reflexivity. Qed.
Lemma add_pos_swap p q : pos_add (swap_pos p) (swap_pos q) = rmap swap_pos (pos_add p q).
Proof. unfold pos_add, axset_eqb. rewrite (vall_swap _ (fun x => Bool.eqb (vget (paxes p) x) (vget (paxes q) x))) by (intros a; cbn [swap_pos paxes]; rewrite !vget_swap; reflexivity). destruct (vall _); reflexivity. Qed.
Lemma cmp_swap key p q : pos_cmp key (swap_pos p) (swap_pos q) = rmap swap_pos (pos_cmp key p q).
Proof.
  unfold pos_cmp, pos_set_unit. cbn [swap_pos punit]. assert (Q : forall (b : bool) (x : position), (if b then x else x) = x) by (intros []; reflexivity). rewrite !Q.
  rewrite (vall_swap _ (fun a => match vget (pvals p) a with None => true | Some _ => vget (paxes p) a && vget (paxes q) a end)) by (intros a; cbn [swap_pos paxes pvals]; rewrite !vget_swap; reflexivity). destruct (vall _); reflexivity.
Qed.
Definition swap_coord {A} (c : axis * A) : axis * A := (swap_axis (fst c), snd c).
Lemma mk_position_swap axes u cs : mk_position (swap9 axes) u (map swap_coord cs) = swap_pos (mk_position axes u cs).
Proof.
  unfold mk_position, swap_pos. cbn [paxes punit pvals]. f_equal. change (vfun (fun a => if vget (swap9 axes) a then Some (Q2Qc 0) else None)) with (swap9 (vfun (fun a => if vget axes a then Some (Q2Qc 0) else None))).
  generalize (vfun (fun a => if vget axes a then Some (Q2Qc 0) else None)). induction cs as [|[a x] cs IH]; intros v; [reflexivity|]. cbn [fold_left map swap_coord fst snd]. rewrite vset_swap. apply IH.
Qed.
Lemma update_swap cs : forall p, pos_update (swap_pos p) (map swap_coord cs) = rmap swap_pos (pos_update p cs).
Proof.
  induction cs as [|[a x] cs IH]; intros p; [reflexivity|]. cbn [pos_update map swap_coord fst snd]. unfold pos_setattr. cbn [swap_pos paxes punit pvals]. rewrite vget_swap. destruct (vget (paxes p) a); cbn [bind]; [|reflexivity].
  rewrite vset_swap. apply (IH (Pos (paxes p) (punit p) (vset (pvals p) a (Some x)))).
Qed.

(** ** Machines *)
Definition swap_out (o : machine * result unit) : machine * result unit := (swap_machine (fst o), snd o).
Lemma zero_swap axes : zero_pos (swap9 axes) = swap_pos (zero_pos axes). Proof. apply (mk_position_swap axes default_unit []). Qed.
Lemma offset_swap m : coord_sys_offset (swap_machine m) = rmap swap_pos (coord_sys_offset m).
Proof.
  unfold coord_sys_offset. cbn [swap_machine m_state swap_state coord_systems cur_coord_sys m_axes]. rewrite zero_swap. destruct (coord_systems (m_state m)) as [d|l]; cbn [swap_table]; destruct (cur_coord_sys (m_state m)) as [i|]; try reflexivity.
  - rewrite (dget_both Z.eqb (fun i => i) swap_pos (fun a b => eq_refl) d i). destruct (dget Z.eqb d i); reflexivity.
  - destruct (existsb (Z.eqb i) l); [|reflexivity]. destruct (nth_error l (Z.to_nat i)); reflexivity.
Qed.
Lemma abs2work_swap m p : abs2work (swap_machine m) (swap_pos p) = rmap swap_pos (abs2work m p).
Proof. unfold abs2work. rewrite offset_swap. destruct (coord_sys_offset m) as [o|]; cbn [rmap bind]; [|reflexivity]. rewrite sub_swap. destruct (pos_sub p o); cbn [rmap bind]; [|reflexivity]. apply sub_swap. Qed.
Lemma work2abs_swap m p : work2abs (swap_machine m) (swap_pos p) = rmap swap_pos (work2abs m p).
Proof. unfold work2abs. rewrite offset_swap. destruct (coord_sys_offset m) as [o|]; cbn [rmap bind]; [|reflexivity]. cbn [swap_machine m_state swap_state st_offset]. rewrite add_pos_swap. destruct (pos_add p _); cbn [rmap bind]; [|reflexivity]. apply add_pos_swap. Qed.
Lemma set_pos_swap p m : set_pos (swap_pos p) (swap_machine m) = swap_out (set_pos p m).
Proof.
  unfold set_pos, then_step, atomic_step. rewrite work2abs_swap. destruct (work2abs m p) as [a|]; cbn [rmap bind]; [|reflexivity]. cbn [with_abs swap_machine m_abs m_min m_max m_mode m_state m_axes m_ignore].
  unfold pos_min, pos_max. rewrite cmp_swap. destruct (pos_cmp qmin a (m_min m)) as [x|]; cbn [rmap bind]; [|reflexivity]. cbn [with_min swap_machine m_abs m_min m_max m_mode m_state m_axes m_ignore].
  change (m_abs (with_abs (swap_machine m) (swap_pos a))) with (swap_pos a). change (m_max (with_abs (swap_machine m) (swap_pos a))) with (swap_pos (m_max m)). change (m_abs (with_abs m a)) with a. change (m_max (with_abs m a)) with (m_max m).
  rewrite cmp_swap. destruct (pos_cmp qmax a (m_max m)) as [y|]; reflexivity.
Qed.
Lemma get_modes {A B} (f : A -> B) md mg : gm_get (map_modes f md) mg = option_map f (gm_get md mg). Proof. destruct mg; reflexivity. Qed.
Lemma set_modes {A B} (f : A -> B) md mg v : gm_set (map_modes f md) mg (option_map f v) = map_modes f (gm_set md mg v). Proof. destruct md, mg; reflexivity. Qed.
Lemma some_swap cs : some_coords (map swap_coord cs) = map swap_coord (some_coords cs).
Proof. unfold some_coords. induction cs as [|[a [x|]] cs IH]; [reflexivity| |]; cbn; rewrite IH; reflexivity. Qed.
Lemma move_swap cs m : move_to (map swap_coord cs) (swap_machine m) = swap_out (move_to cs m).
Proof.
  unfold move_to, machine_pos. cbn [swap_machine m_abs]. rewrite abs2work_swap. destruct (abs2work m (m_abs m)) as [p|]; cbn [rmap]; [|reflexivity].
  assert (I : is_incremental (swap_machine m) = is_incremental m) by (unfold is_incremental; cbn [swap_machine m_mode]; rewrite get_modes; destruct (gm_get (m_mode m) MG_distance); reflexivity). rewrite I, some_swap.
  destruct (is_incremental m).
  - rewrite (existsb_map_comm _ (fun c => match snd c, vget (pvals p) (fst c) with None, Some _ => true | _, _ => false end)) by (intros [a x]; cbn [swap_coord fst snd swap_pos pvals]; rewrite vget_swap; reflexivity). destruct (existsb _ cs); [reflexivity|].
    cbn [swap_machine m_axes]. rewrite mk_position_swap, add_pos_swap. destruct (pos_add p _); cbn [rmap]; [|reflexivity]. apply set_pos_swap.
  - rewrite (existsb_map_comm _ (fun c => negb (vget (paxes p) (fst c)))) by (intros [a x]; cbn [swap_coord fst snd swap_pos paxes]; rewrite vget_swap; reflexivity). destruct (existsb _ cs); [reflexivity|].
    rewrite (existsb_map_comm _ (fun c => match snd c with None => true | _ => false end)) by reflexivity. destruct (existsb _ cs); [reflexivity|]. rewrite update_swap. destruct (pos_update p _); cbn [rmap]; [|reflexivity]. apply set_pos_swap.
Qed.
Lemma number_swap v : num_of_value (swap_value v) = num_of_value v. Proof. destruct v; reflexivity. Qed.
Lemma axis_of_swap l : axis_of_letter (swap_letter l) = option_map swap_axis (axis_of_letter l). Proof. destruct l; reflexivity. Qed.
Lemma exists_filter {A B} (p : B -> bool) (g : A -> B) f l : existsb p (map g (filter f l)) = existsb (fun a => f a && p (g a)) l.
Proof. induction l as [|x l IH]; [reflexivity|]. cbn. destruct (f x); cbn; rewrite IH; reflexivity. Qed.
Lemma letters_spec m l : existsb (letter_eqb l) (axis_letters m) = match axis_of_letter l with Some a => vget (m_axes m) a | None => false end.
Proof. unfold axis_letters. rewrite exists_filter. destruct l; cbn; rewrite ?andb_false_r, ?andb_true_r, ?orb_false_r; reflexivity. Qed.
Lemma coords_swap m g : gcode_coords (swap_machine m) (swap_gcode g) = map swap_coord (gcode_coords m g).
Proof.
  unfold gcode_coords, get_param_dict. cbn [swap_gcode gparams].
  rewrite (filter_map_comm _ (fun kv => existsb (letter_eqb (wletter (snd kv))) (axis_letters m))).
  - rewrite map_map. cbn [snd swap_word wletter wvalue]. set (l := filter _ (gparams g)).
    replace (map (fun x => (swap_letter (wletter (snd x)), swap_value (wvalue (snd x)))) l) with (map (fun kv => (swap_letter (fst kv), swap_value (snd kv))) (map (fun kv : letter * word => (wletter (snd kv), wvalue (snd kv))) l)) by (rewrite map_map; reflexivity).
    rewrite (dupdate_both letter_eqb swap_letter swap_value letter_eqb_swap _ []). induction (dupdate letter_eqb [] _) as [|[k v] d IH]; [reflexivity|]. cbn [map flat_map fst snd]. rewrite IH, axis_of_swap, number_swap, map_app. destruct (axis_of_letter k); reflexivity.
  - intros [k w]. cbn [snd swap_word wletter]. rewrite !letters_spec, axis_of_swap. destruct (axis_of_letter (wletter w)); cbn [option_map]; [|reflexivity]. cbn [swap_machine m_axes]. apply vget_swap.
Qed.
Lemma repeat_swap n cs : forall m, repeat_step n (move_to (map swap_coord cs)) (swap_machine m) = swap_out (repeat_step n (move_to cs) m).
Proof.
  induction n as [|n IH]; intros m; [reflexivity|]. cbn [repeat_step]. unfold then_step. rewrite move_swap. destruct (move_to cs m) as [m' [u|e]]; cbn [swap_out fst snd]; [apply IH|reflexivity].
Qed.
Lemma getattr_swap g l : swap_letter l = l -> gcode_getattr (swap_gcode g) l = rmap (option_map swap_value) (gcode_getattr g l).
Proof. intros L. unfold gcode_getattr. cbn [swap_gcode gcls]. destruct (accepts (gcls g) l); [|reflexivity]. rewrite <- L at 1. rewrite pget_swap. destruct (pget (gparams g) l); reflexivity. Qed.
Lemma level_axis c l : ~ tilted c -> normal_axis c = Some (Some l) -> l = LZ.
Proof. unfold tilted. destruct c; vm_compute; intros N E; try discriminate E; try (injection E as <-; reflexivity); destruct N; auto. Qed.
Lemma canned_swap g m : level_machine m -> canned_process (swap_gcode g) (swap_machine m) = swap_out (canned_process g m).
Proof.
  intros L. unfold canned_process. rewrite coords_swap. cbn [swap_machine m_mode]. fold (swap_machine m). rewrite !get_modes.
  assert (R : match option_map swap_gcode (gm_get (m_mode m) MG_canned_cycles_return) with Some r => subclass (gcls r) GCodeCannedCycleReturnToR | None => false end = match gm_get (m_mode m) MG_canned_cycles_return with Some r => subclass (gcls r) GCodeCannedCycleReturnToR | None => false end) by (destruct (gm_get (m_mode m) MG_canned_cycles_return); reflexivity). rewrite R. clear R.
  destruct (gm_get (m_mode m) MG_plane_selection) as [pl|] eqn:P; cbn [option_map]; [|reflexivity]. cbn [swap_gcode gcls]. destruct (normal_axis (gcls pl)) as [na|] eqn:N; [|reflexivity].
  rewrite !(getattr_swap g) by reflexivity. set (coords := gcode_coords m g).
  assert (GO : forall cs, match rmap (option_map swap_value) (gcode_getattr g LL) with Raise e => (swap_machine m, Raise e) | Ok l => repeat_step (Z.to_nat (match l with Some (VInt z) => if (z <=? 0)%Z then 1%Z else z | _ => 1%Z end)) (move_to (map swap_coord cs)) (swap_machine m) end =
    swap_out (match gcode_getattr g LL with Raise e => (m, Raise e) | Ok l => repeat_step (Z.to_nat (match l with Some (VInt z) => if (z <=? 0)%Z then 1%Z else z | _ => 1%Z end)) (move_to cs) m end)).
  { intros cs. destruct (gcode_getattr g LL) as [[[q|z|s]|]|e]; cbn [rmap option_map swap_value]; try apply repeat_swap; reflexivity. }
  destruct (match gm_get (m_mode m) MG_canned_cycles_return with Some r => subclass (gcls r) GCodeCannedCycleReturnToR | None => false end).
  - destruct (gcode_getattr g LR) as [r|e]; cbn [rmap]; [|reflexivity]. destruct na as [l|]; [|destruct (gcode_getattr g LL); reflexivity]. rewrite (level_axis (L _ P) N). cbn [axis_of_letter].
    assert (D : forall x, dset axis_eqb (map swap_coord coords) AZ x = map swap_coord (dset axis_eqb coords AZ x)) by (intros x; exact (dset_both axis_eqb swap_axis (fun x : option Qc => x) axis_eqb_swap coords AZ x)). rewrite D.
    destruct r as [v|]; cbn [option_map]; rewrite ?number_swap; apply GO.
  - destruct na as [l|]; [|apply GO]. rewrite (level_axis (L _ P) N). cbn [axis_of_letter].
    assert (D : dpop axis_eqb (map swap_coord coords) AZ = map swap_coord (dpop axis_eqb coords AZ)) by exact (dpop_both axis_eqb swap_axis (fun x : option Qc => x) axis_eqb_swap coords AZ). rewrite D. apply GO.
Qed.

End WithArith.
