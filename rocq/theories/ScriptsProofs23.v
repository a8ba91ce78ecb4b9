(** Lemmas for C99: what the preamble of pygcode-crop restores of numbers of any decimals. *)
From Coq Require Import Ascii Bool Arith ZArith QArith Qcanon Qabs Permutation Lia Lqa String List.
From Verif Require Import Base Num Words GTable GCode Line Position Machine Transform BaseFacts NumFacts WordOrder ArithSpec WordsSpec WordsProofs WordsProofs2 LineSpec CommentProofs CleanProofs CleanProofs2 PropsLine PrintSpec PrintProofs PrintProofs2 PropsPrint GCodeSpec GCodeProofs GTableProofs GCodeProofs2 PropsGCode BlockSpec BlockProofs LineProofs PropsBlock PosSpec PosProofs ModeSpec ModeProofs MachSpec MachProofs MachProofs2 MachProofs3 PropsMach PropsMach3 SimSpec SimProofs TransSpec TransProofs TransProofs2
  Scripts ScriptsSpec ScriptsSpec2 ScriptsSpec3 ScriptsProofs ScriptsProofs4 ScriptsProofs5 ScriptsProofs6 ScriptsProofs7 ScriptsProofs8 ScriptsSpec12 ScriptsProofs21 ScriptsProofs22 ScriptsSpec13.
Import ListNotations.
Local Open Scope nat_scope.

Section WithArith.
Context {ar : Arith} (acc : accurate ar) (MO : monotone ar) (ID : idempotent ar).

(** ** words as they are read back *)
Definition back (w : word) : word := match text2words (word_str w) with Ok [w'] => w' | _ => w end.
Definition any (_ _ : word) : Prop := True.
Lemma back_reads w : legible_word w -> read_as any w (back w).
Proof.
  intros [[SV|(x & K & V & B)] _]; unfold back.
  - pose proof (survives_reads w SV) as T. rewrite T. split; auto. split; [exact I|]. auto.
  - destruct w as [l v]. cbn [wletter wvalue] in *. subst v. destruct (C06_error ar l x acc K B) as (y & T & _). rewrite T. split; auto. split; [exact I|]. auto.
Qed.
Lemma back_readable w : legible_word w -> readable (back w).
Proof.
  intros [[SV|(x & K & V & B)] P]; unfold back.
  - rewrite (survives_reads w SV). split; auto.
  - destruct w as [l v]. cbn [wletter wvalue] in *. subst v. destruct (float_prints acc l x K B) as (s & d & E & V1 & V2 & _ & _ & X0 & SAME).
    assert (T : text2words (word_str (Word l (VFloat x))) = Ok [Word l (VFloat (rnd d))]) by (rewrite E; apply single_reads; auto; rewrite K; auto). rewrite T. split; [|intros s' H; discriminate H].
    assert (Z : (rhe (this x * 1000) = 0)%Z \/ ((0 <= this x)%Q \/ (rhe (this x * 1000) <> 0)%Z)) by (destruct (Z.eq_dec (rhe (this x * 1000)) 0); auto). destruct Z as [Z|Z].
    + rewrite X0 by (rewrite Z; reflexivity). rewrite Z. apply float_survives; auto. reflexivity.
    + exists s. cbn [wletter wvalue]. rewrite K. auto.
Qed.
Lemma back_letter w : legible_word w -> wletter (back w) = wletter w. Proof. intros L. apply (back_reads w L). Qed.
Lemma back_back w : legible_word w -> reads_back w (back w).
Proof. intros L. destruct (back_reads w L) as (A & _ & T & [E|K]); split; auto. Qed.
Lemma back_wf w : legible_word w -> word_wf (back w). Proof. intros L. eapply prints_as_wf. apply (back_reads w L). Qed.
(** printed words and the words read back make the same line *)
Lemma line_words_as ws ws' : ws <> [] -> Forall2 (read_as any) ws ws' -> Forall (fun w => forall x, wvalue w = VStr x -> Forall plain x) ws -> name_last ws ->
  mk_line (join [space] (map word_str ws)) = do (gs, rest) <- words2gcodes ws'; do _ <- assert_gcodes [] [] gs; Ok (Line (Block ws' gs rest) None None).
Proof.
  intros NE RB F NL. set (s := join [space] (map word_str ws)).
  assert (PL : Forall (fun w => Forall plain (word_str w)) ws). { eapply Forall_impl; [|exact F]. intros w H. apply word_str_plain. auto. }
  assert (VI : Forall (fun w => w <> [] /\ Forall (fun c => ~ blank c) w) (map word_str ws)).
  { apply Forall_forall. intros x I. apply in_map_iff in I as (w & <- & I). split; [discriminate|]. rewrite Forall_forall in PL. eapply Forall_impl; [|apply (PL w I)]. intros a [A _]. auto. }
  assert (CA : Forall calm s). { apply join_calm. apply Forall_map. eapply Forall_impl; [|exact PL]. intros w H. eapply Forall_impl; [|exact H]. left. auto. }
  assert (NI : forall x, In x (newline :: t "();%") -> ~ In x s) by (intros x I; eapply calm_not; eauto).
  assert (EV : ends_visible s).
  { destruct (join_ends _ VI) as [E|(p & c & E & C)].
    - destruct ws as [|w ws]; [congruence|]. destruct ws; discriminate E.
    - right. exists p, c. unfold s. rewrite E. auto. }
  assert (LP : line_parts s = Ok (s, None)). { apply line_parts_iff. rewrite <- (app_nil_r s) at 1. apply ls_plain; auto; apply NI; vm_compute; tauto. }
  assert (SL : split_line s = (s, None)).
  { rewrite <- (app_nil_r s) at 1. apply C12_no_comment; auto; try (apply NI; vm_compute; tauto). intros a z E _. apply (NI "("%char); [vm_compute; tauto|]. rewrite E. apply in_app_iff. right. left. auto. }
  unfold mk_line. rewrite LP. cbn [bind]. rewrite SL, mk_block_clean.
  assert (CL : clean_text s = join [space] (map word_str ws)) by (apply clean_text_fields; apply (fields_join (map word_str ws) VI []); constructor).
  assert (TW : text2words (join [space] (map word_str ws)) = Ok ws') by (apply spelling_text2words; apply (spelling_join (S := any) ws ws') with (b := []); auto).
  rewrite CL, TW. cbn [bind]. destruct (words2gcodes ws') as [[gs rest]|]; cbn [bind]; auto. destruct (assert_gcodes [] [] gs); reflexivity.
Qed.
Lemma reads_alike ws : Forall legible_word ws -> Forall (fun w => letter_kind (wletter w) <> KText) ws -> mk_line (join [space] (map word_str ws)) = mk_line (join [space] (map word_str (map back ws))).
Proof.
  intros L N. destruct ws as [|w0 ws0] eqn:E0; [reflexivity|]. rewrite <- E0 in *. assert (NE : ws <> []) by (rewrite E0; discriminate). clear E0 w0 ws0.
  assert (R : Forall2 (read_as any) ws (map back ws)). { clear -L acc. induction L as [|w ws L1 L IH]; cbn [map]; constructor; auto. apply back_reads; auto. }
  assert (R' : Forall2 (read_as any) (map back ws) (map back ws)).
  { clear -L acc. induction L as [|w ws L1 L IH]; cbn [map]; constructor; auto. pose proof (back_readable w L1) as [SV _]. split; auto. split; [exact I|]. split; [apply survives_reads; auto|auto]. }
  rewrite (line_words_as ws (map back ws) NE R); [|eapply Forall_impl; [|exact L]; intros w [_ H]; exact H|apply name_last_none; auto].
  rewrite (line_words_as (map back ws) (map back ws)); auto.
  - intros H. apply map_eq_nil in H. auto.
  - apply Forall_map. eapply Forall_impl; [|exact L]. intros w H. apply (back_readable w H).
  - apply name_last_none. apply Forall_map. rewrite Forall_forall in *. intros w I. rewrite back_letter; auto.
Qed.

(** ** gcodes *)
Definition gback (g : gcode) : gcode := MkGCode (gcls g) (back (gword g)) (map (fun kv => (fst kv, back (snd kv))) (gparams g)) (gwhite g).
Definition gcode_words (g : gcode) : list word := gword g :: map snd (sorted_params (gparams g)).
Lemma gcode_str_words g : gwhite g = false -> gcode_str g = join [space] (map word_str (gcode_words g)).
Proof.
  intros W. unfold gcode_str, gcode_words. rewrite W. destruct (gparams g) as [|kv d] eqn:E; [cbn; rewrite app_nil_r; reflexivity|]. rewrite <- E. cbn [map].
  assert (X : map (fun kv => word_str (snd kv)) (sorted_params (gparams g)) = map word_str (map snd (sorted_params (gparams g)))) by (rewrite map_map; reflexivity). rewrite X.
  destruct (map snd (sorted_params (gparams g))) as [|w ws] eqn:Y; [|reflexivity]. exfalso. apply map_eq_nil in Y. assert (P : Permutation (sorted_params (gparams g)) (gparams g)) by apply sort_perm. rewrite Y, E in P. apply Permutation_nil in P. discriminate P.
Qed.
Lemma sort_image {A B} (f : A -> B) key key' l : (forall x, key' (f x) = key x) -> sort key' (map f l) = map f (sort key l).
Proof.
  intros H. induction l as [|x l IH]; auto. cbn [map sort]. rewrite IH. clear IH. induction (sort key l) as [|y r IH]; auto. cbn [map insert]. rewrite !H. destruct (key x <=? key y)%Z; auto. cbn [map]. rewrite IH. auto.
Qed.
Lemma gback_words g : gcode_words (gback g) = map back (gcode_words g).
Proof.
  unfold gcode_words, gback. cbn [gword gparams map]. f_equal. unfold sorted_params. rewrite (sort_image (fun kv : letter * word => (fst kv, back (snd kv))) (fun kv => Z.of_nat (lnum (fst kv)))) by reflexivity. rewrite !map_map. reflexivity.
Qed.
Lemma gcode_words_in g (P : word -> Prop) : Forall P (gword g :: map snd (gparams g)) -> Forall P (gcode_words g).
Proof.
  intros F. inversion F as [|? ? F1 F2]; subst. constructor; auto. rewrite Forall_forall in *. intros w I. apply F2. apply in_map_iff in I as (kv & <- & I). apply in_map. eapply Permutation_in; [apply sort_perm|exact I].
Qed.
Lemma line_alike gs : Forall (fun g => gwhite g = false) gs -> Forall (fun g => Forall (fun w => legible_word w /\ letter_kind (wletter w) <> KText) (gword g :: map snd (gparams g))) gs ->
  mk_line (join [space] (map gcode_str gs)) = mk_line (join [space] (map gcode_str (map gback gs))).
Proof.
  intros WH F. assert (X : forall hs, Forall (fun g => gwhite g = false) hs -> join [space] (map gcode_str hs) = join [space] (map word_str (flat_map gcode_words hs))).
  { clear. intros hs W. rewrite flat_map_concat_map, concat_map, map_map. rewrite <- (join_concat [space] (map (fun x => map word_str (gcode_words x)) hs)).
    - f_equal. rewrite map_map. induction W as [|g hs W1 W IH]; cbn [map]; auto. rewrite IH, gcode_str_words; auto.
    - apply Forall_forall. intros x I. apply in_map_iff in I as (g & <- & _). discriminate. }
  rewrite (X gs WH), X by (apply Forall_map; eapply Forall_impl; [|exact WH]; intros g H; exact H).
  assert (Y : flat_map gcode_words (map gback gs) = map back (flat_map gcode_words gs)) by (clear; induction gs as [|g gs IH]; auto; cbn [map flat_map]; rewrite map_app, gback_words, IH; auto). rewrite Y.
  assert (Z : Forall (fun w => legible_word w /\ letter_kind (wletter w) <> KText) (flat_map gcode_words gs)).
  { clear -F. induction F as [|g gs F1 F IH]; cbn [flat_map]; [constructor|]. apply Forall_app. split; auto. apply gcode_words_in; auto. }
  apply reads_alike; (eapply Forall_impl; [|exact Z]); intros w [A B]; auto.
Qed.
Lemma gback_wf g : gcode_wf g -> Forall legible_word (gword g :: map snd (gparams g)) -> gcode_wf (gback g).
Proof.
  intros ((L & N) & P & W & WP) F. inversion F as [|? ? F1 F2]; subst.
  assert (FP : forall kv, In kv (gparams g) -> legible_word (snd kv)) by (rewrite Forall_forall in F2; intros kv I; apply F2, in_map; auto).
  split; [split|split; [|split]].
  - cbn [gback gparams gcls]. apply Forall_map. rewrite Forall_forall in *. intros kv I. cbn [fst snd]. rewrite back_letter by auto. apply (L kv I).
  - cbn [gback gparams]. rewrite map_map. exact N.
  - unfold proper. cbn [gback gword gcls]. rewrite (prints_as_class acc (gword g) (back (gword g)) W (back_wf _ F1) (back_reads _ F1)). exact P.
  - cbn [gback gword]. apply back_wf; auto.
  - cbn [gback gparams]. apply Forall_map. apply Forall_forall. intros kv I. cbn [snd]. apply back_wf; auto.
Qed.
Lemma dget_image (f : word -> word) (d : dict letter word) l : dget letter_eqb (map (fun kv => (fst kv, f (snd kv))) d) l = option_map f (dget letter_eqb d l).
Proof. induction d as [|[k v] d IH]; auto. cbn [map dget fst snd]. destruct (letter_eqb l k); auto. Qed.

(** ** machines *)
Definition gm_map {A} (f : A -> A) (m : gmap A) : gmap A := match m with GMap v0 v1 v2 v3 v4 v5 v6 v7 v8 v9 v10 v11 v12 v13 v14 v15 v16 v17 v18 v19 v20 => GMap (option_map f v0) (option_map f v1) (option_map f v2) (option_map f v3) (option_map f v4) (option_map f v5) (option_map f v6) (option_map f v7) (option_map f v8) (option_map f v9) (option_map f v10) (option_map f v11) (option_map f v12) (option_map f v13) (option_map f v14) (option_map f v15) (option_map f v16) (option_map f v17) (option_map f v18) (option_map f v19) (option_map f v20) end.
Lemma gm_get_map {A} (f : A -> A) m mg : gm_get (gm_map f m) mg = option_map f (gm_get m mg).
Proof. destruct m, mg; reflexivity. Qed.
Definition vback (a : axis) (x : Qc) : Qc := match wvalue (back (Word (axis_letter a) (VFloat x))) with VFloat y => y | _ => x end.
Lemma axis_kind a : letter_kind (axis_letter a) = KFloat. Proof. destruct a; reflexivity. Qed.
Lemma axis_legible a (x : Qc) : (Qabs x <= 999999)%Q -> legible_word (Word (axis_letter a) (VFloat x)).
Proof. intros B. split; [|intros s H; discriminate H]. right. exists x. split; [apply axis_kind|auto]. Qed.
Lemma vback_spec a (x : Qc) M : (Qabs x <= M)%Q -> (M <= 999999)%Q -> back (Word (axis_letter a) (VFloat x)) = Word (axis_letter a) (VFloat (vback a x)) /\ readable (Word (axis_letter a) (VFloat (vback a x))) /\ off_by (print_err M) x (vback a x) /\ float (vback a x).
Proof.
  intros B B6. assert (LG : legible_word (Word (axis_letter a) (VFloat x))) by (apply axis_legible; lra). pose proof (back_reads _ LG) as (_ & _ & T & _). pose proof (back_readable _ LG) as RD.
  destruct (read_off acc ID M (axis_letter a) x _ (axis_kind a) T B B6) as (y & E & OB). assert (V : vback a x = y) by (unfold vback; rewrite E; reflexivity). rewrite V. rewrite E in RD. split; auto. split; auto. split; auto. destruct RD as [SV _]. exact (survives_float _ _ ID SV).
Qed.
Definition pback (p : position) : position := Pos (paxes p) (punit p) (vfun (fun a => option_map (vback a) (vget (pvals p) a))).
Lemma vget_vfun {A} (f : axis -> A) a : vget (vfun f) a = f a. Proof. destruct a; reflexivity. Qed.
Lemma pback_good p : good p -> good (pback p).
Proof. intros G a. unfold pback, has. cbn [pvals paxes]. rewrite vget_vfun. rewrite <- (G a). destruct (vget (pvals p) a); cbn; split; intros H; auto; discriminate H. Qed.
Lemma pback_val p a : good p -> has p a -> pval (pback p) a = vback a (pval p a).
Proof. intros G H. unfold pval, pback. cbn [pvals]. rewrite vget_vfun. destruct (vget (pvals p) a) as [x|] eqn:E; [reflexivity|]. apply G in E. contradiction. Qed.
(** the machine with words and coordinates read back, and the same with ranges around the place *)
Definition mback (m : machine) : machine := Machine (gm_map gback (m_mode m)) (m_state m) (pback (m_abs m)) (m_min m) (pback (m_max m)) (m_axes m) (m_ignore m).
Definition spread (f : Qc -> Qc -> Qc) (r p : position) : position := Pos (paxes r) (punit r) (vfun (fun a => option_map (fun x => if vget (paxes p) a then f x (pval p a) else x) (vget (pvals r) a))).
Definition mfit (m : machine) : machine := Machine (gm_map gback (m_mode m)) (m_state m) (pback (m_abs m)) (spread qmin (m_min m) (pback (m_abs m))) (spread qmax (m_max m) (pback (m_abs m))) (m_axes m) (m_ignore m).
Lemma spread_good f r p : good r -> good (spread f r p).
Proof. intros G a. unfold spread, has. cbn [pvals paxes]. rewrite vget_vfun. rewrite <- (G a). destruct (vget (pvals r) a); cbn; split; intros H; auto; discriminate H. Qed.
Lemma spread_val f r p a : good r -> has r a -> has p a -> pval (spread f r p) a = f (pval r a) (pval p a).
Proof. intros G H Hp. unfold pval at 1, spread. cbn [pvals]. rewrite vget_vfun. unfold has in Hp. rewrite Hp. unfold pval at 2. destruct (vget (pvals r) a) as [x|] eqn:E; [reflexivity|]. apply G in E. contradiction. Qed.
Lemma gback_stored mg g : stored mg g -> Forall legible_word (gword g :: map snd (gparams g)) -> stored mg (gback g).
Proof.
  intros (A & (L & N) & C & D) F. inversion F as [|? ? F1 F2]; subst. split; [exact A|]. split; [split|split; [exact C|]].
  - cbn [gback gparams gcls]. apply Forall_map. rewrite Forall_forall in *. intros kv I. cbn [fst snd]. rewrite back_letter; [apply (L kv I)|]. apply F2, in_map; auto.
  - cbn [gback gparams]. rewrite map_map. exact N.
  - cbn [gback gparams gcls]. intros kv I. apply in_map_iff in I as (x & <- & I). cbn [fst]. auto.
Qed.
Lemma mback_mode m : sound m -> (forall mg g, gm_get (m_mode m) mg = Some g -> Forall legible_word (gword g :: map snd (gparams g))) ->
  mode_wf (gm_map gback (m_mode m)) /\ (forall mg g, gm_get (gm_map gback (m_mode m)) mg = Some g -> gcode_wf g).
Proof.
  intros (_ & _ & _ & _ & _ & W & T) F. split; intros mg g G; rewrite gm_get_map in G; destruct (gm_get (m_mode m) mg) as [h|] eqn:E; [|discriminate G| |discriminate G]; injection G as <-; [apply gback_stored|apply gback_wf]; eauto.
Qed.
Lemma mback_sound m : sound m -> recoverable m -> sound (mback m) /\ sound (mfit m).
Proof.
  intros S (_ & _ & F & _). destruct (mback_mode m S F) as [W T]. destruct S as ((A1 & A2 & A3) & (B1 & B2 & B3) & (C1 & C2 & C3) & D & E & _). split.
  - split; [split; [apply pback_good; auto|auto]|]. split; [split; [exact B1|split; [exact B2|exact B3]]|]. split; [split; [apply pback_good; auto|split; [exact C2|exact C3]]|]. split; [exact D|]. split; [exact E|]. split; [exact W|exact T].
  - split; [split; [apply pback_good; auto|auto]|]. split; [split; [apply spread_good; auto|split; [exact B2|exact B3]]|]. split; [split; [apply spread_good; auto|split; [exact C2|exact C3]]|]. split; [exact D|]. split; [exact E|]. split; [exact W|exact T].
Qed.
Lemma mfit_inside m : sound m -> inside (mfit m).
Proof.
  intros ((A1 & A2 & A3) & (B1 & B2 & B3) & (C1 & C2 & C3) & _) a x lo hi X LO HI. apply getattr_ok in X as [HX ->], LO as [_ ->], HI as [_ ->]. cbn [mfit m_abs m_min m_max] in *.
  rewrite !spread_val; auto; try (apply B2; exact HX); try (apply C2; exact HX). destruct (qmin_spec (pval (m_min m) a) (pval (pback (m_abs m)) a)) as (_ & P & _), (qmax_spec (pval (m_max m) a) (pval (pback (m_abs m)) a)) as (_ & Q & _). split; auto.
Qed.

Section Bound.
Context (M : Q) (M0 : (0 <= M)%Q) (M6 : (M <= 999999)%Q).
Notation mlike := (like_machine (wrel M)).
Notation times := (times M).
Lemma mback_keeps m : keeps m (mback m) /\ keeps m (mfit m). Proof. repeat split. Qed.
Lemma mback_absolute m : absolute m -> absolute (mback m).
Proof. intros A g G D. cbn [mback m_mode] in G. rewrite gm_get_map in G. destruct (gm_get (m_mode m) MG_distance) as [h|] eqn:E; [|discriminate G]. injection G as <-. apply (A h E D). Qed.
Lemma mback_steady m : sound m -> steady m -> spans M m -> inside m -> steady (mback m).
Proof.
  intros S (Y & C & F) SP I. split; [|split].
  - intros g G. cbn [mback m_mode m_state] in *. rewrite gm_get_map in G. destruct (gm_get (m_mode m) MG_coordinate_system) as [h|] eqn:E; [|discriminate G]. injection G as <-. cbn [gback gcls]. apply Y. exact E.
  - intros N. cbn [mback m_mode m_state] in *. rewrite gm_get_map in N. apply C. destruct (gm_get (m_mode m) MG_coordinate_system); [discriminate N|auto].
  - intros a H. cbn [mback m_abs] in *. assert (G : good (m_abs m)) by apply S. rewrite pback_val by auto. pose proof (spans_pos M m a S I SP H) as B. apply (vback_spec a _ M B M6).
Qed.
Lemma mback_restorable m : sound m -> inside m -> steady m -> (forall k, keeps m k -> no_offsets k) -> spans M m -> recoverable m -> restorable (mback m).
Proof.
  intros S I Y O SP R. pose proof (proj1 (mback_sound m S R)) as SB. pose proof (mback_steady m S Y SP I) as YB. destruct R as (R1 & R2 & R3 & R4).
  assert (GET : forall mg g, gm_get (m_mode (mback m)) mg = Some g -> exists h, gm_get (m_mode m) mg = Some h /\ g = gback h).
  { intros mg g G. cbn [mback m_mode] in G. rewrite gm_get_map in G. destruct (gm_get (m_mode m) mg) as [h|]; [|discriminate G]. injection G as <-. eauto. }
  split; [|split; [|split; [|split; [|split]]]].
  - intros g G. destruct (GET _ _ G) as (h & H & ->). apply (R1 h H).
  - intros g G. destruct (GET _ _ G) as (h & H & ->). apply (R2 h H).
  - intros mg g G. destruct (GET _ _ G) as (h & H & ->). specialize (R3 mg h H). inversion R3 as [|? ? A B]; subst. cbn [gback gword gparams]. constructor; [apply back_readable; auto|]. rewrite map_map. cbn [snd]. rewrite Forall_forall in *. intros w Iw. apply in_map_iff in Iw as (kv & <- & Iw). apply back_readable; auto. apply B, in_map; auto.
  - intros a x P. apply (steady_pos (mback m) a x SB YB (O _ (proj1 (mback_keeps m)))) in P as [H ->]. cbn [mback m_abs] in *. rewrite pback_val by (auto; apply S). apply (vback_spec a _ M); auto. exact (spans_pos M m a S I SP H).
  - intros a x H G. apply getattr_ok in G as [_ ->]. cbn [mback m_abs m_max] in *. assert (HM : has (m_max m) a) by (destruct S as (_ & _ & (_ & Q & _) & _); apply Q; exact H). rewrite pback_val by (auto; apply S). apply (vback_spec a _ M); auto. apply (SP a H).
  - intros g G. destruct (GET _ _ G) as (h & H & ->). apply (R4 h H).
Qed.

(** ** the preamble *)
Definition preamble_text (a b c : axis) (md : mode) (hi va vb vc : Qc) : list text :=
  match mode_str md with [] => [] | s => [note "machine mode before cropping"; s] end ++
  [note "traverse into position, up, over, and down"; gcode_str (rapid [(a, hi)]); gcode_str (rapid [(b, vb); (c, vc)]); gcode_str (rapid [(a, va)]); []].
Lemma preamble_form pl a0 : In (pl, a0) planes -> exists a b c, In (a, b, c) [(AZ, AX, AY); (AY, AX, AZ); (AX, AY, AZ)] /\
  forall m, sound m -> m_axes m = xyz -> no_offsets m -> steady m -> crop_plane (m_mode m) = pl ->
    crop_preamble (machine_copy m) = (preamble_text a b c (m_mode m) (pval (m_max m) a) (pval (m_abs m) a) (pval (m_abs m) b) (pval (m_abs m) c), Ok tt).
Proof.
  intros PL. exists a0, (match a0 with AX => AY | _ => AX end), (match a0 with AZ => AY | _ => AZ end). split; [destruct PL as [Q|[Q|[Q|[]]]]; injection Q as <- <-; cbn; auto|].
  intros m S X O Y CPL. destruct (C51_copy_partial ar m S) as (_ & _ & _ & _ & _ & _ & _ & CP). specialize (CP (fun a => proj1 (O a))). destruct (machine_pos_spec m S) as (p & MP & Gp & Ap & _). rewrite MP in CP. rewrite X in Ap.
  assert (HM : forall a, In a [AX; AY; AZ] -> pos_getattr (m_max m) a = Ok (pval (m_max m) a)).
  { intros a D. apply getattr_ok. split; auto. destruct S as ((_ & Aa & _) & _ & (_ & HH & _) & _). apply HH. unfold has. rewrite Aa, X. destruct D as [<-|[<-|[<-|[]]]]; reflexivity. }
  assert (HP : forall a, In a [AX; AY; AZ] -> pos_getattr p a = Ok (pval (m_abs m) a) /\ pval p a = pval (m_abs m) a).
  { intros a D. assert (G : pos_getattr p a = Ok (pval p a)) by (apply getattr_ok; split; auto; unfold has; rewrite Ap; destruct D as [<-|[<-|[<-|[]]]]; reflexivity).
    assert (PP : pos_at m a (pval p a)) by (exists p; auto). apply (steady_pos m a _ S Y O) in PP as [_ E]. rewrite <- E. auto. }
  assert (RT : forall a q v, In a [AX; AY; AZ] -> pos_getattr q a = Ok v -> rapid_to (axis_letter a) q = ([gcode_str (rapid [(a, v)])], Ok tt)).
  { intros a q v D V. unfold rapid_to. rewrite axis_of_axis_letter, V. cbn [pure pbind]. rewrite (rapid_kw1 a v D). reflexivity. }
  assert (HB : In a0 [AX; AY; AZ]) by (destruct PL as [Q|[Q|[Q|[]]]]; injection Q as _ <-; cbn; auto).
  assert (NA : normal_axis pl = Some (Some (axis_letter a0))) by (destruct PL as [Q|[Q|[Q|[]]]]; injection Q as <- <-; reflexivity).
  set (b := match a0 with AX => AY | _ => AX end). set (c := match a0 with AZ => AY | _ => AZ end).
  assert (OV : exists axs, plane_axes pl = Some axs /\ rapid_over axs p = ([gcode_str (rapid [(b, pval (m_abs m) b); (c, pval (m_abs m) c)])], Ok tt)).
  { assert (Db : In b [AX; AY; AZ]) by (destruct PL as [Q|[Q|[Q|[]]]]; injection Q as _ <-; cbn; auto). assert (Dc : In c [AX; AY; AZ]) by (destruct PL as [Q|[Q|[Q|[]]]]; injection Q as _ <-; cbn; auto). rewrite <- (proj2 (HP b Db)), <- (proj2 (HP c Dc)).
    unfold b, c. destruct PL as [Q|[Q|[Q|[]]]]; injection Q as <- <-; eexists; (split; [reflexivity|]); unfold rapid_over; rewrite Ap; reflexivity. }
  destruct OV as (axs & PA & OV). unfold crop_preamble, preamble_text. cbn [machine_copy m_mode m_max with_state]. rewrite CPL, NA.
  assert (FR : (match mode_str (m_mode m) with [] => ret tt | s => run _ <- print (note "machine mode before cropping"); print s end) = (match mode_str (m_mode m) with [] => [] | s => [note "machine mode before cropping"; s] end, Ok tt)) by (destruct (mode_str (m_mode m)); reflexivity).
  apply pbind_ok. eexists. exists tt. eexists. split; [exact FR|]. split; [|reflexivity]. apply pbind_print. eexists. split; [|reflexivity].
  apply pbind_ok. eexists. exists tt. eexists. split; [apply (RT a0 (m_max m)); auto|]. split; [|reflexivity]. apply pbind_pure. exists p. split; [exact CP|]. rewrite PA.
  apply pbind_ok. eexists. exists tt. eexists. split; [exact OV|]. split; [|reflexivity]. apply pbind_ok. eexists. exists tt. eexists. split; [apply (RT a0 p); [exact HB|apply HP; exact HB]|]. split; reflexivity.
Qed.
Lemma crop_plane_in m : (forall g, gm_get (m_mode m) MG_plane_selection = Some g -> In (gcls g) (map fst planes)) -> exists b, In (crop_plane (m_mode m), b) planes.
Proof.
  intros PL. unfold crop_plane. destruct (gm_get (m_mode m) MG_plane_selection) as [g|] eqn:G; [|exists AZ; left; reflexivity]. specialize (PL g eq_refl). cbn [map planes fst In] in PL. destruct PL as [<-|[<-|[<-|[]]]]; vm_compute; eauto 6.
Qed.
Lemma g00_back : back g00 = g00.
Proof. destruct (g00_readable acc) as [SV _]. unfold back. rewrite (survives_reads _ SV). reflexivity. Qed.
Lemma rapid_alike cs : Forall (fun c => (Qabs (this (snd c)) <= M)%Q) cs -> mk_line (gcode_str (rapid cs)) = mk_line (gcode_str (rapid (map (fun c => (fst c, vback (fst c) (snd c))) cs))).
Proof.
  intros F. destruct (g00_readable acc) as [SV PL].
  assert (E : gback (rapid cs) = rapid (map (fun c => (fst c, vback (fst c) (snd c))) cs)).
  { unfold gback, rapid. cbn [gcls gword gparams gwhite]. rewrite g00_back, !map_map. f_equal. apply map_ext_in. intros [a x] I. cbn [fst snd]. rewrite Forall_forall in F. specialize (F _ I). cbn [snd] in F. f_equal. apply (vback_spec a x M F M6). }
  rewrite <- E. pose proof (line_alike [rapid cs]) as LA. cbn [map join] in LA. apply LA; [constructor; [reflexivity|constructor]|]. constructor; [|constructor]. cbn [rapid gword gparams]. constructor; [split; [split; auto|rewrite g00_eq; discriminate]|].
  rewrite map_map. cbn [snd]. apply Forall_map. eapply Forall_impl; [|exact F]. intros [a x] B. cbn [fst snd] in *. split; [apply axis_legible; lra|]. cbn [wletter]. rewrite axis_kind. discriminate.
Qed.
Lemma mode_words m : sound m -> recoverable m -> Forall (fun g => gwhite g = false) (mode_gcodes (m_mode m)) /\ Forall (fun g => Forall (fun w => legible_word w /\ letter_kind (wletter w) <> KText) (gword g :: map snd (gparams g))) (mode_gcodes (m_mode m)).
Proof.
  intros (_ & _ & _ & _ & _ & W & T) (_ & _ & F & _). split; apply Forall_forall; intros g I; apply mode_gcodes_in in I as (mg & G); auto; [apply (W mg g G)|].
  destruct (W mg g G) as (Q & (L & _) & _). destruct (T mg g G) as (_ & P & WW & _). specialize (F mg g G). inversion F as [|? ? F1 F2]; subst. constructor.
  - split; auto. apply (modal_letter (gword g) (gcls g) mg); auto.
  - rewrite Forall_forall in *. intros w Iw. split; auto. apply in_map_iff in Iw as (kv & <- & Iw). destruct (L kv Iw) as [L1 L2]. rewrite <- L1. intros K. apply ktext_O in K. rewrite K in L2. apply accepts_iff in L2. assert (X : accepts (gcls g) LO = false) by (clear; destruct (gcls g); vm_compute; reflexivity). congruence.
Qed.
Lemma mode_gcodes_back md : mode_gcodes (gm_map gback md) = map gback (mode_gcodes md).
Proof.
  unfold mode_gcodes. induction all_mgroups as [|mg l IH]; auto. cbn [flat_map]. rewrite map_app, IH, gm_get_map. destruct (gm_get md mg); reflexivity.
Qed.
Lemma mode_str_empty md : mode_str md = [] <-> mode_gcodes md = [].
Proof.
  unfold mode_str. split; [|intros ->; reflexivity]. intros E. destruct (mode_gcodes md) as [|g gs]; auto. exfalso. cbn [map] in E. destruct gs; cbn [map join] in E; unfold gcode_str in E; destruct (gwhite g); discriminate E.
Qed.
Lemma preamble_alike a b c m : In (a, b, c) [(AZ, AX, AY); (AY, AX, AZ); (AX, AY, AZ)] -> sound m -> inside m -> m_axes m = xyz -> recoverable m -> spans M m ->
  let n := mback m in Forall2 (fun s s' => mk_line s = mk_line s') (preamble_text a b c (m_mode m) (pval (m_max m) a) (pval (m_abs m) a) (pval (m_abs m) b) (pval (m_abs m) c))
    (preamble_text a b c (m_mode n) (pval (m_max n) a) (pval (m_abs n) a) (pval (m_abs n) b) (pval (m_abs n) c)).
Proof.
  intros Q S I X R SP n. destruct (mode_words m S R) as [WH WL].
  assert (HA : forall d, In d [AX; AY; AZ] -> has (m_abs m) d). { intros d D. destruct S as ((_ & Z & _) & _). unfold has. rewrite Z, X. destruct D as [<-|[<-|[<-|[]]]]; reflexivity. }
  assert (VA : forall d, In d [AX; AY; AZ] -> pval (m_abs n) d = vback d (pval (m_abs m) d) /\ (Qabs (this (pval (m_abs m) d)) <= M)%Q) by (intros d D; split; [apply pback_val; [apply S|auto]|exact (spans_pos M m d S I SP (HA d D))]).
  assert (VM : forall d, In d [AX; AY; AZ] -> pval (m_max n) d = vback d (pval (m_max m) d) /\ (Qabs (this (pval (m_max m) d)) <= M)%Q).
  { intros d D. split; [apply pback_val; [apply S|]|apply (SP d (HA d D))]. destruct S as (_ & _ & (_ & HH & _) & _). apply HH. auto. }
  assert (D3 : In a [AX; AY; AZ] /\ In b [AX; AY; AZ] /\ In c [AX; AY; AZ]) by (destruct Q as [Q|[Q|[Q|[]]]]; injection Q as <- <- <-; cbn; auto 9). destruct D3 as (Da & Db & Dc).
  unfold preamble_text. apply Forall2_app.
  - assert (E : mode_str (m_mode n) = [] <-> mode_str (m_mode m) = []). { rewrite !mode_str_empty. cbn [n mback m_mode]. rewrite mode_gcodes_back. destruct (mode_gcodes (m_mode m)); split; intros H; auto; discriminate H. }
    assert (LN : mk_line (mode_str (m_mode m)) = mk_line (mode_str (m_mode n))). { unfold mode_str. cbn [n mback m_mode]. rewrite mode_gcodes_back. apply line_alike; auto. }
    destruct (mode_str (m_mode m)) as [|c1 s1] eqn:E1, (mode_str (m_mode n)) as [|c2 s2] eqn:E2; [constructor|pose proof (proj2 E eq_refl) as N; discriminate N|pose proof (proj1 E eq_refl) as N; discriminate N|]. constructor; [reflexivity|]. constructor; [exact LN|constructor].
  - destruct (VA a Da) as [-> Ba], (VA b Db) as [-> Bb], (VA c Dc) as [-> Bc], (VM a Da) as [-> Bm]. constructor; [reflexivity|]. constructor; [apply (rapid_alike [(a, pval (m_max m) a)]); constructor; [exact Bm|constructor]|].
    constructor; [apply (rapid_alike [(b, pval (m_abs m) b); (c, pval (m_abs m) c)]); constructor; [exact Bb|constructor; [exact Bc|constructor]]|]. constructor; [apply (rapid_alike [(a, pval (m_abs m) a)]); constructor; [exact Ba|constructor]|]. constructor; [reflexivity|constructor].
Qed.
Lemma reading_alike ls ls' : Forall2 (fun s s' => mk_line s = mk_line s') ls ls' -> forall m tr, reading m ls' tr -> reading m ls tr.
Proof.
  induction 1 as [|s s' ls ls' E F IH]; intros m tr R; auto. apply reading_step in R as (l & m1 & tr1 & L & P & R & <-). econstructor; [rewrite E; exact L|exact P|apply IH; exact R].
Qed.

(** ** the kept lines *)
Lemma gback_like mg g : stored mg g -> gcode_wf g -> Forall legible_word (gword g :: map snd (gparams g)) -> ~ is_canned g -> like_gcode (wrel M) g (gback g).
Proof.
  intros ST W F NC. inversion F as [|? ? F1 F2]; subst. split; [reflexivity|]. split.
  - split; [apply back_back; auto|]. intros C. exfalso. destruct ST as (G & _). destruct W as (_ & P & WW & _). destruct (modal_letter (gword g) (gcls g) mg acc WW P G) as [I _]. unfold coordinate_letter in C. cbn [In] in I. destruct C as [C|(a & C)].
    + rewrite C in I. repeat (destruct I as [I|I]; [discriminate I|]). contradiction.
    + rewrite C in I. destruct a; repeat (destruct I as [I|I]; [discriminate I|]); contradiction.
  - intros l. cbn [gback gparams]. rewrite dget_image. destruct (dget letter_eqb (gparams g) l) as [w|] eqn:D; cbn [option_map]; auto. apply (dget_in _ _ _ letter_eqb_eq) in D.
    assert (LW : legible_word w) by (rewrite Forall_forall in F2; apply F2; apply in_map_iff; exists (l, w); auto).
    split; [apply back_back; auto|]. intros C. exfalso. destruct ST as (_ & (LG & _) & _ & H). specialize (H _ D). cbn [fst] in H. rewrite Forall_forall in LG. destruct (LG _ D) as [E _]. cbn [fst snd] in E. rewrite <- E in C.
    assert (X : forallb (fun l => negb (existsb (letter_eqb l) (modal_param_letters (gcls g))) || subclass (gcls g) GCodeCannedCycle) (LR :: map axis_letter all_axes) = true) by (clear; destruct (gcls g); vm_compute; reflexivity).
    rewrite forallb_forall in X. assert (IL : In l (LR :: map axis_letter all_axes)) by (destruct C as [->|(a & ->)]; [left; auto|right; apply in_map; destruct a; cbn; auto 12]). specialize (X l IL).
    assert (Y : existsb (letter_eqb l) (modal_param_letters (gcls g)) = true) by (apply existsb_exists; exists l; split; auto; apply letter_eqb_eq; auto). rewrite Y in X. cbn [negb orb] in X. apply NC. apply subclass_derives. exact X.
Qed.
Lemma mode_like m mg : sound m -> recoverable m -> match gm_get (m_mode m) mg, gm_get (gm_map gback (m_mode m)) mg with None, None => True | Some g, Some g' => like_gcode (wrel M) g g' | _, _ => False end.
Proof.
  intros (_ & _ & _ & _ & _ & W & T) (R1 & _ & R3 & _). rewrite gm_get_map. destruct (gm_get (m_mode m) mg) as [g|] eqn:G; cbn [option_map]; auto. apply (gback_like mg); eauto.
  intros C. pose proof (canned_group g C) as CG. destruct (W mg g G) as (Q & _). unfold in_group in Q. assert (mg = MG_motion) by congruence. subst. apply (R1 g G C).
Qed.
Lemma unit_print : (print_err M <= unit_error M)%Q.
Proof. pose proof (unit_err M) as U. unfold tiny in U. lra. Qed.
Lemma mfit_like m : sound m -> inside m -> recoverable m -> spans M m -> mlike (unit_error M) m (mfit m).
Proof.
  intros S I R SP. split; [intros mg; exact (mode_like m mg S R)|]. do 4 (split; [reflexivity|]). intros a H. pose proof unit_print as UP.
  pose proof S as ((A1 & A2 & A3) & (B1 & B2 & B3) & (C1 & C2 & C3) & _). assert (HB : has (pback (m_abs m)) a) by exact H.
  assert (LO : has (m_min m) a) by (apply B2; exact H). assert (HI : has (m_max m) a) by (apply C2; exact H).
  assert (O1 : off_by (unit_error M) (pval (m_abs m) a) (pval (pback (m_abs m)) a)). { eapply off_by_le; [exact UP|]. rewrite pback_val by auto. apply (vback_spec a _ M); auto. exact (spans_pos M m a S I SP H). }
  assert (IN : (pval (m_min m) a <= pval (m_abs m) a)%Qc /\ (pval (m_abs m) a <= pval (m_max m) a)%Qc) by (apply (I a); apply getattr_ok; auto).
  assert (U0 : (0 <= unit_error M)%Q) by (apply Qlt_le_weak, unit_pos; auto).
  cbn [mfit m_abs m_min m_max]. split; [exact O1|]. rewrite !spread_val by auto. split.
  - rewrite <- (qmin_l _ _ (proj1 IN)) at 1. apply qmin_off; auto. apply off_by_refl; auto.
  - rewrite <- (qmax_l _ _ (proj2 IN)) at 1. apply qmax_off; auto. apply off_by_refl; auto.
Qed.
Lemma mfit_fine m : fine m -> recoverable m -> spans M m -> fine (mfit m).
Proof.
  intros (S & I & O & F) R SP. split; [apply (mback_sound m S R)|]. split; [apply mfit_inside; auto|]. split; [intros k K; apply O; exact K|]. intros a H. cbn [mfit m_abs] in *. rewrite pback_val by (auto; apply S). apply (vback_spec a _ M); auto. exact (spans_pos M m a S I SP H).
Qed.
Lemma same_line_self l : same_line l l.
Proof. split; [|auto]. induction (bgcodes (lblock l)); constructor; auto. apply same_gcode_refl. Qed.
Lemma like_same g g' g'' : legal g' -> like_gcode reads_back g g' -> same_gcode g' g'' -> like_gcode reads_back g g''.
Proof.
  intros (_ & N) (A & B & C) (A' & B' & P). split; [congruence|]. split; [rewrite <- B'; auto|]. intros l. rewrite <- (dget_perm _ letter_eqb_eq (gparams g') (gparams g'') l); auto. apply C.
Qed.
Lemma like_follows bb e m m' n : sound m' -> like_machine reads_back e m m' -> like bb m' n -> follows bb e m n.
Proof.
  intros S (A & B & C & D & E & P) ((R1 & R2 & R3 & R4 & R5) & R6). destruct S as (_ & _ & _ & _ & _ & W & _).
  split; [|split; [congruence|split; [congruence|split; [congruence|split; [rewrite <- R3; exact E|]]]]].
  - intros mg H. assert (SE : same_entry (gm_get (m_mode m') mg) (gm_get (m_mode n) mg)). { destruct (mgroup_eqb MG_motion mg) eqn:Q; [apply mgroup_eqb_eq in Q; subst mg; destruct H as [H|H]; [congruence|]; apply (R6 H)|]. apply R1. intros ->. discriminate Q. }
    specialize (A mg). unfold same_entry in SE. destruct (gm_get (m_mode m) mg) as [g|], (gm_get (m_mode m') mg) as [g'|] eqn:G', (gm_get (m_mode n) mg) as [g''|]; try contradiction; auto. eapply like_same; [apply (W mg g' G')|exact A|exact SE].
  - intros a H. rewrite <- R3. apply (P a H).
Qed.
Lemma like_motion l l' : like_line reads_back l l' -> (sets_motion l <-> existsb (fun g => match modal_group (gcls g) with Some MG_motion => true | _ => false end) (bgcodes (lblock l')) = true).
Proof.
  intros (G & _). assert (X : existsb (fun g => match modal_group (gcls g) with Some MG_motion => true | _ => false end) (bgcodes (lblock l')) = existsb (fun g => match modal_group (gcls g) with Some MG_motion => true | _ => false end) (bgcodes (lblock l))).
  { clear -G. induction G as [|g h gs hs (E & _) G IH]; cbn [existsb]; auto. rewrite IH, E. auto. }
  rewrite X. split; [intros H; apply motion_exists; exact H|]. intros H. apply existsb_exists in H as (g & Ig & H). exists g. split; auto. unfold in_group. destruct (modal_group (gcls g)) as [[]|]; try discriminate H. reflexivity.
Qed.
Lemma same_block bb s l m m' m1 : sound m -> inside m -> sound m' -> inside m' -> like bb m m' -> mk_line s = Ok l -> (bb = true \/ bmodal (lblock l) = []) -> process_block (lblock l) m = (m1, Ok tt) ->
  exists m1', process_block (lblock l) m' = (m1', Ok tt) /\ sound m1 /\ inside m1 /\ sound m1' /\ inside m1' /\
    like (bb || existsb (fun g => match modal_group (gcls g) with Some MG_motion => true | _ => false end) (bgcodes (lblock l))) m1 m1'.
Proof.
  intros S I S' I' LK L B P. destruct (like_between bb m m' S I S' LK) as (n & SM & NR & Sn & In_).
  pose proof (process_block_same l l s m n L (same_line_self l) S I Sn In_ SM) as [X Y]. rewrite P in X, Y. destruct (process_block (lblock l) n) as [n1 r] eqn:Pn. cbn [fst snd] in X, Y. subst r.
  destruct (mk_line_block _ _ L) as (bs & MB). destruct (mk_block_wf _ _ _ MB) as [WF WW].
  destruct (process_gcodes_near bb (bgcodes (lblock l)) (bmodal (lblock l)) n m' n1 WF WW B Sn S' NR Pn) as (m1' & P' & N' & _ & _). exists m1'. split; [exact P'|].
  destruct (line_keeps l s m m1 L S I P) as [S1 I1]. destruct (line_keeps l s m' m1' L S' I' P') as [S1' I1']. do 4 (split; auto). eapply same_near; [exact Y|exact N'].
Qed.
Lemma kept_trails file : forall bb k m b m' tr' n, rounded M k m b tr' -> reading m' file tr' -> sound m' -> inside m' -> sound n -> inside n -> like bb m' n -> (bb = true \/ names_motion (map fst b)) ->
  exists b', reading n file b' /\ trails M bb k m b b'.
Proof.
  induction file as [|s r IH]; intros bb k m b m' tr' n RD R S' I' Sn In_ LK NM.
  - apply reading_empty in R. subst. inversion RD; subst. exists []. split; constructor.
  - apply reading_step in R as (l' & m1' & tr1' & L & P & R & <-). inversion RD as [|? ? l m1 tr1 ? ? ? gs j BG ST LL LM RD']; subst. cbn [map fst] in NM.
    assert (B : bb = true \/ bmodal (lblock l') = []). { destruct NM as [NM|NM]; auto. right. destruct LL as (_ & F & _). assert (BM : bmodal (lblock l) = []) by (inversion NM; auto). rewrite BM in F. inversion F. auto. }
    destruct (same_block bb s l' m' n m1' S' I' Sn In_ LK L B P) as (n1 & Pn & S1 & I1 & Sn1 & In1 & LK1). set (bb' := bb || _) in LK1.
    assert (IFF : bb' = true <-> bb = true \/ sets_motion l) by (unfold bb'; rewrite orb_true_iff, (like_motion l l' LL); tauto).
    assert (NM' : bb' = true \/ names_motion (map fst tr1)). { destruct NM as [NM|NM]; [left; apply IFF; auto|]. inversion NM; subst; auto. left. apply IFF. right. auto. }
    destruct (IH bb' (k + j) m1 tr1 m1' tr1' n1 RD' R S1 I1 Sn1 In1 LK1 NM') as (b' & Rb & TR). exists ((l', n1) :: b'). split; [econstructor; [exact L|exact Pn|exact Rb]|].
    econstructor; [exact BG|exact ST|exact LL|exact IFF| |exact TR]. eapply like_follows; [exact S1|exact LM|exact LK1].
Qed.
(** ** together *)
Lemma approaches_end m0 m a top tr : approaches m0 m a top tr -> approaches m0 (after m0 tr) a top tr.
Proof.
  intros (fr & l1 & n1 & l2 & n2 & l3 & n3 & l4 & -> & F & P1 & (P2 & Q2) & P3). exists fr, l1, n1, l2, n2, l3, n3, l4. split; [reflexivity|]. split; [exact F|]. split; [exact P1|].
  assert (E : after m0 (fr ++ [(l1, n1); (l2, n2); (l3, n3); (l4, n3)]) = n3) by (rewrite after_app, !after_cons; reflexivity). rewrite E. split; [split; [exact P2|]|intros b x; reflexivity].
  intros b N x. rewrite (Q2 b N x). symmetry. apply P3.
Qed.
Theorem preamble_recovers m0 m : null_machine = Ok m0 -> fine m -> steady m -> keeps m0 m -> absolute m -> recoverable m -> spans M m ->
  exists pre tr, crop_preamble (machine_copy m) = (pre, Ok tt) /\ reading m0 pre tr /\ resumed (mfit m) (after m0 tr) /\ rapid_mode (after m0 tr) /\ sound (after m0 tr) /\ inside (after m0 tr) /\
    forall a, upright m a -> exists top, off_by (unit_error M) (pval (m_max m) a) top /\ approaches m0 (after m0 tr) a top tr.
Proof.
  intros E0 F Y K A R SP. pose proof F as (S & I & O & FL). pose proof (null_steady m0 acc E0) as (_ & _ & _ & _ & X0 & _). assert (X : m_axes m = xyz) by (destruct K; congruence).
  destruct (crop_plane_in m) as (a0 & PL); [apply R|]. destruct (preamble_form (crop_plane (m_mode m)) a0 PL) as (a & b & c & Q & FORM).
  pose proof (proj1 (mback_sound m S R)) as SB. pose proof (mback_steady m S Y SP I) as YB. pose proof (mback_restorable m S I Y O SP R) as RB.
  assert (KB : keeps m0 (mback m)) by exact K. assert (OB : no_offsets (mback m)) by (apply O; repeat split).
  pose proof (FORM m S X (O m (keeps_refl m)) Y eq_refl) as P. assert (CPL : crop_plane (m_mode (mback m)) = crop_plane (m_mode m)) by (unfold crop_plane; cbn [mback m_mode]; rewrite gm_get_map; destruct (gm_get (m_mode m) MG_plane_selection); reflexivity).
  pose proof (FORM (mback m) SB X OB YB CPL) as PB. pose proof (preamble_alike a b c m Q S I X R SP) as AL. cbv zeta in AL.
  destruct (preamble_restores m0 (mback m) _ acc ID E0 SB YB KB (mback_absolute m A) RB PB) as (tr & RT & RM & RP & (SN & IN) & AP).
  eexists. exists tr. split; [exact P|]. split; [eapply reading_alike; [exact AL|exact RT]|]. split; [exact RM|]. split; [exact RP|]. split; [exact SN|]. split; [exact IN|].
  intros d UP. assert (UB : upright (mback m) d).
  { destruct UP as [(pl & G & IP)|[G E]]; [left|right; split; auto; cbn [mback m_mode]; rewrite gm_get_map, G; reflexivity]. exists (gback pl). split; [cbn [mback m_mode]; rewrite gm_get_map, G; reflexivity|exact IP]. }
  exists (pval (m_max (mback m)) d). split; [|eapply approaches_end; apply AP; exact UB].
  assert (H : has (m_abs m) d) by (destruct S as ((_ & Z & _) & _); unfold has; rewrite Z, X; destruct UP as [(pl & _ & IP)|[_ ->]]; [cbn [In planes] in IP; destruct IP as [IP|[IP|[IP|[]]]]; injection IP as _ <-; reflexivity|reflexivity]).
  assert (HM : has (m_max m) d) by (destruct S as (_ & _ & (_ & HH & _) & _); apply HH; exact H). cbn [mback m_max]. rewrite pback_val by (auto; apply S). eapply off_by_le; [exact unit_print|]. apply (vback_spec d _ M); auto. apply (SP d H).
Qed.
End Bound.
End WithArith.
