(** Properties C88, C89: the argument types of pygcode-norm. *)
From Coq Require Import Ascii String List Bool Arith ZArith QArith Qcanon Permutation Lia.
From Verif Require Import Base Num BaseFacts Regex Words WordsSpec WordsProofs WordOrder PrintSpec PrintProofs GTable GCode GCodeSpec GCodeProofs Line LineSpec Float64 ModeSpec MachSpec Scripts ScriptsSpec ScriptArgs ScriptArgsSpec ScriptsProofs11.
From Verif Require Arc.
Import ListNotations.
Local Open Scope nat_scope.

(** ** C88: --arc_lin_method *)
(** the methods for both directions, when the pattern was found *)
Lemma lin_value {ar : Arith} s m : search RE_LIN s = Some m ->
  (forall c, mcaps m = [(1, [c])] -> arc_lin_method_type s = (do k <- lin_class [c]; Ok (Methods (dset word_eqb [(arc_word 2, k)] (arc_word 3) k)))) /\
  (forall c d, mcaps m = [(1, [c]); (2, [d])] -> arc_lin_method_type s = (do k <- lin_class [c]; do n <- lin_class [d]; Ok (Methods (dset word_eqb (dset word_eqb [(arc_word 2, k)] (arc_word 3) k) (arc_word 3) n)))).
Proof.
  intros E. assert (N : s <> []) by (intros ->; discriminate E). assert (X : arc_lin_method_type s = match search RE_LIN s with None => Raise EArgumentTypeError | Some m => match Regex.group m 1 with
    | None => Raise EKeyError
    | Some g2 => do w2 <- mk_word_str (t "g2"); do c2 <- lin_class g2; do w3 <- mk_word_str (t "g3"); do c3 <- lin_class g2;
      let d := dset word_eqb (dset word_eqb [] w2 c2) w3 c3 in
      match Regex.group m 2 with Some ((_ :: _) as g3) => do c <- lin_class g3; Ok (Methods (dset word_eqb d w3 c)) | _ => Ok (Methods d) end end end) by (destruct s; [congruence|reflexivity]).
  rewrite X, E, word_g2, word_g3. unfold Regex.group. split; intros.
  - rewrite H. change (dget Nat.eqb [(1, [c])] 1) with (Some [c]). change (dget Nat.eqb [(1, [c])] 2) with (@None text). cbn [bind]. destruct (lin_class [c]); reflexivity.
  - rewrite H. change (dget Nat.eqb [(1, [c]); (2, [d])] 1) with (Some [c]). change (dget Nat.eqb [(1, [c]); (2, [d])] 2) with (Some [d]). cbn [bind]. destruct (lin_class [c]); reflexivity.
Qed.
Lemma iom_method c k : method_char c k -> is_iom c = true. Proof. intros []; reflexivity. Qed.
(** clockwise arcs get the first method, the others the second one or the first if there is one only *)
Theorem C88_accepted : forall (ar : Arith) (s : text) (cw ccw : Arc.arc_method), accurate ar -> lin_arg s cw ccw ->
  exists d, arc_lin_method_type s = Ok d /\
    forall g, gcode_wf g -> (gcls g = GCodeArcMoveCW -> lin_method d (gword g) = Ok cw) /\ (gcls g = GCodeArcMoveCCW -> lin_method d (gword g) = Ok ccw).
Proof.
  intros ar s cw ccw acc L.
  assert (P : s = [] /\ cw = Arc.Mid /\ ccw = Arc.Mid \/ exists c e, (e = [] \/ e = [newline]) /\ method_char c cw /\ ((s = c :: e /\ ccw = cw) \/ exists d, method_char d ccw /\ s = c :: ","%char :: d :: e)).
  { destruct L as [L|(s' & N & -> & L)]; inversion L; subst; try congruence; auto; right.
    - exists c, []. eauto 6.
    - exists c, []. eauto 8.
    - exists c, [newline]. eauto 6.
    - exists c, [newline]. split; auto. split; auto. right. exists d. auto. }
  destruct P as [(-> & -> & ->)|(c & e & E & C & P)]; [exists DefaultMid; split; [reflexivity|]; intros g _; split; reflexivity|].
  destruct (arc_words_differ acc) as [D1 D2].
  assert (W : forall g, gcode_wf g -> (gcls g = GCodeArcMoveCW -> gword g = arc_word 2) /\ (gcls g = GCodeArcMoveCCW -> gword g = arc_word 3)).
  { intros g W. split; intros G; [apply (class_word GCodeArcMoveCW 2 g)|apply (class_word GCodeArcMoveCCW 3 g)]; auto; vm_compute; reflexivity. }
  pose proof (iom_method c cw C) as CI. destruct P as [[-> ->]|(d & D & ->)].
  - destruct (lin_search (c :: e)) as [(m & cs & H & <- & F)|[_ F]]; [|exfalso; apply (F [(1, [c])]); exists c, e; auto 6].
    assert (Q : mcaps m = [(1, [c])]) by (apply (lin_found_fun (c :: e)); auto; exists c, e; auto 6). destruct (lin_value _ _ H) as [V _]. rewrite (V c Q). apply lin_class_ok in C. rewrite C. cbn [bind].
    eexists. split; [reflexivity|]. intros g Wg. destruct (W g Wg) as [W2 W3]. cbn [lin_method].
    split; intros G; [rewrite (W2 G)|rewrite (W3 G)]; unfold dset, dget; repeat (cbn [find fst snd map existsb app]; rewrite ?D1, ?D2, ?word_eqb_refl); reflexivity.
  - pose proof (iom_method d ccw D) as DI. destruct (lin_search (c :: ","%char :: d :: e)) as [(m & cs & H & <- & F)|[_ F]]; [|exfalso; apply (F [(1, [c]); (2, [d])]); exists c, e; split; auto; split; auto; right; exists d; auto].
    assert (Q : mcaps m = [(1, [c]); (2, [d])]) by (apply (lin_found_fun (c :: ","%char :: d :: e)); auto; exists c, e; split; auto; split; auto; right; exists d; auto). destruct (lin_value _ _ H) as [_ V]. rewrite (V c d Q). apply lin_class_ok in C, D. rewrite C. cbn [bind]. rewrite D. cbn [bind].
    eexists. split; [reflexivity|]. intros g Wg. destruct (W g Wg) as [W2 W3]. cbn [lin_method].
    split; intros G; [rewrite (W2 G)|rewrite (W3 G)]; unfold dset, dget; repeat (cbn [find fst snd map existsb app]; rewrite ?D1, ?D2, ?word_eqb_refl); reflexivity.
Qed.
Print Assumptions C88_accepted.
Lemma lin_cases {ar : Arith} s :
  (arc_lin_method_type s = Raise EArgumentTypeError /\ s <> [] /\ forall cs, ~ lin_found s cs) \/ s = [] \/
  (exists c e, is_iom c = true /\ (e = [] \/ e = [newline]) /\ s = c :: e /\ arc_lin_method_type s = (do k <- lin_class [c]; Ok (Methods (dset word_eqb [(arc_word 2, k)] (arc_word 3) k)))) \/
  (exists c d e, is_iom c = true /\ is_iom d = true /\ (e = [] \/ e = [newline]) /\ s = c :: ","%char :: d :: e /\
    arc_lin_method_type s = (do k <- lin_class [c]; do n <- lin_class [d]; Ok (Methods (dset word_eqb (dset word_eqb [(arc_word 2, k)] (arc_word 3) k) (arc_word 3) n)))).
Proof.
  destruct (lin_search s) as [(m & cs & H & <- & F)|[H F]].
  - right. right. destruct (lin_value _ _ H) as [V1 V2]. destruct F as (c & e & C & E & [[S Q]|(d & D & S & Q)]).
    + left. exists c, e. rewrite (V1 c Q). auto.
    + right. exists c, d, e. rewrite (V2 c d Q). auto 6.
  - destruct s as [|c s]; auto. left. split; [|split; [discriminate|auto]]. unfold arc_lin_method_type. rewrite H. reflexivity.
Qed.
Theorem C88_only : forall (ar : Arith) (s : text) (d : lin_methods), arc_lin_method_type s = Ok d -> exists cw ccw, lin_arg s cw ccw.
Proof.
  intros ar s d E. destruct (lin_cases s) as [[H _]|[->|[(c & e & C & Ee & -> & H)|(c & f & e & C & D & Ee & -> & H)]]].
  - congruence.
  - exists Arc.Mid, Arc.Mid. left. constructor.
  - rewrite H in E. destruct (lin_class [c]) as [k|] eqn:K; [|discriminate E]. apply lin_class_ok in K. exists k, k. destruct Ee as [->| ->]; [left; constructor; auto|]. right. exists [c]. split; [discriminate|]. split; auto. constructor; auto.
  - rewrite H in E. destruct (lin_class [c]) as [k|] eqn:K; [|discriminate E]. cbn [bind] in E. destruct (lin_class [f]) as [n|] eqn:K2; [|discriminate E]. apply lin_class_ok in K, K2. exists k, n. destruct Ee as [->| ->]; [left; constructor; auto|]. right. exists [c; ","%char; f]. split; [discriminate|]. split; auto. constructor; auto.
Qed.
Print Assumptions C88_only.
(** everything else is refused with the error argparse reports, except capital letters (refuted below) *)
Theorem C88_rejected_partial : forall (ar : Arith) (s : text), (forall cw ccw, ~ lin_arg s cw ccw) ->
  Forall (fun c => ~ In c ["I"; "O"; "M"]%char) s -> arc_lin_method_type s = Raise EArgumentTypeError.
Proof.
  intros ar s N F. assert (L : forall c, is_iom c = true -> ~ In c ["I"; "O"; "M"]%char -> exists k, method_char c k).
  { intros c C NI. unfold is_iom in C. apply existsb_exists in C as (x & I & E). apply Ascii.eqb_eq in E. subst x. cbn in I. repeat (destruct I as [<-|I]; [try (eexists; constructor); exfalso; apply NI; cbn; auto 6|]). destruct I. }
  destruct (lin_cases s) as [[H _]|[->|[(c & e & C & Ee & -> & H)|(c & f & e & C & D & Ee & -> & H)]]]; auto; exfalso.
  - apply (N Arc.Mid Arc.Mid). left. constructor.
  - inversion F; subst. destruct (L c) as (k & K); auto. apply (N k k). destruct Ee as [->| ->]; [left; constructor; auto|]. right. exists [c]. split; [discriminate|]. split; auto. constructor; auto.
  - inversion F as [|? ? F1 F2]; subst. inversion F2 as [|? ? F3 F4]; subst. inversion F4; subst. destruct (L c) as (k & K); auto. destruct (L f) as (n & K2); auto. apply (N k n). destruct Ee as [->| ->]; [left; constructor; auto|]. right. exists [c; ","%char; f]. split; [discriminate|]. split; auto. constructor; auto.
Qed.
Print Assumptions C88_rejected_partial.
(** the pattern ignores case, the table of methods does not: a capital letter ends in a KeyError, which argparse does not catch *)
Theorem C88_case_refuted : exists s, search RE_LIN s <> None /\ (forall cw ccw, ~ lin_arg s cw ccw) /\ forall (ar : Arith), arc_lin_method_type s = Raise EKeyError.
Proof.
  exists (t "I"). split; [vm_compute; discriminate|]. split.
  - intros cw ccw [L|(c & N & E & L)]; [inversion L as [|? ? M|]; inversion M|]. destruct c as [|x [|y c]]; [congruence|discriminate E|discriminate E].
  - intros ar. destruct (lin_cases (t "I")) as [(_ & _ & F)|[E|[(c & e & C & Ee & E & H)|(c & f & e & C & D & Ee & E & H)]]]; try discriminate E.
    + exfalso. apply (F [(1, ["I"%char])]). exists "I"%char, []. split; [reflexivity|]. auto.
    + injection E as <- <-. rewrite H. reflexivity.
Qed.
Print Assumptions C88_case_refuted.
Example C88_ex : lin_arg (t "i,o") Arc.Inside Arc.Outside /\ ~ (exists cw ccw, lin_arg (t "i,") cw ccw).
Proof.
  split; [left; constructor; constructor|]. intros (cw & ccw & [L|(c & N & E & L)]); [inversion L|]. destruct c as [|x [|y [|z c]]]; try discriminate E. 
Qed.

(** ** C89: lists of words *)
Theorem C89_list : forall (ar : Arith) (s : text) (ws : list word),
  word_list_type s = Ok ws <-> exists l, csv s l /\ Forall2 (fun x w => mk_word_str x = Ok w) l ws.
Proof.
  intros ar s ws. unfold word_list_type. rewrite mapr_ok. split.
  - intros F. eexists. split; [apply csv_iff; reflexivity|exact F].
  - intros (l & C & F). apply csv_iff in C. rewrite C. exact F.
Qed.
Print Assumptions C89_list.
(** every text has exactly one such list of elements *)
Theorem C89_elements : forall (s : text), exists l, csv s l /\ forall l', csv s l' -> l' = l.
Proof. intros s. destruct (csv_total s) as (l & C). exists l. split; auto. intros l' C'. apply csv_iff in C, C'. congruence. Qed.
Print Assumptions C89_elements.
(** words printed and separated by commas are read back *)
Theorem C89_back : forall (ar : Arith) (ws : list word), ws <> [] ->
  Forall (fun w => letter_kind (wletter w) <> KText /\ survives w) ws -> word_list_type (join (t ",") (map word_str ws)) = Ok ws.
Proof. intros ar ws N F. apply words_back; auto. Qed.
Print Assumptions C89_back.
(** the default of --canned_codes is the list of the codes of all canned cycles *)
Theorem C89_default : forall (ar : Arith) (ws : list word), accurate ar -> Permutation default_canned_codes ws -> word_list_type (join (t ",") (map word_str ws)) = Ok ws.
Proof.
  intros ar ws acc P. apply words_back.
  - intros ->. apply Permutation_sym, Permutation_nil in P. apply (f_equal (@List.length word)) in P. vm_compute in P. discriminate P.
  - apply Forall_forall. intros w I. apply (Permutation_in _ (Permutation_sym P)) in I. unfold default_canned_codes in I. apply in_flat_map in I as (c & _ & I). destruct (subclass c GCodeCannedCycle) eqn:S; [|destruct I]. destruct (word_key c) as [k|] eqn:K; [|destruct I]. destruct I as [<-|[]]. apply (canned_keys c); auto.
Qed.
Print Assumptions C89_default.
Example C89_ex : csv (t "G73 ,  g89") [t "G73"; t "g89"] /\ csv (t "G1,") [t "G1"; []] /\
  word_list_type (ar := binary64) (t "G73 ,  g89") = Ok [arc_word (ar := binary64) 73; arc_word (ar := binary64) 89] /\ word_list_type (ar := binary64) (t "G1,") = Raise EIndexError /\
  word_list_type (ar := binary64) (t " G1") = Raise EKeyError.
Proof.
  split; [apply csv_iff; vm_compute; reflexivity|]. split; [apply csv_iff; vm_compute; reflexivity|]. split; [|split; vm_compute; reflexivity].
  apply C89_list. exists [t "G73"; t "g89"]. split; [apply csv_iff; vm_compute; reflexivity|]. repeat constructor.
Qed.
