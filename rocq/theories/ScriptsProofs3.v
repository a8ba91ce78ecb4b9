(** The range argument of pygcode-crop: meaning. *)
From Coq Require Import Ascii String List Bool Arith ZArith QArith Qcanon Qround Lia.
From Verif Require Import Base Num BaseFacts NumFacts Regex RegexFacts Words WordsSpec WordsProofs WordOrder GTable GCode GTableProofs Line Position Machine PosSpec PosProofs Transform Scripts ScriptsSpec ScriptsProofs2.
Import ListNotations.
Local Open Scope nat_scope.

(** ** one reading only *)
Definition visible (s : text) : Prop := exists c r, s = c :: r /\ is_space c = false.
Lemma blanks_same w x w' x' : Forall blank w -> Forall blank w' -> visible x -> visible x' -> w ++ x = w' ++ x' -> w = w' /\ x = x'.
Proof.
  intros F. revert w' x'. induction F as [|c w B F IH]; intros w' x' F' (a & r & -> & V) (a' & r' & -> & V') E; destruct w' as [|c' w']; cbn [app] in E.
  - auto.
  - injection E as <- E. inversion F'; subst. unfold blank in *. congruence.
  - injection E as <- E. unfold blank in *. congruence.
  - injection E as <- E. inversion F'; subst. destruct (IH w' (a' :: r')) as [-> H]; unfold visible; eauto. 
Qed.
Lemma ends_same v w v' w' : Forall (fun c => is_space c = false) v -> Forall (fun c => is_space c = false) v' -> Forall blank w -> Forall blank w' -> v ++ w = v' ++ w' -> v = v' /\ w = w'.
Proof.
  intros F. revert v'. induction F as [|c v B F IH]; intros v' F' W W' E; destruct v' as [|c' v']; cbn [app] in E.
  - auto.
  - subst w. inversion W; subst. inversion F'; subst. unfold blank in *. congruence.
  - subst w'. inversion W'; subst. unfold blank in *. congruence.
  - injection E as <- E. inversion F'; subst. destruct (IH v') as [-> ->]; auto.
Qed.
Lemma digit_not_space c : digit c -> is_space c = false.
Proof.
  intros D. assert (G : forallb (fun c => implb (is_digit c) (negb (is_space c))) all_chars = true) by (vm_compute; reflexivity). rewrite forallb_forall in G. specialize (G c (all_chars_in c)). rewrite (proj1 (digit_iff c) D) in G. cbn [implb] in G. apply negb_true_iff in G. auto.
Qed.

Lemma in_split_first (c : ascii) s : In c s -> exists a b, s = a ++ c :: b /\ ~ In c a.
Proof.
  induction s as [|d s IH]; [intros []|]. intros I. destruct (ascii_dec d c) as [<-|N]; [exists [], s; auto|]. destruct IH as (a & b & -> & A); [destruct I; [congruence|auto]|]. exists (d :: a), b. split; auto. intros [X|X]; [congruence|auto].
Qed.
Section WithArith.
Context {ar : Arith}.
Lemma number_visible v x : number_text v x -> Forall (fun c => is_space c = false) v /\ visible v /\ exists c r, v = c :: r /\ (c = "-"%char \/ digit c).
Proof.
  intros [neg ip dot fp I N F D1 D2]. split; [|split].
  - rewrite !Forall_app. split; [destruct neg; repeat constructor|]. split; [eapply Forall_impl; [|exact I]; apply digit_not_space|]. destruct dot; [constructor; [reflexivity|eapply Forall_impl; [|exact F]; apply digit_not_space]|constructor].
  - destruct neg; [exists "-"%char; eexists; split; [reflexivity|reflexivity]|]. destruct ip as [|c ip]; [congruence|]. inversion I; subst. exists c. eexists. split; [reflexivity|]. apply digit_not_space. auto.
  - destruct neg; [exists "-"%char; eexists; split; [reflexivity|auto]|]. destruct ip as [|c ip]; [congruence|]. inversion I; subst. exists c. eexists. split; [reflexivity|]. auto.
Qed.
Lemma number_value v x : number_text v x -> py_float v = Ok x.
Proof.
  intros [neg ip dot fp I N F D1 D2]. change (sign neg ++ ip ++ dotted dot fp) with ([] ++ sign neg ++ ip ++ dotted dot fp). apply py_float_ok; auto. destruct ip; [congruence|discriminate].
Qed.
Definition op_char (c : ascii) : bool := existsb (Ascii.eqb c) (t "=!<>").
Lemma op_head o op : In (o, op) op_texts -> exists c r, o = c :: r /\ op_char c = true /\ is_space c = false.
Proof. intros I. cbn [op_texts In] in I. destruct I as [I|[I|[I|[I|[I|[I|[I|[]]]]]]]]; injection I as <- <-; do 2 eexists; repeat split. Qed.
Lemma op_unique o op op' : In (o, op) op_texts -> In (o, op') op_texts -> op = op'.
Proof.
  intros I J. cbn [op_texts In] in I, J.
  destruct I as [I|[I|[I|[I|[I|[I|[I|[]]]]]]]]; injection I as <- <-; destruct J as [J|[J|[J|[J|[J|[J|[J|[]]]]]]]]; try discriminate J; congruence.
Qed.
Definition no_op (s : text) : Prop := exists c r, s = c :: r /\ op_char c = false.
Lemma blank_not_op c : is_space c = true -> op_char c = false.
Proof.
  intros D. assert (G : forallb (fun c => implb (is_space c) (negb (op_char c))) all_chars = true) by (vm_compute; reflexivity). rewrite forallb_forall in G. specialize (G c (all_chars_in c)). rewrite D in G. cbn [implb] in G. apply negb_true_iff in G. auto.
Qed.
Lemma digit_not_op c : digit c -> op_char c = false.
Proof.
  intros D. apply digit_iff in D. assert (G : forallb (fun c => implb (is_digit c) (negb (op_char c))) all_chars = true) by (vm_compute; reflexivity). rewrite forallb_forall in G. specialize (G c (all_chars_in c)). rewrite D in G. cbn [implb] in G. apply negb_true_iff in G. auto.
Qed.
Lemma param_not_op c : is_param c = true -> op_char c = false /\ is_space c = false /\ is_digit c = false /\ c <> "-"%char.
Proof.
  intros D. assert (G : forallb (fun c => implb (is_param c) (negb (op_char c) && negb (is_space c) && negb (is_digit c) && negb (Ascii.eqb c "-"%char))) all_chars = true) by (vm_compute; reflexivity). rewrite forallb_forall in G. specialize (G c (all_chars_in c)). rewrite D in G. cbn [implb] in G.
  rewrite !andb_true_iff, !negb_true_iff in G. destruct G as [[[G1 G2] G3] G4]. repeat split; auto. intros ->. discriminate.
Qed.
Lemma tail_no_op w v x w' : Forall blank w -> number_text v x -> no_op (w ++ v ++ w').
Proof.
  intros F NT. destruct F as [|c w B F]; [|exists c; eexists; split; [reflexivity|apply blank_not_op; auto]]. apply number_visible in NT as (_ & _ & c & r & -> & C). exists c. eexists. split; [reflexivity|].
  destruct C as [-> |C]; [reflexivity|apply digit_not_op; auto].
Qed.
Lemma op_same o op r o' op' r' : In (o, op) op_texts -> In (o', op') op_texts -> no_op r -> no_op r' -> o ++ r = o' ++ r' -> o = o' /\ r = r'.
Proof.
  intros I J (c & s & -> & C) (c' & s' & -> & C') E. cbn [op_texts In] in I, J.
  destruct I as [I|[I|[I|[I|[I|[I|[I|[]]]]]]]]; injection I as <- <-; destruct J as [J|[J|[J|[J|[J|[J|[J|[]]]]]]]]; injection J as <- <-; cbn [t list_ascii_of_string app] in E; try discriminate E; injection E; intros; subst; auto; try discriminate.
Qed.
Lemma cond_text_unique s c c' : cond_text s c -> cond_text s c' -> c = c'.
Proof.
  intros H. destruct H as [w1 p l w2 o op w3 v x w4 F1 F2 F3 F4 D I NT|w1 v x w2 F1 F2 NT]; intros H; inversion H as [w1' p' l' w2' o' op' w3' v' x' w4' F1' F2' F3' F4' D' I' NT' E EC|w1' v' x' w2' F1' F2' NT' E EC]; clear H; subst c'.
  - destruct (number_visible v x NT) as (V1 & V2 & _). destruct (number_visible v' x' NT') as (V1' & V2' & _). destruct (op_head o op I) as (oc & os & Eo & O1 & O2). destruct (op_head o' op' I') as (oc' & os' & Eo' & O1' & O2').
    assert (K : l = l' /\ o ++ w3 ++ v ++ w4 = o' ++ w3' ++ v' ++ w4').
    { destruct D as [[-> ->]|(c & -> & C & L)], D' as [[-> ->]|(c' & -> & C' & L')].
      - cbn [app] in E. rewrite !app_assoc in E. rewrite <- !(app_assoc (w1' ++ w2')), <- !(app_assoc (w1 ++ w2)) in E. rewrite <- !app_assoc in E. rewrite (app_assoc w1' w2'), (app_assoc w1 w2) in E.
        apply blanks_same in E as [_ E]; [split; auto| | | |]; try (apply Forall_app; auto); [rewrite Eo'|rewrite Eo]; do 2 eexists; cbn [app]; eauto.
      - exfalso. assert (P : is_param c' = true) by (apply is_param_iff; eauto). apply param_not_op in P as (P1 & P2 & _). cbn [app] in E. rewrite (app_assoc w1 w2) in E. apply blanks_same in E as [_ E]; auto; [|apply Forall_app; auto|do 2 eexists; eauto|rewrite Eo; do 2 eexists; cbn [app]; eauto].
        rewrite Eo in E. cbn [app] in E. congruence.
      - exfalso. assert (P : is_param c = true) by (apply is_param_iff; eauto). apply param_not_op in P as (P1 & P2 & _). cbn [app] in E. rewrite (app_assoc w1' w2') in E. apply blanks_same in E as [_ E]; auto; [|apply Forall_app; auto|rewrite Eo'; do 2 eexists; cbn [app]; eauto|do 2 eexists; eauto].
        rewrite Eo' in E. cbn [app] in E. congruence.
      - assert (P : is_param c = true) by (apply is_param_iff; eauto). apply param_not_op in P as (P1 & P2 & _). assert (P' : is_param c' = true) by (apply is_param_iff; eauto). apply param_not_op in P' as (P1' & P2' & _).
        cbn [app] in E. apply blanks_same in E as [_ E]; auto; [|do 2 eexists; eauto|do 2 eexists; eauto]. injection E as <- E. apply blanks_same in E as [_ E]; auto; [|rewrite Eo'; do 2 eexists; cbn [app]; eauto|rewrite Eo; do 2 eexists; cbn [app]; eauto].
        split; auto. apply char_letter_iff in C, C'. congruence. }
    destruct K as [<- K]. apply (op_same o op _ o' op') in K as [<- K]; auto; [|eapply tail_no_op; eauto|eapply tail_no_op; eauto]. rewrite (op_unique o op op' I I').
    apply blanks_same in K as [_ K]; auto; [|destruct V2 as (? & ? & -> & ?); do 2 eexists; cbn [app]; eauto|destruct V2' as (? & ? & -> & ?); do 2 eexists; cbn [app]; eauto].
    apply ends_same in K as [<- _]; auto. apply number_value in NT, NT'. congruence.
  - exfalso. destruct (number_visible v' x' NT') as (V1' & V2' & d & r & Ev & Dv). destruct (op_head o op I) as (oc & os & Eo & O1 & O2).
    assert (K : exists c r', v' ++ w2' = c :: r' /\ (op_char c = true \/ is_param c = true)).
    { destruct D as [[-> ->]|(c & -> & C & L)].
      - cbn [app] in E. rewrite (app_assoc w1 w2) in E. apply blanks_same in E as [_ E]; auto; [|apply Forall_app; auto|destruct V2' as (? & ? & -> & ?); do 2 eexists; cbn [app]; eauto|rewrite Eo; do 2 eexists; cbn [app]; eauto]. rewrite Eo in E. cbn [app] in E. eauto.
      - assert (P : is_param c = true) by (apply is_param_iff; eauto). pose proof P as P0. apply param_not_op in P as (P1 & P2 & _). apply blanks_same in E as [_ E]; auto; [|destruct V2' as (? & ? & -> & ?); do 2 eexists; cbn [app]; eauto|do 2 eexists; cbn [app]; eauto]. cbn [app] in E. eauto. }
    destruct K as (c & r' & K & O). rewrite Ev in K. cbn [app] in K. injection K as <- _. destruct Dv as [-> |Dv]; [destruct O; discriminate|]. destruct O as [O|O]; [rewrite digit_not_op in O by auto; discriminate|]. apply param_not_op in O as (_ & _ & O & _). apply digit_iff in Dv. congruence.
  - exfalso. destruct (number_visible v x NT) as (V1' & V2' & d & r & Ev & Dv). destruct (op_head o' op' I') as (oc & os & Eo & O1 & O2).
    assert (K : exists c r', v ++ w2 = c :: r' /\ (op_char c = true \/ is_param c = true)).
    { destruct D' as [[-> ->]|(c & -> & C & L)].
      - cbn [app] in E. rewrite (app_assoc w1' w2') in E. apply blanks_same in E as [_ E]; auto; [|apply Forall_app; auto|rewrite Eo; do 2 eexists; cbn [app]; eauto|destruct V2' as (? & ? & -> & ?); do 2 eexists; cbn [app]; eauto]. rewrite Eo in E. cbn [app] in E. eauto.
      - assert (P : is_param c = true) by (apply is_param_iff; eauto). pose proof P as P0. apply param_not_op in P as (P1 & P2 & _). apply blanks_same in E as [_ E]; auto; [|do 2 eexists; cbn [app]; eauto|destruct V2' as (? & ? & -> & ?); do 2 eexists; cbn [app]; eauto]. cbn [app] in E. eauto. }
    destruct K as (c & r' & K & O). rewrite Ev in K. cbn [app] in K. injection K as <- _. destruct Dv as [-> |Dv]; [destruct O; discriminate|]. destruct O as [O|O]; [rewrite digit_not_op in O by auto; discriminate|]. apply param_not_op in O as (_ & _ & O & _). apply digit_iff in Dv. congruence.
  - destruct (number_visible v x NT) as (V1 & V2 & _). destruct (number_visible v' x' NT') as (V1' & V2' & _). apply blanks_same in E as [_ E]; auto; [|destruct V2' as (? & ? & -> & ?); do 2 eexists; cbn [app]; eauto|destruct V2 as (? & ? & -> & ?); do 2 eexists; cbn [app]; eauto].
    apply ends_same in E as [<- _]; auto. apply number_value in NT, NT'. congruence.
Qed.

(** ** one condition *)
Definition meaning (c : cond) : condition :=
  match axis_of_letter (c_var c) with Some a => cond_axis (c_op c) a (c_num c) | None => cond_number (c_op c) (c_num c) end.
Lemma op_of_text o op : In (o, op) op_texts -> cmp_of_text o = Some op.
Proof. intros I. cbn [op_texts In] in I. destruct I as [I|[I|[I|[I|[I|[I|[I|[]]]]]]]]; injection I as <- <-; reflexivity. Qed.
Lemma fractional_whole x : fractional x = false <-> whole x.
Proof.
  unfold fractional, whole. rewrite negb_false_iff, Qceqb_eq. split; [eauto|]. intros (z & ->). f_equal.
  assert (E : Qfloor (this (Qc_of_Z z)) = z); [|rewrite E; reflexivity].
  unfold Qc_of_Z. rewrite (Qfloor_comp _ (inject_Z z)); [apply Qfloor_Z|]. apply Qred_correct.
Qed.
Lemma crop_cmp_found s caps c v : found s caps c v -> forall m, mcaps m = caps ->
  (let param := match group m 1 with Some (c :: _) => letter_of_ascii c | _ => Some LN end in
      let op := match group m 2 with Some x => cmp_of_text x | None => Some CEq end in
      match param, op, group m 3 with
      | Some l, Some c, Some v =>
          do x <- py_float v;
          match l with
          | LN => if fractional x then Raise EArgumentTypeError else Ok (cond_number c x)
          | _ => match axis_of_letter l with Some a => Ok (cond_axis c a x) | None => Raise EKeyError end
          end
      | _, _, _ => Raise EKeyError
      end) = (if letter_eqb (c_var c) LN && fractional (c_num c) then Raise EArgumentTypeError else Ok (meaning c)).
Proof.
  intros [w1 p l w2 o op w3 v' x w4 cs E F1 F2 F3 F4 I NT D|w1 v' x w2 E F1 F2 NT] m Em; unfold group; rewrite Em; unfold meaning; cbn [c_var c_op c_num].
  - destruct D as [(-> & -> & ->)|(c' & -> & -> & C & L)]; cbn [app dget Nat.eqb]; rewrite (op_of_text o op I), (number_value v' x NT); cbn [bind].
    + cbn. destruct (fractional x); reflexivity.
    + apply char_letter_iff in C. rewrite C. cbn [variables In] in L. destruct L as [<-|[<-|[<-|[<-|[<-|[<-|[<-|[]]]]]]]]; cbn; reflexivity || (destruct (fractional x); reflexivity).
  - cbn [app dget Nat.eqb]. rewrite (number_value v' x NT). cbn. destruct (fractional x); reflexivity.
Qed.
Lemma crop_cmp_ok s c : ~ In newline s -> cond_text s c -> crop_cmp s = (if letter_eqb (c_var c) LN && fractional (c_num c) then Raise EArgumentTypeError else Ok (meaning c)).
Proof.
  intros NL CT. destruct (text_found s c CT) as (caps & v & Fd). assert (I : In (MRes s caps []) (mtch RE_BODY None s)) by (apply in_body; auto; eauto).
  apply search_bolm_some in I as (m & Hm). rewrite <- RE_CMP_body in Hm. unfold crop_cmp. rewrite Hm. rewrite RE_CMP_body in Hm. apply search_bolm in Hm as (m' & I & Em); auto. apply in_body in I as (_ & _ & c' & v' & Fd'); auto.
  rewrite (cond_text_unique s c c' CT (found_text _ _ _ _ Fd')). apply (crop_cmp_found _ _ _ _ Fd'); auto.
Qed.
Lemma crop_cmp_none s : ~ In newline s -> (forall c, ~ cond_text s c) -> crop_cmp s = Raise EArgumentTypeError.
Proof.
  intros NL N. unfold crop_cmp. destruct (search RE_CMP s) as [m|] eqn:Hm; auto. exfalso. rewrite RE_CMP_body in Hm. apply search_bolm in Hm as (m' & I & Em); auto. apply in_body in I as (_ & _ & c' & v' & Fd'); auto. apply (N c'). eapply found_text; eauto.
Qed.
Lemma letter_eqb_iff a b : letter_eqb a b = true <-> a = b.
Proof. apply letter_eqb_eq. Qed.
Lemma crop_cmp_iff s k : ~ In newline s -> crop_cmp s = Ok k <-> exists c, cond_text s c /\ usable c /\ k = meaning c.
Proof.
  intros NL. split.
  - intros E. destruct (search RE_CMP s) as [m|] eqn:Hm; [|unfold crop_cmp in E; rewrite Hm in E; discriminate]. rewrite RE_CMP_body in Hm. apply search_bolm in Hm as (m' & I & Em); auto. apply in_body in I as (_ & _ & c & v & Fd); auto. apply found_text in Fd.
    rewrite (crop_cmp_ok s c) in E by auto. exists c. split; auto. destruct (letter_eqb (c_var c) LN && fractional (c_num c)) eqn:B; [discriminate|]. injection E as <-. split; auto. intros V. apply fractional_whole. rewrite V in B. exact B.
  - intros (c & CT & U & ->). rewrite (crop_cmp_ok s c) by auto. destruct (letter_eqb (c_var c) LN && fractional (c_num c)) eqn:B; auto. apply andb_true_iff in B as [B1 B2]. apply letter_eqb_iff in B1. apply U in B1. apply fractional_whole in B1. congruence.
Qed.
Lemma crop_cmp_raise s e : ~ In newline s -> crop_cmp s = Raise e -> e = EArgumentTypeError.
Proof.
  intros NL E. destruct (search RE_CMP s) as [m|] eqn:Hm; [|unfold crop_cmp in E; rewrite Hm in E; congruence]. rewrite RE_CMP_body in Hm. apply search_bolm in Hm as (m' & I & Em); auto. apply in_body in I as (_ & _ & c & v & Fd); auto. apply found_text in Fd.
  rewrite (crop_cmp_ok s c) in E by auto. destruct (_ && _); congruence.
Qed.

(** ** lists of conditions *)
Lemma split_on_join sep s : s = join [sep] (split_on sep s) /\ Forall (fun p => ~ In sep p) (split_on sep s) /\ split_on sep s <> [].
Proof.
  induction s as [|c s (E & F & N)]; cbn [split_on]; [repeat split; auto; discriminate|]. destruct (Ascii.eqb c sep) eqn:B.
  - apply Ascii.eqb_eq in B. subst c. split; [|split; [auto|discriminate]]. destruct (split_on sep s) as [|x l]; [congruence|]. cbn [join app]. cbn [join] in E. rewrite E. reflexivity.
  - apply Ascii.eqb_neq in B. destruct (split_on sep s) as [|x l]; [congruence|]. inversion F; subst. split; [|split; [|discriminate]].
    + destruct l; reflexivity.
    + constructor; auto. intros [X|X]; [congruence|auto].
Qed.
Lemma split_on_no sep s : ~ In sep s -> split_on sep s = [s].
Proof. induction s as [|c s IH]; cbn [split_on]; intros N; auto. destruct (Ascii.eqb c sep) eqn:B; [apply Ascii.eqb_eq in B; subst; exfalso; apply N; cbn; auto|]. rewrite IH; auto. intros X; apply N; cbn; auto. Qed.
Lemma split_on_app sep a b : ~ In sep a -> split_on sep (a ++ sep :: b) = a :: split_on sep b.
Proof. induction a as [|c a IH]; cbn [app split_on]; intros N; [rewrite Ascii.eqb_refl; auto|]. destruct (Ascii.eqb c sep) eqn:B; [apply Ascii.eqb_eq in B; subst; exfalso; apply N; cbn; auto|]. rewrite IH; auto. intros X; apply N; cbn; auto. Qed.
Lemma join_split sep ps : Forall (fun p => ~ In sep p) ps -> ps <> [] -> split_on sep (join [sep] ps) = ps.
Proof.
  intros F N. induction F as [|p ps P F IH]; [congruence|]. destruct ps as [|q ps]; cbn [join]; [apply split_on_no; auto|]. change (split_on sep (p ++ sep :: join [sep] (q :: ps)) = p :: q :: ps). rewrite split_on_app by auto. rewrite IH by discriminate. reflexivity.
Qed.
Lemma in_split sep c s p : In p (split_on sep s) -> In c p -> In c s.
Proof.
  revert p. induction s as [|d s IH]; intros p; cbn [split_on].
  - intros [<-|[]]. auto.
  - destruct (Ascii.eqb d sep); [intros [<-|I]; [intros []|intros J; right; eauto]|]. destruct (split_on sep s) as [|x l] eqn:E.
    + intros [<-|[]] [<-|[]]. left; auto.
    + intros [<-|I] J; [destruct J as [<-|J]; [left; auto|right; apply (IH x); cbn; auto]|right; apply (IH p); cbn; auto].
Qed.
Lemma mapr_iff {A B} (f : A -> result B) l r : mapr f l = Ok r <-> Forall2 (fun a b => f a = Ok b) l r.
Proof.
  revert r. induction l as [|a l IH]; intros r; cbn [mapr].
  - split; [intros E; injection E as <-; constructor|intros H; inversion H; auto].
  - split.
    + destruct (f a) as [b|] eqn:E; cbn [bind]; [|discriminate]. destruct (mapr f l) as [r'|] eqn:E'; cbn [bind]; [|discriminate]. intros X; injection X as <-. constructor; auto. apply IH; auto.
    + intros H. inversion H as [|? b ? r' E H']; subst. rewrite E. apply IH in H'. rewrite H'. reflexivity.
Qed.
Lemma mapr_raise {A B} (f : A -> result B) l e : mapr f l = Raise e -> exists a, In a l /\ f a = Raise e.
Proof.
  induction l as [|a l IH]; cbn [mapr]; [discriminate|]. destruct (f a) as [b|] eqn:E; cbn [bind]; [|intros X; injection X as <-; exists a; cbn; auto].
  destruct (mapr f l) eqn:E'; cbn [bind]; [discriminate|]. intros X. injection X as ->. destruct IH as (a' & I & H); auto. exists a'. cbn. auto.
Qed.
Definition side_meaning (default : bool) (cs : list cond) : condition := match cs with [] => fun _ _ => Ok default | _ => all_conds (map meaning cs) end.
Lemma cmp_group_iff s d k : ~ In newline s -> cmp_group s (fun _ _ => Ok d) = Ok k <-> exists cs, side_text s cs /\ k = side_meaning d cs.
Proof.
  intros NL. unfold cmp_group. destruct s as [|c s].
  - split; [intros E; injection E as <-; exists []; split; [left; auto|reflexivity]|]. intros (cs & [[_ ->]|(ps & X & _)] & ->); [reflexivity|congruence].
  - set (s0 := c :: s) in *. assert (N0 : s0 <> []) by discriminate. split.
    + destruct (mapr crop_cmp (split_on "," s0)) as [ks|] eqn:E; cbn [bind]; [|discriminate]. intros X; injection X as <-. apply mapr_iff in E. destruct (split_on_join "," s0) as (J & F & N).
      assert (K : exists cs, Forall2 cond_text (split_on "," s0) cs /\ Forall usable cs /\ ks = map meaning cs).
      { assert (NN : forall p, In p (split_on "," s0) -> ~ In newline p) by (intros p I X; apply NL; eapply in_split; eauto). clear -E NN. induction E as [|p k ps ks E F IH]; [exists []; repeat split; constructor|].
        destruct IH as (cs & F2 & U & ->); [intros q I; apply NN; cbn; auto|]. apply crop_cmp_iff in E as (c0 & CT & Uc & ->); [|apply NN; cbn; auto]. exists (c0 :: cs). repeat split; auto. }
      destruct K as (cs & F2 & U & ->). exists cs. split; [right; exists (split_on "," s0); auto|]. destruct cs; [exfalso; apply N; destruct (split_on "," s0); [reflexivity|inversion F2]|reflexivity].
    + intros (cs & [[X _]|(ps & _ & J & F & F2 & U)] & ->); [congruence|]. assert (Nps : ps <> []) by (intros ->; cbn in J; congruence). rewrite J, join_split by auto.
      assert (NN : forall p, In p ps -> ~ In newline p) by (intros p I X; apply NL; rewrite <- (join_split "," ps) in I by auto; rewrite <- J in I; eapply in_split; eauto).
      assert (E : mapr crop_cmp ps = Ok (map meaning cs)).
      { apply mapr_iff. clear -F2 U NN. induction F2 as [|p c ps cs CT F2 IH]; [constructor|]. inversion U; subst. constructor; [apply crop_cmp_iff; [apply NN; cbn; auto|eauto]|]. apply IH; auto. intros q I; apply NN; cbn; auto. }
      rewrite E. cbn [bind]. f_equal. destruct cs; [inversion F2; congruence|reflexivity].
Qed.
Lemma cmp_group_raise s d e : ~ In newline s -> cmp_group s d = Raise e -> e = EArgumentTypeError.
Proof.
  intros NL. unfold cmp_group. destruct s as [|c s]; [discriminate|]. destruct (mapr crop_cmp (split_on "," (c :: s))) eqn:E; cbn [bind]; [discriminate|]. intros X; injection X as <-. apply mapr_raise in E as (p & I & E). apply crop_cmp_raise in E; auto. intros X. apply NL. eapply in_split; eauto.
Qed.
(** ** the range *)
Lemma not_colon_iff s : Forall (fun c => not_colon c = true) s <-> ~ In ":"%char s.
Proof.
  rewrite Forall_forall. unfold not_colon. split.
  - intros H I. apply H in I. discriminate.
  - intros H c I. apply negb_true_iff, Ascii.eqb_neq. intros ->. auto.
Qed.
Ltac known M := let co := fresh "co" in let ca := fresh "ca" in let re := fresh "re" in
  match type of M with ?m = _ => destruct m as [co ca re]; cbn [consumed captured rest] in *; injection M as -> -> end.
Lemma in_range s m : ~ In newline s -> In m (mtch (Seq (Grp 1 (Star not_colon)) (Seq (chr ":"%char) (Seq (Grp 2 (Star not_colon)) Eol))) None s) <->
  exists a b, s = a ++ ":"%char :: b /\ ~ In ":"%char a /\ ~ In ":"%char b /\ m = MRes s [(1, a); (2, b)] [].
Proof.
  intros NL. rewrite in_seq. split.
  - intros (m1 & m2 & M1 & M2 & ->). apply in_grp in M1 as (m3 & M3 & ->). apply in_star in M3 as (a & E3 & F3 & M3). known M3. cbn [consumed captured rest app] in *. apply in_seq in M2 as (m5 & m6 & M5 & M6 & ->). apply in_chr in M5 as (E5 & M5). known M5. cbn [consumed captured rest app] in *.
    apply in_seq in M6 as (m7 & m8 & M7 & M8 & ->). apply in_grp in M7 as (m9 & M9 & ->). apply in_star in M9 as (b & E9 & F9 & M9). known M9. cbn [consumed captured rest app] in *. apply in_eol in M8 as (E8 & ->). cbn [consumed captured rest app] in *.
    destruct E8 as [-> | ->]; [|exfalso; apply NL; rewrite E3, E5, E9; rewrite !in_app_iff; cbn [In]; rewrite in_app_iff; cbn; auto]. rewrite app_nil_r in E9. subst. apply not_colon_iff in F3, F9. exists a, b. rewrite app_nil_r. auto.
  - intros (a & b & E & A & B & ->). exists (MRes a [(1, a)] (":"%char :: b)), (MRes (":"%char :: b) [(2, b)] []). cbn [consumed captured rest app]. split; [apply in_grp; exists (MRes a [] (":"%char :: b)); split; auto; apply in_star; exists a; repeat split; auto; apply not_colon_iff; auto|].
    split; [|rewrite <- E; reflexivity]. apply in_seq. exists (MRes [":"%char] [] b), (MRes b [(2, b)] []). cbn [consumed captured rest app]. split; [apply in_chr; auto|]. split; auto. apply in_seq. exists (MRes b [(2, b)] []), (MRes [] [] []). cbn [consumed captured rest app]. split.
    + apply in_grp. exists (MRes b [] []). split; auto. apply in_star. exists b. cbn [rest]. rewrite app_nil_r. repeat split; auto. apply not_colon_iff; auto.
    + split; [apply in_eol; auto|rewrite app_nil_r; reflexivity].
Qed.
Lemma colon_same a b a' b' : ~ In ":"%char a -> ~ In ":"%char a' -> a ++ ":"%char :: b = a' ++ ":"%char :: b' -> a = a' /\ b = b'.
Proof.
  revert a'. induction a as [|c a IH]; intros [|c' a'] A A' E; cbn [app] in E.
  - injection E as <-. auto.
  - exfalso. injection E as <- _. apply A'. cbn; auto.
  - exfalso. injection E as -> _. apply A. cbn; auto.
  - injection E as <- E. destruct (IH a') as [-> ->]; auto; intros X; [apply A|apply A']; cbn; auto.
Qed.
Lemma range_type_split a b : ~ In newline (a ++ ":"%char :: b) -> ~ In ":"%char a -> ~ In ":"%char b ->
  range_type (a ++ ":"%char :: b) = (do f <- cmp_group a (fun _ _ => Ok true); do l <- cmp_group b (fun _ _ => Ok false); Ok (f, l)).
Proof.
  intros NL A B. unfold range_type. assert (I : In (MRes (a ++ ":"%char :: b) [(1, a); (2, b)] []) (mtch (Seq (Grp 1 (Star not_colon)) (Seq (chr ":"%char) (Seq (Grp 2 (Star not_colon)) Eol))) None (a ++ ":"%char :: b))) by (apply in_range; auto; exists a, b; auto).
  apply search_bol_some in I as (m & Hm). unfold RE_RANGE. rewrite Hm. apply search_bol in Hm as (m' & I & Em). apply in_range in I as (a' & b' & E & A' & B' & ->); auto. apply colon_same in E as [<- <-]; auto. unfold group. rewrite Em. reflexivity.
Qed.
Lemma range_type_no s : ~ In newline s -> (forall a b, s = a ++ ":"%char :: b -> ~ In ":"%char a -> ~ In ":"%char b -> False) -> range_type s = Raise EArgumentTypeError.
Proof.
  intros NL N. unfold range_type. destruct (search RE_RANGE s) as [m|] eqn:Hm; auto. apply search_bol in Hm as (m' & I & Em). apply in_range in I as (a' & b' & E & A' & B' & ->); auto. exfalso. eauto.
Qed.
Lemma range_cases s : (exists a b, s = a ++ ":"%char :: b /\ ~ In ":"%char a /\ ~ In ":"%char b) \/ (forall a b, s = a ++ ":"%char :: b -> ~ In ":"%char a -> ~ In ":"%char b -> False).
Proof.
  destruct (List.in_dec ascii_dec ":"%char s) as [I|I]; [|right; intros a b -> _ _; apply I; rewrite in_app_iff; cbn; auto].
  apply in_split_first in I as (a & b & -> & A). destruct (List.in_dec ascii_dec ":"%char b) as [B|B]; [|left; eauto].
  right. intros a' b' E A' B'. apply colon_same in E as [<- <-]; auto.
Qed.

Lemma range_iff s f l : ~ In newline s -> range_type s = Ok (f, l) <-> exists cs ds, range_text s cs ds /\ f = side_meaning true cs /\ l = side_meaning false ds.
Proof.
  intros NL. split.
  - intros E. destruct (range_cases s) as [(a & b & -> & A & B)|N]; [|rewrite range_type_no in E by auto; discriminate]. rewrite range_type_split in E by auto.
    destruct (cmp_group a (fun _ _ => Ok true)) as [f'|] eqn:Ea; cbn [bind] in E; [|discriminate]. destruct (cmp_group b (fun _ _ => Ok false)) as [l'|] eqn:Eb; cbn [bind] in E; [|discriminate]. injection E as <- <-.
    apply cmp_group_iff in Ea as (cs & Sa & ->); [|intros X; apply NL; rewrite in_app_iff; auto]. apply cmp_group_iff in Eb as (ds & Sb & ->); [|intros X; apply NL; rewrite in_app_iff; cbn; auto].
    exists cs, ds. split; auto. exists a, b. auto 6.
  - intros (cs & ds & (a & b & -> & A & B & Sa & Sb) & -> & ->). rewrite range_type_split by auto.
    rewrite (proj2 (cmp_group_iff a true _ ltac:(intros X; apply NL; rewrite in_app_iff; auto)) (ex_intro _ cs (conj Sa eq_refl))). cbn [bind].
    rewrite (proj2 (cmp_group_iff b false _ ltac:(intros X; apply NL; rewrite in_app_iff; cbn; auto)) (ex_intro _ ds (conj Sb eq_refl))). reflexivity.
Qed.
Lemma range_raise s e : ~ In newline s -> range_type s = Raise e -> e = EArgumentTypeError.
Proof.
  intros NL E. destruct (range_cases s) as [(a & b & -> & A & B)|N]; [|rewrite range_type_no in E by auto; congruence]. rewrite range_type_split in E by auto.
  destruct (cmp_group a (fun _ _ => Ok true)) as [f'|] eqn:Ea; cbn [bind] in E; [|injection E as <-; eapply cmp_group_raise in Ea; auto; intros X; apply NL; rewrite in_app_iff; auto].
  destruct (cmp_group b (fun _ _ => Ok false)) as [l'|] eqn:Eb; cbn [bind] in E; [discriminate|]. injection E as <-; eapply cmp_group_raise in Eb; auto; intros X; apply NL; rewrite in_app_iff; cbn; auto.
Qed.
(** ** truth *)
Lemma compare_iff op y x : compare_with op y x = true <-> compares op y x.
Proof.
  destruct op; cbn [compare_with compares]; rewrite ?negb_true_iff; try apply Qceqb_eq; try apply Qcltb_lt; try apply Qcleb_le. rewrite <- Qceqb_eq. destruct (Qceqb y x); intuition congruence.
Qed.
Definition cond_wf (c : cond) : Prop := In (c_var c) variables.
Lemma side_wf s cs : side_text s cs -> Forall cond_wf cs.
Proof.
  intros [[_ ->]|(ps & _ & _ & _ & F & _)]; [constructor|]. induction F as [|p c ps cs CT F IH]; constructor; auto. destruct CT as [w1 p l w2 o op w3 v x w4 F1 F2 F3 F4 D I NT|w1 v x w2 F1 F2 NT]; unfold cond_wf; cbn [c_var]; [|cbn; auto 6]. destruct D as [[_ ->]|(c & _ & _ & L)]; auto. cbn. auto 6.
Qed.
Lemma axis_letter_of a : axis_of_letter (axis_letter a) = Some a.
Proof. destruct a; reflexivity. Qed.
Lemma axis_of_letter_iff l a : axis_of_letter l = Some a <-> l = axis_letter a.
Proof. split; [|intros ->; apply axis_letter_of]. destruct l; cbn; intros E; try discriminate E; injection E as <-; reflexivity. Qed.
Lemma meaning_at c n p : cond_wf c -> (forall a, c_var c = axis_letter a -> exists y, pos_getattr p a = Ok y) ->
  exists b P, meaning c n p = Ok b /\ cond_at n p c P /\ (b = true <-> P).
Proof.
  destruct c as [l op x]. unfold cond_wf, meaning. cbn [c_var c_op c_num]. intros W A. destruct (axis_of_letter l) as [a|] eqn:E.
  - apply axis_of_letter_iff in E. subst l. destruct (A a eq_refl) as (y & Y). unfold cond_axis. rewrite Y. cbn [bind]. do 2 eexists. split; [reflexivity|]. split; [constructor; eauto|]. apply compare_iff.
  - assert (l = LN) by (cbn [variables In] in W; destruct W as [<-|[<-|[<-|[<-|[<-|[<-|[<-|[]]]]]]]]; cbn in E; try discriminate E; auto). subst l. unfold cond_number. do 2 eexists. split; [reflexivity|]. split; [constructor|]. apply compare_iff.
Qed.
Lemma cond_at_one n p c P Q : cond_at n p c P -> cond_at n p c Q -> P <-> Q.
Proof.
  intros H. destruct H as [op x|a op x y Y]; intros H; inversion H as [op' x' E|a' op' x' y' Y' E]; subst.
  - reflexivity.
  - exfalso. destruct a'; discriminate.
  - exfalso. destruct a; discriminate.
  - assert (a' = a) by (destruct a, a'; congruence || discriminate). subst a'. rewrite Y in Y'. injection Y' as <-. reflexivity.
Qed.
Lemma all_conds_at cs n p : Forall cond_wf cs -> answers cs p -> exists b, all_conds (map meaning cs) n p = Ok b /\ (b = true <-> all_hold cs n p).
Proof.
  unfold answers, all_hold. intros W A. induction cs as [|c cs IH]; cbn [map all_conds]; [exists true; split; auto; split; auto|].
  inversion W; inversion A; subst. destruct (meaning_at c n p) as (b & P & E & C & B); auto. rewrite E. cbn [bind]. destruct b.
  - destruct IH as (b & -> & Hb); auto. exists b. split; auto. rewrite Hb. split; [intros; constructor; auto; exists P; split; auto; apply B; auto|intros H; inversion H; auto].
  - exists false. split; auto. split; [discriminate|]. intros H. inversion H as [|? ? (Q & CQ & HQ) _]; subst. apply B. eapply cond_at_one; eauto.
Qed.
End WithArith.
