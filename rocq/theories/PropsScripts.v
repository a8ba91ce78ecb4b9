(** Properties C70, C74, C83: pygcode-crop and its range argument; the dialect default. *)
From Coq Require Import Ascii String List Bool Arith ZArith QArith Qcanon Lia.
From Verif Require Import Base Num BaseFacts Words WordsSpec WordsProofs WordOrder GTable GCode GCodeSpec Line Position Machine Transform Float64 ArithSpec ModeSpec PropsMode MachSpec Scripts ScriptsSpec ScriptsProofs ScriptsProofs3.
Import ListNotations.
Local Open Scope nat_scope.

(** ** C83: range arguments mean what the help text says *)
Theorem C83_accepted : forall (ar : Arith) (s : text) (cs ds : list cond),
  ~ In newline s -> range_text s cs ds ->
  exists first last, range_type s = Ok (first, last) /\
    (forall n p, answers cs p -> exists b, first n p = Ok b /\ (b = true <-> all_hold cs n p)) /\
    (forall n p, answers ds p -> exists b, last n p = Ok b /\ (b = true <-> ds <> [] /\ all_hold ds n p)).
Proof.
  intros ar s cs ds NL R. exists (side_meaning true cs), (side_meaning false ds). split; [apply range_iff; eauto|]. destruct R as (a & b & -> & A & B & Sa & Sb). apply side_wf in Sa, Sb. split; intros n p AN.
  - destruct cs as [|c cs]; [exists true; split; auto; split; auto; constructor|]. unfold side_meaning. apply all_conds_at; auto.
  - destruct ds as [|d ds]; [exists false; split; auto; split; [discriminate|intros [X _]; congruence]|]. destruct (all_conds_at (d :: ds) n p) as (b' & E & H); auto. exists b'. split; [exact E|]. rewrite H. split; [intros; split; [discriminate|auto]|intros [_ X]; auto].
Qed.
Print Assumptions C83_accepted.
Theorem C83_only : forall (ar : Arith) (s : text) (first last : condition),
  ~ In newline s -> range_type s = Ok (first, last) -> exists cs ds, range_text s cs ds.
Proof. intros ar s f l NL E. apply range_iff in E as (cs & ds & R & _); eauto. Qed.
Print Assumptions C83_only.
Theorem C83_rejected : forall (ar : Arith) (s : text),
  ~ In newline s -> (forall cs ds, ~ range_text s cs ds) -> range_type s = Raise EArgumentTypeError.
Proof.
  intros ar s NL N. destruct (range_type s) as [[f l]|e] eqn:E; [exfalso; apply C83_only in E as (cs & ds & R); auto; eapply N; eauto|]. apply range_raise in E; auto. congruence.
Qed.
Print Assumptions C83_rejected.
(** the conditions are determined by the text *)
Lemma side_unique {ar : Arith} s cs cs' : side_text s cs -> side_text s cs' -> cs = cs'.
Proof.
  intros [[E ->]|(ps & N & J & F & F2 & _)] [[E' ->]|(ps' & N' & J' & F' & F2' & _)]; try congruence.
  assert (ps = ps'). { rewrite <- (join_split "," ps), <- (join_split "," ps'); auto; try congruence; intros ->; cbn in *; congruence. } subst ps'.
  clear -F2 F2'. revert cs' F2'. induction F2 as [|p c ps cs CT F2 IH]; intros cs' H; inversion H as [|? c' ? cs2 CT' F2' E]; subst; auto. rewrite (cond_text_unique p c c'), (IH cs2); auto.
Qed.
Theorem C83_unambiguous : forall (ar : Arith) (s : text) (cs ds cs' ds' : list cond), range_text s cs ds -> range_text s cs' ds' -> cs = cs' /\ ds = ds'.
Proof.
  intros ar s cs ds cs' ds' (a & b & -> & A & B & Sa & Sb) (a' & b' & E & A' & B' & Sa' & Sb'). apply colon_same in E as [<- <-]; auto. split; eapply side_unique; eauto.
Qed.
Print Assumptions C83_unambiguous.
(** the help text's third example *)
Lemma number_nat {ar : Arith} s z : Forall digit (t s) -> t s <> [] -> rnd (decimal_number false (t s) []) = z -> number_text (t s) z.
Proof. intros D N <-. pose proof (nt false (t s) false [] D N) as H. cbn [sign dotted app] in H. rewrite app_nil_r in H. apply H; auto. discriminate. Qed.
Ltac digits := repeat constructor; apply digit_iff; reflexivity.
Example C83_ex : range_text (ar := binary64) (t "x>10,y>10:n>=123") [Cond LX CGt (frac 10 1); Cond LY CGt (frac 10 1)] [Cond LN CGe (frac 123 1)].
Proof.
  exists (t "x>10,y>10"), (t "n>=123"). split; [reflexivity|]. split; [cbn; intuition discriminate|]. split; [cbn; intuition discriminate|]. split.
  - right. exists [t "x>10"; t "y>10"]. split; [discriminate|]. split; [reflexivity|]. split; [repeat constructor; cbn; intuition discriminate|]. split.
    + constructor; [|constructor; [|constructor]].
      * apply (ct_full [] (t "x") LX [] (t ">") CGt [] (t "10") (frac 10 1) []); [constructor|constructor|constructor|constructor| | | ].
        -- right. exists "x"%char. split; auto. split; [apply char_letter_iff; reflexivity|cbn; auto 9].
        -- cbn; auto 9.
        -- apply number_nat; [digits|discriminate|]. apply Qceqb_eq. vm_compute. reflexivity.
      * apply (ct_full [] (t "y") LY [] (t ">") CGt [] (t "10") (frac 10 1) []); [constructor|constructor|constructor|constructor| | | ].
        -- right. exists "y"%char. split; auto. split; [apply char_letter_iff; reflexivity|cbn; auto 9].
        -- cbn; auto 9.
        -- apply number_nat; [digits|discriminate|]. apply Qceqb_eq. vm_compute. reflexivity.
    + repeat constructor; discriminate.
  - right. exists [t "n>=123"]. split; [discriminate|]. split; [reflexivity|]. split; [repeat constructor; cbn; intuition discriminate|]. split.
    + constructor; [|constructor]. apply (ct_full [] (t "n") LN [] (t ">=") CGe [] (t "123") (frac 123 1) []); [constructor|constructor|constructor|constructor| | | ].
      * right. exists "n"%char. split; auto. split; [apply char_letter_iff; reflexivity|cbn; auto 9].
      * cbn; auto 9.
      * apply number_nat; [digits|discriminate|]. apply Qceqb_eq. vm_compute. reflexivity.
    + repeat constructor. intros _. exists 123%Z. apply Qceqb_eq. vm_compute. reflexivity.
Qed.
Example C83_bad : range_type (ar := binary64) (t "1.5:") = Raise EArgumentTypeError /\ range_type (ar := binary64) (t "100") = Raise EArgumentTypeError /\ range_type (ar := binary64) (t "1,:") = Raise EArgumentTypeError.
Proof. vm_compute. auto. Qed.

(** ** C70: cropping keeps exactly the selected lines *)
(** [a]: the lines left out at the beginning, [b]: those printed, [c]: the line that ends the area (never printed, nothing is
    read after it); in front of the printed lines comes what [crop_preamble] prints (C71) *)
Theorem C70_cropped : forall (ar : Arith) (first last : condition) (file : list text) (m : machine) (out : list text), null_machine = Ok m ->
  crop (first, last) file = (out, Ok tt) <->
  exists rd unread a b c, file = rd ++ unread /\ reading m rd (a ++ b ++ c) /\ selection first last a b c /\ (c = [] -> unread = []) /\
    ((b ++ c = [] /\ out = []) \/
     exists pre, b ++ c <> [] /\ crop_preamble (machine_copy (after m a)) = (pre, Ok tt) /\ out = pre ++ map (fun x => line_str (fst x)) b).
Proof.
  intros ar f l file m out E. unfold crop. rewrite E. cbn [pure fst snd]. rewrite pbind_pure. split.
  - intros (m' & X & H). injection X as <-. apply crop_before in H as (rd & un & a & b & c & -> & R & S1 & S2 & S3 & S4 & O). exists rd, un, a, b, c. split; auto. split; auto. split; [|split; auto].
    + split; [exact S1|]. split; [exact S2|]. split; [exact S3|]. destruct S4 as [[-> _]|S4]; auto.
    + intros ->. destruct S4 as [[_ ->]|(x & X & _)]; [auto|discriminate].
  - intros (rd & un & a & b & c & -> & R & (S1 & S2 & S3 & S4) & U & O). exists m. split; auto. apply crop_before. exists rd, un, a, b, c. split; auto. split; auto. split; [exact S1|]. split; [exact S2|]. split; [exact S3|]. split; auto. destruct S4 as [-> |S4]; auto.
Qed.
Print Assumptions C70_cropped.
Lemma rapid_to_out {ar : Arith} l p out : rapid_to l p = (out, Ok tt) -> length out = 1.
Proof.
  unfold rapid_to. intros H. apply pbind_pure in H as (v & _ & H). apply pbind_pure in H as (g & _ & H). apply print_ok in H as [-> _]. reflexivity.
Qed.
Lemma rapid_over_out {ar : Arith} l p out : rapid_over l p = (out, Ok tt) -> length out = 1.
Proof. unfold rapid_over. intros H. apply pbind_pure in H as (g & _ & H). apply print_ok in H as [-> _]. reflexivity. Qed.
(** what comes in front: the mode (when there is one), then three moves under a comment, then a blank line *)
Theorem C70_front : forall (ar : Arith) (old : machine) (pre : list text), crop_preamble old = (pre, Ok tt) ->
  exists up over down, pre = (match mode_str (m_mode old) with [] => [] | s => [t "; machine mode before cropping"; s] end) ++ [t "; traverse into position, up, over, and down"; up; over; down; []].
Proof.
  intros ar old pre H. unfold crop_preamble in H. apply pbind_ok in H as (o1 & [] & o2 & H1 & H & ->).
  assert (E : o1 = match mode_str (m_mode old) with [] => [] | s => [t "; machine mode before cropping"; s] end).
  { destruct (mode_str (m_mode old)); [apply ret_ok in H1 as [-> _]; reflexivity|]. apply pbind_print in H1 as (o & H1 & ->). apply print_ok in H1 as [-> _]. reflexivity. }
  rewrite <- E. clear E H1. apply pbind_print in H as (o3 & H & ->). destruct (normal_axis (crop_plane (m_mode old))) as [[na|]|]; try discriminate.
  apply pbind_ok in H as (o4 & [] & o5 & H2 & H & ->). apply rapid_to_out in H2. apply pbind_pure in H as (p & _ & H). apply pbind_ok in H as (o6 & [] & o7 & H3 & H & ->).
  destruct (plane_axes (crop_plane (m_mode old))) as [axs|]; [|discriminate]. apply rapid_over_out in H3. apply pbind_ok in H as (o8 & [] & o9 & H4 & H & ->). apply rapid_to_out in H4. apply print_ok in H as [-> _].
  destruct o4 as [|up [|]]; try discriminate H2. destruct o6 as [|ov [|]]; try discriminate H3. destruct o8 as [|dn [|]]; try discriminate H4. exists up, ov, dn. reflexivity.
Qed.
Print Assumptions C70_front.
Lemma Qc_of_Z_inj a b : Qc_of_Z a = Qc_of_Z b -> a = b.
Proof. intros E. assert (Q : (inject_Z a == inject_Z b)%Q) by (unfold Qc_of_Z in E; apply (f_equal this) in E; cbn [this Q2Qc] in E; rewrite <- (Qred_correct (inject_Z a)), E; apply Qred_correct). unfold Qeq in Q. cbn in Q. lia. Qed.
(** "n1:n2": the lines n1 .. n2-1; to the end of the file when n2 is not beyond n1 *)
Theorem C70_numbers : forall (ar : Arith) (s : text) (n1 n2 : nat) (file : list text) (m : machine) (rg : condition * condition) (out : list text), null_machine = Ok m -> ~ In newline s ->
  range_text s [Cond LN CEq (Qc_of_Z (Z.of_nat n1))] [Cond LN CEq (Qc_of_Z (Z.of_nat n2))] -> 0 < n1 -> n1 <= length file ->
  range_type s = Ok rg -> crop rg file = (out, Ok tt) ->
  exists tr pre, reading m (if n1 <=? n2 then firstn n2 file else file) tr /\ crop_preamble (machine_copy (after m (firstn (n1 - 1) tr))) = (pre, Ok tt) /\
    out = pre ++ map (fun x => line_str (fst x)) (let rest := skipn (n1 - 1) tr in if n1 <=? n2 then firstn (n2 - n1) rest else rest).
Proof.
  intros ar s n1 n2 file m [f l] out E NL R P1 P2 RT H. destruct (C83_accepted ar s _ _ NL R) as (f' & l' & RT' & Hf & Hl). rewrite RT in RT'. injection RT' as <- <-.
  assert (F : forall n p, exists b, f n p = Ok b /\ (b = true <-> n = n1)).
  { intros n p. destruct (Hf n p) as (b & Eb & B); [repeat constructor; intros a Ea; destruct a; discriminate Ea|]. exists b. split; auto. rewrite B. unfold all_hold. split.
    - intros Q. inversion Q as [|? ? (X & C & HX) _]; subst. inversion C; subst; [|destruct a; discriminate]. cbn [compares] in HX. apply Qc_of_Z_inj in HX. lia.
    - intros ->. constructor; [|constructor]. eexists. split; [constructor|]. reflexivity. }
  assert (L : forall n p, exists b, l n p = Ok b /\ (b = true <-> n = n2)).
  { intros n p. destruct (Hl n p) as (b & Eb & B); [repeat constructor; intros a Ea; destruct a; discriminate Ea|]. exists b. split; auto. rewrite B. unfold all_hold. split.
    - intros [_ Q]. inversion Q as [|? ? (X & C & HX) _]; subst. inversion C; subst; [|destruct a; discriminate]. cbn [compares] in HX. apply Qc_of_Z_inj in HX. lia.
    - intros ->. split; [discriminate|]. constructor; [|constructor]. eexists. split; [constructor|]. reflexivity. }
  clear Hf Hl RT R NL.
  assert (SF : forall n x b, says f n x b -> (b = true <-> n = n1)). { intros n x b (p & _ & Q). destruct (F n p) as (b' & Eb & B). rewrite Q in Eb. injection Eb as <-. auto. }
  assert (SL : forall n x b, says l n x b -> (b = true <-> n = n2)). { intros n x b (p & _ & Q). destruct (L n p) as (b' & Eb & B). rewrite Q in Eb. injection Eb as <-. auto. }
  apply (C70_cropped ar f l file m out E) in H as (rd & un & a & b & c & -> & RD & (S1 & S2 & S3 & S4) & U & O).
  assert (LR : length rd = length a + length b + length c) by (apply reading_length in RD; rewrite !app_length in RD; lia).
  assert (LA : length a <= n1 - 1).
  { destruct (le_lt_dec (length a) (n1 - 1)) as [?|G]; auto. destruct (nth_error a (n1 - 1)) as [x|] eqn:X; [|apply nth_error_None in X; lia]. apply S1 in X. apply SF in X. replace (S (n1 - 1)) with n1 in X by lia. destruct X as [_ X]. discriminate X; auto. }
  rewrite app_length in P2. destruct (b ++ c) as [|x r] eqn:BC.
  { apply app_eq_nil in BC as [-> ->]. rewrite (U eq_refl) in P2. cbn [length] in *. lia. }
  assert (LA' : length a = n1 - 1). { specialize (S2 x r eq_refl). apply SF in S2. destruct S2 as [S2 _]. specialize (S2 eq_refl). lia. }
  destruct O as [[O _]|(pre & _ & PR & ->)]; [discriminate|]. rewrite <- BC in RD.
  assert (FA : forall z, firstn (n1 - 1) (a ++ z) = a) by (intros z; rewrite <- LA', firstn_app, firstn_all, Nat.sub_diag, app_nil_r; reflexivity).
  assert (SA : forall z, skipn (n1 - 1) (a ++ z) = z) by (intros z; rewrite <- LA', skipn_app, skipn_all, Nat.sub_diag; reflexivity).
  assert (B3 : length b <= n2 - n1 \/ n2 < n1).
  { destruct (le_lt_dec n1 n2) as [Q|Q]; [left|lia]. destruct (le_lt_dec (length b) (n2 - n1)) as [?|G]; auto. destruct (nth_error b (n2 - n1)) as [y|] eqn:Y; [|apply nth_error_None in Y; lia]. apply S3 in Y. apply SL in Y. replace (S (length a + (n2 - n1))) with n2 in Y by lia. destruct Y as [_ Y]. discriminate Y; auto. }
  exists (a ++ b ++ c), pre. cbv zeta. rewrite FA, SA. destruct (n1 <=? n2) eqn:LE.
  - apply Nat.leb_le in LE. destruct S4 as [-> |(y & -> & Y)].
    + rewrite (U eq_refl) in *. rewrite !app_nil_r in *. cbn [length] in *. split; [|split; auto]; [rewrite firstn_all2 by lia; auto|]. rewrite firstn_all2 by lia. reflexivity.
    + apply SL in Y. destruct Y as [Y _]. specialize (Y eq_refl). cbn [length] in *. split; [|split; auto].
      * replace n2 with (length rd) by lia. rewrite firstn_app, firstn_all, Nat.sub_diag. cbn [firstn]. rewrite app_nil_r. auto.
      * replace (n2 - n1) with (length b) by lia. rewrite firstn_app, firstn_all, Nat.sub_diag. cbn [firstn]. rewrite app_nil_r. reflexivity.
  - apply Nat.leb_gt in LE. destruct S4 as [-> |(y & -> & Y)]; [|apply SL in Y; destruct Y as [Y _]; specialize (Y eq_refl); lia]. rewrite (U eq_refl) in *. rewrite !app_nil_r in *. auto.
Qed.
Print Assumptions C70_numbers.
(** the script on texts, with binary floating point numbers *)
Definition cropped (r : string) (file : list string) : list text * result unit :=
  match range_type (ar := binary64) (t r) with Ok rg => crop (ar := binary64) rg (map t file) | Raise e => ([], Raise e) end.
Example C70_ex : cropped "2:4" ["G90 G0 X1 Y2"; "Z5 (one)"; "G1 Z-1 F100"; "X7"; "X8"]%string =
  (map t ["; machine mode before cropping"; "G00 G90"; "; traverse into position, up, over, and down"; "G00 Z0"; "G00 X1 Y2"; "G00 Z0"; ""; "Z5 (one)"; "G01 Z-1 F100"], Ok tt)%string.
Proof. vm_compute. reflexivity. Qed.
Example C70_ex_reversed : cropped "3:2" ["G90 G0 X1 Y2"; "Z5 (one)"; "G1 Z-1 F100"; "X7"]%string =
  (map t ["; machine mode before cropping"; "G00 G90"; "; traverse into position, up, over, and down"; "G00 Z5"; "G00 X1 Y2"; "G00 Z5"; ""; "G01 Z-1 F100"; "X7"], Ok tt)%string.
Proof. vm_compute. reflexivity. Qed.
Example C70_ex_position : cropped "z<-1,x>=2:" ["G0 X1"; "Z-2"; "X2"; "Z0"]%string =
  (map t ["; machine mode before cropping"; "G00"; "; traverse into position, up, over, and down"; "G00 Z0"; "G00 X1 Y0"; "G00 Z-2"; ""; "X2"; "Z0"], Ok tt)%string.
Proof. vm_compute. reflexivity. Qed.

(** ** C74: the default dialect cannot be changed (the assignment is to a local variable) *)
Theorem C74_refuted : exists name before, name <> before /\ get_default (set_default name before) = before.
Proof. exists (t "reprap"), dialect_default. split; [discriminate|reflexivity]. Qed.
Print Assumptions C74_refuted.
(** whatever is done, the default stays linuxcnc *)
Theorem C74_always : forall (names : list text), get_default (fold_left (fun d n => set_default n d) names dialect_default) = t "linuxcnc".
Proof. intros names. assert (H : forall d, fold_left (fun d n => set_default n d) names d = d) by (induction names; cbn [fold_left]; auto). rewrite H. reflexivity. Qed.
Print Assumptions C74_always.
