From Coq Require Import Ascii String List Bool Arith ZArith QArith Qcanon Lia.
From Verif Require Import Base Num Words GTable GCode Line Position Machine Transform Scripts ScriptsSpec.
Import ListNotations.

Lemma pbind_ok {A B} (p : printer A) (k : A -> printer B) out b :
  pbind p k = (out, Ok b) <-> exists o1 a o2, p = (o1, Ok a) /\ k a = (o2, Ok b) /\ out = o1 ++ o2.
Proof.
  unfold pbind. destruct p as [o1 [a|e]]; cbn [fst snd].
  - split.
    + destruct (k a) as [o2 r] eqn:E. intros H. injection H as <- ->. exists o1, a, o2. auto.
    + intros (o & a' & o2 & E & K & ->). injection E as <- <-. rewrite K. reflexivity.
  - split; [discriminate|]. intros (o & a' & o2 & E & _). discriminate.
Qed.
Lemma pure_ok {A} (r : result A) o a : pure r = (o, Ok a) <-> o = [] /\ r = Ok a.
Proof. unfold pure. split; [intros H; injection H as <- <-; auto|intros [-> ->]; auto]. Qed.
Lemma ret_ok {A} (x : A) o a : ret x = (o, Ok a) <-> o = [] /\ a = x.
Proof. unfold ret. split; [intros H; injection H as <- <-; auto|intros [-> ->]; auto]. Qed.
Lemma print_ok s o a : print s = (o, Ok a) <-> o = [s] /\ a = tt.
Proof. unfold print. split; [intros H; injection H as <- <-; auto|intros [-> ->]; auto]. Qed.
Lemma acts_ok (s : step) m o m' : acts s m = (o, Ok m') <-> o = [] /\ s m = (m', Ok tt).
Proof.
  unfold acts. destruct (s m) as [m1 [[]|e]].
  - rewrite ret_ok. split; [intros [-> ->]; auto|intros [-> H]; injection H as ->; auto].
  - unfold pure. split; [discriminate|intros [_ H]; discriminate].
Qed.
Lemma pbind_pure {A B} (r : result A) (k : A -> printer B) out b : pbind (pure r) k = (out, Ok b) <-> exists a, r = Ok a /\ k a = (out, Ok b).
Proof.
  rewrite pbind_ok. split.
  - intros (o1 & a & o2 & P & K & ->). apply pure_ok in P as [-> ->]. eauto.
  - intros (a & -> & K). exists [], a, out. auto.
Qed.
Lemma pbind_acts {B} (s : step) m (k : machine -> printer B) out b : pbind (acts s m) k = (out, Ok b) <-> exists m', s m = (m', Ok tt) /\ k m' = (out, Ok b).
Proof.
  rewrite pbind_ok. split.
  - intros (o1 & a & o2 & P & K & ->). apply acts_ok in P as [-> P]. eauto.
  - intros (a & P & K). exists [], a, out. rewrite acts_ok. auto.
Qed.
Lemma pbind_print {B} s (k : unit -> printer B) out b : pbind (print s) k = (out, Ok b) <-> exists o, k tt = (o, Ok b) /\ out = s :: o.
Proof.
  rewrite pbind_ok. split.
  - intros (o1 & a & o2 & P & K & ->). apply print_ok in P as [-> ->]. eauto.
  - intros (o & K & ->). exists [s], tt, o. auto.
Qed.
Lemma pbind_ret {A B} (x : A) (k : A -> printer B) : pbind (ret x) k = k x.
Proof. unfold pbind, ret. cbn. destruct (k x); auto. Qed.

Section WithArith.
Context {ar : Arith}.

Lemma reading_empty m tr : reading m [] tr -> tr = [].
Proof. inversion 1. auto. Qed.
Lemma reading_step m s r tr : reading m (s :: r) tr -> exists l m1 tr', mk_line s = Ok l /\ process_block (lblock l) m = (m1, Ok tt) /\ reading m1 r tr' /\ (l, m1) :: tr' = tr.
Proof. inversion 1; subst. eauto 8. Qed.

(** ** the loop after the first kept line *)
Lemma crop_inside f l ls : forall n m out,
  crop_loop f l n false m ls = (out, Ok tt) <->
  exists rd unread b c, ls = rd ++ unread /\ reading m rd (b ++ c) /\ out = map (fun x => line_str (fst x)) b /\
    (forall i x, nth_error b i = Some x -> says l (n + i) (snd x) false) /\
    ((c = [] /\ unread = []) \/ exists x, c = [x] /\ says l (n + length b) (snd x) true).
Proof.
  induction ls as [|s r IH]; intros n m out.
  - cbn [crop_loop]. rewrite ret_ok. split.
    + intros [-> _]. exists [], [], [], []. repeat split; auto. constructor. intros [|]; discriminate.
    + intros (rd & un & b & c & E & R & -> & _ & _). symmetry in E. apply app_eq_nil in E as [-> ->]. apply reading_empty in R. apply app_eq_nil in R as [-> ->]. auto.
  - cbn [crop_loop]. rewrite pbind_pure. cbn [andb]. setoid_rewrite pbind_acts. setoid_rewrite pbind_ret. setoid_rewrite pbind_ret. setoid_rewrite pbind_pure. setoid_rewrite pbind_pure. split.
    + intros (x & L & m' & P & p & MP & stop & ST & K). destruct stop.
      * apply ret_ok in K as [-> _]. exists [s], r, [], [(x, m')]. split; auto. split; [repeat econstructor; eauto|]. split; auto. split; [intros [|]; discriminate|].
        right. exists (x, m'). split; auto. cbn [length snd]. rewrite Nat.add_0_r. exists p. auto.
      * apply pbind_print in K as (o & K & ->). apply IH in K as (rd & un & b & c & -> & R & -> & F & E).
        exists (s :: rd), un, ((x, m') :: b), c. split; auto. split; [econstructor; eauto|]. split; auto. split.
        { intros [|i] y Hy; cbn [nth_error] in Hy; [injection Hy as <-; rewrite Nat.add_0_r; exists p; auto|]. apply F in Hy. rewrite <- plus_n_Sm. exact Hy. }
        destruct E as [E|(y & -> & E)]; auto. right. exists y. split; auto. cbn [length]. rewrite <- plus_n_Sm. exact E.
    + intros (rd & un & b & c & E & R & -> & F & ED). destruct rd as [|s' rd].
      * apply reading_empty in R. apply app_eq_nil in R as [-> ->]. destruct ED as [[_ ->]|(x & H & _)]; discriminate.
      * cbn [app] in E. injection E as <- E. pose proof R as R0; apply reading_step in R as (x & m' & tr & L & P & R' & E2); subst r. exists x. split; auto. exists m'. split; auto. destruct b as [|y b].
        -- destruct c as [|z c]; [discriminate|]. cbn [app] in E2. injection E2 as E2 E3. destruct ED as [[H _]|(w & H & p & MP & ST)]; [discriminate|]. injection H as -> ->. subst w. cbn [snd length] in *. rewrite Nat.add_0_r in ST.
           exists p. split; auto. exists true. split; auto.
        -- cbn [app] in E2. injection E2 as E2 E3. subst y tr. destruct (F O _ eq_refl) as (p & MP & ST). cbn [snd] in MP. rewrite Nat.add_0_r in ST. exists p. split; auto. exists false. split; auto.
           apply pbind_print. exists (map (fun x => line_str (fst x)) b). split; auto. apply IH. exists rd, un, b, c. split; auto. split; auto. split; auto. split.
           { intros i y Hy. specialize (F (S i) y Hy). rewrite <- plus_n_Sm in F. exact F. }
           destruct ED as [|(y & -> & S)]; auto. right. exists y. split; auto. cbn [length] in S. rewrite <- plus_n_Sm in S. exact S.
Qed.

Lemma after_cons m x tr : after m (x :: tr) = after (snd x) tr.
Proof. unfold after. cbn [map]. destruct tr as [|y tr]; [reflexivity|]. cbn [map]. generalize (snd y) as d. intros d. assert (G : forall (l : list machine) a b, last (d :: l) a = last (d :: l) b). { intros l. generalize d. induction l as [|z l IH]; intros d' a b; [reflexivity|]. change (last (z :: l) a = last (z :: l) b). apply IH. } apply G. Qed.

Lemma crop_before f l ls : forall n m out,
  crop_loop f l n true m ls = (out, Ok tt) <->
  exists rd unread a b c, ls = rd ++ unread /\ reading m rd (a ++ b ++ c) /\
    (forall i x, nth_error a i = Some x -> says f (n + i) (snd x) false) /\
    (forall x r, b ++ c = x :: r -> says f (n + length a) (snd x) true) /\
    (forall i x, nth_error b i = Some x -> says l (n + length a + i) (snd x) false) /\
    ((c = [] /\ unread = []) \/ exists x, c = [x] /\ says l (n + length a + length b) (snd x) true) /\
    ((b ++ c = [] /\ out = []) \/ exists pre, b ++ c <> [] /\ crop_preamble (machine_copy (after m a)) = (pre, Ok tt) /\ out = pre ++ map (fun x => line_str (fst x)) b).
Proof.
  induction ls as [|s r IH]; intros n m out.
  - cbn [crop_loop]. rewrite ret_ok. split.
    + intros [-> _]. exists [], [], [], [], []. split; auto. split; [constructor|]. split; [intros [|]; discriminate|]. split; [discriminate|]. split; [intros [|]; discriminate|]. auto.
    + intros (rd & un & a & b & c & E & R & _ & _ & _ & _ & O). symmetry in E. apply app_eq_nil in E as [-> ->]. apply reading_empty in R. apply app_eq_nil in R as [-> R].
      destruct O as [[_ ->]|(pre & N & _)]; [auto|]. congruence.
  - cbn [crop_loop]. rewrite pbind_pure. setoid_rewrite pbind_acts. split.
    + intros (x & L & m' & P & K). apply pbind_ok in K as (o1 & st & o2 & K1 & K & ->). apply pbind_pure in K1 as (p & MP & K1). apply pure_ok in K1 as [-> K1]. cbn [app].
      apply pbind_ok in K as (pre & [] & o3 & K2 & K & ->). destruct st; cbn [andb negb] in K.
      * assert (K' : crop_loop f l n false m (s :: r) = (o3, Ok tt)).
        { cbn [crop_loop]. apply pbind_pure. exists x. split; auto. apply pbind_acts. exists m'. split; auto. rewrite !pbind_ret. exact K. }
        apply crop_inside in K' as (rd & un & b & c & E & R & -> & F & ED). exists rd, un, [], b, c. split; auto. split; auto. split; [intros [|]; discriminate|].
        cbn [length]. rewrite Nat.add_0_r. destruct rd as [|s' rd].
        { apply reading_empty in R. apply app_eq_nil in R as [-> ->]. destruct ED as [[_ ->]|(y & H & _)]; discriminate. }
        cbn [app] in E. injection E as <- E. pose proof R as R0; apply reading_step in R as (x' & m1 & tr & L' & P' & R' & E2); subst r. rewrite L in L'. injection L' as <-. rewrite P in P'. injection P' as <-.
        split. { intros y q Hy. rewrite <- E2 in Hy. injection Hy as <- _. exists p. auto. }
        split; auto. split; auto. right. exists pre. split; [rewrite <- E2; discriminate|]. split; auto.
      * apply ret_ok in K2 as [-> _]. apply IH in K as (rd & un & a & b & c & -> & R & F1 & F2 & F3 & ED & O). exists (s :: rd), un, ((x, m') :: a), b, c. split; auto. split; [econstructor; eauto|].
        cbn [length]. rewrite <- plus_n_Sm. split. { intros [|i] y Hy; cbn [nth_error] in Hy; [injection Hy as <-; rewrite Nat.add_0_r; exists p; auto|]. apply F1 in Hy. rewrite <- plus_n_Sm. exact Hy. }
        split; auto. split; auto. split; auto. rewrite after_cons. exact O.
    + intros (rd & un & a & b & c & E & R & F1 & F2 & F3 & ED & O). destruct rd as [|s' rd].
      { apply reading_empty in R. apply app_eq_nil in R as [-> R]. apply app_eq_nil in R as [-> ->]. destruct ED as [[_ ->]|(y & H & _)]; discriminate. }
      cbn [app] in E. injection E as <- E. pose proof R as R0; apply reading_step in R as (x & m' & tr & L & P & R' & E2); subst r. exists x. split; auto. exists m'. split; auto. destruct a as [|y a].
      * cbn [app length] in *. rewrite Nat.add_0_r in *. destruct (F2 (x, m') tr (eq_sym E2)) as (p & MP & ST). cbn [snd] in MP.
        destruct O as [[O _]|(pre & N & PR & ->)]; [congruence|]. apply pbind_ok. exists [], true, (pre ++ map (fun x => line_str (fst x)) b).
        split. { apply pbind_pure. exists p. split; auto. apply pure_ok. auto. } split; auto. apply pbind_ok. exists pre, tt, (map (fun x => line_str (fst x)) b). split; [exact PR|]. split; auto. cbn [andb negb].
        assert (K : crop_loop f l n false m (s :: rd ++ un) = (map (fun x => line_str (fst x)) b, Ok tt)).
        { apply crop_inside. exists (s :: rd), un, b, c. split; auto. }
        cbn [crop_loop] in K. apply pbind_pure in K as (x' & L' & K). rewrite L in L'. injection L' as <-. apply pbind_acts in K as (m1 & P' & K). rewrite P in P'. injection P' as <-. rewrite !pbind_ret in K. exact K.
      * cbn [app] in E2. injection E2 as E2 E3. subst y tr. destruct (F1 0%nat _ eq_refl) as (p & MP & ST). rewrite Nat.add_0_r in ST. cbn [snd] in MP. apply pbind_ok. exists [], false, out. split. { apply pbind_pure. exists p. split; auto. apply pure_ok. auto. }
        split; auto. rewrite pbind_ret. cbn [andb negb]. apply IH. exists rd, un, a, b, c. split; auto. split; auto. cbn [length] in *. rewrite <- plus_n_Sm in *. split. { intros i y Hy. specialize (F1 (S i) y Hy). rewrite <- plus_n_Sm in F1. exact F1. }
        split; auto. split; auto. split; auto. rewrite after_cons in O. exact O.
Qed.
End WithArith.
Lemma reading_length {ar : Arith} m ls tr : reading m ls tr -> length ls = length tr.
Proof. induction 1; cbn [length]; congruence. Qed.
