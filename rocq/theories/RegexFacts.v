(** Lemmas about the regex engine: the first match, computed constructor by constructor. *)
From Coq Require Import Ascii String List Bool Arith Lia.
From Verif Require Import Base Num Regex Words BaseFacts.
Import ListNotations.
Local Open Scope nat_scope.

(** first success of a continuation over the alternatives, in priority order *)
Fixpoint first_some {A B} (k : A -> option B) (l : list A) : option B :=
  match l with
  | [] => None
  | x :: l' => match k x with Some b => Some b | None => first_some k l' end
  end.
Lemma first_some_app {A B} (k : A -> option B) l1 l2 :
  first_some k (l1 ++ l2) = match first_some k l1 with Some b => Some b | None => first_some k l2 end.
Proof. induction l1; simpl; auto. destruct (k a); auto. Qed.
Lemma first_some_map {A B C} (f : A -> B) (k : B -> option C) l :
  first_some k (map f l) = first_some (fun x => k (f x)) l.
Proof. induction l; simpl; auto. rewrite IHl; auto. Qed.
Lemma first_some_flat_map {A B C} (f : A -> list B) (k : B -> option C) l :
  first_some k (flat_map f l) = first_some (fun x => first_some k (f x)) l.
Proof. induction l; simpl; auto. rewrite first_some_app, IHl; auto. Qed.
Lemma first_some_ext {A B} (k k' : A -> option B) l :
  (forall x, In x l -> k x = k' x) -> first_some k l = first_some k' l.
Proof. induction l; simpl; intros H; auto. rewrite (H a), IHl; auto. Qed.
Lemma first_some_none {A B} (k : A -> option B) l : (forall x, In x l -> k x = None) -> first_some k l = None.
Proof. induction l; simpl; intros H; auto. rewrite (H a), IHl; auto. Qed.
Lemma hd_first_some {A} (l : list A) : hd_error l = first_some Some l.
Proof. destruct l; auto. Qed.

(** [fm r prev s k]: the first match of [r] at [s] that the continuation [k] accepts *)
Definition fm {B} (r : re) (prev : option ascii) (s : text) (k : mres -> option B) : option B :=
  first_some k (mtch r prev s).

Lemma re_here_fm r prev s : re_here r prev s = fm r prev s Some.
Proof. unfold re_here, fm. apply hd_first_some. Qed.
Lemma fm_ext {B} r prev s (k k' : mres -> option B) : (forall m, k m = k' m) -> fm r prev s k = fm r prev s k'.
Proof. intros H. apply first_some_ext; auto. Qed.
Lemma fm_option_map {B C} r prev s (k : mres -> option B) (f : B -> C) :
  option_map f (fm r prev s k) = fm r prev s (fun m => option_map f (k m)).
Proof. unfold fm. induction (mtch r prev s); simpl; auto. destruct (k a); simpl; auto. Qed.
Lemma fm_seq {B} a b prev s (k : mres -> option B) :
  fm (Seq a b) prev s k =
  fm a prev s (fun m => fm b (prev_after prev (consumed m)) (rest m)
     (fun m' => k (MRes (consumed m ++ consumed m') (captured m ++ captured m') (rest m')))).
Proof. unfold fm. simpl. rewrite first_some_flat_map. apply first_some_ext. intros. apply first_some_map. Qed.
Lemma fm_alt {B} a b prev s (k : mres -> option B) :
  fm (Alt a b) prev s k = match fm a prev s k with Some x => Some x | None => fm b prev s k end.
Proof. unfold fm. simpl. apply first_some_app. Qed.
Lemma fm_opt {B} a prev s (k : mres -> option B) :
  fm (Opt a) prev s k = match fm a prev s k with Some x => Some x | None => k (MRes [] [] s) end.
Proof. unfold fm. simpl. rewrite first_some_app. destruct (first_some _ _); auto. simpl. destruct (k _); auto. Qed.
Lemma fm_grp {B} n a prev s (k : mres -> option B) :
  fm (Grp n a) prev s k = fm a prev s (fun m => k (MRes (consumed m) ((n, consumed m) :: captured m) (rest m))).
Proof. unfold fm. simpl. apply first_some_map. Qed.
Lemma fm_cls {B} f prev s (k : mres -> option B) :
  fm (Cls f) prev s k = match s with c :: s' => if f c then k (MRes [c] [] s') else None | [] => None end.
Proof. unfold fm. simpl. destruct s as [|c s]; auto. destruct (f c); simpl; auto. destruct (k _); auto. Qed.
Lemma fm_bol {B} prev s (k : mres -> option B) :
  fm Bol prev s k = match prev with None => k (MRes [] [] s) | _ => None end.
Proof. unfold fm. destruct prev; simpl; auto. destruct (k _); auto. Qed.
Lemma fm_eps {B} prev s (k : mres -> option B) : fm Eps prev s k = k (MRes [] [] s).
Proof. unfold fm. simpl. destruct (k _); auto. Qed.
Lemma fm_eol {B} prev s (k : mres -> option B) :
  fm Eol prev s k = match s with [] => k (MRes [] [] s) | [c] => if is_newline c then k (MRes [] [] s) else None | _ => None end.
Proof.
  unfold fm. simpl. destruct s as [|c [|d s]]; simpl; auto. destruct (k _); auto.
  destruct (is_newline c); simpl; auto. destruct (k _); auto.
Qed.
Lemma fm_star_cons {B} f prev c s (k : mres -> option B) :
  fm (Star f) prev (c :: s) k =
  if f c then match fm (Star f) prev s (fun m => k (MRes (c :: consumed m) [] (rest m))) with
              | Some x => Some x | None => k (MRes [] [] (c :: s)) end
  else k (MRes [] [] (c :: s)).
Proof.
  unfold fm. simpl. destruct (f c).
  - rewrite first_some_app, first_some_map. destruct (first_some _ _); auto. simpl. destruct (k _); auto.
  - simpl. destruct (k _); auto.
Qed.
Lemma fm_star_nil {B} f prev (k : mres -> option B) : fm (Star f) prev [] k = k (MRes [] [] []).
Proof. unfold fm. simpl. destruct (k _); auto. Qed.
Lemma fm_lazy_nil {B} f prev (k : mres -> option B) : fm (StarLazy f) prev [] k = k (MRes [] [] []).
Proof. unfold fm. simpl. destruct (k _); auto. Qed.
Lemma fm_lazy_cons {B} f prev c s (k : mres -> option B) :
  fm (StarLazy f) prev (c :: s) k =
  match k (MRes [] [] (c :: s)) with
  | Some x => Some x
  | None => if f c then fm (StarLazy f) prev s (fun m => k (MRes (c :: consumed m) [] (rest m))) else None
  end.
Proof.
  unfold fm. simpl. destruct (f c).
  - rewrite rev_app_distr. simpl. destruct (k _); auto. rewrite <- map_rev. apply first_some_map.
  - simpl. destruct (k _); auto.
Qed.

(** greedy star: if the continuation accepts the longest option, that is the match *)
Lemma fm_star_max {B} f prev s (k : mres -> option B) a b x :
  span f s = (a, b) -> k (MRes a [] b) = Some x -> fm (Star f) prev s k = Some x.
Proof.
  revert k a b x. induction s as [|c s IH]; simpl; intros k a b x H Hk.
  - inversion H; subst. rewrite fm_star_nil. auto.
  - rewrite fm_star_cons. destruct (f c).
    + destruct (span f s) as [a' b']. inversion H; subst. erewrite IH; eauto.
    + inversion H; subst; auto.
Qed.
(** greedy star: if every shorter option is refused, the longest one decides *)
Lemma fm_star_only {B} f prev s (k : mres -> option B) a b :
  span f s = (a, b) ->
  (forall p c q, a = p ++ c :: q -> f c = true -> k (MRes p [] (c :: q ++ b)) = None) ->
  fm (Star f) prev s k = k (MRes a [] b).
Proof.
  revert k a b. induction s as [|c s IH]; simpl; intros k a b H Hk.
  - inversion H; subst. apply fm_star_nil.
  - rewrite fm_star_cons. destruct (f c) eqn:E.
    + destruct (span f s) as [a' b'] eqn:Es. inversion H; subst.
      rewrite (IH (fun m => k (MRes (c :: consumed m) [] (rest m))) a' b eq_refl).
      * simpl. destruct (k (MRes (c :: a') [] b)); auto.
        pose proof (span_app f s) as Hs. rewrite Es in Hs. subst s. apply (Hk [] c a'); auto.
      * intros p d q -> Hd. simpl. apply (Hk (c :: p) d q); auto.
    + inversion H; subst; auto.
Qed.

Global Arguments fm : simpl never.
Global Arguments search : simpl never.

(** a search for a pattern anchored at the start only looks at the start *)
Lemma fm_anchored {B} r c s (k : mres -> option B) : fm (Seq Bol r) (Some c) s k = None.
Proof. rewrite fm_seq, fm_bol. auto. Qed.
Lemma search_from_anchored r i c s : search_from (Seq Bol r) i (Some c) s = None.
Proof.
  revert i c. induction s as [|d s IH]; intros i c; cbn [search_from];
  rewrite re_here_fm, fm_anchored; auto.
Qed.
Lemma search_anchored r s :
  search (Seq Bol r) s =
  option_map (fun m => SMatch 0 (length (consumed m)) (consumed m) (captured m)) (fm r None s Some).
Proof.
  unfold search. destruct s as [|c s]; cbn [search_from]; rewrite re_here_fm, fm_seq, fm_bol; simpl;
  rewrite (fm_ext _ _ _ _ Some) by (intros [? ? ?]; auto).
  - destruct (fm r None [] Some); auto.
  - destruct (fm r None (c :: s) Some); auto. simpl. apply search_from_anchored.
Qed.

(** the consumed and remaining texts of a match make up the subject *)
Lemma star_opts_split f s m : In m (star_opts f s) -> consumed m ++ rest m = s /\ forallb f (consumed m) = true.
Proof.
  revert m. induction s as [|c s IH]; simpl; intros m H.
  - destruct H as [<-|[]]; auto.
  - destruct (f c) eqn:E.
    + apply in_app_iff in H as [H|H].
      * apply in_map_iff in H as (m' & <- & H). apply IH in H as [H1 H2]. simpl. rewrite H1, E, H2. auto.
      * destruct H as [<-|[]]; auto.
    + destruct H as [<-|[]]; auto.
Qed.
Lemma mtch_split r prev s m : In m (mtch r prev s) -> consumed m ++ rest m = s.
Proof.
  revert prev s m. induction r; simpl; intros prev s m H.
  - destruct H as [<-|[]]; auto.
  - destruct s as [|c s]; [destruct H|]. destruct (f c); [|destruct H]. destruct H as [<-|[]]; auto.
  - apply in_flat_map in H as (m1 & H1 & H2). apply in_map_iff in H2 as (m2 & <- & H2). simpl.
    apply IHr1 in H1. apply IHr2 in H2. rewrite <- app_assoc, H2. auto.
  - apply in_app_iff in H as [H|H]; eauto.
  - apply star_opts_split in H. tauto.
  - apply in_rev in H. apply star_opts_split in H. tauto.
  - apply in_app_iff in H as [H|[<-|[]]]; eauto.
  - apply in_map_iff in H as (m' & <- & H). simpl. eauto.
  - destruct prev; [destruct H|]. destruct H as [<-|[]]; auto.
  - destruct s as [|c [|d s]]; simpl in H.
    + destruct H as [<-|[]]; auto.
    + destruct (is_newline c); [|destruct H]. destruct H as [<-|[]]; auto.
    + destruct H.
  - destruct prev as [c|].
    + destruct (is_newline c); [|destruct H]. destruct H as [<-|[]]; auto.
    + destruct H as [<-|[]]; auto.
  - destruct s as [|c s]; simpl in H.
    + destruct H as [<-|[]]; auto.
    + destruct (is_newline c); [|destruct H]. destruct H as [<-|[]]; auto.
Qed.
Lemma re_here_split r prev s m : re_here r prev s = Some m -> consumed m ++ rest m = s.
Proof.
  unfold re_here. intros H. destruct (mtch r prev s) eqn:E; inversion H; subst.
  apply mtch_split with r prev. rewrite E. left; auto.
Qed.
Lemma fm_some_split r prev s m : fm r prev s Some = Some m -> consumed m ++ rest m = s.
Proof. rewrite <- re_here_fm. apply re_here_split. Qed.
