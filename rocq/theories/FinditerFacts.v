(** [finditer], [re_sub], [remove_spans] over suffixes instead of indices. *)
From Coq Require Import Ascii String List Bool Arith Lia.
From Verif Require Import Base Num Regex Words Line BaseFacts RegexFacts.
Import ListNotations.
Local Open Scope nat_scope.

(** the first match in [s]: text before it, the match *)
Fixpoint first_match (r : re) (prev : option ascii) (s : text) : option (text * mres) :=
  match re_here r prev s with
  | Some m => Some ([], m)
  | None => match s with
            | [] => None
            | c :: s' => option_map (fun '(g, m) => (c :: g, m)) (first_match r (Some c) s')
            end
  end.
Lemma search_from_first r i prev s :
  search_from r i prev s =
  option_map (fun '(g, m) => SMatch (i + length g) (i + length g + length (consumed m)) (consumed m) (captured m)) (first_match r prev s).
Proof.
  revert i prev. induction s as [|c s IH]; intros i prev; cbn [search_from first_match].
  - destruct (re_here r prev []); simpl; auto. rewrite Nat.add_0_r; auto.
  - destruct (re_here r prev (c :: s)); simpl. rewrite Nat.add_0_r; auto.
    rewrite IH. destruct (first_match r (Some c) s) as [[g m]|]; simpl; auto.
    repeat f_equal; lia.
Qed.
Lemma first_match_split r prev s g m : first_match r prev s = Some (g, m) -> s = g ++ consumed m ++ rest m.
Proof.
  revert prev g m. induction s as [|c s IH]; intros prev g m; cbn [first_match].
  - destruct (re_here r prev []) eqn:E; [|discriminate]. intros H; inversion H; subst. symmetry. eapply re_here_split; eauto.
  - destruct (re_here r prev (c :: s)) eqn:E.
    + intros H; inversion H; subst. symmetry. eapply re_here_split; eauto.
    + destruct (first_match r (Some c) s) as [[g' m']|] eqn:E'; [|discriminate]. intros H; inversion H; subst.
      simpl. f_equal. eauto.
Qed.

(** the list of matches as pieces: (gap before, match), and the final tail *)
Fixpoint pieces (fuel : nat) (r : re) (prev : option ascii) (s : text) : list (text * mres) * text :=
  match fuel with
  | 0 => ([], s)
  | S k => match first_match r prev s with
           | None => ([], s)
           | Some (g, m) =>
               let (l, tl) := pieces k r (prev_after prev (g ++ consumed m)) (rest m) in ((g, m) :: l, tl)
           end
  end.
Fixpoint spans (i : nat) (l : list (text * mres)) : list smatch :=
  match l with
  | [] => []
  | (g, m) :: l' =>
      SMatch (i + length g) (i + length g + length (consumed m)) (consumed m) (captured m)
      :: spans (i + length g + length (consumed m)) l'
  end.
Lemma prev_at_app a b : prev_at (a ++ b) (length a) = prev_after None a.
Proof.
  destruct a as [|x a]; auto. simpl prev_at. unfold prev_after.
  destruct (exists_last (l := x :: a)) as (a' & y & E); [discriminate|]. rewrite E.
  rewrite last_last. assert (L : length a = length a').
  { apply (f_equal (@length _)) in E. rewrite app_length in E. simpl in E. lia. }
  change (x :: a ++ b) with ((x :: a) ++ b). rewrite E, L, <- app_assoc, nth_error_app2, Nat.sub_diag by lia. auto.
Qed.
Lemma prev_after_app p a b : prev_after p (a ++ b) = prev_after (prev_after p a) b.
Proof.
  destruct b as [|y b]. rewrite app_nil_r; auto.
  destruct a as [|x a]; auto. cbn [prev_after app]. f_equal.
  assert (N : y :: b <> []) by discriminate. destruct (exists_last N) as (b' & z & ->).
  change (x :: a ++ b' ++ [z]) with ((x :: a) ++ b' ++ [z]). rewrite app_assoc, !last_last. auto.
Qed.
Lemma finditer_fuel_pieces k r p s :
  finditer_fuel k r (p ++ s) (length p) = spans (length p) (fst (pieces k r (prev_after None p) s)).
Proof.
  revert p s. induction k as [|k IH]; intros p s; cbn [finditer_fuel pieces]; auto.
  rewrite prev_at_app, skipn_app_exact, search_from_first.
  destruct (first_match r (prev_after None p) s) as [[g m]|] eqn:E; cbn [option_map fst]; auto.
  apply first_match_split in E. subst s. cbn [mend].
  specialize (IH (p ++ g ++ consumed m) (rest m)). rewrite !app_length, <- !app_assoc, !prev_after_app in IH.
  rewrite prev_after_app. replace (length p + length g + length (consumed m)) with (length p + (length g + length (consumed m))) by lia.
  rewrite IH. destruct (pieces k r _ (rest m)) as [l tl]. cbn [fst spans]. rewrite Nat.add_assoc. auto.
Qed.
Lemma finditer_pieces r s : finditer r s = spans 0 (fst (pieces (S (length s)) r None s)).
Proof. apply (finditer_fuel_pieces (S (length s)) r [] s). Qed.

(** the subject is the pieces in order *)
Definition glue (sep : mres -> text) (l : list (text * mres)) (tl : text) : text :=
  flat_map (fun gm => fst gm ++ sep (snd gm)) l ++ tl.
Lemma pieces_glue k r prev s : let (l, tl) := pieces k r prev s in s = glue consumed l tl.
Proof.
  revert prev s. induction k as [|k IH]; intros prev s; cbn [pieces]; auto.
  destruct (first_match r prev s) as [[g m]|] eqn:E; auto. apply first_match_split in E. subst.
  specialize (IH (prev_after prev (g ++ consumed m)) (rest m)). destruct (pieces k r _ (rest m)) as [l tl].
  unfold glue in *. cbn [flat_map fst snd]. rewrite <- !app_assoc. rewrite IH at 1. auto.
Qed.
Lemma sub_spans_pieces l tl repl p :
  sub_spans (spans (length p) l) repl (p ++ glue consumed l tl) (length p) = glue (fun _ => repl) l tl.
Proof.
  revert p. induction l as [|[g m] l IH]; intros p; cbn [spans sub_spans].
  - rewrite skipn_app_exact. auto.
  - cbn [mstart mend]. rewrite skipn_app_exact. unfold glue in *. cbn [flat_map fst snd]. rewrite <- !app_assoc.
    replace (length p + length g - length p) with (length g) by lia. rewrite firstn_app_exact. f_equal. f_equal.
    specialize (IH (p ++ g ++ consumed m)). rewrite !app_length, <- !app_assoc in IH.
    rewrite <- Nat.add_assoc. rewrite IH. auto.
Qed.
Lemma re_sub_pieces r repl s : re_sub r repl s = let (l, tl) := pieces (S (length s)) r None s in glue (fun _ => repl) l tl.
Proof.
  unfold re_sub. rewrite finditer_pieces. pose proof (pieces_glue (S (length s)) r None s) as H.
  destruct (pieces (S (length s)) r None s) as [l tl]. cbn [fst]. rewrite H at 1.
  apply (sub_spans_pieces l tl repl []).
Qed.
Lemma remove_spans_pieces l tl p :
  remove_spans (spans (length p) l) (p ++ glue consumed l tl) = p ++ glue (fun _ => []) l tl.
Proof.
  revert p. induction l as [|[g m] l IH]; intros p; unfold remove_spans in *; cbn [spans rev]; auto.
  rewrite fold_left_app. unfold glue in *. cbn [flat_map fst snd].
  specialize (IH (p ++ g ++ consumed m)). rewrite !app_length, <- !app_assoc in IH. rewrite <- !app_assoc.
  rewrite <- Nat.add_assoc, IH. cbn [fold_left mstart mend]. rewrite app_nil_l.
  rewrite !app_assoc.
  replace (length p + length g) with (length (p ++ g)) by (rewrite app_length; auto).
  rewrite <- !app_assoc. rewrite (app_assoc p g). rewrite firstn_app_exact.
  replace (length p + (length g + length (consumed m))) with (length ((p ++ g) ++ consumed m)) by (rewrite !app_length; lia).
  rewrite (app_assoc (p ++ g) (consumed m)). rewrite skipn_app_exact. rewrite <- app_assoc. auto.
Qed.
Lemma remove_spans_finditer r s :
  remove_spans (finditer r s) s = let (l, tl) := pieces (S (length s)) r None s in glue (fun _ => []) l tl.
Proof.
  rewrite finditer_pieces. pose proof (pieces_glue (S (length s)) r None s) as H.
  destruct (pieces (S (length s)) r None s) as [l tl]. cbn [fst]. rewrite H at 1. apply (remove_spans_pieces l tl []).
Qed.
Lemma match_texts_spans i l :
  match_texts (spans i l) = map (fun gm => match dget Nat.eqb (captured (snd gm)) 1 with Some x => x | None => [] end) l.
Proof. revert i. induction l as [|[g m] l IH]; intros i; cbn; auto. rewrite <- (IH (i + length g + length (consumed m))). auto. Qed.
Lemma pieces_skip sep k r prev c s : re_here r prev (c :: s) = None ->
  (let (l, tl) := pieces (S k) r prev (c :: s) in glue sep l tl) =
  c :: (let (l, tl) := pieces (S k) r (Some c) s in glue sep l tl).
Proof.
  intros H. cbn [pieces first_match]. rewrite H. destruct (first_match r (Some c) s) as [[g m]|]; cbn [option_map].
  - replace (prev_after prev ((c :: g) ++ consumed m)) with (prev_after (Some c) (g ++ consumed m)).
    2:{ change ((c :: g) ++ consumed m) with ([c] ++ (g ++ consumed m)). rewrite (prev_after_app prev [c]). auto. }
    destruct (pieces k r _ (rest m)) as [l tl]. unfold glue. cbn [flat_map fst snd]. rewrite <- !app_assoc. auto.
  - auto.
Qed.
