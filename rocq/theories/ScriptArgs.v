(** The argument types of /repo/scripts/pygcode-norm: --arc_lin_method, --canned_codes, --rm_gcodes. *)
From Coq Require Import Ascii String List Bool Arith.
From Verif Require Import Base Num Regex Words GTable GCode Scripts.
From Verif Require Arc.
Import ListNotations.
Local Open Scope nat_scope.

(** norm:55  ^(?P<g2>[iom])(,(?P<g3>[iom]))?$  with IGNORECASE *)
Definition is_iom (c : ascii) : bool := existsb (Ascii.eqb c) (list_ascii_of_string "iomIOM").
Definition RE_LIN : re :=
  Seq Bol (Seq (Grp 1 (Cls is_iom)) (Seq (Opt (Seq (chr ","%char) (Grp 2 (Cls is_iom)))) Eol)).

Section WithArith.
Context {ar : Arith}.

(** norm:47-51 ARC_LIN_CLASS_MAP[s] *)
Definition lin_class (s : text) : result Arc.arc_method :=
  if text_eqb s (t "i") then Ok Arc.Inside
  else if text_eqb s (t "o") then Ok Arc.Outside
  else if text_eqb s (t "m") then Ok Arc.Mid
  else Raise EKeyError.

(** the value of the argument: a defaultdict that always answers ArcLinearizeMid (norm:53), or a dict (norm:59-64) *)
Inductive lin_methods := DefaultMid | Methods (d : list (word * Arc.arc_method)).
(** norm:43-66 [arc_lin_method_type] *)
Definition arc_lin_method_type (s : text) : result lin_methods :=
  match s with
  | [] => Ok DefaultMid
  | _ =>
      match search RE_LIN s with
      | None => Raise EArgumentTypeError
      | Some m =>
          match group m 1 with
          | None => Raise EKeyError          (* cannot happen: the group takes part in every match *)
          | Some g2 =>
              do w2 <- mk_word_str (t "g2"); do c2 <- lin_class g2;
              do w3 <- mk_word_str (t "g3"); do c3 <- lin_class g2;
              let d := dset word_eqb (dset word_eqb [] w2 c2) w3 c3 in
              match group m 2 with
              | Some ((_ :: _) as g3) => do c <- lin_class g3; Ok (Methods (dset word_eqb d w3 c))
              | _ => Ok (Methods d)
              end
          end
      end
  end.
(** norm:330 [args.arc_lin_method[arc.word]] *)
Definition lin_method (d : lin_methods) (w : word) : result Arc.arc_method :=
  match d with
  | DefaultMid => Ok Arc.Mid
  | Methods d => match dget word_eqb d w with Some c => Ok c | None => Raise EKeyError end
  end.

(** [re.split(pattern, s)] for a pattern without groups that never matches the empty text *)
Fixpoint split_spans (ms : list smatch) (s : text) (i : nat) : list text :=
  match ms with
  | [] => [skipn i s]
  | m :: ms' => firstn (mstart m - i) (skipn i s) :: split_spans ms' s (mend m)
  end.
Definition re_split (r : re) (s : text) : list text := split_spans (finditer r s) s 0.

(** norm:75  \s*,\s* *)
Definition RE_COMMA : re := Seq (Star is_space) (Seq (chr ","%char) (Star is_space)).
(** norm:68-78 [word_list_type]; a set, of which only membership is asked (norm:262, 339) *)
Definition word_list_type (s : text) : result (list word) := mapr mk_word_str (re_split RE_COMMA s).
End WithArith.
