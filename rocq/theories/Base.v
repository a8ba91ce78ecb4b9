(** Texts, exceptions as values, dictionaries, stable sorting.
    Python built-ins the code of /repo relies on, restricted to what it uses. *)
From Coq Require Import Ascii String List Bool Arith ZArith Lia.
Import ListNotations.
Set Implicit Arguments.

(** ** Text: Python [str] restricted to code points 0..255. *)
Definition text := list ascii.
Definition t (s : string) : text := list_ascii_of_string s.
Definition to_string (s : text) : string := string_of_list_ascii s.

Definition code (c : ascii) : nat := nat_of_ascii c.

(** [\d] on code points below 256: only '0'..'9'. *)
Definition is_digit (c : ascii) : bool := (48 <=? code c) && (code c <=? 57).
(** [\s] of Python 3 [re] on str, code points below 256: 9-13, 28-32, 133, 160. *)
Definition is_space (c : ascii) : bool :=
  ((9 <=? code c) && (code c <=? 13)) || ((28 <=? code c) && (code c <=? 32))
  || (code c =? 133) || (code c =? 160).
(** Blanks that [float()] and [int()] strip: as [\s] but without 28-31
    (CPython translates those to '?' before parsing, hence ValueError). *)
Definition is_numspace (c : ascii) : bool := is_space c && negb ((28 <=? code c) && (code c <=? 31)).
Definition newline : ascii := ascii_of_nat 10.
Definition is_newline (c : ascii) : bool := code c =? 10.
(** [.] without DOTALL: anything but newline. *)
Definition is_dot (c : ascii) : bool := negb (is_newline c).

Definition text_eqb (a b : text) : bool :=
  if list_eq_dec ascii_dec a b then true else false.

(** Python's comparison of strings: lexicographic on code points. *)
Fixpoint text_compare (a b : text) : comparison :=
  match a, b with
  | [], [] => Eq
  | [], _ :: _ => Lt
  | _ :: _, [] => Gt
  | x :: a', y :: b' => match Nat.compare (code x) (code y) with Eq => text_compare a' b' | c => c end
  end.

Fixpoint join (sep : text) (l : list text) : text :=
  match l with
  | [] => []
  | [x] => x
  | x :: l' => x ++ sep ++ join sep l'
  end.

Definition space : ascii := " "%char.

(** ** Exceptions. One constructor per exception class the code can raise. *)
Inductive exn :=
| EGCodeWordStrError          (* pygcode.exceptions *)
| EGCodeParameterError
| EMachineInvalidAxis
| EMachineInvalidState
| EValueError                 (* Python *)
| EKeyError
| EIndexError
| ETypeError
| EAttributeError
| EAssertionError
| ENameError
| ENotImplementedError
| ERuntimeError
| EZeroDivisionError
| EArgumentTypeError
| EOutOfFuel                  (* not a Python exception: the model's recursion bound; proved unreachable *)
| ENotModelled.               (* an input form the model does not cover *)

Inductive result (A : Type) := Ok (a : A) | Raise (e : exn).
Arguments Ok {A} a.
Arguments Raise {A} e.

Definition bind {A B} (r : result A) (f : A -> result B) : result B :=
  match r with Ok a => f a | Raise e => Raise e end.
Definition rmap {A B} (f : A -> B) (r : result A) : result B :=
  match r with Ok a => Ok (f a) | Raise e => Raise e end.
Declare Scope res_scope.
Delimit Scope res_scope with res.
Notation "'do' x <- r ; k" := (bind r (fun x => k)) (at level 200, x pattern, r at level 100, k at level 200) : res_scope.
Open Scope res_scope.

(** ** Dictionaries in insertion order (CPython >= 3.7). *)
Section Dict.
  Variables (K V : Type) (eqb : K -> K -> bool).
  Definition dict := list (K * V).
  Fixpoint dget (d : dict) (k : K) : option V :=
    match d with
    | [] => None
    | (k', v) :: d' => if eqb k k' then Some v else dget d' k
    end.
  (** [d[k] = v]: replaces in place or appends. *)
  Fixpoint dset (d : dict) (k : K) (v : V) : dict :=
    match d with
    | [] => [(k, v)]
    | (k', v') :: d' => if eqb k k' then (k', v) :: d' else (k', v') :: dset d' k v
    end.
  (** [d.pop(k, None)] *)
  Fixpoint dpop (d : dict) (k : K) : dict :=
    match d with
    | [] => []
    | (k', v') :: d' => if eqb k k' then d' else (k', v') :: dpop d' k
    end.
  Definition dmem (d : dict) (k : K) : bool := match dget d k with Some _ => true | None => false end.
  (** [d.update(pairs)] / [dict(pairs)] *)
  Definition dupdate (d : dict) (l : list (K * V)) : dict :=
    fold_left (fun d kv => dset d (fst kv) (snd kv)) l d.
End Dict.

(** ** [sorted(l, key=f)] with integer keys: stable. *)
Section Sort.
  Variables (A : Type) (key : A -> Z).
  Fixpoint insert (x : A) (l : list A) : list A :=
    match l with
    | [] => [x]
    | y :: l' => if (key x <=? key y)%Z then x :: y :: l' else y :: insert x l'
    end.
  Fixpoint sort (l : list A) : list A :=
    match l with [] => [] | x :: l' => insert x (sort l') end.
End Sort.
