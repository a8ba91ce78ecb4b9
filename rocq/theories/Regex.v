(** The fragment of Python's [re] used by the code, with its prioritised backtracking semantics.

    [mtch r prev s] lists all ways [r] can match a prefix of [s], in the order the backtracking
    engine tries them (the first one is the match Python returns). [prev] is the character
    before the current position ([None] at the start of the subject), needed by [^].
    Stars only range over character classes, which is all the code uses. *)
From Coq Require Import Ascii String List Bool Arith.
From Verif Require Import Base.
Import ListNotations.
Set Implicit Arguments.

Inductive re :=
| Eps
| Cls (f : ascii -> bool)
| Seq (a b : re)
| Alt (a b : re)
| Star (f : ascii -> bool)        (* greedy [f]* *)
| StarLazy (f : ascii -> bool)    (* [f]*? *)
| Opt (a : re)                    (* greedy ? *)
| Grp (n : nat) (a : re)          (* capturing group number n *)
| Bol                             (* ^ without MULTILINE *)
| Eol                             (* $ without MULTILINE: at the end, or before a final newline *)
| BolM | EolM.                    (* ^ $ with MULTILINE *)

Definition plus (f : ascii -> bool) : re := Seq (Cls f) (Star f).
Definition chr (c : ascii) : re := Cls (Ascii.eqb c).

Definition caps := list (nat * text).
Record mres := MRes { consumed : text; captured : caps; rest : text }.

Fixpoint star_opts (f : ascii -> bool) (s : text) : list mres :=
  match s with
  | [] => [MRes [] [] []]
  | c :: s' =>
      if f c then map (fun m => MRes (c :: consumed m) [] (rest m)) (star_opts f s') ++ [MRes [] [] s]
      else [MRes [] [] s]
  end.

Definition prev_after (prev : option ascii) (c : text) : option ascii :=
  match c with [] => prev | x :: _ => Some (last c x) end.

Fixpoint mtch (r : re) (prev : option ascii) (s : text) : list mres :=
  match r with
  | Eps => [MRes [] [] s]
  | Cls f => match s with c :: s' => if f c then [MRes [c] [] s'] else [] | [] => [] end
  | Seq a b =>
      flat_map (fun m => map (fun m' => MRes (consumed m ++ consumed m') (captured m ++ captured m') (rest m'))
                             (mtch b (prev_after prev (consumed m)) (rest m)))
               (mtch a prev s)
  | Alt a b => mtch a prev s ++ mtch b prev s
  | Star f => star_opts f s
  | StarLazy f => rev (star_opts f s)
  | Opt a => mtch a prev s ++ [MRes [] [] s]
  | Grp n a => map (fun m => MRes (consumed m) ((n, consumed m) :: captured m) (rest m)) (mtch a prev s)
  | Bol => match prev with None => [MRes [] [] s] | _ => [] end
  | Eol => match s with
           | [] => [MRes [] [] s]
           | [c] => if is_newline c then [MRes [] [] s] else []
           | _ => []
           end
  | BolM => match prev with
            | None => [MRes [] [] s]
            | Some c => if is_newline c then [MRes [] [] s] else []
            end
  | EolM => match s with
            | [] => [MRes [] [] s]
            | c :: _ => if is_newline c then [MRes [] [] s] else []
            end
  end.

(** match at the current position *)
Definition re_here (r : re) (prev : option ascii) (s : text) : option mres := hd_error (mtch r prev s).

Record smatch := SMatch { mstart : nat; mend : nat; mtext : text; mcaps : caps }.

(** [pattern.search(s)], from index [i] *)
Fixpoint search_from (r : re) (i : nat) (prev : option ascii) (s : text) : option smatch :=
  match re_here r prev s with
  | Some m => Some (SMatch i (i + length (consumed m)) (consumed m) (captured m))
  | None => match s with
            | [] => None
            | c :: s' => search_from r (S i) (Some c) s'
            end
  end.
Definition search (r : re) (s : text) : option smatch := search_from r 0 None s.

(** [pattern.group(name)]: [None] if the group did not take part in the match *)
Definition group (m : smatch) (n : nat) : option text := dget Nat.eqb (mcaps m) n.

Definition prev_at (s : text) (i : nat) : option ascii :=
  match i with 0 => None | S j => nth_error s j end.

(** [list(pattern.finditer(s))] for a pattern that never matches the empty text:
    scanning resumes where the last match ended. *)
Fixpoint finditer_fuel (fuel : nat) (r : re) (s : text) (i : nat) : list smatch :=
  match fuel with
  | 0 => []
  | S k =>
      match search_from r i (prev_at s i) (skipn i s) with
      | None => []
      | Some m => m :: finditer_fuel k r s (mend m)
      end
  end.
Definition finditer (r : re) (s : text) : list smatch := finditer_fuel (S (length s)) r s 0.

(** [re.sub(pattern, repl, s)], same restriction *)
Fixpoint sub_spans (ms : list smatch) (repl : text) (s : text) (i : nat) : text :=
  match ms with
  | [] => skipn i s
  | m :: ms' => firstn (mstart m - i) (skipn i s) ++ repl ++ sub_spans ms' repl s (mend m)
  end.
Definition re_sub (r : re) (repl : text) (s : text) : text := sub_spans (finditer r s) repl s 0.
