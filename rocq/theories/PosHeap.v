(** Positions as objects. [Position._value] is a defaultdict (machine.py:54): looking up a key that is not there
    inserts it. In Position.v positions are values and this is left out; here the operations of machine.py:35-181 are
    modelled once more as statements of a program on a list of objects, with what they do to their operands. *)
From Coq Require Import List Bool Arith ZArith QArith Qcanon.
From Verif Require Import Base Num Words GTable GCode Position.
Import ListNotations.

(** [self._value[k]]: the object afterwards *)
Definition look (p : position) (a : axis) : position :=
  match vget (pvals p) a with
  | Some _ => p
  | None => Pos (paxes p) (punit p) (vset (pvals p) a (Some (Q2Qc 0)))
  end.
Definition looks (p : position) (l : list axis) : position := fold_left look l p.
Definition keys (p : position) : list axis := filter (fun a => match vget (pvals p) a with Some _ => true | None => false end) all_axes.

Inductive statement :=
| SNew (axes : axset) (unit : Z) (coords : list (axis * Qc))   (* Position(axes, unit=u, X=...) *)
| SCopy (i : nat)                                              (* copy(p) *)
| SGet (i : nat) (a : axis)                                    (* p.X *)
| SSet (i : nat) (a : axis) (x : Qc)                           (* p.X = x, p.update(X=x) *)
| SSetUnit (i : nat) (u : Z)                                   (* p.unit = u *)
| SVector (i : nat)                                            (* p.vector *)
| SWords (i : nat)                                             (* p.words *)
| SEq (i j : nat)                                              (* p == q *)
| SAdd (i j : nat) | SSub (i j : nat)                          (* p + q, p - q *)
| SMul (i : nat) (x : Qc) | SDiv (i : nat) (x : Qc)            (* p * x, p / x *)
| SMin (i j : nat) | SMax (i j : nat).                         (* Position.min(p, q), Position.max(p, q) *)
(** what the program sees; [SeenNew]: a new object was made and is the last of the list *)
Inductive seen := SeenNothing | SeenNumber (x : Qc) | SeenVector (x y z : Qc) | SeenWords (ws : list word) | SeenTruth (b : bool) | SeenNew | SeenError (e : exn).

Fixpoint replace (st : list position) (i : nat) (p : position) : list position :=
  match st, i with
  | [], _ => []
  | _ :: r, O => p :: r
  | q :: r, S k => q :: replace r k p
  end.

Section WithArith.
Context {ar : Arith}.
Definition made (st : list position) (r : result position) : list position * seen :=
  match r with Ok p => (st ++ [p], SeenNew) | Raise e => (st, SeenError e) end.
(** machine.py:57-58: a new object with the same axes, unit and values *)
Definition copy_of (p : position) : position := Pos (paxes p) (punit p) (pvals p).

Definition exec1 (st : list position) (c : statement) : list position * seen :=
  let with1 i (f : position -> list position * seen) := match nth_error st i with Some p => f p | None => (st, SeenNothing) end in
  let with2 i j (f : position -> position -> list position * seen) := with1 i (fun p => with1 j (f p)) in
  match c with
  | SNew axes u coords => made st (Ok (mk_position axes u coords))
  | SCopy i => with1 i (fun p => made st (Ok (copy_of p)))
  | SGet i a => with1 i (fun p => match pos_getattr p a with               (* 65-72 *)
                                  | Ok x => (replace st i (look p a), SeenNumber x)
                                  | Raise e => (st, SeenError e)
                                  end)
  | SSet i a x => with1 i (fun p => match pos_setattr p a x with           (* 74-80 *)
                                    | Ok p' => (replace st i p', SeenNothing)
                                    | Raise e => (st, SeenError e)
                                    end)
  | SSetUnit i u => with1 i (fun p => (replace st i (pos_set_unit p u), SeenNothing))
  | SVector i => with1 i (fun p => (replace st i (looks p [AX; AY; AZ]), SeenVector (pval p AX) (pval p AY) (pval p AZ)))  (* 179-181 *)
  | SWords i => with1 i (fun p => (replace st i (looks p (filter (vget (paxes p)) all_axes)), SeenWords (pos_words p)))    (* 171-173 *)
  | SEq i j => with2 i j (fun p q => match pos_eqb p q with Ok b => (st, SeenTruth b) | Raise e => (st, SeenError e) end)
  | SAdd i j => with2 i j (fun p q => match pos_add p q with               (* 98-104: [other._value[k]] for every key of the copy of p *)
                                      | Ok r => made (replace st j (looks q (keys p))) (Ok r)
                                      | Raise e => (st, SeenError e)
                                      end)
  | SSub i j => with2 i j (fun p q => made st (pos_sub p q))               (* 106-112: only keys q has *)
  | SMul i x => with1 i (fun p => made st (Ok (pos_mul p x)))
  | SDiv i x => with1 i (fun p => made st (pos_div p x))
  | SMin i j => with2 i j (fun p q => made st (pos_min p q))               (* 142-168: only keys p has, through [getattr] *)
  | SMax i j => with2 i j (fun p q => made st (pos_max p q))
  end.
Definition exec (cs : list statement) : list position := fold_left (fun st c => fst (exec1 st c)) cs [].
End WithArith.
