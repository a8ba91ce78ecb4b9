(** What the arguments of pygcode-norm mean: help texts at norm:129-136, 158-162, 211-216. *)
From Coq Require Import Ascii String List Bool Arith.
From Verif Require Import Base LineSpec WordsSpec.
From Verif Require Arc.
Import ListNotations.

(** 'i=inner, o=outer, m=mid' *)
Inductive method_char : ascii -> Arc.arc_method -> Prop :=
| mc_i : method_char "i" Arc.Inside
| mc_o : method_char "o" Arc.Outside
| mc_m : method_char "m" Arc.Mid.
(** [lin_text s cw ccw]: one method for both directions, or two '<cw>,<ccw>'; nothing is the default 'm' *)
Inductive lin_text : text -> Arc.arc_method -> Arc.arc_method -> Prop :=
| lt_none : lin_text [] Arc.Mid Arc.Mid
| lt_one c m : method_char c m -> lin_text [c] m m
| lt_two c d m n : method_char c m -> method_char d n -> lin_text [c; ","%char; d] m n.
(** as given on the command line: Python's $ lets a final newline pass *)
Definition lin_arg (s : text) (cw ccw : Arc.arc_method) : Prop :=
  lin_text s cw ccw \/ exists c, c <> [] /\ s = c ++ [newline] /\ lin_text c cw ccw.

(** [csv s l]: [s] is the elements [l] separated by commas; blanks around a comma belong to no element *)
Inductive csv : text -> list text -> Prop :=
| csv_last x : ~ In ","%char x -> csv x [x]
| csv_more x a b r l :
    ~ In ","%char x -> ends_visible x -> Forall blank a -> Forall blank b -> starts_visible r -> csv r l ->
    csv (x ++ a ++ ","%char :: b ++ r) (x :: l).
