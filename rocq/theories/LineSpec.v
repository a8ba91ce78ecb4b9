(** What comments, macros and blank clean-up mean, stated without the regex engine. *)
From Coq Require Import Ascii String List Bool Arith.
From Verif Require Import Base WordsSpec.
Import ListNotations.

(** ** Comments *)
(** the text does not end in a blank *)
Definition ends_visible (s : text) : Prop := s = [] \/ exists p c, s = p ++ [c] /\ ~ blank c.
Definition starts_visible (s : text) : Prop := s = [] \/ exists c r, s = c :: r /\ ~ blank c.
Definition has_char (c : ascii) (s : text) : Prop := In c s.

(** [semicolon_parts s b c]: [s] is the block text [b], blanks, ';', blanks, and the comment [c] *)
Definition semicolon_parts (s b c : text) : Prop :=
  exists ws ws', s = b ++ ws ++ ";"%char :: ws' ++ c /\ Forall blank ws /\ Forall blank ws' /\
    ends_visible b /\ starts_visible c /\ ~ In ";"%char b.

(** [bracket_parts s out ins]: outside and inside of the bracket comments of [s], which end at their first ')' *)
Inductive bracket_parts : text -> text -> list text -> Prop :=
| bp_end s : (forall a b, s = a ++ "("%char :: b -> ~ In ")"%char b) -> bracket_parts s s []
| bp_comment a c r out ins :
    ~ In "("%char a -> ~ In ")"%char c -> bracket_parts r out ins ->
    bracket_parts (a ++ "("%char :: c ++ ")"%char :: r) (a ++ out) (c :: ins).

(** a line written as plain pieces with bracket comments in between *)
Definition with_brackets (l : list (text * text)) (last : text) : text :=
  flat_map (fun gc => fst gc ++ "("%char :: snd gc ++ [")"%char]) l ++ last.

(** ** Lines: block and comment part, macro *)
Inductive line_split : text -> text -> option text -> Prop :=
| ls_plain bc ws : ~ In newline bc -> ~ In "%"%char bc -> ends_visible bc -> Forall blank ws ->
    line_split (bc ++ ws) bc None
| ls_macro bc m tl : ~ In newline bc -> ~ In "%"%char bc -> ~ In newline m ->
    (tl = [] \/ exists ws, tl = newline :: ws /\ Forall blank ws) ->
    line_split (bc ++ "%"%char :: m ++ tl) bc (Some ("%"%char :: m)).
(** every newline is followed by blanks only *)
Definition one_line (s : text) : Prop := forall a b, s = a ++ newline :: b -> Forall blank b.
