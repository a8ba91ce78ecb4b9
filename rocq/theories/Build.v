(** Making gcodes in code: the ways of the constructor (gcodes.py:158-183) that GCode.v leaves out. *)
From Coq Require Import List Bool ZArith QArith Qcanon.
From Verif Require Import Base Num Words GTable GCode.
Import ListNotations.

(** gcodes.py:144-146 and the classes that set them: class attributes, inherited *)
Definition word_letter (c : gclass) : option letter := resolve own_word_letter c.
Definition word_value_configurable (c : gclass) : bool := resolve_or own_word_value_configurable c false.

Section WithArith.
Context {ar : Arith}.
(** gcodes.py:166-183 [cls(v, X=..)] with a number as first argument: cast to a word of the class's letter where the
    class allows it, AssertionError elsewhere. Simplified as [mk_gcode_kw] (which of two errors is raised). *)
Definition mk_gcode_number (c : gclass) (v : value) (kws : list (letter * value)) : result gcode :=
  if word_value_configurable c then
    match word_letter c with
    | Some l => do w <- mk_word l v; do ws <- kw_words kws; mk_gcode c w ws
    | None => Raise EAttributeError
    end
  else Raise EAssertionError.
End WithArith.
