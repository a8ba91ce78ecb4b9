(** What pygcode-norm promises: lines and programs that mean the same. *)
From Coq Require Import Ascii String List Bool Arith ZArith QArith Qcanon Permutation.
From Verif Require Import Base Num Words GTable GCode Line Position Machine Transform Scripts WordsSpec GCodeSpec PrintSpec BlockSpec SimSpec ScriptsSpec.
Import ListNotations.
Local Open Scope nat_scope.

(** same gcodes (parameters in any order), same leftover words, comment and macro *)
Definition same_line (a b : line) : Prop :=
  Forall2 same_gcode (bgcodes (lblock a)) (bgcodes (lblock b)) /\ bmodal (lblock b) = bmodal (lblock a) /\ lcomment b = lcomment a /\ lmacro b = lmacro a.
(** the same lines, and the machine in the same state after each *)
Definition same_reading (a b : list (line * machine)) : Prop :=
  Forall2 (fun x y => same_line (fst x) (fst y) /\ same_machine (snd x) (snd y)) a b.
(** a line whose words print without loss: at most 4 decimals, 6 digits and so on (C06, C07), no leftover word that a gcode of the
    line would take when printed behind it (C24), no text in front of a macro in a ';' comment (C16) *)
Definition faithful {ar : Arith} (l : line) : Prop :=
  Forall (fun w => survives w /\ forall x, wvalue w = VStr x -> Forall plain x) (bwords (lblock l)) /\ separate (lblock l) /\
  forall x, lcomment l = Some (Comment CommentSemicolon x) -> lmacro l = None \/ x = [].
(** the file as [readlines] gives it after the lines were printed *)
Definition printed (ls : list text) : list text := map (fun s => s ++ [newline]) ls.
(** [part]: the lines a line is printed as with --singles: at most one gcode each, together the same gcodes in the order of
    execution, and the machine in the same state at the end *)
Definition singled (x : line * machine) (part : list (line * machine)) : Prop :=
  Forall (fun y => length (bgcodes (lblock (fst y))) <= 1 /\ lcomment (fst y) = lcomment (fst x)) part /\
  Forall2 same_gcode (sort_gcodes (bgcodes (lblock (fst x)))) (flat_map (fun y => bgcodes (lblock (fst y))) part) /\
  flat_map (fun y => bmodal (lblock (fst y))) part = bmodal (lblock (fst x)) /\
  exists before y, part = before ++ [y] /\ same_machine (snd x) (snd y).
(** the line can be split: a line of several gcodes has no leftover words and no macro *)
Definition splits (l : line) : Prop := 2 <= length (bgcodes (lblock l)) -> bmodal (lblock l) = [] /\ lmacro l = None.

(** ** The output of --singles *)
Section Singles.
Context {ar : Arith}.
(** the arguments with --singles alone *)
Definition singles : options := Options true false norm_machine_mode None false default_canned_codes false false None false false false false [] false.
(** a gcode on its own line, followed by the comment of the line *)
Definition single_line (c : option comment) (g : gcode) : text := join [space] (gcode_str g :: match c with Some c => [comment_str c] | None => [] end).
(** the lines printed for a line *)
Definition single_lines (l : line) : list text :=
  if 2 <=? length (bgcodes (lblock l)) then map (single_line (lcomment l)) (sort_gcodes (bgcodes (lblock l))) else [line_str l].
End Singles.
