(** Drilling cycles that pygcode-norm --canned_expand can replace, and what it prints for them. *)
From Coq Require Import Ascii String List Bool Arith ZArith QArith Qcanon Qabs.
From Verif Require Import Base Num Words GTable GCode Line Position Machine Transform WordsSpec PrintSpec BlockSpec GCodeSpec ArithSpec ModeSpec MachSpec SimSpec TransSpec DrillSpec Scripts ScriptArgs ScriptsSpec ScriptsSpec2 ScriptsSpec3 ScriptsSpec5 ScriptsSpec6 FloatArc ScriptsSpec8.
Import ListNotations.

Section Drilling.
Context {ar : Arith}.
(** in state [m] (absolute mode, X, Y, Z, G17, G98) the cycle [g] drills the [n] holes of [j] from the height [z0]; it has all its words, and those
    of the place of the hole, its top, its bottom and the height print without loss; no height is beyond 998; the expansion ends within the
    given number of steps *)
Definition drill_ready (fuel : nat) (m : machine) (g : gcode) (j : job) (n : nat) (z0 : Qc) : Prop :=
  is_canned g /\ complete g /\ asked g n /\ (0 < n)%nat /\ job_absolute g j /\ (jd j <= jr j)%Qc /\
  (forall a x, names g a x -> In a [AX; AY; AZ] /\ readable (Word (axis_letter a) (VFloat x))) /\ readable (Word LZ (VFloat (jr j))) /\ readable (Word LZ (VFloat z0)) /\
  (Qabs (jr j) <= 998)%Q /\ (Qabs (jd j) <= 998)%Q /\ (Qabs z0 <= 998)%Q /\
  absolute m /\ m_axes m = xyz /\ normal m AZ /\ ~ returns_to_r m /\
  exists p moves r, machine_pos m = Ok p /\ height (pvals p) z0 /\
    simplify_canned_cycle fuel g p (mode_class m MG_plane_selection) (mode_class m MG_distance) None (m_axes m) = Some (moves, r).
(** a line the script can handle when arcs and cycles are replaced *)
Definition replaceable (L : mathlib) (methods : lin_methods) (precision : Qc) (o : options) (fuel : nat) (m : machine) (l : line) : Prop :=
  exists gs, block_modal_gcodes m (lblock l) = Ok gs /\
    ((Forall (fun g => ~ swapped o g) gs /\ faithful l) \/
     exists a g b ms, gs = a ++ g :: b /\ swapped o g /\ fillable m l /\ lmacro l = None /\ passes m a ms /\
       (arc_ready L methods precision (last ms m) g \/ exists j n z0, drill_ready fuel (last ms m) g j n z0)).
(** where a machine is and the kind of move it was told last *)
Definition at_spot (m : machine) (s : spot) : Prop := place m (snd s) /\ exists mo, gm_get (m_mode m) MG_motion = Some mo /\ gcls mo = fst s.
(** [part]: the lines printed for a line [x] read in state [m], with the machine after each. A line that is kept; or the gcodes before the
    command [g], a comment, moves, the gcodes after it. If [g] is a cycle as above that does not start below its bottom, the moves, as
    they are read, are safe: rapid moves only where the hole is free, sideways moves not below the top, feed down and not below the
    bottom; feed is over the holes only, and the tool gets to their bottoms, and back to the height it came from. *)
Definition drilled_line (o : options) (fuel : nat) (m : machine) (x : line * machine) (part : list (line * machine)) : Prop :=
  (exists y, part = [y] /\ same_line (fst x) (fst y) /\ resumed (snd x) (snd y)) \/
  exists a g b before p1 y p2 p3, full_gcodes m (fst x) (a ++ g :: b) /\ swapped o g /\ passes m a before /\
    part = p1 ++ y :: p2 ++ p3 /\ only_gcodes p1 a /\ only_gcodes [y] [] /\ only_gcodes p3 b /\
    forall j n z0, drill_ready fuel (last before m) g j n z0 -> (jd j <= z0)%Qc ->
      exists v l, place (last before m) v /\ place (snd y) v /\ height v z0 /\ Forall2 (fun z s => at_spot (snd z) s) p2 l /\
        safe (jr j) (jd j) v (jr j) l /\ feeds_over j n l /\ bottom_reached j n (map snd l) /\
        exists before c w, l = before ++ [(c, w)] /\ over j n w /\ height w z0.
(** line by line *)
Inductive drilled_lines (o : options) (fuel : nat) : machine -> list (line * machine) -> list (list (line * machine)) -> Prop :=
| dl_nil m : drilled_lines o fuel m [] []
| dl_cons m l m1 tr part parts : drilled_line o fuel m (l, m1) part -> drilled_lines o fuel m1 tr parts -> drilled_lines o fuel m ((l, m1) :: tr) (part :: parts).
End Drilling.
