(** What pygcode-norm --arc_linearize prints for arcs, as a path. *)
From Coq Require Import Ascii String List Bool Arith ZArith QArith Qcanon Qreals Reals.
From Verif Require Import Base Num Words GTable GCode Line Position Machine Transform WordsSpec PrintSpec BlockSpec GCodeSpec ArithSpec ModeSpec MachSpec SimSpec TransSpec Scripts ScriptArgs ScriptsSpec ScriptsSpec2 ScriptsSpec3 ScriptsSpec5 ScriptsSpec6.
From Verif Require Import Arc ArcSpec FloatArc FloatArcSpec FloatArcSpec3.
Import ListNotations.
Open Scope R_scope.

Section Cutting.
Context {ar : Arith}.
(** where the machine is *)
Definition stands_at (m : machine) (v : vec) : Prop := exists p, machine_pos m = Ok p /\ at_point p v.
(** [g], met in state [m], is an arc from [p] to [q] in the XY plane, in absolute mode, of an ordinary size: no coordinate, radius or distance
    of the centre beyond [M]; its ends apart and the precision [e] well above the rounding errors [u]; nothing near 999999 *)
Definition ordinary (u M e : R) (m : machine) (g : gcode) (relative : bool) (p q : vec) : Prop :=
  derives (gcls g) GCodeArcMove /\ (forall l w x, In (l, w) (gparams g) -> wvalue w = VFloat x -> float x) /\
  absolute m /\ plane_is (mode_class m MG_plane_selection) GCodeSelectXYPlane /\ arc_dist_is (mode_class m MG_arc_ijk_distance) relative /\
  stands_at m p /\ target true g p q /\
  1 <= M /\ inside M p /\ inside M q /\ (forall x, reads g LR x -> Rabs x <= M) /\
  (forall o, lacks g LR -> given_center relative g p o -> apart GCodeSelectXYPlane p o <= M /\ apart GCodeSelectXYPlane q o <= M) /\
  2000 * u * M <= apart GCodeSelectXYPlane p q /\ 2000 * u * M <= e /\ 4 * M + e <= 999999.
(** how far a coordinate up to [N] may be from what is read where it was printed: half a thousandth (and a little), above 999 five digits *)
Definition print_error (N : R) : R := if Rle_dec N 999 then / 1999 else / 1999 + N / 199999.
(** the path [p], [ws] goes around a circle of the arc, its way round and less than a full turn, evenly up or down, and is never further from
    it than the precision [e] allows and [d] *)
Definition cuts (u M : R) (m : arc_method) (e : R) (g : gcode) (relative : bool) (p q : vec) (d : R) (ws : list vec) : Prop :=
  let c := GCodeSelectXYPlane in
  exists o r A ths, nearly_circle g c relative p q o r (165 * u * M) (10 * R_sqrt.sqrt u * M) /\ 0 < A < 2 * PI /\ rising 0 ths A /\
    Forall2 (near_helix c (clockwise g) o p q A d) ths ws /\ Forall (fun ab => forall x, between (fst ab) (snd ab) x -> nearly_allowed m r e d (apart c x o)) (pieces p ws).
(** [part]: the lines printed for a line [x] read in state [m], with the machine after each. A line that is kept; or the gcodes before the arc
    [g], a comment, moves, the gcodes after it. If the arc is ordinary, the machine is at its start before the moves, in [ws] after each,
    and these cut the arc, to the precision and the errors of rounding and printing. *)
Definition cut_line (u : R) (methods : lin_methods) (precision : Qc) (o : options) (m : machine) (x : line * machine) (part : list (line * machine)) : Prop :=
  (exists y, part = [y] /\ same_line (fst x) (fst y) /\ resumed (snd x) (snd y)) \/
  exists a g b before p1 y p2 p3, full_gcodes m (fst x) (a ++ g :: b) /\ swapped o g /\ passes m a before /\
    part = p1 ++ y :: p2 ++ p3 /\ only_gcodes p1 a /\ only_gcodes [y] [] /\ only_gcodes p3 b /\
    forall M relative p q, let e := Qc2R precision in ordinary u M e (last before m) g relative p q ->
      stands_at (snd y) p /\ exists meth ws, lin_method methods (gword g) = Ok meth /\ Forall2 (fun z w => stands_at (snd z) w) p2 ws /\
        (exists before w, ws = before ++ [w] /\ by_each (print_error (4 * M + e)) q w) /\
        cuts u M meth e g relative p q (1500 * u * M + 3 / 2 * print_error (4 * M + e)) ws.
(** line by line *)
Inductive cut_lines (u : R) (methods : lin_methods) (precision : Qc) (o : options) : machine -> list (line * machine) -> list (list (line * machine)) -> Prop :=
| cl_nil m : cut_lines u methods precision o m [] []
| cl_cons m l m1 tr part parts : cut_line u methods precision o m (l, m1) part -> cut_lines u methods precision o m1 tr parts -> cut_lines u methods precision o m ((l, m1) :: tr) (part :: parts).
End Cutting.
