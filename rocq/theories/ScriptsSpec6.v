(** What --canned_expand and --arc_linearize of pygcode-norm promise: the program with moves in the place of cycles and arcs. *)
From Coq Require Import Ascii String List Bool Arith ZArith QArith Qcanon.
From Verif Require Import Base Num Words GTable GCode Line Position Machine Transform WordsSpec PrintSpec BlockSpec GCodeSpec ArithSpec ModeSpec MachSpec SimSpec TransSpec DrillSpec Scripts ScriptsSpec ScriptsSpec2 ScriptsSpec3 ScriptsSpec5.
Import ListNotations.

Section Expanding.
Context {ar : Arith}.
(** executing gcodes one by one; [ms]: the machine after each *)
Inductive passes : machine -> list gcode -> list machine -> Prop :=
| passes_nil m : passes m [] []
| passes_cons m g gs m1 ms : gcode_process g m = (m1, Ok tt) -> passes m1 gs ms -> passes m (g :: gs) (m1 :: ms).
(** the commands the options replace: arcs with --arc_linearize, with --canned_expand the cycles named *)
Definition swapped (o : options) (g : gcode) : Prop :=
  (o_linearize o <> None /\ derives (gcls g) GCodeArcMove) \/ (o_canned_expand o = true /\ named (o_canned_codes o) g).
(** the moves that the generators of transform.py give for the gcode [g], the machine being [m] *)
Definition moves_for (o : options) (fuel : nat) (m : machine) (g : gcode) (moves : list gcode) : Prop :=
  (derives (gcls g) GCodeArcMove /\ exists f, o_linearize o = Some f /\ f m g = (moves, Ok tt)) \/
  (is_canned g /\ exists p, machine_pos m = Ok p /\
     simplify_canned_cycle fuel g p (mode_class m MG_plane_selection) (mode_class m MG_distance) None (m_axes m) = Some (moves, Ok tt)).
(** [w'] is what is read where [w] was printed (C06: within 1/1999 and five digits of it) *)
Definition reads_as (w w' : word) : Prop := wletter w' = wletter w /\ text2words (word_str w) = Ok [w'] /\ forall x, wvalue w = VStr x -> Forall plain x.
(** [h'] is [h] with the parameters as they are read back *)
Definition read_move (h h' : gcode) : Prop :=
  gcls h' = gcls h /\ gword h' = gword h /\ gwhite h' = gwhite h /\ readable (gword h) /\ Forall2 (fun a b => fst b = fst a /\ reads_as (snd a) (snd b)) (gparams h) (gparams h').
(** moves that, as they are read back ([moves']), lead where [g] leads, that is, to the same place and modes *)
Definition stands_for (m : machine) (g : gcode) (moves moves' : list gcode) : Prop :=
  Forall (fun h => straight h /\ gparams h <> [] /\ gcode_wf h /\ gwhite h = false) moves /\ Forall2 read_move moves moves' /\
  exists m1 ms, gcode_process g m = (m1, Ok tt) /\ passes m moves' ms /\ motion_aside m1 (last ms m).
(** the options of this part alone (any --machine_mode); all --canned_codes are those of cycles *)
Definition expanding (o : options) : Prop :=
  o_singles o = false /\ o_full o = false /\ o_rm_invalid_modal o = false /\ o_zero_xy o = false /\ o_zero_z o = false /\ o_spindle_off o = false /\
  o_rm_blanks o = false /\ o_rm_comments o = false /\ o_rm_whitespace o = false /\ o_rm_gcodes o = [] /\
  forall g, gcode_wf g -> named (o_canned_codes o) g -> is_canned g.
(** a line without leftover words where there is a motion command; a program name only alone or behind a line number; all words
    print without loss, also those that the motion mode in force contributes *)
Definition fillable (m : machine) (l : line) : Prop :=
  Forall readable (bwords (lblock l)) /\
  (bmodal (lblock l) <> [] -> Forall (fun g => modal_group (gcls g) <> Some MG_motion) (bgcodes (lblock l)) /\
     forall mo, gm_get (m_mode m) MG_motion = Some mo -> Forall readable (gword mo :: map snd (gparams mo))) /\
  (forall g, In g (bgcodes (lblock l)) -> wletter (gword g) = LO -> bmodal (lblock l) = [] /\ forall h, In h (bgcodes (lblock l)) -> h = g \/ wletter (gword h) = LN).
(** a line the script can handle, read in state [m]; the first list: the gcodes machine.py:435-445 executes for the line *)
Definition tractable (o : options) (fuel : nat) (m : machine) (l : line) : Prop :=
  exists gs, block_modal_gcodes m (lblock l) = Ok gs /\
    ((Forall (fun g => ~ swapped o g) gs /\ faithful l) \/
     exists a g b moves moves' ms, gs = a ++ g :: b /\ swapped o g /\ fillable m l /\ lmacro l = None /\
       passes m a ms /\ moves_for o fuel (last ms m) g moves /\ stands_for (last ms m) g moves moves').
(** the words of a line that has gcodes only *)
Definition only_gcodes (part : list (line * machine)) (gs : list gcode) : Prop :=
  Forall (fun y => bmodal (lblock (fst y)) = []) part /\ Forall2 same_gcode gs (flat_map (fun y => bgcodes (lblock (fst y))) part).
(** a machine in the motion mode that [h] sets *)
Definition in_mode_of (h : gcode) (m : machine) : Prop := exists mo, gm_get (m_mode m) MG_motion = Some mo /\ gcls mo = gcls h /\ gword mo = gword h.
(** [part]: the lines printed for a line [x] read in state [m], with the machine after each.
    Kept: the same line. Replaced: the gcodes before the command, a comment, the moves (the machine passing through the places
    of the moves that replace the command, their words as read back, in their motion modes), the gcodes after it, the comment of the line. *)
Inductive carried (o : options) (fuel : nat) (m : machine) (x : line * machine) : list (line * machine) -> Prop :=
| ca_kept y : same_line (fst x) (fst y) -> resumed (snd x) (snd y) ->
    (forall h, In h (bgcodes (lblock (fst y))) -> ~ swapped o h) -> carried o fuel m x [y]
| ca_moves a g b moves moves' before ms p1 y p2 p3 z part :
    full_gcodes m (fst x) (a ++ g :: b) -> Forall gcode_wf (a ++ g :: b) -> swapped o g -> passes m a before -> moves_for o fuel (last before m) g moves ->
    Forall2 read_move moves moves' -> passes (last before m) moves' ms ->
    part = p1 ++ y :: p2 ++ p3 -> only_gcodes p1 a -> only_gcodes [y] [] -> resumed (last before m) (snd y) -> Forall2 (fun n y => resumed n (snd y)) ms p2 -> Forall2 (fun h y => in_mode_of h (snd y)) moves' p2 -> only_gcodes p3 b ->
    (lcomment (fst x) <> None -> exists w, In w p3 /\ lcomment (fst w) = lcomment (fst x)) ->
    (forall h w, In w part -> In h (bgcodes (lblock (fst w))) -> ~ swapped o h) ->
    (exists before, part = before ++ [z]) -> resumed (snd x) (snd z) -> carried o fuel m x part.
(** line by line *)
Inductive carried_over (o : options) (fuel : nat) : machine -> list (line * machine) -> list (list (line * machine)) -> Prop :=
| co_nil m : carried_over o fuel m [] []
| co_cons m l m1 tr part parts : carried o fuel m (l, m1) part -> carried_over o fuel m1 tr parts -> carried_over o fuel m ((l, m1) :: tr) (part :: parts).
End Expanding.
(** a cycle that moves can replace: a drilling cycle with all its words, about X, Y and Z, in the XY plane, under G98 (norm:342-348 passes
    no return mode), the bottom of the holes not above their top *)
Definition drillable {ar : Arith} (m : machine) (g : gcode) : Prop :=
  is_canned g /\ complete g /\ (exists n, asked g n /\ (0 < n)%nat) /\ (forall a x, names g a x -> In a [AX; AY; AZ]) /\ normal m AZ /\ ~ returns_to_r m /\
  exists p j, machine_pos m = Ok p /\ knows_xyz (pvals p) /\ drilling g (pvals p) (mode_class m MG_distance) j /\ (jd j <= jr j)%Qc.
(** a line the script can handle when only cycles are replaced: the expansion ends within the given number of steps and its words print without loss *)
Definition expandable {ar : Arith} (o : options) (fuel : nat) (m : machine) (l : line) : Prop :=
  exists gs, block_modal_gcodes m (lblock l) = Ok gs /\
    ((Forall (fun g => ~ swapped o g) gs /\ faithful l) \/
     exists a g b ms, gs = a ++ g :: b /\ swapped o g /\ fillable m l /\ lmacro l = None /\ passes m a ms /\ drillable (last ms m) g /\
       forall p, machine_pos (last ms m) = Ok p -> exists moves r,
         simplify_canned_cycle fuel g p (mode_class (last ms m) MG_plane_selection) (mode_class (last ms m) MG_distance) None (m_axes (last ms m)) = Some (moves, r) /\
         Forall (fun h => Forall readable (gword h :: map snd (gparams h))) moves).
