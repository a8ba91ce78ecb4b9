(** What transformations of gcode sequences promise, stated on machines running them. *)
From Coq Require Import List Bool ZArith QArith Qcanon.
From Verif Require Import Base Num Words GTable GCode Line Position Machine WordsSpec PrintSpec BlockSpec GCodeSpec ArithSpec PosSpec ModeSpec MachSpec.
Import ListNotations.

(** the coordinates a machine reads *)
Definition place {ar : Arith} (m : machine) (v : v9 (option Qc)) : Prop := exists p, machine_pos m = Ok p /\ pvals p = v.
(** a machine made by the constructor and used normally (MachProofs2.v: reachable machines are) *)
Definition ready {ar : Arith} (m : machine) : Prop := sound m /\ inside m /\ in_sync m.
(** executing gcodes one by one; [vs]: the kind of gcode and the coordinates after each *)
Definition spot := (gclass * v9 (option Qc))%type.
Inductive visits {ar : Arith} : machine -> list gcode -> list spot -> machine -> Prop :=
| visits_nil m : visits m [] [] m
| visits_cons m g gs m1 v vs m2 : gcode_process g m = (m1, Ok tt) -> place m1 v -> visits m1 gs vs m2 -> visits m (g :: gs) ((gcls g, v) :: vs) m2.
(** [l] is the path [vs] from [v] without standing still *)
Inductive without_stops : v9 (option Qc) -> list spot -> list spot -> Prop :=
| ws_nil v : without_stops v [] []
| ws_stop v c vs l : without_stops v vs l -> without_stops v ((c, v) :: vs) l
| ws_move v c v' vs l : v' <> v -> without_stops v' vs l -> without_stops v ((c, v') :: vs) ((c, v') :: l).
(** G0 and G1 *)
Definition straight (g : gcode) : Prop := derives (gcls g) GCodeRapidMove \/ derives (gcls g) GCodeLinearMove.
(** a gcode that neither moves the machine nor changes how moves are understood *)
Definition idle (g : gcode) : Prop :=
  ~ is_move g /\ ~ is_canned g /\ ~ in_group MG_motion g /\ ~ in_group MG_distance g /\ ~ in_group MG_coordinate_system g.
(** every axis word is a real movement and there is at least one *)
Definition really_moves (g : gcode) : Prop := (exists a x, names g a x) /\ forall a x, names g a x -> x <> Q2Qc 0.

(** ** Omitting motion words *)
(** the motion word in force after a gcode; G80 clears it *)
Inductive motion_word : option word -> gcode -> option word -> Prop :=
| mw_clear a g : is_g80 g -> motion_word a g None
| mw_set a g : ~ is_g80 g -> in_group MG_motion g -> motion_word a g (Some (gword g))
| mw_keep a g : ~ is_g80 g -> ~ in_group MG_motion g -> motion_word a g a.
(** [out] is [gs] with just those motion words hidden that are already in force ([a]: the motion word before) *)
Inductive hidden : option word -> list gcode -> list gcode -> Prop :=
| hid_nil a : hidden a [] []
| hid_show a g gs b out : ~ (in_group MG_motion g /\ a = Some (gword g)) -> motion_word a g b -> hidden b gs out -> hidden a (g :: gs) (g :: out)
| hid_hide a g gs b out : in_group MG_motion g -> a = Some (gword g) -> motion_word a g b -> hidden b gs out ->
    hidden a (g :: gs) (MkGCode (gcls g) (gword g) (gparams g) true :: out).
(** the printed word is read back as the same word (C06-C08: numbers of at most six digits with up to three decimals) *)
Definition readable {ar : Arith} (w : word) : Prop := survives w /\ forall x, wvalue w = VStr x -> Forall plain x.
