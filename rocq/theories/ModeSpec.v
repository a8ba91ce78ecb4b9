(** What the machine's mode is, and histories of a machine. *)
From Coq Require Import List Bool ZArith QArith Qcanon.
From Verif Require Import Base Num Words GTable GCode Line Position Machine GCodeSpec PosSpec.
Import ListNotations.

(** the only gcode class that clears the motion mode (G80) *)
Definition is_g80 (g : gcode) : Prop := derives (gcls g) GCodeCancelCannedCycle.
Definition in_group (mg : mgroup) (g : gcode) : Prop := modal_group (gcls g) = Some mg.
(** the word of a gcode names its class: true of every gcode read from text *)
Definition proper {ar : Arith} (g : gcode) : Prop := word_gcode_class (gword g) = Some (gcls g).

(** what may stand for group [mg]: a gcode of that group with modal parameters only *)
Definition stored (mg : mgroup) (g : gcode) : Prop :=
  in_group mg g /\ legal g /\ gwhite g = false /\ forall kv, In kv (gparams g) -> In (fst kv) (modal_param_letters (gcls g)).
Definition mode_wf (md : mode) : Prop := forall mg g, gm_get md mg = Some g -> stored mg g.

(** everything a user may do to a machine; an action that raises leaves the machine as the step says *)
Inductive action :=
| Process (gs : list gcode) (ps : list word)      (* process_gcodes / process_block *)
| SetMode (gs : list gcode)                       (* machine.set_mode *)
| Assign (mg : mgroup) (v : option gcode)         (* machine.mode.<group> = v *)
| SetPos (p : position)                           (* machine.pos = p *)
| MoveTo (cs : list coord)                        (* machine.move_to *)
| SetOffset (p : position)                        (* machine.state.offset = p *)
| SetSystem (i : Z) (p : position).               (* machine.state.coord_systems[i].offset = p *)
Section WithArith.
Context {ar : Arith}.
Definition do_action (a : action) : step :=
  match a with
  | Process gs ps => process_gcodes gs ps
  | SetMode gs => machine_set_mode gs
  | Assign mg v => atomic_step (fun m => do md <- mode_setattr (m_mode m) mg v; Ok (with_mode m md))
  | SetPos p => set_pos p
  | MoveTo cs => move_to cs
  | SetOffset p => atomic_step (fun m => Ok (with_state m (State (coord_systems (m_state m)) (cur_coord_sys (m_state m)) p)))
  | SetSystem i p => atomic_step (fun m => match coord_systems (m_state m) with
      | CSDict d => if dmem Z.eqb d i then Ok (with_state m (State (CSDict (dset Z.eqb d i p)) (cur_coord_sys (m_state m)) (st_offset (m_state m)))) else Raise EKeyError
      | CSInts _ => Raise EAttributeError
      end)
  end.
(** the gcodes an action brings in *)
Definition action_gcodes (a : action) : list gcode :=
  match a with Process gs _ | SetMode gs => gs | Assign _ (Some g) => [g] | _ => [] end.
Definition history (l : list action) (m : machine) : machine := fold_left (fun m a => fst (do_action a m)) l m.

(** running a program: the blocks succeed one after the other, executing the gcodes [gs] *)
Inductive runs : machine -> list block -> list gcode -> machine -> Prop :=
| runs_nil m : runs m [] [] m
| runs_cons m b bs m1 gs l m2 : block_modal_gcodes m b = Ok gs -> process_block b m = (m1, Ok tt) -> runs m1 bs l m2 -> runs m (b :: bs) (gs ++ l) m2.
End WithArith.
