(** Machine state, mode and processing: /repo/src/pygcode/machine.py:191-570 and the [_process]
    methods of gcodes.py.

    A method that changes the machine and may raise is a [step]: it returns the machine as it is
    left behind together with the outcome, so what a failing call already changed is visible. *)
From Coq Require Import Ascii String List Bool Arith ZArith QArith Qcanon.
From Verif Require Import Base Num Regex Words GTable GCode Line Position.
Import ListNotations.
Open Scope Z_scope.

(** machine.py:191-222. [coord_systems] is a dict {1..9: CoordinateSystem} (a coordinate system is
    just its offset); State.__copy__ turns it into the list of the dict's keys. *)
Inductive coord_table := CSDict (d : dict Z position) | CSInts (l : list Z).
Record state := State {
  coord_systems : coord_table;
  cur_coord_sys : option Z;      (* None after selecting the abstract GCodeSelectCoordinateSystem *)
  st_offset : position           (* G92 offset *)
}.
Definition zero_pos (axes : axset) : position := mk_position axes default_unit [].
(** machine.py:213-223 *)
Definition new_state (axes : axset) : state :=
  State (CSDict (map (fun i => (i, zero_pos axes)) [1; 2; 3; 4; 5; 6; 7; 8; 9])) (Some 1) (zero_pos axes).
(** machine.py:243-247: iterating a dict yields its keys *)
Definition state_copy (axes : axset) (s : state) : state :=
  State (CSInts (match coord_systems s with CSDict d => map fst d | CSInts l => l end))
        (cur_coord_sys (new_state axes)) (st_offset s).

(** machine.py:264-293: the mode is the dict [modal_groups] *)
Definition mode := gmap gcode.

Record machine := Machine {
  m_mode : mode;
  m_state : state;
  m_abs : position;        (* abs_pos *)
  m_min : position;        (* abs_range_min *)
  m_max : position;        (* abs_range_max *)
  m_axes : axset;          (* class attribute axes *)
  m_ignore : bool          (* class attribute ignore_invalid_modal *)
}.
Definition with_mode (m : machine) (x : mode) := Machine x (m_state m) (m_abs m) (m_min m) (m_max m) (m_axes m) (m_ignore m).
Definition with_state (m : machine) (x : state) := Machine (m_mode m) x (m_abs m) (m_min m) (m_max m) (m_axes m) (m_ignore m).
Definition with_abs (m : machine) (x : position) := Machine (m_mode m) (m_state m) x (m_min m) (m_max m) (m_axes m) (m_ignore m).
Definition with_min (m : machine) (x : position) := Machine (m_mode m) (m_state m) (m_abs m) x (m_max m) (m_axes m) (m_ignore m).
Definition with_max (m : machine) (x : position) := Machine (m_mode m) (m_state m) (m_abs m) (m_min m) x (m_axes m) (m_ignore m).

Definition step := machine -> machine * result unit.
Definition ok_step : step := fun m => (m, Ok tt).
Definition then_step (a b : step) : step := fun m =>
  match a m with
  | (m', Ok _) => b m'
  | (m', Raise e) => (m', Raise e)
  end.
(** run an action that computes the new machine or raises without changing it *)
Definition atomic_step (f : machine -> result machine) : step := fun m =>
  match f m with Ok m' => (m', Ok tt) | Raise e => (m, Raise e) end.
Fixpoint steps (l : list step) : step :=
  match l with [] => ok_step | s :: l' => then_step s (steps l') end.

Section WithArith.
Context {ar : Arith}.

(** ** Mode *)
(** machine.py:314-318 for one gcode *)
Definition mode_set1 (md : mode) (g : gcode) : result mode :=
  match modal_group (gcls g) with
  | None => Ok md
  | Some mg => do c <- modal_copy g; Ok (gm_set md mg (Some c))
  end.
Fixpoint mode_set_list (md : mode) (gs : list gcode) : result mode :=
  match gs with
  | [] => Ok md
  | g :: gs' => do md' <- mode_set1 md g; mode_set_list md' gs'
  end.
(** machine.py:307-319 [Mode.set_mode]. Simplified: if modal_copy raised half way the mode would be
    partly updated; it never raises (C27). *)
Definition mode_set (md : mode) (gs : list gcode) : result mode := mode_set_list md (sort_gcodes gs).

(** machine.py:330-343 [mode.<group> = value] *)
Definition mode_setattr (md : mode) (mg : mgroup) (v : option gcode) : result mode :=
  match v with
  | None => Ok (gm_set md mg None)
  | Some g =>
      match modal_group (gcls g) with
      | Some mg' => if mgroup_eqb mg' mg then do c <- modal_copy g; Ok (gm_set md mg (Some c))
                    else Raise EMachineInvalidState
      | None => Raise EMachineInvalidState
      end
  end.

(** machine.py:347-354 [mode.gcodes] *)
Definition mode_gcodes (md : mode) : list gcode :=
  flat_map (fun mg => match gm_get md mg with Some g => [g] | None => [] end) all_mgroups.
(** machine.py:356-357 *)
Definition mode_str (md : mode) : text := join [space] (map gcode_str (mode_gcodes md)).

(** machine.py:271-288 [default_mode]; line 298 splits it into its lines, stripped of blanks on the left
    (comments kept, each line is parsed by Line) *)
Definition default_mode_lines : list text := map t [
  "G0      (movement: rapid)";
  "G17     (plane_selection: X/Y plane)";
  "G90     (distance: absolute position. ie: not ""turtle"" mode)";
  "G91.1   (arc_ijk_distance: IJK sets arc center vertex relative to current position)";
  "G94     (feed_rate_mode: feed-rate defined in units/min)";
  "G21     (units: mm)";
  "G40     (cutter_diameter_comp: no compensation)";
  "G49     (tool_length_offset: no offset)";
  "G54     (coordinate_system: 1)";
  "G61     (control_mode: exact path mode)";
  "G97     (spindle_speed_mode: RPM Mode)";
  "M5      (spindle: off)";
  "M9      (coolant: off)";
  "F0      (feed_rate: 0)";
  "S0      (spindle_speed: 0)";
  "T0      (tool: 0)" ]%string.
Fixpoint lines_gcodes (ls : list text) : result (list gcode) :=
  match ls with
  | [] => Ok []
  | l :: r => do ln <- mk_line l; do gs <- lines_gcodes r; Ok (bgcodes (lblock ln) ++ gs)
  end.
(** machine.py:292-300 *)
Definition new_mode (lines : list text) : result mode :=
  do gs <- lines_gcodes lines; mode_set gm_empty gs.

(** ** Machine *)
(** machine.py:375-390; [lines]: the default_mode of MODE_CLASS (none for NullMachine) *)
Definition new_machine (axes : axset) (ignore : bool) (lines : list text) : result machine :=
  do md <- new_mode lines;
  do u <- match gm_get md MG_units with
          | None => Ok default_unit
          | Some g => match unit_id (gcls g) with Some u => Ok u | None => Raise EAttributeError end
          end;
  let p := mk_position axes u [] in
  Ok (Machine md (new_state axes) p p p axes ignore).
Definition xyz : axset := axset_of [AX; AY; AZ].   (* machine.py:372 *)
Definition default_machine : result machine := new_machine xyz false default_mode_lines.
Definition null_machine : result machine := new_machine xyz false [].

(** machine.py:392-399 (mode: deep copy, i.e. the same value) *)
Definition machine_copy (m : machine) : machine := with_state m (state_copy (m_axes m) (m_state m)).

(** machine.py:401-407 *)
Definition machine_set_mode (gs : list gcode) : step := atomic_step (fun m =>
  do md <- mode_set (m_mode m) gs;
  let m' := with_mode m md in
  match gm_get md MG_coordinate_system with
  | None => Ok m'
  | Some g => match coord_system_id (gcls g) with
              | None => Raise EAttributeError
              | Some i => Ok (with_state m' (State (coord_systems (m_state m)) i (st_offset (m_state m))))
              end
  end).

(** machine.py:411-451 *)
Definition machine_modal_gcode (m : machine) (modal_params : list word) : result (option gcode) :=
  match modal_params with
  | [] => Ok None
  | _ =>
      do (gs, unassigned) <-
        match gm_get (m_mode m) MG_motion with
        | None => Ok ([], modal_params)
        | Some mo =>
            let params := dupdate letter_eqb (gparams mo) (map (fun w => (wletter w, w)) modal_params) in
            words2gcodes (gword mo :: map snd params)
        end;
      if (match unassigned with [] => false | _ => true end) && negb (m_ignore m)
      then Raise EMachineInvalidState
      else match gs with
           | [] => Ok None
           | [g] => Ok (Some g)
           | _ => Raise EAssertionError
           end
  end.

(** machine.py:453-464 *)
Definition block_modal_gcodes (m : machine) (b : block) : result (list gcode) :=
  do og <- machine_modal_gcode m (bmodal b);
  Ok (sort_gcodes (bgcodes b ++ match og with Some g => [g] | None => [] end)).

(** [list.remove(w)]: the first equal element; ValueError if there is none *)
Fixpoint list_remove (w : word) (l : list word) : result (list word) :=
  match l with
  | [] => Raise EValueError
  | x :: l' => if word_eqb x w then Ok l' else do r <- list_remove w l'; Ok (x :: r)
  end.
Fixpoint list_remove_all (ws l : list word) : result (list word) :=
  match ws with [] => Ok l | w :: r => do l' <- list_remove w l; list_remove_all r l' end.
(** machine.py:466-483 (the block as it is left) *)
Definition clean_block (m : machine) (b : block) : result block :=
  match gm_get (m_mode m) MG_motion with
  | None => Ok (Block (bwords b) (bgcodes b) [])
  | Some mo =>
      if existsb (fun g => match modal_group (gcls g) with Some MG_motion => true | _ => false end) (bgcodes b)
      then Ok (Block (bwords b) (bgcodes b) [])
      else do (_, unassigned) <- words2gcodes (gword mo :: bmodal b);
           do l <- list_remove_all unassigned (bmodal b);
           Ok (Block (bwords b) (bgcodes b) l)
  end.

(** machine.py:523, 529: [getattr(self.state.coord_sys, 'offset', Position(axes=self.axes))] and 250-254 *)
Definition coord_sys_offset (m : machine) : result position :=
  match coord_systems (m_state m), cur_coord_sys (m_state m) with
  | CSDict d, Some i => match dget Z.eqb d i with Some p => Ok p | None => Ok (zero_pos (m_axes m)) end
  | CSInts l, Some i =>
      if existsb (Z.eqb i) l then
        match nth_error l (Z.to_nat i) with
        | Some _ => Ok (zero_pos (m_axes m))     (* an int has no attribute 'offset' *)
        | None => Raise EIndexError
        end
      else Ok (zero_pos (m_axes m))
  | _, None => Ok (zero_pos (m_axes m))
  end.
(** machine.py:521-525 *)
Definition abs2work (m : machine) (p : position) : result position :=
  do o <- coord_sys_offset m; do q <- pos_sub p o; pos_sub q (st_offset (m_state m)).
(** machine.py:527-531 *)
Definition work2abs (m : machine) (p : position) : result position :=
  do o <- coord_sys_offset m; do q <- pos_add p (st_offset (m_state m)); pos_add q o.
(** machine.py:533-536 *)
Definition machine_pos (m : machine) : result position := abs2work m (m_abs m).
(** machine.py:538-546 *)
Definition set_pos (p : position) : step :=
  then_step (atomic_step (fun m => do a <- work2abs m p; Ok (with_abs m a)))
  (then_step (atomic_step (fun m => do x <- pos_min (m_abs m) (m_min m); Ok (with_min m x)))
             (atomic_step (fun m => do x <- pos_max (m_abs m) (m_max m); Ok (with_max m x)))).

(** a coordinate given to move_to; [None] is Python's None *)
Definition coord := (axis * option Qc)%type.
(** machine.py:549-557 *)
Definition is_incremental (m : machine) : bool :=
  match gm_get (m_mode m) MG_distance with
  | Some g => subclass (gcls g) GCodeIncrementalDistanceMode
  | None => false
  end.
Definition some_coords (cs : list coord) : list (axis * Qc) :=
  flat_map (fun c => match snd c with Some x => [(fst c, x)] | None => [] end) cs.
Definition move_to (cs : list coord) : step := fun m =>
  match machine_pos m with
  | Raise e => (m, Raise e)
  | Ok p =>
      if is_incremental m then
        (* 552-553: [pos + delta]; a None on an axis of the machine makes the addition fail *)
        if existsb (fun c => match snd c, vget (pvals p) (fst c) with None, Some _ => true | _, _ => false end) cs
        then (m, Raise ETypeError)
        else match pos_add p (mk_position (m_axes m) default_unit (some_coords cs)) with
             | Raise e => (m, Raise e)
             | Ok q => set_pos q m
             end
      else
        (* 555-557: update sets the attributes one by one; a None makes the conversion in the setter fail *)
        if existsb (fun c => negb (vget (paxes p) (fst c))) cs then (m, Raise EMachineInvalidAxis)
        else if existsb (fun c => match snd c with None => true | _ => false end) cs then (m, Raise ETypeError)
        else match pos_update p (some_coords cs) with
             | Raise e => (m, Raise e)
             | Ok q => set_pos q m
             end
  end.

(** ** gcodes: the [_process] methods *)
Definition num_of_value (v : value) : option Qc :=
  match v with VFloat x => Some x | VInt z => Some (Qc_of_Z z) | VStr _ => None end.
(** [self.get_param_dict(letters=machine.axes)] as coordinates *)
Definition axis_letters (m : machine) : list letter :=
  map axis_letter (filter (vget (m_axes m)) all_axes).
Definition gcode_coords (m : machine) (g : gcode) : list coord :=
  flat_map (fun kv => match axis_of_letter (fst kv) with Some a => [(a, num_of_value (snd kv))] | None => [] end)
    (get_param_dict g (Some (axis_letters m))).

Fixpoint repeat_step (n : nat) (s : step) : step :=
  match n with O => ok_step | S k => then_step s (repeat_step k s) end.

(** gcodes.py:545-561 *)
Definition canned_process (g : gcode) : step := fun m =>
  let coords := gcode_coords m g in
  let returns_to_r := match gm_get (m_mode m) MG_canned_cycles_return with
                      | Some r => subclass (gcls r) GCodeCannedCycleReturnToR | None => false end in
  match gm_get (m_mode m) MG_plane_selection with
  | None => (m, Raise EAttributeError)
  | Some pl =>
      match normal_axis (gcls pl) with
      | None => (m, Raise EAttributeError)
      | Some na =>
          let go (cs : list coord) : machine * result unit :=
            match gcode_getattr g LL with
            | Raise e => (m, Raise e)
            | Ok l =>
                let n := match l with
                         | Some (VInt z) => if z <=? 0 then 1 else z
                         | _ => 1
                         end in
                repeat_step (Z.to_nat n) (move_to cs) m
            end in
          if returns_to_r then
            match gcode_getattr g LR with
            | Raise e => (m, Raise e)
            | Ok r =>
                match na with
                | None =>  (* the key None: move_to( **{None: ...}) is a TypeError; L is looked up first *)
                    match gcode_getattr g LL with Raise e => (m, Raise e) | Ok _ => (m, Raise ETypeError) end
                | Some l =>
                    match axis_of_letter l with
                    | None => (m, Raise ENotModelled)
                    | Some a => go (dset axis_eqb coords a (match r with Some v => num_of_value v | None => None end))
                    end
                end
            end
          else
            go (match na with
                | Some l => match axis_of_letter l with Some a => dpop axis_eqb coords a | None => coords end
                | None => coords
                end)
      end
  end.

(** the class specific part: gcodes.py:339-341, 403-404, 411-412, 465-466, 525-526, 545-561 *)
Definition gcode_process_own (g : gcode) : step := fun m =>
  match process_kind (gcls g) with
  | PNothing => (m, Ok tt)
  | PMove => move_to (gcode_coords m g) m
  | PCanned => canned_process g m
  | PCancelMotion => (with_mode m (gm_set (m_mode m) MG_motion None), Ok tt)
  end.
(** gcodes.py:320-337 *)
Definition gcode_process (g : gcode) : step := then_step (machine_set_mode [g]) (gcode_process_own g).

(** machine.py:485-500 *)
Definition process_gcodes (gs : list gcode) (modal_params : list word) : step := fun m =>
  match machine_modal_gcode m modal_params with
  | Raise e => (m, Raise e)
  | Ok og =>
      steps (map gcode_process (sort_gcodes (gs ++ match og with Some g => [g] | None => [] end))) m
  end.
(** machine.py:513-514 *)
Definition process_block (b : block) : step := process_gcodes (bgcodes b) (bmodal b).
(** machine.py:516-518 *)
Definition process_str (s : text) : step := fun m =>
  match mk_line s with Raise e => (m, Raise e) | Ok l => process_block (lblock l) m end.
End WithArith.
