(** Transformations of gcode sequences: [_gcodes_abs2rel] (gcodes.py:1613-1680), [omit_redundant_modes] (utils.py:68-93)
    and [simplify_canned_cycle] (transform.py:380-485).

    A generator is the list of what it yields together with how it ends: normally or with an exception.
    Generators are lazy; the functions here do not share state with their consumers, so the order in which
    yielding and consuming alternate is not visible. *)
From Coq Require Import Ascii String List Bool Arith ZArith QArith Qcanon.
From Verif Require Import Base Num Regex Words GTable GCode Line Position Machine.
Import ListNotations.
Open Scope Z_scope.

Definition gen := (list gcode * result unit)%type.
Definition gen_end : gen := ([], Ok tt).
Definition gen_raise (e : exn) : gen := ([], Raise e).
Definition gen_cons (g : gcode) (k : gen) : gen := (g :: fst k, snd k).

Section WithArith.
Context {ar : Arith}.

(** ** gcodes.py:1613-1680 *)
(** gcodes.py:1644-1649: the private machine, with mode 'G90' only *)
Definition absolute_coord_machine (axes : axset) : result machine := new_machine axes false [t "G90"].

(** gcodes.py:1668-1672, for a gcode that was processed from [p] to [q].
    [words2gcodes(...)[0].pop()]: the last gcode of the list (IndexError if there is none). *)
Definition relative_move (g : gcode) (p q : position) : result (option gcode) :=
  do d <- pos_sub q p;
  match filter (fun w => match wvalue w with VFloat x => negb (Qceqb x (Q2Qc 0)) | _ => true end) (pos_words d) with
  | [] => Ok None
  | ws => do (gs, _) <- words2gcodes (gword g :: ws);
          match rev gs with [] => Raise EIndexError | x :: _ => Ok (Some x) end
  end.

(** gcodes.py:1652-1672. Everything yielded is a GCode here (the test at 1654 is for other objects). *)
Fixpoint abs2rel_loop (m : machine) (l : list gcode) (last : result unit) : gen :=
  match l with
  | [] => ([], last)
  | g :: l' =>
      match machine_pos m with
      | Raise e => gen_raise e
      | Ok p =>
          match process_gcodes [g] [] m with
          | (_, Raise e) => gen_raise e
          | (m', Ok _) =>
              match machine_pos m' with
              | Raise e => gen_raise e
              | Ok q =>
                  match modal_group (gcls g) with
                  | Some MG_motion =>
                      if subclass (gcls g) GCodeRapidMove || subclass (gcls g) GCodeLinearMove then
                        match relative_move g p q with
                        | Raise e => gen_raise e
                        | Ok None => abs2rel_loop m' l' last
                        | Ok (Some x) => gen_cons x (abs2rel_loop m' l' last)
                        end
                      else gen_raise ENotImplementedError
                  | _ => gen_cons g (abs2rel_loop m' l' last)
                  end
              end
          end
      end
  end.
(** gcodes.py:1641-1680; [dist_mode]: the class of the given mode, None when not given *)
Definition gcodes_abs2rel (start_pos : position) (dist_mode : option gclass) (axes : axset) (src : gen) : gen :=
  if match dist_mode with None => true | Some c => subclass c GCodeIncrementalDistanceMode end then
    match absolute_coord_machine axes with
    | Raise e => gen_raise e
    | Ok m0 =>
        match set_pos start_pos m0 with
        | (_, Raise e) => gen_raise e
        | (m, Ok _) => abs2rel_loop m (fst src) (snd src)
        end
    end
  else src.

(** ** utils.py:68-93 *)
Definition white (g : gcode) : gcode := MkGCode (gcls g) (gword g) (gparams g) true.
Definition redundant (m : machine) (g : gcode) : bool :=
  match modal_group (gcls g) with
  | None => false
  | Some mg =>
      match gm_get (m_mode m) mg with
      | None => false
      | Some x => word_eqb (gword x) (gword g) && mgroup_eqb mg MG_motion
      end
  end.
Fixpoint omit_loop (m : machine) (l : list gcode) (last : result unit) : gen :=
  match l with
  | [] => ([], last)
  | g :: l' =>
      let g' := if redundant m g then white g else g in
      match process_gcodes [g'] [] m with
      | (_, Raise e) => gen_raise e
      | (m', Ok _) => gen_cons g' (omit_loop m' l' last)
      end
  end.
Definition omit_redundant_modes (src : gen) : gen :=
  match null_machine with
  | Raise e => gen_raise e
  | Ok m => omit_loop m (fst src) (snd src)
  end.

(** ** transform.py:380-485 *)
(** None: the generator has not ended after [fuel] turns of the loop at 452 *)
Definition yield (r : result gcode) (k : option gen) : option gen :=
  match r with
  | Raise e => Some (gen_raise e)
  | Ok g => option_map (gen_cons g) k
  end.
Definition yield_if (b : bool) (r : result gcode) (k : option gen) : option gen := if b then yield r k else k.
Definition rapid_z (z : Qc) : result gcode := mk_gcode_kw GCodeRapidMove [(LZ, VFloat z)].
Definition linear_z (z : Qc) : result gcode := mk_gcode_kw GCodeLinearMove [(LZ, VFloat z)].
Definition rapid_xy (x y : Qc) : result gcode := mk_gcode_kw GCodeRapidMove [(LX, VFloat x); (LY, VFloat y)].

(** transform.py:452-476; [chip]: G73; [k]: what follows the loop *)
Fixpoint drill_loop (fuel : nat) (chip : bool) (retract drill delta cur last : Qc) (k : option gen) : option gen :=
  match fuel with
  | O => None
  | S f =>
      let cur := fadd cur delta in
      let cur := if Qcltb cur drill then drill else cur in
      let just_above_base := fadd last (flit 1 10) in
      yield_if (Qcltb just_above_base retract) (rapid_z just_above_base)
        (yield (linear_z cur)
          (if Qcleb cur drill then k
           else yield (if chip then rapid_z (fadd cur (flit 5 10)) else rapid_z retract)
                  (drill_loop f chip retract drill delta cur cur k)))
  end.

(** Python [abs] *)
Definition fabs (x : Qc) : Qc := if Qcltb x (Q2Qc 0) then (- x)%Qc else x.
(** a number or None (a text where a number is needed: TypeError, like None) *)
Definition number (v : option value) : option Qc := match v with Some v => num_of_value v | None => None end.
(** arithmetic or comparison with None *)
Definition need (o : option Qc) : result Qc := match o with Some x => Ok x | None => Raise ETypeError end.
Definition lift (r : result (option gen)) : option gen := match r with Ok k => k | Raise e => Some (gen_raise e) end.

(** transform.py:419-483, one turn of the loop at 421 and the [n] turns left; [hx, hy]: cur_hole_p_axis *)
Fixpoint holes (fuel : nat) (n : nat) (g : gcode) (start : position) (incr to_r : bool) (hx hy : Qc) : option gen :=
  match n with
  | O => Some gen_end
  | S n' => lift (
      do (retract, drill, x, y) <-
        (if incr then                                                   (* 427-430 *)
           do z <- pos_getattr start AZ;
           do r0 <- gcode_getattr g LR; do r <- need (number r0);
           do d0 <- gcode_getattr g LZ; do d <- need (number d0);
           do x0 <- gcode_getattr g LX; do y0 <- gcode_getattr g LY;
           do x <- need (number x0); do y <- need (number y0);
           Ok (fadd z r, fadd (fadd z r) d, Some (fadd hx x), Some (fadd hy y))
         else                                                           (* 423-426 *)
           do r0 <- gcode_getattr g LR; do d0 <- gcode_getattr g LZ;
           do x0 <- gcode_getattr g LX; do y0 <- gcode_getattr g LY;
           do r <- need (number r0); do d <- need (number d0);
           Ok (r, d, number x0, number y0));
      if Qcltb retract drill then Raise ENotImplementedError           (* 432-433 *)
      else
        do sz <- (if to_r then Ok retract else pos_getattr start AZ);   (* 435-438: final_depth *)
        do z0 <- pos_getattr start AZ;
        Ok (
          yield_if (Qcltb z0 retract) (rapid_z retract)                 (* 441-445 *)
          (yield (do x <- need x; do y <- need y; rapid_xy x y)
          (yield_if (Qcltb retract z0) (rapid_z retract)
          (lift (
             do delta <-                                                (* 448-450 *)
               (if subclass (gcls g) GCodeDrillingCyclePeck || subclass (gcls g) GCodeDrillingCycleChipBreaking then
                  do q0 <- gcode_getattr g LQ; do q <- need (number q0); Ok (- fabs q)%Qc
                else Ok (fsub drill retract));
             Ok (drill_loop fuel (subclass (gcls g) GCodeDrillingCycleChipBreaking) retract drill delta retract retract
               (if subclass (gcls g) GCodeDrillingCycleDwell then Some (gen_raise ENameError)   (* 478-479: GCodeDwell is not imported *)
                else yield (rapid_z sz)                                 (* 482 *)
                       (holes fuel n' g start incr to_r (match x with Some x => x | None => hx end) (match y with Some y => y | None => hy end)))))))))
        )
  end.

(** transform.py:386-485. [plane], [dist_mode], [retract_mode]: the class of the mode, None when not given.
    The assertions at 407-411 are type checks of the arguments; those on modes are kept. *)
Definition simplify_canned_cycle (fuel : nat) (g : gcode) (start : position) (plane dist_mode retract_mode : option gclass) (axes : axset) : option gen :=
  let plane := match plane with Some c => c | None => GCodeSelectXYPlane end in
  let dist := match dist_mode with Some c => c | None => GCodeAbsoluteDistanceMode end in
  let ret := match retract_mode with Some c => c | None => GCodeCannedCycleReturnPrevLevel end in
  if negb (subclass (gcls g) GCodeCannedCycle && subclass plane GCodePlaneSelect &&
           (subclass dist GCodeAbsoluteDistanceMode || subclass dist GCodeIncrementalDistanceMode) && subclass ret GCodeCannedReturnMode)
  then Some (gen_raise EAssertionError)
  else if negb (subclass plane GCodeSelectXYPlane) then Some (gen_raise ENotImplementedError)
  else
    let incr := negb (subclass dist GCodeAbsoluteDistanceMode) in
    let inner := lift (
      do l <- gcode_getattr g LL;
      do n <- match l with
              | None => Ok 1
              | Some (VInt z) => Ok z
              | Some _ => Raise ETypeError        (* range() of a non integer *)
              end;
      Ok (holes fuel (Z.to_nat n) g start incr (subclass ret GCodeCannedCycleReturnToR) (pval start AX) (pval start AY))) in
    option_map (gcodes_abs2rel start (Some dist) axes) inner.
End WithArith.
