(** Arcs written out as straight moves (transform.py:20-377), on floating point numbers.

    As in the rest of the model a number is a rational and [rnd] rounds the exact result of an operation; the sign of a zero,
    infinities and NaN are not modelled. The functions of [math], powers, the float modulo and the rotations of euclid3 are
    taken as arbitrary functions (a value of type [mathlib]), with the domain errors of Python checked before they are called.
    Arc.v describes the same code over the real numbers, where these functions have their mathematical meaning.
    [decimal_places] is 3 (the default, and what pygcode-norm passes). *)
From Coq Require Import List Bool ZArith QArith Qcanon Qabs Qround.
From Verif Require Import Base Num Words GTable GCode Position Machine Transform Scripts ScriptArgs.
From Verif Require Arc.
Import ListNotations.
Open Scope Z_scope.

Record fvec := FV { fx : Qc; fy : Qc; fz : Qc }.
(** what Python and euclid3 compute: math.sqrt, x ** 2, math.acos, math.cos, math.tan, math.atan2, x % y, math.pi,
    [Quaternion.new_rotate_axis(angle, axis) * v], and [plane.quat * v] (gcodes.py:891-909) *)
Record mathlib := MathLib {
  l_sqrt : Qc -> Qc; l_square : Qc -> Qc; l_acos : Qc -> Qc; l_cos : Qc -> Qc; l_tan : Qc -> Qc; l_atan2 : Qc -> Qc -> Qc; l_mod : Qc -> Qc -> Qc; l_pi : Qc;
  l_rotate : Qc -> fvec -> fvec -> fvec; l_plane : gclass -> fvec -> fvec }.

Section WithArith.
Context {ar : Arith} (L : mathlib).
Definition zero : Qc := Q2Qc 0.
Definition one : Qc := Q2Qc 1.
Definition qc_abs (x : Qc) : Qc := if Qcltb x zero then (- x)%Qc else x.
(** Python division, math.sqrt, math.acos *)
Definition div (a b : Qc) : result Qc := if Qceqb b zero then Raise EZeroDivisionError else Ok (fdiv a b).
Definition sqrt (x : Qc) : result Qc := if Qcltb x zero then Raise EValueError else Ok (l_sqrt L x).
Definition acos (x : Qc) : result Qc := if Qcltb x (- one)%Qc || Qcltb one x then Raise EValueError else Ok (l_acos L x).

(** ** euclid3.Vector3 *)
Definition add3 (a b : fvec) : fvec := FV (fadd (fx a) (fx b)) (fadd (fy a) (fy b)) (fadd (fz a) (fz b)).
Definition sub3 (a b : fvec) : fvec := FV (fsub (fx a) (fx b)) (fsub (fy a) (fy b)) (fsub (fz a) (fz b)).
Definition neg3 (a : fvec) : fvec := FV (- fx a)%Qc (- fy a)%Qc (- fz a)%Qc.
Definition scale3 (a : fvec) (k : Qc) : fvec := FV (fmul (fx a) k) (fmul (fy a) k) (fmul (fz a) k).
Definition dot3 (a b : fvec) : Qc := fadd (fadd (fmul (fx a) (fx b)) (fmul (fy a) (fy b))) (fmul (fz a) (fz b)).
Definition cross3 (a b : fvec) : fvec :=
  FV (fsub (fmul (fy a) (fz b)) (fmul (fz a) (fy b))) (fadd (fmul (- fx a)%Qc (fz b)) (fmul (fz a) (fx b))) (fsub (fmul (fx a) (fy b)) (fmul (fy a) (fx b))).
(** [abs(v)], [v.magnitude()] *)
Definition magnitude (a : fvec) : result Qc := sqrt (fadd (fadd (l_square L (fx a)) (l_square L (fy a))) (l_square L (fz a))).
Definition unit3 (a : fvec) : result fvec :=
  do d <- magnitude a; if Qceqb d zero then Ok a else Ok (FV (fdiv (fx a) d) (fdiv (fy a) d) (fdiv (fz a) d)).

(** ** utils.py:55-65 *)
Definition projection (v normal : fvec) : result fvec := do n <- unit3 normal; Ok (sub3 v (scale3 n (dot3 v n))).
(** ** gcodes.py:888-912 [normal]; None for the UV, WU, VW planes and the base class *)
Definition normal_of (c : gclass) : option fvec :=
  match c with
  | GCodeSelectXYPlane => Some (FV zero zero one)
  | GCodeSelectZXPlane => Some (FV zero one zero)
  | GCodeSelectYZPlane => Some (FV one zero zero)
  | _ => None
  end.

(** ** transform.py:20-210 *)
Record farc := FArc { fa_error : Qc; fa_normal : fvec; fa_start : fvec; fa_end : fvec; fa_center : fvec; fa_radius : Qc; fa_angle : Qc; fa_hstart : fvec; fa_hend : fvec }.
(** transform.py:39-40 *)
Definition mk_farc (e : Qc) (n s p c : fvec) (r th : Qc) (hs he : fvec) : farc := FArc (if Qcltb r e then r else e) n s p c r th hs he.
(** transform.py:152-154, 175-177, 197-200 *)
Definition max_wedge (m : Arc.arc_method) (a : farc) : result Qc :=
  let r := fa_radius a in let e := fa_error a in
  let twice y := Ok (qc_abs (fmul (Q2Qc 2) y)) in
  match m with
  | Arc.Inside => do x <- div (fsub r e) r; do y <- acos x; twice y
  | Arc.Outside => do x <- div r (fadd r e); do y <- acos x; twice y
  | Arc.Mid => let d := fdiv e (Q2Qc 2) in do x <- div (fsub r d) (fadd r d); do y <- acos x; twice y
  end.
(** transform.py:74-84 *)
Definition wedges_of (m : Arc.arc_method) (a : farc) : result Z :=
  do w <- max_wedge m a; do q <- div (qc_abs (fa_angle a)) w; Ok (Qceiling (this q)).
(** transform.py:86-91 *)
Definition wedge_of (m : Arc.arc_method) (a : farc) : result Qc := do n <- wedges_of m a; div (fa_angle a) (float_of_int n).
(** transform.py:160-162, 183-185, 207-210 *)
Definition outer_of (m : Arc.arc_method) (a : farc) : result Qc :=
  match m with
  | Arc.Inside => Ok (fa_radius a)
  | Arc.Outside => do w <- wedge_of m a; do q <- div (fa_radius a) (l_cos L (fdiv w (Q2Qc 2))); Ok (qc_abs q)
  | Arc.Mid => do w <- wedge_of m a; Ok (fadd (fa_radius a) (fmul (fa_radius a) (l_square L (l_tan L (fdiv w (Q2Qc 4))))))
  end.
(** transform.py:125-130 *)
Definition vertex_at (a : farc) (outer : fvec) (cur : Qc) : result fvec :=
  let l_p_end := add3 (l_rotate L cur (neg3 (fa_normal a)) outer) (fa_center a) in
  do q <- div cur (fa_angle a);
  Ok (add3 l_p_end (add3 (fa_hstart a) (scale3 (sub3 (fa_hend a) (fa_hstart a)) q))).
(** transform.py:114-138, the loop with [n] rounds left, the next one being number [k] of [count]; the end points of the lines
    ([l_start] is not used by the caller) *)
Fixpoint turns (m : Arc.arc_method) (a : farc) (outer : fvec) (w : Qc) (count : Z) (n : nat) (k : Z) : list fvec * result unit :=
  let last := ([add3 (fa_end a) (fa_hend a)], Ok tt) in
  match n with
  | O => last
  | S n =>
      let cur := fmul w (float_of_int k) in
      if Arc.phase_offset m || (k <? count) then
        match vertex_at a outer (if Arc.phase_offset m then fsub cur (fdiv w (Q2Qc 2)) else cur) with
        | Raise e => ([], Raise e)
        | Ok v => let r := turns m a outer w count n (k + 1) in (v :: fst r, snd r)
        end
      else last
  end.
(** transform.py:105-138 *)
Definition line_ends (m : Arc.arc_method) (a : farc) : list fvec * result unit :=
  match (do u <- unit3 (sub3 (fa_start a) (fa_center a)); do r <- outer_of m a; do n <- wedges_of m a; Ok (scale3 u r, n)) with
  | Raise e => ([], Raise e)
  | Ok (outer, n) =>
      if n <=? 0 then ([add3 (fa_end a) (fa_hend a)], Ok tt)
      else match wedge_of m a with
           | Raise e => ([], Raise e)
           | Ok w => turns m a outer w n (Z.to_nat n) 1
           end
  end.

(** ** transform.py:218-377 *)
(** the value of a parameter *)
Definition param_value (g : gcode) (l : letter) : result (option Qc) :=
  match pget (gparams g) l with
  | None => Ok None
  | Some w => match num_of_value (wvalue w) with Some x => Ok (Some x) | None => Raise ETypeError end
  end.
Definition or_else (o : option Qc) (d : Qc) : Qc := match o with Some x => x | None => d end.
(** machine.py:179-181 *)
Definition vector_of (p : position) : result fvec :=
  match vget (pvals p) AX, vget (pvals p) AY, vget (pvals p) AZ with
  | Some x, Some y, Some z => Ok (FV x y z)
  | _, _, _ => Raise ENotModelled    (* no X, Y or Z axis: the defaultdict gives 0.0 *)
  end.
(** gcodes.py:424-445 *)
Definition check_params (g : gcode) : result unit :=
  let xyz := existsb (fun l => Arc.pin (gparams g) l) [LX; LY; LZ] in
  let ijk := existsb (fun l => Arc.pin (gparams g) l) [LI; LJ; LK] in
  let r := Arc.pin (gparams g) LR in
  if negb xyz then Raise ENameError
  else if ijk && r then Raise ENameError
  else if negb (ijk || r) then Raise ENameError
  else do v <- param_value g LR;
       match v with Some x => if Qceqb x zero then Raise ENameError else Ok tt | None => Ok tt end.
(** transform.py:251-261 *)
Definition ends_of (g : gcode) (start : position) (absolute : bool) : result (fvec * fvec) :=
  do a <- vector_of start;
  do x <- param_value g LX; do y <- param_value g LY; do z <- param_value g LZ;
  if absolute then Ok (a, FV (or_else x (fx a)) (or_else y (fy a)) (or_else z (fz a)))
  else Ok (a, add3 a (FV (or_else x zero) (or_else y zero) (or_else z zero))).
(** transform.py:300-306: the middle of the span and the vector from there to the centre *)
Definition middle (g : gcode) (n p q : fvec) (r : Qc) : result (fvec * fvec) :=
  let mid := scale3 (sub3 q p) (flit 1 2) in
  do h <- magnitude mid;
  if Qcltb r h then Raise EGCodeParameterError
  else do u <- unit3 mid; do h2 <- magnitude mid; do s <- sqrt (fsub (l_square L r) (l_square L h2)); Ok (mid, scale3 (cross3 u n) s).
(** transform.py:263-324: the projections of the ends, the centre and the radius *)
Definition circle_of (g : gcode) (a b n : fvec) (arc_incremental : bool) (max_error : Qc) : result (fvec * fvec * fvec * Qc) :=
  do p <- projection a n; do q <- projection b n;
  do _ <- check_params g;
  do ro <- param_value g LR;
  match ro with
  | Some r =>
      do d <- magnitude (sub3 p q);
      if Qcltb d max_error then Raise EGCodeParameterError
      else
        let ra := qc_abs r in
        do (mid, to_center) <- middle g n p q ra;
        let half := add3 p mid in
        Ok (p, q, if Bool.eqb (subclass (gcls g) GCodeArcMoveCW) (Qcltb r zero) then sub3 half to_center else add3 half to_center, ra)
  | None =>
      do i <- param_value g LI; do j <- param_value g LJ; do k <- param_value g LK;
      let ijk := FV (or_else i zero) (or_else j zero) (or_else k zero) in
      do c0 <- projection (if arc_incremental then add3 ijk a else ijk) n;
      do d1 <- magnitude (sub3 p c0); do d2 <- magnitude (sub3 q c0);
      let ra := fdiv (fadd d1 d2) (Q2Qc 2) in
      do (mid, to_center) <- middle g n p q ra;
      let half := add3 p mid in
      do e1 <- magnitude (sub3 (sub3 half to_center) c0); do e2 <- magnitude (sub3 (add3 half to_center) c0);
      Ok (p, q, if Qcltb e1 e2 then sub3 half to_center else add3 half to_center, ra)
  end.
(** transform.py:326-333 *)
Definition angle_of (clockwise : bool) (plane : gclass) (from to : fvec) : Qc :=
  let u := l_plane L plane from in let v := l_plane L plane to in
  let a1 := l_atan2 L (fy u) (fx u) in let a2 := l_atan2 L (fy v) (fx v) in
  let round_turn := fmul (Q2Qc 2) (l_pi L) in
  if clockwise then l_mod L (fsub a1 a2) round_turn else (- l_mod L (fsub a2 a1) round_turn)%Qc.
(** transform.py:251-358 *)
Definition arc_of (g : gcode) (start : position) (plane : gclass) (absolute arc_incremental : bool) (max_error : Qc) : result (fvec * farc) :=
  do (a, b) <- ends_of g start absolute;
  match normal_of plane with
  | None => Raise EAttributeError
  | Some n =>
      do (p, q, c, r) <- circle_of g a b n arc_incremental max_error;
      let th := angle_of (subclass (gcls g) GCodeArcMoveCW) plane (sub3 p c) (sub3 q c) in
      Ok (a, mk_farc max_error n p q c r th (scale3 n (dot3 a n)) (scale3 n (dot3 b n)))
  end.
(** transform.py:365, 376 [GCodeLinearMove(X=..., Y=..., Z=...)] *)
Definition linear_xyz (v : fvec) : result gcode := mk_gcode_kw GCodeLinearMove [(LX, VFloat (fx v)); (LY, VFloat (fy v)); (LZ, VFloat (fz v))].
(** transform.py:363-365 *)
Fixpoint absolute_moves (vs : list fvec) (last : result unit) : gen :=
  match vs with
  | [] => ([], last)
  | v :: vs => match linear_xyz v with Raise e => gen_raise e | Ok g => gen_cons g (absolute_moves vs last) end
  end.
(** transform.py:368-377 *)
Fixpoint relative_moves (cur : fvec) (vs : list fvec) (last : result unit) : gen :=
  match vs with
  | [] => ([], last)
  | v :: vs =>
      let d := sub3 v cur in
      let d := FV (round3 (fx d)) (round3 (fy d)) (round3 (fz d)) in
      match linear_xyz d with Raise e => gen_raise e | Ok g => gen_cons g (relative_moves (add3 cur d) vs last) end
  end.
(** transform.py:218-377; as in Arc.v, [method], [plane], [dist], [arc_dist] are None when not given *)
Definition linearize_arc (g : gcode) (start : position) (plane : option gclass) (method : option Arc.arc_method) (dist arc_dist : option gclass) (max_error : Qc) : gen :=
  match method with
  | None => gen_raise ENameError
  | Some m =>
      let plane := match plane with Some c => c | None => GCodeSelectXYPlane end in
      let dist := match dist with Some c => c | None => GCodeAbsoluteDistanceMode end in
      let arc_dist := match arc_dist with Some c => c | None => GCodeIncrementalArcDistanceMode end in
      if negb (subclass (gcls g) GCodeArcMove && subclass plane GCodePlaneSelect &&
               (subclass dist GCodeAbsoluteDistanceMode || subclass dist GCodeIncrementalDistanceMode) &&
               (subclass arc_dist GCodeAbsoluteArcDistanceMode || subclass arc_dist GCodeIncrementalArcDistanceMode))
         || Qcleb max_error zero
      then gen_raise EAssertionError
      else
        let absolute := subclass dist GCodeAbsoluteDistanceMode in
        match arc_of g start plane absolute (subclass arc_dist GCodeIncrementalArcDistanceMode) max_error with
        | Raise e => gen_raise e
        | Ok (a, arc) =>
            let k := line_ends m arc in
            if absolute then absolute_moves (fst k) (snd k) else relative_moves a (fst k) (snd k)
        end
  end.

(** ** scripts/pygcode-norm:322-335: the arguments of linearize_arc; [methods]: --arc_lin_method, [precision]: --arc_precision *)
Definition norm_linearize (methods : lin_methods) (precision : Qc) (m : machine) (g : gcode) : gen :=
  match machine_pos m with
  | Raise e => gen_raise e
  | Ok p =>
      match lin_method methods (gword g) with
      | Raise e => gen_raise e
      | Ok c => linearize_arc g p (mode_class m MG_plane_selection) (Some c) (mode_class m MG_distance) (mode_class m MG_arc_ijk_distance) precision
      end
  end.
End WithArith.
