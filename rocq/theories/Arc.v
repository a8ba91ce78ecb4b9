(** Geometry: [plane_projection], [quat2align], [quat2coord_system] (utils.py:8-65), the planes (gcodes.py:861-934),
    and arcs written out as straight moves (transform.py:20-377).

    Coordinates and angles are real numbers: this is the computation the code describes, without its rounding errors.
    Where Python raises for an argument outside the domain of an operation (division by zero, acos), the model raises.
    The operations of euclid3 are those of its source: vectors with [+], [-], scaling, dot, cross, [abs], [normalized]
    (a zero vector is returned as it is), [angle]; quaternions with product, rotation of a vector, [new_rotate_axis]
    (which normalizes the axis first). *)
From Coq Require Import List Bool ZArith QArith Qcanon Qreals Reals.
From Verif Require Import Base Num Words GTable GCode Position.
Import ListNotations.
Open Scope R_scope.

(** ** euclid3 *)
Record vec := V3 { vx : R; vy : R; vz : R }.
Definition vadd (a b : vec) : vec := V3 (vx a + vx b) (vy a + vy b) (vz a + vz b).
Definition vsub (a b : vec) : vec := V3 (vx a - vx b) (vy a - vy b) (vz a - vz b).
Definition vneg (a : vec) : vec := V3 (- vx a) (- vy a) (- vz a).
Definition vscale (a : vec) (k : R) : vec := V3 (vx a * k) (vy a * k) (vz a * k).
Definition dot (a b : vec) : R := vx a * vx b + vy a * vy b + vz a * vz b.
Definition cross (a b : vec) : vec :=
  V3 (vy a * vz b - vz a * vy b) (- vx a * vz b + vz a * vx b) (vx a * vy b - vy a * vx b).
Definition norm (a : vec) : R := sqrt (vx a * vx a + vy a * vy a + vz a * vz a).
Definition normalized (a : vec) : vec :=
  if Req_EM_T (norm a) 0 then a else V3 (vx a / norm a) (vy a / norm a) (vz a / norm a).

(** Python division and acos *)
Definition rdiv (a b : R) : result R := if Req_EM_T b 0 then Raise EZeroDivisionError else Ok (a / b).
Definition racos (x : R) : result R :=
  if Rle_dec (-1) x then (if Rle_dec x 1 then Ok (acos x) else Raise EValueError) else Raise EValueError.

Definition vangle (a b : vec) : result R := do q <- rdiv (dot a b) (norm a * norm b); racos q.

Record quat := Q4 { qw : R; qx : R; qy : R; qz : R }.
Definition quat_one : quat := Q4 1 0 0 0.
Definition qmul (a b : quat) : quat :=
  Q4 (- qx a * qx b - qy a * qy b - qz a * qz b + qw a * qw b)
     (qx a * qw b + qy a * qz b - qz a * qy b + qw a * qx b)
     (- qx a * qz b + qy a * qw b + qz a * qx b + qw a * qy b)
     (qx a * qy b - qy a * qx b + qz a * qw b + qw a * qz b).
Definition qrot (q : quat) (v : vec) : vec :=
  let w := qw q in let x := qx q in let y := qy q in let z := qz q in
  V3 (w * w * vx v + 2 * w * y * vz v - 2 * w * z * vy v + x * x * vx v + 2 * x * y * vy v + 2 * x * z * vz v - z * z * vx v - y * y * vx v)
     (2 * x * y * vx v + y * y * vy v + 2 * y * z * vz v + 2 * w * z * vx v - z * z * vy v + w * w * vy v - 2 * w * x * vz v - x * x * vy v)
     (2 * x * z * vx v + 2 * y * z * vy v + z * z * vz v - 2 * w * y * vx v - y * y * vz v + 2 * w * x * vy v - x * x * vz v + w * w * vz v).
Definition rotate_axis (angle : R) (axis : vec) : quat :=
  let a := normalized axis in let s := sin (angle / 2) in Q4 (cos (angle / 2)) (vx a * s) (vy a * s) (vz a * s).

(** ** utils.py:8-65 *)
(** utils.py:8-30 *)
Definition quat2align (to_align with_this : vec) (normalize : bool) : result quat :=
  let a := if normalize then normalized to_align else to_align in
  let b := if normalize then normalized with_this else with_this in
  do th <- vangle a b; Ok (rotate_axis th (cross a b)).
(** utils.py:33-52 *)
Definition quat2coord_system (origin1 origin2 align1 align2 : vec) : result quat :=
  let o1 := normalized origin1 in let o2 := normalized origin2 in
  let a1 := normalized align1 in let a2 := normalized align2 in
  do q1 <- quat2align o1 a1 false;
  do q2 <- quat2align (qrot q1 o2) a2 false;
  Ok (qmul q2 q1).
(** utils.py:55-65 *)
Definition plane_projection (v normal : vec) : vec := let n := normalized normal in vsub v (vscale n (dot v n)).

(** ** gcodes.py:861-934: attributes of the planes *)
Definition ex : vec := V3 1 0 0.
Definition ey : vec := V3 0 1 0.
Definition ez : vec := V3 0 0 1.
(** [normal]; None for the UV, WU, VW planes and the base class *)
Definition plane_normal (c : gclass) : option vec :=
  match c with GCodeSelectXYPlane => Some ez | GCodeSelectZXPlane => Some ey | GCodeSelectYZPlane => Some ex | _ => None end.
(** [quat]; evaluated when the module is loaded *)
Definition plane_quat (c : gclass) : result quat :=
  match c with
  | GCodeSelectXYPlane => Ok quat_one
  | GCodeSelectZXPlane => quat2coord_system ex ey ez ex
  | GCodeSelectYZPlane => quat2coord_system ex ey ey ez
  | _ => Raise ETypeError
  end.

(** ** transform.py:20-138: approximations of an arc *)
Inductive arc_method := Inside | Outside | Mid.
Record arc := Arc { a_error : R; a_normal : vec; a_start : vec; a_end : vec; a_center : vec; a_radius : R; a_angle : R; a_hstart : vec; a_hend : vec }.
(** transform.py:39-40 *)
Definition mk_arc (e : R) (n s p c : vec) (r th : R) (hs he : vec) : arc := Arc (if Rlt_dec r e then r else e) n s p c r th hs he.
(** transform.py:152-154, 175-177, 197-200 *)
Definition max_wedge_angle (m : arc_method) (a : arc) : result R :=
  let r := a_radius a in let e := a_error a in
  match m with
  | Inside => do x <- rdiv (r - e) r; do y <- racos x; Ok (Rabs (2 * y))
  | Outside => do x <- rdiv r (r + e); do y <- racos x; Ok (Rabs (2 * y))
  | Mid => let d := e / 2 in do x <- rdiv (r - d) (r + d); do y <- racos x; Ok (Rabs (2 * y))
  end.
(** Python's ceil *)
Definition rceil (x : R) : Z := (- Int_part (- x))%Z.
(** transform.py:74-84 *)
Definition wedge_count (m : arc_method) (a : arc) : result Z :=
  do w <- max_wedge_angle m a; do q <- rdiv (Rabs (a_angle a)) w; Ok (rceil q).
(** transform.py:86-91 *)
Definition wedge_angle (m : arc_method) (a : arc) : result R := do n <- wedge_count m a; rdiv (a_angle a) (IZR n).
(** transform.py:160-162, 183-185, 207-210. [get_inner_radius] is never called. *)
Definition outer_radius (m : arc_method) (a : arc) : result R :=
  match m with
  | Inside => Ok (a_radius a)
  | Outside => do w <- wedge_angle m a; do q <- rdiv (a_radius a) (cos (w / 2)); Ok (Rabs q)
  | Mid => do w <- wedge_angle m a; Ok (a_radius a + a_radius a * (tan (w / 4) * tan (w / 4)))
  end.
(** transform.py:144, 169, 193 *)
Definition phase_offset (m : arc_method) : bool := match m with Inside => false | Outside | Mid => true end.

(** a generator: what is yielded, and how it ends *)
Definition ygen (A : Type) := (list A * result unit)%type.
Definition ycons {A} (x : A) (k : ygen A) : ygen A := (x :: fst k, snd k).
(** transform.py:125-130: the vertex at an angle *)
Definition vertex (a : arc) (outer : vec) (cur : R) : result vec :=
  let l_p_end := vadd (qrot (rotate_axis cur (vneg (a_normal a))) outer) (a_center a) in
  do q <- rdiv cur (a_angle a);
  Ok (vadd l_p_end (vadd (a_hstart a) (vscale (vsub (a_hend a) (a_hstart a)) q))).
(** transform.py:114-135, the loop with [n] rounds left, the next one being number [k] of [count] *)
Fixpoint wedges (m : arc_method) (a : arc) (outer : vec) (w : R) (count : Z) (n : nat) (k : Z) (l_start : vec) : ygen (vec * vec) :=
  let last := ([(l_start, vadd (a_end a) (a_hend a))], Ok tt) in
  match n with
  | O => last
  | S n =>
      let cur := w * IZR k in
      if phase_offset m || (k <? count)%Z then
        match vertex a outer (if phase_offset m then cur - w / 2 else cur) with
        | Raise e => ([], Raise e)
        | Ok l_end => ycons (l_start, l_end) (wedges m a outer w count n (k + 1) l_end)
        end
      else last
  end.
(** transform.py:105-138. [wedge_angle] is evaluated in the loop only. *)
Definition iter_vertices (m : arc_method) (a : arc) : ygen (vec * vec) :=
  let start_vertex := vsub (a_start a) (a_center a) in
  match outer_radius m a with
  | Raise e => ([], Raise e)
  | Ok r =>
      let outer := vscale (normalized start_vertex) r in
      let l_start := vadd (vadd (a_center a) start_vertex) (a_hstart a) in
      match wedge_count m a with
      | Raise e => ([], Raise e)
      | Ok n =>
          if (n <=? 0)%Z then ([(l_start, vadd (a_end a) (a_hend a))], Ok tt)
          else match wedge_angle m a with
               | Raise e => ([], Raise e)
               | Ok w => wedges m a outer w n (Z.to_nat n) 1 l_start
               end
      end
  end.

(** ** transform.py:218-377 *)
(** [math.atan2], without signed zeros *)
Definition atan2 (y x : R) : R :=
  if Rlt_dec 0 x then atan (y / x)
  else if Rlt_dec x 0 then (if Rle_dec 0 y then atan (y / x) + PI else atan (y / x) - PI)
  else if Rlt_dec 0 y then PI / 2 else if Rlt_dec y 0 then - (PI / 2) else 0.
(** Python's float modulo, for a positive modulus *)
Definition rmod (x m : R) : R := x - m * IZR (Int_part (x / m)).
(** Python's [round] to decimal places: to the nearest, half to even *)
Definition rround (x : R) : Z :=
  let f := Int_part x in
  if Rlt_dec (frac_part x) (1 / 2) then f else if Rlt_dec (1 / 2) (frac_part x) then (f + 1)%Z else if Z.even f then f else (f + 1)%Z.
Definition round_places (x : R) (places : Z) : R := IZR (rround (x * powerRZ 10 places)) / powerRZ 10 places.

Definition Qc2R (x : Qc) : R := Q2R (this x).
(** the value of a parameter *)
Definition real_param (g : gcode) (l : letter) : result (option R) :=
  match pget (gparams g) l with
  | None => Ok None
  | Some w => match wvalue w with VFloat x => Ok (Some (Qc2R x)) | VInt z => Ok (Some (IZR z)) | VStr _ => Raise ETypeError end
  end.
Definition given (o : option R) (d : R) : R := match o with Some x => x | None => d end.
(** machine.py:179-181 *)
Definition pos_vector (p : position) : result vec :=
  match vget (pvals p) AX, vget (pvals p) AY, vget (pvals p) AZ with
  | Some x, Some y, Some z => Ok (V3 (Qc2R x) (Qc2R y) (Qc2R z))
  | _, _, _ => Raise ENotModelled    (* no X, Y or Z axis: the defaultdict gives 0.0 *)
  end.
Definition pin (d : dict letter word) (l : letter) : bool := match pget d l with Some _ => true | None => false end.
(** gcodes.py:424-445. The messages name [arc_gcode], which does not exist there. *)
Definition assert_params (g : gcode) : result unit :=
  let xyz := existsb (fun l => pin (gparams g) l) [LX; LY; LZ] in
  let ijk := existsb (fun l => pin (gparams g) l) [LI; LJ; LK] in
  let r := pin (gparams g) LR in
  if negb xyz then Raise ENameError
  else if ijk && r then Raise ENameError
  else if negb (ijk || r) then Raise ENameError
  else do v <- real_param g LR;
       match v with Some x => if Req_EM_T x 0 then Raise ENameError else Ok tt | None => Ok tt end.

(** the circle of an arc: transform.py:251-324 *)
Record circle := Circle { c_normal : vec; c_from : vec; c_to : vec; c_pfrom : vec; c_pto : vec; c_center : vec; c_radius : R }.
(** transform.py:251-265 *)
Definition arc_ends (g : gcode) (start : position) (absolute : bool) : result (vec * vec) :=
  do a <- pos_vector start;
  do x <- real_param g LX; do y <- real_param g LY; do z <- real_param g LZ;
  if absolute then Ok (a, V3 (given x (vx a)) (given y (vy a)) (given z (vz a)))
  else Ok (a, vadd a (V3 (given x 0) (given y 0) (given z 0))).
(** transform.py:300-306: the middle of the span, and the vector from there to the centre *)
Definition span_mid (p q : vec) : vec := vscale (vsub q p) (1 / 2).
Definition mid_vect (n p q : vec) (r : R) : vec :=
  vscale (cross (normalized (span_mid p q)) n) (sqrt (r * r - norm (span_mid p q) * norm (span_mid p q))).
Definition arc_circle (g : gcode) (start : position) (plane : gclass) (absolute arc_incremental : bool) (max_error : R) : result circle :=
  do (a, b) <- arc_ends g start absolute;
  match plane_normal plane with
  | None => Raise EAttributeError
  | Some n =>
      let p := plane_projection a n in
      let q := plane_projection b n in
      do _ <- assert_params g;
      do ro <- real_param g LR;
      match ro with
      | Some r =>
          if Rlt_dec (norm (vsub p q)) max_error then Raise EGCodeParameterError
          else
            let ra := Rabs r in
            if Rlt_dec ra (norm (span_mid p q)) then Raise EGCodeParameterError
            else
              let m := mid_vect n p q ra in
              let half := vadd p (span_mid p q) in
              let c := if Bool.eqb (subclass (gcls g) GCodeArcMoveCW) (if Rlt_dec r 0 then true else false) then vsub half m else vadd half m in
              Ok (Circle n a b p q c ra)
      | None =>
          do i <- real_param g LI; do j <- real_param g LJ; do k <- real_param g LK;
          let ijk := V3 (given i 0) (given j 0) (given k 0) in
          let c0 := plane_projection (if arc_incremental then vadd ijk a else ijk) n in
          let ra := (norm (vsub p c0) + norm (vsub q c0)) / 2 in
          if Rlt_dec ra (norm (span_mid p q)) then Raise EGCodeParameterError
          else
            let m := mid_vect n p q ra in
            let half := vadd p (span_mid p q) in
            let c := if Rlt_dec (norm (vsub (vsub half m) c0)) (norm (vsub (vadd half m) c0)) then vsub half m else vadd half m in
            Ok (Circle n a b p q c ra)
      end
  end.
(** transform.py:326-333 *)
Definition arc_angle (clockwise : bool) (q : quat) (from to : vec) : R :=
  let u := qrot q from in let v := qrot q to in
  let a1 := atan2 (vy u) (vx u) in let a2 := atan2 (vy v) (vx v) in
  if clockwise then rmod (a1 - a2) (2 * PI) else - rmod (a2 - a1) (2 * PI).
(** transform.py:335-358 *)
Definition circle_arc (g : gcode) (plane : gclass) (max_error : R) (c : circle) : result arc :=
  do q <- plane_quat plane;
  let th := arc_angle (subclass (gcls g) GCodeArcMoveCW) q (vsub (c_pfrom c) (c_center c)) (vsub (c_pto c) (c_center c)) in
  let n := c_normal c in
  Ok (mk_arc max_error n (c_pfrom c) (c_pto c) (c_center c) (c_radius c) th (vscale n (dot (c_from c) n)) (vscale n (dot (c_to c) n))).
(** transform.py:366-377, the vertices made relative and rounded *)
Fixpoint increments (places : Z) (cur : vec) (l : list (vec * vec)) : list vec :=
  match l with
  | [] => []
  | (_, e) :: l =>
      let d := vsub e cur in
      let d := V3 (round_places (vx d) places) (round_places (vy d) places) (round_places (vz d) places) in
      d :: increments places (vadd cur d) l
  end.
Definition arc_vertices (g : gcode) (start : position) (plane : gclass) (m : arc_method) (absolute arc_incremental : bool) (max_error : R) : ygen (vec * vec) :=
  match (do c <- arc_circle g start plane absolute arc_incremental max_error; circle_arc g plane max_error c) with
  | Raise e => ([], Raise e)
  | Ok a => iter_vertices m a
  end.
(** transform.py:218-377: the X, Y, Z of the straight moves. [method], [plane], [dist], [arc_dist]: None when not given;
    the default of the method is a name that does not exist (transform.py:230). *)
Definition linearize_arc (g : gcode) (start : position) (plane : option gclass) (method : option arc_method) (dist arc_dist : option gclass) (max_error : R) (places : Z) : ygen vec :=
  match method with
  | None => ([], Raise ENameError)
  | Some m =>
      let plane := match plane with Some c => c | None => GCodeSelectXYPlane end in
      let dist := match dist with Some c => c | None => GCodeAbsoluteDistanceMode end in
      let arc_dist := match arc_dist with Some c => c | None => GCodeIncrementalArcDistanceMode end in
      if negb (subclass (gcls g) GCodeArcMove && subclass plane GCodePlaneSelect &&
               (subclass dist GCodeAbsoluteDistanceMode || subclass dist GCodeIncrementalDistanceMode) &&
               (subclass arc_dist GCodeAbsoluteArcDistanceMode || subclass arc_dist GCodeIncrementalArcDistanceMode))
         || (if Rlt_dec 0 max_error then false else true)
      then ([], Raise EAssertionError)
      else
        let absolute := subclass dist GCodeAbsoluteDistanceMode in
        let k := arc_vertices g start plane m absolute (subclass arc_dist GCodeIncrementalArcDistanceMode) max_error in
        if absolute then (map snd (fst k), snd k)
        else match pos_vector start with
             | Raise e => ([], Raise e)
             | Ok a => (increments places a (fst k), snd k)
             end
  end.
