(** Positions: /repo/src/pygcode/machine.py:21-188. *)
From Coq Require Import Ascii String List Bool Arith ZArith QArith Qcanon.
From Verif Require Import Base Num Regex Words GTable GCode.
Import ListNotations.
Open Scope Z_scope.

(** POSSIBLE_AXES (machine.py:38) *)
Inductive axis := AX | AY | AZ | AA | AB | AC | AU | AV | AW.
Definition all_axes : list axis := [AX; AY; AZ; AA; AB; AC; AU; AV; AW].
(** increasing letter order *)
Definition axes_by_letter : list axis := [AA; AB; AC; AU; AV; AW; AX; AY; AZ].
Definition axis_letter (a : axis) : letter :=
  match a with AX => LX | AY => LY | AZ => LZ | AA => LA | AB => LB | AC => LC | AU => LU | AV => LV | AW => LW end.
Definition axis_of_letter (l : letter) : option axis :=
  match l with LX => Some AX | LY => Some AY | LZ => Some AZ | LA => Some AA | LB => Some AB | LC => Some AC
             | LU => Some AU | LV => Some AV | LW => Some AW | _ => None end.

(** One slot per possible axis. A Python dict (or set) keyed by axis letters is such a table; being
    a record, equal contents are equal terms, whatever the (hash dependent) order of the dict. *)
Record v9 (A : Type) := V9 { v_X : A; v_Y : A; v_Z : A; v_A : A; v_B : A; v_C : A; v_U : A; v_V : A; v_W : A }.
Arguments V9 {A}. Arguments v_X {A}. Arguments v_Y {A}. Arguments v_Z {A}. Arguments v_A {A}. Arguments v_B {A}.
Arguments v_C {A}. Arguments v_U {A}. Arguments v_V {A}. Arguments v_W {A}.
Definition vget {A} (v : v9 A) (a : axis) : A :=
  match a with AX => v_X v | AY => v_Y v | AZ => v_Z v | AA => v_A v | AB => v_B v | AC => v_C v
             | AU => v_U v | AV => v_V v | AW => v_W v end.
Definition vfun {A} (f : axis -> A) : v9 A := V9 (f AX) (f AY) (f AZ) (f AA) (f AB) (f AC) (f AU) (f AV) (f AW).
Definition axis_eqb (a b : axis) : bool := letter_eqb (axis_letter a) (axis_letter b).
Definition vset {A} (v : v9 A) (a : axis) (x : A) : v9 A := vfun (fun b => if axis_eqb a b then x else vget v b).
Definition vall (f : axis -> bool) : bool := forallb f all_axes.

Definition axset := v9 bool.
Definition axset_of (l : list axis) : axset := vfun (fun a => existsb (axis_eqb a) l).
Definition axset_eqb (a b : axset) : bool := vall (fun x => Bool.eqb (vget a x) (vget b x)).
(** a is a subset of b *)
Definition axset_sub (a b : axset) : bool := vall (fun x => implb (vget a x) (vget b x)).
Definition full_axes : axset := vfun (fun _ => true).

(** machine.py:21-22: unit ids are those of the G20 / G21 classes *)
Definition UNIT_IMPERIAL : Z := resolve_or own_unit_id GCodeUseInches (-1).
Definition UNIT_METRIC : Z := resolve_or own_unit_id GCodeUseMillimeters (-1).

(** machine.py:35-55. [pvals]: the [_value] dictionary; a key that is not in [axes] is possible
    (passed as a keyword to the constructor) and is called hidden below.
    Not modelled: [_value] is a defaultdict, so reading a missing key also inserts 0.0. *)
Record position := Pos { paxes : axset; punit : Z; pvals : v9 (option Qc) }.

Definition default_unit : Z := UNIT_METRIC.   (* machine.py:37 *)

(** machine.py:40-55 [Position(axes, unit=..., **coords)] *)
Definition mk_position (axes : axset) (unit : Z) (coords : list (axis * Qc)) : position :=
  Pos axes unit
    (fold_left (fun v kx => vset v (fst kx) (Some (snd kx))) coords
       (vfun (fun a => if vget axes a then Some (Q2Qc 0) else None))).

Definition oval (o : option Qc) : Qc := match o with Some x => x | None => Q2Qc 0 end.
(** [self._value[k]] *)
Definition pval (p : position) (a : axis) : Qc := oval (vget (pvals p) a).

(** machine.py:65-72 *)
Definition pos_getattr (p : position) (a : axis) : result Qc :=
  if vget (paxes p) a then Ok (pval p a) else Raise EAttributeError.
(** machine.py:74-80 *)
Definition pos_setattr (p : position) (a : axis) (x : Qc) : result position :=
  if vget (paxes p) a then Ok (Pos (paxes p) (punit p) (vset (pvals p) a (Some x)))
  else Raise EMachineInvalidAxis.
(** machine.py:60-62 *)
Fixpoint pos_update (p : position) (coords : list (axis * Qc)) : result position :=
  match coords with
  | [] => Ok p
  | (a, x) :: r => do p' <- pos_setattr p a x; pos_update p' r
  end.

Definition vals_eqb (a b : v9 (option Qc)) : bool :=
  vall (fun x => match vget a x, vget b x with
                 | Some p, Some q => Qceqb p q
                 | None, None => true
                 | _, _ => false
                 end).

Section WithArith.
Context {ar : Arith}.

(** machine.py:23-32 [UNIT_MAP[from]['conversion_factor'][to]] *)
Definition conversion_factor (from to : Z) : result Qc :=
  if (from =? UNIT_IMPERIAL) && (to =? UNIT_METRIC) then Ok (flit 254 10)
  else if (from =? UNIT_METRIC) && (to =? UNIT_IMPERIAL) then Ok (fdiv (Q2Qc 1) (flit 254 10))
  else Raise EKeyError.

(** machine.py:132-139: the setter function of the property [unit]. Python runs it for an assignment
    [p.unit = u] only if the class leaves attribute assignment to [object]; Position does not (see
    [pos_set_unit]), so it can only be called by name, as [Position.unit.fset(p, u)]. *)
Definition unit_setter (p : position) (u : Z) : result position :=
  if u =? punit p then Ok p
  else do f <- conversion_factor (punit p) u;
       Ok (Pos (paxes p) u (vfun (fun a => option_map (fun x => fmul x f) (vget (pvals p) a)))).

(** [p.unit = u] is [Position.__setattr__(p, 'unit', u)], machine.py:74-80: 'unit' is no axis, so u is stored
    in the instance's [__dict__], where the property [unit] (127-130, a data descriptor) hides it: reading
    [p.unit] still gives [_unit], and neither [_unit] nor [_value] changes.
    Not modelled: the entry 'unit' of [__dict__], which nothing reads and [__copy__] does not copy. *)
Definition pos_set_unit (p : position) (u : Z) : position := p.

(** machine.py:83-92 *)
Definition pos_eqb (p q : position) : result bool :=
  if negb (axset_eqb (paxes p) (paxes q)) then Ok false
  else if punit p =? punit q then Ok (vals_eqb (pvals p) (pvals q))
  else let x := pos_set_unit q (punit p) in Ok (vals_eqb (pvals p) (pvals x)).

(** machine.py:98-104 *)
Definition pos_add (p q : position) : result position :=
  if negb (axset_eqb (paxes p) (paxes q)) then Raise EMachineInvalidAxis
  else Ok (Pos (paxes p) (punit p)
             (vfun (fun a => option_map (fun x => fadd x (pval q a)) (vget (pvals p) a)))).
(** machine.py:106-112 *)
Definition pos_sub (p q : position) : result position :=
  if negb (axset_sub (paxes q) (paxes p)) then Raise EMachineInvalidAxis
  else Ok (Pos (paxes p) (punit p)
             (vfun (fun a => match vget (pvals q) a with
                             | None => vget (pvals p) a
                             | Some y => Some (fsub (pval p a) y)
                             end))).
(** machine.py:114-118 *)
Definition pos_mul (p : position) (s : Qc) : position :=
  Pos (paxes p) (punit p) (vfun (fun a => option_map (fun x => fmul x s) (vget (pvals p) a))).
(** machine.py:120-126 *)
Definition pos_div (p : position) (s : Qc) : result position :=
  if Qceqb s (Q2Qc 0) && existsb (fun a => match vget (pvals p) a with Some _ => true | None => false end) all_axes
  then Raise EZeroDivisionError
  else Ok (Pos (paxes p) (punit p) (vfun (fun a => option_map (fun x => fdiv x s) (vget (pvals p) a)))).

(** machine.py:142-160 [_cmp], on the base class: the result has all nine axes *)
Definition pos_cmp (key : Qc -> Qc -> Qc) (p1 p2 : position) : result position :=
  let p2 := (if punit p2 =? punit p1 then p2 else pos_set_unit p2 (punit p1)) in
  (* [getattr(p1, k), getattr(p2, k)] for every key k of p1 *)
  if vall (fun a => match vget (pvals p1) a with
                    | None => true
                    | Some _ => vget (paxes p1) a && vget (paxes p2) a
                    end)
  then Ok (Pos full_axes (punit p1)
             (vfun (fun a => match vget (pvals p1) a with
                             | Some x => Some (key x (pval p2 a))
                             | None => Some (Q2Qc 0)
                             end)))
  else Raise EAttributeError.
Definition qmin (x y : Qc) : Qc := if Qcltb y x then y else x.
Definition qmax (x y : Qc) : Qc := if Qcltb x y then y else x.
(** machine.py:162-168 *)
Definition pos_min := pos_cmp qmin.
Definition pos_max := pos_cmp qmax.

(** machine.py:171-173: words of all axes, sorted by letter *)
Definition pos_words (p : position) : list word :=
  map (fun a => Word (axis_letter a) (VFloat (pval p a))) (filter (vget (paxes p)) axes_by_letter).
End WithArith.
