(** Gcodes: /repo/src/pygcode/gcodes.py (class GCode, look-up maps, words2gcodes, text2gcodes, split_gcodes). *)
From Coq Require Import Ascii String List Bool Arith ZArith QArith Qcanon.
From Verif Require Import Base Num Regex Words GTable.
Import ListNotations.
Open Scope Z_scope.

Definition gclass_eqb (a b : gclass) : bool := Pos.eqb (class_num a) (class_num b).
Definition mgroup_eqb (a b : mgroup) : bool := Z.eqb (mgroup_num a) (mgroup_num b).

(** ** Attribute look-up along the (single) inheritance chain. *)
Fixpoint resolve_fuel {A} (fuel : nat) (own : gclass -> option A) (c : gclass) : option A :=
  match own c with
  | Some a => Some a
  | None => match fuel, parent c with
            | S k, Some p => resolve_fuel k own p
            | _, _ => None
            end
  end.
Definition resolve {A} (own : gclass -> option A) (c : gclass) : option A := resolve_fuel 12 own c.
Definition resolve_or {A} (own : gclass -> option A) (c : gclass) (d : A) : A :=
  match resolve own c with Some a => a | None => d end.

(** [issubclass(c, base)] *)
Fixpoint subclass_fuel (fuel : nat) (c base : gclass) : bool :=
  gclass_eqb c base ||
  match fuel, parent c with
  | S k, Some p => subclass_fuel k p base
  | _, _ => false
  end.
Definition subclass (c base : gclass) : bool := subclass_fuel 12 c base.

Definition param_letters (c : gclass) : list letter := resolve_or own_param_letters c [].
Definition modal_param_letters (c : gclass) : list letter := resolve_or own_modal_param_letters c [].
Definition modal_group (c : gclass) : option mgroup := resolve_or own_modal_group c None.
Definition exec_order (c : gclass) : Z := resolve_or own_exec_order c 999.
Definition process_kind (c : gclass) : proc := resolve_or own_process c PNothing.
(** [None]: AttributeError *)
Definition unit_id (c : gclass) : option Z := resolve own_unit_id c.
Definition coord_system_id (c : gclass) : option (option Z) := resolve own_coord_system_id c.
Definition normal_axis (c : gclass) : option (option letter) := resolve own_normal_axis c.
Definition plane_axes (c : gclass) : option (list letter) := resolve own_plane_axes c.

Definition accepts (c : gclass) (l : letter) : bool := existsb (letter_eqb l) (param_letters c).
Definition accepts_modal (c : gclass) (l : letter) : bool := existsb (letter_eqb l) (modal_param_letters c).

(** ** gcodes.py:1362-1378 [_subclasses(GCode)]: depth first, siblings sorted by name. *)
Fixpoint str_leb (a b : string) : bool :=
  match a, b with
  | EmptyString, _ => true
  | String _ _, EmptyString => false
  | String x a', String y b' =>
      if (code x <? code y)%nat then true else if (code y <? code x)%nat then false else str_leb a' b'
  end.
Fixpoint insert_by_name (x : gclass) (l : list gclass) : list gclass :=
  match l with
  | [] => [x]
  | y :: l' => if str_leb (class_name x) (class_name y) then x :: l else y :: insert_by_name x l'
  end.
Definition children (c : gclass) : list gclass :=
  fold_right insert_by_name []
    (filter (fun d => match parent d with Some p => gclass_eqb p c | None => false end) all_gclasses).
Fixpoint subclasses_fuel (fuel : nat) (c : gclass) : list gclass :=
  match fuel with
  | O => [c]
  | S k => c :: flat_map (subclasses_fuel k) (children c)
  end.
Definition subclasses : list gclass := Eval vm_compute in subclasses_fuel 12 GCode.

(** ** The gcode object: gcodes.py:140-183 *)
Record gcode := MkGCode {
  gcls : gclass;
  gword : word;
  gparams : dict letter word;   (* self.params *)
  gwhite : bool                 (* self._whitespace_prefix *)
}.

Definition pget (d : dict letter word) (l : letter) : option word := dget letter_eqb d l.

Section WithArith.
Context {ar : Arith}.

(** A [Word(letter, number)] literal of a class body; the coercion never fails on those. *)
Definition lit_word (lv : letter * value) : word :=
  Word (fst lv) (match coerce (fst lv) (snd lv) with Ok v => v | Raise _ => snd lv end).
Definition word_key (c : gclass) : option word := option_map lit_word (resolve_or own_word_key c None).
Definition default_word_attr (c : gclass) : option word := option_map lit_word (resolve_or own_default_word c None).
Definition word_matches (c : gclass) : option matcher := resolve_or own_word_matches c None.

(** gcodes.py:214-219 (Word objects are truthy) *)
Definition default_word (c : gclass) : result word :=
  match default_word_attr c with
  | Some w => Ok w
  | None => match word_key c with
            | Some w => Ok w
            | None => Raise EAssertionError
            end
  end.

(** gcodes.py:245-256 [add_parameter] *)
Definition add_parameter (g : gcode) (w : word) : result gcode :=
  if negb (accepts (gcls g) (wletter w)) then Raise EGCodeParameterError
  else if dmem letter_eqb (gparams g) (wletter w) then Raise EGCodeParameterError
  else Ok (MkGCode (gcls g) (gword g) (dset letter_eqb (gparams g) (wletter w) w) (gwhite g)).

Fixpoint add_parameters (g : gcode) (ws : list word) : result gcode :=
  match ws with
  | [] => Ok g
  | w :: ws' => do g' <- add_parameter g w; add_parameters g' ws'
  end.

(** gcodes.py:158-181 constructor with a word and parameter words *)
Definition mk_gcode (c : gclass) (w : word) (params : list word) : result gcode :=
  add_parameters (MkGCode c w [] false) params.
(** gcodes.py:169-170, 182-183 constructor with keyword parameters: [cls(X=1, Y=2)] *)
Fixpoint kw_words (kws : list (letter * value)) : result (list word) :=
  match kws with
  | [] => Ok []
  | (l, v) :: r => do w <- mk_word l v; do ws <- kw_words r; Ok (w :: ws)
  end.
(** Simplified: parameters are coerced before being added one by one, so when two errors are
    possible the error kind may differ from Python's (never whether there is an error). *)
Definition mk_gcode_kw (c : gclass) (kws : list (letter * value)) : result gcode :=
  do w <- default_word c; do ws <- kw_words kws; mk_gcode c w ws.

(** gcodes.py:198-212 [str(gcode)]: parameters sorted by letter *)
Definition sorted_params (d : dict letter word) : list (letter * word) :=
  sort (fun kv => Z.of_nat (lnum (fst kv))) d.
Definition gcode_str (g : gcode) : text :=
  let ps := match gparams g with
            | [] => []
            | d => space :: join [space] (map (fun kv => word_str (snd kv)) (sorted_params d))
            end in
  let ws := word_str (gword g) in
  (if gwhite g then repeat space (length ws) else ws) ++ ps.

(** gcodes.py:222-226 [==]; dictionaries compare by content *)
Definition params_eqb (a b : dict letter word) : bool :=
  let sub x y := forallb (fun kv => match dget letter_eqb y (fst kv) with
                                    | Some w => word_eqb (snd kv) w | None => false end) x in
  (length a =? length b)%nat && sub a b.
Definition gcode_eqb (a b : gcode) : bool := word_eqb (gword a) (gword b) && params_eqb (gparams a) (gparams b).

(** gcodes.py:269-280 [getattr] of a letter: value, None, or AttributeError *)
Definition gcode_getattr (g : gcode) (l : letter) : result (option value) :=
  if accepts (gcls g) l then
    Ok (option_map wvalue (pget (gparams g) l))
  else Raise EAttributeError.

(** gcodes.py:282-290 [setattr] of a letter. When the letter is not a parameter of the class Python
    just stores an ordinary attribute, which does not touch the parameters. *)
Definition gcode_setattr (g : gcode) (l : letter) (v : value) : result gcode :=
  if accepts (gcls g) l then
    match pget (gparams g) l with
    | Some w =>
        do v' <- coerce (wletter w) v;   (* words.py:83-84 *)
        Ok (MkGCode (gcls g) (gword g) (dset letter_eqb (gparams g) l (Word (wletter w) v')) (gwhite g))
    | None => do w <- mk_word l v; add_parameter g w
    end
  else Ok g.

(** gcodes.py:296-301 [modal_copy] (the copy's whitespace flag is reset by the constructor) *)
Definition modal_copy (g : gcode) : result gcode :=
  mk_gcode (gcls g) (gword g)
    (map snd (filter (fun kv => accepts_modal (gcls g) (fst kv)) (gparams g))).

(** gcodes.py:303-317 [get_param_dict(letters)] (lc=False) *)
Definition get_param_dict (g : gcode) (letters : option (list letter)) : dict letter value :=
  dupdate letter_eqb []
    (map (fun kv => (wletter (snd kv), wvalue (snd kv)))
       (filter (fun kv => match letters with
                          | None => true
                          | Some ls => existsb (letter_eqb (wletter (snd kv))) ls
                          end) (gparams g))).

(** ** Look-up maps: gcodes.py:1408-1427 *)
Fixpoint build_word_map (cs : list gclass) (acc : list (word * gclass)) : result (list (word * gclass)) :=
  match cs with
  | [] => Ok acc
  | c :: cs' =>
      match word_key c with
      | Some w =>
          if existsb (fun e => word_eqb w (fst e)) acc then Raise ERuntimeError
          else build_word_map cs' (acc ++ [(w, c)])
      | None => build_word_map cs' acc
      end
  end.
Definition function_list : list (matcher * gclass) :=
  flat_map (fun c => match word_key c with
                     | Some _ => []
                     | None => match word_matches c with Some f => [(f, c)] | None => [] end
                     end) subclasses.

(** [w.value] compared with floats: the words these matchers see have float values *)
Definition matches (f : matcher) (w : word) : bool :=
  match f with
  | MLetter l => letter_eqb (wletter w) l
  | MRange l lo hi => letter_eqb (wletter w) l &&
      match wvalue w with VFloat x => Qcleb lo x && Qcleb x hi | _ => false end
  | MIn l vs => letter_eqb (wletter w) l &&
      match wvalue w with VFloat x => existsb (Qceqb x) vs | _ => false end
  end.

(** gcodes.py:1431-1456 [word_gcode_class] (exhaustive=False). The word map is a dictionary keyed by
    distinct words ([build_word_map] succeeds, see C17), so the look-up is [find]. *)
Definition gcode_letter (l : letter) : bool :=
  match l with LG | LM | LF | LS | LT | LN | LO => true | _ => false end.
Definition word_gcode_class (w : word) : option gclass :=
  if negb (gcode_letter (wletter w)) then None
  else match find (fun c => match word_key c with Some k => word_eqb w k | None => false end) subclasses with
       | Some c => Some c
       | None => option_map snd (find (fun e => matches (fst e) w) function_list)
       end.

(** ** words2gcodes: gcodes.py:1459-1525 *)
Record winfo := WInfo { wi_word : word; wi_class : option gclass; wi_to : option nat }.

Definition word_infos (ws : list word) : list winfo :=
  map (fun w => WInfo w (word_gcode_class w) None) ws.

(** lines 1503-1506: candidate [i] of class [c] claims the following words it accepts *)
Definition claim (i : nat) (c : gclass) (l : list winfo) : list winfo :=
  map (fun p => if accepts c (wletter (wi_word p)) then WInfo (wi_word p) None (Some i) else p) l.
(** lines 1499-1506; [i] is the index of the head of the list *)
Fixpoint link (n : nat) (i : nat) (l : list winfo) : list winfo :=
  match n, l with
  | S k, p :: l' =>
      p :: link k (S i) (match wi_class p with None => l' | Some c => claim i c l' end)
  | _, _ => l
  end.
(** lines 1508-1513 *)
Definition params_of (l : list winfo) (key : option nat) : list word :=
  map wi_word (filter (fun p => match wi_class p with
                                | Some _ => false
                                | None => match wi_to p, key with
                                          | None, None => true
                                          | Some a, Some b => Nat.eqb a b
                                          | _, _ => false
                                          end
                                end) l).
(** lines 1515-1523 *)
Fixpoint make_gcodes (all : list winfo) (i : nat) (l : list winfo) : result (list gcode) :=
  match l with
  | [] => Ok []
  | p :: l' =>
      match wi_class p with
      | None => make_gcodes all (S i) l'
      | Some c =>
          do g <- mk_gcode c (wi_word p) (params_of all (Some i));
          do gs <- make_gcodes all (S i) l';
          Ok (g :: gs)
      end
  end.
Definition words2gcodes (ws : list word) : result (list gcode * list word) :=
  let l := link (length ws) 0 (word_infos ws) in
  do gs <- make_gcodes l 0 l;
  Ok (gs, params_of l None).

(** gcodes.py:1528-1538 *)
Definition text2gcodes (s : text) : result (list gcode) :=
  do ws <- text2words s;
  do (gs, unused) <- words2gcodes ws;
  match unused with [] => Ok gs | _ => Raise EGCodeWordStrError end.

(** ** gcodes.py:232-242, [sorted(gcodes)] *)
Definition gorder (g : gcode) : Z := exec_order (gcls g).
Definition sort_gcodes (l : list gcode) : list gcode := sort gorder l.

(** gcodes.py:1543-1610 [split_gcodes] *)
Fixpoint split_at (cls : gclass) (l : list gcode) : option (list gcode * gcode * list gcode) :=
  match l with
  | [] => None
  | g :: l' =>
      if subclass (gcls g) cls then Some ([], g, l')
      else match split_at cls l' with
           | Some (a, x, b) => Some (g :: a, x, b)
           | None => None
           end
  end.
Definition split_gcodes (l : list gcode) (cls : gclass) (sort_list : bool) : list gcode * list gcode * list gcode :=
  let l := if sort_list then sort_gcodes l else l in
  match split_at cls l with
  | Some (a, x, b) => (a, [x], b)
  | None => (l, [], [])
  end.
End WithArith.
