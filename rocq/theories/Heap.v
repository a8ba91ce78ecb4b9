(** Objects and sharing. In the other model files words and gcodes are values. In Python they are objects that can be
    changed ([gcode.X = 1] writes into the [Word] the gcode refers to, or adds a [Word] to its dictionary), and several
    objects may refer to the same one. Here the operations that make and change them are modelled once more, on a heap.
    Only what can be changed through the public attributes is on the heap: [Word] objects (their value, words.py:78-84)
    and [GCode] objects (their dictionary of parameters, gcodes.py:140-301). Not modelled: assigning to [gcode.word],
    [gcode.params], [word.letter] or the private attributes directly. *)
From Coq Require Import Ascii String List Bool Arith ZArith QArith Qcanon.
From Verif Require Import Base Num Regex Words GTable GCode Line Position Machine.
Import ListNotations.
Open Scope nat_scope.

Definition ref := nat.
Record hgcode := HG { hcls : gclass; hword : ref; hparams : dict letter ref; hwhite : bool }.
Record heap := Heap { cells : list word; objs : list hgcode }.

(** following a reference; references made by the operations below are never dangling (HeapProofs) *)
Definition no_word : word := Word LG (VInt 0).
Definition no_gcode : hgcode := HG GCode 0 [] false.
Definition cell (h : heap) (r : ref) : word := nth r (cells h) no_word.
Definition obj (h : heap) (i : ref) : hgcode := nth i (objs h) no_gcode.
Fixpoint update {A} (l : list A) (n : nat) (x : A) : list A :=
  match l, n with
  | [], _ => []
  | _ :: l', 0 => x :: l'
  | y :: l', S k => y :: update l' k x
  end.
Definition set_cell (h : heap) (r : ref) (w : word) : heap := Heap (update (cells h) r w) (objs h).
Definition set_obj (h : heap) (i : ref) (o : hgcode) : heap := Heap (cells h) (update (objs h) i o).
Definition new_cells (h : heap) (ws : list word) : heap * list ref :=
  (Heap (cells h ++ ws) (objs h), seq (length (cells h)) (length ws)).
Definition new_obj (h : heap) (o : hgcode) : heap * ref := (Heap (cells h) (objs h ++ [o]), length (objs h)).

(** what an object is worth now, as a value of the other model files *)
Definition val_of (h : heap) (o : hgcode) : gcode :=
  MkGCode (hcls o) (cell h (hword o)) (map (fun kv => (fst kv, cell h (snd kv))) (hparams o)) (hwhite o).
Definition gval (h : heap) (i : ref) : gcode := val_of h (obj h i).

Section WithArith.
Context {ar : Arith}.

(** gcodes.py:245-256: the dictionary refers to the word given *)
Definition h_add_parameter (h : heap) (i : ref) (r : ref) : result heap :=
  let o := obj h i in
  let l := wletter (cell h r) in
  if negb (accepts (hcls o) l) then Raise EGCodeParameterError
  else if dmem letter_eqb (hparams o) l then Raise EGCodeParameterError
  else Ok (set_obj h i (HG (hcls o) (hword o) (dset letter_eqb (hparams o) l r) (hwhite o))).
Fixpoint h_add_parameters (h : heap) (i : ref) (rs : list ref) : result heap :=
  match rs with
  | [] => Ok h
  | r :: rs' => do h' <- h_add_parameter h i r; h_add_parameters h' i rs'
  end.
(** gcodes.py:158-181: the gcode refers to the word given *)
Definition h_mk_gcode (h : heap) (c : gclass) (w : ref) (params : list ref) : result (heap * ref) :=
  let (h1, i) := new_obj h (HG c w [] false) in
  do h2 <- h_add_parameters h1 i params; Ok (h2, i).

(** gcodes.py:269-280 *)
Definition h_getattr (h : heap) (i : ref) (l : letter) : result (option value) :=
  if accepts (hcls (obj h i)) l
  then Ok (option_map (fun r => wvalue (cell h r)) (dget letter_eqb (hparams (obj h i)) l))
  else Raise EAttributeError.
(** gcodes.py:282-290 *)
Definition h_setattr (h : heap) (i : ref) (l : letter) (v : value) : result heap :=
  if accepts (hcls (obj h i)) l then
    match dget letter_eqb (hparams (obj h i)) l with
    | Some r => do v' <- coerce (wletter (cell h r)) v; Ok (set_cell h r (Word (wletter (cell h r)) v'))
    | None => do w <- mk_word l v;
              let (h1, rs) := new_cells h [w] in
              h_add_parameters h1 i rs
    end
  else Ok h.
(** a statement [gcode.l = v] that raises leaves everything as it was *)
Definition assign (h : heap) (e : ref * letter * value) : heap :=
  match h_setattr h (fst (fst e)) (snd (fst e)) (snd e) with Ok h' => h' | Raise _ => h end.

(** gcodes.py:296-301: the copy refers to the same words *)
Definition h_modal_copy (h : heap) (i : ref) : result (heap * ref) :=
  let o := obj h i in
  h_mk_gcode h (hcls o) (hword o) (map snd (filter (fun kv => accepts_modal (hcls o) (fst kv)) (hparams o))).

(** gcodes.py:1459-1525: the gcodes refer to the words given *)
Record hinfo := HInfo { hi_ref : ref; hi_class : option gclass; hi_to : option nat }.
Definition h_infos (h : heap) (rs : list ref) : list hinfo :=
  map (fun r => HInfo r (word_gcode_class (cell h r)) None) rs.
Definition h_claim (h : heap) (i : nat) (c : gclass) (l : list hinfo) : list hinfo :=
  map (fun p => if accepts c (wletter (cell h (hi_ref p))) then HInfo (hi_ref p) None (Some i) else p) l.
Fixpoint h_link (h : heap) (n : nat) (i : nat) (l : list hinfo) : list hinfo :=
  match n, l with
  | S k, p :: l' =>
      p :: h_link h k (S i) (match hi_class p with None => l' | Some c => h_claim h i c l' end)
  | _, _ => l
  end.
Definition h_params_of (l : list hinfo) (key : option nat) : list ref :=
  map hi_ref (filter (fun p => match hi_class p with
                                | Some _ => false
                                | None => match hi_to p, key with
                                          | None, None => true
                                          | Some a, Some b => Nat.eqb a b
                                          | _, _ => false
                                          end
                                end) l).
Fixpoint h_make_gcodes (h : heap) (all : list hinfo) (i : nat) (l : list hinfo) : result (heap * list ref) :=
  match l with
  | [] => Ok (h, [])
  | p :: l' =>
      match hi_class p with
      | None => h_make_gcodes h all (S i) l'
      | Some c =>
          do (h1, g) <- h_mk_gcode h c (hi_ref p) (h_params_of all (Some i));
          do (h2, gs) <- h_make_gcodes h1 all (S i) l';
          Ok (h2, g :: gs)
      end
  end.
Definition h_words2gcodes (h : heap) (rs : list ref) : result (heap * (list ref * list ref)) :=
  let l := h_link h (length rs) 0 (h_infos h rs) in
  do (h1, gs) <- h_make_gcodes h l 0 l;
  Ok (h1, (gs, h_params_of l None)).

(** block.py:10-50 *)
Record hblock := HBlock { hb_words : list ref; hb_gcodes : list ref; hb_modal : list ref }.
Definition bval (h : heap) (b : hblock) : block :=
  Block (map (cell h) (hb_words b)) (map (gval h) (hb_gcodes b)) (map (cell h) (hb_modal b)).
Definition h_mk_block (h : heap) (verify : bool) (s : text) : result (heap * hblock) :=
  match s with
  | [] => Ok (h, HBlock [] [] [])
  | _ =>
      do ws <- text2words (clean_text s);
      let (h1, rs) := new_cells h ws in
      do (h2, p) <- h_words2gcodes h1 rs;
      let (gs, unused) := p : list ref * list ref in
      if verify then do _ <- assert_gcodes [] [] (map (gval h2) gs); Ok (h2, HBlock rs gs unused)
      else Ok (h2, HBlock rs gs unused)
  end.
(** block.py:81-88 *)
Definition h_block_getattr (h : heap) (b : hblock) (l : letter) : option word :=
  option_map (cell h) (find (fun r => letter_eqb (wletter (cell h r)) l) (hb_words b)).

(** machine.py:292-319: the gcodes of a mode, by group *)
Definition hmode := mgroup -> option ref.
Definition no_mode : hmode := fun _ => None.
Definition hm_set (md : hmode) (mg : mgroup) (i : ref) : hmode := fun x => if mgroup_eqb x mg then Some i else md x.
Definition mode_val (h : heap) (md : hmode) (mg : mgroup) : option gcode := option_map (gval h) (md mg).
Fixpoint h_mode_set_list (h : heap) (md : hmode) (gs : list ref) : result (heap * hmode) :=
  match gs with
  | [] => Ok (h, md)
  | i :: gs' =>
      match modal_group (hcls (obj h i)) with
      | None => h_mode_set_list h md gs'
      | Some mg => do (h1, c) <- h_modal_copy h i; h_mode_set_list h1 (hm_set md mg c) gs'
      end
  end.
Definition h_mode_set (h : heap) (md : hmode) (gs : list ref) : result (heap * hmode) :=
  h_mode_set_list h md (sort (fun i => exec_order (hcls (obj h i))) gs).

(** machine.py:411-451 (ignore_invalid_modal False) *)
Definition h_modal_gcode (h : heap) (md : hmode) (modal_params : list ref) : result (heap * option ref) :=
  match modal_params with
  | [] => Ok (h, None)
  | _ =>
      match md MG_motion with
      | None => Raise EMachineInvalidState
      | Some mo =>
          let params := dupdate letter_eqb (hparams (obj h mo)) (map (fun r => (wletter (cell h r), r)) modal_params) in
          do (h1, p) <- h_words2gcodes h (hword (obj h mo) :: map snd params);
          match snd p, fst p with
          | _ :: _, _ => Raise EMachineInvalidState
          | [], [] => Ok (h1, None)
          | [], [g] => Ok (h1, Some g)
          | [], _ => Raise EAssertionError
          end
      end
  end.

(** machine.py:485-514, the part about the mode: each gcode of the block, in order of execution, is copied into the mode
    (machine.py:316). [k]: how many of them are reached (an exception in the effect of a gcode ends the processing). *)
Definition h_process (h : heap) (md : hmode) (b : hblock) (k : nat) : result (heap * hmode) :=
  do (h1, og) <- h_modal_gcode h md (hb_modal b);
  h_mode_set_list h1 md (firstn k (sort (fun i => exec_order (hcls (obj h1 i)))
    (hb_gcodes b ++ match og with Some g => [g] | None => [] end))).

(** ** A user's program: it reads lines, processes them on a machine and assigns to attributes of their gcodes,
    in any order. Statements that raise leave the variables as they were. *)
Inductive cmd :=
| CParse (verify : bool) (s : text)             (* block = Block(s, verify=...) *)
| CProcess (n k : nat)                          (* machine.process_block(blocks[n]) *)
| CClear (mg : mgroup)                          (* machine.mode.<group> = None; gcodes.py:526 for G80 *)
| CAssign (n k : nat) (l : letter) (v : value). (* blocks[n].gcodes[k].<letter> = value *)
Record session := Session { s_heap : heap; s_blocks : list hblock; s_mode : hmode }.
Definition start : session := Session (Heap [] []) [] no_mode.
Definition run1 (st : session) (c : cmd) : session :=
  let h := s_heap st in
  match c with
  | CParse v s => match h_mk_block h v s with
                  | Ok (h', b) => Session h' (s_blocks st ++ [b]) (s_mode st)
                  | Raise _ => st
                  end
  | CProcess n k => match nth_error (s_blocks st) n with
                    | None => st
                    | Some b => match h_process h (s_mode st) b k with
                                | Ok (h', md) => Session h' (s_blocks st) md
                                | Raise _ => st
                                end
                    end
  | CClear mg => Session h (s_blocks st) (fun x => if mgroup_eqb x mg then None else s_mode st x)
  | CAssign n k l v => match nth_error (s_blocks st) n with
                       | None => st
                       | Some b => match nth_error (hb_gcodes b) k with
                                   | None => st
                                   | Some i => Session (assign h (i, l, v)) (s_blocks st) (s_mode st)
                                   end
                       end
  end.
Definition run (cs : list cmd) : session := fold_left run1 cs start.
(** what the user sees: the blocks and the mode *)
Definition seen_blocks (st : session) : list block := map (bval (s_heap st)) (s_blocks st).
Definition seen_mode (st : session) (mg : mgroup) : option gcode := mode_val (s_heap st) (s_mode st) mg.
End WithArith.
