(** The command line scripts /repo/scripts/pygcode-crop and /repo/scripts/pygcode-norm, and the dialect default of
    /repo/src/pygcode/dialects/__init__.py.

    A script is modelled as what it prints (a list of lines) and how it ends. The input file is the list [readlines()] gives.
    Not modelled: argparse itself (options are given as a record), the text encoding of files, import of the library. *)
From Coq Require Import Ascii String List Bool Arith ZArith QArith Qcanon Qround.
From Verif Require Import Base Num Regex Words GTable GCode Line Position Machine Transform.
Import ListNotations.

(** ** Printing: the lines printed so far, and the value or the exception *)
Definition printer (A : Type) := (list text * result A)%type.
Definition ret {A} (a : A) : printer A := ([], Ok a).
Definition pure {A} (r : result A) : printer A := ([], r).
Definition print (s : text) : printer unit := ([s], Ok tt).
Definition pbind {A B} (p : printer A) (k : A -> printer B) : printer B :=
  match p with
  | (o, Ok a) => let (o', r) := k a in (o ++ o', r)
  | (o, Raise e) => (o, Raise e)
  end.
Notation "'run' x <- p ; k" := (pbind p (fun x => k)) (at level 200, x pattern, p at level 100, k at level 200) : res_scope.
(** a method of the machine that may raise *)
Definition acts (s : step) (m : machine) : printer machine :=
  match s m with (m', Ok _) => ret m' | (_, Raise e) => pure (Raise e) end.
(** [Comment("...")]: comment.py:35 Comment = CommentSemicolon *)
Definition note (s : string) : text := comment_str (Comment CommentSemicolon (t s)).

Section WithArith.
Context {ar : Arith}.

(** ** pygcode-crop *)
(** crop:53  ^(?P<first>[^:]* ):(?P<last>[^:]* )$ *)
Definition not_colon (c : ascii) : bool := negb (Ascii.eqb c ":"%char).
Definition RE_RANGE : re :=
  Seq Bol (Seq (Grp 1 (Star not_colon)) (Seq (chr ":"%char) (Seq (Grp 2 (Star not_colon)) Eol))).
(** crop:79-88, IGNORECASE | MULTILINE | VERBOSE *)
Definition is_param (c : ascii) : bool :=
  existsb (Ascii.eqb c) (list_ascii_of_string "abcnxyzABCNXYZ").
Definition RE_CMP : re :=
  Seq BolM (Seq (Star is_space)
  (Seq (Opt (Seq (Opt (Grp 1 (Cls is_param))) (Seq (Star is_space)
     (Grp 2 (Alt (Seq (chr "="%char) (Opt (chr "="%char)))
            (Alt (Seq (chr "!"%char) (chr "="%char))
            (Alt (Seq (chr "<"%char) (Opt (chr "="%char)))
                 (Seq (chr ">"%char) (Opt (chr "="%char))))))))))
  (Seq (Star is_space)
  (Seq (Grp 3 (Seq (Opt (chr "-"%char)) (Seq (plus is_digit) (Opt (Seq (chr "."%char) (plus is_digit))))))
  (Seq (Star is_space) EolM))))).

(** crop:69-77 CMP_MAP *)
Inductive cmp_op := CEq | CNe | CLt | CLe | CGt | CGe.
Definition cmp_of_text (s : text) : option cmp_op :=
  if text_eqb s (t "=") || text_eqb s (t "==") then Some CEq
  else if text_eqb s (t "!=") then Some CNe
  else if text_eqb s (t "<") then Some CLt
  else if text_eqb s (t "<=") then Some CLe
  else if text_eqb s (t ">") then Some CGt
  else if text_eqb s (t ">=") then Some CGe
  else None.
Definition compare_with (c : cmp_op) (a b : Qc) : bool :=
  match c with
  | CEq => Qceqb a b | CNe => negb (Qceqb a b)
  | CLt => Qcltb a b | CLe => Qcleb a b | CGt => Qcltb b a | CGe => Qcleb b a
  end.
(** the callables: line number and position to a truth value *)
Definition condition := nat -> position -> result bool.
Definition cond_number (c : cmp_op) (x : Qc) : condition := fun n _ => Ok (compare_with c (Qc_of_Z (Z.of_nat n)) x).
Definition cond_axis (c : cmp_op) (a : axis) (x : Qc) : condition := fun _ p => do y <- pos_getattr p a; Ok (compare_with c y x).
(** [float(val) % 1] is not zero *)
Definition fractional (x : Qc) : bool := negb (Qceqb (Qc_of_Z (Qfloor (this x))) x).

(** crop:57-103 [_cmp] *)
Definition crop_cmp (s : text) : result condition :=
  match search RE_CMP s with
  | None => Raise EArgumentTypeError
  | Some m =>
      let param := match group m 1 with Some (c :: _) => letter_of_ascii c | _ => Some LN end in
      let op := match group m 2 with Some x => cmp_of_text x | None => Some CEq end in
      match param, op, group m 3 with
      | Some l, Some c, Some v =>
          do x <- py_float v;
          match l with
          | LN => if fractional x then Raise EArgumentTypeError else Ok (cond_number c x)
          | _ => match axis_of_letter l with Some a => Ok (cond_axis c a x) | None => Raise EKeyError end
          end
      | _, _, _ => Raise EKeyError          (* cannot happen: the groups of the regex (ScriptsProofs.v) *)
      end
  end.
(** [s.split(',')] *)
Fixpoint split_on (sep : ascii) (s : text) : list text :=
  match s with
  | [] => [[]]
  | c :: r => if Ascii.eqb c sep then [] :: split_on sep r
              else match split_on sep r with x :: l => (c :: x) :: l | [] => [[c]] end
  end.
Fixpoint mapr {A B} (f : A -> result B) (l : list A) : result (list B) :=
  match l with [] => Ok [] | x :: l' => do y <- f x; do r <- mapr f l'; Ok (y :: r) end.
(** [all(x(n, pos) for x in cmp_list)]: stops at the first false one *)
Fixpoint all_conds (l : list condition) : condition := fun n p =>
  match l with
  | [] => Ok true
  | c :: l' => do b <- c n p; if b : bool then all_conds l' n p else Ok false
  end.
(** crop:105-123 [_cmp_group] *)
Definition cmp_group (s : text) (default : condition) : result condition :=
  match s with
  | [] => Ok default
  | _ => do l <- mapr crop_cmp (split_on ","%char s); Ok (all_conds l)
  end.
(** crop:34-129 [range_type] *)
Definition range_type (s : text) : result (condition * condition) :=
  match search RE_RANGE s with
  | None => Raise EArgumentTypeError
  | Some m =>
      match group m 1, group m 2 with
      | Some a, Some b =>
          do f <- cmp_group a (fun _ _ => Ok true);
          do l <- cmp_group b (fun _ _ => Ok false);
          Ok (f, l)
      | _, _ => Raise EArgumentTypeError
      end
  end.

(** crop:210-236, with the copy of the machine made before the line *)
Definition rapid_to (ax : letter) (p : position) : printer unit :=
  run v <- pure (match axis_of_letter ax with Some a => pos_getattr p a | None => Raise EAttributeError end);
  run g <- pure (mk_gcode_kw GCodeRapidMove [(ax, VFloat v)]);
  print (gcode_str g).
Definition rapid_over (axs : list letter) (p : position) : printer unit :=
  run g <- pure (mk_gcode_kw GCodeRapidMove
            (flat_map (fun a => if vget (paxes p) a && existsb (letter_eqb (axis_letter a)) axs
                                then [(axis_letter a, VFloat (pval p a))] else []) all_axes));
  print (gcode_str g).
Definition crop_plane (md : mode) : gclass :=
  match gm_get md MG_plane_selection with
  | Some g => if subclass (gcls g) GCodePlaneSelect then gcls g else GCodeSelectXYPlane
  | None => GCodeSelectXYPlane
  end.
Definition crop_preamble (old : machine) : printer unit :=
  run _ <- match mode_str (m_mode old) with
           | [] => ret tt
           | s => run _ <- print (note "machine mode before cropping"); print s
           end;
  let plane := crop_plane (m_mode old) in
  run _ <- print (note "traverse into position, up, over, and down");
  match normal_axis plane with
  | Some (Some na) =>
      run _ <- rapid_to na (m_max old);
      run p <- pure (machine_pos old);
      run _ <- match plane_axes plane with
               | Some axs => rapid_over axs p
               | None => pure (Raise EAttributeError)
               end;
      run _ <- rapid_to na p;
      print []
  | Some None => pure (Raise ETypeError)       (* getattr(..., None) *)
  | None => pure (Raise EAttributeError)
  end.

(** crop:197-245; [n]: the line number i + 1, [pre]: pre_crop *)
Fixpoint crop_loop (is_first is_last : condition) (n : nat) (pre : bool) (m : machine) (ls : list text) : printer unit :=
  match ls with
  | [] => ret tt
  | s :: r =>
      run l <- pure (mk_line s);
      let old := machine_copy m in
      run m' <- acts (process_block (lblock l)) m;
      run starts <- (if pre then run p <- pure (machine_pos m'); pure (is_first n p) else ret false);
      run _ <- (if starts : bool then crop_preamble old else ret tt);
      if pre && negb starts then crop_loop is_first is_last (S n) true m' r
      else
        run p <- pure (machine_pos m');
        run stop <- pure (is_last n p);
        if stop : bool then ret tt
        else run _ <- print (line_str l); crop_loop is_first is_last (S n) false m' r
  end.
Definition crop (range : condition * condition) (file : list text) : printer unit :=
  run m <- pure null_machine; crop_loop (fst range) (snd range) 1 true m file.

(** ** pygcode-norm *)
(** the arguments; [o_linearize]: None without --arc_linearize, otherwise linearize_arc with the arguments at norm:326-335
    (modelled over the reals in Arc.v, here any generator of gcodes) *)
Record options := Options {
  o_singles : bool;
  o_full : bool;
  o_machine_mode : list text;       (* lines *)
  o_linearize : option (machine -> gcode -> gen);
  o_canned_expand : bool;
  o_canned_codes : list word;
  o_zero_xy : bool;
  o_zero_z : bool;
  o_height : option Qc;             (* --rapid_safety_height *)
  o_spindle_off : bool;
  o_rm_comments : bool;
  o_rm_blanks : bool;
  o_rm_whitespace : bool;
  o_rm_gcodes : list word;
  o_rm_invalid_modal : bool
}.
(** norm:83 *)
Definition norm_machine_mode : list text := [t "G0 G54 G17 G21 G90 G94 M5 M9 T0 F0 S0"].
(** norm:85 [sorted] does not matter: only membership is asked *)
Definition default_canned_codes : list word :=
  flat_map (fun c => if subclass c GCodeCannedCycle then match word_key c with Some w => [w] | None => [] end else []) subclasses.
Definition no_options : options := Options false false norm_machine_mode None false default_canned_codes false false None false false false false [] false.

(** norm:256-278, the else branch of [write] *)
Definition write_line (o : options) (gs : list gcode) (ps : list word) (c : option comment) (macro : option text) : printer unit :=
  let c := if o_rm_comments o then None else c in
  let gs := match o_rm_gcodes o with
            | [] => gs
            | ws => filter (fun g => negb (existsb (word_eqb (gword g)) ws)) gs
            end in
  let s := join [space] (map gcode_str gs ++ map word_str ps) in
  let s := if o_rm_whitespace o then filter (fun c => negb (is_space c)) s else s in
  let l := join [space]
    ((match s with [] => [] | _ => [s] end)
     ++ (match c with Some c => [comment_str c] | None => [] end)
     ++ (match macro with Some ((_ :: _) as m) => [m] | _ => [] end)) in
  match l, o_rm_blanks o with
  | [], true => ret tt
  | _, _ => print l
  end.
Fixpoint each {A} (f : A -> printer unit) (l : list A) : printer unit :=
  match l with [] => ret tt | x :: l' => run _ <- f x; each f l' end.
(** norm:243-278 [write] *)
Definition write (o : options) (gs : list gcode) (ps : list word) (c : option comment) (macro : option text) : printer unit :=
  match o_full o, ps with
  | true, _ :: _ => pure (Raise EAssertionError)
  | _, _ =>
      if o_singles o && (2 <=? length gs)%nat then each (fun g => write_line o [g] [] c None) (sort_gcodes gs)
      else write_line o gs ps c macro
  end.
Definition write_gcodes (o : options) (gs : list gcode) : printer unit := write o gs [] None None.
Definition write_note (o : options) (s : text) : printer unit := write o [] [] (Some (Comment CommentSemicolon s)) None.

(** gcodes.py:185-196 [repr(gcode)] *)
Definition gcode_repr (g : gcode) : text :=
  "<"%char :: t (class_name (gcls g)) ++ t ": " ++ word_str (gword g) ++
  match gparams g with
  | [] => []
  | d => "{"%char :: join (t ", ") (map (fun kv => word_str (snd kv)) (sorted_params d)) ++ ["}"%char]
  end ++ [">"%char].

(** norm:285-308 [split_and_process]; [body]: what the with block does with the gcode. The comment is written by norm:308
    from the current line. *)
Definition split_and_process (o : options) (cls : gclass) (c : option comment) (body : machine -> gcode -> printer unit)
    (gs : list gcode) (m : machine) : printer machine :=
  match split_gcodes gs cls true with
  | (befores, [g], afters) =>
      run m1 <- match befores with
                | [] => ret m
                | _ => run _ <- write_gcodes o befores; acts (process_gcodes befores []) m
                end;
      run _ <- body m1 g;
      run m2 <- acts (process_gcodes [g] []) m1;
      run m3 <- match afters with
                | [] => ret m2
                | _ => run _ <- write_gcodes o afters; acts (process_gcodes afters []) m2
                end;
      run _ <- match c with Some _ => write o [] [] c None | None => ret tt end;
      ret m3
  | _ => pure (Raise EValueError)        (* (g,) = () *)
  end.

(** the class of the mode of a group *)
Definition mode_class (m : machine) (mg : mgroup) : option gclass := option_map (@gcls) (gm_get (m_mode m) mg).
(** norm:239-241 and the loops at 336, 349: write what the generator gives, then its exception if any *)
Definition write_all (o : options) (s : gen) : printer unit :=
  let s := if o_full o then s else omit_redundant_modes s in
  run _ <- each (fun g => write_gcodes o [g]) (fst s); pure (snd s).

(** norm:340-350; [fuel]: turns of the loop in simplify_canned_cycle (None: not finished) *)
Definition expand (o : options) (fuel : nat) (m : machine) (g : gcode) : printer unit :=
  run _ <- write_note o (t "expanded: " ++ gcode_repr g);
  run p <- pure (machine_pos m);
  match simplify_canned_cycle fuel g p (mode_class m MG_plane_selection) (mode_class m MG_distance) None (m_axes m) with
  | None => pure (Raise EOutOfFuel)
  | Some s => write_all o s
  end.
Definition linearize (o : options) (f : machine -> gcode -> gen) (m : machine) (g : gcode) : printer unit :=
  run _ <- write_note o (t "linearized arc: " ++ gcode_repr g);
  write_all o (f m g).

(** norm:313-357, one line *)
Definition norm_line (o : options) (fuel : nat) (s : text) (m : machine) : printer machine :=
  run l <- pure (mk_line s);
  run b <- (if o_rm_invalid_modal o then pure (clean_block m (lblock l)) else ret (lblock l));
  run gs <- pure (block_modal_gcodes m b);
  let plain :=
    run _ <- (if o_full o then write o gs [] (lcomment l) (lmacro l) else write o (bgcodes b) (bmodal b) (lcomment l) (lmacro l));
    acts (process_block b) m in
  let canned :=
    if o_canned_expand o && existsb (fun g => existsb (word_eqb (gword g)) (o_canned_codes o)) gs
    then split_and_process o GCodeCannedCycle (lcomment l) (expand o fuel) gs m
    else plain in
  match o_linearize o with
  | Some f => if existsb (fun g => subclass (gcls g) GCodeArcMove) gs
              then split_and_process o GCodeArcMove (lcomment l) (linearize o f) gs m
              else canned
  | None => canned
  end.
Fixpoint norm_loop (o : options) (fuel : nat) (ls : list text) (m : machine) : printer machine :=
  match ls with
  | [] => ret m
  | s :: r => run m' <- norm_line o fuel s m; norm_loop o fuel r m'
  end.
(** norm:359-377 *)
Definition norm_final (o : options) (m : machine) : printer unit :=
  let mk c kws := pure (mk_gcode_kw c kws) in
  let say s := Some (Comment CommentSemicolon (t s)) in
  run _ <- (if o_spindle_off o || o_zero_xy o || o_zero_z o then write_note o (t "pygcode-norm: finalizing") else ret tt);
  run _ <- (if (o_zero_xy o || o_zero_z o) &&
               negb (match gm_get (m_mode m) MG_distance with Some g => subclass (gcls g) GCodeAbsoluteDistanceMode | None => false end)
            then run g <- mk GCodeAbsoluteDistanceMode []; write_gcodes o [g] else ret tt);
  run _ <- (if o_spindle_off o then run g <- mk GCodeStopSpindle []; write o [g] [] (say "spindle off"%string) None else ret tt);
  run _ <- (if o_zero_xy o then
              run h <- match o_height o with
                       | Some h => ret h
                       | None => pure (do p <- abs2work m (m_max m); pos_getattr p AZ)
                       end;
              run g <- mk GCodeRapidMove [(LZ, VFloat h)];
              run _ <- write o [g] [] (say "move to safe height"%string) None;
              run g <- mk GCodeRapidMove [(LX, VFloat (Q2Qc 0)); (LY, VFloat (Q2Qc 0))];
              write o [g] [] (say "move to planar origin"%string) None
            else ret tt);
  if o_zero_z o then run g <- mk GCodeRapidMove [(LZ, VFloat (Q2Qc 0))]; write o [g] [] (say "move to zero height"%string) None else ret tt.
Definition norm (o : options) (fuel : nat) (file : list text) : printer unit :=
  run m <- pure (new_machine xyz (o_rm_invalid_modal o) (o_machine_mode o));
  run m' <- norm_loop o fuel file m;
  norm_final o m'.
End WithArith.

(** ** dialects/__init__.py:26-61. The module's variable [_DEFAULT] is the state. *)
Definition dialect_default : text := t "linuxcnc".
Definition get_default (d : text) : text := d.
(** the assignment at 61 makes [_DEFAULT] a local variable of the function: the module's variable stays as it is *)
Definition set_default (name : text) (d : text) : text := d.
