(** Words: /repo/src/pygcode/words.py and the word table of dialects/linuxcnc.py. *)
From Coq Require Import Ascii String List Bool Arith ZArith QArith Qcanon.
From Verif Require Import Base Num Regex.
Import ListNotations.
Open Scope Z_scope.

(** ** Letters: the keys of WORD_MAP (linuxcnc.py:37-213), all of A..Z. *)
Inductive letter := LA | LB | LC | LD | LE | LF | LG | LH | LI | LJ | LK | LL | LM | LN | LO | LP | LQ | LR | LS | LT | LU | LV | LW | LX | LY | LZ.

Definition letter_ascii (l : letter) : ascii :=
  match l with
  | LA => "A"
  | LB => "B"
  | LC => "C"
  | LD => "D"
  | LE => "E"
  | LF => "F"
  | LG => "G"
  | LH => "H"
  | LI => "I"
  | LJ => "J"
  | LK => "K"
  | LL => "L"
  | LM => "M"
  | LN => "N"
  | LO => "O"
  | LP => "P"
  | LQ => "Q"
  | LR => "R"
  | LS => "S"
  | LT => "T"
  | LU => "U"
  | LV => "V"
  | LW => "W"
  | LX => "X"
  | LY => "Y"
  | LZ => "Z"
  end%char.
(** position in the alphabet *)
Definition lnum (l : letter) : nat := code (letter_ascii l) - 65.
Definition all_letters : list letter := [LA; LB; LC; LD; LE; LF; LG; LH; LI; LJ; LK; LL; LM; LN; LO; LP; LQ; LR; LS; LT; LU; LV; LW; LX; LY; LZ].

Definition letter_eqb (a b : letter) : bool := Nat.eqb (lnum a) (lnum b).
Definition letter_eq_dec (a b : letter) : {a = b} + {a <> b}.
Proof. decide equality. Defined.

(** [letter.upper()] followed by the look-up in WORD_MAP; [None] is the KeyError case. *)
Definition letter_of_ascii (c : ascii) : option letter :=
  find (fun l => Nat.eqb (code (letter_ascii l)) (code c) || Nat.eqb (code (letter_ascii l) + 32) (code c)) all_letters.

(** ** Word types: the [cls], [value_regex] and [clean_value] columns of WORD_MAP (linuxcnc.py:37-213). *)
Inductive vclass := CFloat | CInt | CStr.
Definition letter_class (l : letter) : vclass :=
  match l with
  | LL | LN => CInt          (* linuxcnc.py:113-118, 127-132 *)
  | LO | LT => CStr          (* linuxcnc.py:134-139, 169-174 *)
  | _ => CFloat
  end.

(** [\s*] *)
Definition re_ws := Star is_space.
(** ['-?'] *)
Definition re_minus := Opt (chr "-"%char).
(** linuxcnc.py:21  ^\s*-?(\d+\.?\d*|\.\d+) *)
Definition REGEX_FLOAT : re :=
  Seq Bol (Seq re_ws (Seq re_minus
    (Grp 1 (Alt (Seq (plus is_digit) (Seq (Opt (chr "."%char)) (Star is_digit)))
                (Seq (chr "."%char) (plus is_digit)))))).
(** linuxcnc.py:22  ^\s*-?\d+   (not used by WORD_MAP) *)
Definition REGEX_INT : re := Seq Bol (Seq re_ws (Seq re_minus (plus is_digit))).
(** linuxcnc.py:23  ^\s*\d+ *)
Definition REGEX_POSITIVEINT : re := Seq Bol (Seq re_ws (plus is_digit)).
(** linuxcnc.py:24  ^\s*\d+(\.\d)? *)
Definition REGEX_CODE : re :=
  Seq Bol (Seq re_ws (Seq (plus is_digit) (Opt (Grp 1 (Seq (chr "."%char) (Cls is_digit)))))).
(** linuxcnc.py:136  ^.+$ *)
Definition REGEX_ALL : re := Seq Bol (Seq (plus is_dot) Eol).

Definition value_regex (l : letter) : re :=
  match l with
  | LG | LM => REGEX_CODE
  | LL | LN | LT => REGEX_POSITIVEINT
  | LO => REGEX_ALL
  | _ => REGEX_FLOAT
  end.

(** ** Values *)
Inductive value := VFloat (q : Qc) | VInt (z : Z) | VStr (s : text).
Record word := Word { wletter : letter; wvalue : value }.

(** A word as the constructor leaves it: the value has the class of the letter (words.py:28, 83-84). *)
Definition word_wf (w : word) : Prop :=
  match letter_class (wletter w), wvalue w with
  | CFloat, VFloat _ | CInt, VInt _ | CStr, VStr _ => True
  | _, _ => False
  end.

Definition span {A} (f : A -> bool) : list A -> list A * list A :=
  fix go l := match l with
              | [] => ([], [])
              | x :: l' => if f x then let (a, b) := go l' in (x :: a, b) else ([], l)
              end.

(** [float(s)] / [int(s)] strip blanks on both sides (only [is_numspace] ones). *)
Definition num_strip (s : text) : text :=
  rev (drop_while is_numspace (rev (drop_while is_numspace s))).

(** Split an optional '-'. *)
Definition take_minus (s : text) : bool * text :=
  match s with c :: s' => if Ascii.eqb c "-"%char then (true, s') else (false, s) | [] => (false, s) end.

Section WithArith.
Context {ar : Arith}.

(** the exact number ddd.ddd *)
Definition decimal (neg : bool) (ip fp : text) : Qc :=
  let v := frac (digits_val (ip ++ fp)) (Z.to_pos (10 ^ Z.of_nat (length fp))) in
  if neg then (- v)%Qc else v.

(** Python [float(str)] for the forms the value patterns produce: [-]d+[.d*] or [-].d+ with blanks
    around. Simplified: other forms Python accepts (exponents, '_', '+', inf, nan) are ENotModelled;
    they cannot come out of the value patterns. *)
Definition py_float (s : text) : result Qc :=
  let (neg, s) := take_minus (num_strip s) in
  let (ip, r) := span is_digit s in
  match r with
  | [] => match ip with [] => Raise EValueError | _ => Ok (rnd (decimal neg ip [])) end
  | c :: r' =>
      if Ascii.eqb c "."%char then
        match span is_digit r' with
        | (fp, []) => match ip ++ fp with [] => Raise EValueError | _ => Ok (rnd (decimal neg ip fp)) end
        | _ => Raise ENotModelled
        end
      else if existsb is_space (c :: r') then Raise EValueError  (* blanks that are not stripped: codes 28-31 *)
      else Raise ENotModelled
  end.

(** Python [int(str)], same remarks; CPython's limit on the number of digits is not modelled. *)
Definition py_int (s : text) : result Z :=
  let (neg, s) := take_minus (num_strip s) in
  let (ip, r) := span is_digit s in
  match r with
  | [] => match ip with [] => Raise EValueError | _ => Ok (if neg then - digits_val ip else digits_val ip) end
  | _ => if existsb is_space r then Raise EValueError else Raise ENotModelled
  end.

(** int(x) of a float: truncation *)
Definition trunc (x : Qc) : Z := Z.quot (Qnum (this x)) (Zpos (Qden (this x))).

(** words.py:83-84: [self._value_class(new_value)]. [str(float)] (Python's repr) is not modelled. *)
Definition coerce (l : letter) (v : value) : result value :=
  match letter_class l, v with
  | CFloat, VFloat x => Ok (VFloat x)
  | CFloat, VInt z => Ok (VFloat (float_of_int z))
  | CFloat, VStr s => rmap VFloat (py_float s)
  | CInt, VFloat x => Ok (VInt (trunc x))
  | CInt, VInt z => Ok (VInt z)
  | CInt, VStr s => rmap VInt (py_int s)
  | CStr, VStr s => Ok (VStr s)
  | CStr, VInt z => Ok (VStr (int_text z))
  | CStr, VFloat _ => Raise ENotModelled
  end.

(** words.py:9-32 [Word(letter, value)] for a letter of WORD_MAP (default dialect) *)
Definition mk_word (l : letter) (v : value) : result word := rmap (Word l) (coerce l v).
(** words.py:12-15 [Word('G90')]: first character and the rest *)
Definition mk_word_str (s : text) : result word :=
  match s with
  | [] => Raise EIndexError
  | c :: s' => match letter_of_ascii c with
               | None => Raise EKeyError
               | Some l => mk_word l (VStr s')
               end
  end.

(** ** Printing: CLEAN_* (linuxcnc.py:27-35) and words.py:34-38, 72-75 *)
Definition clean_float (x : Qc) : text := fmt_g (Qcltb x 0) (round3 x).
Definition clean_code (x : Qc) : text :=
  if Qcltb x (Q2Qc 10) then "0"%char :: fmt_g false x else fmt_g false x.
(** ["%g" % int] converts to float first *)
Definition clean_int (z : Z) : text := fmt_g false (float_of_int z).

Definition value_str (w : word) : text :=
  match wletter w, wvalue w with
  | (LG | LM), VFloat x => clean_code x
  | _, VFloat x => clean_float x
  | _, VInt z => clean_int z
  | _, VStr s => s
  end.
Definition word_str (w : word) : text := letter_ascii (wletter w) :: value_str w.

(** ** Comparison: words.py:46-70. A comparison of a number with a string only arises for
    words with different letters, where the tuple comparison never reaches the values. *)
Definition value_eqb (a b : value) : bool :=
  match a, b with
  | VFloat x, VFloat y => Qceqb x y
  | VInt x, VInt y => Z.eqb x y
  | VStr x, VStr y => text_eqb x y
  | VFloat x, VInt y | VInt y, VFloat x => Qceqb x (Qc_of_Z y)
  | _, _ => false
  end.
Definition value_compare (a b : value) : result comparison :=
  match a, b with
  | VFloat x, VFloat y => Ok (Qcompare (this x) (this y))
  | VInt x, VInt y => Ok (Z.compare x y)
  | VStr x, VStr y => Ok (text_compare x y)
  | VFloat x, VInt y => Ok (Qcompare (this x) (inject_Z y))
  | VInt x, VFloat y => Ok (Qcompare (inject_Z x) (this y))
  | _, _ => Raise ETypeError
  end.
(** words.py:60-63 *)
Definition word_eqb (a b : word) : bool := letter_eqb (wletter a) (wletter b) && value_eqb (wvalue a) (wvalue b).
(** words.py:47-57: tuples (letter, value) *)
Definition word_compare (a b : word) : result comparison :=
  match Nat.compare (lnum (wletter a)) (lnum (wletter b)) with
  | Eq => value_compare (wvalue a) (wvalue b)
  | c => Ok c
  end.
Definition word_lt a b := rmap (fun c => match c with Lt => true | _ => false end) (word_compare a b).
Definition word_gt a b := rmap (fun c => match c with Gt => true | _ => false end) (word_compare a b).
Definition word_le a b := rmap (fun c => match c with Gt => false | _ => true end) (word_compare a b).
Definition word_ge a b := rmap (fun c => match c with Lt => false | _ => true end) (word_compare a b).

(** ** text2words: words.py:91-125 *)
(** [[letters]] with IGNORECASE: on code points below 256 exactly A-Z and a-z *)
Definition is_letter (c : ascii) : bool := match letter_of_ascii c with Some _ => true | None => false end.
(** words.py:100  ^.*?(?P<letter>[...]) *)
Definition next_word : re := Seq Bol (Seq (StarLazy is_dot) (Grp 1 (Cls is_letter))).

(** words.py:102-125. [s] is [block_text[index:]]. *)
Fixpoint text2words_fuel (fuel : nat) (s : text) : result (list word) :=
  match fuel with
  | O => Raise EOutOfFuel
  | S k =>
      match search next_word s with
      | None =>   (* 120-125 *)
          if existsb (fun c => negb (is_space c)) s then Raise EGCodeWordStrError else Ok []
      | Some m =>
          match group m 1 with
          | Some [c] =>
              match letter_of_ascii c with
              | None => Raise EKeyError
              | Some l =>
                  let s1 := skipn (mend m) s in
                  match search (value_regex l) s1 with
                  | None => Raise EGCodeWordStrError   (* 113-114 *)
                  | Some v =>
                      do w <- mk_word l (VStr (mtext v));
                      do ws <- text2words_fuel k (skipn (mend v) s1);
                      Ok (w :: ws)
                  end
              end
          | _ => Raise EKeyError
          end
      end
  end.
Definition text2words (s : text) : result (list word) := text2words_fuel (S (length s)) s.

(** words.py:128-134 *)
Definition str2word (s : text) : result (option word) :=
  do ws <- text2words s;
  match ws with
  | [] => Ok None
  | [w] => Ok (Some w)
  | _ => Raise EGCodeWordStrError
  end.

(** words.py:137-147. [None]: no white-list. *)
Definition words2dict (ws : list word) (limit : option (list letter)) : dict letter value :=
  dupdate letter_eqb []
    (map (fun w => (wletter w, wvalue w))
       (filter (fun w => match limit with None => true | Some ls => existsb (letter_eqb (wletter w)) ls end) ws)).
End WithArith.
