(** Comments, blocks and lines: /repo/src/pygcode/comment.py, block.py, line.py. *)
From Coq Require Import Ascii String List Bool Arith ZArith.
From Verif Require Import Base Num Regex Words GTable GCode.
Import ListNotations.

(** ** comment.py *)
Inductive comment_class := CommentSemicolon | CommentBrackets.   (* comment.py:17-32, in ORDER order *)
Record comment := Comment { cclass : comment_class; ctext : text }.

(** comment.py:20  \s*;\s*(?P<text>.* )$   (a blank is added before the bracket, for the comment lexer of Coq) *)
Definition RE_SEMICOLON : re :=
  Seq (Star is_space) (Seq (chr ";"%char) (Seq (Star is_space) (Seq (Grp 1 (Star is_dot)) Eol))).
(** comment.py:29  \((?P<text>[^\)]* )\)   (same remark) *)
Definition not_rparen (c : ascii) : bool := negb (Ascii.eqb c ")"%char).
Definition RE_BRACKETS : re :=
  Seq (chr "("%char) (Seq (Grp 1 (Star not_rparen)) (chr ")"%char)).
Definition comment_regex (c : comment_class) : re :=
  match c with CommentSemicolon => RE_SEMICOLON | CommentBrackets => RE_BRACKETS end.

(** comment.py:22-23, 31-32 *)
Definition comment_str (c : comment) : text :=
  match cclass c with
  | CommentSemicolon => t "; " ++ ctext c
  | CommentBrackets => "("%char :: ctext c ++ [")"%char]
  end.

(** [s.rstrip("\n")] *)
Definition rstrip_newlines (s : text) : text := rev (drop_while is_newline (rev s)).

(** comment.py:53-57: going through the matches from the last to the first *)
Definition remove_spans (ms : list smatch) (s : text) : text :=
  fold_left (fun s m => firstn (mstart m) s ++ skipn (mend m) s) (rev ms) s.
Definition match_texts (ms : list smatch) : list text :=
  map (fun m => match group m 1 with Some x => x | None => [] end) ms.

(** comment.py:38-67 *)
Definition split_line (line_text : text) : text * option comment :=
  let s := rstrip_newlines line_text in
  match finditer RE_SEMICOLON s with
  | (_ :: _) as ms => (remove_spans ms s, Some (Comment CommentSemicolon (join (t ". ") (match_texts ms))))
  | [] =>
      match finditer RE_BRACKETS s with
      | (_ :: _) as ms => (remove_spans ms s, Some (Comment CommentBrackets (join (t ". ") (match_texts ms))))
      | [] => (s, None)
      end
  end.

(** ** block.py *)
(** block.py:40  (^\s+|\s+$) *)
Definition RE_PADDING : re := Grp 1 (Alt (Seq Bol (plus is_space)) (Seq (plus is_space) Eol)).
(** block.py:41  \s+ *)
Definition RE_SPACES : re := plus is_space.
(** block.py:40-41 *)
Definition clean_text (s : text) : text := re_sub RE_SPACES [space] (re_sub RE_PADDING [] s).

Record block := Block {
  bwords : list word;
  bgcodes : list gcode;
  bmodal : list word       (* modal_params *)
}.
Definition empty_block : block := Block [] [] [].

Section WithArith.
Context {ar : Arith}.

(** block.py:58-79 *)
Fixpoint assert_gcodes (seen_words : list word) (seen_groups : list mgroup) (gs : list gcode) : result unit :=
  match gs with
  | [] => Ok tt
  | g :: gs' =>
      if existsb (word_eqb (gword g)) seen_words then Raise EAssertionError
      else match modal_group (gcls g) with
           | None => assert_gcodes (gword g :: seen_words) seen_groups gs'
           | Some mg =>
               if existsb (mgroup_eqb mg) seen_groups then Raise EAssertionError
               else assert_gcodes (gword g :: seen_words) (mg :: seen_groups) gs'
           end
  end.

(** block.py:10-50, dialect linuxcnc *)
Definition mk_block (verify : bool) (s : text) : result block :=
  match s with
  | [] => Ok empty_block       (* 38: [if text] *)
  | _ =>
      do ws <- text2words (clean_text s);
      do (gs, unused) <- words2gcodes ws;
      if verify then do _ <- assert_gcodes [] [] gs; Ok (Block ws gs unused)
      else Ok (Block ws gs unused)
  end.

(** block.py:81-88 [block.X]: the first word with that letter, or None *)
Definition block_getattr (b : block) (l : letter) : option word :=
  find (fun w => letter_eqb (wletter w) l) (bwords b).
(** block.py:95-103 *)
Definition block_len (b : block) : nat :=
  length (bgcodes b) + match bmodal b with [] => 0 | _ => 1 end.
(** block.py:105-106 *)
Definition block_bool (b : block) : bool := match bwords b with [] => false | _ => true end.
(** block.py:110-111 *)
Definition block_str (b : block) : text :=
  join [space] (map gcode_str (bgcodes b) ++ map word_str (bmodal b)).

(** ** line.py *)
(** line.py:8  "^(?P<block_and_comment>.*?)?(?P<macro>%.*%?)?\s*$" *)
Definition LINE_REGEX : re :=
  Seq Bol (Seq (Opt (Grp 1 (StarLazy is_dot)))
    (Seq (Opt (Grp 2 (Seq (chr "%"%char) (Seq (Star is_dot) (Opt (chr "%"%char))))))
      (Seq (Star is_space) Eol))).

Record line := Line {
  lblock : block;
  lcomment : option comment;
  lmacro : option text
}.

(** line.py:18-28: text before the macro, and the macro *)
Definition line_parts (s : text) : result (text * option text) :=
  match search LINE_REGEX s with
  | None => Raise EAttributeError          (* [match] is None *)
  | Some m => match group m 1 with
              | None => Raise EAttributeError
              | Some bc => Ok (bc, group m 2)
              end
  end.
(** line.py:10-28 [Line(text)]; a CommentBase object is always truthy *)
Definition mk_line (s : text) : result line :=
  do (bc, macro) <- line_parts s;
  let (bs, c) := split_line bc in
  do b <- mk_block true bs;
  Ok (Line b c macro).

(** line.py:41-42 *)
Definition line_str (l : line) : text :=
  join [space]
    ((if block_bool (lblock l) then [block_str (lblock l)] else [])
     ++ (match lcomment l with Some c => [comment_str c] | None => [] end)
     ++ (match lmacro l with Some ((_ :: _) as m) => [m] | _ => [] end)).
End WithArith.
