(** Programs that differ by what printing loses of the numbers. *)
From Coq Require Import Ascii String List Bool Arith ZArith QArith Qcanon Qabs.
From Verif Require Import Base Num Words GTable GCode Line Position Machine WordsSpec PrintSpec BlockSpec GCodeSpec ArithSpec PosSpec ModeSpec MachSpec Scripts ScriptsSpec ScriptsSpec2.
Import ListNotations.

(** ** Alike, up to a relation [W] between words *)
Section Like.
Context (W : word -> word -> Prop).
(** the same command with words in relation, letter by letter *)
Definition like_gcode (g g' : gcode) : Prop :=
  gcls g' = gcls g /\ W (gword g) (gword g') /\
  forall l, match dget letter_eqb (gparams g) l, dget letter_eqb (gparams g') l with
            | None, None => True
            | Some w, Some w' => W w w'
            | _, _ => False
            end.
Definition like_line (a b : line) : Prop :=
  Forall2 like_gcode (bgcodes (lblock a)) (bgcodes (lblock b)) /\ Forall2 W (bmodal (lblock a)) (bmodal (lblock b)) /\ lcomment b = lcomment a /\ lmacro b = lmacro a.
(** [x] and [y] are at most [e] apart *)
Definition off_by (e : Q) (x y : Qc) : Prop := (Qabs (y - x)%Qc <= e)%Q.
(** the same mode up to the words, and on every axis the position and the limits of the recorded range at most [e] apart *)
Definition like_machine (e : Q) (m m' : machine) : Prop :=
  (forall mg, match gm_get (m_mode m) mg, gm_get (m_mode m') mg with
              | None, None => True
              | Some g, Some g' => like_gcode g g'
              | _, _ => False
              end) /\
  m_state m' = m_state m /\ m_axes m' = m_axes m /\ m_ignore m' = m_ignore m /\ punit (m_abs m') = punit (m_abs m) /\
  forall a, has (m_abs m) a -> off_by e (pval (m_abs m) a) (pval (m_abs m') a) /\ off_by e (pval (m_min m) a) (pval (m_min m') a) /\ off_by e (pval (m_max m) a) (pval (m_max m') a).
End Like.

Section Rounded.
Context {ar : Arith}.
(** [w'] is [w], or the number that is read where the number [w] was printed *)
Definition reads_back (w w' : word) : Prop :=
  wletter w' = wletter w /\ (w' = w \/ (letter_kind (wletter w) = KFloat /\ text2words (word_str w) = Ok [w'])).
(** lines whose words are readable when printed, whatever decimals are lost: [faithful] with numbers up to 999999 of any precision *)
Definition legible_word (w : word) : Prop :=
  (survives w \/ exists x : Qc, letter_kind (wletter w) = KFloat /\ wvalue w = VFloat x /\ (Qabs x <= 999999)%Q) /\
  (forall s, wvalue w = VStr s -> Forall plain s).
Definition legible (l : line) : Prop :=
  Forall legible_word (bwords (lblock l)) /\ separate (lblock l) /\
  forall x, lcomment l = Some (Comment CommentSemicolon x) -> lmacro l = None \/ x = [].
(** no coordinate in the text of the line is beyond [M] *)
Definition coordinate_letter (l : letter) : Prop := l = LR \/ exists a, l = axis_letter a.
Definition modest (M : Q) (l : line) : Prop :=
  forall w (x : Qc), In w (bwords (lblock l)) -> coordinate_letter (wletter w) -> wvalue w = VFloat x -> (Qabs x <= M)%Q.
(** no coordinate recorded by the machine is *)
Definition spans (M : Q) (m : machine) : Prop := forall a, has (m_abs m) a -> (Qabs (pval (m_min m) a) <= M)%Q /\ (Qabs (pval (m_max m) a) <= M)%Q.
(** what a move with coordinates up to [M] may add to the error: what printing loses (half a thousandth, above 999 five digits) and a trifle for rounding *)
Definition unit_error (M : Q) : Q := (if Qle_bool M 999 then 1 # 1999 else (1 # 1999) + M / 199999) + (1 # 100000000) + M / 2 ^ 37.
(** incremental moves [g] makes, [m] being the machine afterwards: one, or as many as there are holes *)
Definition stride (m : machine) (g : gcode) (k : nat) : Prop :=
  (incremental m /\ is_move g /\ k = 1%nat) \/ (incremental m /\ is_canned g /\ loops g k) \/ ((absolute m \/ (~ is_move g /\ ~ is_canned g)) /\ k = O).
Inductive strides : machine -> list gcode -> nat -> Prop :=
| st_nil m : strides m [] 0
| st_cons m g gs m1 k n : gcode_process g m = (m1, Ok tt) -> stride m1 g k -> strides m1 gs n -> strides m (g :: gs) (k + n).
(** in a program *)
Inductive run_strides : machine -> list (line * machine) -> nat -> Prop :=
| rs_nil m : run_strides m [] 0
| rs_cons m l m1 tr gs k n : block_modal_gcodes m (lblock l) = Ok gs -> strides m gs k -> run_strides m1 tr n -> run_strides m ((l, m1) :: tr) (k + n).
(** [tr'] goes the way of [tr]: the same commands up to the numbers as they are read back, and after each line the machine within one unit of
    error of where it was, and one more for each incremental move so far ([k] before these lines) *)
Inductive rounded (M : Q) : nat -> machine -> list (line * machine) -> list (line * machine) -> Prop :=
| rd_nil k m : rounded M k m [] []
| rd_cons k m l m1 tr l' m1' tr' gs n : block_modal_gcodes m (lblock l) = Ok gs -> strides m gs n -> like_line reads_back l l' ->
    like_machine reads_back (inject_Z (Z.of_nat (1 + k + n)) * unit_error M) m1 m1' -> rounded M (k + n) m1 tr tr' ->
    rounded M k m ((l, m1) :: tr) ((l', m1') :: tr').
End Rounded.
