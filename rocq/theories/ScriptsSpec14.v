(** A program cut in pieces with pygcode-crop, the pieces run one after the other. *)
From Coq Require Import Ascii String List Bool Arith ZArith QArith Qcanon.
From Verif Require Import Base Num Words GTable GCode Line Position Machine Transform Scripts WordsSpec SimSpec PosSpec ModeSpec MachSpec TransSpec ScriptsSpec ScriptsSpec2 ScriptsSpec3.
Import ListNotations.
Local Open Scope nat_scope.

Section WithArith.
Context {ar : Arith}.
(** the argument [s] asks for the lines from number [lo] up to and without number [hi]: "lo:hi", ":hi" for the first and "lo:" for the
    last piece of a program *)
Definition piece_range (s : text) (lo hi : nat) (last : Prop) : Prop :=
  exists a b, s = a ++ ":"%char :: b /\
    (number_text a (Qc_of_Z (Z.of_nat lo)) \/ (a = [] /\ lo = 1)) /\ (number_text b (Qc_of_Z (Z.of_nat hi)) \/ (b = [] /\ last)).
(** [parts]: the program in pieces, none of them empty, the first of them beginning in line [n]; [args]: the arguments that ask for them *)
Inductive cut_at : nat -> list (list (line * machine)) -> list text -> Prop :=
| cut_none n : cut_at n [] []
| cut_piece n p ps s ss : p <> [] -> piece_range s n (n + length p) (ps = []) -> cut_at (n + length p) ps ss -> cut_at n (p :: ps) (s :: ss).
(** the state of the machine at the beginning of each piece can be restored, and the pieces can be printed *)
Inductive separable : machine -> list (list (line * machine)) -> Prop :=
| sep_none m : separable m []
| sep_piece m p ps : absolute m -> restorable m -> Forall (fun x => faithful (fst x)) p -> names_motion (map fst p) \/ rapid_mode m ->
    separable (after m p) ps -> separable m (p :: ps).
(** [tr], run from [k], does what the pieces do from [m]: each of them after some lines that lift the tool to the highest place reached so
    far and put it back to where the piece begins, with the modes in force there *)
Inductive rejoined : machine -> machine -> list (list (line * machine)) -> list (line * machine) -> Prop :=
| rj_none m k : rejoined m k [] []
| rj_piece m k front p p' ps tr :
    resumed m (after k front) -> rapid_mode (after k front) ->
    (forall a, upright m a -> exists top, pos_getattr (m_max m) a = Ok top /\ approaches k m a top front) ->
    Forall2 (fun x y => same_line (fst x) (fst y) /\ resumed (snd x) (snd y)) p p' ->
    (motion_named (map fst p) -> alike (after m p) (after k (front ++ p'))) ->
    rejoined (after m p) (after k (front ++ p')) ps tr ->
    rejoined m k (p :: ps) (front ++ p' ++ tr).
End WithArith.
