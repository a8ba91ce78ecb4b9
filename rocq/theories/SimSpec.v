(** Machines that differ only in the order in which parameters are kept in the mode. *)
From Coq Require Import List Bool ZArith QArith Qcanon Permutation.
From Verif Require Import Base Num Words GTable GCode Line Position Machine GCodeSpec ModeSpec.
Import ListNotations.

Definition same_mode (a b : mode) : Prop :=
  forall mg, match gm_get a mg, gm_get b mg with
             | None, None => True
             | Some g, Some h => same_gcode g h
             | _, _ => False
             end.
Definition same_machine (a b : machine) : Prop :=
  same_mode (m_mode a) (m_mode b) /\ m_state a = m_state b /\ m_abs a = m_abs b /\ m_min a = m_min b /\ m_max a = m_max b /\
  m_axes a = m_axes b /\ m_ignore a = m_ignore b.
(** the same outcome *)
Definition same_outcome (a b : machine * result unit) : Prop := snd a = snd b /\ same_machine (fst a) (fst b).
(** the same gcodes, in any order and with parameters in any order *)
Definition same_gcodes (gs hs : list gcode) : Prop := exists l, Permutation gs l /\ Forall2 same_gcode l hs.
(** every word that names no gcode has at most one gcode in the block to go with, and no gcode word can go with another gcode *)
Definition clear_words {ar : Arith} (ws : list word) : Prop :=
  forall g c w, In g ws -> word_gcode_class g = Some c -> In w ws -> takes c (wletter w) ->
    word_gcode_class w = None /\ forall g' c', In g' ws -> word_gcode_class g' = Some c' -> takes c' (wletter w) -> g' = g.
