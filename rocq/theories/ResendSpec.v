(** The same line sent twice. *)
From Coq Require Import List ZArith QArith Qcanon.
From Verif Require Import Base Num Words GTable GCode Line Position Machine GCodeSpec PosSpec MachSpec.
Import ListNotations.

(** no offset is set, in any coordinate system *)
Definition unoffset (m : machine) : Prop :=
  (forall d i p a, coord_systems (m_state m) = CSDict d -> In (i, p) d -> pval p a = Q2Qc 0) /\ forall a, temp_offset m a = Q2Qc 0.
(** nothing a user can read off the machine has changed: modes, coordinate systems and offsets, position, recorded range *)
Definition unchanged (m m' : machine) : Prop :=
  (forall mg, gm_get (m_mode m') mg = gm_get (m_mode m) mg) /\ m_state m' = m_state m /\ m_axes m' = m_axes m /\ m_ignore m' = m_ignore m /\ punit (m_abs m') = punit (m_abs m) /\
  forall a, vget (m_axes m) a = true ->
    (exists x, pos_getattr (m_abs m) a = Ok x /\ pos_getattr (m_abs m') a = Ok x) /\
    (exists x, pos_getattr (m_min m) a = Ok x /\ pos_getattr (m_min m') a = Ok x) /\
    (exists x, pos_getattr (m_max m) a = Ok x /\ pos_getattr (m_max m') a = Ok x).
(** bare words for the motion mode [mo]: if it is a drilling or boring cycle (which remember their parameters, all but L), without L *)
Definition no_bare_l (mo : gcode) (ps : list word) : Prop := modal_param_letters (gcls mo) <> [] -> forall w, In w ps -> wletter w <> LL.
