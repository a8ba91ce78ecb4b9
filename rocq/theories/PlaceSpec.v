(** The same program run from another place. *)
From Coq Require Import List ZArith QArith Qcanon.
From Verif Require Import Base Num Words GTable GCode Line Position Machine.
Import ListNotations.

(** two machines that differ at most in where they are and where they have been *)
Definition alike (m m' : machine) : Prop := m_mode m' = m_mode m /\ m_state m' = m_state m /\ m_axes m' = m_axes m /\ m_ignore m' = m_ignore m.
(** the second one is displaced by [d] *)
Definition displaced (d : axis -> Qc) (m m' : machine) : Prop := alike m m' /\ forall a x, pos_getattr (m_abs m) a = Ok x -> pos_getattr (m_abs m') a = Ok (x + d a)%Qc.
(** they are at the same place on the axis *)
Definition level (a : axis) (m m' : machine) : Prop := exists x, pos_getattr (m_abs m) a = Ok x /\ pos_getattr (m_abs m') a = Ok x.
