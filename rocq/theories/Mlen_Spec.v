(** Vocabulary for the lengths of the shared file and of its mappings. *)
From Coq Require Import ZArith List Bool Lia.
From Verif Require Import Base Layout_Model Layout_Spec Init_Model Init_Spec Mlen_Model.
Import ListNotations.
Open Scope Z_scope.

(** every unmapping so far was given the length of the mapping *)
Definition unmaps_whole (s : mstate) : Prop := forall p got len, In (p, got, len) (m_unmap s) -> got = Some len.
(** the step of thread [t] unmaps and is given the length [got] where the mapping has the length [len] *)
Definition unmapping (s : mstate) (t : Z) (fail : bool) (got : option Z) (len : Z) : Prop :=
  m_unmap (m_step s (MStep (IRun t fail))) = (proc t, got, len) :: m_unmap s.
(** every byte of the mapping of [p] is a byte of the file, and every byte of the file is in the mapping *)
Definition maps_file (s : mstate) (p : Z) : Prop := m_len s p = m_size s.
(** the header and all areas that the file was made with are inside the mapping, without overlap *)
Definition maps_areas (s : mstate) (p : Z) : Prop :=
  Forall (inside (m_len s p)) (areas (m_by s)) /\ m_len s p mod 4096 = 0.
