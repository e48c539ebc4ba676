(** Vocabulary for data under a lock on processors with store buffers. *)
From Coq Require Import ZArith List Bool.
From Verif Require Import Base Guard_Model Mutex_Model RwWord_Model RwApi_Model RwApi_Spec Tso_Model.
Import ListNotations.
Open Scope Z_scope.

(** the last value stored to a place, by whomever; 0 if none *)
Fixpoint last_stored {Loc} (eq : forall a b : Loc, {a = b} + {a <> b}) (log : list (Loc * Z)) (x : Loc) : Z :=
  match log with [] => 0 | (y, v) :: r => if eq x y then v else last_stored eq r x end.

Definition pair_eq : forall a b : Z * Z, {a = b} + {a <> b}.
Proof. decide equality; apply Z.eq_dec. Defined.

(** inside the internal lock of a list *)
Definition g_may (s : gstate) (t : Z) (x : Z) : Prop := g_pc s t = GIn.
(** the thread has the named mutex: a lock call returned 0, no unlock call since; and is not inside a call *)
Definition m_may (s : mstate) (t : Z) (x : Z) : Prop := t <> 0 /\ m_own s t = true /\ m_pc s t = MIdle.
(** the thread has a lock that covers the byte of the file, and is not inside a call *)
Definition r_may (k : rwmode -> Prop) (s : rstate) (t : Z) (x : Z * Z) : Prop :=
  r_pc s t = RIdle /\ exists l g, holds s l g /\ gr_t g = t /\ gr_dev g = fst x /\ byte_in (gr_off g) (gr_len g) (snd x) /\ k (gr_kind g).
Definition r_may_write := r_may (fun k => k = Wr).
Definition r_may_read := r_may (fun k => True).

(** a descriptor is not closed or replaced while a lock is held through it *)
Definition fds_kept (s : rstate) (x : rlabel) : Prop :=
  match x with LSetFd p fd _ => forall l g, holds s l g -> proc_of_thread (gr_t g) = p -> gr_fd g <> fd | _ => True end.
