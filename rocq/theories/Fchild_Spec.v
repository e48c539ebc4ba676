(** Vocabulary for mutexes of forking processes. *)
From Coq Require Import ZArith List Bool Lia.
From Verif Require Import Base Pid_Model Mutex_Model Fchild_Model.
Import ListNotations.
Open Scope Z_scope.

(** the thread's lock call returned 0 and it has not called unlock since *)
Definition owns (s : fstate) (u : user) : Prop := m_own (f_m s) (id_of u) = true.
(** the thread is inside the guard of the list of mutexes *)
Definition inside_list (s : fstate) (u : user) : Prop :=
  match m_pc (f_m s) (id_of u) with
  | MU0 g | MU1 g | MU2 g | MU3 g _ | MU4 g | MU5 g => g = true
  | MURel _ | MK0 _ | MK1 _ _ | MF0 _ | MF1 _ _ | MF2 _ | MF3 _ _ | MKRel _ => True
  | _ => False
  end.
(** everything a thread holds alone *)
Definition exclusive (s : fstate) (what : fstate -> user -> Prop) : Prop :=
  forall i j ui uj, running s i ui -> running s j uj -> what s ui -> what s uj -> i = j.

(** a thread forks only while it has not yet called the library *)
Definition fork_first (s : fstate) (x : flabel) : Prop :=
  match x with FFork i _ => forall u, running s i u -> t_cache (u_t u) = 0 | _ => True end.
(** no thread dies inside the window of a recovery pass (see [no_exit_in_window]) *)
Definition no_window (s : fstate) (x : flabel) : Prop :=
  match x with
  | FDie i => forall u j w ret, running s i u -> running s j w -> m_pc (f_m s) (id_of w) = MK1 ret (id_of u) -> m_val (f_m s) = id_of u
  | _ => True
  end.
Definition nobody_dies (s : fstate) (x : flabel) : Prop := match x with FDie _ => False | _ => True end.
Definition both (f g : fstate -> flabel -> Prop) (s : fstate) (x : flabel) : Prop := f s x /\ g s x.
