(** Vocabulary for read/write locks of forking processes. *)
From Coq Require Import ZArith List Bool Lia.
From Verif Require Import Base Pid_Model Mutex_Model Fchild_Model RwWord_Model RwApi_Model RwApi_Spec Rfork_Model.
Import ListNotations.
Open Scope Z_scope.

Definition k_running (s : kstate) (i : nat) (u : user) : Prop := nth_error (k_sys s) i = Some u /\ u_run u = true.

(** a thread forks only while it has not yet called the library *)
Definition k_fork_first (s : kstate) (x : klabel) : Prop :=
  match x with KFork i _ => forall u, k_running s i u -> t_cache (u_t u) = 0 | _ => True end.
(** as [careful] of RwApi_Spec: nobody ends in the two windows; the descriptor of a running lock call stays *)
Definition k_careful (s : kstate) (x : klabel) : Prop :=
  match x with
  | KDie i => forall u, k_running s i u -> ~ in_window (r_pc (k_r s) (id_of u))
  | KSetFd i fd _ => forall u j w dev, k_running s i u -> k_running s j w -> t_pid (u_t w) = t_pid (u_t u) -> lock_fd (r_pc (k_r s) (id_of w)) <> Some (fd, dev)
  | _ => True
  end.
(** the ranges of lock calls come from a family *)
Definition k_family (fam : Z -> Z -> Z -> Prop) (s : kstate) (x : klabel) : Prop :=
  match x with
  | KCall i (CLock k fd off len w) => forall u d, k_running s i u -> (if fd <? 0 then Some (-1) else r_fd (k_r s) (t_pid (u_t u)) fd) = Some d -> fam d off len
  | _ => True
  end.
Definition k_nobody_dies (s : kstate) (x : klabel) : Prop := match x with KDie _ => False | _ => True end.
Definition k_and (f g : kstate -> klabel -> Prop) (s : kstate) (x : klabel) : Prop := f s x /\ g s x.

(** thread [i] of the system has the lock [g]: its call returned 0, it runs, and its descriptor refers to the file *)
Definition k_holder (s : kstate) (i : nat) (g : grant) : Prop :=
  exists u, k_running s i u /\ id_of u = gr_t g /\ (if gr_fd g <? 0 then Some (-1) else r_fd (k_r s) (t_pid (u_t u)) (gr_fd g)) = Some (gr_dev g).
(** thread [i] is in an unlock call *)
Definition k_unlocking (s : kstate) (i : nat) : Prop := exists u, k_running s i u /\ in_unlock (r_pc (k_r s) (id_of u)).
(** the thread whose call a step starts or continues *)
Definition k_actor (x : klabel) : option nat := match x with KCall i _ | KRun i _ _ => Some i | _ => None end.
