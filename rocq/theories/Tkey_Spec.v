(** C158, C159: the number a thread is known by, and the data of other libraries. *)
From Coq Require Import ZArith List Bool.
From Verif Require Import Base Tkey_Model.
Import ListNotations.
Open Scope Z_scope.

(** the history of a program: the labels in order, and the state each of them is taken in *)
Inductive k_reach (pid : Z) (ok : ksys -> klabel -> Prop) : ksys -> Prop :=
| kr_init : k_reach pid ok (k_init pid)
| kr_step : forall s x, k_reach pid ok s -> ok s x -> k_reach pid ok (k_step s x).
Definition anything (s : ksys) (x : klabel) : Prop := True.

(** all calls of one thread were made under one number *)
Definition one_number (s : ksys) : Prop := forall i r1 r2, In (i, r1) (ks_ids s) -> In (i, r2) (ks_ids s) -> r1 = r2.
(** all calls of every thread were made under the number the kernel gave to that thread *)
Definition own_number (s : ksys) : Prop := forall i r t, In (i, r) (ks_ids s) -> nth_error (ks_th s) i = Some t -> r = kt_tid t.
(** other libraries read what they stored *)
Definition others_intact (s : ksys) : Prop := forall got stored, In (got, stored) (ks_reads s) -> got = stored.

(** the process does not exit *)
Definition no_exit (s : ksys) (x : klabel) : Prop := match x with KExit _ => False | _ => True end.
(** a thread forks only before its first call *)
Definition fork_first (s : ksys) (x : klabel) : Prop := match x with KFork i _ => forall r, ~ In (i, r) (ks_ids s) | _ => True end.
(** no library creates a key in a process that is exiting *)
Definition no_late_key (s : ksys) (x : klabel) : Prop :=
  match x with KCreate i _ => forall t, nth_error (ks_th s) i = Some t -> p_down (ks_pr s (kt_pid t)) = false | _ => True end.
Definition both_k (P Q : ksys -> klabel -> Prop) s x := P s x /\ Q s x.
