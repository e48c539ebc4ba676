(** C163, C164, C166: locks of a program that is replaced by another one, or whose process number is used again, or whose thread has ended. *)
From Coq Require Import ZArith List Bool.
From Verif Require Import Base Exec_Model.
Import ListNotations.
Open Scope Z_scope.

Inductive e_reach (ok : esys -> elabel -> Prop) (s0 : esys) : esys -> Prop :=
| er_refl : e_reach ok s0 s0
| er_step : forall s x, e_reach ok s0 s -> ok s x -> e_reach ok s0 (e_step s x).
Definition any_e (s : esys) (x : elabel) : Prop := True.
Definition both_e (P Q : esys -> elabel -> Prop) s x := P s x /\ Q s x.

(** the program that made the lock call has been replaced, or has ended and another process has its number *)
Definition replaced (s : esys) (h : hold) : Prop := x_img h <> e_img s (x_pid h).

(** a new thread does not get a number under which locks are registered, and a file is not opened (again) as a descriptor under which locks of it are registered,
    nor does a new process get a number under which locks are registered *)
Definition fresh_numbers (s : esys) (x : elabel) : Prop :=
  match x with
  | EThread p t => forall h, In h (e_locks s) -> x_pid h = p -> x_tid h <> t
  | EStart p _ => forall h, In h (e_locks s) -> x_pid h <> p
  | EOpen p fd f _ => forall h n, In h (e_locks s) -> x_pid h = p -> x_w h <> Rng fd f n
  | _ => True
  end.
(** the process lives and its main thread does not unlock the mutex *)
Definition ignores (p n : Z) (s : esys) (x : elabel) : Prop :=
  match x with EDie q => q <> p | EUnlock q t w => ~ (q = p /\ t = p /\ w = Mtx n) | _ => True end.

(** nobody calls execve *)
Definition no_exec (s : esys) (x : elabel) : Prop := match x with EExec _ _ => False | _ => True end.
(** a new process does not get a number under which locks are registered *)
Definition fresh_process (s : esys) (x : elabel) : Prop :=
  match x with EStart p _ => forall h, In h (e_locks s) -> x_pid h <> p | _ => True end.

(** the process goes on, with the same program *)
Definition goes_on (p : Z) (s : esys) (x : elabel) : Prop := match x with EDie q => q <> p | EExec q _ => q <> p | _ => True end.
