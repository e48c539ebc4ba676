(** Specification vocabulary for what the worker takes and gives back. *)
From Verif Require Import Base Thread_Model Thread_Spec Wres_Model.
From Coq Require Import ZArith List Bool.
Import ListNotations.
Open Scope Z_scope.

(** the library's own use of its worker objects, one after the other; any thread may fork at any moment,
    but nobody forks inside the fork handlers *)
Definition book (r : rstate) (l : rlabel) : Prop :=
  match l with
  | RT l => by_the_book (r_t r) l /\ match l with LFork _ => forall t, ~ handling (r_t r) t | _ => True end
  | RNew => True
  end.

(** the same, and whoever forks does so with at most one fork handler registered: the library was
    initialised once *)
Definition one_handler (r : rstate) (l : rlabel) : Prop :=
  book r l /\ (forall t, l = RT (LFork t) -> (t_regs (r_t r) <= 1)%nat).

(** the same without forks *)
Definition no_forks (r : rstate) (l : rlabel) : Prop := book r l /\ forall t, l <> RT (LFork t).

(** no more than [n] things satisfy [P] *)
Definition at_most (n : nat) (P : Z -> Prop) : Prop :=
  forall l, NoDup l -> (forall a, In a l -> P a) -> (length l <= n)%nat.

(** memory and descriptors the process has *)
Definition kept (r : rstate) (a : Z) : Prop := x_mem (r_res r) a <> Gone.
Definition open (r : rstate) (d : Z) : Prop := x_fds (r_res r) d = true.

(** no worker is at work and no call is under way *)
Definition ended (r : rstate) : Prop := idle (r_t r) /\ forall w, ~ live (r_t r) w.

(** a worker is up: behind its start, not yet at its end *)
Definition up (r : rstate) (w : Z) : Prop :=
  match t_wk (r_t r) w with WSetup | WLoop | WStop | WSleep | WRun | WWait => True | _ => False end.
