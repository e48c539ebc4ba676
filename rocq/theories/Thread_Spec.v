(** Specification vocabulary for the worker control. *)
From Verif Require Import Base Thread_Model.
From Coq Require Import ZArith List Bool.
Import ListNotations.
Open Scope Z_scope.

(** any schedule *)
Definition any (s : tstate) (l : tlabel) : Prop := True.
(** any schedule inside one process *)
Definition no_fork (s : tstate) (l : tlabel) : Prop := forall t, l <> LFork t.

(** the flag says that the worker is to end or has ended *)
Definition told (s : tstate) : Prop := EXIT <= t_flag s.

(** a thread is inside Run or Stop, behind the test of the flag *)
Definition switching (s : tstate) (t : Z) : Prop := exists k o n, t_pc s t = CCas k o n.

(** the only calls are exit requests *)
Definition only_exit (s : tstate) (l : tlabel) : Prop :=
  match l with LCall _ k => k = KExit | LFork _ => False | _ => True end.

Definition idle (s : tstate) : Prop := forall t, t_pc s t = CIdle.

(** a worker that can still run code of the library *)
Definition live (s : tstate) (w : Z) : Prop :=
  match t_wk s w with WNone | WEnd | WDone => False | _ => True end.

(** how lib/flckshminit.cc uses the object: one method at a time, the worker is started on a
    fresh object, nothing is called on a deleted object, and a thread that was made and not joined
    can be cancelled *)
Definition by_the_book (s : tstate) (l : tlabel) : Prop :=
  match l with
  | LCall t k => idle s /\ t_freed s = false /\ (k = KInit -> t_flag s = STOP)
  | LCtl t f _ => match t_pc s t with CExit3 _ => f = false | _ => True end
  | _ => True
  end.

(** [n] steps of worker [w] alone, nothing failing *)
Fixpoint alone (n : nat) (w : Z) (s : tstate) : tstate :=
  match n with
  | O => s
  | S n => alone n w (t_work s w false)
  end.

(** a thread is still inside the fork handlers *)
Definition handling (s : tstate) (t : Z) : Prop :=
  match t_pc s t with
  | CReset _ => True
  | CInit1 k | CInit2 k | CRun1 k | CRun2 k | CCas k _ _ =>
      match k with KRunH _ | KNextH _ => True | _ => False end
  | _ => False
  end.
(** no Run or Stop is about to write and no fork handler is at work *)
Definition calm (s : tstate) : Prop := forall t, ~ switching s t /\ ~ handling s t.

(** nothing fails and nobody makes a call: what is under way goes on *)
Definition smooth (s : tstate) (l : tlabel) : Prop :=
  match l with LCtl _ f _ => f = false | LWork _ f => f = false | _ => False end.
