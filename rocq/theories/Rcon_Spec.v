(** Specification vocabulary for recursive lock objects used by several threads. *)
From Verif Require Import Base Rcsv_Model Rcsv_Spec Rcon_Model.
From Coq Require Import ZArith List Bool.
Import ListNotations.
Open Scope Z_scope.

Section Owner.
(** who uses an object *)
Variable own : Z -> Z.

(** objects are made, used and destroyed by one thread; thread numbers are positive *)
Definition owned (t : Z) (p : op) : Prop :=
  0 < t /\ own (target p) = t /\
  match p with ONew _ tid _ _ _ | ONewLock _ tid _ _ _ _ => tid = t | _ => True end.

(** executions in which every call satisfies [okc] and every result [okr] *)
Definition usage (okc : st -> op -> Prop) (okr : op -> bool -> Prop) (S : cst) (l : clabel) : Prop :=
  match l with
  | KCall t p => owned t p /\ okc (c_s S) p
  | KStep t => match c_thr S t with TRun p (PRet b _) => okr p b | _ => True end
  | _ => True
  end.

Definition of_thread (t : Z) (l : list Z) : list Z := filter (fun o => own o =? t) l.
Definition log_of (t : Z) (l : list (Z * (scall * Z))) : list (scall * Z) :=
  map snd (filter (fun x => fst x =? t) l).
Definition holds (S : cst) (t : Z) : bool := match c_hold S with Some u => u =? t | None => false end.

(** memory as seen by [t]: its objects, and its part of the stack *)
Definition agree (t : Z) (s c : st) : Prop :=
  (forall o, own o = t -> s_obj s o = s_obj c o) /\ (forall o, own o <> t -> s_obj s o = dead_obj) /\
  s_stack s = of_thread t (s_stack c).

(** [s] is what [t] sees of the process: its objects, its part of the stack, its calls of the shared
    lock layer, whether it has the mutex *)
Definition sees (t : Z) (s : st) (S : cst) : Prop :=
  agree t s (c_s S) /\ s_log s = log_of t (c_log S) /\ s_mtx s = holds S t.

(** a condition on a call that is about the objects of the caller *)
Definition about_caller (okc : st -> op -> Prop) : Prop :=
  forall t s c p, agree t s c -> own (target p) = t -> okc c p -> okc s p.
End Owner.

Definition any_op (s : st) (p : op) : Prop := True.
Definition any_result (p : op) (b : bool) : Prop := True.

(** the next step of [t] is an access to the stack *)
Definition at_stack (S : cst) (t : Z) : Prop := exists p g k, c_thr S t = TRun p (PAct true g k).
(** [t] spins on the mutex *)
Definition spinning (S : cst) (t : Z) : Prop := exists p k, c_thr S t = TRun p (PLck k) /\ s_mtx (c_s S) = true.

(** [n] steps of [t] *)
Fixpoint runs (n : nat) (t : Z) (S : cst) : option cst :=
  match n with
  | O => Some S
  | S n => match c_step S (KStep t) with Some S' => runs n t S' | None => None end
  end.

(** [t] runs alone for at most [n] steps; the shared lock layer answers with [ans] *)
Fixpoint alone (ans : cst -> scall -> Z) (n : nat) (t : Z) (S : cst) : cst :=
  match n with
  | O => S
  | S n =>
      match c_thr S t with
      | TRun _ (PShm _ c _) => match c_step S (KAns t (ans S c)) with Some S' => alone ans n t S' | None => S end
      | TRun _ _ => match c_step S (KStep t) with Some S' => alone ans n t S' | None => S end
      | _ => S
      end
  end.
Definition grants_writes (ans : cst -> scall -> Z) : Prop :=
  forall S tid fd off len, ans S (SWrite tid fd off len) = 0.
(** what a lock of a separate family asks, without converting *)
Definition family_op (F : key -> Prop) (s : st) (p : op) : Prop := in_family F s p true s /\ no_conversion s p.
