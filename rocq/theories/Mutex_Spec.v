(** Vocabulary of the mutex properties, independent of program points. *)
From Coq Require Import ZArith List Bool Lia.
From Verif Require Import Base Mutex_Model.
Import ListNotations.
Open Scope Z_scope.

(** Executions: [m_path ok s ls s'] - from s the steps ls, each possible and permitted by ok, lead to s'. *)
Inductive m_path (ok : mstate -> mlabel -> Prop) : mstate -> list mlabel -> mstate -> Prop :=
| mp_nil : forall s, m_path ok s [] s
| mp_cons : forall s l ls s', m_enabled s l -> ok s l -> m_path ok (m_step s l) ls s' -> m_path ok s (l :: ls) s'.

(** number of steps of thread t in a schedule *)
Fixpoint own_steps (t : Z) (ls : list mlabel) : nat :=
  match ls with
  | [] => O
  | MRun u _ :: r => if u =? t then S (own_steps t r) else own_steps t r
  | _ :: r => own_steps t r
  end.

(** t makes no further call in the schedule and survives it *)
Definition one_call (t : Z) (ls : list mlabel) : Prop :=
  forall l, In l ls -> (forall c, l <> MCall t c) /\ l <> MDie t.

(** the execution from s along ls passes through a state satisfying P (including first and last) *)
Fixpoint passes (P : mstate -> Prop) (s : mstate) (ls : list mlabel) : Prop :=
  P s \/ match ls with [] => False | l :: r => passes P (m_step s l) r end.

(** "t is between two calls and owns nothing / is between two calls" *)
Definition idle (s : mstate) (t : Z) : Prop := m_pc s t = MIdle.
Definition live_thread (s : mstate) (t : Z) : Prop := t <> 0 /\ m_alive s t = true.

(** t runs alone: its next n steps *)
Fixpoint alone (s : mstate) (t : Z) (n : nat) : mstate :=
  match n with O => s | S k => alone (m_run s t true) t k end.
