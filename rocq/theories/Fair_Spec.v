(** Infinite executions: what fairness of the scheduler is, and what waiting for ever is. *)
From Coq Require Import ZArith List Bool Lia.
From Verif Require Import Base Mutex_Model RwWord_Model.
Import ListNotations.
Open Scope Z_scope.

(** ** One mutex *)
(** the state after [n] steps of an infinite schedule *)
Fixpoint m_at (sched : nat -> mlabel) (n : nat) : mstate :=
  match n with O => m_init | S k => m_step (m_at sched k) (sched k) end.
Definition m_legal (sched : nat -> mlabel) : Prop := forall n, m_enabled (m_at sched n) (sched n).
(** nobody dies *)
Definition m_deathless (sched : nat -> mlabel) : Prop := forall n t, sched n <> MDie t.
(** a thread inside a call runs again and again *)
Definition m_fair (sched : nat -> mlabel) : Prop := forall n t,
  (forall k, (n <= k)%nat -> m_pc (m_at sched k) t <> MIdle) -> forall k, (n <= k)%nat -> exists j b, (k <= j)%nat /\ sched j = MRun t b.
(** a thread that got the mutex unlocks it again *)
Definition m_polite (sched : nat -> mlabel) : Prop := forall n t, m_own (m_at sched n) t = true ->
  exists k, (n <= k)%nat /\ m_own (m_at sched k) t = false.
(** inside a blocking lock call *)
Definition m_waiting (s : mstate) (t : Z) : Prop := m_pc s t = MRead MBlock \/ m_pc s t = MCas MBlock.
(** the mutex is taken at step [n] by [u] *)
Definition m_taken (sched : nat -> mlabel) (n : nat) (u : Z) : Prop := m_val (m_at sched n) = 0 /\ m_val (m_at sched (S n)) = u /\ u <> 0.

(** ** One read/write lock word *)
Fixpoint w_at (sched : nat -> wlabel) (n : nat) : wstate :=
  match n with O => w_init | S k => w_step (w_at sched k) (sched k) end.
Definition w_holds (s : wstate) (a : Z) : Prop := exists r, w_pc s a = WHold r.
Definition w_fair (sched : nat -> wlabel) : Prop := forall n a,
  (forall k, (n <= k)%nat -> w_pc (w_at sched k) a <> WIdle /\ ~ w_holds (w_at sched k) a) -> forall k, (n <= k)%nat -> exists j b, (k <= j)%nat /\ sched j = WRun a b.
Definition w_polite (sched : nat -> wlabel) : Prop := forall n a, w_holds (w_at sched n) a -> exists k, (n <= k)%nat /\ ~ w_holds (w_at sched k) a.
(** attempts of [a] in mode [r]: again and again *)
Definition keeps_asking (sched : nat -> wlabel) (a : Z) (r : rwmode) : Prop := forall n, exists k b, (n <= k)%nat /\
  sched k = WRun a b /\ match r with Rd => exists q, w_pc (w_at sched k) a = WRdRead q | Wr => exists q, w_pc (w_at sched k) a = WWrCas q end.
