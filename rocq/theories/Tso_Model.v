(** Processors with store buffers (x86-TSO): the lock machines of this development together with data that the threads protect by the lock.
    A store of a thread goes to its buffer and reaches the memory later, in order; a load sees the newest own buffered store, else the
    memory; an instruction with the lock prefix (every __sync_ builtin of lib/flckbaselist.tcc) waits until the own buffer is empty.
    A thread whose end is visible in /proc has been switched out by the kernel, so its buffer has been emptied.
    The lock words themselves are written by __sync_ builtins only, so their values in the lock machines are those in memory. *)
From Coq Require Import ZArith List Bool.
From Verif Require Import Base Guard_Model Mutex_Model RwWord_Model RwApi_Model.
Import ListNotations.
Open Scope Z_scope.

Section Machine.
Variables State Label Loc : Type.
Variable loc_eq : forall a b : Loc, {a = b} + {a <> b}.
Variable start : State.
Variable step : State -> Label -> State.
Variable can : State -> Label -> Prop.              (** the step is possible *)
Variable atomic : State -> Label -> Z -> Prop.      (** the step contains a locked instruction of the thread *)
Variable live : State -> Z -> bool.
Variable may_write : State -> Z -> Loc -> Prop.     (** the thread may write there, by the rules of the program *)

Record xstate := mkX {
  x_lock : State;
  x_mem : Loc -> Z;
  x_buf : Z -> list (Loc * Z);     (** by thread, newest first *)
  x_log : list (Loc * Z)           (** observation: all stores in program order of each thread, newest first *)
}.
Definition x_init : xstate := mkX start (fun _ => 0) (fun _ => []) [].

Fixpoint newest (x : Loc) (b : list (Loc * Z)) : option Z :=
  match b with [] => None | (y, v) :: r => if loc_eq x y then Some v else newest x r end.
(** what a load of the thread returns *)
Definition x_load (s : xstate) (t : Z) (x : Loc) : Z := match newest x (x_buf s t) with Some v => v | None => x_mem s x end.
Definition put (m : Loc -> Z) (x : Loc) (v : Z) : Loc -> Z := fun y => if loc_eq y x then v else m y.

Inductive x_step : xstate -> xstate -> Prop :=
| xs_lock : forall s l, can (x_lock s) l ->                                     (** a step of the lock functions, or a death *)
    (forall t, atomic (x_lock s) l t -> x_buf s t = []) ->
    (forall t, live (x_lock s) t = true -> live (step (x_lock s) l) t = false -> x_buf s t = []) ->
    x_step s (mkX (step (x_lock s) l) (x_mem s) (x_buf s) (x_log s))
| xs_store : forall s t x v, live (x_lock s) t = true -> may_write (x_lock s) t x ->
    x_step s (mkX (x_lock s) (x_mem s) (upd (x_buf s) t ((x, v) :: x_buf s t)) ((x, v) :: x_log s))
| xs_drain : forall s t x v b, x_buf s t = b ++ [(x, v)] ->
    x_step s (mkX (x_lock s) (put (x_mem s) x v) (upd (x_buf s) t b) (x_log s)).
Inductive x_reach : xstate -> Prop :=
| xr_init : x_reach x_init
| xr_step : forall s s', x_reach s -> x_step s s' -> x_reach s'.
End Machine.

(** ** Which steps contain a locked instruction *)
(** the internal lock words, lib/flckbaselist.tcc:63, 79, 98, 114 *)
Definition g_apply (s : gstate) (l : glabel) : gstate :=
  match l with GRun t => g_step s t | GDie t => Guard_Model.mkG (g_word s) (upd (g_alive s) t false) (g_pc s) end.
Definition g_can (s : gstate) (l : glabel) : Prop := match l with GRun t => t <> 0 /\ g_alive s t = true | GDie t => t <> 0 end.
Definition g_atomic (s : gstate) (l : glabel) (t : Z) : Prop :=
  l = GRun t /\ match g_pc s t with GLock _ _ | GLockTake _ _ | GUnlock _ _ | GUnlockTake _ _ => True | _ => False end.
(** a named mutex, lib/flckbaselist.tcc:265-415: everything but the loads of [lockval] and [lockcnt] and the /proc probe *)
Definition m_atomic (s : mstate) (l : mlabel) (t : Z) : Prop :=
  exists b, l = MRun t b /\
  match m_pc s t with
  | MIdle | MRead _ | MU0 _ | MU1 _ | MK0 _ | MK1 _ _ | MF0 _ | MF2 _ => False
  | _ => True
  end.
(** read/write locks: taking and dropping the list guard, attempts on the lock word; fewer than there are (an unlock may find the word
    free and not write it, lib/flckbaselist.tcc:252-254; the list operations are not counted either) *)
Definition r_atomic (s : rstate) (l : rlabel) (t : Z) : Prop :=
  exists a b, l = LRun t a b /\ match r_pc s t with RWait _ | RDrop _ | AT _ _ _ _ => True | _ => False end.
