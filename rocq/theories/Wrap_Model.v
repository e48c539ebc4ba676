(** The named mutex with its 32-bit lock counter.
    [lockcnt] is an [int] (lib/flckstructure.h:92) changed by [__sync_fetch_and_add]/[_sub]
    (lib/flckbaselist.tcc:278, 287, 293, 306, 315, 321, 339, 348, 354, 382, 395), which wrap modulo 2^32. *)
From Coq Require Import ZArith List Bool Lia.
From Verif Require Import Base Mutex_Model Mutex_Spec.
Import ListNotations.
Open Scope Z_scope.

(** replacing the counter (observations and the other words stay) *)
Definition with_cnt (s : mstate) (c : Z) : mstate :=
  mkMS (m_val s) c (m_guard s) (m_alive s) (m_pc s) (m_own s) (m_depth s) (m_res s).

(** One step: the step of Mutex_Model with the counter reduced to an [int].
    Exact, since a step performs at most one operation on the counter. *)
Definition i_step (s : mstate) (l : mlabel) : mstate := with_cnt (m_step s l) (s32 (m_cnt (m_step s l))).

Inductive i_reach (ok : mstate -> mlabel -> Prop) : mstate -> Prop :=
| ir_init : i_reach ok m_init
| ir_step : forall s l, i_reach ok s -> m_enabled s l -> ok s l -> i_reach ok (i_step s l).

Inductive i_path (ok : mstate -> mlabel -> Prop) : mstate -> list mlabel -> mstate -> Prop :=
| ip_nil : forall s, i_path ok s [] s
| ip_cons : forall s l ls s', m_enabled s l -> ok s l -> i_path ok (i_step s l) ls s' -> i_path ok s (l :: ls) s'.

Fixpoint i_exec (s : mstate) (ls : list mlabel) : mstate :=
  match ls with [] => s | l :: r => i_exec (i_step s l) r end.

(** schedule condition: nobody calls lock on a mutex it holds 2^31 - 1 times already *)
Definition shallow (s : mstate) (l : mlabel) : Prop :=
  match l with
  | MCall t (CLock _) => m_val s = t -> m_cnt s < INT_MAX
  | _ => True
  end.
Definition window_shallow (s : mstate) (l : mlabel) : Prop := no_exit_in_window s l /\ shallow s l.

(** The mutex with a counter that takes arbitrary values: every step may leave any number in it.
    Covers any width of the counter and any damage to it. *)
Inductive a_reach (ok : mstate -> mlabel -> Prop) : mstate -> Prop :=
| ar_init : a_reach ok m_init
| ar_step : forall s l c, a_reach ok s -> m_enabled s l -> ok s l -> a_reach ok (with_cnt (m_step s l) c).
