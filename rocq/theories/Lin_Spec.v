(** Specification of a named mutex as an atomic object, and histories of calls and returns.
    Nothing here refers to program points: a call waits, takes effect at one instant, then returns. *)
From Coq Require Import ZArith List Bool Lia.
From Verif Require Import Base Mutex_Model.
Import ListNotations.
Open Scope Z_scope.

(** ** Histories: what a program using the library can see *)
Inductive event :=
| ECall (t : Z) (c : mcall)
| ERet (t r : Z)
| EDie (t : Z).

(** events of one step of the machine of Mutex_Model *)
Definition m_events (s : mstate) (l : mlabel) : list event :=
  match l with
  | MCall t c => match m_pc s t with MIdle => [ECall t c] | _ => [] end
  | MRun t b => match m_pc s t, m_pc (m_run s t b) t, m_res (m_run s t b) t with
                | MIdle, _, _ => []
                | _, MIdle, Some r => [ERet t r]
                | _, _, _ => []
                end
  | MDie t => [EDie t]
  end.

(** [m_history ok s h]: some execution from the initial state reaches [s] and shows the history [h] *)
Inductive m_history (ok : mstate -> mlabel -> Prop) : mstate -> list event -> Prop :=
| mh_init : m_history ok m_init []
| mh_step : forall s l h, m_history ok s h -> m_enabled s l -> ok s l -> m_history ok (m_step s l) (h ++ m_events s l).

(** ** The atomic mutex *)
Inductive op_state := OIdle | OWaits (c : mcall) | ODone (r : Z).
Record atomic := mkAt {
  at_owner : Z;               (** 0: free *)
  at_alive : Z -> bool;
  at_op : Z -> op_state
}.
Definition at_init : atomic := mkAt 0 (fun _ => true) (fun _ => OIdle).

(** the effect of a call at its instant: new owner and result; a lock call by the owner succeeds, an unlock
    by the owner releases however often it was locked *)
Inductive effect (owner t : Z) : mcall -> Z -> Z -> Prop :=
| ef_lock : forall k, owner = 0 \/ owner = t -> effect owner t (CLock k) t OK
| ef_busy : owner <> 0 -> owner <> t -> effect owner t (CLock MTry) owner EBUSY
| ef_timeout : owner <> 0 -> owner <> t -> effect owner t (CLock MTimed) owner ETIMEDOUT
| ef_unlock : forall c, c = CUnlock \/ c = CWaitUnlock -> owner = 0 \/ owner = t -> effect owner t c 0 OK
| ef_eperm : forall c, c = CUnlock \/ c = CWaitUnlock -> owner <> 0 -> owner <> t -> effect owner t c owner EPERM
| ef_recover : effect owner t CRecover owner OK.

Inductive at_step : atomic -> list event -> atomic -> Prop :=
| as_call : forall a t c, t <> 0 -> at_alive a t = true -> at_op a t = OIdle ->
    at_step a [ECall t c] (mkAt (at_owner a) (at_alive a) (upd (at_op a) t (OWaits c)))
| as_effect : forall a t c owner' r, t <> 0 -> at_alive a t = true -> at_op a t = OWaits c ->
    effect (at_owner a) t c owner' r ->
    at_step a [] (mkAt owner' (at_alive a) (upd (at_op a) t (ODone r)))
| as_ret : forall a t r, at_alive a t = true -> at_op a t = ODone r ->
    at_step a [ERet t r] (mkAt (at_owner a) (at_alive a) (upd (at_op a) t OIdle))
(** a recovery pass, or a blocking lock call, frees the mutex of a dead owner *)
| as_reap : forall a t, at_alive a t = true -> at_op a t = OWaits CRecover \/ at_op a t = OWaits (CLock MBlock) ->
    at_owner a <> 0 -> at_alive a (at_owner a) = false ->
    at_step a [] (mkAt 0 (at_alive a) (at_op a))
| as_die : forall a t, t <> 0 -> at_step a [EDie t] (mkAt (at_owner a) (upd (at_alive a) t false) (at_op a)).

Inductive at_history : atomic -> list event -> Prop :=
| ah_init : at_history at_init []
| ah_step : forall a h e a', at_history a h -> at_step a e a' -> at_history a' (h ++ e).

(** ** Reading histories *)
(** the call of [t] that is running at the end of [h] *)
Fixpoint running (t : Z) (h : list event) (acc : option mcall) : option mcall :=
  match h with
  | [] => acc
  | ECall u c :: r => running t r (if u =? t then Some c else acc)
  | ERet u _ :: r => running t r (if u =? t then None else acc)
  | EDie _ :: r => running t r acc
  end.
(** [t] has locked: after its last successful lock it has not started an unlock or a condition wait *)
Fixpoint locked_by (t : Z) (h : list event) (run : option mcall) (acc : bool) : bool :=
  match h with
  | [] => acc
  | ECall u c :: r => if u =? t then locked_by t r (Some c) (match c with CUnlock | CWaitUnlock => false | _ => acc end)
                      else locked_by t r run acc
  | ERet u x :: r => if u =? t then locked_by t r None (match run with Some (CLock _) => if x =? OK then true else acc | _ => acc end)
                     else locked_by t r run acc
  | EDie _ :: r => locked_by t r run acc
  end.
Definition has_lock (t : Z) (h : list event) : bool := locked_by t h None false.
Definition dead_in (t : Z) (h : list event) : Prop := In (EDie t) h.
