(** Specification of named mutexes: for every name (its first 63 bytes) one atomic mutex, in a table with
    room for a limited number of names.  Nothing here refers to entries, hashes or program points. *)
From Coq Require Import ZArith List Bool Lia.
From Verif Require Import Base Name_Model Mutex_Model Nmtx_Model.
Import ListNotations.
Open Scope Z_scope.

(** names that agree on their first 63 bytes are the same *)
Definition canon (n : option cstring) : list Z := match n with Some s => firstn 63 s | None => [] end.
Arguments canon _ : simpl never.
(** the name a call is about *)
Definition about (c : ncall) : option cstring :=
  match c with NLock n _ => n | NUnlock n => n | NWaitUnlock n => n | NRecover => None end.
Definition setn {B : Type} (f : list Z -> B) (n : list Z) (v : B) : list Z -> B :=
  fun x => if list_eq_dec Z.eq_dec x n then v else f x.

Inductive gop := GIdle | GWaits (c : ncall) | GDone (r : Z).
Record gstate := mkGS {
  g_owner : list Z -> Z;             (** owner of the mutex of a name, 0: free *)
  g_known : list Z -> bool;          (** the name is in the table *)
  g_room : nat;                      (** how many names the table still takes *)
  g_alive : Z -> bool;
  g_op : Z -> gop
}.
Definition g_init (room : nat) : gstate := mkGS (fun _ => 0) (fun _ => false) room (fun _ => true) (fun _ => GIdle).

(** the effect of a call of [t] on a mutex in the table: new owner and result *)
Inductive meffect (owner t : Z) : ncall -> Z -> Z -> Prop :=
| me_lock : forall n k, owner = 0 \/ owner = t -> meffect owner t (NLock n k) t OK
| me_busy : forall n, owner <> 0 -> owner <> t -> meffect owner t (NLock n MTry) owner EBUSY
| me_timeout : forall n, owner <> 0 -> owner <> t -> meffect owner t (NLock n MTimed) owner ETIMEDOUT
| me_unlock : forall n c, c = NUnlock n \/ c = NWaitUnlock n -> owner = 0 \/ owner = t -> meffect owner t c 0 OK
| me_eperm : forall n c, c = NUnlock n \/ c = NWaitUnlock n -> owner <> 0 -> owner <> t -> meffect owner t c owner EPERM.

(** lock and unlock calls refuse NULL; a condition wait takes it for the empty name *)
Definition accepted (c : ncall) : Prop :=
  match c with NLock None _ | NUnlock None | NRecover => False | _ => True end.
(** the effect of a call: new owners and result *)
Inductive geffect (a : gstate) (t : Z) : ncall -> (list Z -> Z) -> Z -> Prop :=
| ge_known : forall c owner' r, accepted c -> g_known a (canon (about c)) = true ->
    meffect (g_owner a (canon (about c))) t c owner' r ->
    geffect a t c (setn (g_owner a) (canon (about c)) owner') r
(** the table is full and the name is new *)
| ge_full : forall n k, g_known a (canon (Some n)) = false -> g_room a = O -> geffect a t (NLock (Some n) k) (g_owner a) ENOLCK
| ge_unknown : forall n c, c = NUnlock n \/ c = NWaitUnlock n -> g_known a (canon n) = false -> geffect a t c (g_owner a) EINVAL
| ge_null_lock : forall k, geffect a t (NLock None k) (g_owner a) EINVAL
| ge_null_unlock : geffect a t (NUnlock None) (g_owner a) EINVAL
| ge_recover : geffect a t NRecover (g_owner a) OK.

(** calls that may free mutexes of dead threads *)
Definition recovers (c : ncall) : Prop := match c with NRecover | NLock _ MBlock => True | _ => False end.

Inductive g_step : gstate -> list nevent -> gstate -> Prop :=
| gs_call : forall a t c, t <> 0 -> g_alive a t = true -> g_op a t = GIdle ->
    g_step a [VCall t c] (mkGS (g_owner a) (g_known a) (g_room a) (g_alive a) (upd (g_op a) t (GWaits c)))
(** a lock call puts a new name into the table *)
| gs_new : forall a t n k r, t <> 0 -> g_alive a t = true -> g_op a t = GWaits (NLock (Some n) k) ->
    g_known a (canon (Some n)) = false -> g_room a = S r ->
    g_step a [] (mkGS (setn (g_owner a) (canon (Some n)) 0) (setn (g_known a) (canon (Some n)) true) r (g_alive a) (g_op a))
| gs_effect : forall a t c owner' r, t <> 0 -> g_alive a t = true -> g_op a t = GWaits c -> geffect a t c owner' r ->
    g_step a [] (mkGS owner' (g_known a) (g_room a) (g_alive a) (upd (g_op a) t (GDone r)))
| gs_ret : forall a t r, g_alive a t = true -> g_op a t = GDone r ->
    g_step a [VRet t r] (mkGS (g_owner a) (g_known a) (g_room a) (g_alive a) (upd (g_op a) t GIdle))
| gs_reap : forall a t c n, g_alive a t = true -> g_op a t = GWaits c -> recovers c ->
    g_owner a n <> 0 -> g_alive a (g_owner a n) = false ->
    g_step a [] (mkGS (setn (g_owner a) n 0) (g_known a) (g_room a) (g_alive a) (g_op a))
| gs_die : forall a t, t <> 0 ->
    g_step a [VDie t] (mkGS (g_owner a) (g_known a) (g_room a) (upd (g_alive a) t false) (g_op a))
(** a thread that died in a lock call on a new name may have used up room, once *)
| gs_leak : forall a t n k r, g_alive a t = false -> g_op a t = GWaits (NLock (Some n) k) ->
    g_known a (canon (Some n)) = false -> g_room a = S r ->
    g_step a [] (mkGS (g_owner a) (g_known a) r (g_alive a) (upd (g_op a) t GIdle)).

Inductive g_history (room : nat) : gstate -> list nevent -> Prop :=
| gh_init : g_history room (g_init room) []
| gh_step : forall a h e a', g_history room a h -> g_step a e a' -> g_history room a' (h ++ e).

(** ** Reading histories *)
(** the call of [t] that is running at the end of [h] *)
Fixpoint running (t : Z) (h : list nevent) (acc : option ncall) : option ncall :=
  match h with
  | [] => acc
  | VCall u c :: r => running t r (if u =? t then Some c else acc)
  | VRet u _ :: r => running t r (if u =? t then None else acc)
  | VDie _ :: r => running t r acc
  end.
Definition same (a b : option cstring) : bool := if list_eq_dec Z.eq_dec (canon a) (canon b) then true else false.
(** [t] has locked [n]: after its last successful lock of that name it has not started an unlock of it or
    a condition wait with it *)
Fixpoint locked_by (n : option cstring) (t : Z) (h : list nevent) (run : option ncall) (acc : bool) : bool :=
  match h with
  | [] => acc
  | VCall u c :: r =>
      if u =? t then locked_by n t r (Some c) (match c with NUnlock x | NWaitUnlock x => if same n x then false else acc | _ => acc end)
      else locked_by n t r run acc
  | VRet u x :: r =>
      if u =? t then locked_by n t r None (match run with Some (NLock m _) => if same n m && (x =? OK) then true else acc | _ => acc end)
      else locked_by n t r run acc
  | VDie _ :: r => locked_by n t r run acc
  end.
Definition has_lock (n : option cstring) (t : Z) (h : list nevent) : bool := locked_by n t h None false.
Definition dead_in (t : Z) (h : list nevent) : Prop := In (VDie t) h.

(** the names lock calls were started with, and the number of deaths, in [h] *)
Definition locked_names (h : list nevent) : list (list Z) :=
  flat_map (fun v => match v with VCall _ (NLock (Some n) _) => [canon (Some n)] | _ => [] end) h.
Definition deaths (h : list nevent) : nat :=
  length (filter (fun v => match v with VDie _ => true | _ => false end) h).
