(** One named mutex ([lockval], [lockcnt]): fine-grained machine with thread deaths and recovery passes.
    One step per shared memory access (load, compare-and-swap, fetch-and-add/sub) or /proc probe. *)
From Coq Require Import ZArith List Bool Lia.
From Verif Require Import Base.
Import ListNotations.
Open Scope Z_scope.

(** How a lock call waits (lib/flcklistnmtx.cc:66-90).
    Simplified: a blocking call in robust mode ([fl_lock_mutex] with a [max_count], EWOULDBLOCK, then
    [CheckMutexDeadLock]) may run a recovery pass after any failed attempt, not only after max_count. *)
Inductive mkind := MBlock | MTry | MTimed.

(** Program points; comments give the line of lib/flckbaselist.tcc (blocking / try / timed variant). *)
Inductive mpc :=
| MIdle
(* lock: 265-299 / 301-326 / 328-368 *)
| MRead (k : mkind)              (** 276/304/337: load lockval, compare with own id *)
| MAdd (k : mkind)               (** 278/306/339: fetch_and_add(lockcnt, 1) *)
| MConfirm (k : mkind)           (** 281/309/342: CAS(lockval, id, id) *)
| MSub (k : mkind)               (** 287/315/348: fetch_and_sub(lockcnt, 1) *)
| MCas (k : mkind)               (** 291/319/352: CAS(lockval, 0, id) *)
| MAdd2 (k : mkind)              (** 293/321/354: fetch_and_add(lockcnt, 1) *)
(* unlock: 370-400; [g] = the caller holds the registry guard (API unlock) or not (cond wait) *)
| MUGuard                        (** lib/flckshm.cc:676: take the registry guard *)
| MU0 (g : bool)                 (** 374: load lockval, compare with 0 *)
| MU1 (g : bool)                 (** 377: load lockval, compare with own id *)
| MU2 (g : bool)                 (** 382: fetch_and_sub(lockcnt, 1) *)
| MU3 (g : bool) (old : Z)       (** 386: CAS(lockcnt, old, 0) *)
| MU4 (g : bool)                 (** 390: CAS(lockval, id, 0) *)
| MU5 (g : bool)                 (** 395: fetch_and_add(lockcnt, 1) *)
| MURel (r : Z)                  (** lib/flckshm.cc:692: release the guard, return r *)
(* recovery pass: lib/flckshm.cc:567-593, lib/flcklistnmtx.cc:97-121, force unlock 402-415.
   [ret] = the lock call to resume afterwards, if the pass is run by a waiting call *)
| MKGuard (ret : option mkind)
| MK0 (ret : option mkind)             (** flcklistnmtx.cc:104: load lockval *)
| MK1 (ret : option mkind) (v : Z)     (** flcklistnmtx.cc:112: FindThreadProcess(v) *)
| MF0 (ret : option mkind)             (** 405: load lockcnt *)
| MF1 (ret : option mkind) (c : Z)     (** 406: CAS(lockcnt, c, 0) *)
| MF2 (ret : option mkind)             (** 407: load lockval *)
| MF3 (ret : option mkind) (v : Z)     (** 408: CAS(lockval, v, 0) *)
| MKRel (ret : option mkind).          (** flckshm.cc:590: release the guard *)

Record mstate := mkMS {
  m_val : Z;                   (** lockval: 0 or the owner's identity *)
  m_cnt : Z;                   (** lockcnt (unbounded here; the 32-bit counter is the subject of Wrap_Model, C117) *)
  m_guard : Z;                 (** named_mutex_lockid; its own protocol is the subject of Guard_Model *)
  m_alive : Z -> bool;
  m_pc : Z -> mpc;
  (* observations, not part of the program state *)
  m_own : Z -> bool;           (** a lock call returned 0 and no unlock was called since *)
  m_depth : Z -> Z;            (** lock calls that returned 0 minus unlock calls that returned 0 (at least 0) *)
  m_res : Z -> option Z        (** result of the last finished call *)
}.

Definition m_init : mstate :=
  mkMS 0 0 0 (fun _ => true) (fun _ => MIdle) (fun _ => false) (fun _ => 0) (fun _ => None).

(** state changes of a step *)
Definition m_goto (s : mstate) (t : Z) (p : mpc) : mstate :=
  mkMS (m_val s) (m_cnt s) (m_guard s) (m_alive s) (upd (m_pc s) t p) (m_own s) (m_depth s) (m_res s).
Definition m_set (s : mstate) (val cnt guard : Z) : mstate :=
  mkMS val cnt guard (m_alive s) (m_pc s) (m_own s) (m_depth s) (m_res s).
(** return [r] from a call *)
Definition m_return (s : mstate) (t r : Z) : mstate :=
  mkMS (m_val s) (m_cnt s) (m_guard s) (m_alive s) (upd (m_pc s) t MIdle) (m_own s) (m_depth s) (upd (m_res s) t (Some r)).
Definition m_locked (s : mstate) (t : Z) : mstate :=
  mkMS (m_val s) (m_cnt s) (m_guard s) (m_alive s) (upd (m_pc s) t MIdle) (upd (m_own s) t true)
       (upd (m_depth s) t (m_depth s t + 1)) (upd (m_res s) t (Some OK)).
Definition m_unlocked (s : mstate) (t r : Z) : mstate :=
  mkMS (m_val s) (m_cnt s) (m_guard s) (m_alive s) (upd (m_pc s) t MIdle) (m_own s)
       (if r =? OK then upd (m_depth s) t (Z.max 0 (m_depth s t - 1)) else m_depth s) (upd (m_res s) t (Some r)).

(** calls a thread can make when idle *)
Inductive mcall :=
| CLock (k : mkind)
| CUnlock                       (** fullock_mutex_unlock *)
| CWaitUnlock                   (** release inside fullock_cond_(timed)wait, lib/flcklistwaiter.cc:81 *)
| CRecover.                     (** recovery pass of the worker thread, lib/flckshm.cc:497-515 *)

Definition m_call (s : mstate) (t : Z) (c : mcall) : mstate :=
  match m_pc s t with
  | MIdle =>
      let giveup := mkMS (m_val s) (m_cnt s) (m_guard s) (m_alive s) (m_pc s) (upd (m_own s) t false) (m_depth s) (m_res s) in
      match c with
      | CLock k => m_goto s t (MRead k)
      | CUnlock => m_goto giveup t MUGuard
      | CWaitUnlock => m_goto giveup t (MU0 false)
      | CRecover => m_goto s t (MKGuard None)
      end
  | _ => s
  end.

(** after a failed attempt; [again]: timed calls: the timeout has not expired;
    blocking calls: true = retry at once, false = first run a recovery pass (robust mode) *)
Definition m_failed (s : mstate) (t : Z) (k : mkind) (again : bool) : mstate :=
  match k with
  | MTry => m_return s t EBUSY
  | MTimed => if again then m_goto s t (MRead MTimed) else m_return s t ETIMEDOUT
  | MBlock => if again then m_goto s t (MRead MBlock) else m_goto s t (MKGuard (Some MBlock))
  end.

(** taking the registry guard: free, already own, or its holder is dead (Guard_Model, C32, C33);
    otherwise the thread keeps spinning *)
Definition m_take_guard (s : mstate) (t : Z) (p : mpc) : mstate :=
  if (m_guard s =? 0) || (m_guard s =? t) || negb (m_alive s (m_guard s))
  then m_goto (m_set s (m_val s) (m_cnt s) t) t p else s.
Definition m_drop_guard (s : mstate) (t : Z) : mstate :=
  if m_guard s =? t then m_set s (m_val s) (m_cnt s) 0 else s.

Definition m_unlock_end (s : mstate) (t : Z) (g : bool) (r : Z) : mstate :=
  if g then m_goto s t (MURel r) else m_unlocked s t r.

Definition m_run (s : mstate) (t : Z) (again : bool) : mstate :=
  match m_pc s t with
  | MIdle => s
  | MRead k => if m_val s =? t then m_goto s t (MAdd k) else m_goto s t (MCas k)
  | MAdd k => let s' := m_set s (m_val s) (m_cnt s + 1) (m_guard s) in
              if 0 <=? m_cnt s then m_goto s' t (MConfirm k) else m_goto s' t (MSub k)
  | MConfirm k => if m_val s =? t then m_locked s t else m_goto s t (MSub k)
  | MSub k => m_failed (m_set s (m_val s) (m_cnt s - 1) (m_guard s)) t k again
  | MCas k => if m_val s =? 0 then m_goto (m_set s t (m_cnt s) (m_guard s)) t (MAdd2 k)
              else m_failed s t k again
  | MAdd2 k => m_locked (m_set s (m_val s) (m_cnt s + 1) (m_guard s)) t
  | MUGuard => m_take_guard s t (MU0 true)
  | MU0 g => if m_val s =? 0 then m_unlock_end s t g OK else m_goto s t (MU1 g)
  | MU1 g => if m_val s =? t then m_goto s t (MU2 g) else m_unlock_end s t g EPERM
  | MU2 g => let s' := m_set s (m_val s) (m_cnt s - 1) (m_guard s) in
             if m_cnt s <=? 1 then
               if m_cnt s <? 1 then m_goto s' t (MU3 g (m_cnt s)) else m_goto s' t (MU4 g)
             else m_goto s' t (MU0 g)              (* no break: the do-while loop runs again *)
  | MU3 g old => m_goto (if m_cnt s =? old then m_set s (m_val s) 0 (m_guard s) else s) t (MU4 g)
  | MU4 g => if m_val s =? t then m_unlock_end (m_set s 0 (m_cnt s) (m_guard s)) t g OK
             else if m_val s =? 0 then m_unlock_end s t g OK
             else m_goto s t (MU5 g)
  | MU5 g => m_goto (m_set s (m_val s) (m_cnt s + 1) (m_guard s)) t (MU0 g)
  | MURel r => m_unlocked (m_drop_guard s t) t r
  | MKGuard ret => m_take_guard s t (MK0 ret)
  | MK0 ret => if (m_val s =? 0) || (m_val s =? t) then m_goto s t (MKRel ret) else m_goto s t (MK1 ret (m_val s))
  | MK1 ret v => if m_alive s v then m_goto s t (MKRel ret) else m_goto s t (MF0 ret)
  | MF0 ret => if m_cnt s =? 0 then m_goto s t (MF2 ret) else m_goto s t (MF1 ret (m_cnt s))
  | MF1 ret c => if m_cnt s =? c then m_goto (m_set s (m_val s) 0 (m_guard s)) t (MF2 ret) else m_goto s t (MF0 ret)
  | MF2 ret => if m_val s =? 0 then m_goto s t (MKRel ret) else m_goto s t (MF3 ret (m_val s))
  | MF3 ret v => if m_val s =? v then m_goto (m_set s 0 (m_cnt s) (m_guard s)) t (MKRel ret) else m_goto s t (MF0 ret)
  | MKRel ret => match ret with
                 | None => m_return (m_drop_guard s t) t OK
                 | Some k => m_goto (m_drop_guard s t) t (MRead k)
                 end
  end.

Inductive mlabel :=
| MCall (t : Z) (c : mcall)
| MRun (t : Z) (again : bool)
| MDie (t : Z).

Definition m_step (s : mstate) (l : mlabel) : mstate :=
  match l with
  | MCall t c => m_call s t c
  | MRun t b => m_run s t b
  | MDie t => mkMS (m_val s) (m_cnt s) (m_guard s) (upd (m_alive s) t false) (m_pc s) (m_own s) (m_depth s) (m_res s)
  end.

(** only live threads with a proper identity act; 0 is no thread *)
Definition m_enabled (s : mstate) (l : mlabel) : Prop :=
  match l with
  | MCall t _ | MRun t _ => t <> 0 /\ m_alive s t = true
  | MDie t => t <> 0
  end.

(** states reachable by steps that satisfy a side condition [ok] (a restriction of the schedules) *)
Inductive m_reach (ok : mstate -> mlabel -> Prop) : mstate -> Prop :=
| mr_init : m_reach ok m_init
| mr_step : forall s l, m_reach ok s -> m_enabled s l -> ok s l -> m_reach ok (m_step s l).

Fixpoint m_exec (s : mstate) (ls : list mlabel) : mstate :=
  match ls with [] => s | l :: r => m_exec (m_step s l) r end.

(** ** Schedule conditions *)
Definition any_schedule (s : mstate) (l : mlabel) : Prop := True.
Definition no_deaths (s : mstate) (l : mlabel) : Prop := match l with MDie _ => False | _ => True end.
Definition no_cond_wait (s : mstate) (l : mlabel) : Prop := match l with MCall _ CWaitUnlock => False | _ => True end.
(** no thread dies between the instant a running recovery pass has read it as owner and the instant the
    pass looks it up, unless it still owns the mutex then *)
Definition no_exit_in_window (s : mstate) (l : mlabel) : Prop :=
  match l with
  | MDie v => forall c ret, m_alive s c = true -> m_pc s c = MK1 ret v -> m_val s = v
  | _ => True
  end.
