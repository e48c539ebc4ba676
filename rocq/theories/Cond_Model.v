(** Named condition variables: machine of all conditions, their waiter entries, the waiter pool, the named
    mutexes and the guard [named_cond_lockid], with thread deaths and recovery passes.
    One step per access to a shared word that another thread or a crash can separate.
    Simplified:
    - a named mutex is its owner (0 = free); the word-level protocol is Mutex_Model.v.  Acquisition is the
      compare-and-swap, release the one that clears the word (all recursion levels at once, see C07);
      finding or creating the name is part of the first step of a call;
    - the guard is taken and dropped in one step (word level: Guard_Model.v);
    - list insertion and removal are one step (pointer level: List_Model.v);
    - [clock_gettime] does not fail;
    - a recovery pass over the mutexes is one step per mutex (word level: Mutex_Model.v), done by anybody. *)
From Coq Require Import ZArith List Bool Lia.
From Verif Require Import Base.
Import ListNotations.
Open Scope Z_scope.

(** [FLWAITER], lib/flckstructure.h; [w_wait]: lockstatus is FLCK_NCOND_WAIT (true) or FLCK_NCOND_UP (false) *)
Record wrec := mkW { w_tid : Z; w_wait : bool; w_mtx : Z }.
Definition w_set_wait (r : wrec) b := mkW (w_tid r) b (w_mtx r).

(** timeout of a lock or wait call: FLCK_NO_TIMEOUT, a positive timeout, FLCK_TRY_TIMEOUT (lib/flcklocktype.h:24-25) *)
Inductive ckind := KBlock | KTimed | KTry.

Inductive ccall :=
| CLockM (m : Z) (k : ckind)              (** fullock_mutex_lock / timedlock / trylock *)
| CUnlockM (m : Z)                        (** fullock_mutex_unlock *)
| CWait (c m : Z) (k : ckind)             (** fullock_cond_wait / timedwait *)
| CSignal (c : Z)
| CBroadcast (c : Z)
| CRecover.                               (** recovery pass over the conditions, lib/flckshm.cc:598-623 *)

(** arguments of a running wait call *)
Record wargs := mkWA { a_c : Z; a_m : Z; a_k : ckind }.

Inductive cpc :=
| CIdle
| ML (m : Z) (k : ckind)                  (** lib/flckbaselist.tcc:265-368: waiting for a mutex *)
| MU (m : Z)                              (** lib/flckbaselist.tcc:370-400 *)
(* wait *)
| WG (a : wargs)                          (** lib/flckshm.cc:934: take the guard *)
| WN (a : wargs)                          (** 937-957: find or create the condition *)
| WR (a : wargs)                          (** lib/flcklistncond.cc:112: take a waiter entry *)
| WI (a : wargs) (w : Z)                  (** 118-121: initialise and insert it *)
| WD (a : wargs) (w : Z)                  (** 131: drop the guard *)
| WS (a : wargs) (w : Z)                  (** lib/flcklistwaiter.cc:75: set WAIT *)
| WU (a : wargs) (w : Z)                  (** 78: release the mutex *)
| WB (a : wargs) (w : Z) (r : Z)          (** 82: set UP after a failed release *)
| WW (a : wargs) (w : Z)                  (** 87-92: wait for UP *)
| WL (a : wargs) (w : Z) (r : Z)          (** 96: lock the mutex again *)
| WJ (a : wargs) (w : Z) (r : Z)          (** lib/flcklistncond.cc:137: take the guard *)
| WC (a : wargs) (w : Z) (r : Z)          (** 138: take the entry out of the list *)
| WP (a : wargs) (w : Z) (r : Z)          (** 140: put it into the pool *)
| CX (r : Z)                              (** drop the guard and return *)
(* signal and broadcast *)
| SG (c : Z) (b : bool)                   (** lib/flckshm.cc:890: take the guard *)
| SF (c : Z) (b : bool)                   (** 893: find the condition *)
| SS (c : Z) (ws : list Z) (last : option Z)   (** lib/flcklistncond.cc:91: rfind, one entry per step *)
| SW (c : Z) (w : Z)                      (** 97: set UP *)
| SB (c : Z) (ws : list Z)                (** 74-76: broadcast, look at one entry *)
| SU (c : Z) (w : Z) (ws : list Z)        (** 79: set UP *)
(* recovery pass *)
| RG                                      (** lib/flckshm.cc:610 *)
| RP (cs : list Z) (ws : option (list Z)). (** 614-619, lib/flcklistncond.cc:163-186: conditions and entries still to visit *)

Record cstate := mkC {
  c_m : Z -> Z;                (** owner of each mutex *)
  c_mk : Z -> bool;            (** the mutex name exists *)
  c_conds : list Z;            (** existing conditions *)
  c_cfree : nat;               (** free condition entries *)
  c_wl : Z -> list Z;          (** waiter list of each condition, newest first *)
  c_pool : list Z;             (** free waiter entries *)
  c_w : Z -> wrec;
  c_guard : option Z;
  c_pc : Z -> cpc;
  c_res : Z -> option Z;
  c_alive : Z -> bool;
  c_seq : Z -> Z;              (** ghost: when the entry was registered *)
  c_now : Z                    (** ghost *)
}.

Definition c_init (UW : list Z) (nconds : nat) : cstate :=
  mkC (fun _ => 0) (fun _ => false) [] nconds (fun _ => []) UW (fun _ => mkW 0 false 0) None
      (fun _ => CIdle) (fun _ => None) (fun _ => true) (fun _ => 0) 0.

Definition goto (s : cstate) t p := mkC (c_m s) (c_mk s) (c_conds s) (c_cfree s) (c_wl s) (c_pool s) (c_w s) (c_guard s)
  (upd (c_pc s) t p) (c_res s) (c_alive s) (c_seq s) (c_now s).
Definition ret (s : cstate) t r := mkC (c_m s) (c_mk s) (c_conds s) (c_cfree s) (c_wl s) (c_pool s) (c_w s) (c_guard s)
  (upd (c_pc s) t CIdle) (upd (c_res s) t (Some r)) (c_alive s) (c_seq s) (c_now s).
Definition set_m (s : cstate) m v := mkC (upd (c_m s) m v) (c_mk s) (c_conds s) (c_cfree s) (c_wl s) (c_pool s) (c_w s) (c_guard s)
  (c_pc s) (c_res s) (c_alive s) (c_seq s) (c_now s).
Definition set_mk (s : cstate) m := mkC (c_m s) (upd (c_mk s) m true) (c_conds s) (c_cfree s) (c_wl s) (c_pool s) (c_w s) (c_guard s)
  (c_pc s) (c_res s) (c_alive s) (c_seq s) (c_now s).
Definition set_conds (s : cstate) cs n := mkC (c_m s) (c_mk s) cs n (c_wl s) (c_pool s) (c_w s) (c_guard s)
  (c_pc s) (c_res s) (c_alive s) (c_seq s) (c_now s).
Definition set_wl (s : cstate) c l := mkC (c_m s) (c_mk s) (c_conds s) (c_cfree s) (upd (c_wl s) c l) (c_pool s) (c_w s) (c_guard s)
  (c_pc s) (c_res s) (c_alive s) (c_seq s) (c_now s).
Definition set_pool (s : cstate) l := mkC (c_m s) (c_mk s) (c_conds s) (c_cfree s) (c_wl s) l (c_w s) (c_guard s)
  (c_pc s) (c_res s) (c_alive s) (c_seq s) (c_now s).
Definition set_w (s : cstate) w r := mkC (c_m s) (c_mk s) (c_conds s) (c_cfree s) (c_wl s) (c_pool s) (upd (c_w s) w r) (c_guard s)
  (c_pc s) (c_res s) (c_alive s) (c_seq s) (c_now s).
Definition set_guard (s : cstate) g := mkC (c_m s) (c_mk s) (c_conds s) (c_cfree s) (c_wl s) (c_pool s) (c_w s) g
  (c_pc s) (c_res s) (c_alive s) (c_seq s) (c_now s).
Definition stamp (s : cstate) w := mkC (c_m s) (c_mk s) (c_conds s) (c_cfree s) (c_wl s) (c_pool s) (c_w s) (c_guard s)
  (c_pc s) (c_res s) (c_alive s) (upd (c_seq s) w (c_now s)) (c_now s + 1).

(** lib/flckbaselist.tcc:59-127: a guard whose holder has died can be taken over *)
Definition take_guard (s : cstate) t p : cstate :=
  match c_guard s with
  | None => goto (set_guard s (Some t)) t p
  | Some u => if c_alive s u then s else goto (set_guard s (Some t)) t p
  end.

Definition mem (x : Z) (l : list Z) : bool := existsb (Z.eqb x) l.
Definition cutoff (w : Z) (l : list Z) : list Z := filter (fun x => negb (x =? w)) l.

(** entry into the calls *)
Definition c_call (s : cstate) t (c : ccall) : cstate :=
  match c with
  | CLockM m k => goto (set_mk s m) t (ML m k)                       (* lib/flckshm.cc:696-722; mutex names are not exhausted *)
  | CUnlockM m => if c_mk s m then goto s t (MU m) else ret s t EINVAL   (* 680-692 *)
  | CWait c m k => if c_mk s m then goto s t (WG (mkWA c m k)) else ret s t EINVAL   (* 920-929 *)
  | CSignal c => goto s t (SG c false)
  | CBroadcast c => goto s t (SG c true)
  | CRecover => goto s t RG
  end.

(** lib/flckbaselist.tcc:370-400 *)
Definition unlock_result (s : cstate) m t : Z :=
  if (c_m s m =? 0) || (c_m s m =? t) then OK else EPERM.
Definition unlock_mutex (s : cstate) m t : cstate := if c_m s m =? t then set_m s m 0 else s.
(** lib/flckbaselist.tcc:276, 291: free or already own *)
Definition can_lock (s : cstate) m t : bool := (c_m s m =? 0) || (c_m s m =? t).

(** one step of thread [t]; [give_up]: the timeout has expired *)
Definition c_run (s : cstate) (t : Z) (give_up : bool) : cstate :=
  match c_pc s t with
  | CIdle => s
  | ML m k =>
      if can_lock s m t then ret (set_m s m t) t OK
      else match k with
           | KBlock => s
           | KTimed => if give_up then ret s t ETIMEDOUT else s
           | KTry => ret s t EBUSY
           end
  | MU m => ret (unlock_mutex s m t) t (unlock_result s m t)
  | WG a => take_guard s t (WN a)
  | WN a =>
      if mem (a_c a) (c_conds s) then goto s t (WR a)
      else match c_cfree s with
           | O => goto s t (CX ENOLCK)
           | S n => goto (set_conds s (a_c a :: c_conds s) n) t (WR a)
           end
  | WR a =>
      match c_pool s with
      | [] => goto s t (CX ENOLCK)
      | w :: rest => goto (set_pool s rest) t (WI a w)
      end
  | WI a w => goto (stamp (set_wl (set_w s w (mkW t true (a_m a))) (a_c a) (w :: c_wl s (a_c a))) w) t (WD a w)
  | WD a w => goto (set_guard s None) t (WS a w)
  | WS a w => goto (set_w s w (w_set_wait (c_w s w) true)) t (WU a w)
  | WU a w =>
      let r := unlock_result s (w_mtx (c_w s w)) t in
      goto (unlock_mutex s (w_mtx (c_w s w)) t) t (if r =? OK then WW a w else WB a w r)
  | WB a w r => goto (set_w s w (w_set_wait (c_w s w) false)) t (WJ a w r)
  | WW a w =>
      if w_wait (c_w s w)
      then match a_k a with
           | KBlock => s
           | _ => if give_up then goto s t (WL a w ETIMEDOUT) else s
           end
      else goto s t (WL a w OK)
  | WL a w r =>
      let m := w_mtx (c_w s w) in
      if can_lock s m t then goto (set_m s m t) t (WJ a w r)
      else match a_k a with
           | KBlock => s
           | KTimed => if give_up then goto s t (WJ a w (if r =? OK then ETIMEDOUT else r)) else s
           | KTry => goto s t (WJ a w (if r =? OK then EBUSY else r))
           end
  | WJ a w r => take_guard s t (WC a w r)
  | WC a w r =>
      if mem w (c_wl s (a_c a))
      then goto (set_wl s (a_c a) (cutoff w (c_wl s (a_c a)))) t (WP a w r)
      else goto s t (CX (if r =? OK then ENOLCK else r))
  | WP a w r => goto (set_pool s (w :: c_pool s)) t (CX r)
  | CX r => ret (set_guard s None) t r
  | SG c b => take_guard s t (SF c b)
  | SF c b =>
      if mem c (c_conds s) then goto s t (if b then SB c (c_wl s c) else SS c (c_wl s c) None)
      else goto s t (CX EINVAL)
  | SS c [] None => goto s t (CX OK)
  | SS c [] (Some w) => goto s t (SW c w)
  | SS c (w :: ws) last => goto s t (SS c ws (if w_wait (c_w s w) then Some w else last))
  | SW c w => goto (set_w s w (w_set_wait (c_w s w) false)) t (CX OK)
  | SB c [] => goto s t (CX OK)
  | SB c (w :: ws) => if w_wait (c_w s w) then goto s t (SU c w ws) else goto s t (SB c ws)
  | SU c w ws => goto (set_w s w (w_set_wait (c_w s w) false)) t (SB c ws)
  | RG => take_guard s t (RP (c_conds s) None)
  | RP [] _ => goto s t (CX OK)
  | RP (c :: cs) None => goto s t (RP (c :: cs) (Some (c_wl s c)))
  | RP (c :: cs) (Some []) => goto s t (RP cs None)
  | RP (c :: cs) (Some (w :: ws)) =>                 (* lib/flcklistwaiter.cc:108-129, lib/flcklistncond.cc:165-181 *)
      let s' := if negb (c_alive s (w_tid (c_w s w))) && mem w (c_wl s c)
                then set_pool (set_wl s c (cutoff w (c_wl s c))) (w :: c_pool s) else s in
      goto s' t (RP (c :: cs) (Some ws))
  end.

Inductive clabel :=
| XCall (t : Z) (c : ccall)
| XRun (t : Z) (give_up : bool)
| XDie (t : Z)
| XRecM (m : Z).           (** recovery of a mutex: lib/flcklistnmtx.cc:97-121 *)

(** only live threads with a proper identity act; 0 is no thread *)
Definition c_step (s : cstate) (x : clabel) : cstate :=
  match x with
  | XCall t c => if c_alive s t && negb (t =? 0) then match c_pc s t with CIdle => c_call s t c | _ => s end else s
  | XRun t g => if c_alive s t && negb (t =? 0) then c_run s t g else s
  | XDie t => if t =? 0 then s else
              mkC (c_m s) (c_mk s) (c_conds s) (c_cfree s) (c_wl s) (c_pool s) (c_w s) (c_guard s) (c_pc s) (c_res s)
                  (upd (c_alive s) t false) (c_seq s) (c_now s)
  | XRecM m => if c_alive s (c_m s m) then s else set_m s m 0
  end.

Inductive c_reach (s0 : cstate) (ok : cstate -> clabel -> Prop) : cstate -> Prop :=
| cr_init : c_reach s0 ok s0
| cr_step : forall s x, c_reach s0 ok s -> ok s x -> c_reach s0 ok (c_step s x).

Fixpoint c_exec (s : cstate) (ls : list clabel) : cstate :=
  match ls with [] => s | x :: r => c_exec (c_step s x) r end.
