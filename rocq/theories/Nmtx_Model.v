(** Named mutexes as programs use them: names, the registry of entries under its guard, and on every entry
    the mutex of Mutex_Model.v.  Any number of threads, names and entries; threads may die at any step.
    One step is one access of Mutex_Model.v, one list operation under the guard, or taking or releasing
    the guard. *)
From Coq Require Import ZArith List Bool Lia.
From Verif Require Import Base Name_Model Mutex_Model.
Import ListNotations.
Open Scope Z_scope.

(** calls; a name is a C string or NULL (None) *)
Inductive ncall :=
| NLock (name : option cstring) (k : mkind)   (** fullock_mutex_lock / trylock / timedlock, lib/flckshm.cc:661-729, 974-987 *)
| NUnlock (name : option cstring)             (** fullock_mutex_unlock, lib/flckshm.cc:661-692, 989-992 *)
| NWaitUnlock (name : option cstring)         (** fullock_cond_(timed)wait up to the release of the mutex:
                                                  lib/flckshm.cc:920-931, lib/flcklistwaiter.cc:78; the
                                                  lock at its end (92) is a call NLock on the same name *)
| NRecover.                                   (** CheckMutexDeadLock of the worker's pass, lib/flckshm.cc:505-507 *)

(** the mutex call behind a named call *)
Definition mcall_of (c : ncall) : mcall :=
  match c with NLock _ k => CLock k | NUnlock _ => CUnlock | NWaitUnlock _ => CWaitUnlock | NRecover => CRecover end.
Definition name_of (c : ncall) : option cstring :=
  match c with NLock n _ | NUnlock n | NWaitUnlock n => n | NRecover => None end.
(** lib/flcklistnmtx.h:75-87 [find], 50-70 [initialize]: NULL is treated like the empty string *)
Definition str_of (n : option cstring) : cstring := match n with Some s => s | None => [] end.
Definition ckey (c : ncall) : nameent := key_of (str_of (name_of c)).

Inductive npc :=
| NIdle
| NWait (p : npc)                        (** lib/flckshm.cc:676, 579, 920: wait for named_mutex_lockid, continue at p *)
| NFind (c : ncall)                      (** 681, 698-700, 923: walk named_mutex_list; for a lock of an
                                             unknown name take an entry of named_mutex_free *)
| NInit (c : ncall) (e : Z)              (** 706: initialize(pname) *)
| NIns (c : ncall) (e : Z)               (** 709: insert_list(named_mutex_list) *)
| NRelOp (c : ncall) (e : Z)             (** 719, 929: release the guard, then the mutex call on e *)
| NRelRet (r : Z)                        (** 684, 702, 926: release the guard and return r *)
| NOp (c : ncall) (e : Z) (p : mpc)      (** inside the mutex functions on entry e *)
(* recovery pass, lib/flckshm.cc:567-593; [w] = the blocking lock call (and its entry) that runs it *)
| NPEnter (w : option (ncall * Z))       (** 572: load named_mutex_list, outside the guard *)
| NPStart (w : option (ncall * Z))       (** 584: first entry *)
| NPass (w : option (ncall * Z)) (es : list Z)
| NPAt (w : option (ncall * Z)) (es : list Z) (e : Z) (p : mpc)   (** lib/flcklistnmtx.cc:97-121 on entry e *)
| NPRel (w : option (ncall * Z)).        (** 590 *)

Record nstate := mkNS {
  n_list : list Z;                  (** named_mutex_list: entries, first to last *)
  n_free : list Z;                  (** named_mutex_free *)
  n_key : Z -> nameent;
  n_val : Z -> Z;                   (** lockval of each entry *)
  n_cnt : Z -> Z;                   (** lockcnt of each entry *)
  n_guard : Z;                      (** named_mutex_lockid *)
  n_alive : Z -> bool;
  n_pc : Z -> npc;
  n_res : Z -> option Z             (** result of the last finished call *)
}.

(** the memory after InitializeShm: all entries free, whatever they contain (lib/flckshminit.cc:115-229) *)
Definition n_init (U : list Z) (key : Z -> nameent) (val cnt : Z -> Z) : nstate :=
  mkNS [] U key val cnt 0 (fun _ => true) (fun _ => NIdle) (fun _ => None).

Definition n_goto (s : nstate) (t : Z) (p : npc) : nstate :=
  mkNS (n_list s) (n_free s) (n_key s) (n_val s) (n_cnt s) (n_guard s) (n_alive s) (upd (n_pc s) t p) (n_res s).
Definition n_return (s : nstate) (t r : Z) : nstate :=
  mkNS (n_list s) (n_free s) (n_key s) (n_val s) (n_cnt s) (n_guard s) (n_alive s) (upd (n_pc s) t NIdle)
       (upd (n_res s) t (Some r)).
Definition n_set_guard (s : nstate) (g : Z) : nstate :=
  mkNS (n_list s) (n_free s) (n_key s) (n_val s) (n_cnt s) g (n_alive s) (n_pc s) (n_res s).
Definition n_set_lists (s : nstate) (l f : list Z) : nstate :=
  mkNS l f (n_key s) (n_val s) (n_cnt s) (n_guard s) (n_alive s) (n_pc s) (n_res s).
Definition n_set_ent (s : nstate) (e : Z) (k : nameent) (v c : Z) : nstate :=
  mkNS (n_list s) (n_free s) (upd (n_key s) e k) (upd (n_val s) e v) (upd (n_cnt s) e c) (n_guard s)
       (n_alive s) (n_pc s) (n_res s).
Definition n_drop_guard (s : nstate) (t : Z) : nstate := if n_guard s =? t then n_set_guard s 0 else s.

(** lib/flckbaselist.tcc:664-680 [find]: the first entry that compares equal *)
Definition n_find (s : nstate) (k : nameent) : option Z :=
  List.find (fun e => compare_name (n_key s e) k =? 0) (n_list s).

Definition n_call (s : nstate) (t : Z) (c : ncall) : nstate :=
  match n_pc s t with
  | NIdle => match c with
             | NLock None _ | NUnlock None => n_return s t EINVAL       (* lib/flckshm.cc:663-666 *)
             | NRecover => n_goto s t (NPEnter None)
             | _ => n_goto s t (NWait (NFind c))
             end
  | _ => s
  end.

(** entry [e] and thread [t] (at point [p]) as Mutex_Model.v sees them *)
Definition n_view (s : nstate) (e t : Z) (p : mpc) : mstate :=
  mkMS (n_val s e) (n_cnt s e) (n_guard s) (n_alive s) (upd (fun _ => MIdle) t p) (fun _ => false) (fun _ => 0) (fun _ => None).
(** the memory after a step of Mutex_Model.v on entry [e] *)
Definition n_back (s : nstate) (e : Z) (m : mstate) : nstate :=
  mkNS (n_list s) (n_free s) (n_key s) (upd (n_val s) e (m_val m)) (upd (n_cnt s) e (m_cnt m)) (m_guard m)
       (n_alive s) (n_pc s) (n_res s).

(** where the check of entry [e] starts; the pass of a waiting call on [e] itself resumes that call *)
Definition n_start (w : option (ncall * Z)) (e : Z) : mpc :=
  MK0 (match w with Some (_, x) => if x =? e then Some MBlock else None | None => None end).

Definition n_run (s : nstate) (t : Z) (b : bool) : nstate :=
  match n_pc s t with
  | NIdle => s
  | NWait p => if (n_guard s =? 0) || (n_guard s =? t) || negb (n_alive s (n_guard s))
               then n_goto (n_set_guard s t) t p else s                       (* Guard_Model, C32, C33 *)
  | NFind c =>
      match n_find s (ckey c) with
      | Some e => match c with
                  | NUnlock _ => n_goto s t (NOp c e (MU0 true))              (* 689: the guard stays locked *)
                  | _ => n_goto s t (NRelOp c e)
                  end
      | None => match c with
                | NLock _ _ => match n_free s with
                               | [] => n_goto s t (NRelRet ENOLCK)
                               | e :: fr => n_goto (n_set_lists s (n_list s) fr) t (NInit c e)
                               end
                | _ => n_goto s t (NRelRet EINVAL)
                end
      end
  | NInit c e => n_goto (n_set_ent s e (ckey c) 0 0) t (NIns c e)
  | NIns c e => n_goto (n_set_lists s (e :: n_list s) (n_free s)) t (NRelOp c e)
  | NRelOp c e => n_goto (n_drop_guard s t) t
                    (NOp c e (match c with NLock _ k => MRead k | _ => MU0 false end))
  | NRelRet r => n_return (n_drop_guard s t) t r
  | NOp c e p =>
      let m := m_run (n_view s e t p) t b in
      match m_pc m t with
      | MIdle => n_return (n_back s e m) t (match m_res m t with Some r => r | None => OK end)
      | MKGuard _ => n_goto (n_back s e m) t (NPEnter (Some (c, e)))          (* lib/flcklistnmtx.cc:84 *)
      | p' => n_goto (n_back s e m) t (NOp c e p')
      end
  | NPEnter w => match n_list s with
                 | [] => match w with
                         | None => n_return s t OK
                         | Some (c, e) => n_goto s t (NOp c e (MRead MBlock))
                         end
                 | _ => n_goto s t (NWait (NPStart w))
                 end
  | NPStart w => n_goto s t (NPass w (n_list s))
  | NPass w [] => n_goto s t (NPRel w)
  | NPass w (e :: es) => n_goto s t (NPAt w es e (n_start w e))
  | NPAt w es e p =>
      let m := m_run (n_view s e t p) t b in
      match m_pc m t with
      | MKRel _ => n_goto (n_back s e m) t (NPass w es)
      | p' => n_goto (n_back s e m) t (NPAt w es e p')
      end
  | NPRel w => match w with
               | None => n_return (n_drop_guard s t) t OK
               | Some (c, e) => n_goto (n_drop_guard s t) t (NOp c e (MRead MBlock))
               end
  end.

Inductive nlabel :=
| NCall (t : Z) (c : ncall)
| NRun (t : Z) (b : bool)
| NDie (t : Z).

Definition n_step (s : nstate) (l : nlabel) : nstate :=
  match l with
  | NCall t c => n_call s t c
  | NRun t b => n_run s t b
  | NDie t => mkNS (n_list s) (n_free s) (n_key s) (n_val s) (n_cnt s) (n_guard s) (upd (n_alive s) t false) (n_pc s) (n_res s)
  end.

Definition n_enabled (s : nstate) (l : nlabel) : Prop :=
  match l with
  | NCall t _ | NRun t _ => t <> 0 /\ n_alive s t = true
  | NDie t => t <> 0
  end.

(** ** Schedule conditions *)
(** names are C strings *)
Definition proper_name (c : ncall) : Prop :=
  match c with NLock (Some n) _ | NUnlock (Some n) | NWaitUnlock (Some n) => is_cstring n | _ => True end.
Definition n_any (s : nstate) (l : nlabel) : Prop := match l with NCall _ c => proper_name c | _ => True end.
(** nobody releases a mutex in a condition wait *)
Definition n_no_wait (s : nstate) (l : nlabel) : Prop :=
  n_any s l /\ match l with NCall _ (NWaitUnlock _) => False | _ => True end.
(** no thread dies between the instant a running pass has read it as owner of a mutex and the instant the
    pass looks it up, unless it still owns that mutex then *)
Definition n_no_exit_in_window (s : nstate) (l : nlabel) : Prop :=
  n_any s l /\
  match l with
  | NDie v => forall t w es e ret, n_alive s t = true -> n_pc s t = NPAt w es e (MK1 ret v) -> n_val s e = v
  | _ => True
  end.
Inductive sched := AnyTime | NoExitInWindow | NoWait.
Definition n_ok (d : sched) : nstate -> nlabel -> Prop :=
  match d with AnyTime => n_any | NoExitInWindow => n_no_exit_in_window | NoWait => n_no_wait end.

(** states reached, and what programs have seen on the way *)
Inductive nevent :=
| VCall (t : Z) (c : ncall)
| VRet (t r : Z)
| VDie (t : Z).
Definition n_events (s : nstate) (l : nlabel) : list nevent :=
  match l with
  | NCall t c => match n_pc s t with
                 | NIdle => VCall t c :: match n_pc (n_call s t c) t, n_res (n_call s t c) t with NIdle, Some r => [VRet t r] | _, _ => [] end
                 | _ => []
                 end
  | NRun t b => match n_pc s t, n_pc (n_run s t b) t, n_res (n_run s t b) t with
                | NIdle, _, _ => []
                | _, NIdle, Some r => [VRet t r]
                | _, _, _ => []
                end
  | NDie t => [VDie t]
  end.
Inductive n_history (s0 : nstate) (ok : nstate -> nlabel -> Prop) : nstate -> list nevent -> Prop :=
| nh_init : n_history s0 ok s0 []
| nh_step : forall s l h, n_history s0 ok s h -> n_enabled s l -> ok s l -> n_history s0 ok (n_step s l) (h ++ n_events s l).
