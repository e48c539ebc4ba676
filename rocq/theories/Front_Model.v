(** The calls of the API with the values as the program passes them: names that may be NULL, timeouts of any sign. *)
From Coq Require Import ZArith List Bool Lia.
From Verif Require Import Base Name_Model Time_Model.
Import ListNotations.
Open Scope Z_scope.

(** lib/flcklocktype.h:24-25 *)
Definition FLCK_NO_TIMEOUT : Z := -1.
Definition FLCK_TRY_TIMEOUT : Z := 0.

(** [None] is the null pointer *)
Definition cname := option cstring.
Inductive rwkind := KRead | KWrite.
(** lib/fullock.cc:136-229; the rwlock_islocked call takes neither name nor timeout and is left out *)
Inductive api :=
| fullock_mutex_lock (n : cname) | fullock_mutex_trylock (n : cname) | fullock_mutex_timedlock (n : cname) (usec : Z) | fullock_mutex_unlock (n : cname)
| fullock_rwlock_rdlock (fd off len : Z) | fullock_rwlock_tryrdlock (fd off len : Z) | fullock_rwlock_timedrdlock (fd off len usec : Z)
| fullock_rwlock_wrlock (fd off len : Z) | fullock_rwlock_trywrlock (fd off len : Z) | fullock_rwlock_timedwrlock (fd off len usec : Z)
| fullock_rwlock_unlock (fd off len : Z)
| fullock_cond_wait (c m : cname) | fullock_cond_timedwait (c m : cname) (usec : Z) | fullock_cond_signal (c : cname) | fullock_cond_broadcast (c : cname).

(** what is asked of the shared memory *)
Inductive request :=
| QMutexLock (k : nameent) (usec : Z) | QMutexUnlock (k : nameent)
| QRwLock (r : rwkind) (fd off len usec : Z) | QRwUnlock (fd off len : Z)
| QWait (c m : nameent) (usec : Z) | QUp (c : nameent) (broadcast : bool).

(** lib/flckutil.h:39-42 FLCKEMPTYSTR in lib/flcklistnmtx.h:50-88 and lib/flcklistncond.h:49-88: the null pointer counts as empty *)
Definition key_of_ptr (n : cname) : nameent := match n with Some s => key_of s | None => key_of [] end.

(** lib/flckshm.cc:661-672, 731-737, 873-883: checks before the shared memory is touched.  [attached]: the answer of CheckAttach;
    [allow]: the mode without mapping is one of the two that allow *)
Definition no_mapping (allow : bool) : Z := if allow then 0 else ENOLCK.
Definition raw_mutex (attached allow : bool) (n : cname) (q : nameent -> request) : Z + request :=
  match n with
  | None => inl EINVAL
  | Some _ => if attached then inr (q (key_of_ptr n)) else inl (no_mapping allow)
  end.
Definition raw_rw (attached allow : bool) (q : request) : Z + request := if attached then inr q else inl (no_mapping allow).
Definition raw_cond (attached allow : bool) (c : cname) (q : nameent -> request) : Z + request :=
  match c with
  | None => inl EINVAL
  | Some _ => if attached then inr (q (key_of_ptr c)) else inl (no_mapping allow)
  end.

(** lib/fullock.cc:136-229 with lib/flckshm.cc:974-1047 *)
Definition front (attached allow : bool) (a : api) : Z + request :=
  match a with
  | fullock_mutex_lock n => raw_mutex attached allow n (fun k => QMutexLock k FLCK_NO_TIMEOUT)
  | fullock_mutex_trylock n => raw_mutex attached allow n (fun k => QMutexLock k FLCK_TRY_TIMEOUT)
  | fullock_mutex_timedlock n usec => raw_mutex attached allow n (fun k => QMutexLock k usec)
  | fullock_mutex_unlock n => raw_mutex attached allow n QMutexUnlock
  | fullock_rwlock_rdlock fd off len => raw_rw attached allow (QRwLock KRead fd off len FLCK_NO_TIMEOUT)
  | fullock_rwlock_tryrdlock fd off len => raw_rw attached allow (QRwLock KRead fd off len FLCK_TRY_TIMEOUT)
  | fullock_rwlock_timedrdlock fd off len usec => raw_rw attached allow (QRwLock KRead fd off len usec)
  | fullock_rwlock_wrlock fd off len => raw_rw attached allow (QRwLock KWrite fd off len FLCK_NO_TIMEOUT)
  | fullock_rwlock_trywrlock fd off len => raw_rw attached allow (QRwLock KWrite fd off len FLCK_TRY_TIMEOUT)
  | fullock_rwlock_timedwrlock fd off len usec => raw_rw attached allow (QRwLock KWrite fd off len usec)
  | fullock_rwlock_unlock fd off len => raw_rw attached allow (QRwUnlock fd off len)
  | fullock_cond_wait c m => raw_cond attached allow c (fun k => QWait k (key_of_ptr m) FLCK_NO_TIMEOUT)
  | fullock_cond_timedwait c m usec => raw_cond attached allow c (fun k => QWait k (key_of_ptr m) usec)
  | fullock_cond_signal c => raw_cond attached allow c (fun k => QUp k false)
  | fullock_cond_broadcast c => raw_cond attached allow c (fun k => QUp k true)
  end.

(** ** The waiting part.
    An observation is one turn of a loop: did the attempt succeed, and the clock read after a failed attempt
    ([None]: clock_gettime failed).  [None] as a result: still waiting after all turns. *)
Definition turn := (bool * option timespec)%type.

(** lib/flckbaselist.tcc:142-160, 206-217, 261-299, 413-420 called in a loop by lib/flcklistnmtx.cc:66-90 and
    lib/flcklistofflock.cc:172-230: giving up after the robust count leads to another round *)
Fixpoint block_loop (obs : list turn) : option Z :=
  match obs with [] => None | (true, _) :: _ => Some OK | (false, _) :: r => block_loop r end.
(** one attempt, lib/flckbaselist.tcc:162-173, 219-225, 301-326 *)
Definition try_once (obs : list turn) : option Z :=
  match obs with [] => None | (true, _) :: _ => Some OK | (false, _) :: _ => Some EBUSY end.
(** lib/flckbaselist.tcc:177-180, 229-232, 330-333, 427-430: the clock at the start may fail *)
Definition timed (start : option timespec) (usec : Z) (obs : list turn) : option Z :=
  match start with None => Some EBUSY | Some s => timed_loop s (limit_of_usec usec) obs end.

(** lib/flcklistnmtx.cc:67-74 and lib/flcklistofflock.cc:174-192 *)
Definition lock_run (usec : Z) (start : option timespec) (obs : list turn) : option Z :=
  if usec =? FLCK_NO_TIMEOUT then block_loop obs
  else if usec =? FLCK_TRY_TIMEOUT then try_once obs
  else timed start usec obs.
(** lib/flcklistwaiter.cc:87-104: wait for the signal, then lock the mutex again with the same timeout.
    [start2], [obs2] are the clock and the turns of the second part *)
Definition wait_run (usec : Z) (start : option timespec) (obs : list turn) (start2 : option timespec) (obs2 : list turn) : option Z :=
  match (if usec =? FLCK_NO_TIMEOUT then block_loop obs else timed start usec obs) with
  | None => None
  | Some r => match lock_run usec start2 obs2 with
              | None => None
              | Some e => Some (if e =? 0 then r else if r =? 0 then e else r)
              end
  end.
