(** Timeouts: timespec arithmetic and the skeleton of the timed lock/wait loops. *)
From Coq Require Import ZArith List Bool Lia.
From Verif Require Import Base.
Import ListNotations.
Open Scope Z_scope.

Record timespec := mkTS { tv_sec : Z; tv_nsec : Z }.

(** lib/flckutil.h:199-213 [SUB_TIMESPEC]. Note the two decrements of the seconds when borrowing. *)
Definition SUB_TIMESPEC (start end_ : timespec) : timespec :=
  if tv_nsec end_ <? tv_nsec start then
    if tv_sec end_ <? 1 then mkTS 0 0
    else mkTS (tv_sec end_ - 1 - tv_sec start - 1)
              (tv_nsec end_ + 1000 * 1000 * 1000 - tv_nsec start)
  else mkTS (tv_sec end_ - tv_sec start) (tv_nsec end_ - tv_nsec start).

(** lib/flckutil.h:215-230 [IS_OVER_TIMESPEC] *)
Definition IS_OVER_TIMESPEC (start end_ limit : timespec) : bool :=
  let sub := SUB_TIMESPEC start end_ in
  if tv_sec sub <? tv_sec limit then false
  else if tv_sec limit <? tv_sec sub then true
  else if tv_nsec sub <? tv_nsec limit then false
  else true.

(** Conversion of the API timeout (microseconds) done by the callers:
    lib/flcklistnmtx.cc:72, lib/flcklistofflock.cc:180 and 189, lib/flcklistwaiter.cc:90.
    C division truncates towards zero. *)
Definition limit_of_usec (usec : Z) : timespec :=
  mkTS (Z.quot usec (1000 * 1000)) (Z.rem usec (1000 * 1000) * 1000).

(** The common skeleton of lib/flckbaselist.tcc:175-204 [fl_timedrdlock_rwlock],
    227-244 [fl_timedwrlock_rwlock], 328-368 [fl_timedlock_mutex] and 425-442 [fl_timedwait_cond]:
    attempt; on failure read the clock; clock error => EBUSY; expired => ETIMEDOUT; else again.
    One observation = (did the attempt succeed, result of clock_gettime).
    [None] = still waiting after all given observations. *)
Fixpoint timed_loop (start limit : timespec) (obs : list (bool * option timespec)) : option Z :=
  match obs with
  | [] => None
  | (true, _) :: _ => Some OK
  | (false, None) :: _ => Some EBUSY
  | (false, Some now) :: r =>
      if IS_OVER_TIMESPEC start now limit then Some ETIMEDOUT else timed_loop start limit r
  end.
