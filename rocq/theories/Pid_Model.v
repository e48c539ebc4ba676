(** Owner identities: packing of (pid, tid) into one 64-bit word, the thread-id cache and fork. *)
From Coq Require Import ZArith List Bool Lia.
From Verif Require Import Base.
Import ListNotations.
Open Scope Z_scope.

(** lib/flckutil.h:175-178 [compose_flckpid]: [(flckpid_t(pid) << 32) | (flckpid_t(tid) & 0xFFFFFFFF)];
    the casts sign-extend the 32-bit ids to 64 bits, the shift drops the upper half. *)
Definition compose_flckpid (pid tid : Z) : Z :=
  Z.lor (u64 (Z.shiftl (u64 pid) 32)) (Z.land (u64 tid) 4294967295).

(** lib/flckutil.h:186-189 [decompose_pid] *)
Definition decompose_pid (v : Z) : Z := s32 (Z.land (Z.shiftr v 32) 4294967295).

(** lib/flckutil.h:191-194 [decompose_tid] *)
Definition decompose_tid (v : Z) : Z := s32 (Z.land v 4294967295).

(** ** Identity of a running thread: [get_threadid] caches the tid in thread-local storage.

    A (user level) thread of the system: its process id, its kernel thread id, and the content of
    the thread-local cache of lib/flckutil.cc:616-634 (0 = not yet cached). *)
Record uthread := mkT { t_pid : Z; t_tid : Z; t_cache : Z }.

(** lib/flckutil.cc:616-634 [get_threadid]: the cached value when present, otherwise gettid() which
    is then stored in the thread-specific slot. Simplified: allocation of the slot never fails. *)
Definition get_threadid (t : uthread) : Z * uthread :=
  if t_cache t =? 0 then (t_tid t, mkT (t_pid t) (t_tid t) (t_tid t))
  else (t_cache t, t).

(** lib/flckutil.h:170-173 [get_flckpid]: getpid() is asked every time, the tid comes from the cache *)
Definition get_flckpid (t : uthread) : Z * uthread :=
  let (tid, t') := get_threadid t in (compose_flckpid (t_pid t) tid, t').

(** fork(2): the child has one thread; it inherits a copy of the calling thread's thread-local
    storage; its kernel thread id equals the new process id. *)
Definition fork_child (t : uthread) (newpid : Z) : uthread := mkT newpid newpid (t_cache t).

(** lib/flckutil.cc:244-266 [FindThreadProcess]: existence of /proc/<pid>/task/<tid>.
    The set of existing threads of the system is given as a list of (pid,tid). *)
Definition FindThreadProcess (alive : list (Z * Z)) (pid tid : Z) : bool :=
  existsb (fun p => (fst p =? pid) && (snd p =? tid)) alive.

(** System of user threads: the history of calls that matter for the identity. *)
Inductive pid_event :=
| EvQuery (i : nat)               (** thread [i] calls any lock function, i.e. [get_flckpid] *)
| EvFork (i : nat) (newpid : Z).  (** thread [i] forks; the child becomes a new list entry *)

Fixpoint replace_nth {A} (n : nat) (x : A) (l : list A) : list A :=
  match l, n with
  | [], _ => []
  | _ :: r, O => x :: r
  | a :: r, S m => a :: replace_nth m x r
  end.

Definition pid_step (sys : list uthread) (e : pid_event) : list uthread :=
  match e with
  | EvQuery i => match nth_error sys i with
                 | Some t => replace_nth i (snd (get_flckpid t)) sys
                 | None => sys
                 end
  | EvFork i np => match nth_error sys i with
                   | Some t => sys ++ [fork_child t np]
                   | None => sys
                   end
  end.

Definition pid_run (sys : list uthread) (h : list pid_event) : list uthread := fold_left pid_step h sys.

(** The threads that exist according to /proc. *)
Definition proc_of (sys : list uthread) : list (Z * Z) := map (fun t => (t_pid t, t_tid t)) sys.
