(** Lifetime of the static objects of the library in one process: built at first use, destroyed at exit in the reverse order of
    the completion of their constructors, together with static objects of the program that use the library.
    One calling thread and the worker thread.
    Simplified: what the calls do to the shared memory is reduced to whether an object's lock is there; initialising is one step
    whose outcome is given from outside; fullock_reinitialize is not called; an object of the program has no other objects of the same thread pending below it. *)
From Coq Require Import List Bool Arith.
From Verif Require Import Base.
Import ListNotations.

(** static objects: lib/flckdbg.cc:41-81 FlckDbgCntrl, lib/flckshm.cc:97-155 FlShmHelper, lib/flckutil.cc:563-609 FlTidCache,
    lib/rwlockrcsv.cc:30-62 FLRwlRcsvHelper, and object number [i] of the program *)
Inductive sid := Debug | Helper | Tids | Stack | User (i : nat).
Definition sid_eqb (x y : sid) : bool :=
  match x, y with
  | Debug, Debug | Helper, Helper | Tids, Tids | Stack, Stack => true
  | User i, User j => Nat.eqb i j
  | _, _ => false
  end.

(** static objects of the program: a recursive lock built without locking (lib/rwlockrcsv.cc:87-89), one built locking (91-104), and
    an object whose destructor calls a lock function of the library, its constructor too or not *)
Inductive ukind := ULazy | ULock | UCalls (too : bool).

(** [c_auto]: FLCKAUTOINIT is not "no" (lib/flckshm.cc:247-250); [c_retry]: the no-map mode says to try again (650-656) *)
Record lconf := mkLC { c_auto : bool; c_retry : bool }.

Record lstate := mkL {
  l_done : list sid;             (** registered for destruction, newest first *)
  l_built : sid -> bool;         (** ever constructed *)
  l_dead : sid -> bool;          (** destroyed *)
  l_att : bool;                  (** ShmFd is open *)
  l_work : bool;                 (** the worker thread runs *)
  l_kind : nat -> ukind;         (** kind of the program's objects *)
  l_lock : nat -> bool;          (** is_locked of the program's recursive locks *)
  l_held : nat -> bool;          (** ... and its lock is in the shared memory *)
  l_exit : bool;                 (** exit() was called *)
  l_bad : bool;                  (** the calling thread has used a destroyed object *)
  l_badw : bool                  (** the worker has used a destroyed object *)
}.
Definition l_init : lstate := mkL [] (fun _ => false) (fun _ => false) false false (fun _ => ULazy) (fun _ => false) (fun _ => false) false false false.

(** outcome of a step: initialising succeeds; a worker is started (its robust mode); the lock call succeeds *)
Record oc := mkO { o_init : bool; o_worker : bool; o_res : bool }.

Definition setf (f : sid -> bool) (x : sid) (b : bool) : sid -> bool := fun y => if sid_eqb y x then b else f y.
Definition setn {A} (f : nat -> A) (i : nat) (b : A) : nat -> A := fun j => if Nat.eqb j i then b else f j.

(** a constructor ends: registered for destruction (function-local statics and namespace-scope objects alike) *)
Definition l_build (x : sid) (s : lstate) : lstate :=
  if l_built s x then s
  else mkL (x :: l_done s) (setf (l_built s) x true) (l_dead s) (l_att s) (l_work s) (l_kind s) (l_lock s) (l_held s) (l_exit s) (l_bad s) (l_badw s).
Definition l_isbad (s : lstate) : lstate :=
  mkL (l_done s) (l_built s) (l_dead s) (l_att s) (l_work s) (l_kind s) (l_lock s) (l_held s) (l_exit s) true (l_badw s).
Definition l_isbadw (s : lstate) : lstate :=
  mkL (l_done s) (l_built s) (l_dead s) (l_att s) (l_work s) (l_kind s) (l_lock s) (l_held s) (l_exit s) (l_bad s) true.
Definition l_started (att work : bool) (s : lstate) : lstate :=
  mkL (l_done s) (l_built s) (l_dead s) att work (l_kind s) (l_lock s) (l_held s) (l_exit s) (l_bad s) (l_badw s).
(** access to the object behind a function-local static: built when it never was, not built again when it is destroyed *)
Definition l_use (x : sid) (s : lstate) : lstate := if l_dead s x then l_isbad s else l_build x s.
(** a pass of the worker: lib/flckthread.cc:249-254 makes an FlShm object first, which waits until the constructor of the helper has ended
    (the lock of a function-local static); then lib/flckshm.cc:495-502 CheckProcessDead: get_flckpid, lib/flckutil.cc:616-634 *)
Definition l_pass (s : lstate) : lstate := if l_dead s Tids then l_isbadw s else l_build Tids s.

(** lib/flckshm.h:169, lib/flckshm.cc:206-216: every FlShm object makes sure that the helper exists; its constructor (106-112) runs
    InitializeObject(true): the debug environment (237-239), then - unless told not to - the attaching, which starts the worker *)
Definition l_shm (cf : lconf) (o : oc) (s : lstate) : lstate :=
  if l_built s Helper then s
  else let s1 := l_use Debug s in
       let on := c_auto cf && o_init o in
       l_build Helper (l_started on (on && o_worker o) s1).
(** CheckAttach, lib/flckshm.cc:646-658: InitializeShm takes the path from the helper (lib/flckshminit.cc:118-130), which is a null
    pointer once the helper is gone (lib/flckshm.cc:113-119, 148-154) *)
Definition l_attach (cf : lconf) (o : oc) (s : lstate) : lstate :=
  if l_att s then s
  else if c_retry cf then if l_dead s Helper then l_isbad s else l_started (o_init o) (o_init o && o_worker o) s
  else s.
(** any lock function, e.g. lib/flckshm.cc:660-673: get_flckpid only when attached *)
Definition l_call (cf : lconf) (o : oc) (s : lstate) : lstate :=
  let s1 := l_attach cf o (l_shm cf o s) in if l_att s1 then l_use Tids s1 else s1.

Definition l_setlock (i : nat) (b : bool) (s : lstate) : lstate :=
  mkL (l_done s) (l_built s) (l_dead s) (l_att s) (l_work s) (l_kind s) (setn (l_lock s) i b) (setn (l_held s) i (b && l_att s)) (l_exit s) (l_bad s) (l_badw s).
(** RawReadLock and RawWriteLock, lib/rwlockrcsv.cc:252-340, 342-455: FlShm object, stack of the thread, lock call *)
Definition l_rlock (cf : lconf) (o : oc) (i : nat) (s : lstate) : lstate :=
  if l_lock s i then s
  else let s1 := l_call cf o (l_use Stack (l_shm cf o s)) in l_setlock i (o_res o) s1.
(** RawUnlock, lib/rwlockrcsv.cc:150-250: the FlShm object comes first, the stack only when locked; what is not attached stays in
    the shared memory *)
Definition l_runlock (cf : lconf) (o : oc) (i : nat) (s : lstate) : lstate :=
  let s1 := l_shm cf o s in
  if negb (l_lock s1 i) then s1
  else let s2 := l_call cf o (l_use Stack s1) in
       mkL (l_done s2) (l_built s2) (l_dead s2) (l_att s2) (l_work s2) (l_kind s2) (setn (l_lock s2) i false)
           (if l_att s2 then setn (l_held s2) i false else l_held s2) (l_exit s2) (l_bad s2) (l_badw s2).

Definition l_setkind (i : nat) (k : ukind) (s : lstate) : lstate :=
  mkL (l_done s) (l_built s) (l_dead s) (l_att s) (l_work s) (setn (l_kind s) i k) (l_lock s) (l_held s) (l_exit s) (l_bad s) (l_badw s).
(** the constructor of the program's object; lib/rwlockrcsv.cc:87-104: both constructors ask for the thread number first *)
Definition l_new (cf : lconf) (o : oc) (i : nat) (k : ukind) (s : lstate) : lstate :=
  let s1 := l_setkind i k s in
  let s2 := match k with
            | ULazy => l_use Tids s1
            | ULock => l_rlock cf o i (l_use Tids s1)
            | UCalls true => l_call cf o s1
            | UCalls false => s1
            end in
  l_build (User i) s2.

Definition l_kill (x : sid) (s : lstate) : lstate :=
  mkL (tl (l_done s)) (l_built s) (setf (l_dead s) x true) (l_att s) (l_work s) (l_kind s) (l_lock s) (l_held s) (l_exit s) (l_bad s) (l_badw s).
(** the next destructor: ~FlShmHelper (lib/flckshm.cc:113-119, lib/flckshminit.cc:376-396: the worker ends, detached), ~FlTidCache,
    ~FlckDbgCntrl, ~FLRwlRcsvHelper (nothing of the library used), ~FLRwlRcsv (lib/rwlockrcsv.cc:106-114) *)
Definition l_pop (cf : lconf) (o : oc) (s : lstate) : lstate :=
  match l_done s with
  | [] => s
  | Helper :: _ => l_started false false (l_kill Helper s)
  | User i :: _ =>
      let s1 := l_kill (User i) s in
      match l_kind s i with ULazy | ULock => l_runlock cf o i s1 | UCalls _ => l_call cf o s1 end
  | x :: _ => l_kill x s
  end.

Inductive llabel :=
| LDebug                                  (** a function of flckdbg.h *)
| LNull                                   (** a lock function with a null name: only the FlShm object, lib/flckshm.cc:661-665 *)
| LCall                                   (** a lock function *)
| LNew (i : nat) (k : ukind)              (** a static object of the program *)
| LLock (i : nat) | LUnlock (i : nat)     (** on one of its recursive locks *)
| LWorker                                 (** the worker makes a pass *)
| LExit | LPop.                           (** exit() and the next destructor *)

Definition l_step (cf : lconf) (s : lstate) (x : llabel * oc) : lstate :=
  let o := snd x in
  match fst x with
  | LDebug => if l_exit s then s else l_use Debug s
  | LNull => if l_exit s then s else l_shm cf o s
  | LCall => if l_exit s then s else l_call cf o s
  | LNew i k => if l_exit s || l_built s (User i) then s else l_new cf o i k s
  | LLock i => if l_exit s then s
               else match l_kind s i, l_built s (User i) with ULazy, true | ULock, true => l_rlock cf o i s | _, _ => s end
  | LUnlock i => if l_exit s then s
                 else match l_kind s i, l_built s (User i) with ULazy, true | ULock, true => l_runlock cf o i s | _, _ => s end
  | LWorker => if l_work s then l_pass s else s
  | LExit => mkL (l_done s) (l_built s) (l_dead s) (l_att s) (l_work s) (l_kind s) (l_lock s) (l_held s) true (l_bad s) (l_badw s)
  | LPop => if l_exit s then l_pop cf o s else s
  end.

Inductive l_reach (cf : lconf) (ok : lstate -> llabel * oc -> Prop) : lstate -> Prop :=
| lr_init : l_reach cf ok l_init
| lr_step : forall s x, l_reach cf ok s -> ok s x -> l_reach cf ok (l_step cf s x).
Definition l_exec (cf : lconf) (ls : list (llabel * oc)) : lstate := fold_left (l_step cf) ls l_init.
