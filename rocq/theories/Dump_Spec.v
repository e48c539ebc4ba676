(** How a dump is read, and what it should show. *)
From Coq Require Import ZArith List Bool Lia.
From Verif Require Import Base List_Model List_Spec Dump_Model.
Import ListNotations.
Open Scope Z_scope.

(** The lines between the title of a section and the first closing brace at the left margin. *)
Definition section_eqb (a b : section_name) : bool :=
  match a, b with
  | SFile, SFile | SMtx, SMtx | SCond, SCond | SFileFree, SFileFree | SOffFree, SOffFree
  | SLockerFree, SLockerFree | SMtxFree, SMtxFree | SCondFree, SCondFree | SWaiterFree, SWaiterFree => true
  | _, _ => false
  end.
Fixpoint until_brace (ls : list (Z * text)) : list (Z * text) :=
  match ls with
  | [] => []
  | (0, TEnd) :: _ => []
  | x :: r => x :: until_brace r
  end.
Fixpoint sec (s : section_name) (ls : list (Z * text)) : list (Z * text) :=
  match ls with
  | [] => []
  | (0, TSection s') :: r => if section_eqb s s' then until_brace r else sec s r
  | _ :: r => sec s r
  end.

(** the addresses of the entries of kind k that are shown with indentation n, in order *)
Definition kind_eqb (a b : kind) : bool :=
  match a, b with
  | KFile, KFile | KOff, KOff | KLocker, KLocker | KMtx, KMtx | KCond, KCond | KWaiter, KWaiter => true
  | _, _ => false
  end.
Fixpoint shown (k : kind) (n : Z) (ls : list (Z * text)) : list Z :=
  match ls with
  | [] => []
  | (i, TOpen k' p) :: r => if (i =? n) && kind_eqb k k' then p :: shown k n r else shown k n r
  | _ :: r => shown k n r
  end.

(** What is in the shared memory: the entries of every list (file offsets), lists inside entries included. *)
Record shape := {
  s_files : list Z; s_mtxs : list Z; s_conds : list Z;                     (* in use *)
  s_offs : Z -> list Z; s_readers : Z -> list Z; s_writers : Z -> list Z; s_waiters : Z -> list Z;
  s_file_free : list Z; s_off_free : list Z; s_locker_free : list Z;
  s_mtx_free : list Z; s_cond_free : list Z; s_waiter_free : list Z }.

(** the head cell [top] leads to exactly the entries l *)
Definition leads (m : mem) (top : Z) (l : list Z) : Prop := chain 0 m (m top) l.

(** The memory has that shape.  Cells: lib/flckstructure.h:49-145 for a 64-bit build. *)
Definition has_shape (m : mem) (h : shape) : Prop :=
  leads m 48 (s_files h) /\ leads m 64 (s_mtxs h) /\ leads m 80 (s_conds h) /\
  leads m 88 (s_file_free h) /\ leads m 96 (s_off_free h) /\ leads m 104 (s_locker_free h) /\
  leads m 112 (s_mtx_free h) /\ leads m 120 (s_cond_free h) /\ leads m 128 (s_waiter_free h) /\
  (forall f, In f (s_files h ++ s_file_free h) -> leads m (f + 24) (s_offs h f) /\
     (forall o, In o (s_offs h f) -> leads m (o + 32) (s_readers h o) /\ leads m (o + 40) (s_writers h o))) /\
  (forall o, In o (s_off_free h) -> leads m (o + 32) (s_readers h o) /\ leads m (o + 40) (s_writers h o)) /\
  (forall c, In c (s_conds h ++ s_cond_free h) -> leads m (c + 8) (s_waiters h c)).

(** the number of entries of the longest list *)
Definition long (h : shape) (n : nat) : Prop :=
  (length (s_files h) < n /\ length (s_mtxs h) < n /\ length (s_conds h) < n /\
   length (s_file_free h) < n /\ length (s_off_free h) < n /\ length (s_locker_free h) < n /\
   length (s_mtx_free h) < n /\ length (s_cond_free h) < n /\ length (s_waiter_free h) < n)%nat /\
  (forall f, (length (s_offs h f) < n)%nat) /\
  (forall o, (length (s_readers h o) < n)%nat) /\ (forall o, (length (s_writers h o) < n)%nat) /\
  (forall c, (length (s_waiters h c) < n)%nat).

(** the entries l appear as addresses in the process that has the file mapped at base *)
Definition mapped (base : Z) (l : list Z) : list Z := map (fun r => r + base) l.

(** C121: every file, mutex and condition variable in use is shown, in the order of its list *)
Definition shows_all (base : Z) (h : shape) (out : list (Z * text)) : Prop :=
  shown KFile 1 (sec SFile out) = mapped base (s_files h) /\
  shown KMtx 1 (sec SMtx out) = mapped base (s_mtxs h) /\
  shown KCond 1 (sec SCond out) = mapped base (s_conds h).

(** every entry of every free list is shown, in order *)
Definition shows_free (base : Z) (h : shape) (out : list (Z * text)) : Prop :=
  shown KFile 1 (sec SFileFree out) = mapped base (s_file_free h) /\
  shown KOff 1 (sec SOffFree out) = mapped base (s_off_free h) /\
  shown KLocker 1 (sec SLockerFree out) = mapped base (s_locker_free h) /\
  shown KMtx 1 (sec SMtxFree out) = mapped base (s_mtx_free h) /\
  shown KCond 1 (sec SCondFree out) = mapped base (s_cond_free h) /\
  shown KWaiter 1 (sec SWaiterFree out) = mapped base (s_waiter_free h).

(** what is shown in use: the first entries only, with all they contain: the ranges of the file, the lockers
    of the ranges, the waiters of the condition variable *)
Definition first_of (l : list Z) : list Z := match l with [] => [] | x :: _ => [x] end.
Definition shows_first (base : Z) (h : shape) (out : list (Z * text)) : Prop :=
  shown KFile 1 (sec SFile out) = mapped base (first_of (s_files h)) /\
  shown KOff 3 (sec SFile out) = mapped base (flat_map (s_offs h) (first_of (s_files h))) /\
  shown KLocker 5 (sec SFile out) =
    mapped base (flat_map (fun o => s_readers h o ++ s_writers h o) (flat_map (s_offs h) (first_of (s_files h)))) /\
  shown KMtx 1 (sec SMtx out) = mapped base (first_of (s_mtxs h)) /\
  shown KCond 1 (sec SCond out) = mapped base (first_of (s_conds h)) /\
  shown KWaiter 3 (sec SCond out) = mapped base (flat_map (s_waiters h) (first_of (s_conds h))).

(** C122: the value that the dump gives for member f of the entry of kind k at address p, shown with
    indentation n: the first line for f after the entry's title *)
Definition field_eqb (a b : field) : bool :=
  match a, b with
  | FVersion, FVersion | FSzver, FSzver | FLength, FLength | FFileList, FFileList | FMtxList, FMtxList
  | FFileFree, FFileFree | FOffFree, FOffFree | FLockerFree, FLockerFree | FMtxFree, FMtxFree
  | FDev, FDev | FIno, FIno | FProtect, FProtect | FOffset, FOffset | FLen, FLen | FLockval, FLockval
  | FPid, FPid | FFd, FFd | FLocked, FLocked | FHash, FHash | FName, FName | FStatus, FStatus => true
  | _, _ => false
  end.
Fixpoint first_field (f : field) (ls : list (Z * text)) : option Z :=
  match ls with
  | [] => None
  | (_, TField f' v) :: r => if field_eqb f f' then Some v else first_field f r
  | _ :: r => first_field f r
  end.
Fixpoint value_of (k : kind) (n p : Z) (f : field) (ls : list (Z * text)) : option Z :=
  match ls with
  | [] => None
  | (i, TOpen k' q) :: r =>
      if (i =? n) && kind_eqb k k' && (q =? p) then first_field f r else value_of k n p f r
  | _ :: r => value_of k n p f r
  end.

(** the members that a dump should give, with their places in the entry (lib/flckstructure.h:49-121); of a
    mutex: its owner is at 8, its lock counter at 16, and neither has a line *)
Definition members (k : kind) : list (field * Z) :=
  match k with
  | KFile => [(FDev, 8); (FIno, 16); (FProtect, 32)]
  | KOff => [(FLockval, 8); (FOffset, 16); (FLen, 24); (FProtect, 48)]
  | KLocker => [(FPid, 8); (FFd, 16); (FLocked, 20)]
  | KMtx => [(FHash, 24); (FName, 32)]
  | KCond => [(FHash, 16); (FName, 24)]
  | KWaiter => [(FPid, 8); (FStatus, 16)]
  end.

(** C123: walks.  A run is a sequence of steps from a memory; the states it goes through. *)
Inductive walk (base noff top free : Z) (ok : wlabel -> Prop) : wstate -> list wstate -> wstate -> Prop :=
| walk_0 : forall s, walk base noff top free ok s [s] s
| walk_s : forall s ss s' a s'', walk base noff top free ok s ss s' -> ok a ->
    w_step base noff top free s' a = Some s'' -> walk base noff top free ok s (s'' :: ss) s''.

(** the entry r was in the list at some time of the run *)
Definition was_in (noff top : Z) (ss : list wstate) (r : Z) : Prop :=
  exists s l, In s ss /\ contents noff (w_mem s) top l /\ In r l.
