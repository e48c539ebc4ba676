(** Which internal locks the calls take and release, on every path.  The three list locks are file_lock_lockid, named_mutex_lockid and named_cond_lockid
    (lib/flckstructure.h:128, 133, 138); fl_lock_lockid and fl_unlock_lockid are lib/flckbaselist.tcc:59-127.
    Functions are given by their control flow: branches go either way, loops run any number of times, and everything done to lists, entries and words is one
    step [Work]; steps at which the code waits for a lock of the user or for a signal are [Block].
    Left out: the returns of methods for an object without entry ("Object is not initialized"), since every caller sets the entry first. *)
From Coq Require Import ZArith List Bool.
From Verif Require Import Base.
Import ListNotations.

Inductive lk := LFile | LMtx | LCond.
Definition lk_eq : forall a b : lk, {a = b} + {a <> b}.
Proof. decide equality. Defined.
Inductive cmd :=
| Acq (l : lk) | Rel (l : lk)
| Work | Block
| Seq (a b : cmd) | Alt (a b : cmd) | Loop (a : cmd)
| Ret
| Call (c : cmd) (exit : option lk).   (** [exit]: a note for the reader and the proofs, the list lock the caller has afterwards *)
Notation "a ;; b" := (Seq a b) (at level 62, right associativity).

(** ** The functions *)
(** lib/flckshm.cc:520-562 *)
Definition CheckFileLockDeadLock : cmd := Alt Ret Work ;; Alt Ret Work ;; Acq LFile ;; Loop Work ;; Rel LFile.
(** lib/flckshm.cc:567-593 *)
Definition CheckMutexDeadLock : cmd := Alt Ret Work ;; Alt Ret Work ;; Acq LMtx ;; Loop Work ;; Rel LMtx.
(** lib/flckshm.cc:598-623 *)
Definition CheckCondDeadLock : cmd := Alt Ret Work ;; Alt Ret Work ;; Acq LCond ;; Loop Work ;; Rel LCond.
(** lib/flckshm.cc:497-515 *)
Definition CheckProcessDead : cmd := Alt Ret Work ;; Call CheckFileLockDeadLock None ;; Call CheckMutexDeadLock None ;; Call CheckCondDeadLock None.
(** lib/flcklistnmtx.cc:64-91, for locking; attempts and, when they end with EWOULDBLOCK, recovery *)
Definition nmtx_lock : cmd := Loop (Block ;; Alt Work (Call CheckMutexDeadLock None)) ;; Block.
(** lib/flckshm.cc:661-695 *)
Definition mutex_unlock : cmd := Alt Ret Work ;; Alt Ret Work ;; Acq LMtx ;; Alt (Rel LMtx ;; Ret) Work ;; Work ;; Rel LMtx.
(** lib/flckshm.cc:661-676, 696-729 *)
Definition mutex_lock : cmd :=
  Alt Ret Work ;; Alt Ret Work ;; Acq LMtx ;;
  Alt Work (Alt (Rel LMtx ;; Ret) Work ;; Alt (Work ;; Rel LMtx ;; Ret) Work) ;;
  Rel LMtx ;; Call nmtx_lock None.
(** lib/flcklistofflock.cc:169-236 *)
Definition dolock : cmd := Loop (Block ;; Alt Work (Acq LFile ;; Work ;; Rel LFile)) ;; Block.
(** lib/flcklistofflock.cc:67, 113-167 *)
Definition offlock_lock : cmd :=
  Alt (Rel LFile ;; Ret) Work ;; Alt (Work ;; Rel LFile ;; Ret) Work ;; Rel LFile ;;
  Call dolock None ;; Alt (Acq LFile ;; Work ;; Rel LFile ;; Ret) Work.
(** lib/flcklistofflock.cc:67-111: returns with the list lock kept *)
Definition offlock_unlock : cmd := Alt Ret Work ;; Alt Ret Work ;; Work.
(** lib/flcklistfilelock.cc:61-98 *)
Definition filelock_unlock : cmd := Alt Ret Work ;; Call offlock_unlock (Some LFile) ;; Alt Ret Work ;; Work.
(** lib/flcklistfilelock.cc:61, 100-155 *)
Definition filelock_lock : cmd :=
  Alt Work (Alt (Rel LFile ;; Ret) Work ;; Alt (Work ;; Rel LFile ;; Ret) Work) ;;
  Call offlock_lock None ;; Alt (Alt (Acq LFile ;; Work ;; Rel LFile) Work ;; Ret) Work.
(** lib/flckshm.cc:731-780 *)
Definition rw_unlock : cmd :=
  Alt Ret Work ;; Alt Ret Work ;; Acq LFile ;; Alt (Rel LFile ;; Ret) Work ;; Call filelock_unlock (Some LFile) ;; Alt (Rel LFile ;; Ret) Work ;; Work ;; Rel LFile.
(** lib/flckshm.cc:731-749, 782-838 *)
Definition rw_lock : cmd :=
  Alt Ret Work ;; Alt Ret Work ;; Acq LFile ;;
  Alt Work (Alt (Rel LFile ;; Ret) Work ;; Alt (Work ;; Rel LFile ;; Ret) Work) ;;
  Call filelock_lock None ;; Alt (Alt (Acq LFile ;; Loop Work ;; Rel LFile) Work ;; Ret) Work.
(** lib/flckshm.cc:840-871 *)
Definition is_locked : cmd := Alt Ret Work ;; Alt Ret Work ;; Acq LFile ;; Alt (Rel LFile ;; Ret) Work ;; Work ;; Rel LFile.
(** lib/flckshm.cc:873-912; the signalling itself, lib/flcklistncond.cc:69-100, touches words only *)
Definition cond_signal : cmd := Alt Ret Work ;; Alt Ret Work ;; Acq LCond ;; Alt (Rel LCond ;; Ret) Work ;; Loop Work ;; Rel LCond.
(** lib/flcklistwaiter.cc:52, 64-106 *)
Definition waiter_wait : cmd := Alt Ret Work ;; Work ;; Alt (Work ;; Ret) Work ;; Block ;; Call nmtx_lock None.
(** lib/flcklistncond.cc:59, 102-152 *)
Definition ncond_wait : cmd :=
  Alt (Rel LCond ;; Ret) Work ;; Alt (Rel LCond ;; Ret) Work ;; Alt (Work ;; Rel LCond ;; Ret) Work ;; Rel LCond ;;
  Call waiter_wait None ;; Acq LCond ;; Work ;; Rel LCond.
(** lib/flckshm.cc:873-888, 914-970 *)
Definition cond_wait : cmd :=
  Alt Ret Work ;; Alt Ret Work ;; Acq LMtx ;; Alt (Rel LMtx ;; Ret) Work ;; Rel LMtx ;; Acq LCond ;;
  Alt Work (Alt (Rel LCond ;; Ret) Work ;; Alt (Work ;; Rel LCond ;; Ret) Work) ;;
  Call ncond_wait None.
(** the calls of a program (lib/fullock.cc:136-250), and the recovery pass of the worker thread (lib/flckthread.cc:249) *)
Definition calls : list cmd := [mutex_lock; mutex_unlock; rw_lock; rw_unlock; is_locked; cond_signal; cond_wait; CheckProcessDead].

(** ** Threads *)
Inductive item := KC (c : cmd) | KEnd (exit : option lk).
(** what a thread still has to do; [] between calls *)
Record dsys := mkD { d_own : lk -> option Z; d_k : Z -> list item; d_dead : Z -> bool }.
Definition updl (f : lk -> option Z) (l : lk) (v : option Z) : lk -> option Z := fun x => if lk_eq x l then v else f x.
Fixpoint pop (k : list item) : list item := match k with [] => [] | KEnd _ :: r => r | KC _ :: r => pop r end.
Definition set_k (s : dsys) (t : Z) (k : list item) : dsys := mkD (d_own s) (upd (d_k s) t k) (d_dead s).
Inductive dlabel :=
| DCall (t : Z) (c : cmd)
| DStep (t : Z) (left : bool)    (** [left]: which branch; whether a loop goes on *)
| DDie (t : Z).
(** a list lock is got when nobody has it or the caller itself has it, or from a thread that has ended (lib/flckbaselist.tcc:59-92) *)
Definition gets (s : dsys) (t : Z) (l : lk) : bool := match d_own s l with None => true | Some u => ((u =? t) || d_dead s u)%Z%bool end.
Definition d_step (s : dsys) (x : dlabel) : dsys :=
  match x with
  | DCall t c => match d_k s t with [] => if d_dead s t then s else set_k s t [KC c] | _ => s end
  | DDie t => mkD (d_own s) (d_k s) (upd (d_dead s) t true)
  | DStep t b =>
      if d_dead s t then s else
      match d_k s t with
      | [] => s
      | KEnd _ :: k => set_k s t k
      | KC c :: k =>
          match c with
          | Acq l => if gets s t l then mkD (updl (d_own s) l (Some t)) (upd (d_k s) t k) (d_dead s) else s
          (* lib/flckbaselist.tcc:94-127: free already, or the caller's own, or that of a thread that has ended; else it spins *)
          | Rel l => if gets s t l then mkD (updl (d_own s) l None) (upd (d_k s) t k) (d_dead s) else s
          | Work => set_k s t k
          | Block => if b then set_k s t k else s
          | Seq a c' => set_k s t (KC a :: KC c' :: k)
          | Alt a c' => set_k s t (KC (if b then a else c') :: k)
          | Loop a => set_k s t (if b then KC a :: KC (Loop a) :: k else k)
          | Ret => set_k s t (pop k)
          | Call c' e => set_k s t (KC c' :: KEnd e :: k)
          end
      end
  end.
Definition d_exec (s : dsys) (ls : list dlabel) : dsys := fold_left d_step ls s.
Definition d_init : dsys := mkD (fun _ => None) (fun _ => []) (fun _ => false).
