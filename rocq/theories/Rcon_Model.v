(** Model of the recursive read/write lock objects used by several threads of a process, and of a fork:
    lib/rwlockrcsv.cc:46-552, lib/flckbaselist.tcc:462-481.

    A call is a program whose steps are: the spinning lock and unlock of the stack mutex, a call of the shared
    lock layer, and an access to memory.  Each method of Rcsv_Model.v appears again, cut at these points; run
    without interruption it is that method (proved: [exec_call]).  An access is one step when the code
    between two of these points does it; whether two threads can be at such an access of the stack at the
    same time is asked in the properties.  The unlock loop of the mutex (lib/flckbaselist.tcc:471-481) is
    one step: its compare-and-swap succeeds or finds the mutex free. *)
From Verif Require Import Base Rcsv_Model.
From Coq Require Import ZArith List Bool.
Import ListNotations.
Open Scope Z_scope.

Inductive prog :=
| PRet (b L : bool)                              (** returns [b]; [L]: is_mutex_locked *)
| PAct (stk : bool) (g : st -> st) (k : st -> prog)   (** an access to memory; [stk]: to the stack *)
| PLck (k : prog)                                (** lib/rwlockrcsv.cc:53-56 *)
| PUlk (k : prog)                                (** lib/rwlockrcsv.cc:58-61 *)
| PShm (L : bool) (c : scall) (k : Z -> prog).   (** a call of the shared lock layer *)

(** "if(!is_mutex_locked)" and "if(is_mutex_locked)" *)
Definition plock (L : bool) (k : bool -> prog) : prog := if L then k L else PLck (k true).
Definition pulk (L : bool) (k : bool -> prog) : prog := if L then PUlk (k false) else k L.
Definition nop (s : st) : st := s.

(** 182-195: out of the stack, and on if there are pending objects *)
Definition off_stack (o : Z) (s : st) : st :=
  let s1 := set_stack s (erase o (s_stack s)) in
  match o_pend (s_obj s o) with
  | _ :: _ => on (pass_on s1 o) o (fun b => w_state b false false)
  | [] => if o_has (s_obj s o) then s1 else on s1 o (fun b => w_state b false false)
  end.

(** 151-253 *)
Definition pRawUnlock (o : Z) (L : bool) (k : bool -> bool -> prog) : prog :=
  PAct false nop (fun s =>
  if is_unl (o_type (s_obj s o)) || negb (o_locked (s_obj s o)) then k true L
  else plock L (fun L =>
  PAct false nop (fun s =>
  match o_master (s_obj s o) with
  | Some m =>
      PAct false (fun s =>
        let s := on s m (fun b => w_pend b (erase o (o_pend b))) in
        let s := on s o (fun b => w_master b None) in
        on s o (fun b => w_state b false false)) (fun _ => k true L)
  | None =>
      PAct true (off_stack o) (fun s =>
      match o_pend (s_obj s o) with
      | _ :: _ => k true L
      | [] =>
          if o_has (s_obj s o) then
            pulk L (fun L => PShm L (unlock_of (s_obj s o)) (fun a =>
            if a =? 0 then PAct false (fun s => on s o (fun b => w_state b false false)) (fun _ => k true L)
            else plock L (fun L => PAct true (fun s => set_stack s (s_stack s ++ [o])) (fun _ => k false L))))
          else k true L
      end)
  end))).

Definition punlock_if (b : bool) (o : Z) (L : bool) (k : bool -> bool -> prog) : prog :=
  if b then pRawUnlock o L k else k true L.

(** 280, 283 *)
Definition as_reader (o : Z) (s : st) : st :=
  let s := on s o (fun b => w_type b RD) in set_stack s (s_stack s).
(** 284-305 *)
Definition look_read (o : Z) (s : st) : st :=
  let s := as_reader o s in
  match first_match s (s_obj s o) (s_stack s) with
  | Some i =>
      let s := on s o (fun b => w_master (w_state b (o_locked (s_obj s i)) false) (Some i)) in
      on s i (fun b => w_pend b (o_pend b ++ [o]))
  | None => set_stack s (s_stack s ++ [o])
  end.

(** 255-340 *)
Definition pRawReadLock (o : Z) (L : bool) (k : bool -> bool -> prog) : prog :=
  PAct false nop (fun s =>
  let x := s_obj s o in
  if o_locked x && is_rd (o_type x) then k true L
  else if o_locked x && is_wr (o_type x) && negb (match o_pend x with [] => true | _ => false end) then k true L
  else plock L (fun L => punlock_if (is_wr (o_type x) && o_locked x) o L (fun ok L =>
  if negb ok then k false L
  else PAct true (look_read o) (fun s =>
  match first_match (as_reader o s) (s_obj (as_reader o s) o) (s_stack (as_reader o s)) with
  | Some _ => k true L
  | None =>
      pulk L (fun L => PShm L (read_of (s_obj s o)) (fun a =>
      if a =? 0 then PAct false (fun s => on s o (fun b => w_state b true true)) (fun _ => k true L)
      else plock L (fun L => PAct true (fun s =>
             let s := set_stack s (erase o (s_stack s)) in on s o (fun b => w_state b false false)) (fun _ => k false L))))
  end)))).

(** 378 *)
Definition as_writer (o : Z) (s : st) : st := on s o (fun b => w_type b WR).
Definition look (o : Z) (s : st) : list Z * list Z * option Z :=
  scan (as_writer o s) (s_obj (as_writer o s) o) (s_stack (as_writer o s)).
(** 380-411 *)
Definition look_write (o : Z) (s : st) : st :=
  let '(rs, ks, w) := look o s in
  let s := set_stack (as_writer o s) ks in
  match w with
  | Some i =>
      let s := on s o (fun b => w_master (w_state b true false) (Some i)) in
      on s i (fun b => w_pend b (o_pend b ++ [o]))
  | None => set_stack s (s_stack s ++ [o])
  end.

(** 426-434 *)
Definition pend_reader (o i : Z) (s : st) : st :=
  let s := on s i (fun b => w_master (w_state b true false) (Some o)) in
  let s := on s o (fun b => w_pend b (o_pend b ++ [i])) in
  let s := move_pending s o o (o_pend (s_obj s i)) in
  on s i (fun b => w_pend b []).

(** 420-435 *)
Fixpoint ptake (o : Z) (rs : list Z) (L : bool) (k : bool -> prog) : prog :=
  match rs with
  | [] => k L
  | i :: r =>
      PAct false nop (fun s =>
      if o_locked (s_obj s i) && o_has (s_obj s i)
      then PShm L (unlock_of (s_obj s i)) (fun _ => PAct false (pend_reader o i) (fun _ => ptake o r L k))
      else PAct false (pend_reader o i) (fun _ => ptake o r L k))
  end.

(** 448-456: Lock() of a pending object *)
Fixpoint prelock (l : list Z) (L : bool) (k : bool -> prog) : prog :=
  match l with
  | [] => k L
  | i :: r =>
      PAct false (fun s => on s i (fun b => w_master (w_state b false false) None)) (fun s =>
      if is_unl (o_type (s_obj s i)) then prelock r L k else PLck (prelock r L k))
  end.

(** 342-466 *)
Definition pRawWriteLock (o : Z) (L : bool) (k : bool -> bool -> prog) : prog :=
  PAct false nop (fun s =>
  let x := s_obj s o in
  if o_locked x && is_wr (o_type x) then k true L
  else if o_locked x && is_rd (o_type x) &&
          match o_master x with Some m => is_wr (o_type (s_obj s m)) | None => false end
  then PAct false (fun s => on s o (fun b => w_type b WR)) (fun _ => k true L)
  else plock L (fun L => punlock_if (is_rd (o_type x) && o_locked x) o L (fun ok L =>
  if negb ok then k false L
  else PAct true (look_write o) (fun s =>
  let '(rs, ks, w) := look o s in
  match w with
  | Some _ => k true L
  | None =>
      pulk L (fun L => ptake o rs L (fun L => PAct false nop (fun s => PShm L (write_of (s_obj s o)) (fun a =>
      if a =? 0 then PAct false (fun s => on s o (fun b => w_state b true true)) (fun _ => k true L)
      else plock L (fun L => PAct true (fun s => set_stack s (erase o (s_stack s))) (fun s =>
           prelock (o_pend (s_obj s o)) L (fun L => PAct false (fun s =>
             let s := on s o (fun b => w_pend b []) in on s o (fun b => w_state b false false)) (fun _ => k false L))))))))
  end)))).

Definition pRawLock (o : Z) (read : bool) (L : bool) (k : bool -> bool -> prog) : prog :=
  if read then pRawReadLock o L k else pRawWriteLock o L k.
Definition pfin (b L : bool) : prog := pulk L (fun L => PRet b L).

(** what a constructor has done before its first step *)
Definition pre (p : op) (s : st) : st :=
  match p with
  | ONew o tid fd off len => set_obj s o (mkO true tid fd off len UNL false false [] None)
  | ONewLock o tid fd off len read => set_obj s o (mkO true tid fd off len (ty read) false false [] None)
  | _ => s
  end.

Definition prog_of (p : op) : prog :=
  match p with
  | ONew o tid fd off len => PRet true false
  | ONewLock o tid fd off len read =>
      if fd =? FLCK_INVALID_HANDLE then PRet true false else pRawLock o read false pfin
  | ODel o => pRawUnlock o false (fun b L => pulk L (fun L => PAct false (fun s => set_obj s o dead_obj) (fun _ => PRet b L)))
  | OLockAt o fd off len read =>
      pRawUnlock o false (fun ok L =>
        if negb ok then pfin false L
        else PAct false (fun s => on s o (fun b => w_type (w_range b fd off len) (ty read))) (fun _ => pRawLock o read L pfin))
  | OLockAs o read => pRawLock o read false pfin
  | OLock o =>
      PAct false nop (fun s =>
      match o_type (s_obj s o) with
      | RD => pRawReadLock o false pfin
      | WR => pRawWriteLock o false pfin
      | UNL => PRet false false
      end)
  | ORead o => pRawReadLock o false pfin
  | OWrite o => pRawWriteLock o false pfin
  | OUnlock o => pRawUnlock o false pfin
  end.

(** a program without interruption; unlocking a free mutex counts as an access without it *)
Definition mark (s : st) : st :=
  mkS (s_obj s) (s_stack s) (s_mtx s) (s_race s || negb (s_mtx s)) (s_log s) (s_ans s).
Fixpoint exec (p : prog) (s : st) : res bool :=
  match p with
  | PRet b L => Ret b L s
  | PAct _ g k => exec (k s) (g s)
  | PLck k => if s_mtx s then Hang s else exec k (set_mtx s true)
  | PUlk k => exec k (set_mtx (mark s) false)
  | PShm L c k =>
      match s_ans s with
      | [] => Wait c L s
      | a :: l => exec (k a) (mkS (s_obj s) (s_stack s) (s_mtx s) (s_race s) ((c, a) :: s_log s) l)
      end
  end.

(** ** Several threads *)
Inductive thr :=
| TIdle
| TRun (p : op) (q : prog)
| TGone.                    (** a thread of the parent process, stopped in the middle of a call by the fork *)

Record cst := mkC {
  c_s : st;                              (** objects, stack and mutex; its log is not used *)
  c_hold : option Z;                     (** who locked the mutex *)
  c_thr : Z -> thr;
  c_log : list (Z * (scall * Z)) }.      (** calls of the shared lock layer with thread and answer, latest first *)

Definition init_c : cst := mkC init_s None (fun _ => TIdle) [].

Inductive clabel :=
| KCall (t : Z) (p : op)
| KStep (t : Z)
| KAns (t : Z) (a : Z)      (** the shared lock layer answers *)
| KFork (t : Z).            (** [t] forks; the execution goes on in the child *)

Definition c_step (S : cst) (l : clabel) : option cst :=
  match l with
  | KCall t p =>
      match c_thr S t with
      | TIdle => if allowed p (c_s S)
                 then Some (mkC (pre p (c_s S)) (c_hold S) (upd (c_thr S) t (TRun p (prog_of p))) (c_log S))
                 else None
      | _ => None
      end
  | KStep t =>
      match c_thr S t with
      | TRun p (PRet b L) => Some (mkC (c_s S) (c_hold S) (upd (c_thr S) t TIdle) (c_log S))
      | TRun p (PAct _ g k) => Some (mkC (g (c_s S)) (c_hold S) (upd (c_thr S) t (TRun p (k (c_s S)))) (c_log S))
      | TRun p (PLck k) =>
          if s_mtx (c_s S) then Some S
          else Some (mkC (set_mtx (c_s S) true) (Some t) (upd (c_thr S) t (TRun p k)) (c_log S))
      | TRun p (PUlk k) =>
          Some (mkC (set_mtx (c_s S) false) None (upd (c_thr S) t (TRun p k)) (c_log S))
      | _ => None
      end
  | KAns t a =>
      match c_thr S t with
      | TRun p (PShm L c k) => Some (mkC (c_s S) (c_hold S) (upd (c_thr S) t (TRun p (k a))) ((t, (c, a)) :: c_log S))
      | _ => None
      end
  | KFork t =>
      match c_thr S t with
      | TIdle => Some (mkC (c_s S) (c_hold S)
                        (fun u => match c_thr S u with TIdle => TIdle | _ => TGone end) (c_log S))
      | _ => None
      end
  end.

Inductive csteps (ok : cst -> clabel -> Prop) (S : cst) : cst -> Prop :=
| csteps_refl : csteps ok S S
| csteps_next : forall S1 l S2, csteps ok S S1 -> ok S1 l -> c_step S1 l = Some S2 -> csteps ok S S2.

Definition c_reach (ok : cst -> clabel -> Prop) : cst -> Prop := csteps ok init_c.
