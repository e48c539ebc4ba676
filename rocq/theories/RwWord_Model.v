(** One reader/writer lock word ([flck_rwlock_t], the [lockval] of a range entry): fine-grained machine,
    one step per load or compare-and-swap. *)
From Coq Require Import ZArith List Bool Lia.
From Verif Require Import Base.
Import ListNotations.
Open Scope Z_scope.

(** lib/flckstructure.h:41-43: FLCK_RWLOCK_UNLOCK 0, FLCK_RWLOCK_WLOCK -1, readers are counted upwards *)
Definition RW_UNLOCK : Z := 0.
Definition RW_WLOCK : Z := -1.
(** lib/flckbaselist.tcc:34 FLCK_ROBUST_CHKCNT_NOLIMIT *)
Definition NOLIMIT : Z := -1.

Inductive rwmode := Rd | Wr.

(** how a lock call waits: [fl_rdlock_rwlock]/[fl_wrlock_rwlock] with [max_count] and the loop counter,
    [fl_try..], [fl_timed..] *)
Inductive wkind :=
| KBlock (max_count cnt : Z)
| KTry
| KTimed.

(** Agents are lock requests (one agent per entry of the locker lists; a thread that locks a range
    twice is two agents). [r] in the holding states is the mode in which the agent holds. *)
Inductive wpc :=
| WIdle
| WRdRead (k : wkind)                  (** about to load the word: lines 156, 164, 188 *)
| WRdCas (k : wkind) (b : Z)           (** about to CAS [b] -> [b+1]: lines 158, 169, 191 *)
| WWrCas (k : wkind)                   (** about to CAS 0 -> -1: lines 215, 221, 233 *)
| WHold (r : rwmode)                   (** the call returned 0 *)
| WUnRead (r : rwmode)                 (** unlock called; about to load: line 251 *)
| WUnCas (r : rwmode) (b new : Z)      (** about to CAS [b] -> [new]: line 261 *)
| WUB.                                 (** signed overflow of the loop counter *)

Record wstate := mkW { w_val : Z; w_pc : Z -> wpc; w_res : Z -> option Z (** result of the last call *) }.

Definition w_init : wstate := mkW 0 (fun _ => WIdle) (fun _ => None).

(** what an agent may be asked to do when it is idle or holds *)
Inductive wcall := CRd (k : wkind) | CWr (k : wkind) | CUnlock.

(** a choice resolves the clock of timed calls: [true] = the timeout has expired (or the clock failed) *)
Inductive wlabel :=
| WCall (a : Z) (c : wcall)
| WRun (a : Z) (expired : bool).

(** Test at the head of the blocking loops, lines 151-155 and 210-214; [go] is the loop body.
    [cnt++] overflows at INT_MAX. *)
Definition w_loop_head (k : wkind) (go : wkind -> wpc) : wpc + Z :=
  match k with
  | KBlock m c => if negb (m =? NOLIMIT) && (m <? c) then inr ETIMEDOUT
                  else if c =? INT_MAX then inl WUB
                  else inl (go (KBlock m (c + 1)))
  | _ => inl (go k)
  end.

(** a failed attempt: retry or give up *)
Definition w_failed (k : wkind) (go : wkind -> wpc) (expired : bool) : wpc + Z :=
  match k with
  | KBlock _ _ => w_loop_head k go
  | KTry => inr EBUSY
  | KTimed => if expired then inr ETIMEDOUT else inl (go KTimed)
  end.

Definition w_goto (s : wstate) (a : Z) (p : wpc + Z) : wstate :=
  match p with
  | inl pc => mkW (w_val s) (upd (w_pc s) a pc) (w_res s)
  | inr e => mkW (w_val s) (upd (w_pc s) a WIdle) (upd (w_res s) a (Some e))
  end.

Definition w_call (s : wstate) (a : Z) (c : wcall) : wstate :=
  match w_pc s a, c with
  | WIdle, CRd k => w_goto s a (w_loop_head k WRdRead)
  | WIdle, CWr k => w_goto s a (w_loop_head k WWrCas)
  | WHold r, CUnlock => w_goto s a (inl (WUnRead r))
  | _, _ => s                          (* a request is locked and unlocked alternately *)
  end.

(** lib/flckbaselist.tcc:145-204 (read lock), 206-244 (write lock), 246-263 (unlock) *)
Definition w_run (s : wstate) (a : Z) (expired : bool) : wstate :=
  match w_pc s a with
  | WRdRead k => w_goto s a (inl (WRdCas k (w_val s)))
  | WRdCas k b =>
      if b <? RW_UNLOCK then w_goto s a (w_failed k WRdRead expired)
      else if w_val s =? b
           then mkW (b + 1) (upd (w_pc s) a (WHold Rd)) (upd (w_res s) a (Some OK))
           else w_goto s a (w_failed k WRdRead expired)
  | WWrCas k =>
      if w_val s =? RW_UNLOCK
      then mkW RW_WLOCK (upd (w_pc s) a (WHold Wr)) (upd (w_res s) a (Some OK))
      else w_goto s a (w_failed k WWrCas expired)
  | WUnRead r =>
      if w_val s =? RW_UNLOCK then mkW (w_val s) (upd (w_pc s) a WIdle) (upd (w_res s) a (Some OK))
      else if w_val s <=? RW_WLOCK then w_goto s a (inl (WUnCas r RW_WLOCK RW_UNLOCK))
      else w_goto s a (inl (WUnCas r (w_val s) (w_val s - 1)))
  | WUnCas r b n =>
      if w_val s =? b then mkW n (upd (w_pc s) a WIdle) (upd (w_res s) a (Some OK))
      else w_goto s a (inl (WUnRead r))
  | _ => s
  end.

Definition w_step (s : wstate) (l : wlabel) : wstate :=
  match l with WCall a c => w_call s a c | WRun a e => w_run s a e end.

Inductive w_reach : wstate -> Prop :=
| wr_init : w_reach w_init
| wr_step : forall s l, w_reach s -> w_reach (w_step s l).

Definition w_exec (s : wstate) (ls : list wlabel) : wstate := fold_left w_step ls s.
