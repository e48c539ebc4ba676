(** From the end of a process to the release of its locks by the worker thread of another process: FlckThread::WorkerProc
    (lib/flckthread.cc:222-270), FlckThread::CheckEvent (lib/flckthread.cc:275-314), FlShm::CheckProcessDead (lib/flckshm.cc:497-515), with the end of a
    process in the steps in which the kernel makes it visible.  One worker is followed.  A failure of
    epoll_pwait, after which the worker ends (lines 255-259), and cancellation (C84-C87) are left out. *)
From Coq Require Import ZArith List Bool Lia.
From Verif Require Import Base.
Import ListNotations.
Open Scope Z_scope.

(** ** Processes and locks *)
(** The descriptors of an ending process are closed first, the one of the shared file among them, and /proc/<pid>/fd has no entries from
    then on; /proc/<pid>/task/<tid> stays until the process has been waited for by its parent. *)
Inductive life := Running | Closed | Gone.
(** how a recovery pass finds out about the owner: by its directory in /proc (mutexes and waiters: FindThreadProcess, lib/flckutil.cc:244-266;
    locks without a file; other locks when /proc/<pid>/fd may not be read), or by its descriptor (lib/flckutil.cc:292-344) *)
Inductive probe := ByTask | ByFd.
Record lck := mkL { l_pid : Z; l_thr : Z; l_by : probe; l_no : Z }.
Definition lck_eq : forall a b : lck, {a = b} + {a <> b}.
Proof. intros [a b c d] [e f g h]. destruct (Z.eq_dec a e), (Z.eq_dec b f), (Z.eq_dec d h), c, g; (left; congruence) || (right; congruence). Defined.

(** ** Worker *)
Inductive flag := STOP | RUN | EXIT.
Inductive wpc :=
| WOff                      (** not yet at inotify_add_watch (lib/flckthread.cc:201) *)
| WTop                      (** head of the loop, line 222 *)
| WEv                       (** epoll_pwait has returned an event, line 232 *)
| WRead                     (** CheckEvent, line 246 *)
| WPass (l : list lck)      (** CheckProcessDead, line 249: locks still to be looked at *)
| WEnd.
Record wsys := mkW {
  w_life : Z -> life;           (** by process *)
  w_thr : Z -> Z -> bool;       (** the thread of a process has ended *)
  w_locks : list lck;           (** locks in the shared file *)
  w_flag : flag;
  w_pc : wpc;
  w_q : nat;                    (** unread close events of the watched file *)
  w_edge : bool                 (** the descriptor has become readable since epoll_pwait last reported it (EPOLLET, line 211) *)
}.

(** what the pass finds *)
Definition dead (s : wsys) (l : lck) : bool :=
  match l_by l with
  | ByTask => match w_life s (l_pid l) with Gone => true | _ => w_thr s (l_pid l) (l_thr l) end
  | ByFd => match w_life s (l_pid l) with Running => false | _ => true end
  end.
Definition set_pc (s : wsys) p := mkW (w_life s) (w_thr s) (w_locks s) (w_flag s) p (w_q s) (w_edge s).
Definition set_locks (s : wsys) l := mkW (w_life s) (w_thr s) l (w_flag s) (w_pc s) (w_q s) (w_edge s).

(** one step of the worker; [fail]: no memory for the buffer of the events (lib/flckutil.cc:434-437), or a read error
    (lines 450-453); that a failure at a later page loses the events already read (lines 464-468) is left out *)
Definition w_work (s : wsys) (fail : bool) : wsys :=
  match w_pc s with
  | WOff => set_pc s WTop
  | WTop =>
      match w_flag s with
      | EXIT => set_pc s WEnd                                        (** line 222 *)
      | STOP => s                                                    (** lines 225-227 *)
      | RUN => if w_edge s                                           (** lines 229-232; nothing to report: timeout, lines 262-264 *)
               then mkW (w_life s) (w_thr s) (w_locks s) (w_flag s) (if (0 <? Z.of_nat (w_q s)) then WEv else WTop) (w_q s) false
               else s
      end
  | WEv => match w_flag s with EXIT => set_pc s WTop | _ => set_pc s WRead end   (** lines 236-240 *)
  | WRead => if fail then set_pc s WTop                              (** lines 285-288 *)
             else if (0 <? Z.of_nat (w_q s)) then mkW (w_life s) (w_thr s) (w_locks s) (w_flag s) (WPass (w_locks s)) 0 (w_edge s)   (** lines 290-313, 246-252 *)
             else set_pc s WTop
  | WPass [] => set_pc s WTop
  | WPass (l :: r) => let s1 := set_pc s (WPass r) in
                      if dead s l then set_locks s1 (remove lck_eq l (w_locks s)) else s1
  | WEnd => s
  end.

Inductive wlabel :=
| LWork (fail : bool)
| LFlag (f : flag)                         (** Run, Stop, Exit (lib/flckthread.cc:392-488); a call of Exit is not taken back here (C84) *)
| LTake (l : lck)                          (** a running thread locks *)
| LFree (l : lck)                          (** it unlocks, or somebody else finds it dead *)
| LClose (pid : Z) (merged : bool)         (** the process ends: its descriptors are closed *)
| LGone (pid : Z)                          (** its directory in /proc goes *)
| LThr (pid thr : Z)                       (** a thread of a running process ends *)
| LOther (merged : bool)                   (** somebody else closes the file *)
| LShared (pid : Z).                       (** the process ends while a forked child (which may have executed another program: the file is opened without
                                               O_CLOEXEC, lib/flckshminit.cc:125, 132) still has the same open file: no event *)

(** a close event: an event equal to the last unread one is merged with it, without waking anybody *)
Definition post (s : wsys) (merged : bool) : wsys :=
  match w_pc s with
  | WOff | WEnd => s
  | _ => if merged && (0 <? Z.of_nat (w_q s)) then s else mkW (w_life s) (w_thr s) (w_locks s) (w_flag s) (w_pc s) (S (w_q s)) true
  end.
Definition runs (s : wsys) (pid thr : Z) : bool := match w_life s pid with Running => negb (w_thr s pid thr) | _ => false end.
Definition w_step (s : wsys) (x : wlabel) : wsys :=
  match x with
  | LWork fail => w_work s fail
  | LFlag f => match w_flag s with EXIT => s | _ => mkW (w_life s) (w_thr s) (w_locks s) f (w_pc s) (w_q s) (w_edge s) end
  | LTake l => if runs s (l_pid l) (l_thr l) then set_locks s (l :: w_locks s) else s
  | LFree l => if runs s (l_pid l) (l_thr l) || dead s l then set_locks s (remove lck_eq l (w_locks s)) else s
  | LClose pid merged => match w_life s pid with
                         | Running => post (mkW (upd (w_life s) pid Closed) (w_thr s) (w_locks s) (w_flag s) (w_pc s) (w_q s) (w_edge s)) merged
                         | _ => s
                         end
  | LGone pid => match w_life s pid with Closed => mkW (upd (w_life s) pid Gone) (w_thr s) (w_locks s) (w_flag s) (w_pc s) (w_q s) (w_edge s) | _ => s end
  | LThr pid thr => match w_life s pid with Running => mkW (w_life s) (upd (w_thr s) pid (upd (w_thr s pid) thr true)) (w_locks s) (w_flag s) (w_pc s) (w_q s) (w_edge s) | _ => s end
  | LOther merged => post s merged
  | LShared pid => match w_life s pid with Running => mkW (upd (w_life s) pid Closed) (w_thr s) (w_locks s) (w_flag s) (w_pc s) (w_q s) (w_edge s) | _ => s end
  end.
Definition w_exec (s : wsys) (ls : list wlabel) : wsys := fold_left w_step ls s.
Definition w_init : wsys := mkW (fun _ => Running) (fun _ _ => false) [] STOP WOff 0 false.
