(** Attaching to the shared file: any number of processes with any number of threads, the advisory lock on
    the first byte of the file, crashes, failing system calls, fork.
    One step per system call or store that another thread, another process or a crash can separate.
    Simplified: the content of the file is one of four stages; [munmap], [fcntl(F_UNLCK)] and [close] do not fail;
    the file is never unlinked and the path does not change; the worker thread is its start only. *)
From Coq Require Import ZArith List Bool Lia.
From Verif Require Import Base.
Import ListNotations.
Open Scope Z_scope.

(** upper 32 bits of a thread identity (C01) *)
Definition proc (t : Z) : Z := t / two32.

(** stages of the content: length 0; all zero; header written; lists written (complete) *)
Inductive fcont := FEmpty | FZero | FPart | FReady.

Inductive ipc :=
| IIdle
| IOpenX                    (** lib/flckshminit.cc:125: open with O_CREAT|O_EXCL *)
| IOpen                     (** 132: open the existing file *)
| IWrite (n : Z)            (** 144: try the write lock, round n *)
| IRead (n : Z)             (** 160: try the read lock *)
| IAttach                   (** 162, 48-86: look at the header and map *)
| ICWrite                   (** 185: write lock of the creator *)
| IClose                    (** 187: close after losing it *)
| ITrunc                    (** 239: ftruncate(0) *)
| IFill                     (** 263: fill with zeros *)
| IMap                      (** 269: map *)
| IHead                     (** 275-283: header *)
| ILists                    (** 284-289: lists *)
| IDown                     (** 151, 197: change to the read lock *)
| IWorker                   (** 205-226: start the worker thread *)
| IDet1 (r : bool)          (** 88-104: unmap *)
| IDet2 (r : bool)          (** 107: unlock *)
| IDet3 (r : bool)          (** 110: close, then return [r] *)
| IUse.                     (** after CheckAttach said yes: first access to the shared memory *)

Record istate := mkI {
  i_exists : bool;             (** the file exists *)
  i_file : fcont;
  i_wr : option Z;             (** holder of the write lock (fcntl locks belong to processes) *)
  i_rd : list Z;               (** holders of the read lock *)
  i_fd : Z -> bool;            (** FlShm::ShmFd of a process is valid *)
  i_map : Z -> bool;           (** FlShm::pShmBase of a process is not NULL *)
  i_alive : Z -> bool;         (** process exists *)
  i_pc : Z -> ipc;             (** by thread *)
  i_use : Z -> bool;           (** the thread initialises inside a lock call (CheckAttach) *)
  i_res : Z -> option bool;    (** result of the thread's last call *)
  i_inh : Z -> bool;           (** observation: the mapping was inherited by fork *)
  i_crash : Z -> bool          (** observation: the process died from an access to memory that is not there *)
}.

Definition i_init : istate :=
  mkI false FEmpty None [] (fun _ => false) (fun _ => false) (fun _ => false) (fun _ => IIdle) (fun _ => false)
      (fun _ => None) (fun _ => false) (fun _ => false).

Definition goto (s : istate) t p := mkI (i_exists s) (i_file s) (i_wr s) (i_rd s) (i_fd s) (i_map s) (i_alive s) (upd (i_pc s) t p) (i_use s) (i_res s) (i_inh s) (i_crash s).
Definition ret (s : istate) t r := mkI (i_exists s) (i_file s) (i_wr s) (i_rd s) (i_fd s) (i_map s) (i_alive s) (upd (i_pc s) t IIdle) (i_use s) (upd (i_res s) t (Some r)) (i_inh s) (i_crash s).
Definition set_file (s : istate) f := mkI true f (i_wr s) (i_rd s) (i_fd s) (i_map s) (i_alive s) (i_pc s) (i_use s) (i_res s) (i_inh s) (i_crash s).
Definition set_lock (s : istate) w r := mkI (i_exists s) (i_file s) w r (i_fd s) (i_map s) (i_alive s) (i_pc s) (i_use s) (i_res s) (i_inh s) (i_crash s).
Definition set_fd (s : istate) p b := mkI (i_exists s) (i_file s) (i_wr s) (i_rd s) (upd (i_fd s) p b) (i_map s) (i_alive s) (i_pc s) (i_use s) (i_res s) (i_inh s) (i_crash s).
Definition set_map (s : istate) p b := mkI (i_exists s) (i_file s) (i_wr s) (i_rd s) (i_fd s) (upd (i_map s) p b) (i_alive s) (i_pc s) (i_use s) (i_res s) (upd (i_inh s) p false) (i_crash s).
Definition set_use (s : istate) t b := mkI (i_exists s) (i_file s) (i_wr s) (i_rd s) (i_fd s) (i_map s) (i_alive s) (i_pc s) (upd (i_use s) t b) (i_res s) (i_inh s) (i_crash s).

Definition without (p : Z) (l : list Z) : list Z := filter (fun q => negb (q =? p)) l.
Definition opt_is (o : option Z) (p : Z) : bool := match o with Some q => q =? p | None => false end.

(** lib/flckutil.cc:371-404 (fcntl F_SETLK on one byte), called through FileWriteLock / FileReadLock / FileUnlock;
    an invalid descriptor is refused *)
Definition can_write (s : istate) p : bool :=
  i_fd s p && (match i_wr s with None => true | Some q => q =? p end) && (match without p (i_rd s) with [] => true | _ => false end).
Definition can_read (s : istate) p : bool := i_fd s p && match i_wr s with None => true | Some q => q =? p end.
Definition lock_write (s : istate) p : istate := set_lock s (Some p) (without p (i_rd s)).
Definition lock_read (s : istate) p : istate := set_lock s (if opt_is (i_wr s) p then None else i_wr s) (p :: without p (i_rd s)).
(** unlock, and close of any descriptor of the file: the locks of the process are gone *)
Definition drop_lock (s : istate) p : istate := set_lock s (if opt_is (i_wr s) p then None else i_wr s) (without p (i_rd s)).

(** the process is gone, with all its threads, its mapping, descriptors and locks *)
Definition die (s : istate) p (crash : bool) : istate :=
  let s1 := drop_lock s p in
  mkI (i_exists s) (i_file s) (i_wr s1) (i_rd s1) (upd (i_fd s) p false) (upd (i_map s) p false) (upd (i_alive s) p false)
      (fun u => if proc u =? p then IIdle else i_pc s u) (i_use s) (i_res s) (upd (i_inh s) p false)
      (if crash then upd (i_crash s) p true else i_crash s).

Inductive icall :=
| CInit                      (** FlShm::InitializeShm at load time or from ReInitializeObject *)
| CDestroy                   (** FlShm::Destroy, lib/flckshminit.cc:376-395 *)
| CUse (retry : bool).       (** a lock call: FlShm::CheckAttach, lib/flckshm.cc:646-659; NomapMode is a RETRY mode *)

Definition i_call (s : istate) t (c : icall) : istate :=
  let p := proc t in
  match c with
  | CInit => if i_fd s p then ret s t false                         (* 117-120 *)
             else goto (set_use s t false) t IOpenX
  | CDestroy => if i_fd s p then goto s t (IDet1 true) else ret s t true
  | CUse retry => if i_fd s p then goto s t IUse
                  else if retry then goto (set_use s t true) t IOpenX
                  else ret s t false
  end.

(** InitializeShm has succeeded *)
Definition done (s : istate) t : istate := if i_use s t then goto s t IUse else ret s t true.

(** one step of thread [t]; [fail]: the system call of this step fails *)
Definition i_run (s : istate) (t : Z) (fail : bool) : istate :=
  let p := proc t in
  match i_pc s t with
  | IIdle => s
  | IOpenX =>
      if fail then ret (set_fd s p false) t false                    (* an error other than EEXIST *)
      else if i_exists s then goto (set_fd s p false) t IOpen        (* the failed call has assigned -1 *)
      else goto (set_fd (set_file s FEmpty) p true) t ICWrite
  | IOpen => if fail then ret (set_fd s p false) t false else goto (set_fd s p true) t (IWrite 0)
  | IWrite n =>
      if n <? 100 then
        if can_write s p && negb fail then goto (lock_write s p) t ITrunc else goto s t (IRead n)
      else goto s t (IDet1 false)
  | IRead n => if can_read s p && negb fail then goto (lock_read s p) t IAttach else goto s t (IWrite (n + 1))
  | IAttach =>
      if i_map s p then goto s t (IDet1 false)                       (* 50-53 Already mmap *)
      else if negb (i_fd s p) || fail then goto s t (IDet1 false)
      else match i_file s with
           | FEmpty => die s p true                                  (* 69: header of an empty file: SIGBUS *)
           | FZero => goto s t (IDet1 false)                         (* 81: length 0 cannot be mapped *)
           | _ => goto (set_map s p true) t IWorker
           end
  | ICWrite => if can_write s p && negb fail then goto (lock_write s p) t ITrunc else goto s t IClose
  | IClose => ret (set_fd (drop_lock s p) p false) t false
  | ITrunc => if negb (i_fd s p) || fail then goto s t (IDet1 false) else goto (set_file s FEmpty) t IFill
  | IFill => if negb (i_fd s p) || fail then goto s t (IDet1 false) else goto (set_file s FZero) t IMap
  | IMap => if negb (i_fd s p) || fail then goto s t (IDet1 false) else goto (set_map s p true) t IHead
  | IHead => goto (set_file s FPart) t ILists
  | ILists => goto (set_file s FReady) t IDown                       (* no free pointer is NULL: C46 *)
  | IDown => if can_read s p && negb fail then goto (lock_read s p) t IWorker else goto s t (IDet1 false)
  | IWorker => if fail then goto s t (IDet1 false) else done s t
  | IDet1 r => goto (set_map s p false) t (IDet2 r)
  | IDet2 r => goto (if i_fd s p then drop_lock s p else s) t (IDet3 r)
  | IDet3 r => ret (if i_fd s p then set_fd (drop_lock s p) p false else s) t r
  | IUse => if i_map s p then ret s t true else die s p true          (* e.g. lib/flckshm.cc:676: pFlHead-> *)
  end.

Inductive ilabel :=
| ISpawn (p : Z)               (** a process starts *)
| IDie (p : Z)                 (** a process exits or is killed *)
| IFork (t q : Z)              (** thread [t] forks; the child is process [q] *)
| ICall (t : Z) (c : icall)
| IRun (t : Z) (fail : bool).

Definition i_step (s : istate) (x : ilabel) : istate :=
  match x with
  | ISpawn p => if i_alive s p then s else
      mkI (i_exists s) (i_file s) (i_wr s) (i_rd s) (i_fd s) (i_map s) (upd (i_alive s) p true) (i_pc s) (i_use s) (i_res s) (i_inh s) (i_crash s)
  | IDie p => if i_alive s p then die s p false else s
  | IFork t q =>                                     (* statics and mapping are copied, fcntl locks are not *)
      if i_alive s (proc t) && negb (i_alive s q) then
        match i_pc s t with
        | IIdle => mkI (i_exists s) (i_file s) (i_wr s) (i_rd s) (upd (i_fd s) q (i_fd s (proc t))) (upd (i_map s) q (i_map s (proc t)))
                       (upd (i_alive s) q true) (i_pc s) (i_use s) (i_res s) (upd (i_inh s) q (i_map s (proc t))) (i_crash s)
        | _ => s
        end
      else s
  | ICall t c => if i_alive s (proc t) then match i_pc s t with IIdle => i_call s t c | _ => s end else s
  | IRun t fail => if i_alive s (proc t) then i_run s t fail else s
  end.

Inductive i_reach (ok : istate -> ilabel -> Prop) : istate -> Prop :=
| ir_init : i_reach ok i_init
| ir_step : forall s x, i_reach ok s -> ok s x -> i_reach ok (i_step s x).

Definition i_exec (s : istate) (ls : list ilabel) : istate := fold_left i_step ls s.
