(** Mutexes over re-initialisation: what fullock_reinitialize (lib/fullock.cc:117-123, FlShm::ReInitializeObject lib/flckshm.cc:293-404) does
    to locks that are held.  Several files, several processes; a call is one step (the mutexes of one file seen as single steps: C113; opening
    and leaving a file: C47-C49). *)
From Coq Require Import ZArith List Bool Lia.
From Verif Require Import Base.
Import ListNotations.
Open Scope Z_scope.

(** a thread: process number and thread number (the identity of lib/flckutil.h:get_flckpid) *)
Definition who := (Z * Z)%type.
Definition who_eqb (a b : who) : bool := (fst a =? fst b) && (snd a =? snd b).
(** the mutexes of a file by name: [None] the name is in no entry, [Some o] it is, with this owner.  Entries are never taken out again. *)
Definition table := Z -> option (option who).
Definition fresh : table := fun _ => None.

Record fsys := mkF {
  f_tab : Z -> table;              (** by path *)
  f_att : Z -> option Z;           (** by process: the file it is attached to (FlShm::ShmFd, FlShm::pShmBase) *)
  f_live : Z -> bool;              (** by process *)
  f_got : list (who * Z * Z)       (** ghost: thread, file, name: the lock call returned 0 and no unlock call of the thread has since *)
}.
Inductive flabel :=
| FLock (u : who) (n : Z)                        (** a try lock; a blocking call is repeated attempts *)
| FUnlock (u : who) (n : Z)
| FReinit (pid f : Z) (ok : bool)                (** fullock_reinitialize, also the first start; [ok = false]: the file cannot be opened *)
| FDie (pid : Z)                                 (** death or exit *)
| FPass (pid : Z).                               (** a recovery pass of the worker thread of a process *)

Definition EINVAL_F : Z := 22. Definition EPERM_F : Z := 1. Definition EBUSY_F : Z := 16. Definition ENOLCK_F : Z := 37.
Definition same_got (x y : who * Z * Z) : bool := who_eqb (fst (fst x)) (fst (fst y)) && (snd (fst x) =? snd (fst y)) && (snd x =? snd y).
Definition drop_got (x : who * Z * Z) (l : list (who * Z * Z)) := filter (fun y => negb (same_got x y)) l.
Definition set_name (s : fsys) (f n : Z) (o : option who) : Z -> table := upd (f_tab s) f (upd (f_tab s f) n (Some o)).

(** lib/flckshm.cc:661-730.  A process without a file: ENOLCK here, the answer of the modes that deny (lines 668-671; the modes that allow
    answer 0 without locking anything, C65 and C74) *)
Definition f_lock (s : fsys) (u : who) (n : Z) : fsys * Z :=
  match f_att s (fst u) with
  | None => (s, ENOLCK_F)
  | Some f =>
      match f_tab s f n with
      | Some (Some w) => if who_eqb w u then (mkF (f_tab s) (f_att s) (f_live s) ((u, f, n) :: f_got s), 0) else (s, EBUSY_F)
      | _ => (mkF (set_name s f n (Some u)) (f_att s) (f_live s) ((u, f, n) :: f_got s), 0)
      end
  end.
(** lib/flckshm.cc:681-697 and lib/flcklistnmtx.cc (FlListNMtx::unlock: all levels at once, 0 for a free mutex, EPERM for one of another thread) *)
Definition f_unlock (s : fsys) (u : who) (n : Z) : fsys * Z :=
  match f_att s (fst u) with
  | None => (s, ENOLCK_F)
  | Some f =>
      match f_tab s f n with
      | None => (s, EINVAL_F)
      | Some None => (mkF (f_tab s) (f_att s) (f_live s) (drop_got (u, f, n) (f_got s)), 0)
      | Some (Some w) => if who_eqb w u then (mkF (set_name s f n None) (f_att s) (f_live s) (drop_got (u, f, n) (f_got s)), 0) else (s, EPERM_F)
      end
  end.
(** FlShm::Destroy and Detach (lib/flckshminit.cc:88-113, 376-395): the mapping and the lock of the file go, the content stays *)
Definition f_leave (s : fsys) (pid : Z) : fsys := mkF (f_tab s) (upd (f_att s) pid None) (f_live s) (f_got s).
(** somebody has the lock of the file: FileWriteLock fails (lib/flckshminit.cc:144) *)
Definition others_at (procs : list Z) (s : fsys) (f : Z) : bool :=
  existsb (fun q => f_live s q && match f_att s q with Some g => g =? f | None => false end) procs.
(** lib/flckshm.cc:329-403 and lib/flckshminit.cc:115-200: leave, then open; whoever gets the write lock empties the file (lines 144-158),
    otherwise it is used as it is (lines 160-168) *)
Definition f_reinit (procs : list Z) (s : fsys) (pid f : Z) (ok : bool) : fsys :=
  let s1 := f_leave s pid in
  if ok then mkF (if others_at procs s1 f then f_tab s1 else upd (f_tab s1) f fresh) (upd (f_att s1) pid (Some f)) (f_live s1) (f_got s1)
  else s1.
Definition f_die (s : fsys) (pid : Z) : fsys :=
  mkF (f_tab s) (upd (f_att s) pid None) (upd (f_live s) pid false) (filter (fun x => negb (fst (fst (fst x)) =? pid)) (f_got s)).
(** the worker looks at the file of its process only (lib/flckshm.cc:496-513, 567-590); a blocking lock call runs the same check (lib/flcklistnmtx.cc:84) *)
Definition f_pass (s : fsys) (pid : Z) : fsys :=
  match f_att s pid with
  | None => s
  | Some f => mkF (upd (f_tab s) f (fun n => match f_tab s f n with Some (Some w) => if f_live s (fst w) then Some (Some w) else Some None | x => x end))
                  (f_att s) (f_live s) (f_got s)
  end.
(** the processes there are; the dead do nothing *)
Definition f_step (procs : list Z) (s : fsys) (x : flabel) : fsys :=
  let p := match x with FLock u _ | FUnlock u _ => fst u | FReinit pid _ _ | FDie pid | FPass pid => pid end in
  if existsb (Z.eqb p) procs && f_live s p then
    match x with
    | FLock u n => fst (f_lock s u n)
    | FUnlock u n => fst (f_unlock s u n)
    | FReinit pid f ok => f_reinit procs s pid f ok
    | FDie pid => f_die s pid
    | FPass pid => f_pass s pid
    end
  else s.
Definition f_exec (procs : list Z) (s : fsys) (ls : list flabel) : fsys := fold_left (f_step procs) ls s.
(** nobody has a file yet; the files may contain anything *)
Definition f_init (t : Z -> table) : fsys := mkF t (fun _ => None) (fun _ => true) [].
