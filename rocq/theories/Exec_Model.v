(** Locks of a process that executes another program (execve(2)).  The library has no code for this; what happens follows from how owners are
    named (get_flckpid, lib/flckutil.h:170-173 with lib/flckutil.cc:616-634: process and thread number), how they are looked up (FindThreadProcess and GetFileDevNode,
    lib/flckutil.cc:244-343), and lock and unlock of named mutexes (lib/flckshm.cc:661-729) and ranges (lib/flckshm.cc:731-838).
    Lock and unlock calls are single steps that never wait, recovery passes (lib/flckshm.cc:497-515) too; ranges are locked for reading only, so
    that they do not disturb each other; pools are unlimited.
    The process that makes the pass may read /proc of all others (lib/flckutil.cc:324-332, a program with other rights, is left out).  Numbers of processes, threads and descriptors may be used again.
    A process whose main thread has ended ends by a step of its own ([EDie]), not with the last of the other threads. *)
From Coq Require Import ZArith List Bool Lia.
From Verif Require Import Base.
Import ListNotations.
Open Scope Z_scope.

(** a named mutex, or a range of a file ([n] stands for offset and length); descriptors below 0: locks without a file, lib/fullock.h:36 *)
Inductive what := Mtx (name : Z) | Rng (fd file n : Z).
Definition what_eq : forall a b : what, {a = b} + {a <> b}.
Proof. decide equality; apply Z.eq_dec. Defined.
Record hold := mkX {
  x_w : what; x_pid : Z; x_tid : Z;
  x_img : Z;                      (** which program of the process made the call; not in the code *)
  x_done : bool                   (** the thread that made the call has ended since; not in the code *)
}.
Record esys := mkE {
  e_locks : list hold;
  e_thr : Z -> Z -> bool;         (** process, thread: there is /proc/<process>/task/<thread> *)
  e_zomb : Z -> bool;             (** the main thread has ended before its process: it makes no calls, but the system keeps its entry in /proc until the process ends *)
  e_fd : Z -> Z -> option (Z * bool);   (** process, descriptor: file, and whether execve closes it *)
  e_img : Z -> Z                  (** number of starts and execve calls under this process number so far; not in the code *)
}.
Definition set_locks (s : esys) l := mkE l (e_thr s) (e_zomb s) (e_fd s) (e_img s).
(** note that the threads of these locks have ended *)
Definition mark (f : hold -> bool) (l : list hold) : list hold := map (fun h => if f h then mkX (x_w h) (x_pid h) (x_tid h) (x_img h) true else h) l.
Definition ends (f : hold -> bool) (s : esys) : esys := set_locks s (mark f (e_locks s)).
(** threads that make calls *)
Definition e_runs (s : esys) (p t : Z) : bool := e_thr s p t && negb ((t =? p) && e_zomb s p).
Definition mine (p t : Z) (w : what) (h : hold) : bool :=
  (x_pid h =? p) && (x_tid h =? t) && (if what_eq (x_w h) w then true else false).
Definition same_name (w : what) (h : hold) : bool := if what_eq (x_w h) w then true else false.

Definition EBUSY_E : Z := 16.
Definition EPERM_E : Z := 1.
Definition EINVAL_E : Z := 22.
(** lib/flckshm.cc:697-727 with lib/flckbaselist.tcc:301-326; 783-835.  A descriptor that is not open: lib/flckshm.cc:742-745, in the modes that deny. *)
Definition e_lock (s : esys) (p t : Z) (w : what) : esys * Z :=
  let add := set_locks s (mkX w p t (e_img s p) false :: e_locks s) in
  match w with
  | Mtx n => match find (same_name w) (e_locks s) with
             | Some h => if mine p t w h then (s, 0) else (s, EBUSY_E)
             | None => (add, 0)
             end
  | Rng fd file _ => if fd <? 0 then (add, 0)
                     else match e_fd s p fd with
                          | Some (f, _) => if f =? file then (add, 0) else (s, ENOLCK)
                          | None => (s, ENOLCK)
                          end
  end.
Fixpoint drop_one (P : hold -> bool) (l : list hold) : list hold := match l with [] => [] | h :: r => if P h then r else h :: drop_one P r end.
(** lib/flckshm.cc:677-695 with lib/flckbaselist.tcc:370-400; 751-780.  However often the owner locked a mutex one unlock frees it (the loop of 372-398
    goes on until it is free), so no count is kept.  A mutex nobody ever locked: the code answers EINVAL (680-685), here 0. *)
Definition e_unlock (s : esys) (p t : Z) (w : what) : esys * Z :=
  match w with
  | Mtx n => match find (same_name w) (e_locks s) with
             | Some h => if mine p t w h then (set_locks s (drop_one (same_name w) (e_locks s)), 0) else (s, EPERM_E)
             | None => (s, 0)
             end
  | Rng _ _ _ => match find (mine p t w) (e_locks s) with
                 | Some _ => (set_locks s (drop_one (mine p t w) (e_locks s)), 0)
                 | None => (s, EINVAL_E)
                 end
  end.
(** what a pass finds about an owner: lib/flcklistnmtx.cc:104-112, lib/flcklistlocker.cc:46-77 *)
Definition lost (s : esys) (h : hold) : bool :=
  match x_w h with
  | Mtx _ => negb (e_thr s (x_pid h) (x_tid h))
  | Rng fd file _ => if fd <? 0 then negb (e_thr s (x_pid h) (x_tid h))
                     else match e_fd s (x_pid h) fd with Some (f, _) => negb (f =? file) | None => true end
  end.

Inductive elabel :=
| ELock (p t : Z) (w : what)
| EUnlock (p t : Z) (w : what)
| EExec (p t : Z)                         (** the thread calls execve: the other threads end, it gets the number of the process, descriptors marked so are closed *)
| EThread (p t : Z)                       (** a thread is created *)
| EExit (p t : Z)                         (** a thread ends, the process goes on *)
| EDie (p : Z)
| EStart (p q : Z)                        (** process q forks a child that gets the number p, which nobody has: it has one thread and the descriptors of q *)
| EOpen (p fd file : Z) (cloexec : bool)
| EClose (p fd : Z)
| EPass.
Definition e_step (s : esys) (x : elabel) : esys :=
  match x with
  | ELock p t w => if e_runs s p t then fst (e_lock s p t w) else s
  | EUnlock p t w => if e_runs s p t then fst (e_unlock s p t w) else s
  | EExec p t => if e_runs s p t
                 then ends (fun h => x_pid h =? p)
                        (mkE (e_locks s) (upd (e_thr s) p (fun u => u =? p)) (upd (e_zomb s) p false)
                          (upd (e_fd s) p (fun fd => match e_fd s p fd with Some (f, false) => Some (f, false) | _ => None end)) (upd (e_img s) p (e_img s p + 1)))
                 else s
  | EThread p t => if e_thr s p p then mkE (e_locks s) (upd (e_thr s) p (upd (e_thr s p) t true)) (e_zomb s) (e_fd s) (e_img s) else s
  | EExit p t => if negb (e_thr s p t) then s
                 else ends (fun h => (x_pid h =? p) && (x_tid h =? t))
                   (if t =? p then mkE (e_locks s) (e_thr s) (upd (e_zomb s) p true) (e_fd s) (e_img s)
                    else mkE (e_locks s) (upd (e_thr s) p (upd (e_thr s p) t false)) (e_zomb s) (e_fd s) (e_img s))
  | EDie p => ends (fun h => x_pid h =? p) (mkE (e_locks s) (upd (e_thr s) p (fun _ => false)) (upd (e_zomb s) p false) (upd (e_fd s) p (fun _ => None)) (e_img s))
  | EStart p q => if e_thr s p p || negb (e_thr s q q) then s
                  else mkE (e_locks s) (upd (e_thr s) p (fun u => u =? p)) (upd (e_zomb s) p false) (upd (e_fd s) p (e_fd s q)) (upd (e_img s) p (e_img s p + 1))
  | EOpen p fd file c => if e_thr s p p && (0 <=? fd) then mkE (e_locks s) (e_thr s) (e_zomb s) (upd (e_fd s) p (upd (e_fd s p) fd (Some (file, c)))) (e_img s) else s
  | EClose p fd => mkE (e_locks s) (e_thr s) (e_zomb s) (upd (e_fd s) p (upd (e_fd s p) fd None)) (e_img s)
  | EPass => set_locks s (filter (fun h => negb (lost s h)) (e_locks s))
  end.
Definition e_exec (s : esys) (ls : list elabel) : esys := fold_left e_step ls s.
(** any processes run, each with its main thread *)
Definition e_init (run : Z -> bool) : esys := mkE [] (fun p t => run p && (t =? p)) (fun _ => false) (fun _ _ => None) (fun _ => 0).
