(** Read/write locks used by processes that fork: the machine of RwApi_Model.v driven by user threads, each acting under the
    identity that Pid_Model.v gives it; the questions whether a thread or process runs are answered by /proc.  A forked child
    has copies of the descriptor table and of the settings of its parent.
    Simplified: the numbers of processes and threads are never used twice; fork happens outside the calls of the library. *)
From Coq Require Import ZArith List Bool Lia.
From Verif Require Import Base Pid_Model Mutex_Model Fchild_Model RwWord_Model RwApi_Model.
Import ListNotations.
Open Scope Z_scope.

Record kstate := mkK { k_sys : list user; k_r : rstate }.

(** /proc/<pid> exists, so that /proc/<pid>/fd can be looked at, lib/flckutil.cc:292-344 *)
Definition there (sys : list user) (p : Z) : bool := existsb (fun u => u_run u && (t_pid (u_t u) =? p)) sys.
(** every question about threads and processes is answered by /proc as it is now *)
Definition ask_r (sys : list user) (r : rstate) : rstate :=
  mkR (r_h r) (r_guard r) (r_pc r) (r_res r) (found sys) (there sys) (r_fd r) (r_mode r) (r_allow r).
(** process [p] with a descriptor table and settings *)
Definition furnish (r : rstate) (p : Z) (tab : Z -> option Z) (m : fmode) (a : bool) : rstate :=
  mkR (r_h r) (r_guard r) (r_pc r) (r_res r) (r_talive r) (r_palive r) (upd (r_fd r) p tab) (upd (r_mode r) p m) (upd (r_allow r) p a).

Inductive klabel :=
| KProc (pid : Z) (tab : Z -> option Z) (m : fmode) (a : bool)   (** a new process, started by a program that does not use the library *)
| KThread (i : nat) (tid : Z)         (** thread [i] starts another thread of its process *)
| KFork (i : nat) (pid : Z)           (** thread [i] forks process [pid] *)
| KCall (i : nat) (c : rcall)
| KRun (i : nat) (race give_up : bool)
| KSetFd (i : nat) (fd : Z) (d : option Z)      (** thread [i] opens, closes or replaces a descriptor of its process *)
| KSetMode (i : nat) (m : fmode)
| KDie (i : nat).

Definition k_get (s : kstate) (i : nat) : option user :=
  match nth_error (k_sys s) i with Some u => if u_run u then Some u else None | None => None end.

(** KProc, KThread, KFork: lib/flckutil.cc:616-634 keeps the thread number in thread-local storage, which starts at 0 in a new thread
    and is copied by fork, as are the static variables of lib/flckshm.cc:176-200; KCall, KRun, KSetFd, KSetMode as in RwApi_Model.v;
    KDie: a thread ends at any instruction, a process with its last thread *)
Definition k_step (s : kstate) (x : klabel) : kstate :=
  let r := k_r s in
  match x with
  | KProc pid tab m a => let sys := k_sys s ++ [mkU (mkT pid pid 0) true] in mkK sys (ask_r sys (furnish r pid tab m a))
  | KThread i tid =>
      match k_get s i with
      | Some u => let sys := k_sys s ++ [mkU (mkT (t_pid (u_t u)) tid 0) true] in mkK sys (ask_r sys r)
      | None => s
      end
  | KFork i pid =>
      match k_get s i with
      | Some u => match r_pc r (id_of u) with
                  | RIdle => let sys := k_sys s ++ [mkU (fork_child (u_t u) pid) true] in
                             let p := t_pid (u_t u) in mkK sys (ask_r sys (furnish r pid (r_fd r p) (r_mode r p) (r_allow r p)))
                  | _ => s
                  end
      | None => s
      end
  | KCall i c =>                                     (* the first call fills the cache *)
      match k_get s i with
      | Some u => match r_pc r (id_of u) with
                  | RIdle => let sys := replace_nth i (mkU (snd (get_flckpid (u_t u))) true) (k_sys s) in mkK sys (ask_r sys (r_call r (id_of u) c))
                  | _ => s
                  end
      | None => s
      end
  | KRun i race gu => match k_get s i with Some u => mkK (k_sys s) (r_run r (id_of u) race gu) | None => s end
  | KSetFd i fd d => match k_get s i with Some u => mkK (k_sys s) (r_step r (LSetFd (t_pid (u_t u)) fd d)) | None => s end
  | KSetMode i m => match k_get s i with Some u => mkK (k_sys s) (r_step r (LSetMode (t_pid (u_t u)) m)) | None => s end
  | KDie i => match k_get s i with Some u => let sys := replace_nth i (mkU (u_t u) false) (k_sys s) in mkK sys (ask_r sys r) | None => s end
  end.

(** numbers that no process or thread had before *)
Definition k_fresh (s : kstate) (n : Z) : Prop :=
  0 < n <= INT_MAX /\ forall u, In u (k_sys s) -> t_pid (u_t u) <> n /\ t_tid (u_t u) <> n /\ t_cache (u_t u) <> n.
Definition k_enabled (s : kstate) (x : klabel) : Prop :=
  match x with KProc n _ _ _ | KThread _ n | KFork _ n => k_fresh s n | _ => True end.

(** no process yet; the pools as lib/flckshminit.cc:230-303 leaves them *)
Definition k_init (UF UO UL : list Z) : kstate :=
  mkK [] (ask_r [] (r_init UF UO UL (fun _ _ => None) (fun _ => FREE_FD) (fun _ => true))).

Inductive k_reach (s0 : kstate) (ok : kstate -> klabel -> Prop) : kstate -> Prop :=
| kr_init : k_reach s0 ok s0
| kr_step : forall s x, k_reach s0 ok s -> k_enabled s x -> ok s x -> k_reach s0 ok (k_step s x).
Definition k_exec (s : kstate) (ls : list klabel) : kstate := fold_left k_step ls s.
