(** A named mutex used by processes that fork: the machine of Mutex_Model.v driven by user threads, each acting under the
    identity that Pid_Model.v gives it, and with the question whether a thread runs answered by /proc.
    Simplified: the numbers of processes and threads are never used twice; fork happens outside the calls of the library. *)
From Coq Require Import ZArith List Bool Lia.
From Verif Require Import Base Pid_Model Mutex_Model.
Import ListNotations.
Open Scope Z_scope.

Record user := mkU { u_t : uthread; u_run : bool }.     (** a thread of the system; it is running *)
Record fstate := mkF { f_sys : list user; f_m : mstate }.

(** identity under which the thread calls, lib/flckutil.h:170-173 *)
Definition id_of (u : user) : Z := fst (get_flckpid (u_t u)).
(** /proc/<pid>/task/<tid> exists, lib/flckutil.cc:244-266 *)
Definition procs (sys : list user) : list (Z * Z) := map (fun u => (t_pid (u_t u), t_tid (u_t u))) (filter u_run sys).
Definition found (sys : list user) (id : Z) : bool := FindThreadProcess (procs sys) (decompose_pid id) (decompose_tid id).

(** every question about a thread is answered by /proc as it is now *)
Definition ask (sys : list user) (m : mstate) : mstate :=
  mkMS (m_val m) (m_cnt m) (m_guard m) (found sys) (m_pc m) (m_own m) (m_depth m) (m_res m).

Inductive flabel :=
| FProc (pid : Z)                  (** a new process, started by a program that does not use the library *)
| FThread (i : nat) (tid : Z)      (** thread [i] starts another thread of its process *)
| FFork (i : nat) (pid : Z)        (** thread [i] forks process [pid] *)
| FCall (i : nat) (c : mcall)
| FRun (i : nat) (again : bool)
| FDie (i : nat).

Definition running (s : fstate) (i : nat) (u : user) : Prop := nth_error (f_sys s) i = Some u /\ u_run u = true.

(** FProc, FThread, FFork: lib/flckutil.cc:616-634 keeps the thread number in thread-local storage, which starts at 0 in a new
    thread and is copied by fork; FCall, FRun: lib/flcklistnmtx.cc and lib/flckbaselist.tcc as in Mutex_Model.v; FDie: a thread
    or its whole process ends at any instruction (several labels for several threads) *)
Definition f_step (s : fstate) (x : flabel) : fstate :=
  let get i := match nth_error (f_sys s) i with Some u => if u_run u then Some u else None | None => None end in
  match x with
  | FProc pid => let sys := f_sys s ++ [mkU (mkT pid pid 0) true] in mkF sys (ask sys (f_m s))
  | FThread i tid =>
      match get i with
      | Some u => let sys := f_sys s ++ [mkU (mkT (t_pid (u_t u)) tid 0) true] in mkF sys (ask sys (f_m s))
      | None => s
      end
  | FFork i pid =>
      match get i with
      | Some u => match m_pc (f_m s) (id_of u) with
                  | MIdle => let sys := f_sys s ++ [mkU (fork_child (u_t u) pid) true] in mkF sys (ask sys (f_m s))
                  | _ => s
                  end
      | None => s
      end
  | FCall i c =>                                     (* the first call fills the cache *)
      match get i with
      | Some u => let sys := replace_nth i (mkU (snd (get_flckpid (u_t u))) true) (f_sys s) in
                  mkF sys (ask sys (m_call (f_m s) (id_of u) c))
      | None => s
      end
  | FRun i again => match get i with Some u => mkF (f_sys s) (ask (f_sys s) (m_run (f_m s) (id_of u) again)) | None => s end
  | FDie i =>
      match get i with
      | Some u => let sys := replace_nth i (mkU (u_t u) false) (f_sys s) in mkF sys (ask sys (f_m s))
      | None => s
      end
  end.

(** numbers that no process or thread had before *)
Definition fresh (s : fstate) (n : Z) : Prop :=
  0 < n <= INT_MAX /\ forall u, In u (f_sys s) -> t_pid (u_t u) <> n /\ t_tid (u_t u) <> n /\ t_cache (u_t u) <> n.
Definition f_enabled (s : fstate) (x : flabel) : Prop :=
  match x with FProc n | FThread _ n | FFork _ n => fresh s n | _ => True end.

Definition f_init : fstate := mkF [] (ask [] m_init).

Inductive f_reach (ok : fstate -> flabel -> Prop) : fstate -> Prop :=
| fr_init : f_reach ok f_init
| fr_step : forall s x, f_reach ok s -> f_enabled s x -> ok s x -> f_reach ok (f_step s x).

Definition f_exec (s : fstate) (ls : list flabel) : fstate := fold_left f_step ls s.
