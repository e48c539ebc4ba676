(** The kept thread number: [FlTidCache] and [get_threadid] (lib/flckutil.cc:555-634) with the thread-specific data of the system
    underneath, which other libraries of the process use too.

    Pid_Model.v has the kept number as one field of a thread that is always there.  Here the key is created by the first call (and may not
    be obtained), storing a value may fail, the key is deleted when the process exits, its number may then be given to another library,
    and fork copies everything. *)
From Coq Require Import ZArith List Bool Lia.
From Verif Require Import Base.
Import ListNotations.
Open Scope Z_scope.

(** ** Thread-specific data of the system (not the library's code; POSIX pthread_key_create/delete/getspecific/setspecific as glibc has
    them).  Each key has a number that is odd while the key is in use and grows with every creation and deletion; a thread stores with a value
    the number of the key at that moment, and a value with another number counts as NULL (0 here). *)
Definition in_use (seq : Z -> Z) (k : Z) : bool := Z.odd (seq k).
Definition bump (seq : Z -> Z) (k : Z) : Z -> Z := upd seq k (seq k + 1).
Definition get_spec (seq : Z -> Z) (v : Z -> Z * Z) (k : Z) : Z := if fst (v k) =? seq k then snd (v k) else 0.
(** [fail]: no memory for the value *)
Definition set_spec (seq : Z -> Z) (v : Z -> Z * Z) (k x : Z) (fail : bool) : Z -> Z * Z :=
  if in_use seq k && negb fail then upd v k (seq k, x) else v.

(** ** The object *)
(** the static object of lib/flckutil.cc:595-599: not constructed; constructed without a key (lines 573-576, Initialized false);
    constructed with a key (line 578).  The destructor (lines 582-590) leaves both fields as they are. *)
Inductive cache := NotYet | NoKey | Key (k : Z).
Record kproc := mkP { p_seq : Z -> Z; p_cache : cache; p_down : bool;   (** the destructor has run *)
                      p_other : Z -> bool }.                            (** keys that other libraries have created and not deleted *)
Record kthread := mkKT { kt_pid : Z; kt_tid : Z; kt_v : Z -> Z * Z;
                         kt_exp : Z -> Z }.   (** ghost: what the other libraries have last stored under a key of theirs *)

(** the constructor, lib/flckutil.cc:571-580; [got]: the key that pthread_key_create finds, if any *)
Definition construct (p : kproc) (got : option Z) : kproc :=
  match p_cache p with
  | NotYet => match got with
              | Some k => if in_use (p_seq p) k then mkP (p_seq p) NoKey (p_down p) (p_other p)
                          else mkP (bump (p_seq p) k) (Key k) (p_down p) (p_other p)
              | None => mkP (p_seq p) NoKey (p_down p) (p_other p)
              end
  | _ => p
  end.
(** lib/flckutil.cc:616-634 after the object exists *)
Definition get_threadid (p : kproc) (t : kthread) (fail : bool) : Z * kthread :=
  match p_cache p with
  | Key k => let x := get_spec (p_seq p) (kt_v t) k in
             if x =? 0 then (kt_tid t, mkKT (kt_pid t) (kt_tid t) (set_spec (p_seq p) (kt_v t) k (kt_tid t) fail) (kt_exp t))
             else (x, t)
  | _ => (kt_tid t, t)
  end.
(** lib/flckutil.cc:582-590, run by exit() when the object was constructed; pthread_key_delete refuses a key not in use *)
Definition destruct_cache (p : kproc) : kproc :=
  match p_cache p with
  | NotYet => p
  | NoKey => mkP (p_seq p) NoKey true (p_other p)
  | Key k => mkP (if in_use (p_seq p) k then bump (p_seq p) k else p_seq p) (Key k) true (p_other p)
  end.

(** ** Systems *)
Record ksys := mkKS { ks_th : list kthread; ks_pr : Z -> kproc;
                      ks_ids : list (nat * Z);           (** what get_threadid returned, by thread *)
                      ks_reads : list (Z * Z) }.         (** what another library read, and what it had stored *)
Inductive klabel :=
| KGet (i : nat) (got : option Z) (fail : bool)   (** thread [i] calls a function of the library *)
| KExit (pid : Z)                                 (** the process runs the destructor of the object *)
| KNew (i : nat) (tid : Z)                        (** thread [i] starts a thread *)
| KFork (i : nat) (pid : Z)
| KCreate (i : nat) (k : Z)                       (** another library creates a key ... *)
| KDelete (i : nat) (k : Z)                       (** ... deletes one of its keys ... *)
| KSet (i : nat) (k x : Z) (fail : bool)          (** ... stores a value ... *)
| KRead (i : nat) (k : Z).                        (** ... reads it *)

Fixpoint put {A} (n : nat) (x : A) (l : list A) : list A :=
  match l, n with [], _ => [] | _ :: r, O => x :: r | a :: r, S m => a :: put m x r end.
Definition set_exp (t : kthread) e := mkKT (kt_pid t) (kt_tid t) (kt_v t) e.

Definition k_step (s : ksys) (x : klabel) : ksys :=
  match x with
  | KGet i got fail =>
      match nth_error (ks_th s) i with
      | Some t => let p := construct (ks_pr s (kt_pid t)) got in
                  let (r, t') := get_threadid p t fail in
                  mkKS (put i t' (ks_th s)) (upd (ks_pr s) (kt_pid t) p) ((i, r) :: ks_ids s) (ks_reads s)
      | None => s
      end
  | KExit pid => if p_down (ks_pr s pid) then s else mkKS (ks_th s) (upd (ks_pr s) pid (destruct_cache (ks_pr s pid))) (ks_ids s) (ks_reads s)
  | KNew i tid =>
      match nth_error (ks_th s) i with
      | Some t => if 0 <? tid then mkKS (ks_th s ++ [mkKT (kt_pid t) tid (fun _ => (0, 0)) (fun _ => 0)]) (ks_pr s) (ks_ids s) (ks_reads s) else s
      | None => s
      end
  | KFork i pid =>
      match nth_error (ks_th s) i with
      | Some t => if (0 <? pid) && forallb (fun u => negb (kt_pid u =? pid)) (ks_th s)
                  then mkKS (ks_th s ++ [mkKT pid pid (kt_v t) (kt_exp t)]) (upd (ks_pr s) pid (ks_pr s (kt_pid t))) (ks_ids s) (ks_reads s) else s
      | None => s
      end
  | KCreate i k =>
      match nth_error (ks_th s) i with
      | Some t => let p := ks_pr s (kt_pid t) in
                  if in_use (p_seq p) k then s
                  else mkKS (map (fun u => if kt_pid u =? kt_pid t then set_exp u (upd (kt_exp u) k 0) else u) (ks_th s))
                            (upd (ks_pr s) (kt_pid t) (mkP (bump (p_seq p) k) (p_cache p) (p_down p) (upd (p_other p) k true))) (ks_ids s) (ks_reads s)
      | None => s
      end
  | KDelete i k =>
      match nth_error (ks_th s) i with
      | Some t => let p := ks_pr s (kt_pid t) in
                  if p_other p k then mkKS (ks_th s) (upd (ks_pr s) (kt_pid t) (mkP (bump (p_seq p) k) (p_cache p) (p_down p) (upd (p_other p) k false))) (ks_ids s) (ks_reads s)
                  else s
      | None => s
      end
  | KSet i k x fail =>
      match nth_error (ks_th s) i with
      | Some t => let p := ks_pr s (kt_pid t) in
                  if p_other p k && negb fail
                  then mkKS (put i (mkKT (kt_pid t) (kt_tid t) (set_spec (p_seq p) (kt_v t) k x false) (upd (kt_exp t) k x)) (ks_th s)) (ks_pr s) (ks_ids s) (ks_reads s)
                  else s
      | None => s
      end
  | KRead i k =>
      match nth_error (ks_th s) i with
      | Some t => let p := ks_pr s (kt_pid t) in
                  if p_other p k then mkKS (ks_th s) (ks_pr s) (ks_ids s) ((get_spec (p_seq p) (kt_v t) k, kt_exp t k) :: ks_reads s) else s
      | None => s
      end
  end.
Definition k_exec (s : ksys) (ls : list klabel) : ksys := fold_left k_step ls s.

(** one process with one thread that has not used the library; other libraries may already have keys and values *)
Definition k_init (pid : Z) : ksys :=
  mkKS [mkKT pid pid (fun _ => (0, 0)) (fun _ => 0)] (fun _ => mkP (fun _ => 0) NotYet false (fun _ => false)) [] [].
