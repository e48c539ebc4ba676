(** Model of what the worker thread takes from the system and gives back: its parameter block and
    the copy of the path in it, its epoll and its inotify descriptor.
    lib/flckthread.cc:38-42, 88-96, 101-126, 154-269, 330-390; lib/flckutil.h:63-76;
    lib/flckshminit.cc:203-226; lib/flckshm.cc:631-643.

    The control of the worker is Thread_Model.v (state [r_t]); here the places WStart, WSetup,
    WWait and WClean of the worker and CInit2, CReset of the callers are split into their accesses
    to the static members, to the heap and to the descriptor table.  A block or descriptor gets a
    number that was never used before, so that a stale pointer or descriptor is seen as such even
    where the allocator or the kernel would give the number to somebody else.  NULL and
    FLCK_INVALID_HANDLE are 0.  Simplifications: strdup and new do not fail; the watch number of
    inotify is replaced by the number of the inotify descriptor it belongs to. *)
From Verif Require Import Base Thread_Model.
From Coq Require Import ZArith List Bool.
Import ListNotations.
Open Scope Z_scope.

(** lib/flckthread.cc:38-42 (FLCKTHPARAM with its [pfilepath]); a string; neither *)
Inductive cell := Gone | Str | Blk (path : Z).

(** heap, descriptors and the static members of FlckThread (lib/flckthread.cc:88-96) *)
Record res := mkRes {
  x_param : Z;              (** pThreadParam *)
  x_ino : Z;                (** InotifyFd *)
  x_watch : Z;              (** WatchFd *)
  x_evt : Z;                (** EventFd *)
  x_mem : Z -> cell;
  x_fds : Z -> bool;        (** open descriptors *)
  x_new : Z;                (** next number *)
  x_bad : bool;             (** memory was used or freed that had been freed before *)
  x_badfd : bool }.         (** a descriptor was used or closed that is not open *)

Definition x_param_ (x : res) v := mkRes v (x_ino x) (x_watch x) (x_evt x) (x_mem x) (x_fds x) (x_new x) (x_bad x) (x_badfd x).
Definition x_ino_ (x : res) v := mkRes (x_param x) v (x_watch x) (x_evt x) (x_mem x) (x_fds x) (x_new x) (x_bad x) (x_badfd x).
Definition x_watch_ (x : res) v := mkRes (x_param x) (x_ino x) v (x_evt x) (x_mem x) (x_fds x) (x_new x) (x_bad x) (x_badfd x).
Definition x_evt_ (x : res) v := mkRes (x_param x) (x_ino x) (x_watch x) v (x_mem x) (x_fds x) (x_new x) (x_bad x) (x_badfd x).
Definition x_mem_ (x : res) a c := mkRes (x_param x) (x_ino x) (x_watch x) (x_evt x) (upd (x_mem x) a c) (x_fds x) (x_new x) (x_bad x) (x_badfd x).
Definition x_fds_ (x : res) d b := mkRes (x_param x) (x_ino x) (x_watch x) (x_evt x) (x_mem x) (upd (x_fds x) d b) (x_new x) (x_bad x) (x_badfd x).
Definition x_new_ (x : res) v := mkRes (x_param x) (x_ino x) (x_watch x) (x_evt x) (x_mem x) (x_fds x) v (x_bad x) (x_badfd x).
Definition x_bad_ (x : res) := mkRes (x_param x) (x_ino x) (x_watch x) (x_evt x) (x_mem x) (x_fds x) (x_new x) true (x_badfd x).
Definition x_badfd_ (x : res) := mkRes (x_param x) (x_ino x) (x_watch x) (x_evt x) (x_mem x) (x_fds x) (x_new x) (x_bad x) true.

(** lib/flckthread.cc:345-348: the block and the copy of the path; the block is number [x_new + 1] *)
Definition alloc (x : res) : res :=
  x_new_ (x_mem_ (x_mem_ x (x_new x) Str) (x_new x + 1) (Blk (x_new x))) (x_new x + 2).

(** an access to the block *)
Definition read_blk (x : res) (b : Z) : res :=
  match x_mem x b with Blk _ => x | _ => x_bad_ x end.
(** an access to a string *)
Definition read_str (x : res) (a : Z) : res :=
  match x_mem x a with Str => x | _ => x_bad_ x end.
(** [FLCK_Free(pparam->pfilepath)], lib/flckutil.h:63-66 *)
Definition free_path (x : res) (b : Z) : res :=
  match x_mem x b with
  | Blk p => if p =? 0 then x
             else match x_mem x p with
                  | Str => x_mem_ (x_mem_ x p Gone) b (Blk 0)
                  | _ => x_bad_ x
                  end
  | _ => x_bad_ x
  end.
(** [FLCK_Delete(pparam)], lib/flckutil.h:68-71 *)
Definition free_blk (x : res) (b : Z) : res :=
  match x_mem x b with Blk _ => x_mem_ x b Gone | _ => x_bad_ x end.

(** an access to a descriptor *)
Definition use_fd (x : res) (d : Z) : res := if x_fds x d then x else x_badfd_ x.
(** close *)
Definition close_fd (x : res) (d : Z) : res := if x_fds x d then x_fds_ x d false else x_badfd_ x.
(** epoll_create1, inotify_init1: the new descriptor is number [x_new] *)
Definition open_fd (x : res) : res := x_new_ (x_fds_ x (x_new x) true) (x_new x + 1).

Record rstate := mkR {
  r_t : tstate;
  r_ws : Z -> nat;          (** how far a worker is inside its place *)
  r_cs : Z -> nat;          (** how far a caller is inside its place *)
  r_arg : Z -> Z;           (** [pparam] of a worker: the argument of WorkerProc and of the handler *)
  r_pth : Z -> Z;           (** [pfilepath] of a worker (178) *)
  r_loc : Z -> Z;           (** [pparam] (345) or [oldparam] (376) of a caller *)
  r_res : res;
  r_forks : nat }.          (** how many forks ago this process began *)

Definition set_t (r : rstate) s := mkR s (r_ws r) (r_cs r) (r_arg r) (r_pth r) (r_loc r) (r_res r) (r_forks r).
Definition set_ws (r : rstate) w n := mkR (r_t r) (upd (r_ws r) w n) (r_cs r) (r_arg r) (r_pth r) (r_loc r) (r_res r) (r_forks r).
Definition set_cs (r : rstate) t n := mkR (r_t r) (r_ws r) (upd (r_cs r) t n) (r_arg r) (r_pth r) (r_loc r) (r_res r) (r_forks r).
Definition set_arg (r : rstate) w b := mkR (r_t r) (r_ws r) (r_cs r) (upd (r_arg r) w b) (r_pth r) (r_loc r) (r_res r) (r_forks r).
Definition set_pth (r : rstate) w a := mkR (r_t r) (r_ws r) (r_cs r) (r_arg r) (upd (r_pth r) w a) (r_loc r) (r_res r) (r_forks r).
Definition set_loc (r : rstate) t b := mkR (r_t r) (r_ws r) (r_cs r) (r_arg r) (r_pth r) (upd (r_loc r) t b) (r_res r) (r_forks r).
Definition set_x (r : rstate) x := mkR (r_t r) (r_ws r) (r_cs r) (r_arg r) (r_pth r) (r_loc r) x (r_forks r).

(** a process that is about to make its first worker object; [n] fork handlers *)
Definition init_r (n : nat) : rstate :=
  mkR (init_t n) (fun _ => O) (fun _ => O) (fun _ => 0) (fun _ => 0) (fun _ => 0)
      (mkRes 0 0 0 0 (fun _ => Gone) (fun _ => false) 1 false false) O.

(** the worker leaves its place *)
Definition go (r : rstate) (w : Z) (fail : bool) : rstate := set_ws (set_t r (t_work (r_t r) w fail)) w O.
(** it does one access and stays *)
Definition at_ (r : rstate) (w : Z) (x : res) : rstate := set_ws (set_x r x) w (S (r_ws r w)).

(** 159-185 *)
Definition w_start (r : rstate) (w : Z) : rstate :=
  let x := r_res r in
  match r_ws r w with
  | 0%nat => at_ r w (x_ino_ x 0)                                   (* 163 *)
  | 1%nat => at_ r w (x_watch_ x 0)                                 (* 164 *)
  | 2%nat => at_ r w (x_evt_ x 0)                                   (* 165 *)
  | 3%nat => at_ r w (x_param_ x (r_arg r w))                       (* 175 *)
  | _ =>                                                            (* 176-185 *)
      go (set_pth (set_x r (read_blk x (r_arg r w))) w
            (match x_mem x (r_arg r w) with Blk p => p | _ => 0 end)) w false
  end.

(** 186-217; [fail]: the call fails *)
Definition w_setup (r : rstate) (w : Z) (fail : bool) : rstate :=
  let x := r_res r in
  match r_ws r w with
  | 0%nat => if t_cancel (r_t r) w then go r w false else at_ r w x (* 186 *)
  | 1%nat =>                                                        (* 189 *)
      if fail then go (set_x r (x_evt_ x 0)) w true else at_ r w (x_evt_ (open_fd x) (x_new x))
  | 2%nat =>                                                        (* 195 *)
      if fail then go (set_x r (x_ino_ x 0)) w true else at_ r w (x_ino_ (open_fd x) (x_new x))
  | 3%nat =>                                                        (* 201 *)
      let x := read_str (use_fd x (x_ino x)) (r_pth r w) in
      if fail then go (set_x r (x_watch_ x 0)) w true else at_ r w (x_watch_ x (x_ino x))
  | 4%nat =>                                                        (* 208-216 *)
      let x := use_fd (use_fd x (x_evt x)) (x_ino x) in
      if fail then go (set_x r x) w true else at_ r w x
  | _ => go r w false                                               (* 217 *)
  end.

(** 229-265: epoll_pwait, and the inotify descriptor for its events *)
Definition w_wait (r : rstate) (w : Z) (fail : bool) : rstate :=
  let x := r_res r in
  go (set_x r (use_fd (use_fd x (x_evt x)) (x_ino x))) w fail.

(** 101-120: CleanupHandler up to the flag *)
Definition w_clean (r : rstate) (w : Z) : rstate :=
  let x := r_res r in
  match r_ws r w with
  | 0%nat => at_ r w (read_blk x (r_arg r w))                       (* 104 *)
  | 1%nat => at_ r w (x_param_ x 0)                                 (* 109 *)
  | 2%nat => at_ r w (free_path x (r_arg r w))                      (* 111 *)
  | 3%nat => at_ r w (free_blk x (r_arg r w))                       (* 112 *)
  | 4%nat => at_ r w (if x_watch x =? 0 then x else use_fd x (x_ino x))     (* 116-118 *)
  | 5%nat => at_ r w (if x_ino x =? 0 then x else close_fd x (x_ino x))     (* 119 *)
  | 6%nat => at_ r w (x_ino_ x 0)
  | 7%nat => at_ r w (if x_evt x =? 0 then x else close_fd x (x_evt x))     (* 120 *)
  | _ => go (set_x r (x_evt_ x 0)) w false
  end.

Definition r_work (r : rstate) (w : Z) (fail : bool) : rstate :=
  match t_wk (r_t r) w with
  | WStart => w_start r w
  | WSetup => w_setup r w fail
  | WWait => w_wait r w fail
  | WClean => w_clean r w
  | _ => go r w fail
  end.

(** a caller leaves its place *)
Definition leave (r : rstate) (t : Z) (fail : bool) (w : Z) : rstate :=
  set_cs (set_t r (t_ctl (r_t r) t fail w)) t O.

Definition r_ctl (r : rstate) (t : Z) (fail : bool) (w : Z) : rstate :=
  let x := r_res r in
  match t_pc (r_t r) t with
  | CInit2 _ =>
      match r_cs r t with
      | O => set_cs (set_loc (set_x r (alloc x)) t (x_new x + 1)) t 1%nat     (* 345-348 *)
      | _ =>                                                                  (* 351-358 *)
          if fail then leave (set_x r (free_blk (free_path x (r_loc r t)) (r_loc r t))) t true w
          else set_ws (set_arg (leave r t false w) w (r_loc r t)) w O
      end
  | CReset _ =>
      match r_cs r t with
      | 0%nat => if t_bup (r_t r) then                                        (* 369 *)
                   set_cs (set_loc r t (x_param x)) t                         (* 376-377 *)
                     (if x_param x =? 0 then 4%nat else 1%nat)
                 else leave r t fail w
      | 1%nat => set_cs (set_x r (free_path x (r_loc r t))) t 2%nat           (* 378 *)
      | 2%nat => set_cs (set_x r (free_blk x (r_loc r t))) t 3%nat            (* 379 *)
      | 3%nat => set_cs (set_x r (x_param_ x 0)) t 4%nat                      (* 380 *)
      | _ => leave r t fail w
      end
  | _ => leave r t fail w
  end.

Inductive rlabel :=
| RT (l : tlabel)
| RNew.                     (** lib/flckshminit.cc:204, 223: another object, another fork handler *)

(** in the child: the memory and the descriptors of the parent, of its threads only [t] *)
Definition r_fork (r : rstate) (t : Z) : rstate :=
  mkR (fork_t (r_t r) t) (fun _ => O) (fun _ => O) (r_arg r) (r_pth r) (r_loc r) (r_res r) (S (r_forks r)).

(** a new object, the old one being gone; threads of the process stay *)
Definition new_obj (s : tstate) : tstate :=
  mkT STOP false 0 (t_wk s) (t_cancel s) (t_pc s) (t_res s) (S (t_regs s)) false false (t_bad s).

Definition r_step (r : rstate) (l : rlabel) : option rstate :=
  match l with
  | RT (LCall t k) => match t_pc (r_t r) t with CIdle => Some (set_t r (t_call (r_t r) t k)) | _ => None end
  | RT (LCtl t f w) => match t_step (r_t r) (LCtl t f w) with Some _ => Some (r_ctl r t f w) | None => None end
  | RT (LWork w f) => match t_wk (r_t r) w with WNone | WDone => None | _ => Some (r_work r w f) end
  | RT (LFork t) => match t_pc (r_t r) t with CIdle => Some (r_fork r t) | _ => None end
  | RNew => if t_freed (r_t r) then Some (set_t r (new_obj (r_t r))) else None
  end.

(** executions from [r1] whose steps satisfy [ok] *)
Inductive rsteps (ok : rstate -> rlabel -> Prop) (r1 : rstate) : rstate -> Prop :=
| rsteps_refl : rsteps ok r1 r1
| rsteps_next : forall r2 l r3, rsteps ok r1 r2 -> ok r2 l -> r_step r2 l = Some r3 -> rsteps ok r1 r3.

Definition r_reach (ok : rstate -> rlabel -> Prop) (n : nat) : rstate -> Prop := rsteps ok (init_r n).
