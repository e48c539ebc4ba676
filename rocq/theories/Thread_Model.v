(** Model of the control of the worker thread: lib/flckthread.cc:47-86 (flag operations), 100-126
    (cleanup), 152-270 (worker), 319-489 (methods), and of the use of the object by
    lib/flckshminit.cc:203-226, 383-387 and lib/flckshm.cc:631-641.

    One object, any number of threads calling its methods and any number of workers; one step per
    access to the shared flag.  Simplifications: waiting for events and the work done for them is
    one step (that work is modelled in the other areas); the parameter block is not shared state
    here (Wres_Model.v has it); of the backup path (341, 369) only whether it is empty is kept; an
    error of pthread_tryjoin_np other than "not ended yet" is "no such thread". *)
From Verif Require Import Base.
From Coq Require Import ZArith List Bool.
Import ListNotations.
Open Scope Z_scope.

(** lib/flckthread.h:43-48 *)
Definition RUN : Z := 0.
Definition STOP : Z := 1.
Definition EXIT : Z := 2.
Definition FIN : Z := 3.

(** the worker: lib/flckthread.cc:154-270 *)
Inductive wpc :=
| WNone                (** no such thread *)
| WStart               (** 159-187: cancellation blocked *)
| WSetup               (** 189-225: descriptors *)
| WLoop                (** 230: test of the flag *)
| WStop                (** 233 *)
| WSleep               (** 235: nanosleep *)
| WRun                 (** 237 *)
| WWait                (** 240-267: epoll_pwait and the events *)
| WClean               (** 102-121: cleanup handler *)
| WFin (old : Z)       (** 124, 47-58, 70-73: loop of [set_fin_thread_cntrl_flag] *)
| WEnd                 (** handler done, thread not ended yet *)
| WDone.               (** ended, not joined *)

(** what follows a method: return to the caller; the destructor (lib/flckshminit.cc:385-386); the
    end of the destructor; [Run] inside the fork handler with [n] more handlers to go; the next of
    [n] handlers *)
Inductive kont := KRet | KDtor | KFree | KRunH (n : nat) | KNextH (n : nat).

(** a thread inside a method *)
Inductive cpc :=
| CIdle
| CInit1 (k : kont)               (** 336: IsInitWorker; 341-342 *)
| CInit2 (k : kont)               (** 350-361: pthread_create *)
| CRun1 (k : kont)                (** 394 *)
| CRun2 (k : kont)                (** 399 *)
| CStop1                          (** 411 *)
| CStop2                          (** 416 *)
| CCas (k : kont) (old new : Z)   (** 47-58: loop of [set_val_thread_cntrl_flag] *)
| CExit1 (k : kont)               (** 428 *)
| CExit2 (k : kont)               (** 432 *)
| CExit3 (k : kont)               (** 442: pthread_cancel *)
| CExit4 (k : kont) (old : Z)     (** 75-86: loop of [set_exit_thread_cntrl_flag] *)
| CJoin (k : kont)                (** 457 *)
| CJoin2 (k : kont)               (** 461 *)
| CLast (k : kont)                (** 468: last retry *)
| CExit5 (k : kont)               (** 485 *)
| CDtor                           (** 323-328: destructor *)
| CFree                           (** end of the destructor: memory given back *)
| CReset (n : nat).               (** 367-390: ReInitializeThread in a child, [n] handlers to go *)

Record tstate := mkT {
  t_flag : Z;               (** thflag *)
  t_init : bool;            (** is_run_worker *)
  t_cur : Z;                (** pthreadid *)
  t_wk : Z -> wpc;          (** the workers *)
  t_cancel : Z -> bool;     (** a cancellation request is pending *)
  t_pc : Z -> cpc;
  t_res : Z -> option bool; (** result of the last call *)
  t_regs : nat;             (** fork handlers registered by the process *)
  t_bup : bool;             (** bup_filepath is not empty *)
  t_freed : bool;           (** the object is gone *)
  t_bad : bool }.           (** somebody used the object afterwards *)

(** 319-321: constructor, in a process that has or will have [n] fork handlers *)
Definition init_t (n : nat) : tstate :=
  mkT STOP false 0 (fun _ => WNone) (fun _ => false) (fun _ => CIdle) (fun _ => None) n false false false.

Definition s_flag (s : tstate) v := mkT v (t_init s) (t_cur s) (t_wk s) (t_cancel s) (t_pc s) (t_res s) (t_regs s) (t_bup s) (t_freed s) (t_bad s).
Definition s_init (s : tstate) b := mkT (t_flag s) b (t_cur s) (t_wk s) (t_cancel s) (t_pc s) (t_res s) (t_regs s) (t_bup s) (t_freed s) (t_bad s).
Definition s_cur (s : tstate) w := mkT (t_flag s) (t_init s) w (t_wk s) (t_cancel s) (t_pc s) (t_res s) (t_regs s) (t_bup s) (t_freed s) (t_bad s).
Definition s_wk (s : tstate) w p := mkT (t_flag s) (t_init s) (t_cur s) (upd (t_wk s) w p) (t_cancel s) (t_pc s) (t_res s) (t_regs s) (t_bup s) (t_freed s) (t_bad s).
Definition s_cancel (s : tstate) w b := mkT (t_flag s) (t_init s) (t_cur s) (t_wk s) (upd (t_cancel s) w b) (t_pc s) (t_res s) (t_regs s) (t_bup s) (t_freed s) (t_bad s).
Definition s_pc (s : tstate) t p := mkT (t_flag s) (t_init s) (t_cur s) (t_wk s) (t_cancel s) (upd (t_pc s) t p) (t_res s) (t_regs s) (t_bup s) (t_freed s) (t_bad s).
Definition s_res (s : tstate) t b := mkT (t_flag s) (t_init s) (t_cur s) (t_wk s) (t_cancel s) (t_pc s) (upd (t_res s) t (Some b)) (t_regs s) (t_bup s) (t_freed s) (t_bad s).
(** 341-342 *)
Definition s_bup (s : tstate) := mkT (t_flag s) (t_init s) (t_cur s) (t_wk s) (t_cancel s) (t_pc s) (t_res s) (t_regs s) true (t_freed s) (t_bad s).
Definition s_free (s : tstate) := mkT (t_flag s) (t_init s) (t_cur s) (t_wk s) (t_cancel s) (t_pc s) (t_res s) (t_regs s) (t_bup s) true (t_bad s).
(** an access to the object *)
Definition touch (s : tstate) := mkT (t_flag s) (t_init s) (t_cur s) (t_wk s) (t_cancel s) (t_pc s) (t_res s) (t_regs s) (t_bup s) (t_freed s) (t_bad s || t_freed s).

(** calls: InitializeThread with a path, Run, Stop, Exit; [KDel] is lib/flckshminit.cc:384-386 *)
Inductive kcall := KInit | KRun | KStop | KExit | KDel.

Definition t_call (s : tstate) (t : Z) (k : kcall) : tstate :=
  match k with
  | KInit => s_pc s t (CInit1 KRet)
  | KRun => s_pc s t (CRun1 KRet)
  | KStop => s_pc s t CStop1
  | KExit => s_pc s t (CExit1 KRet)
  | KDel => s_pc s t (CExit1 KDtor)
  end.

(** the end of a method; lib/flckshm.cc:634-639: the handler calls Run whatever the first call said *)
Definition fin_call (s : tstate) (t : Z) (k : kont) (b : bool) : tstate :=
  match k with
  | KRet => s_res (s_pc s t CIdle) t b
  | KDtor => s_pc s t CDtor
  | KFree => s_pc s t CFree
  | KRunH n => s_pc s t (CRun1 (KNextH n))
  | KNextH O => s_pc s t CIdle
  | KNextH (S n) => s_pc s t (CReset n)
  end.

(** one step of a thread inside a method; [fail]: pthread_create or pthread_cancel fails; [w]: the
    thread made by pthread_create *)
Definition t_ctl (s0 : tstate) (t : Z) (fail : bool) (w : Z) : tstate :=
  let s := touch s0 in
  match t_pc s0 t with
  | CIdle => s0
  | CInit1 k => if t_init s then fin_call s t k false else s_pc (s_bup s) t (CInit2 k)
  | CInit2 k => if fail then fin_call s t k false
                else fin_call (s_cancel (s_wk (s_cur (s_init s true) w) w WStart) w false) t k true
  | CRun1 k => if t_init s then s_pc s t (CRun2 k) else fin_call s t k false
  | CRun2 k => if t_flag s =? STOP then s_pc s t (CCas k STOP RUN) else fin_call s t k false
  | CStop1 => if t_init s then s_pc s t CStop2 else fin_call s t KRet false
  | CStop2 => if t_flag s =? RUN then s_pc s t (CCas KRet RUN STOP) else fin_call s t KRet false
  | CCas k old new =>
      let '(v, r) := cas (t_flag s) old new in
      if r =? old then fin_call (s_flag s v) t k true
      else if r =? new then fin_call s t k true
      else s_pc s t (CCas k r new)
  | CExit1 k => if t_init s then s_pc s t (CExit2 k) else fin_call s t k false
  | CExit2 k => if EXIT <=? t_flag s then fin_call s t k true else s_pc s t (CExit3 k)
  | CExit3 k => if fail then fin_call s t k false else s_pc (s_cancel s (t_cur s) true) t (CExit4 k RUN)
  | CExit4 k old =>
      let '(v, r) := cas (t_flag s) old EXIT in
      if r =? old then s_pc (s_flag s v) t (CJoin k)
      else if EXIT <=? r then s_pc s t (CJoin k)
      else s_pc s t (CExit4 k r)
  | CJoin k =>
      match t_wk s (t_cur s) with
      | WDone => s_pc (s_wk s (t_cur s) WNone) t (CExit5 k)
      | WNone => s_pc s t (CExit5 k)                       (* no such thread *)
      | _ => s_pc s t (CJoin2 k)                           (* EBUSY *)
      end
  | CJoin2 k => if t_flag s =? FIN then s_pc s t (CLast k) else s_pc s t (CJoin k)
  | CLast k =>
      match t_wk s (t_cur s) with
      | WDone => s_pc (s_wk s (t_cur s) WNone) t (CExit5 k)
      | _ => s_pc s t (CExit5 k)
      end
  | CExit5 k => fin_call (s_init s false) t k true
  | CDtor => if t_init s then s_pc s t (CExit1 KFree) else s_pc s t CFree
  | CFree => s_free (fin_call s t KRet true)
  | CReset n => if t_bup s then s_pc (s_init (s_flag s STOP) false) t (CInit1 (KRunH n))
                else fin_call s t (KRunH n) false          (* 369-372: nothing was ever started *)
  end.

(** places where a pending cancellation takes effect *)
Definition cancel_point (w : wpc) : bool :=
  match w with WSetup | WLoop | WSleep | WWait => true | _ => false end.

(** one step of the worker [w]; [fail]: a descriptor could not be made, or epoll_pwait failed *)
Definition t_work (s : tstate) (w : Z) (fail : bool) : tstate :=
  if t_cancel s w && cancel_point (t_wk s w) then s_wk s w WClean
  else match t_wk s w with
  | WNone | WDone => s
  | WStart => s_wk s w WSetup
  | WSetup => if fail then s_wk s w WClean else s_wk s w WLoop
  | WLoop => let s := touch s in if t_flag s <? EXIT then s_wk s w WStop else s_wk s w WClean
  | WStop => let s := touch s in if t_flag s =? STOP then s_wk s w WSleep else s_wk s w WRun
  | WSleep => s_wk s w WLoop
  | WRun => let s := touch s in if t_flag s =? RUN then s_wk s w WWait else s_wk s w WLoop
  | WWait => if fail then s_wk s w WClean else s_wk s w WLoop
  | WClean => s_wk s w (WFin EXIT)
  | WFin old =>
      let s := touch s in
      let '(v, r) := cas (t_flag s) old FIN in
      if r =? old then s_wk (s_flag s v) w WEnd
      else if r =? FIN then s_wk s w WEnd
      else s_wk s w (WFin r)
  | WEnd => s_wk s w WDone
  end.

Inductive tlabel :=
| LCall (t : Z) (k : kcall)
| LCtl (t : Z) (fail : bool) (w : Z)
| LWork (w : Z) (fail : bool)
| LFork (t : Z).            (** thread [t] forks; the execution goes on in the child *)

(** in the child only [t] exists, and it runs the registered handlers on the copy of the object
    (nothing to do when the object is gone: lib/flckshm.cc:633) *)
Definition fork_t (s : tstate) (t : Z) : tstate :=
  mkT (t_flag s) (t_init s) (t_cur s) (fun _ => WNone) (fun _ => false)
      (fun x => if x =? t then
         (if t_freed s then CIdle else match t_regs s with O => CIdle | S n => CReset n end)
         else CIdle)
      (fun _ => None) (t_regs s) (t_bup s) (t_freed s) (t_bad s).

Definition t_step (s : tstate) (l : tlabel) : option tstate :=
  match l with
  | LCall t k => match t_pc s t with CIdle => Some (t_call s t k) | _ => None end
  | LCtl t f w =>
      match t_pc s t with
      | CIdle => None
      | CInit2 _ => match t_wk s w with WNone => Some (t_ctl s t f w) | _ => None end
      | _ => Some (t_ctl s t f w)
      end
  | LWork w f => match t_wk s w with WNone | WDone => None | _ => Some (t_work s w f) end
  | LFork t => match t_pc s t with CIdle => Some (fork_t s t) | _ => None end
  end.

(** executions from [s1] whose steps satisfy [ok] *)
Inductive steps (ok : tstate -> tlabel -> Prop) (s1 : tstate) : tstate -> Prop :=
| steps_refl : steps ok s1 s1
| steps_next : forall s2 l s3, steps ok s1 s2 -> ok s2 l -> t_step s2 l = Some s3 -> steps ok s1 s3.

Definition reach (ok : tstate -> tlabel -> Prop) (n : nat) : tstate -> Prop := steps ok (init_t n).
