(** The read/write lock API ([fullock_rwlock_*]): file entries, range entries, locker entries and their
    pools in shared memory, any number of threads and processes, recovery passes and deaths.

    Granularity.  One step is: taking or dropping the list guard [file_lock_lockid], one list operation
    together with the plain stores next to it (all under the guard; the order of stores inside a list
    operation is the subject of List_Model.v), one attempt on a lock word (RwWord_Model.v shows that an
    attempt takes effect at one compare-and-swap), or setting the [locked] flag.  Lists are sequences of
    entry numbers (C35 relates them to the pointer structures).

    A thread is named by its [flckpid]; its process is the upper 32 bits. *)
From Coq Require Import ZArith List Bool Lia.
From Verif Require Import Base Range_Model RwWord_Model.
Import ListNotations.
Open Scope Z_scope.

(** lib/flckutil.h:186-189 [decompose_pid], as a number (C01 relates it to the packing) *)
Definition proc_of_thread (t : Z) : Z := t / two32.

(** lib/flckcommon.h:46 FLCK_EACCESS_ID: used as device and inode of descriptor-less locks.
    A file is a number standing for the pair (st_dev, st_ino). *)
Definition NODEV : Z := -1.

(** lib/fullock.h:36 IS_FLCK_RWLOCK_NO_FD: bit 31 of the descriptor, i.e. a negative int *)
Definition is_no_fd (fd : Z) : bool := fd <? 0.

(** lib/flckstructure.h FLFILELOCK without [next]; [dev_id] and [ino_id] together are [f_dev] *)
Record frec := mkF { f_dev : Z; f_prot : bool; f_offs : list Z }.
(** lib/flckstructure.h FLOFFLOCK without [next] *)
Record orec := mkO { o_off : Z; o_len : Z; o_val : Z; o_prot : bool; o_rd : list Z; o_wr : list Z }.
(** lib/flckstructure.h FLLOCKER without [next] *)
Record lrec := mkL { l_tid : Z; l_fd : Z; l_locked : bool }.

(** what a lock call that returned 0 has granted *)
Record grant := mkG { gr_t : Z; gr_fd : Z; gr_dev : Z; gr_off : Z; gr_len : Z; gr_kind : rwmode }.

(** life of a locker entry (not in the code; used only to talk about executions):
    waiting, lock word acquired but [locked] not yet set, granted, lock word released but [locked]
    still set, finished *)
Inductive lstat := LWait | LAcq | LHeld (g : grant) | LRel | LDone.

(** shared memory *)
Record heap := mkH {
  h_f : Z -> frec;  h_o : Z -> orec;  h_l : Z -> lrec;
  h_flist : list Z;                               (** file_lock_list *)
  h_ffree : list Z; h_ofree : list Z; h_lfree : list Z;   (** file_lock_free, offset_lock_free, locker_free *)
  h_st : Z -> lstat }.                            (** ghost *)

Definition set_f (h : heap) f v := mkH (upd (h_f h) f v) (h_o h) (h_l h) (h_flist h) (h_ffree h) (h_ofree h) (h_lfree h) (h_st h).
Definition set_o (h : heap) o v := mkH (h_f h) (upd (h_o h) o v) (h_l h) (h_flist h) (h_ffree h) (h_ofree h) (h_lfree h) (h_st h).
Definition set_l (h : heap) l v := mkH (h_f h) (h_o h) (upd (h_l h) l v) (h_flist h) (h_ffree h) (h_ofree h) (h_lfree h) (h_st h).
Definition set_st (h : heap) l v := mkH (h_f h) (h_o h) (h_l h) (h_flist h) (h_ffree h) (h_ofree h) (h_lfree h) (upd (h_st h) l v).
Definition set_files (h : heap) fl ff := mkH (h_f h) (h_o h) (h_l h) fl ff (h_ofree h) (h_lfree h) (h_st h).
Definition set_ofree (h : heap) x := mkH (h_f h) (h_o h) (h_l h) (h_flist h) (h_ffree h) x (h_lfree h) (h_st h).
Definition set_lfree (h : heap) x := mkH (h_f h) (h_o h) (h_l h) (h_flist h) (h_ffree h) (h_ofree h) x (h_st h).

Definition f_set_prot (r : frec) b := mkF (f_dev r) b (f_offs r).
Definition f_set_offs (r : frec) x := mkF (f_dev r) (f_prot r) x.
Definition o_set_prot (r : orec) b := mkO (o_off r) (o_len r) (o_val r) b (o_rd r) (o_wr r).
Definition o_set_val (r : orec) v := mkO (o_off r) (o_len r) v (o_prot r) (o_rd r) (o_wr r).
Definition o_set_list (r : orec) (k : rwmode) x :=
  match k with
  | Rd => mkO (o_off r) (o_len r) (o_val r) (o_prot r) x (o_wr r)
  | Wr => mkO (o_off r) (o_len r) (o_val r) (o_prot r) (o_rd r) x
  end.
Definition o_list (r : orec) (k : rwmode) := match k with Rd => o_rd r | Wr => o_wr r end.
Definition l_set_locked (r : lrec) b := mkL (l_tid r) (l_fd r) b.

(** removal of an entry from a list ([cutoff_list], lib/flckbaselist.tcc:614-643) *)
Definition del (x : Z) (l : list Z) : list Z := filter (fun y => negb (y =? x)) l.
Definition mem (x : Z) (l : list Z) : bool := existsb (fun y => y =? x) l.

(** lib/flcklistfilelock.h:69-73, lib/flcklistfilelock.h:90-107: first file entry with this device/inode *)
Definition find_file (h : heap) (dev : Z) : option Z :=
  find (fun f => f_dev (h_f h f) =? dev) (h_flist h).
(** lib/flcklistofflock.h:72-82, 107-139: first range entry of the file that matches *)
Definition find_off (h : heap) (f off len : Z) : option Z :=
  find (fun o => range_match (o_off (h_o h o)) (o_len (h_o h o)) off len) (f_offs (h_f h f)).
(** lib/flcklistlocker.h:62-68, 84-108: first locker with this thread, descriptor and flag *)
Definition find_locker (h : heap) (ls : list Z) (t fd : Z) (locked : bool) : option Z :=
  find (fun l => (l_tid (h_l h l) =? t) && (l_fd (h_l h l) =? fd) && Bool.eqb (l_locked (h_l h l)) locked) ls.

Definition nonempty {A} (l : list A) : bool := match l with [] => false | _ => true end.

(** lib/flcklistofflock.h:88 *)
Definition off_locked (h : heap) (o : Z) : bool :=
  o_prot (h_o h o) || nonempty (o_rd (h_o h o)) || nonempty (o_wr (h_o h o)).
(** lib/flcklistfilelock.cc:197-214 *)
Definition file_locked (h : heap) (f : Z) : bool :=
  f_prot (h_f h f) || existsb (off_locked h) (f_offs (h_f h f)).

(** lib/flckbaselist.tcc:246-263 [fl_unlock_rwlock], the value written by the successful CAS *)
Definition unlock_word (v : Z) : Z :=
  if v =? RW_UNLOCK then v else if v <=? RW_WLOCK then RW_UNLOCK else v - 1.
(** lib/flckbaselist.tcc:145-244: does an attempt succeed on this value, and what does it write *)
Definition word_permits (k : rwmode) (v : Z) : bool := match k with Rd => RW_UNLOCK <=? v | Wr => v =? RW_UNLOCK end.
Definition lock_word (k : rwmode) (v : Z) : Z := match k with Rd => v + 1 | Wr => RW_WLOCK end.

(** moving a locker from a list of the range entry to the pool
    (lib/flcklistofflock.cc:106-111, 151-156, 255-269) *)
Definition drop_locker (h : heap) (o : Z) (k : rwmode) (l : Z) : heap :=
  set_lfree (set_o h o (o_set_list (h_o h o) k (del l (o_list (h_o h o) k)))) (l :: h_lfree h).
(** moving a range entry to the pool (lib/flcklistfilelock.cc:91-96, 141-146, 173-178) *)
Definition drop_off (h : heap) (f o : Z) : heap :=
  set_ofree (set_f h f (f_set_offs (h_f h f) (del o (f_offs (h_f h f))))) (o :: h_ofree h).
(** moving a file entry to the pool (lib/flckshm.cc:772-777, 824-829, 540-545) *)
Definition drop_file (h : heap) (f : Z) : heap :=
  set_files h (del f (h_flist h)) (f :: h_ffree h).

(** lib/flcklistofflock.cc:321-355 [free_locker_list], one list: the entries are inserted one by one
    at the head of the pool *)
Definition free_lockers (h : heap) (o : Z) : heap :=
  let r := h_o h o in
  set_lfree (set_o h o (mkO (o_off r) (o_len r) (o_val r) (o_prot r) [] []))
            (rev (o_wr r) ++ rev (o_rd r) ++ h_lfree h).
(** lib/flcklistfilelock.cc:216-239 [free_offset_lock_list] *)
Definition free_offs (h : heap) (f : Z) : heap :=
  let offs := f_offs (h_f h f) in
  let h1 := fold_left (fun h o => let h' := free_lockers h o in set_ofree h' (o :: h_ofree h')) offs h in
  set_f h1 f (f_set_offs (h_f h1 f) []).

(** ** Calls *)
Inductive waitmode := WTry | WBlock | WTimed.
Record rargs := mkA { a_kind : rwmode; a_fd : Z; a_off : Z; a_len : Z; a_wait : waitmode; a_dev : Z }.

Inductive rcall :=
| CLock (k : rwmode) (fd off len : Z) (w : waitmode)
| CUnlockRw (fd off len : Z)
| CIsLocked (fd off len : Z)
| CPass (priv : bool).      (** recovery pass of the worker; [priv]: may read /proc/<pid>/fd of others *)

(** ** Program points *)
Inductive rpc :=
| RIdle
| RWait (p : rpc)                         (** spinning for the guard, then [p] *)
| RDrop (p : rpc)                         (** holding the guard, about to drop it, then [p] *)
| RRet (e : Z)                            (** about to return [e] *)
(* lock *)
| A2 (a : rargs)                          (** lib/flckshm.cc:785-807 *)
| A3 (a : rargs) (f : Z)                  (** lib/flcklistfilelock.cc:103-127 *)
| A4 (a : rargs) (f o : Z)                (** lib/flcklistofflock.cc:118-138 *)
| AT (a : rargs) (f o l : Z)              (** lib/flcklistofflock.cc:173-192: attempt on the lock word *)
| AS (a : rargs) (f o l : Z)              (** lib/flcklistofflock.cc:164: about to set [locked] *)
| AD0 (a : rargs) (f o l : Z)             (** lib/flcklistofflock.cc:214-219 *)
| AD (a : rargs) (f o l : Z) (ls : list (rwmode * Z))   (** lib/flcklistofflock.cc:240-317, 222 *)
| F1 (a : rargs) (f o : Z) (e : Z)        (** lib/flcklistofflock.cc:150-157 *)
| F2 (a : rargs) (f : Z) (e : Z)          (** lib/flcklistfilelock.cc:138-148 *)
| F3 (a : rargs) (e : Z)                  (** lib/flckshm.cc:818-831 *)
(* unlock *)
| B2 (a : rargs)                          (** lib/flckshm.cc:754, flcklistfilelock.cc:75, flcklistofflock.cc:84-97 *)
| B3 (a : rargs) (f o : Z) (k : rwmode) (l : Z)   (** lib/flcklistofflock.cc:103 *)
| B4 (a : rargs) (f o : Z) (k : rwmode) (l : Z)   (** lib/flcklistofflock.cc:106-111 *)
| B5 (a : rargs) (f o : Z)                (** lib/flcklistfilelock.cc:88-98 *)
| B6 (a : rargs) (f : Z)                  (** lib/flckshm.cc:769-779 *)
(* islocked *)
| Q2 (a : rargs)                          (** lib/flckshm.cc:862-867 *)
(* recovery pass, lib/flckshm.cc:520-562: remaining files; remaining ranges of the first of them;
   remaining lockers of the first range *)
| P0 (priv : bool)
| PP (priv : bool) (fs : list Z) (os : option (list Z)) (ls : option (list (rwmode * Z))).

(** lib/flckshm.h:36-57 free_unit_mode; a process-local static *)
Inductive fmode := FREE_NO | FREE_FD | FREE_OFFSET.
(** lib/flckshm.h:151-152 *)
Definition is_free_fd (m : fmode) : bool := match m with FREE_FD => true | _ => false end.
Definition is_free_off (m : fmode) : bool := match m with FREE_NO => false | _ => true end.

Record rstate := mkR {
  r_h : heap;
  r_guard : option Z;                  (** file_lock_lockid *)
  r_pc : Z -> rpc;                     (** by thread *)
  r_res : Z -> option Z;               (** result of the last call *)
  r_talive : Z -> bool;                (** thread has not terminated *)
  r_palive : Z -> bool;                (** process exists *)
  r_fd : Z -> Z -> option Z;           (** descriptor tables: process, descriptor -> file *)
  r_mode : Z -> fmode;                 (** process-local free mode *)
  r_allow : Z -> bool }.               (** process-local NomapMode is one of the ALLOW modes *)

Definition alive (s : rstate) (t : Z) : bool := r_palive s (proc_of_thread t) && r_talive s t.

(** lib/flckutil.cc:346-366 [GetFileDevNode(int fd, ..)] *)
Definition dev_of (s : rstate) (t fd : Z) : option Z :=
  if is_no_fd fd then Some NODEV else r_fd s (proc_of_thread t) fd.

(** lib/flcklistlocker.cc:46-75 with lib/flckutil.cc:292-344, probing the locker entry [l] for the file
    [dev] ([priv] = stat on /proc/<pid>/fd/<fd> is permitted).  The probe cache is not modelled here (C59). *)
Definition probe_dead (s : rstate) (priv : bool) (t fd dev : Z) : bool :=
  if is_no_fd fd then negb (alive s t)
  else if priv then
    if r_palive s (proc_of_thread t)
    then match r_fd s (proc_of_thread t) fd with
         | Some d => negb (d =? NODEV) && negb (d =? dev)
         | None => true
         end
    else true
  else negb (alive s t).

Definition set_h (s : rstate) h := mkR h (r_guard s) (r_pc s) (r_res s) (r_talive s) (r_palive s) (r_fd s) (r_mode s) (r_allow s).
Definition set_guard (s : rstate) g := mkR (r_h s) g (r_pc s) (r_res s) (r_talive s) (r_palive s) (r_fd s) (r_mode s) (r_allow s).
Definition goto (s : rstate) t p := mkR (r_h s) (r_guard s) (upd (r_pc s) t p) (r_res s) (r_talive s) (r_palive s) (r_fd s) (r_mode s) (r_allow s).
Definition ret (s : rstate) t (e : Z) := mkR (r_h s) (r_guard s) (upd (r_pc s) t RIdle) (upd (r_res s) t (Some e)) (r_talive s) (r_palive s) (r_fd s) (r_mode s) (r_allow s).

Definition my_free_fd (s : rstate) t := is_free_fd (r_mode s (proc_of_thread t)).
Definition my_free_off (s : rstate) t := is_free_off (r_mode s (proc_of_thread t)).

(** entry into the API: lib/flckshm.cc:731-749 (also 840-860 for islocked) *)
Definition r_call (s : rstate) (t : Z) (c : rcall) : rstate :=
  match c with
  | CLock k fd off len w =>
      match dev_of s t fd with
      | None => ret s t (if r_allow s (proc_of_thread t) then OK else ENOLCK)   (* line 744 *)
      | Some d => goto s t (RWait (A2 (mkA k fd off len w d)))
      end
  | CUnlockRw fd off len =>
      match dev_of s t fd with
      | None => ret s t (if r_allow s (proc_of_thread t) then OK else ENOLCK)
      | Some d => goto s t (RWait (B2 (mkA Rd fd off len WBlock d)))
      end
  | CIsLocked fd off len =>
      match dev_of s t fd with
      | None => ret s t 0                                                       (* line 855 *)
      | Some d => goto s t (RWait (Q2 (mkA Rd fd off len WBlock d)))
      end
  | CPass priv => goto s t (RWait (P0 priv))
  end.

(** lockers of a range entry in the order in which [check_dead_lock] visits them *)
Definition off_lockers (r : orec) : list (rwmode * Z) := map (pair Rd) (o_rd r) ++ map (pair Wr) (o_wr r).

(** lib/flcklistofflock.cc:252-270, 287-305: one locker of range entry [o] of a file with number [dev];
    [exc] is the excepted (thread, descriptor) *)
Definition check_locker (s : rstate) (priv : bool) (exc : option (Z * Z)) (dev o : Z) (k : rwmode) (l : Z) : heap :=
  let h := r_h s in
  let r := h_l h l in
  let excepted := match exc with Some (t, fd) => (l_tid r =? t) && (l_fd r =? fd) | None => false end in
  if excepted then h
  else if probe_dead s priv (l_tid r) (l_fd r) dev && mem l (o_list (h_o h o) k) then
    let h1 := if l_locked r then set_o h o (o_set_val (h_o h o) (unlock_word (o_val (h_o h o)))) else h in
    set_st (drop_locker h1 o k l) l LDone
  else h.

(** what follows a failed lock call after the locker entry is gone *)
Definition after_f1 (s : rstate) t a f e : rpc := if my_free_off s t then RWait (F2 a f e) else
                                                  if my_free_fd s t then RWait (F3 a e) else RRet e.
Definition after_f2 (s : rstate) t a e : rpc := if my_free_fd s t then RWait (F3 a e) else RRet e.

(** lib/flckshm.cc:520-562 with lib/flcklistfilelock.cc:160-192, one step of the pass *)
Definition pass_step (s : rstate) (t : Z) (priv : bool) (fs : list Z) (os : option (list Z))
           (ls : option (list (rwmode * Z))) : rstate :=
  let h := r_h s in
  match fs with
  | [] => goto s t (RDrop (RRet OK))
  | f :: fs' =>
      match os with
      | None => goto s t (PP priv fs (Some (f_offs (h_f h f))) None)
      | Some [] => goto (if file_locked h f then s else set_h s (drop_file h f)) t (PP priv fs' None None)
      | Some (o :: os') =>
          match ls with
          | None => goto s t (PP priv fs os (Some (off_lockers (h_o h o))))
          | Some [] => goto (if off_locked h o then s else set_h s (drop_off h f o)) t (PP priv fs (Some os') None)
          | Some ((k, l) :: ls') =>
              goto (set_h s (check_locker s priv None (f_dev (h_f h f)) o k l)) t (PP priv fs os (Some ls'))
          end
      end
  end.

(** one step of thread [t].  [race]: the word changed between load and CAS of a read attempt;
    [give_up]: the timeout has expired, or the loop limit of the blocking call is reached in high robust mode. *)
Definition r_run (s : rstate) (t : Z) (race give_up : bool) : rstate :=
  let h := r_h s in
  match r_pc s t with
  | RIdle => s
  | RWait p =>                                            (* lib/flckbaselist.tcc:59-92, see Guard_Model.v *)
      match r_guard s with
      | None => goto (set_guard s (Some t)) t p
      | Some u => if alive s u then s else goto (set_guard s (Some t)) t p
      end
  | RDrop p => goto (set_guard s None) t p
  | RRet e => ret s t e
  (* lock: lib/flckshm.cc:783-835, lib/flcklistfilelock.cc:100-153, lib/flcklistofflock.cc:113-165 *)
  | A2 a =>
      match find_file h (a_dev a) with
      | Some f => goto (set_h s (set_f h f (f_set_prot (h_f h f) true))) t (A3 a f)
      | None =>
          match h_ffree h with
          | [] => goto s t (RDrop (RRet ENOLCK))
          | f :: ff => goto (set_h s (set_files (set_f h f (mkF (a_dev a) true [])) (f :: h_flist h) ff)) t (A3 a f)
          end
      end
  | A3 a f =>
      match find_off h f (a_off a) (a_len a) with
      | Some o =>
          let h1 := set_o h o (o_set_prot (h_o h o) true) in
          goto (set_h s (set_f h1 f (f_set_prot (h_f h1 f) false))) t (A4 a f o)
      | None =>
          match h_ofree h with
          | [] => goto s t (RDrop (after_f2 s t a ENOLCK))
          | o :: rest =>
              let h1 := set_ofree (set_o h o (mkO (a_off a) (a_len a) RW_UNLOCK true [] [])) rest in
              let h2 := set_f h1 f (f_set_offs (h_f h1 f) (o :: f_offs (h_f h1 f))) in
              goto (set_h s (set_f h2 f (f_set_prot (h_f h2 f) false))) t (A4 a f o)
          end
      end
  | A4 a f o =>
      match h_lfree h with
      | [] => goto s t (RDrop (after_f1 s t a f ENOLCK))
      | l :: rest =>
          let h1 := set_st (set_lfree (set_l h l (mkL t (a_fd a) false)) rest) l LWait in
          let h2 := set_o h1 o (o_set_list (h_o h1 o) (a_kind a) (l :: o_list (h_o h1 o) (a_kind a))) in
          goto (set_h s (set_o h2 o (o_set_prot (h_o h2 o) false))) t (RDrop (AT a f o l))
      end
  | AT a f o l =>
      let r := h_o h o in
      let raced := match a_kind a with Rd => race | Wr => false end in
      if word_permits (a_kind a) (o_val r) && negb raced
      then goto (set_h s (set_st (set_o h o (o_set_val r (lock_word (a_kind a) (o_val r)))) l LAcq)) t (AS a f o l)
      else match a_wait a with
           | WTry => goto s t (RWait (F1 a f o EBUSY))
           | WTimed => if give_up then goto s t (RWait (F1 a f o ETIMEDOUT)) else s
           | WBlock => if give_up then goto s t (RWait (AD0 a f o l)) else s
           end
  | AS a f o l =>
      ret (set_h s (set_st (set_l h l (l_set_locked (h_l h l) true)) l
                     (LHeld (mkG t (a_fd a) (a_dev a) (a_off a) (a_len a) (a_kind a))))) t OK
  | AD0 a f o l =>
      goto (set_h s (set_o h o (o_set_prot (h_o h o) true))) t (AD a f o l (off_lockers (h_o h o)))
  | AD a f o l [] => goto (set_h s (set_o h o (o_set_prot (h_o h o) false))) t (RDrop (AT a f o l))
  | AD a f o l ((k, x) :: ls) =>
      goto (set_h s (check_locker s give_up (Some (t, a_fd a)) (a_dev a) o k x)) t (AD a f o l ls)
  | F1 a f o e =>
      match find_locker h (o_list (h_o h o) (a_kind a)) t (a_fd a) false with
      | Some l => goto (set_h s (set_st (drop_locker h o (a_kind a) l) l LDone)) t (RDrop (after_f1 s t a f e))
      | None => goto s t (RDrop (after_f1 s t a f e))
      end
  | F2 a f e =>
      match find_off h f (a_off a) (a_len a) with
      | Some o => goto (if off_locked h o then s else set_h s (drop_off h f o)) t (RDrop (after_f2 s t a e))
      | None => goto s t (RDrop (after_f2 s t a e))
      end
  | F3 a e =>
      match find_file h (a_dev a) with
      | Some f => goto (if file_locked h f then s else set_h s (drop_file (free_offs h f) f)) t (RDrop (RRet e))
      | None => goto s t (RDrop (RRet e))
      end
  (* unlock: lib/flckshm.cc:751-780, lib/flcklistfilelock.cc:72-99, lib/flcklistofflock.cc:78-111 *)
  | B2 a =>
      match find_file h (a_dev a) with
      | None => goto s t (RDrop (RRet EINVAL))
      | Some f =>
          match find_off h f (a_off a) (a_len a) with
          | None => goto s t (RDrop (RRet EINVAL))
          | Some o =>
              let found := match find_locker h (o_wr (h_o h o)) t (a_fd a) true with
                           | Some l => Some (Wr, l)
                           | None => match find_locker h (o_rd (h_o h o)) t (a_fd a) true with
                                     | Some l => Some (Rd, l)
                                     | None => None
                                     end
                           end in
              match found with
              | None => goto s t (RDrop (RRet EINVAL))
              | Some (k, l) =>
                  goto (set_h s (set_st (set_o h o (o_set_val (h_o h o) (unlock_word (o_val (h_o h o))))) l LRel)) t
                       (B3 a f o k l)
              end
          end
      end
  | B3 a f o k l =>
      goto (set_h s (set_st (set_l h l (l_set_locked (h_l h l) false)) l LDone)) t (B4 a f o k l)
  | B4 a f o k l => goto (set_h s (drop_locker h o k l)) t (B5 a f o)
  | B5 a f o => goto (if my_free_off s t && negb (off_locked h o) then set_h s (drop_off h f o) else s) t (B6 a f)
  | B6 a f => goto (if my_free_fd s t && negb (file_locked h f) then set_h s (drop_file h f) else s) t (RDrop (RRet OK))
  (* islocked: lib/flckshm.cc:862-870; offset and length are not used *)
  | Q2 a =>
      match find_file h (a_dev a) with
      | None => goto s t (RDrop (RRet 0))
      | Some f => goto s t (RDrop (RRet (if file_locked h f then 1 else 0)))
      end
  | P0 priv => goto s t (PP priv (h_flist h) None None)
  | PP priv fs os ls => pass_step s t priv fs os ls
  end.

Inductive rlabel :=
| LCall (t : Z) (c : rcall)
| LRun (t : Z) (race give_up : bool)
| LSetFd (p fd : Z) (d : option Z)        (** the program opens, closes or replaces a descriptor *)
| LSetMode (p : Z) (m : fmode)            (** fullock_set_free_mode, lib/flckshm.cc:430-437 *)
| LDieThread (t : Z)
| LDieProc (p : Z).

Definition r_step (s : rstate) (x : rlabel) : rstate :=
  match x with
  | LCall t c => if alive s t then match r_pc s t with RIdle => r_call s t c | _ => s end else s
  | LRun t race give_up => if alive s t then r_run s t race give_up else s
  | LSetFd p fd d => mkR (r_h s) (r_guard s) (r_pc s) (r_res s) (r_talive s) (r_palive s)
                         (fun p' fd' => if (p' =? p) && (fd' =? fd) then d else r_fd s p' fd') (r_mode s) (r_allow s)
  | LSetMode p m => mkR (r_h s) (r_guard s) (r_pc s) (r_res s) (r_talive s) (r_palive s) (r_fd s) (upd (r_mode s) p m) (r_allow s)
  | LDieThread t => mkR (r_h s) (r_guard s) (r_pc s) (r_res s) (upd (r_talive s) t false) (r_palive s) (r_fd s) (r_mode s) (r_allow s)
  | LDieProc p => mkR (r_h s) (r_guard s) (r_pc s) (r_res s) (r_talive s) (upd (r_palive s) p false) (r_fd s) (r_mode s) (r_allow s)
  end.

Definition r_exec (s : rstate) (ls : list rlabel) : rstate := fold_left r_step ls s.

(** the memory after InitializeShm (lib/flckshminit.cc:115-229, 304-374): all entries in the pools *)
Definition heap_init (UF UO UL : list Z) : heap :=
  mkH (fun _ => mkF 0 true []) (fun _ => mkO 0 0 RW_UNLOCK true [] []) (fun _ => mkL 0 (-1) false)
      [] UF UO UL (fun _ => LDone).

Definition r_init (UF UO UL : list Z) (fds : Z -> Z -> option Z) (mode : Z -> fmode) (allow : Z -> bool) : rstate :=
  mkR (heap_init UF UO UL) None (fun _ => RIdle) (fun _ => None) (fun _ => true) (fun _ => true) fds mode allow.

(** reachability under a condition on schedules *)
Inductive r_reach (s0 : rstate) (ok : rstate -> rlabel -> Prop) : rstate -> Prop :=
| rr_init : r_reach s0 ok s0
| rr_step : forall s x, r_reach s0 ok s -> ok s x -> r_reach s0 ok (r_step s x).
