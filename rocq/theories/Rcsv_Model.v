(** Model of the recursive read/write lock class FLRwlRcsv: lib/rwlockrcsv.cc:46-552,
    lib/rwlockrcsv.h:38-93.

    Objects are numbers; calls follow each other (calls of several threads at once: Rcon_Model.v).  An
    access to the stack without its mutex is recorded.  The shared lock layer
    (FlShm::ReadLock, WriteLock, Unlock) is a list of answers; every call to it is logged. *)
From Verif Require Import Base.
From Coq Require Import ZArith List Bool.
Import ListNotations.
Open Scope Z_scope.

(** lib/flcklocktype.h *)
Inductive ltype := UNL | RD | WR.
Definition is_rd (t : ltype) : bool := match t with RD => true | _ => false end.
Definition is_wr (t : ltype) : bool := match t with WR => true | _ => false end.
Definition is_unl (t : ltype) : bool := match t with UNL => true | _ => false end.

(** lib/rwlockrcsv.h:40-50 *)
Record obj := mkO {
  o_alive : bool;             (** constructed and not destroyed *)
  o_tid : Z; o_fd : Z; o_off : Z; o_len : Z;
  o_type : ltype;
  o_locked : bool;            (** is_locked *)
  o_has : bool;               (** has_locker *)
  o_pend : list Z;            (** PendingStack *)
  o_master : option Z }.      (** pMaster *)

(** calls to the shared lock layer: thread, descriptor, offset, length *)
Inductive scall :=
| SRead (tid fd off len : Z)
| SWrite (tid fd off len : Z)
| SUnlock (tid fd off len : Z).

Record st := mkS {
  s_obj : Z -> obj;
  s_stack : list Z;           (** lib/rwlockrcsv.cc:35 FLRwlStack *)
  s_mtx : bool;               (** lib/rwlockrcsv.cc:34 LockVal *)
  s_race : bool;              (** the stack was accessed without the mutex *)
  s_log : list (scall * Z);   (** latest first, with the answer *)
  s_ans : list Z }.           (** answers to come *)

Definition dead_obj : obj := mkO false 0 0 0 0 UNL false false [] None.
Definition init_s : st := mkS (fun _ => dead_obj) [] false false [] [].

Definition set_obj (s : st) (o : Z) (x : obj) : st :=
  mkS (upd (s_obj s) o x) (s_stack s) (s_mtx s) (s_race s) (s_log s) (s_ans s).
Definition set_stack (s : st) (l : list Z) : st :=
  mkS (s_obj s) l (s_mtx s) (s_race s || negb (s_mtx s)) (s_log s) (s_ans s).
Definition set_mtx (s : st) (b : bool) : st :=
  mkS (s_obj s) (s_stack s) b (s_race s) (s_log s) (s_ans s).
Definition set_ans (s : st) (l : list Z) : st :=
  mkS (s_obj s) (s_stack s) (s_mtx s) (s_race s) (s_log s) l.

(** field updates of one object *)
Definition w_state (x : obj) (locked has : bool) : obj :=
  mkO (o_alive x) (o_tid x) (o_fd x) (o_off x) (o_len x) (o_type x) locked has (o_pend x) (o_master x).
Definition w_type (x : obj) (t : ltype) : obj :=
  mkO (o_alive x) (o_tid x) (o_fd x) (o_off x) (o_len x) t (o_locked x) (o_has x) (o_pend x) (o_master x).
Definition w_pend (x : obj) (l : list Z) : obj :=
  mkO (o_alive x) (o_tid x) (o_fd x) (o_off x) (o_len x) (o_type x) (o_locked x) (o_has x) l (o_master x).
Definition w_master (x : obj) (m : option Z) : obj :=
  mkO (o_alive x) (o_tid x) (o_fd x) (o_off x) (o_len x) (o_type x) (o_locked x) (o_has x) (o_pend x) m.
Definition w_range (x : obj) (fd off len : Z) : obj :=
  mkO (o_alive x) (o_tid x) fd off len (o_type x) (o_locked x) (o_has x) (o_pend x) (o_master x).
Definition on (s : st) (o : Z) (f : obj -> obj) : st := set_obj s o (f (s_obj s o)).

(** outcome of a part of a call; [L] is the local variable is_mutex_locked *)
Inductive res (A : Type) :=
| Ret (a : A) (L : bool) (s : st)
| Wait (c : scall) (L : bool) (s : st)     (** inside the shared lock layer *)
| Hang (s : st).                  (** spinning on the stack mutex this very call holds *)
Arguments Ret {A}. Arguments Wait {A}. Arguments Hang {A}.

Definition bind {A B} (r : res A) (k : A -> bool -> st -> res B) : res B :=
  match r with
  | Ret a L s => k a L s
  | Wait c L s => Wait c L s
  | Hang s => Hang s
  end.

(** lib/rwlockrcsv.cc:53-56 with the guard "if(!is_mutex_locked)" *)
Definition stack_lock (L : bool) (s : st) : res unit :=
  if L then Ret tt L s
  else if s_mtx s then Hang s else Ret tt true (set_mtx s true).
(** 58-61 with the guard "if(is_mutex_locked)" *)
Definition stack_unlock (L : bool) (s : st) : res unit :=
  if L then Ret tt false (set_mtx s false) else Ret tt L s.

(** a call of the shared lock layer *)
Definition shm (c : scall) (L : bool) (s : st) : res Z :=
  match s_ans s with
  | [] => Wait c L s
  | a :: l => Ret a L (mkS (s_obj s) (s_stack s) (s_mtx s) (s_race s) ((c, a) :: s_log s) l)
  end.

(** 116-130 [compare] *)
Definition overlap (off1 len1 off2 len2 : Z) : bool :=
  if off1 <=? off2 then off2 <? s64 (off1 + s64 len1) else off1 <? s64 (off2 + s64 len2).
Definition cmp (a b : obj) : bool :=
  (o_tid a =? o_tid b) && (o_fd a =? o_fd b) && overlap (o_off a) (o_len a) (o_off b) (o_len b).

(** the search-and-erase loops (172-180, 187-195, 321-328, 438-445) *)
Fixpoint erase (o : Z) (l : list Z) : list Z :=
  match l with
  | [] => []
  | x :: r => if x =? o then r else x :: erase o r
  end.

(** lib/rwlockrcsv.h:57-64 [move_pending_stack]: [src] goes behind the pending stack of [d] and gets
    the new master [m] *)
Fixpoint move_pending (s : st) (d m : Z) (src : list Z) : st :=
  match src with
  | [] => s
  | x :: r =>
      let s := on s x (fun b => w_master b (Some m)) in
      move_pending (on s d (fun b => w_pend b (o_pend b ++ [x]))) d m r
  end.

(** 203-212: first writer of the pending stack and the rest *)
Fixpoint pick_writer (s : st) (l : list Z) : option (Z * list Z) :=
  match l with
  | [] => None
  | x :: r =>
      if is_wr (o_type (s_obj s x)) then Some (x, r)
      else match pick_writer s r with Some (w, r') => Some (w, x :: r') | None => None end
  end.
(** 203-218: the new master and the rest *)
Definition pick (s : st) (l : list Z) : Z * list Z :=
  match pick_writer s l with
  | Some p => p
  | None => (last l 0, removelast l)
  end.

Definition unlock_of (x : obj) : scall := SUnlock (o_tid x) (o_fd x) (o_off x) (o_len x).
Definition read_of (x : obj) : scall := SRead (o_tid x) (o_fd x) (o_off x) (o_len x).
Definition write_of (x : obj) : scall := SWrite (o_tid x) (o_fd x) (o_off x) (o_len x).

(** 197-227: another pending object becomes the master of [o]'s lock *)
Definition pass_on (s : st) (o : Z) : st :=
  let x := s_obj s o in
  let '(n, rest) := pick s (o_pend x) in
  let s := move_pending s n n rest in
  let s := on s o (fun b => w_pend b []) in
  let s := on s n (fun b => w_master (w_type (w_state b true true) (o_type x)) None) in
  set_stack s (s_stack s ++ [n]).

(** 151-253 [RawUnlock] *)
Definition RawUnlock (o : Z) (L : bool) (s : st) : res bool :=
  let x := s_obj s o in
  if is_unl (o_type x) || negb (o_locked x) then Ret true L s
  else
    bind (stack_lock L s) (fun _ L s =>
    match o_master x with
    | Some m =>
        let s := on s m (fun b => w_pend b (erase o (o_pend b))) in
        let s := on s o (fun b => w_master b None) in
        Ret true L (on s o (fun b => w_state b false false))
    | None =>
        let s := set_stack s (erase o (s_stack s)) in
        match o_pend x with
        | _ :: _ => Ret true L (on (pass_on s o) o (fun b => w_state b false false))
        | [] =>
            if o_has x then
              bind (stack_unlock L s) (fun _ L s =>
              bind (shm (unlock_of x) L s) (fun a L s =>
              if a =? 0 then Ret true L (on s o (fun b => w_state b false false))
              else bind (stack_lock L s) (fun _ L s =>
                   Ret false L (set_stack s (s_stack s ++ [o])))))
            else Ret true L (on s o (fun b => w_state b false false))
        end
    end).

(** 285-300: first object in the stack that matches *)
Fixpoint first_match (s : st) (x : obj) (l : list Z) : option Z :=
  match l with
  | [] => None
  | i :: r => if cmp x (s_obj s i) then Some i else first_match s x r
  end.

(** 273-278, 371-376: unlock before a change of the type *)
Definition unlock_if (b : bool) (o : Z) (L : bool) (s : st) : res bool :=
  if b then RawUnlock o L s else Ret true L s.

(** 255-340 [RawReadLock] *)
Definition RawReadLock (o : Z) (L : bool) (s : st) : res bool :=
  let x := s_obj s o in
  if o_locked x && is_rd (o_type x) then Ret true L s
  else if o_locked x && is_wr (o_type x) && negb (match o_pend x with [] => true | _ => false end) then Ret true L s
  else
    bind (stack_lock L s) (fun _ L s =>
    bind (unlock_if (is_wr (o_type x) && o_locked x) o L s) (fun ok L s =>
    if negb ok then Ret false L s
    else
      let s := on s o (fun b => w_type b RD) in
      let s := set_stack s (s_stack s) in
      match first_match s (s_obj s o) (s_stack s) with
      | Some i =>
          let s := on s o (fun b => w_master (w_state b (o_locked (s_obj s i)) false) (Some i)) in
          Ret true L (on s i (fun b => w_pend b (o_pend b ++ [o])))
      | None =>
          let s := set_stack s (s_stack s ++ [o]) in
          bind (stack_unlock L s) (fun _ L s =>
          bind (shm (read_of (s_obj s o)) L s) (fun a L s =>
          if a =? 0 then Ret true L (on s o (fun b => w_state b true true))
          else bind (stack_lock L s) (fun _ L s =>
               let s := set_stack s (erase o (s_stack s)) in
               Ret false L (on s o (fun b => w_state b false false)))))
      end)).

(** 380-409: the scan of the stack: readers taken out, what stays, and the writer found, if any *)
Fixpoint scan (s : st) (x : obj) (l : list Z) : list Z * list Z * option Z :=
  match l with
  | [] => ([], [], None)
  | i :: r =>
      if cmp x (s_obj s i) then
        match o_type (s_obj s i) with
        | RD => let '(rs, ks, w) := scan s x r in (i :: rs, ks, w)
        | WR => ([], i :: r, Some i)
        | UNL => let '(rs, ks, w) := scan s x r in (rs, i :: ks, w)
        end
      else let '(rs, ks, w) := scan s x r in (rs, i :: ks, w)
  end.

(** 420-435: the readers give up their locks and become pending *)
Fixpoint take_over (o : Z) (rs : list Z) (L : bool) (s : st) : res unit :=
  match rs with
  | [] => Ret tt L s
  | i :: r =>
      let y := s_obj s i in
      bind (if o_locked y && o_has y then shm (unlock_of y) L s else Ret 0 L s) (fun _ L s =>
      let s := on s i (fun b => w_master (w_state b true false) (Some o)) in
      let s := on s o (fun b => w_pend b (o_pend b ++ [i])) in
      let s := move_pending s o o (o_pend (s_obj s i)) in
      take_over o r L (on s i (fun b => w_pend b [])))
  end.

(** 448-456: Lock() of a pending object that was just marked unlocked reaches StackLock() at 269-272 or
    367-370 with a fresh local flag while this call holds the mutex; only the type "unlocked" returns *)
Fixpoint relock (l : list Z) (L : bool) (s : st) : res unit :=
  match l with
  | [] => Ret tt L s
  | i :: r =>
      let s := on s i (fun b => w_master (w_state b false false) None) in
      if is_unl (o_type (s_obj s i)) then relock r L s
      else if s_mtx s then Hang s else relock r L s
  end.

(** 342-466 [RawWriteLock] *)
Definition RawWriteLock (o : Z) (L : bool) (s : st) : res bool :=
  let x := s_obj s o in
  if o_locked x && is_wr (o_type x) then Ret true L s
  else if o_locked x && is_rd (o_type x) &&
          match o_master x with Some m => is_wr (o_type (s_obj s m)) | None => false end
  then Ret true L (on s o (fun b => w_type b WR))
  else
    bind (stack_lock L s) (fun _ L s =>
    bind (unlock_if (is_rd (o_type x) && o_locked x) o L s) (fun ok L s =>
    if negb ok then Ret false L s
    else
      let s := on s o (fun b => w_type b WR) in
      let '(rs, ks, w) := scan s (s_obj s o) (s_stack s) in
      let s := set_stack s ks in
      match w with
      | Some i =>
          let s := on s o (fun b => w_master (w_state b true false) (Some i)) in
          Ret true L (on s i (fun b => w_pend b (o_pend b ++ [o])))
      | None =>
          let s := set_stack s (s_stack s ++ [o]) in
          bind (stack_unlock L s) (fun _ L s =>
          bind (take_over o rs L s) (fun _ L s =>
          bind (shm (write_of (s_obj s o)) L s) (fun a L s =>
          if a =? 0 then Ret true L (on s o (fun b => w_state b true true))
          else bind (stack_lock L s) (fun _ L s =>
               let s := set_stack s (erase o (s_stack s)) in
               bind (relock (o_pend (s_obj s o)) L s) (fun _ L s =>
               let s := on s o (fun b => w_pend b []) in
               Ret false L (on s o (fun b => w_state b false false)))))))
      end)).

Definition RawLock (o : Z) (read : bool) (L : bool) (s : st) : res bool :=
  if read then RawReadLock o L s else RawWriteLock o L s.

(** the last lines of every method *)
Definition finish (r : res bool) : res bool :=
  bind r (fun b L s => bind (stack_unlock L s) (fun _ L s => Ret b L s)).

(** the public methods *)
Inductive op :=
| ONew (o tid fd off len : Z)                    (** 87-89 *)
| ONewLock (o tid fd off len : Z) (read : bool)  (** 91-104 *)
| ODel (o : Z)                                   (** 106-114 *)
| OLockAt (o fd off len : Z) (read : bool)       (** 468-484, 132-149 *)
| OLockAs (o : Z) (read : bool)                  (** 486-501 *)
| OLock (o : Z)                                  (** 503-518 *)
| ORead (o : Z)                                  (** 520-529 *)
| OWrite (o : Z)                                 (** 531-540 *)
| OUnlock (o : Z).                               (** 542-551 *)

Definition ty (read : bool) : ltype := if read then RD else WR.

Definition FLCK_INVALID_HANDLE : Z := -1.

Definition call (p : op) (s : st) : res bool :=
  match p with
  | ONew o tid fd off len => Ret true false (set_obj s o (mkO true tid fd off len UNL false false [] None))
  | ONewLock o tid fd off len read =>
      let s := set_obj s o (mkO true tid fd off len (ty read) false false [] None) in
      if fd =? FLCK_INVALID_HANDLE then Ret true false s else finish (RawLock o read false s)
  | ODel o =>
      bind (finish (RawUnlock o false s)) (fun b L s => Ret b L (set_obj s o dead_obj))
  | OLockAt o fd off len read =>
      finish (bind (RawUnlock o false s) (fun ok L s =>
        if negb ok then Ret false L s
        else RawLock o read L (on s o (fun b => w_type (w_range b fd off len) (ty read)))))
  | OLockAs o read => finish (RawLock o read false s)
  | OLock o =>
      match o_type (s_obj s o) with
      | RD => finish (RawReadLock o false s)
      | WR => finish (RawWriteLock o false s)
      | UNL => Ret false false s
      end
  | ORead o => finish (RawReadLock o false s)
  | OWrite o => finish (RawWriteLock o false s)
  | OUnlock o => finish (RawUnlock o false s)
  end.

(** the user's side: objects are used between construction and destruction *)
Definition target (p : op) : Z :=
  match p with
  | ONew o _ _ _ _ | ONewLock o _ _ _ _ _ | ODel o | OLockAt o _ _ _ _ | OLockAs o _ | OLock o
  | ORead o | OWrite o | OUnlock o => o
  end.
Definition makes (p : op) : bool := match p with ONew _ _ _ _ _ | ONewLock _ _ _ _ _ _ => true | _ => false end.
Definition allowed (p : op) (s : st) : bool :=
  if makes p then negb (o_alive (s_obj s (target p))) else o_alive (s_obj s (target p)).

(** states between calls *)
Inductive reach (ok : st -> op -> bool -> st -> Prop) : st -> Prop :=
| reach_init : reach ok init_s
| reach_call : forall s p answers b L s', reach ok s -> allowed p s = true ->
    call p (set_ans s answers) = Ret b L s' -> ok s p b s' -> reach ok s'.
