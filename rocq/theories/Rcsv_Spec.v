(** Specification vocabulary for the recursive lock objects: what the process holds in the shared
    lock layer, said without the objects. *)
From Verif Require Import Base Rcsv_Model.
From Coq Require Import ZArith List Bool.
Import ListNotations.
Open Scope Z_scope.

(** a range of a file as locked by a thread *)
Record key := Key { k_tid : Z; k_fd : Z; k_off : Z; k_len : Z }.
Definition key_eq (a b : key) : bool :=
  (k_tid a =? k_tid b) && (k_fd a =? k_fd b) && (k_off a =? k_off b) && (k_len a =? k_len b).
(** same thread and descriptor, and a common byte *)
Definition meets (a b : key) : Prop :=
  k_tid a = k_tid b /\ k_fd a = k_fd b /\
  exists p, k_off a <= p < k_off a + k_len a /\ k_off b <= p < k_off b + k_len b.
(** [a] has every byte of [b] *)
Definition covers (a b : key) : Prop :=
  k_tid a = k_tid b /\ k_fd a = k_fd b /\
  forall p, k_off b <= p < k_off b + k_len b -> k_off a <= p < k_off a + k_len a.

(** a lock the process holds; [true]: for writing *)
Definition hold : Type := key * bool.

Fixpoint drop (k : key) (h : list hold) : list hold :=
  match h with
  | [] => []
  | x :: r => if key_eq (fst x) k then r else x :: drop k r
  end.

(** the locks held after the calls of a log (latest call first) *)
Fixpoint held (log : list (scall * Z)) : list hold :=
  match log with
  | [] => []
  | (c, a) :: r =>
      if a =? 0 then
        match c with
        | SRead t f o l => (Key t f o l, false) :: held r
        | SWrite t f o l => (Key t f o l, true) :: held r
        | SUnlock t f o l => drop (Key t f o l) (held r)
        end
      else held r
  end.

(** a request that is in order: no thread asks for a range it has a part of already, and only held
    locks are released *)
Definition proper (h : list hold) (c : scall) : Prop :=
  match c with
  | SRead t f o l | SWrite t f o l => forall x, In x h -> ~ meets (fst x) (Key t f o l)
  | SUnlock t f o l => exists w, In (Key t f o l, w) h
  end.
Fixpoint clean (log : list (scall * Z)) : Prop :=
  match log with
  | [] => True
  | (c, _) :: r => proper (held r) c /\ clean r
  end.

(** every release was successful *)
Definition releases_ok (log : list (scall * Z)) : Prop :=
  forall t f o l a, In (SUnlock t f o l, a) log -> a = 0.
(** no release of a held lock was refused; what the layer answers for a lock that is not held is open.
    The real layer refuses those: EINVAL, lib/flcklistfilelock.cc:72-79 and lib/flckshm.cc *)
Fixpoint honest (log : list (scall * Z)) : Prop :=
  match log with
  | [] => True
  | (c, a) :: r => (match c with SUnlock _ _ _ _ => proper (held r) c -> a = 0 | _ => True end) /\ honest r
  end.
(** every request for writing was successful *)
Definition writes_ok (log : list (scall * Z)) : Prop :=
  forall t f o l a, In (SWrite t f o l, a) log -> a = 0.

Definition key_of (x : obj) : key := Key (o_tid x) (o_fd x) (o_off x) (o_len x).

(** a family of ranges: proper file ranges, two of them are equal or have no byte in common *)
Definition separate (F : key -> Prop) : Prop :=
  (forall k, F k -> 0 <= k_off k /\ 0 < k_len k /\ k_off k + k_len k < two63) /\
  (forall a b, F a -> F b -> meets a b -> a = b).

(** the call locks a range of the family, or none *)
Definition in_family (F : key -> Prop) (s : st) (p : op) (b : bool) (s' : st) : Prop :=
  match p with
  | ONewLock _ tid fd off len _ => F (Key tid fd off len)
  | OLockAt o fd off len _ => F (Key (o_tid (s_obj s o)) fd off len)
  | OLockAs o _ | OLock o | ORead o | OWrite o => F (key_of (s_obj s o))
  | ONew _ _ _ _ _ | ODel _ | OUnlock _ => True
  end.

Definition anything (s : st) (p : op) (b : bool) (s' : st) : Prop := True.

(** no destructor gave up on a failing release *)
Definition clean_destruction (s : st) (p : op) (b : bool) (s' : st) : Prop :=
  match p with ODel _ => b = true | _ => True end.

(** the pointers a state contains *)
Definition refers (s : st) (o : Z) : Prop :=
  In o (s_stack s) \/
  exists x, o_alive (s_obj s x) = true /\ (In o (o_pend (s_obj s x)) \/ o_master (s_obj s x) = Some o).

Definition locked (s : st) (o : Z) : Prop := o_locked (s_obj s o) = true.
Definition kind (s : st) (o : Z) : ltype := o_type (s_obj s o).

(** the state a call has reached, finished or not *)
Definition reached (r : res bool) : st := match r with Ret _ _ s | Wait _ _ s | Hang s => s end.

(** no lock call asks for the other kind of lock on an object that is locked; [OLockAt] does not
    count, it releases first *)
Definition no_conversion (s : st) (p : op) : Prop :=
  match p with
  | OLockAs o read => locked s o -> kind s o = ty read
  | ORead o => locked s o -> kind s o = RD
  | OWrite o => locked s o -> kind s o = WR
  | _ => True
  end.

(** the lock the call asks for *)
Definition asks (s : st) (p : op) : option ltype :=
  match p with
  | ONewLock _ _ fd _ _ rd => if fd =? FLCK_INVALID_HANDLE then None else Some (ty rd)
  | OLockAt _ _ _ _ rd | OLockAs _ rd => Some (ty rd)
  | OLock o => match kind s o with UNL => None | t => Some t end
  | ORead _ => Some RD
  | OWrite _ => Some WR
  | ONew _ _ _ _ _ | ODel _ | OUnlock _ => None
  end.

(** the range a lock call is about *)
Definition wanted (s : st) (p : op) : key :=
  match p with
  | ONewLock _ tid fd off len _ => Key tid fd off len
  | OLockAt o fd off len _ => Key (o_tid (s_obj s o)) fd off len
  | _ => key_of (s_obj s (target p))
  end.

(** the objects other than [o]: still there, same ranges, locked or not as before, writers stay writers *)
Definition unaffected (o : Z) (s s' : st) : Prop :=
  forall z, z <> o ->
    o_alive (s_obj s' z) = o_alive (s_obj s z) /\ key_of (s_obj s' z) = key_of (s_obj s z) /\
    (locked s' z <-> locked s z) /\ (locked s z -> kind s z = WR -> kind s' z = WR).

(** the last request was for writing and was refused *)
Definition write_refused (log : list (scall * Z)) : Prop :=
  exists t f o l a r, log = (SWrite t f o l, a) :: r /\ a <> 0.

(** ranges of a separate family, no destructor gives up *)
Definition orderly (F : key -> Prop) (s : st) (p : op) (b : bool) (s' : st) : Prop :=
  in_family F s p b s' /\ clean_destruction s p b s'.
