(** Names of mutexes and conditions, and the registry of named mutexes. *)
From Coq Require Import ZArith List Bool Lia.
From Verif Require Import Base.
Import ListNotations.
Open Scope Z_scope.

(** A C string is the list of its bytes (1..255) without the terminating NUL. *)
Definition cstring := list Z.
Definition is_cstring (s : cstring) : Prop := Forall (fun b => 1 <= b <= 255) s.

(** lib/fullock.h:32-33 FLCK_NAMED_MUTEX_MAXLENGTH, FLCK_NAMED_COND_MAXLENGTH *)
Definition MAXLENGTH : nat := 63.

(** conversion [static_cast<flck_hash_t>(char)]: [char] is signed on x86-64 *)
Definition sign_extend_char (b : Z) : Z := u64 (if b <? 128 then b else b - 256).

(** lib/flckutil.h:146-156 [flck_fnv_hash] *)
Definition fnv_step (hash b : Z) : Z := u64 (Z.lxor hash (sign_extend_char b) * 1099511628211).
Definition flck_fnv_hash (s : list Z) : Z := fold_left fnv_step s 14695981039346656037.

(** strncpy(dst, src, 63) into a 64-byte buffer whose last byte is NUL: the string then stored *)
Definition strncpy63 (s : cstring) : cstring := firstn MAXLENGTH s.

(** the name part of a stored entry *)
Record nameent := mkN { n_hash : Z; n_name : cstring }.

(** lib/flcklistnmtx.h:50-70 [initialize] and 76-88 [find] (and lib/flcklistncond.h:49-88, identical):
    the key built from the caller's string *)
Definition key_of (pname : cstring) : nameent :=
  match pname with
  | [] => mkN 0 []
  | _ => mkN (flck_fnv_hash (strncpy63 pname)) (strncpy63 pname)
  end.

(** strncmp(a, b, n) on C strings: difference of the first differing bytes *)
Fixpoint strncmp (n : nat) (a b : cstring) : Z :=
  match n with
  | O => 0
  | S m => match a, b with
           | [], [] => 0
           | [], y :: _ => 0 - y
           | x :: _, [] => x
           | x :: a', y :: b' => if x =? y then strncmp m a' b' else x - y
           end
  end.

(** lib/flcklistnmtx.h:105-113 [fl_compare_list_base] (lib/flcklistncond.h:103-112 identical) *)
Definition compare_name (e1 e2 : nameent) : Z :=
  if n_hash e1 <? n_hash e2 then -1
  else if n_hash e2 <? n_hash e1 then 1
  else strncmp MAXLENGTH (n_name e1) (n_name e2).

(** ** Registry of named mutexes.
    [M] is the state of one mutex (lockval, lockcnt); the operation performed on it once the entry is
    found is a parameter, so that the registry theorems hold for every mutex implementation. *)
Section Registry.
  Variable M : Type.
  Variable m0 : M.                         (** lib/flcklistnmtx.h:65-69: lockval = 0, lockcnt = 0 *)

  Record ment := mkM { m_key : nameent; m_st : M }.
  (** named_mutex_list (most recent first) and the number of entries left in named_mutex_free *)
  Record registry := mkR { r_list : list ment; r_free : nat }.

  (** lib/flckbaselist.tcc:664-680 [find] followed by the operation on the found entry: the first
      entry that compares equal is updated *)
  Fixpoint on_first (k : nameent) (f : M -> M * Z) (l : list ment) : option (list ment * Z) :=
    match l with
    | [] => None
    | e :: r => if compare_name (m_key e) k =? 0
                then let (m', res) := f (m_st e) in Some (mkM (m_key e) m' :: r, res)
                else match on_first k f r with
                     | Some (r', res) => Some (e :: r', res)
                     | None => None
                     end
    end.

  (** lib/flckshm.cc:677-695: UNLOCK branch of [FlShm::RawLock(LockType, pname, ..)]: EINVAL when the
      name is unknown, otherwise unlock the found entry *)
  Definition reg_unlock (g : registry) (name : cstring) (f : M -> M * Z) : registry * Z :=
    match on_first (key_of name) f (r_list g) with
    | Some (l', res) => (mkR l' (r_free g), res)
    | None => (g, EINVAL)
    end.

  (** lib/flckshm.cc:697-727: LOCK branch: find, or take an entry of the free pool, initialise it with
      the name, insert it first; then lock it *)
  Definition reg_lock (g : registry) (name : cstring) (f : M -> M * Z) : registry * Z :=
    match on_first (key_of name) f (r_list g) with
    | Some (l', res) => (mkR l' (r_free g), res)
    | None => match r_free g with
              | O => (g, ENOLCK)
              | S n => let (m', res) := f m0 in (mkR (mkM (key_of name) m' :: r_list g) n, res)
              end
    end.

  Inductive reg_op :=
  | RLock (name : cstring) (f : M -> M * Z)
  | RUnlock (name : cstring) (f : M -> M * Z).

  Definition reg_step (g : registry) (o : reg_op) : registry * Z :=
    match o with RLock n f => reg_lock g n f | RUnlock n f => reg_unlock g n f end.

  (** results of a whole history *)
  Fixpoint reg_run (g : registry) (h : list reg_op) : registry * list Z :=
    match h with
    | [] => (g, [])
    | o :: r => let (g1, res) := reg_step g o in
                let (g2, rs) := reg_run g1 r in (g2, res :: rs)
    end.

  Definition reg_init (capacity : nat) : registry := mkR [] capacity.
End Registry.
