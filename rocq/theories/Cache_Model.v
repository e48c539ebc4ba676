(** Model of the process-state cache of a recovery pass: lib/flckpidcache.h and its users
    lib/flckutil.cc:244-344.

    The operating system is a state that may change between two questions.  A pass starts with an
    empty cache (lib/flckshm.cc:503, lib/flcklistofflock.cc:219). *)
From Verif Require Import Base.
From Coq Require Import ZArith List Bool.
Import ListNotations.
Open Scope Z_scope.

(** lib/flckcommon.h:44-46; the last one converted to [dev_t]/[ino_t] *)
Definition FLCK_INVALID_HANDLE : Z := -1.
Definition FLCK_INVALID_ID : Z := 0.
Definition FLCK_EACCESS_ID : Z := two64 - 1.
Definition EACCES : Z := 13.

(** answer of stat(2): errno or device and inode *)
Inductive stat_ans := SErr (e : Z) | SOk (dev ino : Z).

(** what stat(2) says about /proc/<pid>/task/<tid> and about /proc/<pid>/fd/<fd> *)
Record os := mkOs { o_task : Z -> Z -> stat_ans; o_fd : Z -> Z -> stat_ans }.

(** lib/flckpidcache.h:28-69 *)
Record key := Key { k_pid : Z; k_tid : Z; k_fd : Z }.
(** lib/flckpidcache.h:42-67 [operator<]: the order of the map *)
Definition key_lt (a b : key) : bool :=
  if k_pid a <? k_pid b then true else if k_pid b <? k_pid a then false
  else if k_tid a <? k_tid b then true else if k_tid b <? k_tid a then false
  else if k_fd a <? k_fd b then true else if k_fd b <? k_fd a then false
  else if k_fd a =? FLCK_INVALID_HANDLE then false
  else false.

(** lib/flckpidcache.h:74-89 *)
Record val := Val { v_dev : Z; v_ino : Z; v_run : bool }.

(** [std::map]: a list of pairs; two keys are the same entry when neither is less *)
Definition cache := list (key * val).
Definition same_key (a b : key) : bool := negb (key_lt a b) && negb (key_lt b a).
Fixpoint lookup (c : cache) (k : key) : option val :=
  match c with
  | [] => None
  | (k', v) :: r => if same_key k' k then Some v else lookup r k
  end.
(** assignment through the index operator of the map *)
Fixpoint store (c : cache) (k : key) (v : val) : cache :=
  match c with
  | [] => [(k, v)]
  | (k', v') :: r => if same_key k' k then (k', v) :: r else (k', v') :: store r k v
  end.

(** lib/flckpidcache.h:99-112 *)
Definition get_device_cache (c : cache) (pid tid fd : Z) : option (Z * Z) :=
  match lookup c (Key pid tid fd) with Some v => Some (v_dev v, v_ino v) | None => None end.
(** lib/flckpidcache.h:114-123; [is_run] has the default [true] (line 79) *)
Definition set_device_cache (c : cache) (pid tid fd dev ino : Z) : cache :=
  store c (Key pid tid fd) (Val dev ino true).
(** lib/flckpidcache.h:125-134 *)
Definition set_no_device_cache (c : cache) (pid tid fd : Z) : cache :=
  store c (Key pid tid fd) (Val FLCK_INVALID_ID FLCK_INVALID_ID true).
(** lib/flckpidcache.h:136-148; [fd] has the default [FLCK_INVALID_HANDLE] (line 33) *)
Definition get_execution_cache (c : cache) (pid tid : Z) : option bool :=
  match lookup c (Key pid tid FLCK_INVALID_HANDLE) with Some v => Some (v_run v) | None => None end.
(** lib/flckpidcache.h:150-159 *)
Definition set_execution_cache (c : cache) (pid tid : Z) (run : bool) : cache :=
  store c (Key pid tid FLCK_INVALID_HANDLE) (Val FLCK_INVALID_ID FLCK_INVALID_ID run).

(** lib/flckutil.cc:244-266; [None]: called without a cache *)
Definition FindThreadProcess (o : os) (c : option cache) (pid tid : Z) : bool * option cache :=
  match (match c with Some m => get_execution_cache m pid tid | None => None end) with
  | Some r => (r, c)
  | None =>
    let is_run := match o_task o pid tid with SErr _ => false | SOk _ _ => true end in
    (is_run, match c with Some m => Some (set_execution_cache m pid tid is_run) | None => None end)
  end.

(** lib/fullock.h:36 *)
Definition IS_NO_FD (fd : Z) : bool := Z.testbit (fd mod two32) 31.

(** lib/flckutil.cc:268-286: result, [devid], [inodeid] *)
Definition GetFileDevNode1 (o : os) (pid fd : Z) : Z * Z * Z :=
  match o_fd o pid fd with
  | SErr e => if e =? EACCES then (e, FLCK_EACCESS_ID, FLCK_EACCESS_ID)
              else (e, FLCK_INVALID_ID, FLCK_INVALID_ID)
  | SOk d i => (0, d, i)
  end.

(** lib/flckutil.cc:304-335: result, [devid], [inodeid] as asked from the system *)
Definition ask_dev (o : os) (pid tid fd : Z) : Z * Z * Z :=
  if IS_NO_FD fd then
    match o_task o pid tid with
    | SErr e => (e, FLCK_INVALID_ID, FLCK_INVALID_ID)
    | SOk _ _ => (0, FLCK_EACCESS_ID, FLCK_EACCESS_ID)
    end
  else
    let '(r, d, i) := GetFileDevNode1 o pid fd in
    if r =? EACCES then
      match o_task o pid tid with
      | SErr e => (e, FLCK_INVALID_ID, FLCK_INVALID_ID)
      | SOk _ _ => (r, d, i)
      end
    else (r, d, i).

(** lib/flckutil.cc:292-344: [Some (devid, inodeid)] for [true]; with [false] no caller looks at
    the identifiers (lib/flcklistlocker.cc:57) *)
Definition GetFileDevNode (o : os) (c : option cache) (pid tid fd : Z)
  : option (Z * Z) * option cache :=
  match (match c with Some m => get_device_cache m pid tid fd | None => None end) with
  | Some (d, i) =>
    if (FLCK_INVALID_ID =? d) && (FLCK_INVALID_ID =? i) then (None, c) else (Some (d, i), c)
  | None =>
    let '(r, d, i) := ask_dev o pid tid fd in
    let ok := (r =? 0) || (r =? EACCES) in
    (if ok then Some (d, i) else None,
     match c with
     | Some m => Some (if ok then set_device_cache m pid tid fd d i
                       else set_no_device_cache m pid tid fd)
     | None => None
     end)
  end.

(** ** Questions of a pass *)
Inductive question := QRun (pid tid : Z) | QDev (pid tid fd : Z).
Inductive answer := ARun (b : bool) | ADev (r : option (Z * Z)).

Definition ask (o : os) (c : option cache) (q : question) : answer * option cache :=
  match q with
  | QRun p t => let '(b, c') := FindThreadProcess o c p t in (ARun b, c')
  | QDev p t f => let '(r, c') := GetFileDevNode o c p t f in (ADev r, c')
  end.

(** a pass: questions put one after the other, each to the system as it is at that moment *)
Fixpoint pass (c : option cache) (l : list (os * question)) : list answer :=
  match l with
  | [] => []
  | (o, q) :: r => let '(a, c') := ask o c q in a :: pass c' r
  end.
