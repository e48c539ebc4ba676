(** Configuration of the library: lib/flckshm.cc:44-89 (constants), 162-188 (variables), 236-500 (InitializeObject, ReInitializeObject, setters),
    646-659 (CheckAttach), the head of the lock calls, 1052-1307 (LoadEnv), and lib/flckutil.cc:92-115 (CvtNumberStringToLong).
    Simplified: one thread; opening, locking and mapping the shared file is one step whose outcome is given from outside (its steps are [Init_Model]);
    the debug environment (LoadFlckDbgEnv) only concerns messages and is in [Dbg_Model]; re-initialisation as the first use is [First_Model]. *)
From Coq Require Import List Bool Ascii String ZArith.
From Verif Require Import Base Path_Model Layout_Model.
Import ListNotations.
Open Scope Z_scope.

(** ** The C library functions used *)
Definition code (c : ascii) : Z := Z.of_nat (nat_of_ascii c).
(** [strcasecmp] in the C locale *)
Definition lower (c : ascii) : Z := if (65 <=? code c) && (code c <=? 90) then code c + 32 else code c.
Fixpoint strcasecmp_eq (a b : text) : bool :=
  match a, b with [], [] => true | x :: a', y :: b' => (lower x =? lower y) && strcasecmp_eq a' b' | _, _ => false end.

(** [isspace] in the C locale *)
Definition isspace (c : ascii) : bool := ((9 <=? code c) && (code c <=? 13)) || (code c =? 32).
Fixpoint skip_space (s : text) : text := match s with c :: r => if isspace c then skip_space r else s | [] => [] end.
Definition sign_of (s : text) : bool * text :=
  match s with
  | c :: r => if Ascii.eqb c "-" then (true, r) else if Ascii.eqb c "+" then (false, r) else (false, s)
  | [] => (false, [])
  end.
Definition digit (base : Z) (c : ascii) : option Z :=
  let d := if (48 <=? code c) && (code c <=? 57) then code c - 48
           else if (65 <=? code c) && (code c <=? 90) then code c - 55
           else if (97 <=? code c) && (code c <=? 122) then code c - 87 else 99 in
  if d <? base then Some d else None.
Fixpoint scan (base acc : Z) (s : text) : Z :=
  match s with c :: r => match digit base c with Some d => scan base (acc * base + d) r | None => acc end | [] => acc end.
(** base 0: octal after "0", hexadecimal after "0x" and a hexadecimal digit *)
Definition pick_base (base : Z) (s : text) : Z * text :=
  if base =? 0 then
    match s with
    | c :: x :: h :: r => if Ascii.eqb c "0" then
                            if (Ascii.eqb x "x" || Ascii.eqb x "X") && match digit 16 h with Some _ => true | None => false end then (16, h :: r) else (8, s)
                          else (10, s)
    | c :: _ => if Ascii.eqb c "0" then (8, s) else (10, s)
    | [] => (10, s)
    end
  else (base, s).
(** [strtol]: value and whether errno is set to ERANGE; glibc leaves errno alone when there are no digits *)
Definition strtol (base : Z) (s : text) : Z * bool :=
  let '(neg, s1) := sign_of (skip_space s) in
  let '(b, s2) := pick_base base s1 in
  let v := if neg then - scan b 0 s2 else scan b 0 s2 in
  if v <? - two63 then (- two63, true) else if two63 - 1 <? v then (two63 - 1, true) else (v, false).
(** [atoi]: glibc truncates the [long] result of strtol *)
Definition atoi (s : text) : Z := s32 (fst (strtol 10 s)).

(** lib/flckutil.cc:92-115.  The end pointer is compared with NULL only, so the rest of the string is not looked at. *)
Definition CvtNumberStringToLong (s : text) : option Z :=
  match s with [] => None | _ => let '(v, erange) := strtol 0 s in if erange then None else Some v end.

(** ** State *)
Inductive robust := ROBUST_NO | ROBUST_LOW | ROBUST_HIGH.                                                (** lib/flckshm.h:36-41 *)
Inductive nomap := NOMAP_ALLOW_NORETRY | NOMAP_DENY_NORETRY | NOMAP_ALLOW_RETRY | NOMAP_DENY_RETRY.      (** lib/flckshm.h:43-50; ALLOW and DENY are the first two *)
Inductive freeunit := FREE_NO | FREE_FD | FREE_OFFSET.                                                   (** lib/flckshm.h:52-57; ALWAYS is FREE_FD *)
Record cfg := mkCfg {
  k_auto : bool; k_robust : robust; k_nomap : nomap; k_free : freeunit; k_umask : Z; k_loop : Z;
  k_cnt : counts; k_dir : text; k_name : text; k_path : text;
  k_att : bool           (** the shared file is open and mapped, ShmFd <> FLCK_INVALID_HANDLE *)
}.
(** lib/flckshm.cc:176-190 and the constructor of FlShmHelper, 106 *)
Definition cnt_default : counts := mkCnt 128 8192 8192 256 256 8192.
Definition cfg0 : cfg := mkCfg true ROBUST_HIGH NOMAP_ALLOW_NORETRY FREE_FD 0 5000 cnt_default [] [] [] false.

Definition w_auto (v : bool) (c : cfg) := mkCfg v (k_robust c) (k_nomap c) (k_free c) (k_umask c) (k_loop c) (k_cnt c) (k_dir c) (k_name c) (k_path c) (k_att c).
Definition w_robust (v : robust) (c : cfg) := mkCfg (k_auto c) v (k_nomap c) (k_free c) (k_umask c) (k_loop c) (k_cnt c) (k_dir c) (k_name c) (k_path c) (k_att c).
Definition w_nomap (v : nomap) (c : cfg) := mkCfg (k_auto c) (k_robust c) v (k_free c) (k_umask c) (k_loop c) (k_cnt c) (k_dir c) (k_name c) (k_path c) (k_att c).
Definition w_free (v : freeunit) (c : cfg) := mkCfg (k_auto c) (k_robust c) (k_nomap c) v (k_umask c) (k_loop c) (k_cnt c) (k_dir c) (k_name c) (k_path c) (k_att c).
Definition w_umask (v : Z) (c : cfg) := mkCfg (k_auto c) (k_robust c) (k_nomap c) (k_free c) v (k_loop c) (k_cnt c) (k_dir c) (k_name c) (k_path c) (k_att c).
Definition w_loop (v : Z) (c : cfg) := mkCfg (k_auto c) (k_robust c) (k_nomap c) (k_free c) (k_umask c) v (k_cnt c) (k_dir c) (k_name c) (k_path c) (k_att c).
Definition w_cnt (v : counts) (c : cfg) := mkCfg (k_auto c) (k_robust c) (k_nomap c) (k_free c) (k_umask c) (k_loop c) v (k_dir c) (k_name c) (k_path c) (k_att c).
Definition w_dir (v : text) (c : cfg) := mkCfg (k_auto c) (k_robust c) (k_nomap c) (k_free c) (k_umask c) (k_loop c) (k_cnt c) v (k_name c) (k_path c) (k_att c).
Definition w_name (v : text) (c : cfg) := mkCfg (k_auto c) (k_robust c) (k_nomap c) (k_free c) (k_umask c) (k_loop c) (k_cnt c) (k_dir c) v (k_path c) (k_att c).
Definition w_path (v : text) (c : cfg) := mkCfg (k_auto c) (k_robust c) (k_nomap c) (k_free c) (k_umask c) (k_loop c) (k_cnt c) (k_dir c) (k_name c) v (k_att c).
Definition w_att (v : bool) (c : cfg) := mkCfg (k_auto c) (k_robust c) (k_nomap c) (k_free c) (k_umask c) (k_loop c) (k_cnt c) (k_dir c) (k_name c) (k_path c) v.

(** ** LoadEnv, lib/flckshm.cc:1052-1307 *)
(** [getenv] *)
Definition env := string -> option text.

Definition is_word (v : text) (w : string) : bool := strcasecmp_eq v (tx w).
(** 1056-1069 *)
Definition env_auto (v : option text) (old : bool) : bool :=
  match v with None => old | Some s => if is_word s "YES" then true else if is_word s "NO" then false else old end.
(** 1071-1096 *)
Definition env_nomap (v : option text) (old : nomap) : nomap :=
  match v with None => old | Some s =>
    if is_word s "ALLOW_NORETRY" then NOMAP_ALLOW_NORETRY else if is_word s "DENY_NORETRY" then NOMAP_DENY_NORETRY
    else if is_word s "ALLOW_RETRY" then NOMAP_ALLOW_RETRY else if is_word s "DENY_RETRY" then NOMAP_DENY_RETRY
    else if is_word s "ALLOW" then NOMAP_ALLOW_NORETRY else if is_word s "DENY" then NOMAP_DENY_NORETRY else old end.
(** 1098-1114 *)
Definition env_robust (v : option text) (old : robust) : robust :=
  match v with None => old | Some s =>
    if is_word s "NO" then ROBUST_NO else if is_word s "LOW" then ROBUST_LOW else if is_word s "HIGH" then ROBUST_HIGH else old end.
(** 1116-1133; the second part repairs a too small count in the high mode *)
Definition FLCK_ROBUST_CHKCNT_MIN := 50.
Definition FLCK_ROBUST_CHKCNT_DEFAULT := 5000.
Definition env_loop (v : option text) (mode : robust) (old : Z) : Z :=
  let n := match v with None => old | Some s => if atoi s <? FLCK_ROBUST_CHKCNT_MIN then old else atoi s end in
  match mode with ROBUST_HIGH => if n <? FLCK_ROBUST_CHKCNT_MIN then FLCK_ROBUST_CHKCNT_DEFAULT else n | _ => n end.
(** 1135-1147; 511 is octal 0777, which is refused itself *)
Definition env_umask (v : option text) (old : Z) : Z :=
  match v with None => old | Some s =>
    match CvtNumberStringToLong s with None => old | Some n => if (n <? 0) || (511 <=? n) then old else n end end.
(** 1171-1186, also 248-266 and 327-343 *)
Definition default_dir (fs : fsys) : text :=
  let top := tx "/var/lib/antpickax" in
  (if fs_staterr fs top then tx "/tmp" else match fs_node fs top with Some k => if looks_dir k then top else tx "/tmp" | None => tx "/tmp" end) ++ tx "/.fullock".
(** 1149-1192 *)
Definition env_dir (cwd : option text) (v : option text) (fs : fsys) (old : text) : outcome (text * fsys) :=
  let fallback (fs : fsys) : outcome (text * fsys) :=
    match MakeWorkDirectory cwd fs (default_dir fs) with
    | RUndef => RUndef | RFail => RFail
    | ROk (fs', true) => ROk (default_dir fs, fs')
    | ROk (fs', false) => ROk (old, fs')
    end in
  match v with
  | None => fallback fs
  | Some s => match GetRealPath cwd s with
              | RUndef => RUndef
              | RFail => fallback fs
              | ROk top => match MakeWorkDirectory cwd fs top with
                           | RUndef => RUndef | RFail => RFail
                           | ROk (fs', true) => ROk (top, fs')
                           | ROk (fs', false) => fallback fs'
                           end
              end
  end.
(** 1194-1207 *)
Definition env_name (v : option text) (old : text) : text :=
  match v with None => tx "fullock.shm" | Some s => if has_slash (trim s) then old else trim s end.
(** 1209-1285, one count: the [int] is converted to [size_t] before the comparison *)
Definition env_count (lo hi : Z) (v : option text) (old : Z) : Z :=
  match v with None => old | Some s => let n := u64 (atoi s) in if (n <? lo) || (hi <? n) then old else n end.
(** 1287-1305 *)
Definition env_free (v : option text) (old : freeunit) : freeunit :=
  match v with None => old | Some s =>
    if is_word s "NO" then FREE_NO else if is_word s "FD" then FREE_FD else if is_word s "OFFSET" then FREE_OFFSET
    else if is_word s "ALWAYS" then FREE_FD else old end.
Definition env_counts (e : env) (n : counts) : counts :=
  mkCnt (env_count 1 2048 (e "FLCKFILECNT"%string) (n_file n)) (env_count 4 16384 (e "FLCKOFFETCNT"%string) (n_off n))
        (env_count 4 16384 (e "FLCKLOCKERCNT"%string) (n_locker n)) (env_count 1 8192 (e "FLCKNMTXCNT"%string) (n_nmtx n))
        (env_count 1 8192 (e "FLCKNCONDCNT"%string) (n_ncond n)) (env_count 4 16384 (e "FLCKWAITERCNT"%string) (n_waiter n)).

Definition LoadEnv (e : env) (cwd : option text) (fs : fsys) (c : cfg) : outcome (cfg * fsys) :=
  match env_dir cwd (e "FLCKDIRPATH"%string) fs (k_dir c) with
  | RUndef => RUndef | RFail => RFail
  | ROk (d, fs') =>
      let rb := env_robust (e "FLCKROBUSTMODE"%string) (k_robust c) in
      ROk (mkCfg (env_auto (e "FLCKAUTOINIT"%string) (k_auto c)) rb (env_nomap (e "FLCKNOMAPMODE"%string) (k_nomap c))
                 (env_free (e "FLCKFREEUNITMODE"%string) (k_free c)) (env_umask (e "FLCKUMASK"%string) (k_umask c))
                 (env_loop (e "FLCKROBUSTCHKCNT"%string) rb (k_loop c)) (env_counts e (k_cnt c))
                 d (env_name (e "FLCKFILENAME"%string) (k_name c)) (k_path c) (k_att c), fs')
  end.

(** ** Starting the library *)
(** lib/flckshminit.cc:114-229.  Fails when the object is already attached; opening an empty path fails; otherwise the outcome is [ok]. *)
Definition InitializeShm (ok : bool) (c : cfg) : cfg * bool :=
  if k_att c then (c, false)
  else match k_path c with [] => (c, false) | _ => if ok then (w_att true c, true) else (c, false) end.

(** lib/flckshm.cc:236-291 *)
Definition InitializeObject (load : bool) (e : env) (cwd : option text) (ok : bool) (fs : fsys) (c : cfg) : outcome (cfg * fsys * bool) :=
  match (if load then LoadEnv e cwd fs (w_path [] c) else ROk (w_path [] c, fs)) with
  | RUndef => RUndef | RFail => RFail
  | ROk (c1, fs1) =>
      if load && negb (k_auto c1) then ROk (c1, fs1, true)
      else
        let c2 := match k_dir c1 with [] => w_dir (default_dir fs1) c1 | _ => c1 end in
        match MakeWorkDirectory cwd fs1 (k_dir c2) with
        | RUndef => RUndef | RFail => RFail
        | ROk (fs2, false) => ROk (c2, fs2, false)
        | ROk (fs2, true) =>
            let c3 := w_path (k_dir c2 ++ tx "/" ++ k_name c2) c2 in
            let '(c4, r) := InitializeShm ok c3 in ROk (c4, fs2, r)
        end
  end.

(** lib/flckshm.cc:295-305; the last line tests the locker count where the waiter count was meant *)
Definition bad_count (lo hi n : Z) : bool := (n <? lo) || (hi <? n).
Definition reinit_refuses (q : counts) : bool :=
  (negb (n_file q =? 0) && bad_count 1 2048 (n_file q)) || (negb (n_off q =? 0) && bad_count 4 16384 (n_off q)) ||
  (negb (n_locker q =? 0) && bad_count 4 16384 (n_locker q)) || (negb (n_nmtx q =? 0) && bad_count 1 8192 (n_nmtx q)) ||
  (negb (n_ncond q =? 0) && bad_count 1 8192 (n_ncond q)) || (negb (n_locker q =? 0) && bad_count 4 16384 (n_waiter q)).
(** an argument that is given: not NULL and not empty, FLCKEMPTYSTR *)
Definition given (s : option text) : option text := match s with Some (c :: r) => Some (c :: r) | _ => None end.
Definition over (new old : Z) : Z := if new =? 0 then old else new.

(** lib/flckshm.cc:321-404, after the checks of counts and directory; [top]: the directory given, normalised; [q]: the six counts of the call *)
Definition reinit_rest (e : env) (cwd : option text) (ok : bool) (filename : option text) (q : counts) (c : cfg) (top : option text) (fs : fsys)
  : outcome (cfg * fsys * bool) :=
  if match given filename with Some f => has_slash (trim f) | None => false end then ROk (c, fs, false)
  else
    let n := k_cnt c in
    let c1 := w_att false c in                                     (* Destroy, lib/flckshminit.cc:376-395 *)
    let c2 := w_cnt (mkCnt 128 8192 8192 256 (n_ncond n) (n_waiter n)) (w_name (tx "fullock.shm") (w_dir (default_dir fs) c1)) in
    match LoadEnv e cwd fs c2 with
    | RUndef => RUndef | RFail => RFail
    | ROk (c3, fs1) =>
        let c4 := w_auto true c3 in
        let c5 := match top with Some d => w_dir d c4 | None => c4 end in
        let c6 := match given filename with Some f => w_name (trim f) c5 | None => c5 end in
        let n6 := k_cnt c6 in
        let c7 := w_cnt (mkCnt (over (n_file q) (n_file n6)) (over (n_off q) (n_off n6)) (over (n_locker q) (n_locker n6))
                               (over (n_nmtx q) (n_nmtx n6)) (over (n_ncond q) (n_ncond n6)) (over (n_waiter q) (n_waiter n6))) c6 in
        InitializeObject false e cwd ok fs1 c7
    end.
(** lib/flckshm.cc:293-404 *)
Definition ReInitializeObject (e : env) (cwd : option text) (ok : bool) (dirname filename : option text) (q : counts) (fs : fsys) (c : cfg)
  : outcome (cfg * fsys * bool) :=
  if reinit_refuses q then ROk (c, fs, false)
  else
    match given dirname with
    | None => reinit_rest e cwd ok filename q c None fs
    | Some d => match GetRealPath cwd d with
                | RUndef => RUndef
                | RFail => ROk (c, fs, false)
                | ROk top => match MakeWorkDirectory cwd fs top with
                             | RUndef => RUndef | RFail => RFail
                             | ROk (fs', false) => ROk (c, fs', false)
                             | ROk (fs', true) => reinit_rest e cwd ok filename q c (Some top) fs'
                             end
                end
    end.

(** ** Setters, lib/flckshm.cc:412-458 *)
Definition SetRobustMode (v : robust) (c : cfg) : cfg * robust :=
  let c1 := w_robust v c in
  (match v with ROBUST_HIGH => if k_loop c1 <? FLCK_ROBUST_CHKCNT_MIN then w_loop FLCK_ROBUST_CHKCNT_DEFAULT c1 else c1 | _ => c1 end, k_robust c).
Definition SetNomapMode (v : nomap) (c : cfg) : cfg * nomap := (w_nomap v c, k_nomap c).
Definition SetFreeUnitMode (v : freeunit) (c : cfg) : cfg * freeunit := (w_free v c, k_free c).
Definition SetRobustLoopCnt (v : Z) (c : cfg) : cfg * Z :=
  match k_robust c with
  | ROBUST_HIGH => if v <? FLCK_ROBUST_CHKCNT_MIN then (c, -1) else (w_loop v c, k_loop c)
  | _ => (c, -1)
  end.
(** lib/fullock.cc:109-115 *)
Definition fullock_set_robust_check_count (v : Z) (c : cfg) : cfg * bool :=
  let '(c', r) := SetRobustLoopCnt v c in (c', negb (r =? -1)).

(** ** The lock calls up to the first access of shared memory *)
(** lib/flckshm.cc:646-659 *)
Definition CheckAttach (ok : bool) (c : cfg) : cfg * bool :=
  if k_att c then (c, true)
  else match k_nomap c with
       | NOMAP_ALLOW_RETRY | NOMAP_DENY_RETRY => InitializeShm ok c
       | _ => (c, false)
       end.
Definition nomap_result (m : nomap) : Z :=
  match m with NOMAP_ALLOW_RETRY | NOMAP_ALLOW_NORETRY => 0 | _ => ENOLCK end.

(** the exported calls, lib/fullock.cc:134-260 *)
Inductive api :=
  | ApiMutex (lock : bool) (name : option text) (timeout : Z)
  | ApiRw (kind : Z) (fd off len timeout : Z)
  | ApiIsLocked (fd off len : Z)
  | ApiWait (cond mutex : option text) (timeout : Z)
  | ApiSignal (cond : option text) (broadcast : bool).
(** [Leave r]: returns r (for the question: 1 is true) without having touched shared memory; [Enter]: goes on to the shared lists *)
Inductive entry := Leave (r : Z) | Enter.
Definition attach_or (ok : bool) (c : cfg) (miss : nomap -> Z) : cfg * entry :=
  let '(c', a) := CheckAttach ok c in (c', if a then Enter else Leave (miss (k_nomap c'))).
(** lib/flckshm.cc:661-671, 731-745, 840-856, 872-883; [dev]: GetFileDevNode succeeds *)
Definition call_head (ok dev : bool) (a : api) (c : cfg) : cfg * entry :=
  match a with
  | ApiMutex _ None _ => (c, Leave EINVAL)
  | ApiMutex _ (Some _) _ => attach_or ok c nomap_result
  | ApiRw _ _ _ _ _ =>
      let '(c', r) := attach_or ok c nomap_result in
      (c', match r with Enter => if dev then Enter else Leave (nomap_result (k_nomap c')) | _ => r end)
  | ApiIsLocked _ _ _ =>
      let '(c', r) := attach_or ok c (fun m => match m with NOMAP_ALLOW_RETRY | NOMAP_ALLOW_NORETRY => 0 | _ => 1 end) in
      (c', match r with Enter => if dev then Enter else Leave 0 | _ => r end)
  | ApiWait None _ _ => (c, Leave EINVAL)
  | ApiWait (Some _) _ _ => attach_or ok c nomap_result
  | ApiSignal None _ => (c, Leave EINVAL)
  | ApiSignal (Some _) _ => attach_or ok c nomap_result
  end.
