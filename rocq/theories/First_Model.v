(** First use of the library: the helper object behind it is built by the first lock call or, in fullock_reinitialize, in the middle of
    the call; the setters do not build it.  The functions of [Config_Model] with a flag for the helper and with the name of the file that
    is open.  Simplified as there: one thread, opening the file is one step. *)
From Coq Require Import List Bool Ascii String ZArith.
From Verif Require Import Base Path_Model Layout_Model Config_Model.
Import ListNotations.
Open Scope Z_scope.

Record fstate := mkF {
  f_cfg : cfg;
  f_built : bool;                  (** the helper exists *)
  f_file : option text;            (** the shared file that is open *)
  f_worker : bool                  (** the thread that looks for ended processes runs in this process *)
}.
(** lib/flckshm.cc:176-200: the variables before anything runs *)
Definition f_init : fstate := mkF cfg0 false None false.
(** the file after an operation that opens the file named by the path, or none *)
Definition opened (f : option text) (c c' : cfg) : option text :=
  if k_att c' then if k_att c then f else Some (k_path c') else None.
(** lib/flckshm.h:148, lib/flckshminit.cc:202-227: the thread is started by an operation that opens the file, if the mode is not NO; opening
    fails when the thread cannot be started (207-218).  It ends when the file is closed, lib/flckshminit.cc:383-387. *)
Definition robust_on (m : robust) : bool := match m with ROBUST_NO => false | _ => true end.
Definition working (w : bool) (c c' : cfg) : bool :=
  if k_att c' then if k_att c then w else robust_on (k_robust c') else false.

(** lib/flckshm.cc:106-112, 121-132: the helper is built once; what its InitializeObject(true) returns is not looked at.
    An exception leaves it unbuilt. *)
Definition f_start (e : env) (cwd : option text) (ok : bool) (fs : fsys) (s : fstate) : outcome (fstate * fsys) :=
  if f_built s then ROk (s, fs)
  else match InitializeObject true e cwd ok fs (f_cfg s) with
       | RUndef => RUndef | RFail => RFail
       | ROk (c, fs', _) => ROk (mkF c true (opened (f_file s) (f_cfg s) c) (working (f_worker s) (f_cfg s) c), fs')
       end.

(** the lock calls, lib/fullock.cc:134-260: an FlShm object first (lib/flckshm.h:169, lib/flckshm.cc:206-216).
    [ok1]: opening succeeds while the helper is built, [ok2]: in CheckAttach *)
Definition f_call (e : env) (cwd : option text) (ok1 ok2 dev : bool) (a : api) (fs : fsys) (s : fstate) : outcome (fstate * fsys * entry) :=
  match f_start e cwd ok1 fs s with
  | RUndef => RUndef | RFail => RFail
  | ROk (s1, fs1) => let '(c, r) := call_head ok2 dev a (f_cfg s1) in ROk (mkF c (f_built s1) (opened (f_file s1) (f_cfg s1) c) (working (f_worker s1) (f_cfg s1) c), fs1, r)
  end.

(** lib/fullock.cc:49-115: the setters work on the variables *)
Inductive fset := SetR (v : robust) | SetN (v : nomap) | SetF (v : freeunit) | SetC (v : Z).
Definition set_cfg (x : fset) (c : cfg) : cfg :=
  match x with
  | SetR v => fst (SetRobustMode v c) | SetN v => fst (SetNomapMode v c) | SetF v => fst (SetFreeUnitMode v c)
  | SetC v => fst (fullock_set_robust_check_count v c)
  end.
Definition set_says (x : fset) (c : cfg) : bool := match x with SetC v => snd (fullock_set_robust_check_count v c) | _ => true end.
Definition f_set (x : fset) (s : fstate) : fstate := mkF (set_cfg x (f_cfg s)) (f_built s) (f_file s) (f_worker s).

(** lib/flckshm.cc:321-404 as [reinit_rest]: Destroy (lib/flckshminit.cc:376-395); at 352 FlShm::ShmDirPath() builds the helper, whose
    constructor initialises on its own; then the defaults, the environment, the arguments, and InitializeObject(false).
    The default directory (338-350) is found before. *)
Definition f_reinit_rest (e : env) (cwd : option text) (ok1 ok2 : bool) (filename : option text) (q : counts) (s : fstate) (top : option text) (fs : fsys)
  : outcome (fstate * fsys * bool) :=
  if match given filename with Some f => has_slash (trim f) | None => false end then ROk (s, fs, false)
  else
    match f_start e cwd ok1 fs (mkF (w_att false (f_cfg s)) (f_built s) None false) with
    | RUndef => RUndef | RFail => RFail
    | ROk (s1, fs1) =>
        let c1 := f_cfg s1 in
        let n := k_cnt c1 in
        let c2 := w_cnt (mkCnt 128 8192 8192 256 (n_ncond n) (n_waiter n)) (w_name (tx "fullock.shm") (w_dir (default_dir fs) c1)) in
        match LoadEnv e cwd fs1 c2 with
        | RUndef => RUndef | RFail => RFail
        | ROk (c3, fs2) =>
            let c4 := w_auto true c3 in
            let c5 := match top with Some d => w_dir d c4 | None => c4 end in
            let c6 := match given filename with Some f => w_name (trim f) c5 | None => c5 end in
            let n6 := k_cnt c6 in
            let c7 := w_cnt (mkCnt (over (n_file q) (n_file n6)) (over (n_off q) (n_off n6)) (over (n_locker q) (n_locker n6))
                                   (over (n_nmtx q) (n_nmtx n6)) (over (n_ncond q) (n_ncond n6)) (over (n_waiter q) (n_waiter n6))) c6 in
            match InitializeObject false e cwd ok2 fs2 c7 with
            | RUndef => RUndef | RFail => RFail
            | ROk (c', fs3, r) => ROk (mkF c' (f_built s1) (opened (f_file s1) c7 c') (working (f_worker s1) c7 c'), fs3, r)
            end
        end
    end.
(** lib/flckshm.cc:293-404; nothing before the checks builds the helper *)
Definition f_reinit (e : env) (cwd : option text) (ok1 ok2 : bool) (dirname filename : option text) (q : counts) (fs : fsys) (s : fstate)
  : outcome (fstate * fsys * bool) :=
  if reinit_refuses q then ROk (s, fs, false)
  else
    match given dirname with
    | None => f_reinit_rest e cwd ok1 ok2 filename q s None fs
    | Some d => match GetRealPath cwd d with
                | RUndef => RUndef
                | RFail => ROk (s, fs, false)
                | ROk top => match MakeWorkDirectory cwd fs top with
                             | RUndef => RUndef | RFail => RFail
                             | ROk (fs', false) => ROk (s, fs', false)
                             | ROk (fs', true) => f_reinit_rest e cwd ok1 ok2 filename q s (Some top) fs'
                             end
                end
    end.
