(** Model of a whole recovery pass: lib/flckshm.cc:497-624 [CheckProcessDead] and what it calls, with
    the process-state cache of the pass, and of the pass over one range entry that a waiting lock call
    makes (lib/flcklistofflock.cc:212-226).

    The process table is a function of the number of questions put to the cache so far: it may change
    between any two of them.  Simplifications: the pass is sequential; the three lists do not change
    by other hands (they are read under their guards), and neither do mutexes and lock words while
    the pass looks at them (those races are in [Mutex_*] and [RwApi_*]).  Owners are pairs instead
    of packed words (packing is [Pid_*]). *)
From Verif Require Import Base Cache_Model RwApi_Model.
From Coq Require Import ZArith List Bool.
Import ListNotations.
Open Scope Z_scope.

(** lib/flckstructure.h: locker, range entry, file entry, named mutex, named condition *)
Record lk := Lk { l_pid : Z; l_tid : Z; l_fd : Z; l_locked : bool }.
Record oent := OE { e_off : Z; e_len : Z; e_prot : bool; e_word : Z; e_rd : list lk; e_wr : list lk }.
Record fent := FE { n_dev : Z; n_ino : Z; n_prot : bool; n_offs : list oent }.
Record ment := ME { m_own : option (Z * Z); m_cnt : Z }.
Definition cent := list (Z * Z).

(** the lists and the numbers of entries in the four pools *)
Record shr := Shr {
  g_files : list fent; g_mtx : list ment; g_cond : list cent;
  p_file : Z; p_off : Z; p_lk : Z; p_wait : Z }.

(** the pass: questions put so far, cache *)
Record pst := PS { q_no : nat; q_cache : cache }.
Definition pass0 : pst := PS 0 [].

Section Pass.
Variable w : nat -> os.

(** lib/flckutil.cc:244-266 and 292-344 at the moment of the question *)
Definition ask_run (p : pst) (pid tid : Z) : bool * pst :=
  let '(b, c) := FindThreadProcess (w (q_no p)) (Some (q_cache p)) pid tid in
  (b, PS (S (q_no p)) (match c with Some m => m | None => [] end)).
Definition ask_node (p : pst) (pid tid fd : Z) : option (Z * Z) * pst :=
  let '(r, c) := GetFileDevNode (w (q_no p)) (Some (q_cache p)) pid tid fd in
  (r, PS (S (q_no p)) (match c with Some m => m | None => [] end)).

(** lib/flcklistlocker.cc:46-77; [ex]: except_flckpid and except_fd *)
Definition dead_locker (dev ino : Z) (ex : Z * Z * Z) (p : pst) (l : lk) : bool * pst :=
  let '(xp, xt, xf) := ex in
  if (l_pid l =? xp) && (l_tid l =? xt) && (l_fd l =? xf) then (false, p)
  else
    let '(r, p) := ask_node p (l_pid l) (l_tid l) (l_fd l) in
    match r with
    | None => (true, p)
    | Some (d, i) =>
        (negb (FLCK_EACCESS_ID =? d) && negb (FLCK_EACCESS_ID =? i) && (negb (d =? dev) || negb (i =? ino)), p)
    end.

(** lib/flcklistofflock.cc:249-282, 284-317: the lockers kept, the lock word, the number taken out *)
Fixpoint sweep_lockers (dev ino : Z) (ex : Z * Z * Z) (p : pst) (word : Z) (l : list lk) : list lk * Z * Z * pst :=
  match l with
  | [] => ([], word, 0, p)
  | x :: r =>
      let '(dead, p) := dead_locker dev ino ex p x in
      if dead then
        let '(k, v, n, p) := sweep_lockers dev ino ex p (if l_locked x then unlock_word word else word) r in
        (k, v, n + 1, p)
      else
        let '(k, v, n, p) := sweep_lockers dev ino ex p word r in
        (x :: k, v, n, p)
  end.

(** lib/flcklistofflock.h:88 *)
Definition oent_locked (o : oent) : bool := e_prot o || nonempty (e_rd o) || nonempty (e_wr o).
(** lib/flcklistfilelock.cc:197-214 *)
Definition fent_locked (f : fent) : bool := n_prot f || existsb oent_locked (n_offs f).

(** lib/flcklistofflock.cc:240-319: entry, lockers given back *)
Definition sweep_off (dev ino : Z) (ex : Z * Z * Z) (p : pst) (o : oent) : oent * Z * pst :=
  let '(rd, v1, n1, p) := sweep_lockers dev ino ex p (e_word o) (e_rd o) in
  let '(wr, v2, n2, p) := sweep_lockers dev ino ex p v1 (e_wr o) in
  (OE (e_off o) (e_len o) (e_prot o) v2 rd wr, n1 + n2, p).

(** lib/flcklistfilelock.cc:169-190: range entries kept, range entries and lockers given back *)
Fixpoint sweep_offs (dev ino : Z) (ex : Z * Z * Z) (p : pst) (l : list oent) : list oent * Z * Z * pst :=
  match l with
  | [] => ([], 0, 0, p)
  | o :: r =>
      let '(o', n, p) := sweep_off dev ino ex p o in
      let '(k, no, nl, p) := sweep_offs dev ino ex p r in
      if oent_locked o' then (o' :: k, no, n + nl, p) else (k, no + 1, n + nl, p)
  end.

(** lib/flckshm.cc:535-560: the defaults of the exceptions are 0 and -1 *)
Definition no_ex : Z * Z * Z := (0, 0, -1).
Fixpoint sweep_files (p : pst) (l : list fent) : list fent * Z * Z * Z * pst :=
  match l with
  | [] => ([], 0, 0, 0, p)
  | f :: r =>
      let '(os, no, nl, p) := sweep_offs (n_dev f) (n_ino f) no_ex p (n_offs f) in
      let f' := FE (n_dev f) (n_ino f) (n_prot f) os in
      let '(k, nf, no', nl', p) := sweep_files p r in
      if fent_locked f' then (f' :: k, nf, no + no', nl + nl', p)
      else (k, nf + 1, no + no', nl + nl', p)
  end.

(** lib/flcklistnmtx.cc:97-121, lib/flckshm.cc:579-592; a dead owner: lib/flckbaselist.tcc:402-415 *)
Fixpoint sweep_mtx (p : pst) (l : list ment) : list ment * pst :=
  match l with
  | [] => ([], p)
  | m :: r =>
      match m_own m with
      | None => let '(k, p) := sweep_mtx p r in (m :: k, p)
      | Some (pid, tid) =>
          if (pid =? 0) && (tid =? 0) then let '(k, p) := sweep_mtx p r in (m :: k, p)
          else
          let '(run, p) := ask_run p pid tid in
          let '(k, p) := sweep_mtx p r in
          ((if run then m else ME None 0) :: k, p)
      end
  end.

(** lib/flcklistncond.cc:154-188, lib/flcklistwaiter.cc:108-130: waiters kept, number given back *)
Fixpoint sweep_waiters (p : pst) (l : cent) : cent * Z * pst :=
  match l with
  | [] => ([], 0, p)
  | (pid, tid) :: r =>
      if (pid =? 0) && (tid =? 0) then let '(k, n, p) := sweep_waiters p r in ((pid, tid) :: k, n, p)
      else
        let '(run, p) := ask_run p pid tid in
        let '(k, n, p) := sweep_waiters p r in
        if run then ((pid, tid) :: k, n, p) else (k, n + 1, p)
  end.
(** lib/flckshm.cc:610-622 *)
Fixpoint sweep_conds (p : pst) (l : list cent) : list cent * Z * pst :=
  match l with
  | [] => ([], 0, p)
  | c :: r =>
      let '(c', n, p) := sweep_waiters p c in
      let '(k, m, p) := sweep_conds p r in
      (c' :: k, n + m, p)
  end.

(** lib/flckshm.cc:497-516 *)
Definition CheckProcessDead (s : shr) : shr :=
  let '(fs, nf, no, nl, p) := sweep_files pass0 (g_files s) in
  let '(ms, p) := sweep_mtx p (g_mtx s) in
  let '(cs, nw, _) := sweep_conds p (g_cond s) in
  Shr fs ms cs (p_file s + nf) (p_off s + no) (p_lk s + nl) (p_wait s + nw).

(** lib/flcklistofflock.cc:212-226: the pass of a waiting call of [pid]/[tid] over the entry it waits
    for; the entry is protected meanwhile.  Result: entry and lockers given back *)
Definition RecoverRange (dev ino pid tid fd : Z) (o : oent) : oent * Z :=
  let '(o', n, _) := sweep_off dev ino (pid, tid, fd) pass0 (OE (e_off o) (e_len o) true (e_word o) (e_rd o) (e_wr o)) in
  (OE (e_off o') (e_len o') false (e_word o') (e_rd o') (e_wr o'), n).
End Pass.
