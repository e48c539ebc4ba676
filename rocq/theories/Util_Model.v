(** Model of the file helpers of lib/flckutil.cc:424-525 and of the event scan of
    lib/flckthread.cc:275-314.

    The operating system is a list of answers, one per system call; a helper that needs more
    answers than the list holds has not returned yet ([None]).  Each helper also returns the log
    of the system calls it made, so that the specification can speak about what the operating
    system was asked and what it answered.

    Simplifications: sizes and offsets are mathematical integers.  A transfer never counts beyond
    the requested size, so this is exact for sizes below 2^63 and offsets with
    [offset + size < 2^63]; larger sizes are not covered.  Files do not change by other hands
    while a helper runs. *)
From Verif Require Import Base.
From Coq Require Import ZArith List Bool.
Import ListNotations.
Open Scope Z_scope.

(** ** Positional transfers *)

(** answer of pread(2)/pwrite(2): a byte count or [-1] with errno *)
Inductive ans := Did (n : Z) | Err (e : Z).

(** one system call: index in the caller's buffer, length, file position, answer *)
Record sysc := Sys { y_at : Z; y_len : Z; y_pos : Z; y_ans : ans }.

(** [n] cells of [src] from [spos] put over [dst] at [dpos]: what the kernel does with a transfer
    of [n] bytes *)
Definition blit (dst : Z -> Z) (dpos : Z) (src : Z -> Z) (spos n : Z) : Z -> Z :=
  fun x => if (dpos <=? x) && (x <? dpos + n) then src (spos + (x - dpos)) else dst x.

(** lib/flckutil.cc:476-490: the loop of [flck_pread]; [cnt] is [read_cnt].
    Result: value returned, buffer, log, answers not used. *)
Fixpoint pread_loop (file buf : Z -> Z) (count offset cnt : Z) (l : list ans)
  : option (Z * (Z -> Z) * list sysc * list ans) :=
  if cnt <? count then
    match l with
    | [] => None
    | a :: r =>
      let y := Sys cnt (count - cnt) (offset + cnt) a in
      match a with
      | Err _ => Some (-1, buf, [y], r)
      | Did k =>
        let buf' := blit buf cnt file (offset + cnt) k in
        if k =? 0 then Some (cnt, buf', [y], r)
        else match pread_loop file buf' count offset (cnt + k) r with
             | Some (v, b, log, more) => Some (v, b, y :: log, more)
             | None => None
             end
      end
    end
  else Some (cnt, buf, [], l).

Definition flck_pread file buf count offset l := pread_loop file buf count offset 0 l.

(** lib/flckutil.cc:492-503: the loop of [flck_pwrite]; there is no test for an answer of 0 *)
Fixpoint pwrite_loop (file buf : Z -> Z) (count offset cnt : Z) (l : list ans)
  : option (Z * (Z -> Z) * list sysc * list ans) :=
  if cnt <? count then
    match l with
    | [] => None
    | a :: r =>
      let y := Sys cnt (count - cnt) (offset + cnt) a in
      match a with
      | Err _ => Some (-1, file, [y], r)
      | Did k =>
        match pwrite_loop (blit file (offset + cnt) buf cnt k) buf count offset (cnt + k) r with
        | Some (v, f, log, more) => Some (v, f, y :: log, more)
        | None => None
        end
      end
    end
  else Some (cnt, file, [], l).

Definition flck_pwrite file buf count offset l := pwrite_loop file buf count offset 0 l.

(** lib/flckutil.cc:508: size of [bydata] *)
Definition CHUNK : Z := 4096.
(** lib/flckutil.cc:508-513: [bydata] after [memset] *)
Definition bydata : Z -> Z := fun _ => 0.

(** lib/flckutil.cc:505-525: the loop of [flck_fill_zero]; [fuel] bounds the rounds, every round
    uses at least one answer *)
Fixpoint fill_loop (fuel : nat) (file : Z -> Z) (count offset cnt : Z) (l : list ans)
  : option (bool * (Z -> Z) * list sysc * list ans) :=
  match fuel with
  | O => None
  | S fuel' =>
    if cnt <? count then
      match flck_pwrite file bydata (Z.min (count - cnt) CHUNK) (offset + cnt) l with
      | None => None
      | Some (v, f, log, more) =>
        if v =? -1 then Some (false, f, log, more)
        else match fill_loop fuel' f count offset (cnt + v) more with
             | Some (b, f', log', more') => Some (b, f', log ++ log', more')
             | None => None
             end
      end
    else Some (true, file, [], l)
  end.

Definition flck_fill_zero file count offset l := fill_loop (S (length l)) file count offset 0 l.

(** ** Reading everything that is there *)

(** lib/flckutil.cc:537-553 [GetSystemPageSize]: [s_init] starts as [false] and is set only where
    it already is [true], so the default is never replaced *)
Definition FLCK_DEFAULT_SYSTEM_PAGESIZE : Z := 4096.
Definition GetSystemPageSize (sysconf : Z) : Z :=
  let s_init := false in
  if s_init then (if sysconf =? -1 then FLCK_DEFAULT_SYSTEM_PAGESIZE else sysconf)
  else FLCK_DEFAULT_SYSTEM_PAGESIZE.

(** a byte of heap memory: set, or whatever was there *)
Definition cell := option Z.

(** answer of read(2): bytes delivered or errno *)
Inductive rans := Got (bs : list Z) | RErr (e : Z).
Definition EINTR : Z := 4.

(** outcome of [flck_read]: a write outside the allocation, [-1], or a size and a buffer *)
Inductive rres := RCrash | RFail | RBuf (size : Z) (buf : list cell).

Definition fresh (n : Z) : list cell := repeat None (Z.to_nat n).

(** the kernel stores [bs] at [pos]; [None] when that is outside the allocation *)
Definition put (buf : list cell) (pos : Z) (bs : list Z) : option (list cell) :=
  let p := Z.to_nat pos in
  if (length buf <? p + length bs)%nat then None
  else Some (firstn p buf ++ map Some bs ++ skipn (p + length bs) buf).

(** lib/flckutil.cc:438-471: the loop of [flck_read].  [buf] is [pbuff], [size] is [buffsize];
    [mem] are the answers of realloc(3) (success when the list is used up). *)
Fixpoint read_loop (page : Z) (buf : list cell) (size pos : Z) (mem : list bool) (l : list rans)
  : option rres :=
  match l with
  | [] => None
  | RErr e :: r =>
    if e =? EAGAIN then Some (RBuf size buf)
    else if e =? EINTR then read_loop page buf size pos mem r
    else Some RFail
  | Got bs :: r =>
    match put buf pos bs with
    | None => Some RCrash
    | Some buf1 =>
      let n := Z.of_nat (length bs) in
      if n <? page then Some (RBuf (pos + n) buf1)
      else if size <? pos + n + page then
        match mem with
        | false :: _ => Some RFail
        | _ => read_loop page (buf1 ++ fresh (pos + n + page - Z.of_nat (length buf1)))
                 (pos + n + page) (pos + n) (tl mem) r
        end
      else read_loop page buf1 size (pos + n) mem r
    end
  end.

(** lib/flckutil.cc:424-474 [flck_read] with a valid descriptor; the first entry of [mem] is the
    answer of malloc(3) *)
Definition flck_read (sysconf : Z) (mem : list bool) (l : list rans) : option rres :=
  let page := GetSystemPageSize sysconf in
  match mem with
  | false :: _ => Some RFail
  | _ => read_loop page (fresh page) page 0 (tl mem) l
  end.

(** ** Event scan *)

(** sys/inotify.h *)
Definition IN_CLOSE_WRITE : Z := 8.
Definition IN_CLOSE_NOWRITE : Z := 16.
Definition IN_CLOSE : Z := 24.
(** sizeof(struct inotify_event): wd, mask, cookie, len *)
Definition EVSIZE : Z := 16.

(** little-endian 32 bit load *)
Definition load32 (m : Z -> Z) (p : Z) : Z :=
  m p + 256 * m (p + 1) + 65536 * m (p + 2) + 16777216 * m (p + 3).

Definition addrs4 (p : Z) : list Z := [p; p + 1; p + 2; p + 3].

(** lib/flckthread.cc:294-309: the scan loop; result and addresses loaded (relative to [pevent]).
    [fuel] bounds the rounds; every round advances by at least 16. *)
Fixpoint scan (fuel : nat) (m : Z -> Z) (bytes watch ptr : Z) (retval : bool)
  : option (bool * list Z) :=
  match fuel with
  | O => None
  | S fuel' =>
    if ptr + EVSIZE <=? bytes then
      let ev_len := load32 m (ptr + 12) in
      let wd := s32 (load32 m ptr) in
      let mask := load32 m (ptr + 4) in
      let hit := (wd =? watch) &&
        (negb (Z.land mask IN_CLOSE =? 0) || negb (Z.land mask IN_CLOSE_NOWRITE =? 0)
         || negb (Z.land mask IN_CLOSE_WRITE =? 0)) in
      let touched := addrs4 (ptr + 12) ++ addrs4 ptr ++
        (if wd =? watch then addrs4 (ptr + 4) else []) in
      match scan fuel' m bytes watch (ptr + (EVSIZE + ev_len)) (if hit then true else retval) with
      | Some (r, t) => Some (r, touched ++ t)
      | None => None
      end
    else Some (retval, [])
  end.

Definition scan_all m bytes watch := scan (S (Z.to_nat bytes)) m bytes watch 0 false.

(** contents of the buffer as the processor sees it, cells being bytes: [junk] is what
    uninitialised cells hold *)
Definition view (junk : Z -> Z) (buf : list cell) (i : Z) : Z :=
  match nth (Z.to_nat i) buf None with Some b => b | None => junk i end mod 256.

(** outcome of [CheckEvent]: crash, or the value returned and the addresses loaded from a buffer
    of the given size *)
Inductive cres := CCrash | CRet (v : bool) (loads : list Z) (cap : Z).

(** lib/flckthread.cc:275-314 [CheckEvent] with valid descriptors *)
Definition CheckEvent (sysconf : Z) (junk : Z -> Z) (mem : list bool) (watch : Z) (l : list rans)
  : option cres :=
  match flck_read sysconf mem l with
  | None => None
  | Some RCrash => Some CCrash
  | Some RFail => Some (CRet false [] 0)
  | Some (RBuf size buf) =>
    match scan_all (view junk buf) size watch with
    | Some (v, t) => Some (CRet v t (Z.of_nat (length buf)))
    | None => None
    end
  end.
