(** Specification vocabulary for the file helpers and the event scan; nothing here mentions their
    loops. *)
From Verif Require Import Base Util_Model.
From Coq Require Import ZArith List Bool.
Import ListNotations.
Open Scope Z_scope.

(** what pread(2) on a regular file of [size] bytes may answer: an error, or a count of at least
    one byte that stays inside request and file, or 0 at or behind the end *)
Definition os_read_ok (size : Z) (y : sysc) : Prop :=
  match y_ans y with
  | Err _ => True
  | Did k => (1 <= k <= y_len y /\ y_pos y + k <= size) \/ (k = 0 /\ size <= y_pos y)
  end.

(** what pwrite(2) may answer: an error or a count inside the request *)
Definition os_write_ok (y : sysc) : Prop :=
  match y_ans y with Err _ => True | Did k => 0 <= k <= y_len y end.

(** the request stays inside a buffer of [count] bytes *)
Definition in_buffer (count : Z) (y : sysc) : Prop := 0 <= y_at y /\ y_at y + y_len y <= count.
Definition failed (y : sysc) : Prop := exists e, y_ans y = Err e.

(** [f] is [g] on the [n] cells from [a] (of [g] from [b]) *)
Definition copies (f : Z -> Z) (a : Z) (g : Z -> Z) (b n : Z) : Prop :=
  forall i, 0 <= i < n -> f (a + i) = g (b + i).
(** [f] and [g] agree outside the [n] cells from [a] *)
Definition same_outside (f g : Z -> Z) (a n : Z) : Prop :=
  forall x, x < a \/ a + n <= x -> f x = g x.

(** ** read(2) *)
Definition got (a : rans) : list Z := match a with Got bs => bs | RErr _ => [] end.
(** all bytes the operating system delivered, in order *)
Definition delivered (l : list rans) : list Z := concat (map got l).
(** read(2) delivers at most as much as was asked for *)
Definition read_ok (page : Z) (a : rans) : Prop := Z.of_nat (length (got a)) <= page.

(** the answer after which nothing more is to be expected: less than was asked for, or an error
    other than an interruption *)
Definition final (page : Z) (a : rans) : bool :=
  match a with
  | Got bs => Z.of_nat (length bs) <? page
  | RErr e => negb (e =? EINTR)
  end.
(** the answers up to the first final one *)
Fixpoint until_final (page : Z) (l : list rans) : list rans :=
  match l with
  | [] => []
  | a :: r => if final page a then [a] else a :: until_final page r
  end.
(** a reason for the reader to give up *)
Definition gave_up (mem : list bool) (used : list rans) : Prop :=
  In false mem \/ exists e, In (RErr e) used /\ e <> EINTR /\ e <> EAGAIN.

(** ** Events *)
Record event := Ev { e_wd : Z; e_mask : Z; e_cookie : Z; e_name : list Z }.

(** the four bytes of a 32 bit word, low byte first *)
Definition le32 (x : Z) : list Z :=
  [x mod 256; (x / 256) mod 256; (x / 65536) mod 256; (x / 16777216) mod 256].

(** inotify(7): the record of an event *)
Definition encode (e : event) : list Z :=
  le32 (e_wd e mod two32) ++ le32 (e_mask e) ++ le32 (e_cookie e) ++
  le32 (Z.of_nat (length (e_name e))) ++ e_name e.

Definition event_ok (e : event) : Prop :=
  is_int32 (e_wd e) /\ 0 <= e_mask e < two32 /\ Z.of_nat (length (e_name e)) < two32 /\
  Forall (fun b => 0 <= b < 256) (e_name e).

(** IN_CLOSE_WRITE is bit 3, IN_CLOSE_NOWRITE bit 4 *)
Definition is_close (e : event) : Prop :=
  Z.testbit (e_mask e) 3 = true \/ Z.testbit (e_mask e) 4 = true.

(** some event says that the watched file was closed *)
Definition closed_in (watch : Z) (evs : list event) : Prop :=
  exists e, In e evs /\ e_wd e = watch /\ is_close e.

Definition stream (evs : list event) : list Z := concat (map encode evs).

(** memory holds the bytes [bs] from address 0 *)
Definition holds (m : Z -> Z) (bs : list Z) : Prop :=
  forall i, (i < length bs)%nat -> m (Z.of_nat i) = nth i bs 0.
