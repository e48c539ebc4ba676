(** What a cache should be: every question is answered as the system answered it the first time it
    was put. *)
From Verif Require Import Base Cache_Model.
From Coq Require Import ZArith List Bool.
Import ListNotations.
Open Scope Z_scope.

(** the answer the system gives, no cache in between *)
Definition truth (o : os) (q : question) : answer := fst (ask o None q).

Definition q_eqb (a b : question) : bool :=
  match a, b with
  | QRun p t, QRun p' t' => (p =? p') && (t =? t')
  | QDev p t f, QDev p' t' f' => (p =? p') && (t =? t') && (f =? f')
  | _, _ => false
  end.

(** the first state of the system in which [q] was put *)
Fixpoint first_asked (l : list (os * question)) (q : question) : option os :=
  match l with
  | [] => None
  | (o, q') :: r => if q_eqb q' q then Some o else first_asked r q
  end.

(** expected answers: [seen] are the questions put so far *)
Fixpoint expected (seen l : list (os * question)) : list answer :=
  match l with
  | [] => []
  | (o, q) :: r =>
    truth (match first_asked seen q with Some o' => o' | None => o end) q
      :: expected (seen ++ [(o, q)]) r
  end.

(** errno of a failed stat is not 0; a file has device or inode other than 0; looking a thread up
    is not forbidden *)
Definition os_ok (o : os) : Prop :=
  (forall p t e, o_task o p t = SErr e -> e <> 0 /\ e <> EACCES) /\
  (forall p f e, o_fd o p f = SErr e -> e <> 0) /\
  (forall p f d i, o_fd o p f = SOk d i -> d <> 0 \/ i <> 0).

(** nobody is asked about as a thread and about the descriptor -1 in one pass *)
Definition unmixed (l : list question) : Prop :=
  forall p t, ~ (In (QRun p t) l /\ In (QDev p t (-1)) l).
