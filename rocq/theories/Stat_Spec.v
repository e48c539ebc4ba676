(** Vocabulary for the lifetime of static objects. *)
From Coq Require Import List Bool Arith.
From Verif Require Import Base Stat_Model.
Import ListNotations.

Definition anything (s : lstate) (x : llabel * oc) : Prop := True.
(** initialising succeeds whenever it is tried *)
Definition inits (s : lstate) (x : llabel * oc) : Prop := o_init (snd x) = true.
(** a program that looks after its static objects: they lock, or call the library, already in their constructors, or they are recursive
    locks that are not locked at exit in a program that has used the library *)
Definition careful (s : lstate) (x : llabel * oc) : Prop :=
  match fst x with
  | LNew _ (UCalls false) => False
  | LExit => forall i, l_built s (User i) = true -> l_kind s i = ULazy -> l_lock s i = false /\ l_built s Helper = true
  | _ => True
  end.
(** when the library starts, the cache of thread numbers is there already, or no worker is started *)
Definition numbers_first (s : lstate) (x : llabel * oc) : Prop :=
  l_built s Helper = true \/ l_built s Tids = true \/
  (match fst x with LNew _ ULazy => True | LNew _ ULock => True | _ => False end) \/
  o_worker (snd x) = false.
(** all destructors have run *)
Definition gone (s : lstate) : Prop := l_exit s = true /\ l_done s = [].
Definition both (f g : lstate -> llabel * oc -> Prop) (s : lstate) (x : llabel * oc) : Prop := f s x /\ g s x.
