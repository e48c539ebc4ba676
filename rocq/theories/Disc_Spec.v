(** What is claimed about the list locks, in terms of who has which lock and where a thread is. *)
From Coq Require Import ZArith List Bool.
From Verif Require Import Base Disc_Model.
Import ListNotations.
Open Scope Z_scope.

Definition has (s : dsys) (t : Z) (l : lk) : Prop := d_own s l = Some t.
Definition live (s : dsys) (t : Z) : Prop := d_dead s t = false.
(** in no call *)
Definition outside (s : dsys) (t : Z) : Prop := d_k s t = [].
(** about to take, about to release the list lock *)
Definition asks (s : dsys) (t : Z) (l : lk) : Prop := exists k, d_k s t = KC (Acq l) :: k.
Definition gives (s : dsys) (t : Z) (l : lk) : Prop := exists k, d_k s t = KC (Rel l) :: k.
(** at a place where a lock of the user or a signal is waited for *)
Definition waits (s : dsys) (t : Z) : Prop := exists k, d_k s t = KC Block :: k.
(** threads call the functions of the library, in any order and number *)
Definition of_library (ls : list dlabel) : Prop := forall t c, In (DCall t c) ls -> In c calls.
(** a run of one thread *)
Definition alone (u : Z) (bs : list bool) : list dlabel := map (DStep u) bs.
