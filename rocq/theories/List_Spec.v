(** What the contents of a shared list are: the sequence of file offsets of its entries. *)
From Coq Require Import ZArith List Bool Lia.
From Verif Require Import Base List_Model.
Import ListNotations.
Open Scope Z_scope.

(** following the [next] members from r meets exactly the entries l, then NULL *)
Inductive chain (noff : Z) (m : mem) : Z -> list Z -> Prop :=
| chain_nil : chain noff m 0 []
| chain_cons : forall r l, 0 < r -> chain noff m (m (r + noff)) l -> chain noff m r (r :: l).

(** the list whose head cell is [top] contains exactly l, without repetition, and the head cell is not part
    of one of its entries *)
Definition contents (noff : Z) (m : mem) (top : Z) (l : list Z) : Prop :=
  chain noff m (m top) l /\ NoDup l /\ (forall r, In r l -> r + noff <> top).

(** first and last element satisfying a predicate *)
Definition first_with (P : Z -> bool) (l : list Z) (r : Z) : Prop :=
  exists a b, l = a ++ r :: b /\ P r = true /\ (forall x, In x a -> P x = false).
Definition last_with (P : Z -> bool) (l : list Z) (r : Z) : Prop :=
  exists a b, l = a ++ r :: b /\ P r = true /\ (forall x, In x b -> P x = false).

(** memory after the first k writes: what is left if the process dies then *)
Definition crashed_after (k : nat) (m : mem) (ws : list write) : mem := apply_writes m (firstn k ws).

(** the list with head cell [top2] and contents [l2] shares nothing with the list at [top] and the entry r:
    different head cells, no common entry, and head cells are not inside entries *)
Definition apart (noff : Z) (top : Z) (l : list Z) (top2 : Z) (l2 : list Z) : Prop :=
  top <> top2 /\ (forall r, In r l -> ~ In r l2) /\
  (forall r, In r l2 -> r + noff <> top) /\ (forall r, In r l -> r + noff <> top2).
