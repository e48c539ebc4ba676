(** What a correct layout of the shared file is. *)
From Coq Require Import ZArith List Bool Lia.
From Verif Require Import Base List_Model List_Spec Layout_Model.
Import ListNotations.
Open Scope Z_scope.

(** documented ranges, lib/flckshm.cc:72-89 *)
Definition permitted (c : counts) : Prop :=
  1 <= n_file c <= 2048 /\ 4 <= n_off c <= 16384 /\ 4 <= n_locker c <= 16384 /\
  1 <= n_nmtx c <= 8192 /\ 1 <= n_ncond c <= 8192 /\ 4 <= n_waiter c <= 16384.

(** the header and the six areas as (first byte, number of bytes), with mathematical sizes *)
Definition areas (c : counts) : list (Z * Z) :=
  [(0, sz_FLHEAD); (off_filelock c, sz_FLFILELOCK * n_file c); (off_offlock c, sz_FLOFFLOCK * n_off c);
   (off_locker c, sz_FLLOCKER * n_locker c); (off_nmtxlock c, sz_FLNAMEDMUTEX * n_nmtx c);
   (off_ncondlock c, sz_FLNAMEDCOND * n_ncond c); (off_waiter c, sz_FLWAITER * n_waiter c)].

Definition inside (total : Z) (a : Z * Z) : Prop := 0 <= fst a /\ fst a + snd a <= total.
Definition aligned (a : Z * Z) : Prop := fst a mod 8 = 0.
Definition disjoint (a b : Z * Z) : Prop := forall x, ~ (fst a <= x < fst a + snd a /\ fst b <= x < fst b + snd b).

Definition good_layout (c : counts) : Prop :=
  Forall (inside (sz_total c)) (areas c) /\ Forall aligned (areas c) /\
  (forall i j a b, i <> j -> nth_error (areas c) i = Some a -> nth_error (areas c) j = Some b -> disjoint a b) /\
  sz_total c mod 4096 = 0 /\ sz_total c < two63.

(** the pool whose head is [cell] holds the n entries of [size] bytes starting at [off], each once *)
Definition pool_of (m : mem) (cell off size n : Z) : Prop :=
  exists l, contents 0 m cell l /\ Z.of_nat (length l) = n /\ forall r, In r l <-> exists i, 0 <= i < n /\ r = off + i * size.
