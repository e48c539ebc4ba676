(** Common vocabulary of all models: machine words, errno values, point update of functions. *)
From Coq Require Import ZArith List Bool Lia.
Import ListNotations.
Open Scope Z_scope.

(** ** Machine words (x86-64 LP64, two's complement) *)
Definition two32 : Z := 4294967296.
Definition two63 : Z := 9223372036854775808.
Definition two64 : Z := 18446744073709551616.
Definition INT_MAX : Z := 2147483647.
Definition INT_MIN : Z := -2147483648.

(** conversion to [uint64_t] / [size_t] *)
Definition u64 (x : Z) : Z := x mod two64.
(** conversion to [int32_t] / [int] *)
Definition s32 (x : Z) : Z := let y := x mod two32 in if y <? 2147483648 then y else y - two32.
(** conversion to [int64_t] / [off_t] *)
Definition s64 (x : Z) : Z := let y := x mod two64 in if y <? two63 then y else y - two64.

Definition is_int32 (x : Z) : Prop := INT_MIN <= x <= INT_MAX.
Definition is_u64 (x : Z) : Prop := 0 <= x < two64.
Definition is_s64 (x : Z) : Prop := - two63 <= x < two63.

(** ** errno values (Linux) returned by the API *)
Definition OK : Z := 0.
Definition EPERM : Z := 1.
Definition EAGAIN : Z := 11.
Definition EWOULDBLOCK : Z := 11.
Definition ENOMEM : Z := 12.
Definition EBUSY : Z := 16.
Definition EINVAL : Z := 22.
Definition ENOLCK : Z := 37.
Definition ETIMEDOUT : Z := 110.

(** ** Point update of total functions (memories, thread tables) *)
Definition upd {B : Type} (f : Z -> B) (k : Z) (v : B) : Z -> B :=
  fun x => if x =? k then v else f x.

Lemma upd_eq : forall B (f : Z -> B) k v, upd f k v k = v.
Proof. intros; unfold upd; now rewrite Z.eqb_refl. Qed.

Lemma upd_neq : forall B (f : Z -> B) k v x, x <> k -> upd f k v x = f x.
Proof. intros; unfold upd. destruct (Z.eqb_spec x k); congruence. Qed.

Lemma upd_cases : forall B (f : Z -> B) k v x,
  (x = k /\ upd f k v x = v) \/ (x <> k /\ upd f k v x = f x).
Proof.
  intros. destruct (Z.eq_dec x k) as [->|H]; [left | right]; split; auto.
  - apply upd_eq.
  - now apply upd_neq.
Qed.

(** compare-and-swap as a pure function: new content and returned old content
    ([__sync_val_compare_and_swap]) *)
Definition cas (cur expected new : Z) : Z * Z :=
  if cur =? expected then (new, cur) else (cur, cur).

Lemma u64_small : forall x, 0 <= x < two64 -> u64 x = x.
Proof. intros. unfold u64. now apply Z.mod_small. Qed.
