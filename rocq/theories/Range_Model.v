(** Comparison of lock ranges. *)
From Coq Require Import ZArith List Bool Lia.
From Verif Require Import Base.
Import ListNotations.
Open Scope Z_scope.

(** lib/flcklistofflock.h:107-139 [fl_compare_list_base(PFLOFFLOCK, PFLOFFLOCK)].
    [offset] is a signed 64-bit [off_t], [length] an unsigned 64-bit [size_t]; the sums are computed
    in [size_t], i.e. modulo 2^64.  0 = "same" (overlap). *)
Definition compare_range (o1 l1 o2 l2 : Z) : Z :=
  if o1 <? o2 then
    if u64 (o2 + l2) <=? u64 (o1 + l1) then 0
    else if u64 o2 <? u64 (o1 + l1) then 0
    else 1
  else if o2 <? o1 then
    if u64 (o1 + l1) <=? u64 (o2 + l2) then 0
    else if u64 o1 <? u64 (o2 + l2) then 0
    else -1
  else 0.

(** [0 == fl_compare_list_base(..)] as used by lib/flckbaselist.tcc:664-680 [find] *)
Definition range_match (o1 l1 o2 l2 : Z) : bool := compare_range o1 l1 o2 l2 =? 0.
