(** C16, C17: the range overlap test. *)
From Coq Require Import ZArith List Bool Lia.
From Verif Require Import Base Range_Model.
Import ListNotations.
Open Scope Z_scope.

(** ** Specification: byte ranges as sets of byte positions *)
Definition in_range (x o l : Z) : Prop := o <= x < o + l.
Definition intersect (o1 l1 o2 l2 : Z) : Prop := exists x, in_range x o1 l1 /\ in_range x o2 l2.
(** a range accepted by the API types: [off_t] offset, [size_t] length *)
Definition api_range (o l : Z) : Prop := 0 <= o < two63 /\ 0 <= l < two64.
(** the range does not run past the 64-bit address space *)
Definition no_wrap (o l : Z) : Prop := o + l < two64.

Lemma intersect_arith : forall o1 l1 o2 l2, 0 < l1 -> 0 < l2 ->
  (intersect o1 l1 o2 l2 <-> o1 < o2 + l2 /\ o2 < o1 + l1).
Proof.
  intros. unfold intersect, in_range. split.
  - intros (x & A & B). lia.
  - intros. exists (Z.max o1 o2). lia.
Qed.

Lemma match_exact : forall o1 l1 o2 l2,
  api_range o1 l1 -> api_range o2 l2 -> no_wrap o1 l1 -> no_wrap o2 l2 ->
  (range_match o1 l1 o2 l2 = true <->
   (o1 = o2 \/ (o1 < o2 /\ (o2 < o1 + l1 \/ o2 + l2 <= o1 + l1)) \/ (o2 < o1 /\ (o1 < o2 + l2 \/ o1 + l1 <= o2 + l2)))).
Proof.
  unfold api_range, no_wrap, range_match, compare_range. intros o1 l1 o2 l2 H1 H2 H3 H4.
  assert (two63 < two64) by reflexivity.
  rewrite !u64_small by lia.
  destruct (Z.ltb_spec o1 o2).
  - destruct (Z.leb_spec (o2 + l2) (o1 + l1)); cbn; [split; intros; auto; lia|].
    destruct (Z.ltb_spec o2 (o1 + l1)); cbn; split; intros; auto; try discriminate; lia.
  - destruct (Z.ltb_spec o2 o1).
    + destruct (Z.leb_spec (o1 + l1) (o2 + l2)); cbn; [split; intros; auto; lia|].
      destruct (Z.ltb_spec o1 (o2 + l2)); cbn; split; intros; auto; try discriminate; lia.
    + cbn. split; intros; auto; lia.
Qed.

(** C16: for ranges of positive length inside the address space, matching is intersection. *)
Theorem C16_match_iff_intersect : forall o1 l1 o2 l2,
  api_range o1 l1 -> api_range o2 l2 -> 0 < l1 -> 0 < l2 -> no_wrap o1 l1 -> no_wrap o2 l2 ->
  (range_match o1 l1 o2 l2 = true <-> intersect o1 l1 o2 l2).
Proof.
  intros. rewrite match_exact, intersect_arith by auto. lia.
Qed.

Theorem C16_match_symmetric : forall o1 l1 o2 l2, range_match o1 l1 o2 l2 = range_match o2 l2 o1 l1.
Proof.
  intros. unfold range_match, compare_range.
  destruct (Z.ltb_spec o1 o2), (Z.ltb_spec o2 o1); try lia; auto.
  - destruct (u64 (o2 + l2) <=? u64 (o1 + l1)); auto. destruct (u64 o2 <? u64 (o1 + l1)); auto.
  - destruct (u64 (o1 + l1) <=? u64 (o2 + l2)); auto. destruct (u64 o1 <? u64 (o2 + l2)); auto.
Qed.

Theorem C16_match_reflexive : forall o l, range_match o l o l = true.
Proof. intros. unfold range_match, compare_range. rewrite Z.ltb_irrefl. reflexivity. Qed.

Example C16_example : range_match 0 10 5 10 = true /\ intersect 0 10 5 10
  /\ range_match 0 10 10 5 = false /\ range_match 10 5 0 10 = false /\ ~ intersect 0 10 10 5.
Proof.
  repeat split; try (vm_compute; reflexivity).
  - exists 5. unfold in_range; lia.
  - intros (x & A & B). unfold in_range in *; lia.
Qed.

(** Ranges of length zero contain no byte, yet they match ranges they touch: a request of length 0
    contends with a neighbouring lock. *)
Theorem C16_zero_length_refuted : exists o1 l1 o2 l2,
  api_range o1 l1 /\ api_range o2 l2 /\ no_wrap o1 l1 /\ no_wrap o2 l2 /\
  range_match o1 l1 o2 l2 = true /\ ~ intersect o1 l1 o2 l2.
Proof.
  exists 0, 10, 10, 0. unfold api_range, no_wrap, two63, two64.
  split; [|split; [|split; [|split; [|split]]]]; try lia.
  - reflexivity.
  - intros (x & A & B). unfold in_range in *; lia.
Qed.

(** C17 (full statement, false): also without the no-wrap condition. *)
Definition C17_statement : Prop := forall o1 l1 o2 l2,
  api_range o1 l1 -> api_range o2 l2 -> 0 < l1 -> 0 < l2 ->
  intersect o1 l1 o2 l2 -> range_match o1 l1 o2 l2 = true.

(** Witness: (5, SIZE_MAX) contains (100, 10) but does not conflict with it. *)
Theorem C17_wrapping_ranges_refuted : ~ C17_statement.
Proof.
  intro H. specialize (H 5 (two64 - 1) 100 10).
  assert (E : range_match 5 (two64 - 1) 100 10 = false) by (vm_compute; reflexivity).
  rewrite E in H. assert (false = true); [|discriminate]. apply H; try (unfold api_range, two63, two64; lia).
  exists 100. unfold in_range, two64; lia.
Qed.

(** True part: a wrapping request still conflicts with every request that starts at the same offset. *)
Theorem C17_same_offset_partial : forall o l1 l2, range_match o l1 o l2 = true.
Proof. intros. unfold range_match, compare_range. rewrite Z.ltb_irrefl. reflexivity. Qed.

Print Assumptions C16_match_iff_intersect.
Print Assumptions C16_match_symmetric.
Print Assumptions C16_match_reflexive.
Print Assumptions C16_zero_length_refuted.
Print Assumptions C17_wrapping_ranges_refuted.
Print Assumptions C17_same_offset_partial.
