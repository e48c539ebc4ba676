(** C13, C14: timeouts. *)
From Coq Require Import ZArith List Bool Lia.
From Verif Require Import Base Time_Model.
Import ListNotations.
Open Scope Z_scope.

(** ** Specification vocabulary: instants as integers of nanoseconds *)
Definition ns (t : timespec) : Z := tv_sec t * 1000000000 + tv_nsec t.
(** a value produced by clock_gettime(CLOCK_MONOTONIC) *)
Definition clock_value (t : timespec) : Prop := 0 <= tv_sec t /\ 0 <= tv_nsec t < 1000000000.

Lemma limit_ns : forall usec, ns (limit_of_usec usec) = usec * 1000.
Proof.
  intros. unfold ns, limit_of_usec. cbn [tv_sec tv_nsec].
  pose proof (Z.quot_rem' usec (1000 * 1000)). lia.
Qed.

Lemma limit_nsec_range : forall usec, 0 <= usec -> 0 <= tv_nsec (limit_of_usec usec) < 1000000000.
Proof.
  intros. unfold limit_of_usec. cbn [tv_nsec]. pose proof (Z.rem_bound_pos usec (1000 * 1000) H ltac:(lia)). lia.
Qed.

(** what the subtraction computes: the elapsed time, minus one second whenever it borrows *)
Lemma sub_exact : forall s e, clock_value s -> clock_value e -> ns s <= ns e ->
  ns (SUB_TIMESPEC s e) = ns e - ns s - (if tv_nsec e <? tv_nsec s then 1000000000 else 0)
  /\ 0 <= tv_nsec (SUB_TIMESPEC s e) < 1000000000.
Proof.
  unfold clock_value, ns, SUB_TIMESPEC. intros s e Hs He Hle.
  destruct (Z.ltb_spec (tv_nsec e) (tv_nsec s)).
  - destruct (Z.ltb_spec (tv_sec e) 1); cbn [tv_sec tv_nsec]; lia.
  - cbn [tv_sec tv_nsec]; lia.
Qed.

Lemma over_iff : forall s e l, 0 <= tv_nsec l < 1000000000 -> 0 <= tv_nsec (SUB_TIMESPEC s e) < 1000000000 ->
  (IS_OVER_TIMESPEC s e l = true <-> ns l <= ns (SUB_TIMESPEC s e)).
Proof.
  unfold IS_OVER_TIMESPEC, ns. intros s e l Hl Hs. set (d := SUB_TIMESPEC s e) in *.
  destruct (Z.ltb_spec (tv_sec d) (tv_sec l)); [split; intros; [discriminate|lia]|].
  destruct (Z.ltb_spec (tv_sec l) (tv_sec d)); [split; intros; [lia|auto]|].
  destruct (Z.ltb_spec (tv_nsec d) (tv_nsec l)); split; intros; auto; try discriminate; lia.
Qed.

(** exact characterisation of the expiry test *)
Theorem C14_expiry_test_exact : forall s e usec, clock_value s -> clock_value e -> ns s <= ns e -> 0 <= usec ->
  (IS_OVER_TIMESPEC s e (limit_of_usec usec) = true
   <-> ns e - ns s >= usec * 1000 + (if tv_nsec e <? tv_nsec s then 1000000000 else 0)).
Proof.
  intros s e usec Hs He Hle Hu.
  destruct (sub_exact s e Hs He Hle) as [A B].
  rewrite over_iff by (auto using limit_nsec_range).
  rewrite limit_ns, A. destruct (tv_nsec e <? tv_nsec s); lia.
Qed.

(** C13: a timed operation that reports ETIMEDOUT has seen a clock value at least the requested
    time after its start. *)
Theorem C13_never_times_out_early : forall start usec obs,
  clock_value start -> 0 <= usec ->
  (forall now b, In (b, Some now) obs -> clock_value now /\ ns start <= ns now) ->
  timed_loop start (limit_of_usec usec) obs = Some ETIMEDOUT ->
  exists now, In (false, Some now) obs /\ ns now - ns start >= usec * 1000.
Proof.
  intros start usec obs Hs Hu. induction obs as [|[b t] r IH]; cbn; intros Hobs H; [discriminate|].
  destruct b; [discriminate|]. destruct t as [now|]; [|discriminate].
  destruct (IS_OVER_TIMESPEC start now (limit_of_usec usec)) eqn:E.
  - exists now. split; auto. destruct (Hobs now false (or_introl eq_refl)) as [A B].
    apply (C14_expiry_test_exact start now usec Hs A B Hu) in E.
    destruct (tv_nsec now <? tv_nsec start); lia.
  - destruct IH as (n & A & B); eauto.
Qed.

Example C13_example :
  timed_loop (mkTS 5 900000000) (limit_of_usec 150000)
    [(false, Some (mkTS 5 950000000)); (false, Some (mkTS 6 100000000)); (false, Some (mkTS 6 950000000))]
  = Some ETIMEDOUT.
Proof. vm_compute. auto. Qed.

(** A timed operation returns OK only through a successful attempt, and no result other than
    OK, ETIMEDOUT and (on a clock failure) EBUSY is possible. *)
Theorem C13_results : forall start limit obs r, timed_loop start limit obs = Some r ->
  (r = OK /\ exists c, In (true, c) obs) \/ r = ETIMEDOUT \/ (r = EBUSY /\ In (false, None) obs).
Proof.
  intros start limit obs. induction obs as [|[b t] rest IH]; cbn; intros r H; [discriminate|].
  destruct b.
  - inversion H; subst. left. split; auto. exists t. auto.
  - destruct t as [now|].
    + destruct (IS_OVER_TIMESPEC start now limit).
      * inversion H; auto.
      * apply IH in H. destruct H as [[A [c B]]|[A|[A B]]]; eauto 6.
    + inversion H; subst. auto.
Qed.

(** C14 (full statement, false): after a failed attempt, a clock value at or after the deadline
    ends the wait. *)
Definition C14_statement : Prop := forall start usec obs now,
  clock_value start -> 0 <= usec ->
  (forall t b, In (b, Some t) obs -> clock_value t /\ ns start <= ns t) ->
  In (false, Some now) obs -> ns now - ns start >= usec * 1000 ->
  timed_loop start (limit_of_usec usec) obs <> None.

(** Witness: start at 5.9s, timeout 0.1s; at 6.5s (0.6s later) the loop goes on waiting. *)
Theorem C14_notices_expiry_refuted : ~ C14_statement.
Proof.
  intro H.
  apply (H (mkTS 5 900000000) 100000 [(false, Some (mkTS 6 500000000))] (mkTS 6 500000000)).
  - unfold clock_value; cbn; lia.
  - lia.
  - intros t b [E|[]]. inversion E; subst. unfold clock_value, ns; cbn; lia.
  - cbn; auto.
  - unfold ns; cbn; lia.
  - vm_compute. reflexivity.
Qed.

(** True part: the wait ends at the latest at the first clock reading one second past the deadline. *)
Theorem C14_notices_expiry_within_one_second_partial : forall start usec obs now,
  clock_value start -> 0 <= usec ->
  (forall t b, In (b, Some t) obs -> clock_value t /\ ns start <= ns t) ->
  In (false, Some now) obs -> ns now - ns start >= usec * 1000 + 1000000000 ->
  timed_loop start (limit_of_usec usec) obs <> None.
Proof.
  intros start usec obs now Hs Hu. induction obs as [|[b t] r IH]; cbn; intros Hobs Hin Hge; [tauto|].
  destruct b; [discriminate|].
  destruct t as [u|]; [|discriminate].
  destruct (IS_OVER_TIMESPEC start u (limit_of_usec usec)) eqn:E; [discriminate|].
  destruct Hin as [Heq|Hin].
  - inversion Heq; subst. exfalso.
    destruct (Hobs now false (or_introl eq_refl)) as [A B].
    assert (IS_OVER_TIMESPEC start now (limit_of_usec usec) = true); [|congruence].
    apply (C14_expiry_test_exact start now usec Hs A B Hu).
    destruct (tv_nsec now <? tv_nsec start); lia.
  - apply IH; auto. intros; eapply Hobs; eauto.
Qed.

Example C14_example :
  timed_loop (mkTS 5 900000000) (limit_of_usec 100000)
    [(false, Some (mkTS 6 500000000)); (false, Some (mkTS 7 0))] = Some ETIMEDOUT
  /\ ns (mkTS 7 0) - ns (mkTS 5 900000000) >= 100000 * 1000 + 1000000000.
Proof. split; [vm_compute; reflexivity | unfold ns; cbn; lia]. Qed.

Print Assumptions C13_never_times_out_early.
Print Assumptions C13_results.
Print Assumptions C14_expiry_test_exact.
Print Assumptions C14_notices_expiry_refuted.
Print Assumptions C14_notices_expiry_within_one_second_partial.
