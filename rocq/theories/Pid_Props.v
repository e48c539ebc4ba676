(** C01, C02: owner identities. *)
From Coq Require Import ZArith List Bool Lia.
From Verif Require Import Base Pid_Model Pid_Proofs.
Import ListNotations.
Open Scope Z_scope.

(** C01. The recorded identity determines process and thread id, for every pair of 32-bit ids. *)
Theorem C01_identity_roundtrip : forall pid tid, is_int32 pid -> is_int32 tid ->
  decompose_pid (compose_flckpid pid tid) = pid /\ decompose_tid (compose_flckpid pid tid) = tid.
Proof. intros; split; [now apply decompose_pid_compose | now apply decompose_tid_compose]. Qed.

Theorem C01_identity_injective : forall pid1 tid1 pid2 tid2,
  is_int32 pid1 -> is_int32 tid1 -> is_int32 pid2 -> is_int32 tid2 ->
  compose_flckpid pid1 tid1 = compose_flckpid pid2 tid2 -> pid1 = pid2 /\ tid1 = tid2.
Proof.
  intros p1 t1 p2 t2 H1 H2 H3 H4 E.
  pose proof (C01_identity_roundtrip _ _ H1 H2). pose proof (C01_identity_roundtrip _ _ H3 H4).
  rewrite E in *. intuition congruence.
Qed.

Theorem C01_identity_never_free : forall pid tid,
  is_int32 pid -> is_int32 tid -> pid <> 0 -> compose_flckpid pid tid <> 0 /\ is_u64 (compose_flckpid pid tid).
Proof. intros; split; [apply compose_nonzero; auto | apply compose_range]. Qed.

Example C01_example : compose_flckpid 4242 4243 = 4242 * 2 ^ 32 + 4243
  /\ decompose_pid (compose_flckpid (-1) 7) = -1 /\ decompose_tid (compose_flckpid 5 (-2)) = -2.
Proof. vm_compute. auto. Qed.

(** C02 (full statement, false): every thread of a system, after any history of library calls and
    forks, locks under an identity that /proc knows as running. *)
Definition C02_statement : Prop := forall sys h t,
  (forall u, In u sys -> t_cache u = 0 /\ is_int32 (t_pid u) /\ is_int32 (t_tid u)) ->
  In t (pid_run sys h) -> is_int32 (t_pid t) -> is_int32 (t_tid t) ->
  let id := fst (get_flckpid t) in
  FindThreadProcess (proc_of (pid_run sys h)) (decompose_pid id) (decompose_tid id) = true.

(** Witness: process 100 locks once, then forks process 200. The child locks as (200,100); that
    thread does not exist, so every recovery treats the running child as dead. *)
Theorem C02_forked_child_identity_refuted : ~ C02_statement.
Proof.
  intro H.
  specialize (H [mkT 100 100 0] [EvQuery 0; EvFork 0 200] (mkT 200 200 100)).
  cbn in H. assert (false = true); [|discriminate].
  apply H; auto; try (unfold is_int32, INT_MIN, INT_MAX; lia).
  intros u [<-|[]]. cbn. unfold is_int32, INT_MIN, INT_MAX; lia.
Qed.

(** Strongest true part: if threads fork only before their own first library call, every thread's
    identity is that of the running thread itself. *)
Theorem C02_forked_child_identity_partial : forall sys h t,
  (forall u, In u sys -> t_cache u = 0) ->
  fork_before_use sys h ->
  In t (pid_run sys h) -> is_int32 (t_pid t) -> is_int32 (t_tid t) ->
  let id := fst (get_flckpid t) in
  decompose_pid id = t_pid t /\ decompose_tid id = t_tid t /\
  FindThreadProcess (proc_of (pid_run sys h)) (decompose_pid id) (decompose_tid id) = true.
Proof.
  intros sys h t H0 Hf Hin Hp Ht id.
  assert (Hn : names_itself t).
  { eapply pid_run_ok; eauto. intros u Hu. apply names_itself_iff. left; auto. }
  assert (E : id = compose_flckpid (t_pid t) (t_tid t)).
  { subst id. unfold get_flckpid. unfold names_itself in Hn. destruct (get_threadid t); cbn in *; congruence. }
  split; [|split]; [rewrite E; now apply decompose_pid_compose | rewrite E; now apply decompose_tid_compose |].
  now apply names_itself_found.
Qed.

Example C02_example : fork_before_use [mkT 100 100 0] [EvFork 0 200; EvQuery 1; EvQuery 0]
  /\ In (mkT 200 200 200) (pid_run [mkT 100 100 0] [EvFork 0 200; EvQuery 1; EvQuery 0]).
Proof.
  split.
  - cbn. repeat split; intros i np E; inversion E; subst. intros (t & A & B). cbn in *. inversion A; subst. now apply B.
  - vm_compute. auto.
Qed.

Print Assumptions C01_identity_roundtrip.
Print Assumptions C01_identity_injective.
Print Assumptions C01_identity_never_free.
Print Assumptions C02_forked_child_identity_refuted.
Print Assumptions C02_forked_child_identity_partial.
