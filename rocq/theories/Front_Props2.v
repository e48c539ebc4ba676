(** C165: calls with the same arguments mean the same mutex, condition or range, whichever functions they are. *)
From Coq Require Import ZArith List Bool Lia.
From Verif Require Import Base Name_Model Name_Proofs Time_Model Time_Props Front_Model Front_Props.
Import ListNotations.
Open Scope Z_scope.

(** what the program names in a call *)
Definition says_mutex (a : api) : option cname :=
  match a with
  | fullock_mutex_lock n | fullock_mutex_trylock n | fullock_mutex_timedlock n _ | fullock_mutex_unlock n | fullock_cond_wait _ n | fullock_cond_timedwait _ n _ => Some n
  | _ => None
  end.
Definition says_cond (a : api) : option cname :=
  match a with fullock_cond_wait n _ | fullock_cond_timedwait n _ _ | fullock_cond_signal n | fullock_cond_broadcast n => Some n | _ => None end.
Definition says_range (a : api) : option (Z * Z * Z) :=
  match a with
  | fullock_rwlock_rdlock f o l | fullock_rwlock_tryrdlock f o l | fullock_rwlock_timedrdlock f o l _ | fullock_rwlock_wrlock f o l
  | fullock_rwlock_trywrlock f o l | fullock_rwlock_timedwrlock f o l _ | fullock_rwlock_unlock f o l => Some (f, o, l)
  | _ => None
  end.
(** what the shared memory is asked about *)
Definition about_mutex (q : request) : option nameent := match q with QMutexLock k _ | QMutexUnlock k | QWait _ k _ => Some k | _ => None end.
Definition about_cond (q : request) : option nameent := match q with QWait k _ _ | QUp k _ => Some k | _ => None end.
Definition about_range (q : request) : option (Z * Z * Z) := match q with QRwLock _ f o l _ | QRwUnlock f o l => Some (f, o, l) | _ => None end.

(** Two calls are about the same mutex exactly if they name it with the same first 63 bytes; a name that only one of them takes for a mutex never matters. *)
Theorem C165_mutex : forall x y a b n m q r, says_mutex a = Some (Some n) -> says_mutex b = Some (Some m) -> is_cstring n -> is_cstring m ->
  front true x a = inr q -> front true y b = inr r ->
  exists k j, about_mutex q = Some k /\ about_mutex r = Some j /\ (compare_name k j = 0 <-> firstn 63 n = firstn 63 m).
Proof.
  intros x y a b n m q r A B N M Q R.
  assert (F : forall z c i p, says_mutex c = Some (Some i) -> front true z c = inr p -> about_mutex p = Some (key_of i)).
  { intros z c i p C P. destruct c; cbn in C; inversion C; subst; cbn in P; try (inversion P; reflexivity); unfold raw_cond in P;
      match type of P with match ?k with Some _ => _ | None => _ end = _ => destruct k; inversion P; reflexivity end. }
  exists (key_of n), (key_of m). split; [eapply F; eauto|]. split; [eapply F; eauto|]. apply compare_name_zero; auto.
Qed.
Theorem C165_cond : forall x y a b n m q r, says_cond a = Some (Some n) -> says_cond b = Some (Some m) -> is_cstring n -> is_cstring m ->
  front true x a = inr q -> front true y b = inr r ->
  exists k j, about_cond q = Some k /\ about_cond r = Some j /\ (compare_name k j = 0 <-> firstn 63 n = firstn 63 m).
Proof.
  intros x y a b n m q r A B N M Q R.
  assert (F : forall z c i p, says_cond c = Some (Some i) -> front true z c = inr p -> about_cond p = Some (key_of i)).
  { intros z c i p C P. destruct c; cbn in C; inversion C; subst; cbn in P; inversion P; reflexivity. }
  exists (key_of n), (key_of m). split; [eapply F; eauto|]. split; [eapply F; eauto|]. apply compare_name_zero; auto.
Qed.
Theorem C165_range : forall x y a b q r, says_range a <> None -> says_range b <> None -> front true x a = inr q -> front true y b = inr r ->
  about_range q <> None /\ (about_range q = about_range r <-> says_range a = says_range b).
Proof.
  intros x y a b q r A B Q R.
  assert (F : forall z c p, says_range c <> None -> front true z c = inr p -> about_range p = says_range c).
  { intros z c p C P. destruct c; cbn in C; try congruence; cbn in P; inversion P; reflexivity. }
  rewrite (F _ _ _ A Q), (F _ _ _ B R). split; [auto | tauto].
Qed.
(** What a call does not name it is not about. *)
Theorem C165_nothing_else : forall x a q, front true x a = inr q ->
  (says_mutex a = None -> about_mutex q = None) /\ (says_cond a = None -> about_cond q = None) /\ (says_range a = None -> about_range q = None).
Proof.
  intros x a q H. destruct a; cbn in *; unfold raw_mutex, raw_cond in H; try match type of H with match ?k with Some _ => _ | None => _ end = _ => destruct k end;
    inversion H; subst; repeat split; intro N; try reflexivity; discriminate.
Qed.
(** Waits: a call with a limit returns when the limit is over (as C126 for the loops), one without returns only with the signal and the mutex; only broadcast wakes all. *)
Theorem C165_waits : forall x a q, front true x a = inr q ->
  match a with
  | fullock_cond_timedwait _ _ usec => exists c m v, q = QWait c m v /\ (usec <> -1 -> forall start obs start2 obs2,
      clock_value start -> after start obs -> seen_late start (asked usec + grace) obs ->
      clock_value start2 -> after start2 obs2 -> seen_late start2 (asked usec + grace) obs2 -> wait_run v (Some start) obs (Some start2) obs2 <> None)
  | fullock_cond_wait _ _ => exists c m v, q = QWait c m v /\ forall start obs start2 obs2 e, wait_run v start obs start2 obs2 = Some e ->
      e = OK /\ (exists u, In (true, u) obs) /\ (exists u, In (true, u) obs2)
  | fullock_cond_signal _ | fullock_cond_broadcast _ => exists c b, q = QUp c b /\ (b = true <-> exists n, a = fullock_cond_broadcast n)
  | _ => True
  end.
Proof.
  intros x a q H. destruct a; cbn in H; auto; unfold raw_cond in H; destruct c as [s|]; try discriminate H; inversion H; subst.
  - exists (key_of s), (key_of_ptr m), FLCK_NO_TIMEOUT. split; auto. intros start obs start2 obs2 e W.
    assert (E : e = OK); [|subst e; split; auto; apply (C127_wait_success_is_true FLCK_NO_TIMEOUT start obs start2 obs2 W)].
    unfold wait_run, lock_run in W. cbn [Z.eqb FLCK_NO_TIMEOUT Pos.eqb] in W.
    assert (B : forall l z, block_loop l = Some z -> z = OK) by (clear; induction l as [|[[] u] l IH]; cbn; intros z E; [discriminate | congruence | auto]).
    destruct (block_loop obs) as [r1|] eqn:B1; [|discriminate]. destruct (block_loop obs2) as [r2|] eqn:B2; [|discriminate].
    rewrite (B _ _ B1), (B _ _ B2) in W. cbn in W. congruence.
  - exists (key_of s), (key_of_ptr m), usec. split; auto. intros N start obs start2 obs2 ? ? ? ? ? ?. apply C126_timed_wait_returns_partial; auto.
  - exists (key_of s), false. split; auto. split; [discriminate | intros [n X]; discriminate X].
  - exists (key_of s), true. split; auto. split; [eauto | auto].
Qed.

(** names that agree in their first 63 bytes, in a lock, an unlock and a wait *)
Example C165_case :
  says_mutex (fullock_mutex_timedlock (Some (repeat 65 63 ++ [66])) 5) = Some (Some (repeat 65 63 ++ [66])) /\
  (exists q r k j, front true true (fullock_mutex_timedlock (Some (repeat 65 63 ++ [66])) 5) = inr q /\
     front true false (fullock_cond_wait (Some [67]) (Some (repeat 65 63))) = inr r /\ about_mutex q = Some k /\ about_mutex r = Some j /\ compare_name k j = 0) /\
  is_cstring (repeat 65 63 ++ [66]) /\
  (exists q r, front true true (fullock_rwlock_trywrlock 3 0 8) = inr q /\ front true true (fullock_rwlock_unlock 3 0 8) = inr r /\ about_range q = about_range r).
Proof.
  split; [reflexivity|]. split; [do 4 eexists; repeat split; vm_compute; reflexivity|]. split; [unfold is_cstring; cbn; repeat constructor; lia|].
  do 2 eexists. repeat split; reflexivity.
Qed.

Print Assumptions C165_mutex.
Print Assumptions C165_cond.
Print Assumptions C165_range.
Print Assumptions C165_nothing_else.
Print Assumptions C165_waits.

(** C52 for the functions themselves: without a mapping each of them, its name being given, asks nothing of the shared memory and returns 0 in the modes that
    allow and a failure in those that deny. *)
Theorem C52_functions : forall allow a, main_name a <> Some None ->
  exists e, front false allow a = inl e /\ (allow = true -> e = 0) /\ (allow = false -> e <> 0 /\ e = ENOLCK).
Proof.
  intros allow a H. exists (if allow then 0 else ENOLCK). split.
  - destruct a; cbn in *; try (destruct n as [s|]; [|contradiction H; reflexivity]); try (destruct c as [s|]; [|contradiction H; reflexivity]); reflexivity.
  - split; intros ->; [reflexivity|]. split; [discriminate|reflexivity].
Qed.
Example C52_functions_case : front false false (fullock_mutex_lock (Some [65])) = inl ENOLCK /\ front false true (fullock_cond_signal (Some [65])) = inl 0 /\
  front false true (fullock_cond_signal None) = inl EINVAL.
Proof. repeat split. Qed.
Print Assumptions C52_functions.
