(** C126-C128: timed calls with any timeout, and calls with null names. *)
From Coq Require Import ZArith List Bool Lia.
From Verif Require Import Base Name_Model Name_Proofs Time_Model Time_Props Front_Model.
Import ListNotations.
Open Scope Z_scope.

(** ** C126: a timed call returns when its time is over *)
(** readings of a clock that does not go back *)
Definition after (start : timespec) (obs : list turn) : Prop := forall now b, In (b, Some now) obs -> clock_value now /\ ns start <= ns now.
(** a failed attempt after which the clock showed that [d] nanoseconds have passed *)
Definition seen_late (start : timespec) (d : Z) (obs : list turn) : Prop := exists now, In (false, Some now) obs /\ ns now - ns start >= d.
(** the time asked for, in nanoseconds; one second more for the coarse comparison (C14) *)
Definition asked (usec : Z) : Z := Z.max 0 usec * 1000.
Definition grace : Z := 1000000000.

(** the full property, for locks *)
Definition C126_statement : Prop := forall usec start obs, clock_value start -> after start obs ->
  seen_late start (asked usec + grace) obs -> lock_run usec (Some start) obs <> None.

Lemma over_late : forall s e usec, clock_value s -> clock_value e -> ns s <= ns e -> ns e - ns s >= asked usec + grace ->
  IS_OVER_TIMESPEC s e (limit_of_usec usec) = true.
Proof.
  intros s e usec Cs Ce L D. destruct (Z_le_gt_dec 0 usec) as [P|N].
  - apply C14_expiry_test_exact; auto. unfold asked, grace in D. destruct (tv_nsec e <? tv_nsec s); lia.
  - destruct (sub_exact s e Cs Ce L) as [A B]. unfold asked, grace in D. rewrite Z.max_l in D by lia.
    assert (P : 0 <= tv_sec (SUB_TIMESPEC s e)).
    { unfold ns in A at 1. unfold ns in D. destruct (tv_nsec e <? tv_nsec s); unfold ns in *; lia. }
    unfold IS_OVER_TIMESPEC. cbn [limit_of_usec tv_sec tv_nsec].
    assert (Q : Z.quot usec (1000 * 1000) <= 0) by (apply Z.quot_le_upper_bound; lia).
    assert (R : Z.rem usec (1000 * 1000) <= 0) by (apply Z.rem_nonpos; lia).
    destruct (Z.ltb_spec (tv_sec (SUB_TIMESPEC s e)) (Z.quot usec (1000 * 1000))); [lia|].
    destruct (Z.quot usec (1000 * 1000) <? tv_sec (SUB_TIMESPEC s e)); auto.
    destruct (Z.ltb_spec (tv_nsec (SUB_TIMESPEC s e)) (Z.rem usec (1000 * 1000) * 1000)); auto; lia.
Qed.
Lemma timed_returns : forall usec start obs, clock_value start -> after start obs -> seen_late start (asked usec + grace) obs ->
  timed (Some start) usec obs <> None.
Proof.
  intros usec start obs Cs A (now & I & D). cbn [timed]. induction obs as [|[b c] obs IH]; [destruct I|]. cbn [timed_loop].
  destruct b; [discriminate|]. destruct c as [c|]; [|discriminate].
  destruct (IS_OVER_TIMESPEC start c (limit_of_usec usec)) eqn:E; [discriminate|]. destruct I as [I|I].
  - exfalso. inversion I; subst. destruct (A now false (or_introl eq_refl)) as [Cn L]. rewrite (over_late start now usec Cs Cn L D) in E. discriminate.
  - apply IH; auto. intros x y J. apply (A x y). right. exact J.
Qed.

(** -1 means no timeout *)
Theorem C126_timed_call_returns_refuted : ~ C126_statement.
Proof.
  intro H. apply (H (-1) (mkTS 5 0) [(false, Some (mkTS 5000 0))]); try reflexivity.
  - unfold clock_value; cbn; lia.
  - intros now b [E|[]]. inversion E; subst. unfold clock_value, ns; cbn; lia.
  - exists (mkTS 5000 0). split; [left; reflexivity|]. vm_compute. discriminate.
Qed.
(** with -1 a timed call waits for ever when nobody unlocks *)
Theorem C126_minus_one_waits : forall start obs, (forall b c, In (b, c) obs -> b = false) -> lock_run (-1) start obs = None.
Proof.
  intros start obs H. unfold lock_run. cbn [Z.eqb FLCK_NO_TIMEOUT Pos.eqb]. induction obs as [|[b c] obs IH]; auto.
  cbn [block_loop]. rewrite (H b c (or_introl eq_refl)). apply IH. intros b' c' I. apply (H b' c'). right. exact I.
Qed.
(** every other timeout, negative ones too *)
Theorem C126_timed_lock_returns_partial : forall usec start obs, usec <> -1 -> clock_value start -> after start obs ->
  seen_late start (asked usec + grace) obs -> lock_run usec (Some start) obs <> None.
Proof.
  intros usec start obs N Cs A S. unfold lock_run. destruct (Z.eqb_spec usec FLCK_NO_TIMEOUT) as [E|_]; [contradiction|].
  destruct (Z.eqb_spec usec FLCK_TRY_TIMEOUT) as [->|_].
  - destruct S as (now & I & _). destruct obs as [|[[] c] obs]; [destruct I | discriminate | discriminate].
  - apply timed_returns; auto.
Qed.
Theorem C126_timed_wait_returns_partial : forall usec start obs start2 obs2, usec <> -1 ->
  clock_value start -> after start obs -> seen_late start (asked usec + grace) obs ->
  clock_value start2 -> after start2 obs2 -> seen_late start2 (asked usec + grace) obs2 ->
  wait_run usec (Some start) obs (Some start2) obs2 <> None.
Proof.
  intros usec start obs start2 obs2 N Cs A S Cs2 A2 S2. unfold wait_run.
  destruct (Z.eqb_spec usec FLCK_NO_TIMEOUT) as [E|_]; [contradiction|].
  destruct (timed (Some start) usec obs) eqn:E; [|exfalso; exact (timed_returns usec start obs Cs A S E)].
  pose proof (C126_timed_lock_returns_partial usec start2 obs2 N Cs2 A2 S2) as R. destruct (lock_run usec (Some start2) obs2); [discriminate | contradiction].
Qed.
(** the time of a wait: until the signal or its end, and then the mutex may take as long again *)
Definition wait_in_time : Prop := forall usec start obs start2 obs2, 0 < usec ->
  clock_value start -> after start obs -> after start obs2 -> clock_value start2 -> ns start <= ns start2 -> after start2 obs2 ->
  seen_late start (asked usec + grace) obs2 -> wait_run usec (Some start) obs (Some start2) obs2 <> None.
Theorem C126_timed_wait_in_time_refuted : ~ wait_in_time.
Proof.
  intro H. apply (H 5000000 (mkTS 100 0) [(false, Some (mkTS 105 0))] (mkTS 105 0) [(false, Some (mkTS 107 0)); (false, Some (mkTS 109 0))]); try reflexivity.
  - unfold clock_value; cbn; lia.
  - intros now b [E|[]]. inversion E; subst. unfold clock_value, ns; cbn; lia.
  - intros now b [E|[E|[]]]; inversion E; subst; unfold clock_value, ns; cbn; lia.
  - unfold clock_value; cbn; lia.
  - unfold ns; cbn; lia.
  - intros now b [E|[E|[]]]; inversion E; subst; unfold clock_value, ns; cbn; lia.
  - exists (mkTS 109 0). split; [right; left; reflexivity|]. vm_compute. discriminate.
Qed.
Example C126_case : after (mkTS 5 900000000) [(false, Some (mkTS 6 500000000)); (false, Some (mkTS 8 0))] /\
  seen_late (mkTS 5 900000000) (asked 100000 + grace) [(false, Some (mkTS 6 500000000)); (false, Some (mkTS 8 0))] /\
  lock_run 100000 (Some (mkTS 5 900000000)) [(false, Some (mkTS 6 500000000)); (false, Some (mkTS 8 0))] = Some ETIMEDOUT /\
  lock_run (-7) (Some (mkTS 5 900000000)) [(false, Some (mkTS 6 500000000)); (false, Some (mkTS 8 0))] = Some ETIMEDOUT.
Proof.
  repeat split; try reflexivity.
  1-4: destruct H as [E|[E|[]]]; inversion E; subst; unfold ns; cbn; lia.
  exists (mkTS 8 0). split; [right; left; reflexivity|]. vm_compute. discriminate.
Qed.

(** the three families of lock calls: how each of them waits *)
Inductive manner := Blocking | Trying | Timed (usec : Z).
Definition manner_of (a : api) : option manner :=
  match a with
  | fullock_mutex_lock _ | fullock_rwlock_rdlock _ _ _ | fullock_rwlock_wrlock _ _ _ => Some Blocking
  | fullock_mutex_trylock _ | fullock_rwlock_tryrdlock _ _ _ | fullock_rwlock_trywrlock _ _ _ => Some Trying
  | fullock_mutex_timedlock _ v | fullock_rwlock_timedrdlock _ _ _ v | fullock_rwlock_timedwrlock _ _ _ v => Some (Timed v)
  | _ => None
  end.
(** the run of a request *)
Definition runs (q : request) (start : option timespec) (obs : list turn) : option (option Z) :=
  match q with QMutexLock _ v | QRwLock _ _ _ _ v => Some (lock_run v start obs) | _ => None end.
(** blocking calls wait for success and nothing else, trying calls look once, timed calls with a positive time look until it is over *)
Theorem C126_manner_of_calls : forall allow a m q, manner_of a = Some m -> front true allow a = inr q ->
  forall start obs, exists r, runs q start obs = Some r /\
  match m with
  | Blocking => (r = Some OK /\ exists c, In (true, c) obs) \/ (r = None /\ forall c, ~ In (true, c) obs)
  | Trying => match obs with [] => r = None | (b, _) :: _ => r = Some (if b : bool then OK else EBUSY) end
  | Timed v => 0 < v -> forall s, start = Some s -> r = timed_loop s (limit_of_usec v) obs
  end.
Proof.
  assert (B : forall start obs, (lock_run (-1) start obs = Some OK /\ exists c, In (true, c) obs) \/ (lock_run (-1) start obs = None /\ forall c, ~ In (true, c) obs)).
  { intros start obs. unfold lock_run. cbn [Z.eqb FLCK_NO_TIMEOUT Pos.eqb]. induction obs as [|[[] c] obs IH]; cbn [block_loop].
    - right. split; [reflexivity|]. intros c I. exact I.
    - left. split; [reflexivity|]. exists c. left. reflexivity.
    - destruct IH as [[E [x I]]|[E N]]; [left; split; auto; exists x; right; exact I|]. right. split; auto. intros x [J|J]; [discriminate J | exact (N x J)]. }
  assert (T : forall start obs, match obs with [] => lock_run 0 start obs = None | (b, _) :: _ => lock_run 0 start obs = Some (if b : bool then OK else EBUSY) end).
  { intros start [|[[] c] obs]; reflexivity. }
  assert (D : forall v start obs s, 0 < v -> start = Some s -> lock_run v start obs = timed_loop s (limit_of_usec v) obs).
  { intros v start obs s P ->. unfold lock_run. destruct (Z.eqb_spec v FLCK_NO_TIMEOUT) as [->|_]; [discriminate P|].
    destruct (Z.eqb_spec v FLCK_TRY_TIMEOUT) as [->|_]; [discriminate P | reflexivity]. }
  intros allow a m q M F start obs.
  destruct a; cbn in M; inversion M; subst; clear M; cbn in F; try (destruct n as [s|]; [|discriminate F]); inversion F; subst; cbn [runs]; eexists; (split; [reflexivity|]).
  all: first [apply B | apply (T start obs) | intros P s0 E; apply D; auto].
Qed.
(** read calls ask for read locks and write calls for write locks, of the range given *)
Definition range_of (a : api) : option (rwkind * (Z * Z * Z)) :=
  match a with
  | fullock_rwlock_rdlock f o l | fullock_rwlock_tryrdlock f o l | fullock_rwlock_timedrdlock f o l _ => Some (KRead, (f, o, l))
  | fullock_rwlock_wrlock f o l | fullock_rwlock_trywrlock f o l | fullock_rwlock_timedwrlock f o l _ => Some (KWrite, (f, o, l))
  | _ => None
  end.
Theorem C126_range_of_calls : forall allow a k f o l, range_of a = Some (k, (f, o, l)) -> exists v, front true allow a = inr (QRwLock k f o l v).
Proof. intros allow a k f o l H. destruct a; cbn in H; inversion H; subst; eexists; reflexivity. Qed.
Example C126_manner_case : exists q, front true false (fullock_rwlock_trywrlock 3 0 8) = inr q /\ runs q None [(false, None)] = Some (Some EBUSY) /\
  manner_of (fullock_rwlock_trywrlock 3 0 8) = Some Trying.
Proof. eexists. split; [reflexivity|]. split; reflexivity. Qed.

(** ** C127: a lock call that could not have the lock in time says ETIMEDOUT *)
Definition C127_statement : Prop := forall usec start obs e, clock_value start -> after start obs ->
  (forall b, ~ In (b, None) obs) -> usec <> -1 -> lock_run usec (Some start) obs = Some e -> e = OK \/ e = ETIMEDOUT.
Theorem C127_timeout_reported_refuted : ~ C127_statement.
Proof.
  intro H. destruct (H 0 (mkTS 5 0) [(false, Some (mkTS 5 1))] EBUSY) as [E|E]; try discriminate E; try reflexivity; try lia.
  - unfold clock_value; cbn; lia.
  - intros now b [E|[]]. inversion E; subst. unfold clock_value, ns; cbn; lia.
  - intros b [E|[]]. discriminate E.
Qed.
Theorem C127_timeout_reported_partial : forall usec start obs e, usec <> 0 -> (forall b, ~ In (b, None) obs) ->
  lock_run usec (Some start) obs = Some e -> (e = OK /\ exists c, In (true, c) obs) \/ (e = ETIMEDOUT /\ usec <> -1).
Proof.
  intros usec start obs e N C H. unfold lock_run in H. destruct (Z.eqb_spec usec FLCK_NO_TIMEOUT) as [->|N1].
  - left. clear C N. induction obs as [|[[] c] obs IH]; [discriminate | |].
    + inversion H; subst. split; auto. exists c. left. reflexivity.
    + destruct (IH H) as [A [x I]]. split; auto. exists x. right. exact I.
  - destruct (Z.eqb_spec usec FLCK_TRY_TIMEOUT) as [->|N0]; [contradiction|]. cbn [timed] in H.
    destruct (C13_results start (limit_of_usec usec) obs e H) as [A|[A|[_ A]]]; auto. destruct (C _ A).
Qed.
(** success means that an attempt succeeded; a failed clock is reported as EBUSY *)
Theorem C127_success_is_true : forall usec start obs, lock_run usec start obs = Some OK -> exists c, In (true, c) obs.
Proof.
  intros usec start obs H. unfold lock_run in H. destruct (usec =? FLCK_NO_TIMEOUT); [|destruct (usec =? FLCK_TRY_TIMEOUT)].
  - induction obs as [|[[] c] obs IH]; [discriminate | exists c; left; reflexivity |]. destruct (IH H) as [x I]. exists x. right. exact I.
  - destruct obs as [|[[] c] obs]; [discriminate | exists c; left; reflexivity | discriminate].
  - destruct start as [s|]; [|discriminate]. destruct (C13_results s (limit_of_usec usec) obs OK H) as [[_ A]|[A|[A _]]]; auto; discriminate.
Qed.
Theorem C127_clock_failure : forall usec obs, usec <> -1 -> usec <> 0 -> lock_run usec None obs = Some EBUSY.
Proof.
  intros usec obs A B. unfold lock_run. destruct (Z.eqb_spec usec FLCK_NO_TIMEOUT); [contradiction|].
  destruct (Z.eqb_spec usec FLCK_TRY_TIMEOUT); [contradiction | reflexivity].
Qed.
(** a wait that answers 0 was signalled and has the mutex again *)
Theorem C127_wait_success_is_true : forall usec start obs start2 obs2, wait_run usec start obs start2 obs2 = Some OK ->
  (exists c, In (true, c) obs) /\ (exists c, In (true, c) obs2).
Proof.
  intros usec start obs start2 obs2 H. unfold wait_run in H.
  destruct (if usec =? FLCK_NO_TIMEOUT then block_loop obs else timed start usec obs) as [r|] eqn:E; [|discriminate].
  destruct (lock_run usec start2 obs2) as [e|] eqn:E2; [|discriminate].
  assert (R : r = OK /\ e = OK).
  { inversion H as [H']. destruct (Z.eqb_spec e 0) as [->|Ne]; [split; auto|]. destruct (Z.eqb_spec r 0) as [->|Nr]; unfold OK in *; [congruence | congruence]. }
  destruct R as [-> ->]. split; [|apply (C127_success_is_true usec start2); exact E2].
  destruct (usec =? FLCK_NO_TIMEOUT).
  - clear - E. induction obs as [|[[] c] obs IH]; [discriminate | exists c; left; reflexivity |]. destruct (IH E) as [x I]. exists x. right. exact I.
  - destruct start as [s|]; [|discriminate]. destruct (C13_results s (limit_of_usec usec) obs OK E) as [[_ A]|[A|[A _]]]; auto; discriminate.
Qed.
(** but a wait that answers ETIMEDOUT may or may not have the mutex *)
Theorem C127_timed_out_wait_has_mutex_refuted :
  ~ (forall usec start obs start2 obs2, wait_run usec start obs start2 obs2 = Some ETIMEDOUT -> exists c, In (true, c) obs2).
Proof.
  intro H. destruct (H 10 (Some (mkTS 1 0)) [(false, Some (mkTS 2 0))] (Some (mkTS 2 0)) [(false, Some (mkTS 3 0))] eq_refl) as [c [E|[]]]. discriminate E.
Qed.
Example C127_wait_case : wait_run 10 (Some (mkTS 1 0)) [(false, Some (mkTS 1 5)); (true, None)] (Some (mkTS 2 0)) [(true, None)] = Some OK.
Proof. reflexivity. Qed.
Example C127_case : lock_run 3 (Some (mkTS 5 0)) [(false, Some (mkTS 5 1)); (true, None)] = Some OK /\
  lock_run 3 (Some (mkTS 5 0)) [(false, Some (mkTS 5 1)); (false, Some (mkTS 5 3000))] = Some ETIMEDOUT.
Proof. split; reflexivity. Qed.

(** ** C128: a call with a null pointer for a name is refused *)
Definition has_null (a : api) : Prop :=
  match a with
  | fullock_mutex_lock n | fullock_mutex_trylock n | fullock_mutex_timedlock n _ | fullock_mutex_unlock n => n = None
  | fullock_cond_wait c m | fullock_cond_timedwait c m _ => c = None \/ m = None
  | fullock_cond_signal c | fullock_cond_broadcast c => c = None
  | _ => False
  end.
Definition C128_statement : Prop := forall attached allow a, has_null a -> front attached allow a = inl EINVAL.
Theorem C128_null_refused_refuted : ~ C128_statement.
Proof. intro H. specialize (H true false (fullock_cond_wait (Some [65]) None) (or_intror eq_refl)). vm_compute in H. discriminate H. Qed.
(** names of mutexes in mutex calls and names of conditions; refused even without mapping, whatever the mode *)
Definition main_name (a : api) : option cname :=
  match a with
  | fullock_mutex_lock n | fullock_mutex_trylock n | fullock_mutex_timedlock n _ | fullock_mutex_unlock n => Some n
  | fullock_cond_wait c _ | fullock_cond_timedwait c _ _ | fullock_cond_signal c | fullock_cond_broadcast c => Some c
  | _ => None
  end.
Theorem C128_null_refused_partial : forall attached allow a, main_name a = Some None -> front attached allow a = inl EINVAL.
Proof. intros attached allow a H. destruct a; cbn in H; inversion H; subst; reflexivity. Qed.
(** and nothing else is refused here *)
Theorem C128_others_go_on : forall allow a, main_name a <> Some None -> exists q, front true allow a = inr q.
Proof. intros allow a H. destruct a; cbn in *; try (destruct n as [s|]; [|contradiction H; reflexivity]); try (destruct c as [s|]; [|contradiction H; reflexivity]); eexists; reflexivity. Qed.
(** a wait with the null pointer for the mutex is a wait with the mutex named by the empty string *)
Theorem C128_null_mutex_is_empty_name : forall attached allow c usec,
  front attached allow (fullock_cond_timedwait c None usec) = front attached allow (fullock_cond_timedwait c (Some []) usec) /\
  front attached allow (fullock_cond_wait c None) = front attached allow (fullock_cond_wait c (Some [])).
Proof. intros. split; reflexivity. Qed.
(** which can be locked, so that the wait goes on with a mutex nobody named *)
Theorem C128_null_mutex_found : forall M m0 (g : registry M) (lockop f : M -> M * Z) g' e,
  reg_lock M m0 g [] lockop = (g', e) -> e <> ENOLCK -> on_first M (key_of_ptr None) f (r_list M g') <> None.
Proof.
  intros M m0 g lockop f g' e H N. unfold reg_lock in H. cbn [key_of_ptr].
  destruct (on_first M (key_of []) lockop (r_list M g)) as [[l' res]|] eqn:E.
  - inversion H; subst. cbn [r_list]. clear H N. revert l' E. induction (r_list M g) as [|x l IH]; intros l' E; [discriminate|].
    cbn [on_first] in E. destruct (compare_name (m_key M x) (key_of []) =? 0) eqn:C.
    + destruct (lockop (m_st M x)) as [m' r']. inversion E; subst. cbn [on_first m_key]. rewrite C. destruct (f _). discriminate.
    + destruct (on_first M (key_of []) lockop l) as [[l2 r2]|] eqn:E2; [|discriminate]. inversion E; subst. cbn [on_first]. rewrite C.
      specialize (IH l2 eq_refl). destruct (on_first M (key_of []) f l2) as [[? ?]|]; [discriminate | contradiction].
  - destruct (r_free M g) as [|n]; [inversion H; subst; contradiction|]. destruct (lockop m0) as [m' r'] eqn:EL. inversion H; subst. cbn [r_list on_first m_key].
    replace (compare_name (key_of []) (key_of []) =? 0) with true by reflexivity. destruct (f _). discriminate.
Qed.
Example C128_case : main_name (fullock_mutex_timedlock None (-1)) = Some None /\ front true false (fullock_cond_wait (Some [65]) (Some [66])) =
  inr (QWait (key_of [65]) (key_of [66]) (-1)) /\ reg_lock Z 0 (reg_init Z 3) [] (fun m => (7, OK)) = (mkR Z [mkM Z (mkN 0 []) 7] 2, OK).
Proof. repeat split; reflexivity. Qed.

Print Assumptions C126_timed_call_returns_refuted.
Print Assumptions C126_minus_one_waits.
Print Assumptions C126_timed_lock_returns_partial.
Print Assumptions C126_timed_wait_returns_partial.
Print Assumptions C126_timed_wait_in_time_refuted.
Print Assumptions C126_manner_of_calls.
Print Assumptions C126_range_of_calls.
Print Assumptions C127_wait_success_is_true.
Print Assumptions C127_timed_out_wait_has_mutex_refuted.
Print Assumptions C127_timeout_reported_refuted.
Print Assumptions C127_timeout_reported_partial.
Print Assumptions C127_success_is_true.
Print Assumptions C127_clock_failure.
Print Assumptions C128_null_refused_refuted.
Print Assumptions C128_null_refused_partial.
Print Assumptions C128_others_go_on.
Print Assumptions C128_null_mutex_is_empty_name.
Print Assumptions C128_null_mutex_found.
