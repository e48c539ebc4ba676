(** Named mutex: C05-C12. *)
From Coq Require Import ZArith List Bool Lia.
From Verif Require Import Base Mutex_Model Mutex_Spec Mutex_Proofs Mutex_Proofs2.
Import ListNotations.
Open Scope Z_scope.

Lemma inv_window : forall s, m_reach no_exit_in_window s -> minv s.
Proof. exact minv_reach. Qed.
Lemma inv_nowait : forall s, m_reach no_cond_wait s -> minv s.
Proof. intros s R. apply (no_cond_wait_window s R). Qed.
Lemma inv_nodeaths : forall s, m_reach no_deaths s -> minv s.
Proof.
  intros s R. apply minv_reach. induction R as [|s l R IH En Ok]; [constructor|].
  constructor; auto. destruct l; cbn in *; tauto.
Qed.
Lemma nowait_is_window : forall s, m_reach no_cond_wait s -> m_reach no_exit_in_window s.
Proof.
  intros s R. induction R as [|s l R IH En Ok]; [constructor|]. constructor; auto.
  destruct l as [t c|t b|t]; cbn; auto. intros c ret Hc E. exact (proj2 (proj2 (no_cond_wait_window s R)) c ret t Hc E).
Qed.
(** turning an executed schedule into reachability *)
Fixpoint possible (okb : mlabel -> bool) (s : mstate) (ls : list mlabel) : bool :=
  match ls with
  | [] => true
  | l :: r => match l with MCall t _ | MRun t _ => negb (t =? 0) && m_alive s t | MDie t => negb (t =? 0) end
              && okb l && possible okb (m_step s l) r
  end.
Lemma reach_exec : forall (ok : mstate -> mlabel -> Prop) okb, (forall s l, okb l = true -> ok s l) ->
  forall ls s, m_reach ok s -> possible okb s ls = true -> m_reach ok (m_exec s ls).
Proof.
  intros ok okb Hok ls. induction ls as [|l r IH]; intros s R G; [exact R|].
  cbn [possible] in G. apply andb_true_iff in G. destruct G as [G G3]. apply andb_true_iff in G. destruct G as [G1 G2].
  cbn [m_exec]. apply IH; auto. constructor; auto.
  destruct l as [t c|t b|t]; cbn; [apply andb_true_iff in G1; destruct G1 as [G1 G1'] ..|];
    apply negb_true_iff, Z.eqb_neq in G1; auto.
Qed.
Definition dies (l : mlabel) : bool := match l with MDie _ => true | _ => false end.
Definition waits (l : mlabel) : bool := match l with MCall _ CWaitUnlock => true | _ => false end.
Lemma reach_any : forall ls, possible (fun _ => true) m_init ls = true -> m_reach any_schedule (m_exec m_init ls).
Proof. intros ls. apply reach_exec; [intros; exact I | constructor]. Qed.
Lemma reach_nodeaths : forall ls, possible (fun l => negb (dies l)) m_init ls = true -> m_reach no_deaths (m_exec m_init ls).
Proof. intros ls. apply reach_exec; [|constructor]. intros s [t c|t b|t]; cbn; auto. discriminate. Qed.
Lemma reach_nowait : forall ls, possible (fun l => negb (waits l)) m_init ls = true -> m_reach no_cond_wait (m_exec m_init ls).
Proof. intros ls. apply reach_exec; [|constructor]. intros s [t []|t b|t]; cbn; auto. discriminate. Qed.
Lemma reach_window : forall ls, possible (fun l => negb (waits l)) m_init ls = true -> m_reach no_exit_in_window (m_exec m_init ls).
Proof. intros ls H. apply nowait_is_window, reach_nowait, H. Qed.

(** schedules used in the examples *)
Definition run (t : Z) (n : nat) : list mlabel := repeat (MRun t true) n.
Definition does_lock (t : Z) (k : mkind) : list mlabel := MCall t (CLock k) :: run t 3.
Definition does_unlock (t : Z) (n : nat) : list mlabel := MCall t CUnlock :: run t n.

(** ** C05: mutual exclusion.  Own = a lock, trylock or timedlock call (or the reacquisition inside a
    condition wait) returned 0 and the thread has not called unlock (or a condition wait) since. *)
Theorem C05_mutual_exclusion : forall s t u,
  m_reach no_deaths s -> m_own s t = true -> m_own s u = true -> t = u.
Proof.
  intros s t u R Ht Hu. pose proof (inv_nodeaths s R) as I.
  assert (A : forall x, m_alive s x = true).
  { clear - R. induction R as [|s l R IH En Ok]; auto. intros x. specialize (IH x).
    destruct l as [v c|v b|v]; cbn [m_step]; [now rewrite alive_call | now rewrite alive_run | now destruct Ok]. }
  rewrite <- (mi_own _ I t (A t) (or_introl Ht)). apply (mi_own _ I u (A u) (or_introl Hu)).
Qed.
Print Assumptions C05_mutual_exclusion.

(** no lock call of another thread succeeds while t owns the mutex *)
Theorem C05_no_success_while_owned : forall s t u b,
  m_reach no_deaths s -> m_own s t = true -> u <> t -> u <> 0 ->
  m_own s u = false /\ m_own (m_step s (MRun u b)) u = false.
Proof.
  intros s t u b R Ht Hu Hu0.
  assert (O : m_own s u = false).
  { destruct (m_own s u) eqn:E; auto. exfalso. apply Hu. now apply (C05_mutual_exclusion s). }
  split; auto.
  assert (A : forall x, m_alive s x = true).
  { clear - R. induction R as [|s l R IH En Ok]; auto. intros x. specialize (IH x).
    destruct l as [v c|v b|v]; cbn [m_step]; [now rewrite alive_call | now rewrite alive_run | now destruct Ok]. }
  assert (R' : m_reach no_deaths (m_step s (MRun u b))) by (constructor; [exact R | split; auto | exact I]).
  destruct (m_own (m_step s (MRun u b)) u) eqn:E; auto. exfalso. apply Hu.
  apply (C05_mutual_exclusion _ u t R' E). cbn [m_step].
  destruct (run_other s u t b Hu) as (_ & -> & _). exact Ht.
Qed.
Print Assumptions C05_no_success_while_owned.

(** while a live thread is recorded as owner, it owns the mutex or is inside a call on it *)
Theorem C05_word_names_owner : forall s t, m_reach no_exit_in_window s -> t <> 0 -> m_alive s t = true ->
  (m_own s t = true -> m_val s = t) /\
  (m_val s = t -> m_own s t = true \/ ~ idle s t).
Proof.
  intros s t R Ht Ha. pose proof (inv_window s R) as I. split.
  - intros H. apply (mi_own _ I); auto.
  - intros H. destruct (mi_val _ I t Ht Ha H) as [H1|H1]; auto. right. unfold idle. intros E. rewrite E in H1. exact H1.
Qed.
Print Assumptions C05_word_names_owner.

Definition ex_owner : mstate := m_exec m_init (does_lock 1 MBlock).
Example C05_example : m_reach no_deaths ex_owner /\ m_own ex_owner 1 = true
  /\ m_own (m_exec ex_owner (does_lock 2 MTry)) 2 = false
  /\ m_res (m_exec ex_owner (does_lock 2 MTry)) 2 = Some EBUSY.
Proof. split; [apply reach_nodeaths; vm_compute; reflexivity | vm_compute; auto]. Qed.

(** ** C06: relocking by the owner succeeds after three own steps in every schedule *)
Theorem C06_relock_never_blocks : forall k s ls s' t,
  m_reach no_exit_in_window s -> live_thread s t -> idle s t -> m_own s t = true ->
  m_path no_exit_in_window (m_step s (MCall t (CLock k))) ls s' -> one_call t ls ->
  (3 <= own_steps t ls)%nat ->
  idle s' t /\ m_res s' t = Some OK /\ m_own s' t = true.
Proof.
  intros k s ls s' t R L Id Ow Pa Oc N.
  exact (relock_path k no_exit_in_window ls s s' t inv_window R L Id Ow I Pa Oc N).
Qed.
Print Assumptions C06_relock_never_blocks.

Example C06_example :
  m_reach no_exit_in_window ex_owner /\ live_thread ex_owner 1 /\ idle ex_owner 1 /\ m_own ex_owner 1 = true /\
  exists s', m_path no_exit_in_window (m_step ex_owner (MCall 1 (CLock MTimed)))
     [MRun 1 false; MCall 2 (CLock MBlock); MRun 2 true; MRun 1 false; MDie 3; MRun 2 false; MRun 1 false] s'.
Proof.
  split; [apply reach_window; vm_compute; reflexivity|].
  split; [split; [discriminate | reflexivity]|]. split; [reflexivity|]. split; [reflexivity|].
  eexists. repeat (eapply mp_cons; [cbn; repeat split; discriminate | cbn; try exact I |]).
  2: apply mp_nil.
  intros c ret _ H. exfalso. revert H. cbn. unfold upd. repeat (destruct (Z.eqb _ _); try discriminate).
Qed.

(** ** C07: each lock needs its own unlock - false *)
Definition C07_statement : Prop := forall s t u,
  m_reach (fun s l => no_deaths s l /\ no_cond_wait s l) s ->
  1 <= m_depth s t -> 1 <= m_depth s u -> t = u.

(** Thread 1 locks twice and unlocks once; thread 2 then gets the mutex. *)
Theorem C07_unlock_per_lock_refuted : ~ C07_statement.
Proof.
  intros H.
  assert (R : m_reach (fun s l => no_deaths s l /\ no_cond_wait s l)
                (m_exec m_init (does_lock 1 MBlock ++ does_lock 1 MBlock ++ does_unlock 1 9 ++ does_lock 2 MTry))).
  { apply reach_exec with (okb := fun l => negb (dies l) && negb (waits l)).
    - intros x [t []|t b|t]; cbn; auto; discriminate.
    - constructor.
    - vm_compute; reflexivity. }
  specialize (H _ 1 2 R). assert (1 = 2) by (apply H; vm_compute; discriminate). discriminate.
Qed.
Print Assumptions C07_unlock_per_lock_refuted.

(** What holds: an unlock of the owner returns 0 and gives the mutex up, whatever the number of locks
    before it (so for k = 1 the statement is right).  Missing: that for k > 1 the first k-1 unlocks keep it. *)
Theorem C07_first_unlock_releases_partial : forall s ls s' t,
  m_reach no_exit_in_window s -> live_thread s t -> idle s t -> m_own s t = true ->
  m_path no_exit_in_window (m_step s (MCall t CUnlock)) ls s' -> one_call t ls -> idle s' t ->
  m_res s' t = Some OK /\ m_val s' <> t.
Proof.
  intros s ls s' t R L Id Ow Pa Oc Id'.
  exact (unlock_owner_path no_exit_in_window ls s s' t inv_window R L Id Ow I Pa Oc Id').
Qed.
Print Assumptions C07_first_unlock_releases_partial.

(** With a single level the owner keeps the mutex until it calls unlock. *)
Theorem C07_kept_until_unlock : forall s l t,
  m_reach no_exit_in_window s -> live_thread s t -> m_own s t = true ->
  m_enabled s l -> no_exit_in_window s l -> l <> MDie t ->
  l <> MCall t CUnlock -> l <> MCall t CWaitUnlock ->
  m_own (m_step s l) t = true /\ m_val (m_step s l) = t.
Proof.
  intros s l t R L Ow En Ok D N1 N2.
  assert (R' : m_reach no_exit_in_window (m_step s l)) by now constructor.
  assert (O' : m_own (m_step s l) t = true).
  { destruct l as [u c|u b|u]; cbn [m_step].
    - unfold m_call. destruct (m_pc s u); auto. destruct c; cbn; auto; rewrite upd_neq; auto; congruence.
    - destruct (Z.eq_dec u t) as [->|Hu]; [|destruct (run_other s u t b Hu) as (_ & -> & _); exact Ow].
      unfold m_run. destruct (m_pc s t); m_expose;
        repeat (match goal with |- context [match ?k with MBlock => _ | MTry => _ | MTimed => _ end] => destruct k
                           | |- context [match ?r with Some _ => _ | None => _ end] => destruct r
                           | |- context [if ?c then _ else _] => destruct c end);
        cbn [m_own]; rewrite ?upd_eq; auto.
    - exact Ow. }
  split; auto. apply (mi_own _ (inv_window _ R')); auto. apply alive_step; auto. apply L.
Qed.
Print Assumptions C07_kept_until_unlock.

Example C07_example : m_depth (m_exec m_init (does_lock 1 MBlock ++ does_lock 1 MBlock)) 1 = 2
  /\ m_val (m_exec m_init (does_lock 1 MBlock ++ does_lock 1 MBlock ++ does_unlock 1 9)) = 0.
Proof. vm_compute. auto. Qed.

(** ** C08: only the owner can unlock *)
(** results, for every interleaving of the call with other threads *)
Theorem C08_nonowner_unlock_result : forall s ls s' t,
  m_reach no_exit_in_window s -> live_thread s t -> idle s t -> m_own s t = false ->
  m_path no_exit_in_window (m_step s (MCall t CUnlock)) ls s' -> one_call t ls -> idle s' t ->
  (m_res s' t = Some OK /\ passes (fun x => m_val x = 0) (m_step s (MCall t CUnlock)) ls) \/
  (m_res s' t = Some EPERM /\ passes (fun x => m_val x <> 0 /\ m_val x <> t) (m_step s (MCall t CUnlock)) ls).
Proof.
  intros s ls s' t R L Id Ow Pa Oc Id'.
  exact (unlock_nonowner_path no_exit_in_window ls s s' t inv_window R L Id Ow I Pa Oc Id').
Qed.
Print Assumptions C08_nonowner_unlock_result.

(** no step of an unlock call changes a mutex that is not the caller's, nor any other thread's ownership *)
Theorem C08_nonowner_unlock_changes_nothing : forall s t b u,
  m_reach no_exit_in_window s -> live_thread s t -> pc_calls_unlock (m_pc s t) -> m_val s <> t -> u <> t ->
  let s' := m_step s (MRun t b) in
  m_val s' = m_val s /\ m_cnt s' = m_cnt s /\ m_own s' u = m_own s u /\ m_depth s' u = m_depth s u.
Proof.
  intros s t b u R L Hc Hv Hu s'. subst s'. cbn [m_step].
  destruct (unlock_nonowner_step s t b (inv_window s R) L Hc Hv) as [-> ->].
  assert (Hu' : t <> u) by auto. destruct (run_other s t u b Hu') as (_ & -> & _ & ->). auto.
Qed.
Print Assumptions C08_nonowner_unlock_changes_nothing.

Example C08_example :
  let s := m_exec m_init (does_lock 1 MBlock ++ MCall 2 CUnlock :: run 2 2) in
  m_reach no_exit_in_window s /\ live_thread s 2 /\ pc_calls_unlock (m_pc s 2) /\ m_val s <> 2
  /\ m_res (m_exec s (run 2 2)) 2 = Some EPERM /\ m_val (m_exec s (run 2 2)) = 1.
Proof.
  cbv zeta. split; [apply reach_window; vm_compute; reflexivity|].
  vm_compute. repeat split; auto; discriminate.
Qed.

(** ** C09: trylock completes in three own steps in every schedule, with an explained result *)
Theorem C09_trylock_bounded_and_explained : forall s ls s' t,
  m_reach no_exit_in_window s -> live_thread s t -> idle s t ->
  m_path no_exit_in_window (m_step s (MCall t (CLock MTry))) ls s' -> one_call t ls ->
  (3 <= own_steps t ls)%nat ->
  idle s' t /\
  ((m_res s' t = Some OK /\ m_own s' t = true) \/
   (m_res s' t = Some EBUSY /\
    passes (fun x => m_val x <> 0 /\ m_val x <> t) (m_step s (MCall t (CLock MTry))) ls)).
Proof.
  intros s ls s' t R L Id Pa Oc N.
  exact (try_path no_exit_in_window ls s s' t inv_window R L Id I Pa Oc N).
Qed.
Print Assumptions C09_trylock_bounded_and_explained.

Example C09_example : live_thread ex_owner 2 /\ idle ex_owner 2 /\
  m_res (m_exec ex_owner (does_lock 2 MTry)) 2 = Some EBUSY /\
  m_res (m_exec m_init (does_lock 2 MTry)) 2 = Some OK.
Proof. vm_compute. repeat split; auto; discriminate. Qed.

(** ** C10: recovery wherever the owner died *)
(** Every pass that is started after v died and comes to its end leaves the mutex not owned by v,
    for every interleaving. *)
Theorem C10_pass_removes_dead_owner : forall s ls s' c v,
  m_reach no_exit_in_window s -> live_thread s c -> idle s c -> v <> 0 -> m_alive s v = false ->
  m_path no_exit_in_window (m_step s (MCall c CRecover)) ls s' -> one_call c ls -> idle s' c ->
  m_val s' <> v.
Proof.
  intros s ls s' c v R L Id Hv Dv Pa Oc Id'.
  exact (recover_path no_exit_in_window ls s s' c v inv_window R L Id Hv Dv I Pa Oc Id').
Qed.
Print Assumptions C10_pass_removes_dead_owner.

(** A free mutex always has count zero. *)
Theorem C10_free_means_count_zero : forall s, m_reach no_exit_in_window s -> m_val s = 0 -> m_cnt s = 0.
Proof. intros s R. exact (mi_cnt0 _ (inv_window s R)). Qed.
Print Assumptions C10_free_means_count_zero.

(** The pass does come to its end, and then a lock call succeeds: from every reachable state in which the
    owner is dead - it may have died at any instruction of any call - and no live thread is inside the
    registry guard. *)
Theorem C10_recovery_then_lock : forall s c u k,
  m_reach no_exit_in_window s -> live_thread s c -> idle s c -> live_thread s u -> idle s u ->
  m_val s <> 0 -> m_alive s (m_val s) = false ->
  m_guard s = 0 \/ m_guard s = c \/ m_alive s (m_guard s) = false ->
  exists n, (n <= 9)%nat /\
    let s1 := alone (m_step s (MCall c CRecover)) c n in
    idle s1 c /\ m_val s1 = 0 /\ m_cnt s1 = 0 /\
    let s2 := alone (m_step s1 (MCall u (CLock k))) u 3 in
    m_res s2 u = Some OK /\ m_own s2 u = true.
Proof.
  intros s c u k R Lc Ic Lu Iu V D G.
  destruct (recover_alone s c (inv_window s R) Lc Ic (conj V D) G) as (n & Hn & H).
  exists n. split; auto. cbv zeta in *. destruct H as (H1 & H2 & H3 & H4 & H5 & H6).
  repeat split; auto.
  - apply lock_alone; auto; [split; [apply Lu | rewrite H5; apply Lu]|].
    destruct (Z.eq_dec u c) as [->|E]; auto. unfold idle. rewrite H6; auto.
  - apply lock_alone; auto; [split; [apply Lu | rewrite H5; apply Lu]|].
    destruct (Z.eq_dec u c) as [->|E]; auto. unfold idle. rewrite H6; auto.
Qed.
Print Assumptions C10_recovery_then_lock.

(** the owner dies right after the compare-and-swap of a lock call *)
Definition ex_dead_owner : mstate := m_exec m_init (MCall 1 (CLock MBlock) :: run 1 2 ++ [MDie 1]).
Example C10_example : m_reach no_exit_in_window ex_dead_owner /\ m_val ex_dead_owner = 1 /\ m_cnt ex_dead_owner = 0
  /\ m_alive ex_dead_owner 1 = false /\ m_guard ex_dead_owner = 0 /\ idle ex_dead_owner 2.
Proof. split; [apply reach_window; vm_compute; reflexivity | vm_compute; auto]. Qed.

(** ** C11: recovery does not take a mutex from a live owner *)
Theorem C11_live_owner_keeps_mutex : forall s l t,
  m_reach no_exit_in_window s -> live_thread s t -> m_own s t = true ->
  m_enabled s l -> no_exit_in_window s l -> (forall c, l <> MCall t c) -> (forall b, l <> MRun t b) -> l <> MDie t ->
  m_own (m_step s l) t = true /\ m_val (m_step s l) = t.
Proof. intros s l t R L Ow En Ok N1 N2 N3. apply C07_kept_until_unlock; auto. Qed.
Print Assumptions C11_live_owner_keeps_mutex.

Theorem C11_exclusion_with_deaths : forall s t u,
  m_reach no_exit_in_window s -> m_alive s t = true -> m_alive s u = true ->
  m_own s t = true -> m_own s u = true -> t = u.
Proof.
  intros s t u R At Au Ht Hu. pose proof (inv_window s R) as I.
  rewrite <- (mi_own _ I t At (or_introl Ht)). apply (mi_own _ I u Au (or_introl Hu)).
Qed.
Print Assumptions C11_exclusion_with_deaths.

(** thread 1 dies as owner, a pass frees the mutex, thread 2 locks it, a second pass leaves it alone *)
Example C11_example :
  let s := m_exec ex_dead_owner (MCall 3 CRecover :: run 3 8 ++ does_lock 2 MBlock ++ MCall 3 CRecover :: run 3 8) in
  m_own s 2 = true /\ m_val s = 2 /\ m_alive s 1 = false.
Proof. vm_compute. auto. Qed.

(** ** C12: the same for every timing of exits - false *)
Definition C12_statement : Prop := forall s t u,
  m_reach any_schedule s -> m_alive s t = true -> m_alive s u = true ->
  m_own s t = true -> m_own s u = true -> t = u.

(** Thread 1 owns the mutex; the pass of thread 3 reads it as owner; thread 1 releases the mutex in a
    condition wait (outside the registry guard) and exits; thread 2 locks; the pass finds thread 1 dead and
    clears the mutex; thread 4 locks too. *)
Definition C12_witness : list mlabel :=
  does_lock 1 MBlock ++ MCall 3 CRecover :: run 3 2 ++ MCall 1 CWaitUnlock :: run 1 4 ++ [MDie 1] ++
  does_lock 2 MBlock ++ run 3 6 ++ does_lock 4 MTry.

Theorem C12_any_timing_refuted : ~ C12_statement.
Proof.
  intros H.
  assert (R : m_reach any_schedule (m_exec m_init C12_witness)) by (apply reach_any; vm_compute; reflexivity).
  specialize (H _ 2 4 R). assert (2 = 4) by (apply H; vm_compute; reflexivity). discriminate.
Qed.
Print Assumptions C12_any_timing_refuted.

(** It holds for every timing of exits when no thread releases the mutex through a condition wait:
    the API unlock runs inside the registry guard, which the pass holds as well. *)
Theorem C12_any_timing_without_cond_wait_partial : forall s t u,
  m_reach no_cond_wait s -> m_alive s t = true -> m_alive s u = true ->
  m_own s t = true -> m_own s u = true -> t = u.
Proof.
  intros s t u R At Au Ht Hu. pose proof (inv_nowait s R) as I.
  rewrite <- (mi_own _ I t At (or_introl Ht)). apply (mi_own _ I u Au (or_introl Hu)).
Qed.
Print Assumptions C12_any_timing_without_cond_wait_partial.

Example C12_example :
  let s := m_exec m_init ((MCall 1 (CLock MBlock) :: run 1 2 ++ [MDie 1]) ++ MCall 3 CRecover :: run 3 8 ++ does_lock 2 MBlock) in
  m_reach no_cond_wait s /\ m_own s 2 = true /\ m_alive s 1 = false.
Proof.
  cbv zeta. split; [apply reach_nowait; vm_compute; reflexivity|]. vm_compute. auto.
Qed.
