(** Named mutex: linearizability (C111). *)
From Coq Require Import ZArith List Bool Lia.
From Verif Require Import Base Mutex_Model Mutex_Spec Mutex_Proofs Mutex_Proofs2 Mutex_Props Lin_Spec Lin_Proofs.
Import ListNotations.
Open Scope Z_scope.

(** ** C111: whatever programs can see of a named mutex, an atomic mutex could have shown *)
Definition C111_statement : Prop := forall s h, m_history any_schedule s h -> exists a, at_history a h.

Theorem C111_linearizable_partial : forall s h, m_history no_exit_in_window s h -> exists a, at_history a h /\ at_owner a = m_val s.
Proof.
  intros s h H. destruct (simulation no_exit_in_window s h inv_window H) as (a & HA & S).
  exists a. split; [exact HA | apply (sm_owner _ _ S)].
Qed.
(** without condition waits any thread may die at any instant *)
Theorem C111_no_wait_linearizable_partial : forall s h, m_history no_cond_wait s h -> exists a, at_history a h /\ at_owner a = m_val s.
Proof.
  intros s h H. destruct (simulation no_cond_wait s h inv_nowait H) as (a & HA & S).
  exists a. split; [exact HA | apply (sm_owner _ _ S)].
Qed.
(** read off the history alone: of the threads that have not died at most one has locked and not yet
    started to unlock or wait *)
Theorem C111_one_locker_in_history_partial : forall s h t u, m_history no_exit_in_window s h -> t <> 0 -> u <> 0 ->
  ~ dead_in t h -> ~ dead_in u h -> has_lock t h = true -> has_lock u h = true -> t = u.
Proof.
  intros s h t u H T0 U0 DT DU LT LU. destruct (C111_linearizable_partial s h H) as (a & HA & _).
  pose proof (told_history a h HA t T0) as T. pose proof (told_history a h HA u U0) as U.
  rewrite <- (td_lock _ _ _ T (proj2 (td_alive _ _ _ T) DT) LT). apply (td_lock _ _ _ U (proj2 (td_alive _ _ _ U) DU) LU).
Qed.

(** ** Concrete histories *)
Fixpoint hist (s : mstate) (ls : list mlabel) : list event :=
  match ls with [] => [] | l :: r => m_events s l ++ hist (m_step s l) r end.
Lemma hist_exec : forall (ok : mstate -> mlabel -> Prop) okb, (forall s l, okb l = true -> ok s l) ->
  forall ls s h, m_history ok s h -> possible okb s ls = true -> m_history ok (m_exec s ls) (h ++ hist s ls).
Proof.
  intros ok okb Hok ls. induction ls as [|l r IH]; intros s h R G; [simpl; rewrite app_nil_r; exact R|].
  cbn [possible] in G. apply andb_true_iff in G. destruct G as [G G3]. apply andb_true_iff in G. destruct G as [G1 G2].
  cbn [m_exec hist]. rewrite app_assoc. apply IH; auto. constructor; auto.
  destruct l as [t c|t b|t]; cbn; [apply andb_true_iff in G1; destruct G1 as [G1 G1'] ..|];
    apply negb_true_iff, Z.eqb_neq in G1; auto.
Qed.
Lemma hist_init : forall (ok : mstate -> mlabel -> Prop) okb, (forall s l, okb l = true -> ok s l) ->
  forall ls, possible okb m_init ls = true -> m_history ok (m_exec m_init ls) (hist m_init ls).
Proof. intros ok okb H ls P. exact (hist_exec ok okb H ls m_init [] (mh_init ok) P). Qed.
(** 1 locks, 2 is refused while 3 waits, 1 unlocks, 3 gets the mutex and dies, a pass of 2 frees it, 2 locks *)
Definition ex111 : list mlabel :=
  does_lock 1 MBlock ++ [MCall 3 (CLock MBlock); MRun 3 true; MRun 3 true] ++ does_lock 2 MTry ++ does_unlock 1 6 ++
  run 3 5 ++ [MDie 3; MCall 2 CRecover] ++ run 2 8 ++ does_lock 2 MTry.
Example C111_case : m_history no_cond_wait (m_exec m_init ex111) (hist m_init ex111) /\
  hist m_init ex111 = [ECall 1 (CLock MBlock); ERet 1 OK; ECall 3 (CLock MBlock); ECall 2 (CLock MTry); ERet 2 EBUSY; ECall 1 CUnlock;
    ERet 1 OK; ERet 3 OK; EDie 3; ECall 2 CRecover; ERet 2 OK; ECall 2 (CLock MTry); ERet 2 OK] /\
  has_lock 2 (hist m_init ex111) = true.
Proof.
  split; [|vm_compute; auto]. apply (hist_init no_cond_wait (fun l => negb (waits l))).
  - intros s [t []|t b|t]; cbn; auto. discriminate.
  - vm_compute. reflexivity.
Qed.
(** the atomic mutex never shows a lock granted to 2 while 1 has it *)
Example C111_atomic_excludes : forall a, ~ at_history a [ECall 1 (CLock MBlock); ERet 1 OK; ECall 2 (CLock MTry); ERet 2 OK].
Proof.
  intros a H. pose proof (told_history a _ H 1 ltac:(lia)) as T. pose proof (told_history a _ H 2 ltac:(lia)) as U.
  assert (NT : ~ dead_in 1 [ECall 1 (CLock MBlock); ERet 1 OK; ECall 2 (CLock MTry); ERet 2 OK]).
  { unfold dead_in. simpl. intros [X|[X|[X|[X|[]]]]]; discriminate. }
  assert (NU : ~ dead_in 2 [ECall 1 (CLock MBlock); ERet 1 OK; ECall 2 (CLock MTry); ERet 2 OK]).
  { unfold dead_in. simpl. intros [X|[X|[X|[X|[]]]]]; discriminate. }
  pose proof (td_lock _ _ _ T (proj2 (td_alive _ _ _ T) NT) eq_refl) as E1.
  pose proof (td_lock _ _ _ U (proj2 (td_alive _ _ _ U) NU) eq_refl) as E2. lia.
Qed.

(** ** C111 without restriction: false, see C12 *)
Theorem C111_linearizable_refuted : ~ C111_statement.
Proof.
  intros H.
  assert (R : m_history any_schedule (m_exec m_init C12_witness) (hist m_init C12_witness)).
  { apply (hist_init any_schedule (fun _ => true)); [intros; exact I | vm_compute; reflexivity]. }
  destruct (H _ _ R) as (a & HA).
  pose proof (told_history a _ HA 2 ltac:(lia)) as T. pose proof (told_history a _ HA 4 ltac:(lia)) as U.
  assert (D : forall t, existsb (fun e => match e with EDie u => u =? t | _ => false end) (hist m_init C12_witness) = false ->
    ~ dead_in t (hist m_init C12_witness)).
  { intros t E X. assert (Y : existsb (fun e => match e with EDie u => u =? t | _ => false end) (hist m_init C12_witness) = true).
    { apply existsb_exists. exists (EDie t). split; [exact X | apply Z.eqb_refl]. }
    congruence. }
  assert (E1 : at_owner a = 2) by (apply (td_lock _ _ _ T); [apply (td_alive _ _ _ T), D|]; vm_compute; reflexivity).
  assert (E2 : at_owner a = 4) by (apply (td_lock _ _ _ U); [apply (td_alive _ _ _ U), D|]; vm_compute; reflexivity).
  lia.
Qed.

Print Assumptions C111_linearizable_partial.
Print Assumptions C111_no_wait_linearizable_partial.
Print Assumptions C111_one_locker_in_history_partial.
Print Assumptions C111_linearizable_refuted.
