(** Data under a named mutex (C151) and under the internal locks of the lists (C153) on processors with store buffers. *)
From Coq Require Import ZArith List Bool Lia.
From Verif Require Import Base Guard_Model Guard_Proofs Mutex_Model Mutex_Spec Mutex_Proofs Mutex_Proofs2 Mutex_Props Tso_Model Tso_Spec Tso_Proofs.
Import ListNotations.
Open Scope Z_scope.

(** ** C151 *)
(** [ok]: the schedules considered *)
Definition m_can (ok : mstate -> mlabel -> Prop) (s : mstate) (l : mlabel) : Prop := m_enabled s l /\ ok s l.
Definition mx_reach (ok : mstate -> mlabel -> Prop) := x_reach mstate mlabel Z Z.eq_dec m_init m_step (m_can ok) m_atomic m_alive m_may.
Definition mx_load := x_load mstate Z Z.eq_dec.
Definition mx_right (ok : mstate -> mlabel -> Prop) : Prop := forall s t x,
  mx_reach ok s -> m_alive (x_lock _ _ s) t = true -> m_may (x_lock _ _ s) t x -> mx_load s t x = last_stored Z.eq_dec (x_log _ _ s) x.
Lemma mx_right_inv : forall ok : mstate -> mlabel -> Prop, (forall s, m_reach ok s -> minv s) -> mx_right ok.
Proof.
  intros ok INV s t x R A M. unfold mx_load. set (hold := fun (s : mstate) (t x : Z) => m_val s = t /\ t <> 0).
  assert (IN : forall s u y, m_reach ok s -> m_alive s u = true -> m_may s u y -> hold s u y).
  { intros s0 u y G Al (N & O & _). split; auto. apply (mi_own _ (INV s0 G)); auto. }
  apply (loads_right mstate mlabel Z Z.eq_dec m_init m_step (m_can ok) m_atomic m_alive m_may m_may (m_reach ok) hold hold); auto.
  - apply mr_init.
  - intros s0 l G [E N]. apply mr_step; auto.
  - intros s0 u v y _ _ _ [E _] [F _]. congruence.
  - intros s0 l u y G [E _] Al H. apply (m_keep s0 l u y); auto.
Qed.
Theorem C151_mutex_data_partial : forall s t x,
  mx_reach no_exit_in_window s -> m_alive (x_lock _ _ s) t = true -> m_may (x_lock _ _ s) t x -> mx_load s t x = last_stored Z.eq_dec (x_log _ _ s) x.
Proof. exact (mx_right_inv no_exit_in_window inv_window). Qed.
Theorem C151_mutex_data_without_cond_wait_partial : forall s t x,
  mx_reach no_cond_wait s -> m_alive (x_lock _ _ s) t = true -> m_may (x_lock _ _ s) t x -> mx_load s t x = last_stored Z.eq_dec (x_log _ _ s) x.
Proof. exact (mx_right_inv no_cond_wait inv_nowait). Qed.

(** executable schedules *)
Definition m_okb (s : mstate) (l : mlabel) : bool :=
  match l with MCall t _ | MRun t _ => negb (t =? 0) && m_alive s t | MDie t => negb (t =? 0) end.
Definition m_calm (l : mlabel) : bool := match l with MDie _ | MCall _ CWaitUnlock => false | _ => true end.
Definition m_need (s : mstate) (l : mlabel) : list Z :=
  match l with
  | MRun t _ => match m_pc s t with MIdle | MRead _ | MU0 _ | MU1 _ | MK0 _ | MK1 _ _ | MF0 _ | MF2 _ => [] | _ => [t] end
  | MDie t => [t]
  | _ => []
  end.
Definition m_mwb (s : mstate) (t x : Z) : bool := negb (t =? 0) && m_own s t && match m_pc s t with MIdle => true | _ => false end.
Lemma m_okb_any : forall s l, m_okb s l = true -> m_can any_schedule s l.
Proof. intros s [t c|t b|t] H; cbn in *; [apply andb_true_iff in H as [H H2]..|]; apply negb_true_iff, Z.eqb_neq in H; repeat split; auto. Qed.
Lemma m_okb_can : forall s l, m_okb s l && m_calm l = true -> m_can no_exit_in_window s l.
Proof. intros s l H. apply andb_true_iff in H as [H C]. split; [apply m_okb_any; auto|]. destruct l; cbn in *; auto; discriminate. Qed.
Lemma m_alive_kept : forall s l t, m_alive s t = true -> m_alive (m_step s l) t = false -> l = MDie t.
Proof.
  intros s l t A D. destruct l as [u c|u b|u].
  - exfalso. assert (E : m_alive (m_step s (MCall u c)) t = m_alive s t); [|congruence]. cbn [m_step]. unfold m_call. destruct (m_pc s u); try reflexivity. destruct c; reflexivity.
  - exfalso. assert (E : m_alive (m_step s (MRun u b)) t = m_alive s t); [|congruence]. cbn [m_step]. unfold m_run.
    destruct (m_pc s u); m_expose; repeat match goal with |- context [if ?b then _ else _] => destruct b | |- context [match ?k with _ => _ end] => destruct k end; reflexivity.
  - cbn in D. destruct (Z.eq_dec u t) as [->|N]; auto. rewrite upd_neq in D by auto. congruence.
Qed.
Lemma m_mwb_ok : forall s t x, m_mwb s t x = true -> m_may s t x.
Proof.
  intros s t x H. unfold m_mwb in H. apply andb_true_iff in H as [H H2]. apply andb_true_iff in H as [H0 H1]. apply negb_true_iff, Z.eqb_neq in H0.
  repeat split; auto. destruct (m_pc s t); congruence.
Qed.
Definition mx_ev : Type := event mlabel Z.
Definition mx_run (need : mstate -> mlabel -> list Z) : list mx_ev -> xstate mstate Z := x_run mstate mlabel Z Z.eq_dec m_init m_step m_alive (fun s l => m_okb s l && m_calm l) need m_mwb.
Definition m_go (t : Z) (n : nat) : list mx_ev := repeat (ELock (MRun t false)) n.
(** thread 11 locks, stores 5 at place 7: the store is still in its buffer *)
Definition mx_stored : list mx_ev := ELock (MCall 11 (CLock MBlock)) :: m_go 11 6 ++ [EStore 11 7 5].
(** it unlocks; then thread 22 locks *)
Definition mx_passed : list mx_ev := ELock (MCall 11 CUnlock) :: m_go 11 9 ++ ELock (MCall 22 (CLock MBlock)) :: m_go 22 6.

Lemma m_run_reach : forall es, mx_reach no_exit_in_window (mx_run m_need es).
Proof.
  intro es. apply x_run_reach; [exact m_okb_can | | intros s l t _ A D; rewrite (m_alive_kept s l t A D); left; reflexivity | exact m_mwb_ok].
  intros s l t (b & -> & P). cbn. destruct (m_pc s t); try contradiction; left; reflexivity.
Qed.
Example C151_case_buffered : let s := mx_run m_need mx_stored in
  mx_reach no_exit_in_window s /\ m_may (x_lock _ _ s) 11 7 /\ x_mem _ _ s 7 = 0 /\ mx_load s 11 7 = 5.
Proof. split; [apply m_run_reach|]. split; [|split]; [repeat split; vm_compute; congruence | vm_compute; reflexivity | vm_compute; reflexivity]. Qed.
(** the unlock does not get past its first locked instruction before the store is in memory *)
Example C151_case_waits : let s := mx_run m_need (mx_stored ++ mx_passed) in
  m_pc (x_lock _ _ s) 11 = MUGuard /\ m_val (x_lock _ _ s) = 11 /\ m_own (x_lock _ _ s) 22 = false.
Proof. split; [|split]; vm_compute; reflexivity. Qed.
Example C151_case_passed : let s := mx_run m_need (mx_stored ++ EDrain 11 :: mx_passed) in
  mx_reach no_exit_in_window s /\ m_may (x_lock _ _ s) 22 7 /\ m_own (x_lock _ _ s) 11 = false /\ mx_load s 22 7 = 5.
Proof. split; [apply m_run_reach|]. split; [|split]; [repeat split; vm_compute; congruence | vm_compute; reflexivity | vm_compute; reflexivity]. Qed.

(** The full statement, for every timing of deaths, is false for the reason of C12: two threads have the mutex. *)
Definition C151_statement : Prop := mx_right any_schedule.
Definition mx_run_any : list mx_ev -> xstate mstate Z := x_run mstate mlabel Z Z.eq_dec m_init m_step m_alive m_okb m_need m_mwb.
Theorem C151_mutex_data_refuted : ~ C151_statement.
Proof.
  intro H. specialize (H (mx_run_any (map ELock C12_witness ++ [EStore 2 7 5])) 4 7).
  assert (E : mx_load (mx_run_any (map ELock C12_witness ++ [EStore 2 7 5])) 4 7 = 0) by (vm_compute; reflexivity).
  assert (F : last_stored Z.eq_dec (x_log _ _ (mx_run_any (map ELock C12_witness ++ [EStore 2 7 5]))) 7 = 5) by (vm_compute; reflexivity).
  rewrite E, F in H. assert (X : 0 = 5); [|discriminate]. apply H.
  - apply x_run_reach; [exact m_okb_any | | intros s l t _ A D; rewrite (m_alive_kept s l t A D); left; reflexivity | exact m_mwb_ok].
    intros s l t (b & -> & P). cbn. destruct (m_pc s t); try contradiction; left; reflexivity.
  - vm_compute. reflexivity.
  - split; [|split]; vm_compute; congruence.
Qed.

(** With an unlock made of plain stores the claim would be false: the next owner can read the old value. *)
Definition m_atomic_lock_only (s : mstate) (l : mlabel) (t : Z) : Prop :=
  m_atomic s l t /\ match m_pc s t with MUGuard | MU2 _ | MU3 _ _ | MU4 _ | MU5 _ | MURel _ => False | _ => True end.
Definition m_need_lock_only (s : mstate) (l : mlabel) : list Z :=
  match l with
  | MRun t _ => match m_pc s t with MIdle | MRead _ | MU0 _ | MU1 _ | MK0 _ | MK1 _ _ | MF0 _ | MF2 _ | MUGuard | MU2 _ | MU3 _ _ | MU4 _ | MU5 _ | MURel _ => [] | _ => [t] end
  | MDie t => [t]
  | _ => []
  end.
Theorem C151_plain_unlock_would_not_do : exists s,
  x_reach mstate mlabel Z Z.eq_dec m_init m_step (m_can no_exit_in_window) m_atomic_lock_only m_alive m_may s /\
  m_alive (x_lock _ _ s) 22 = true /\ m_may (x_lock _ _ s) 22 7 /\ mx_load s 22 7 = 0 /\ last_stored Z.eq_dec (x_log _ _ s) 7 = 5.
Proof.
  exists (mx_run m_need_lock_only (mx_stored ++ mx_passed)). split; [|split; [|split; [|split]]].
  - apply x_run_reach; [exact m_okb_can | | intros s l t _ A D; rewrite (m_alive_kept s l t A D); left; reflexivity | exact m_mwb_ok].
    intros s l t ((b & -> & P) & Q). cbn. destruct (m_pc s t); try contradiction; left; reflexivity.
  - vm_compute. reflexivity.
  - repeat split; vm_compute; congruence.
  - vm_compute. reflexivity.
  - vm_compute. reflexivity.
Qed.

(** ** C153 *)
Definition gx_reach := x_reach gstate glabel Z Z.eq_dec g_init g_apply g_can g_atomic g_alive g_may.
Definition gx_load := x_load gstate Z Z.eq_dec.
Theorem C153_list_data : forall s t x, gx_reach s -> g_alive (x_lock _ _ s) t = true -> g_may (x_lock _ _ s) t x ->
  gx_load s t x = last_stored Z.eq_dec (x_log _ _ s) x.
Proof.
  intros s t x R A M. unfold gx_load. set (hold := fun (s : gstate) (t x : Z) => g_word s = t /\ t <> 0).
  assert (IN : forall s u y, g_reach s -> g_alive s u = true -> g_may s u y -> hold s u y).
  { intros s0 u y G Al H. destruct (g_reach_inv s0 G) as (I1 & _ & _ & I4). unfold g_may in H. split.
    - apply I1; auto. rewrite H. exact I.
    - intros ->. congruence. }
  apply (loads_right gstate glabel Z Z.eq_dec g_init g_apply g_can g_atomic g_alive g_may g_may g_reach hold hold); auto.
  - apply gr_init.
  - exact g_reach_apply.
  - intros s0 u v y _ _ _ [E _] [F _]. congruence.
  - intros s0 l u y G C Al H. apply (g_keep s0 l u y); auto.
Qed.
Definition g_okb (s : gstate) (l : glabel) : bool := match l with GRun t => negb (t =? 0) && g_alive s t | GDie t => negb (t =? 0) end.
Definition g_need (s : gstate) (l : glabel) : list Z := match l with GRun t | GDie t => [t] end.
Definition g_mwb (s : gstate) (t x : Z) : bool := match g_pc s t with GIn => true | _ => false end.
Definition gx_run : list (event glabel Z) -> xstate gstate Z := x_run gstate glabel Z Z.eq_dec g_init g_apply g_alive g_okb g_need g_mwb.
Lemma gx_run_reach : forall es, gx_reach (gx_run es).
Proof.
  intro es. apply x_run_reach.
  - intros s [t|t] H; cbn in *; [apply andb_true_iff in H as [H H2]|]; apply negb_true_iff, Z.eqb_neq in H; auto.
  - intros s l t [-> _]. left. reflexivity.
  - intros s [u|u] t _ A D.
    + exfalso. cbn [g_apply] in D. assert (E : g_alive (g_step s u) t = g_alive s t); [|congruence]. unfold g_step. destruct (g_pc s u);
        repeat match goal with |- context [if ?b then _ else _] => destruct b end; reflexivity.
    + cbn in *. destruct (Z.eq_dec u t) as [->|N]; [left; reflexivity|]. rewrite upd_neq in D by auto. congruence.
  - intros s t x H. unfold g_mwb in H. unfold g_may. destruct (g_pc s t); congruence.
Qed.
(** thread 11 changes the list and dies inside; its store has reached the memory when its death is seen; 22 takes the lock over *)
Definition gx_dead : list (event glabel Z) :=
  repeat (ELock (GRun 11)) 2 ++ [EStore 11 7 5; ELock (GDie 11); EDrain 11; ELock (GDie 11)] ++ repeat (ELock (GRun 22)) 1005.
Example C153_case : let s := gx_run gx_dead in
  gx_reach s /\ g_alive (x_lock _ _ s) 11 = false /\ g_may (x_lock _ _ s) 22 7 /\ gx_load s 22 7 = 5.
Proof. split; [apply gx_run_reach|]. split; [|split]; vm_compute; reflexivity. Qed.

Print Assumptions C151_mutex_data_partial.
Print Assumptions C151_mutex_data_without_cond_wait_partial.
Print Assumptions C151_mutex_data_refuted.
Print Assumptions C151_plain_unlock_would_not_do.
Print Assumptions C153_list_data.
