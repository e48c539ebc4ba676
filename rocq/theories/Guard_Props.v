(** C32, C33, C34: the guard of the shared lists. *)
From Coq Require Import ZArith List Bool Lia.
From Verif Require Import Base Guard_Model Guard_Proofs.
Import ListNotations.
Open Scope Z_scope.

(** C32: in every reachable state (any number of threads, any interleaving, any deaths) at most one
    live thread is inside the critical section. *)
Theorem C32_guard_mutual_exclusion : forall s t u, g_reach s ->
  g_alive s t = true -> g_alive s u = true -> g_pc s t = GIn -> g_pc s u = GIn -> t = u.
Proof. exact g_mutex. Qed.

(** ... and the word names the live thread that is inside *)
Theorem C32_guard_word_is_owner : forall s t, g_reach s ->
  g_alive s t = true -> g_pc s t = GIn -> g_word s = t.
Proof. intros s t R A P. destruct (g_reach_inv s R) as (I1 & _). apply I1; auto. rewrite P. exact I. Qed.

(** ... a takeover never removes a live owner: a step that changes the word of a live thread inside
    the critical section is that thread's own step *)
Theorem C32_no_robbery : forall s t u s', g_reach s -> g_trans s (GRun u) s' ->
  g_alive s t = true -> g_pc s t = GIn -> u <> t -> g_word s' = t.
Proof.
  intros s t u s' R T A P Hne.
  assert (R' : g_reach s') by (eapply gr_step; eauto).
  destruct (g_reach_inv s' R') as (I1 & _). inversion T; subst.
  assert (Pc : forall x, x <> u -> g_pc (g_step s u) x = g_pc s x).
  { intros x Hx. unfold g_step. destruct (g_pc s u);
      repeat (match goal with |- context [if ?b then _ else _] => destruct b end); cbn; auto; rewrite upd_neq; auto. }
  assert (Al : g_alive (g_step s u) = g_alive s).
  { unfold g_step. destruct (g_pc s u);
      repeat (match goal with |- context [if ?b then _ else _] => destruct b end); auto. }
  apply I1; [now rewrite Al|]. rewrite Pc by auto. rewrite P. exact I.
Qed.

Example C32_example : let s := g_solo 2 g_init 1 in
  g_reach s /\ g_pc s 1 = GIn /\ g_pc (g_solo 5 s 2) 2 <> GIn.
Proof. cbv zeta. split; [apply g_solo_reach; [constructor|discriminate|reflexivity]|]. split; [reflexivity|]. vm_compute. discriminate. Qed.

(** C33: whenever the holder recorded in the guard is dead, a live thread that calls lock and then
    runs undisturbed is inside after 1005 of its own steps. *)
Theorem C33_dead_holder_does_not_block : forall s t d, g_word s = d -> d <> 0 -> d <> t ->
  g_alive s d = false -> g_pc s t = GIdle ->
  g_pc (g_solo 1005 s t) t = GIn /\ g_word (g_solo 1005 s t) = t.
Proof. exact g_takeover_from_call. Qed.

Example C33_example : exists s, g_reach s /\ g_word s = 1 /\ g_alive s 1 = false /\ g_pc s 2 = GIdle.
Proof.
  exists (mkG 1 (upd (fun _ => true) 1 false) (g_pc (g_solo 2 g_init 1))). split; [|split; [|split]]; try reflexivity.
  eapply gr_step; [apply (g_solo_reach 2 g_init 1); [constructor|discriminate|reflexivity]|].
  apply (g_die (g_solo 2 g_init 1) 1). discriminate.
Qed.

(** ... the word never names a live thread that has left (or has not entered) *)
Theorem C33_word_names_no_outsider : forall s t, g_reach s -> t <> 0 -> g_alive s t = true -> g_word s = t ->
  g_pc s t = GIn \/ exists c o, g_pc s t = GUnlock c o.
Proof.
  intros s t R T A W. pose proof (g_reach_held s R t T A W) as O. pose proof (g_reach_direct s R t A) as D.
  destruct (g_pc s t) eqn:P; cbn in O, D; try contradiction; eauto; exfalso; auto.
Qed.

(** ... leaving takes two own steps, whatever the others did before, and frees the word *)
Theorem C33_unlock_frees : forall s t, g_reach s -> g_alive s t = true -> g_pc s t = GIn ->
  g_pc (g_solo 2 s t) t = GIdle /\ g_word (g_solo 2 s t) = 0.
Proof.
  intros s t R A P. pose proof (C32_guard_word_is_owner s t R A P) as W. cbn [g_solo]. unfold g_step at 2 4. rewrite P.
  unfold g_step; cbn [g_pc g_word g_alive]; rewrite upd_eq; rewrite W, Z.eqb_refl; cbn; rewrite upd_eq; auto.
Qed.

(** ... so whenever no live thread is inside or leaving, a lock call that runs undisturbed gets in *)
Theorem C33_lock_gets_in : forall s t, g_reach s -> t <> 0 -> g_alive s t = true -> g_pc s t = GIdle ->
  (forall u, g_alive s u = true -> g_pc s u <> GIn /\ forall c o, g_pc s u <> GUnlock c o) ->
  exists n, (n <= 1005)%nat /\ g_pc (g_solo n s t) t = GIn /\ g_word (g_solo n s t) = t.
Proof.
  intros s t R T A P F. destruct (Z.eq_dec (g_word s) 0) as [W|W].
  - exists 2%nat. split; [lia|]. cbn [g_solo]. unfold g_step at 2 4. rewrite P.
    unfold g_step; cbn [g_pc g_word g_alive]; rewrite upd_eq; rewrite W; cbn; rewrite upd_eq; auto.
  - exists 1005%nat. split; [lia|].
    assert (OUT : forall u, u <> 0 -> g_alive s u = true -> g_word s <> u).
    { intros u U AU E. destruct (F u AU) as [F1 F2]. destruct (C33_word_names_no_outsider s u R U AU E) as [X|(c & o & X)]; [auto | eapply F2; eauto]. }
    apply C33_dead_holder_does_not_block with (d := g_word s); auto.
    destruct (g_alive s (g_word s)) eqn:G; auto. exfalso. eapply OUT; eauto.
Qed.

Example C33_gets_in_example : let s := g_solo 4 g_init 1 in g_reach s /\ g_pc s 1 = GIdle /\ g_pc (g_solo 2 s 2) 2 = GIn.
Proof. cbv zeta. split; [apply g_solo_reach; [constructor|discriminate|reflexivity]|]. split; reflexivity. Qed.

(** C34 (full statement, false): no reachable state contains a signed overflow of a wait counter. *)
Definition C34_statement : Prop := forall s t, g_reach s -> g_pc s t <> GUB.

(** Witness: a thread keeps waiting for a live holder; the counter is never reset and reaches INT_MAX. *)
Theorem C34_wait_counter_overflow_refuted : ~ C34_statement.
Proof. intro H. destruct g_ub_reachable as (s & R & P). exact (H s 2 R P). Qed.

Print Assumptions C32_guard_mutual_exclusion.
Print Assumptions C32_guard_word_is_owner.
Print Assumptions C32_no_robbery.
Print Assumptions C33_dead_holder_does_not_block.
Print Assumptions C34_wait_counter_overflow_refuted.

Print Assumptions C33_word_names_no_outsider.
Print Assumptions C33_unlock_frees.
Print Assumptions C33_lock_gets_in.
