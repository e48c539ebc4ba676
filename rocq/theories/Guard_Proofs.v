(** Invariant and progress of the list guard. *)
From Coq Require Import ZArith List Bool Lia.
From Verif Require Import Base Guard_Model.
Import ListNotations.
Open Scope Z_scope.

(** the thread owns the word: it is inside, or leaving but not yet released *)
Definition g_owns (p : gpc) : Prop := match p with GIn | GUnlock _ _ | GUnlockProbe _ _ | GUnlockTake _ _ => True | _ => False end.

(** targets of a takeover are dead *)
Definition g_target_dead (s : gstate) (p : gpc) : Prop :=
  match p with GLockTake _ v | GUnlockTake _ v => g_alive s v = false /\ v <> 0
             | GLockProbe _ v | GUnlockProbe _ v => v <> 0 | _ => True end.

Definition g_inv (s : gstate) : Prop :=
  (forall t, g_alive s t = true -> g_owns (g_pc s t) -> g_word s = t) /\
  (forall t, g_alive s t = true -> g_target_dead s (g_pc s t)) /\
  g_alive s 0 = true /\ g_pc s 0 = GIdle.

Lemma g_inv_init : g_inv g_init.
Proof. unfold g_inv, g_init; cbn. repeat split; auto. intros t _ []. Qed.

Lemma g_next_lock : forall c o, g_owns (g_next GLock c o) -> False.
Proof. intros. unfold g_next in *. destruct (c =? INT_MAX); auto. Qed.

Ltac gcase t u := destruct (Z.eq_dec u t) as [->|]; [rewrite ?upd_eq in * | rewrite ?upd_neq in * by assumption].

Lemma g_inv_step : forall s l s', g_inv s -> g_trans s l s' -> g_inv s'.
Proof.
  intros s l s' (I1 & I2 & I3 & I4) T. inversion T as [s0 t Ht Ha|s0 t Ht]; subst; clear T.
  - unfold g_step. pose proof (I1 t Ha) as O. pose proof (fun H : g_owns (g_pc s 0) => I1 0 I3 H) as Z0. rewrite I4 in Z0. pose proof (I2 t Ha) as D.
    destruct (g_pc s t) as [|c o|c o|c o| |c o|c o|c o|] eqn:P; cbn [g_owns g_target_dead] in *;
      repeat match goal with
        | |- context [if ?a =? ?b then _ else _] => destruct (Z.eqb_spec a b)
        | |- context [if ?a <? ?b then _ else _] => destruct (Z.ltb_spec a b)
        | |- context [if negb (?a =? ?b) then _ else _] => destruct (Z.eqb_spec a b); cbn [negb]
        | |- context [if g_alive ?s ?v then _ else _] => destruct (g_alive s v) eqn:?
        | |- context [g_next _ ?c ?o] => unfold g_next
      end; unfold g_inv; cbn [g_word g_alive g_pc]; try subst c;
      (split; [|split; [|split; [assumption|try (rewrite upd_neq by auto); assumption]]]);
      intros u Hu; gcase t u; cbn [g_owns g_target_dead g_alive]; try tauto; try (specialize (I1 u Hu)); try (specialize (I2 u Hu));
      unfold g_target_dead in *; cbn [g_alive] in *; intros;
      repeat match goal with H : True -> _ |- _ => specialize (H I) end;
      try tauto; try congruence;
      try (destruct (g_pc s u); cbn in *; intuition congruence);
      try (rewrite P in *; cbn in *; tauto);
      try (exfalso; assert (u = 0) by (rewrite <- I1 by assumption; assumption); subst u; rewrite I4 in *; assumption).
  - unfold g_inv; cbn [g_word g_alive g_pc]. split; [|split; [|split; [|assumption]]].
    + intros u Hu Ho. gcase t u; [discriminate|]. apply I1; auto.
    + intros u Hu. gcase t u; [discriminate|]. specialize (I2 u Hu).
      destruct (g_pc s u) eqn:P; cbn [g_target_dead g_alive] in *; auto.
      * gcase t old1; intuition.
      * gcase t old1; intuition.
    + rewrite upd_neq by auto. auto.
Qed.

Lemma g_reach_inv : forall s, g_reach s -> g_inv s.
Proof. induction 1; [apply g_inv_init | eapply g_inv_step; eauto]. Qed.

Lemma g_mutex : forall s t u, g_reach s -> g_alive s t = true -> g_alive s u = true ->
  g_pc s t = GIn -> g_pc s u = GIn -> t = u.
Proof.
  intros s t u R Ht Hu Pt Pu. destruct (g_reach_inv s R) as (I1 & _).
  rewrite <- (I1 t Ht), <- (I1 u Hu); rewrite ?Pt, ?Pu; cbn; auto.
Qed.

(** ** Progress after a crash *)

Lemma g_solo_S : forall n s t, g_solo (S n) s t = g_solo n (g_step s t) t.
Proof. reflexivity. Qed.

Lemma g_solo_app : forall n m s t, g_solo (n + m) s t = g_solo m (g_solo n s t) t.
Proof. induction n; cbn; auto. Qed.

(** spinning on the dead owner [d] with counter [c] *)
Definition g_spinning (s : gstate) (t d c : Z) : Prop :=
  g_word s = d /\ d <> 0 /\ d <> t /\ g_alive s d = false /\ g_pc s t = GLock c d.

Lemma g_spin_one : forall s t d c, g_spinning s t d c -> 0 <= c <= TRYLOCK_LIMIT ->
  g_spinning (g_step s t) t d (c + 1).
Proof.
  unfold g_spinning, TRYLOCK_LIMIT. intros s t d c (W & D0 & Dt & Dd & P) Hc.
  unfold g_step. rewrite P, W. rewrite (proj2 (Z.eqb_neq d 0) D0), (proj2 (Z.eqb_neq d t) Dt), Z.eqb_refl.
  cbn [negb]. unfold TRYLOCK_LIMIT. rewrite (proj2 (Z.ltb_ge 1000 c)) by lia.
  unfold g_next. rewrite (proj2 (Z.eqb_neq c INT_MAX)) by (unfold INT_MAX; lia).
  cbn. rewrite upd_eq. auto.
Qed.

Lemma g_spin_many : forall n s t d c, g_spinning s t d c -> 0 <= c -> c + Z.of_nat n <= TRYLOCK_LIMIT + 1 ->
  g_spinning (g_solo n s t) t d (c + Z.of_nat n).
Proof.
  induction n; intros s t d c H Hc Hle.
  - cbn. replace (c + 0) with c by lia. auto.
  - rewrite g_solo_S. replace (c + Z.of_nat (S n)) with ((c + 1) + Z.of_nat n) by lia.
    apply IHn; try lia. apply g_spin_one; auto. lia.
Qed.

Lemma g_spin_take : forall s t d c, g_spinning s t d c -> TRYLOCK_LIMIT < c -> 
  g_pc (g_solo 3 s t) t = GIn /\ g_word (g_solo 3 s t) = t.
Proof.
  unfold g_spinning. intros s t d c (W & D0 & Dt & Dd & P) Hc.
  assert (E1 : g_step s t = mkG d (g_alive s) (upd (g_pc s) t (GLockProbe c d))).
  { unfold g_step. rewrite P, W. rewrite (proj2 (Z.eqb_neq d 0) D0), (proj2 (Z.eqb_neq d t) Dt), Z.eqb_refl.
    cbn [negb]. rewrite (proj2 (Z.ltb_lt _ c)) by lia. reflexivity. }
  cbn [g_solo]. rewrite E1.
  assert (E2 : g_step (mkG d (g_alive s) (upd (g_pc s) t (GLockProbe c d))) t
               = mkG d (g_alive s) (upd (upd (g_pc s) t (GLockProbe c d)) t (GLockTake c d))).
  { unfold g_step. cbn [g_pc g_alive g_word]. rewrite upd_eq, Dd. reflexivity. }
  rewrite E2. unfold g_step. cbn [g_pc g_alive g_word]. rewrite upd_eq, Z.eqb_refl. cbn. rewrite upd_eq. auto.
Qed.

(** from the start of the call with a dead owner: first failed CAS records the owner *)
Lemma g_takeover_from_call : forall s t d, g_word s = d -> d <> 0 -> d <> t -> g_alive s d = false ->
  g_pc s t = GIdle ->
  g_pc (g_solo 1005 s t) t = GIn /\ g_word (g_solo 1005 s t) = t.
Proof.
  intros s t d W D0 Dt Dd P.
  change 1005%nat with (2 + (1000 + 3))%nat. rewrite g_solo_app, g_solo_app.
  set (s2 := g_solo 2 s t).
  assert (S2 : g_spinning s2 t d 1).
  { subst s2. cbn [g_solo].
    assert (E1 : g_step s t = mkG (g_word s) (g_alive s) (upd (g_pc s) t (GLock 0 0))).
    { unfold g_step. now rewrite P. }
    rewrite E1. unfold g_step. cbn [g_pc g_alive g_word]. rewrite upd_eq, W.
    rewrite (proj2 (Z.eqb_neq d 0) D0), (proj2 (Z.eqb_neq d t) Dt). cbn [negb].
    unfold g_next. change (0 =? INT_MAX) with false. cbn.
    unfold g_spinning. cbn. rewrite upd_eq. auto. }
  apply g_spin_take with (d := d) (c := 1001); [|unfold TRYLOCK_LIMIT; lia].
  change 1001 with (1 + Z.of_nat 1000). apply g_spin_many; auto; unfold TRYLOCK_LIMIT; lia.
Qed.

(** ** Unbounded waiting *)

(** waiting on a live owner: after the limit each round costs two steps and increments the counter *)
Lemma g_wait_round : forall s t d c, g_word s = d -> d <> 0 -> d <> t -> g_alive s d = true ->
  g_pc s t = GLock c d -> 0 <= c < INT_MAX -> 
  exists n, let s' := g_solo n s t in
    g_word s' = d /\ g_alive s' = g_alive s /\ g_pc s' t = GLock (c + 1) d /\ (0 < n)%nat.
Proof.
  intros s t d c W D0 Dt Dd P Hc.
  destruct (Z.ltb_spec TRYLOCK_LIMIT c).
  - exists 2%nat. cbn [g_solo].
    assert (E1 : g_step s t = mkG d (g_alive s) (upd (g_pc s) t (GLockProbe c d))).
    { unfold g_step. rewrite P, W. rewrite (proj2 (Z.eqb_neq d 0) D0), (proj2 (Z.eqb_neq d t) Dt), Z.eqb_refl.
      cbn [negb]. rewrite (proj2 (Z.ltb_lt _ c)) by lia. reflexivity. }
    rewrite E1. unfold g_step. cbn [g_pc g_alive g_word]. rewrite upd_eq, Dd.
    unfold g_next. rewrite (proj2 (Z.eqb_neq c INT_MAX)) by lia. cbn. rewrite upd_eq. repeat split; auto.
  - exists 1%nat. cbn [g_solo]. unfold g_step. rewrite P, W.
    rewrite (proj2 (Z.eqb_neq d 0) D0), (proj2 (Z.eqb_neq d t) Dt), Z.eqb_refl. cbn [negb].
    rewrite (proj2 (Z.ltb_ge _ c)) by lia.
    unfold g_next. rewrite (proj2 (Z.eqb_neq c INT_MAX)) by lia. cbn. rewrite upd_eq. repeat split; auto.
Qed.

Lemma g_wait_rounds : forall (k : nat) s t d c, g_word s = d -> d <> 0 -> d <> t -> g_alive s d = true ->
  g_pc s t = GLock c d -> 0 <= c -> c + Z.of_nat k <= INT_MAX ->
  exists n, let s' := g_solo n s t in
    g_word s' = d /\ g_alive s' = g_alive s /\ g_pc s' t = GLock (c + Z.of_nat k) d.
Proof.
  induction k; intros s t d c W D0 Dt Dd P Hc Hle.
  - exists 0%nat. cbn. replace (c + 0) with c by lia. auto.
  - destruct (g_wait_round s t d c) as (n & A & B & C & _); auto; try lia.
    destruct (IHk (g_solo n s t) t d (c + 1)) as (m & A' & B' & C'); auto; try lia.
    { now rewrite B. }
    exists (n + m)%nat. rewrite g_solo_app. cbn zeta. repeat split; auto.
    + congruence.
    + rewrite C'. f_equal. lia.
Qed.

Lemma g_solo_reach : forall n s t, g_reach s -> t <> 0 -> g_alive s t = true -> g_reach (g_solo n s t).
Proof.
  induction n; intros s t R Ht Ha; cbn; auto.
  apply IHn; auto.
  - eapply gr_step; eauto. apply g_run; auto.
  - unfold g_step. destruct (g_pc s t); repeat (match goal with |- context [if ?b then _ else _] => destruct b end); auto.
Qed.

Lemma g_ub_reachable : exists s, g_reach s /\ g_pc s 2 = GUB.
Proof.
  (* thread 1 enters and stays inside; thread 2 waits *)
  set (s1 := g_solo 2 g_init 1).
  assert (R1 : g_reach s1) by (apply g_solo_reach; [constructor|discriminate|reflexivity]).
  set (s2 := g_solo 2 s1 2).
  assert (R2 : g_reach s2) by (apply g_solo_reach; [auto|discriminate|reflexivity]).
  assert (W2 : g_word s2 = 1) by reflexivity.
  assert (A2 : forall x, g_alive s2 x = true) by reflexivity.
  assert (P2 : g_pc s2 2 = GLock 1 1) by reflexivity.
  destruct (g_wait_rounds (Z.to_nat (INT_MAX - 1)) s2 2 1 1) as (n & A & B & C); auto; try lia.
  { rewrite Z2Nat.id; unfold INT_MAX; lia. }
  rewrite Z2Nat.id in C by (unfold INT_MAX; lia).
  set (s3 := g_solo n s2 2) in *.
  assert (R3 : g_reach s3) by (apply g_solo_reach; auto; discriminate).
  exists (g_solo 2 s3 2). split.
  - apply g_solo_reach; auto; [discriminate|]. rewrite B. apply A2.
  - cbn [g_solo].
    assert (E1 : g_step s3 2 = mkG 1 (g_alive s3) (upd (g_pc s3) 2 (GLockProbe INT_MAX 1))).
    { unfold g_step. rewrite C, A. reflexivity. }
    rewrite E1. unfold g_step. cbn [g_pc g_alive g_word]. rewrite upd_eq, B, A2.
    unfold g_next. cbn. reflexivity.
Qed.

(** ** A live holder is inside or leaving *)
Definition g_held (s : gstate) : Prop := forall t, t <> 0 -> g_alive s t = true -> g_word s = t -> g_owns (g_pc s t).

(** a live thread never has to take its own word back: unlock succeeds at its first attempt *)
Definition g_probing (p : gpc) : Prop := match p with GUnlockProbe _ _ | GUnlockTake _ _ => True | _ => False end.
Definition g_direct (s : gstate) : Prop := forall t, g_alive s t = true -> ~ g_probing (g_pc s t).

Lemma g_direct_step : forall s l s', g_inv s -> g_direct s -> g_trans s l s' -> g_direct s'.
Proof.
  intros s l s' (I1 & I2 & _) H T. unfold g_direct in *. inversion T as [s0 t Ht Ha|s0 t Ht]; subst; clear T.
  - pose proof (I1 t Ha) as O. pose proof (H t Ha) as HT. unfold g_step.
    destruct (g_pc s t) as [|c o|c o|c o| |c o|c o|c o|] eqn:P; cbn [g_owns g_probing] in *; try tauto;
      repeat match goal with
        | |- context [if ?a =? ?b then _ else _] => destruct (Z.eqb_spec a b)
        | |- context [if ?a <? ?b then _ else _] => destruct (Z.ltb_spec a b)
        | |- context [if negb (?a =? ?b) then _ else _] => destruct (Z.eqb_spec a b); cbn [negb]
        | |- context [if g_alive ?s ?v then _ else _] => destruct (g_alive s v) eqn:?
        | |- context [g_next _ ?c ?o] => unfold g_next
      end; cbn [g_word g_alive g_pc]; intros u Hu; gcase t u; cbn [g_probing]; auto; try (specialize (O I); congruence).
  - cbn [g_alive g_pc]. intros u Hu. gcase t u; [discriminate|]. auto.
Qed.

Lemma g_held_step : forall s l s', g_inv s -> g_direct s -> g_held s -> g_trans s l s' -> g_held s'.
Proof.
  intros s l s' (I1 & I2 & _) DI H T. unfold g_held in *. inversion T as [s0 t Ht Ha|s0 t Ht]; subst; clear T.
  - pose proof (I1 t Ha) as O. pose proof (I2 t Ha) as D. pose proof (H t Ht Ha) as HT. specialize (DI t Ha). unfold g_step.
    destruct (g_pc s t) as [|c o|c o|c o| |c o|c o|c o|] eqn:P; cbn [g_owns g_target_dead g_probing] in *; try tauto;
      repeat match goal with
        | |- context [if ?a =? ?b then _ else _] => destruct (Z.eqb_spec a b)
        | |- context [if ?a <? ?b then _ else _] => destruct (Z.ltb_spec a b)
        | |- context [if negb (?a =? ?b) then _ else _] => destruct (Z.eqb_spec a b); cbn [negb]
        | |- context [if g_alive ?s ?v then _ else _] => destruct (g_alive s v) eqn:?
        | |- context [g_next _ ?c ?o] => unfold g_next
      end; cbn [g_word g_alive g_pc]; intros u U0 Hu W; gcase t u; cbn [g_owns]; auto;
      try (rewrite W in *); try tauto; try congruence; try (apply H; auto; congruence);
      repeat match goal with H : True -> _ |- _ => specialize (H I) end; try tauto; try congruence;
      try (rewrite <- O in W by auto; congruence).
  - cbn [g_word g_alive g_pc]. intros u U0 Hu W. gcase t u; [discriminate|]. auto.
Qed.

Lemma g_reach_direct : forall s, g_reach s -> g_direct s.
Proof. induction 1; [intros t _ []|]. eapply g_direct_step; eauto. now apply g_reach_inv. Qed.

Lemma g_reach_held : forall s, g_reach s -> g_held s.
Proof.
  induction 1; [intros t T0 _ W; cbn in W; congruence|]. eapply g_held_step; eauto; [now apply g_reach_inv | now apply g_reach_direct].
Qed.
