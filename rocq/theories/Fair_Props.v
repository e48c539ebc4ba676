(** C129, C130: waiting for ever in fair executions. *)
From Coq Require Import ZArith List Bool Lia PeanoNat.
From Verif Require Import Base Mutex_Model Mutex_Proofs Mutex_Proofs2 RwWord_Model Fair_Spec.
Import ListNotations.
Open Scope Z_scope.

(** ** C129: while holders unlock and the scheduler is fair, a blocking lock call gets the mutex *)
Definition C129_statement : Prop := forall sched, m_legal sched -> m_deathless sched -> m_fair sched -> m_polite sched ->
  forall n t, m_waiting (m_at sched n) t -> exists k, (n <= k)%nat /\ m_own (m_at sched k) t = true.

Lemma at_exec : forall sched ls n, (forall i, (i < length ls)%nat -> sched (n + i)%nat = nth i ls (MDie 0)) ->
  m_at sched (n + length ls) = m_exec (m_at sched n) ls.
Proof.
  intros sched ls. induction ls as [|l ls IH]; intros n H; cbn [length m_exec]; [f_equal; lia|].
  replace (n + S (length ls))%nat with (S n + length ls)%nat by lia. rewrite IH.
  - cbn [m_at]. f_equal. f_equal. specialize (H 0%nat). rewrite Nat.add_0_r in H. apply H. cbn. lia.
  - intros i L. replace (S n + i)%nat with (n + S i)%nat by lia. rewrite H by (cbn; lia). reflexivity.
Qed.

(** thread 2 holds the mutex; thread 1 looks, 2 unlocks and locks again *)
Definition pre129 : list mlabel := [MCall 2 (CLock MBlock); MRun 2 true; MRun 2 true; MRun 2 true; MCall 1 (CLock MBlock)].
Definition cyc129 : list mlabel := [MRun 1 true; MRun 1 true; MCall 2 Mutex_Model.CUnlock; MRun 2 true; MRun 2 true; MRun 2 true; MRun 2 true; MRun 2 true; MRun 2 true;
  MCall 2 (CLock MBlock); MRun 2 true; MRun 2 true; MRun 2 true].
Definition sched129 (n : nat) : mlabel := if (n <? 5)%nat then nth n pre129 (MDie 0) else nth ((n - 5) mod 13) cyc129 (MDie 0).
(** what the schedule looks at *)
Definition view (s : mstate) := (m_val s, m_cnt s, m_guard s, (m_pc s 1, m_pc s 2), (m_own s 1, m_own s 2)).
Definition quiet129 (s : mstate) : Prop := (forall t, m_alive s t = true) /\ (forall t, t <> 1 -> t <> 2 -> m_pc s t = MIdle /\ m_own s t = false).
Ltac one129 := match goal with |- forall s, quiet129 s -> view s = _ -> _ => let E := fresh "E" in let E1 := fresh "E1" in let E2 := fresh "E2" in let E3 := fresh "E3" in let E4 := fresh "E4" in
  let E5 := fresh "E5" in let E6 := fresh "E6" in let E7 := fresh "E7" in
  intros [va cn gu al pc ow de re] [A Q] E; unfold view in E; cbn in E, A, Q; injection E as E1 E2 E3 E4 E5 E6 E7; subst va cn gu;
  unfold m_step, m_call, m_run; cbn [m_pc m_val m_cnt m_guard m_alive m_own m_depth m_res]; rewrite ?E4, ?E5;
  unfold m_take_guard, m_drop_guard, m_unlock_end, m_failed, m_locked, m_unlocked, m_return, m_goto, m_set;
  cbn [m_pc m_val m_cnt m_guard m_alive m_own m_depth m_res Z.eqb Pos.eqb Z.leb Z.compare Z.add Z.sub orb andb negb Z.ltb Pos.compare Z.opp Pos.add OK]; 
  (split; [split; [intro t; apply A | intros t N1 N2; cbn; rewrite ?upd_neq by auto; apply Q; auto] | unfold view; cbn; unfold upd; cbn; rewrite ?E4, ?E5, ?E6, ?E7; reflexivity]) end.
Definition v0 := (2, 1, 0, (MRead MBlock, MIdle), (false, true)).
Lemma c0 : forall s, quiet129 s -> view s = v0 -> quiet129 (m_step s (MRun 1 true)) /\ view (m_step s (MRun 1 true)) = (2, 1, 0, (MCas MBlock, MIdle), (false, true)).
Proof. unfold v0. one129. Qed.
Lemma c1 : forall s, quiet129 s -> view s = (2, 1, 0, (MCas MBlock, MIdle), (false, true)) -> quiet129 (m_step s (MRun 1 true)) /\ view (m_step s (MRun 1 true)) = v0.
Proof. one129. Qed.
Lemma c2 : forall s, quiet129 s -> view s = v0 -> quiet129 (m_step s (MCall 2 Mutex_Model.CUnlock)) /\ view (m_step s (MCall 2 Mutex_Model.CUnlock)) = (2, 1, 0, (MRead MBlock, MUGuard), (false, false)).
Proof. unfold v0. one129. Qed.
Lemma c3 : forall s, quiet129 s -> view s = (2, 1, 0, (MRead MBlock, MUGuard), (false, false)) -> quiet129 (m_step s (MRun 2 true)) /\ view (m_step s (MRun 2 true)) = (2, 1, 2, (MRead MBlock, MU0 true), (false, false)).
Proof. one129. Qed.
Lemma c4 : forall s, quiet129 s -> view s = (2, 1, 2, (MRead MBlock, MU0 true), (false, false)) -> quiet129 (m_step s (MRun 2 true)) /\ view (m_step s (MRun 2 true)) = (2, 1, 2, (MRead MBlock, MU1 true), (false, false)).
Proof. one129. Qed.
Lemma c5 : forall s, quiet129 s -> view s = (2, 1, 2, (MRead MBlock, MU1 true), (false, false)) -> quiet129 (m_step s (MRun 2 true)) /\ view (m_step s (MRun 2 true)) = (2, 1, 2, (MRead MBlock, MU2 true), (false, false)).
Proof. one129. Qed.
Lemma c6 : forall s, quiet129 s -> view s = (2, 1, 2, (MRead MBlock, MU2 true), (false, false)) -> quiet129 (m_step s (MRun 2 true)) /\ view (m_step s (MRun 2 true)) = (2, 0, 2, (MRead MBlock, MU4 true), (false, false)).
Proof. one129. Qed.
Lemma c7 : forall s, quiet129 s -> view s = (2, 0, 2, (MRead MBlock, MU4 true), (false, false)) -> quiet129 (m_step s (MRun 2 true)) /\ view (m_step s (MRun 2 true)) = (0, 0, 2, (MRead MBlock, MURel 0), (false, false)).
Proof. one129. Qed.
Lemma c8 : forall s, quiet129 s -> view s = (0, 0, 2, (MRead MBlock, MURel 0), (false, false)) -> quiet129 (m_step s (MRun 2 true)) /\ view (m_step s (MRun 2 true)) = (0, 0, 0, (MRead MBlock, MIdle), (false, false)).
Proof. one129. Qed.
Lemma c9 : forall s, quiet129 s -> view s = (0, 0, 0, (MRead MBlock, MIdle), (false, false)) -> quiet129 (m_step s (MCall 2 (CLock MBlock))) /\ view (m_step s (MCall 2 (CLock MBlock))) = (0, 0, 0, (MRead MBlock, MRead MBlock), (false, false)).
Proof. one129. Qed.
Lemma c10 : forall s, quiet129 s -> view s = (0, 0, 0, (MRead MBlock, MRead MBlock), (false, false)) -> quiet129 (m_step s (MRun 2 true)) /\ view (m_step s (MRun 2 true)) = (0, 0, 0, (MRead MBlock, MCas MBlock), (false, false)).
Proof. one129. Qed.
Lemma c11 : forall s, quiet129 s -> view s = (0, 0, 0, (MRead MBlock, MCas MBlock), (false, false)) -> quiet129 (m_step s (MRun 2 true)) /\ view (m_step s (MRun 2 true)) = (2, 0, 0, (MRead MBlock, MAdd2 MBlock), (false, false)).
Proof. one129. Qed.
Lemma c12 : forall s, quiet129 s -> view s = (2, 0, 0, (MRead MBlock, MAdd2 MBlock), (false, false)) -> quiet129 (m_step s (MRun 2 true)) /\ view (m_step s (MRun 2 true)) = v0.
Proof. one129. Qed.
Definition views129 := [v0; (2, 1, 0, (MCas MBlock, MIdle), (false, true)); v0; (2, 1, 0, (MRead MBlock, MUGuard), (false, false));
  (2, 1, 2, (MRead MBlock, MU0 true), (false, false)); (2, 1, 2, (MRead MBlock, MU1 true), (false, false)); (2, 1, 2, (MRead MBlock, MU2 true), (false, false));
  (2, 0, 2, (MRead MBlock, MU4 true), (false, false)); (0, 0, 2, (MRead MBlock, MURel 0), (false, false)); (0, 0, 0, (MRead MBlock, MIdle), (false, false));
  (0, 0, 0, (MRead MBlock, MRead MBlock), (false, false)); (0, 0, 0, (MRead MBlock, MCas MBlock), (false, false)); (2, 0, 0, (MRead MBlock, MAdd2 MBlock), (false, false)); v0].
Lemma chain129 : forall s, quiet129 s -> view s = v0 -> forall j, (j <= 13)%nat ->
  quiet129 (m_exec s (firstn j cyc129)) /\ view (m_exec s (firstn j cyc129)) = nth j views129 v0.
Proof.
  intros s Q V. destruct (c0 s Q V) as [Q1 V1]. destruct (c1 _ Q1 V1) as [Q2 V2]. destruct (c2 _ Q2 V2) as [Q3 V3]. destruct (c3 _ Q3 V3) as [Q4 V4].
  destruct (c4 _ Q4 V4) as [Q5 V5]. destruct (c5 _ Q5 V5) as [Q6 V6]. destruct (c6 _ Q6 V6) as [Q7 V7]. destruct (c7 _ Q7 V7) as [Q8 V8].
  destruct (c8 _ Q8 V8) as [Q9 V9]. destruct (c9 _ Q9 V9) as [Q10 V10]. destruct (c10 _ Q10 V10) as [Q11 V11]. destruct (c11 _ Q11 V11) as [Q12 V12].
  destruct (c12 _ Q12 V12) as [Q13 V13]. intros j L.
  do 14 (destruct j as [|j]; [unfold cyc129, views129; cbn [firstn m_exec nth]; split; assumption|]). lia.
Qed.
Lemma sched129_cycle : forall k i, (i < 13)%nat -> sched129 (5 + 13 * k + i) = nth i cyc129 (MDie 0).
Proof.
  intros k i L. unfold sched129. replace ((5 + 13 * k + i <? 5)%nat) with false by (symmetry; apply Nat.ltb_ge; lia).
  replace (5 + 13 * k + i - 5)%nat with (i + k * 13)%nat by lia. rewrite Nat.mod_add by lia. rewrite Nat.mod_small by lia. reflexivity.
Qed.
Lemma at129 : forall k, quiet129 (m_at sched129 (5 + 13 * k)) /\ view (m_at sched129 (5 + 13 * k)) = v0.
Proof.
  induction k as [|k [Q V]].
  - split; [split; [intro t; reflexivity|] | reflexivity]. intros t N1 N2. cbn. unfold upd.
    destruct (Z.eqb_spec t 1); [contradiction|]. destruct (Z.eqb_spec t 2); [contradiction|]. split; reflexivity.
  - destruct (chain129 _ Q V 13%nat (le_n _)) as [Q' V']. change (firstn 13 cyc129) with cyc129 in *.
    rewrite <- (at_exec sched129 cyc129) in Q', V' by (intros i L; apply sched129_cycle; exact L).
    replace (5 + 13 * S k)%nat with (5 + 13 * k + length cyc129)%nat by (change (length cyc129) with 13%nat; lia). split; assumption.
Qed.
Lemma at129_j : forall k j, (j <= 13)%nat -> quiet129 (m_at sched129 (5 + 13 * k + j)) /\ view (m_at sched129 (5 + 13 * k + j)) = nth j views129 v0.
Proof.
  intros k j L. destruct (at129 k) as [Q V]. destruct (chain129 _ Q V j L) as [Q' V'].
  assert (E : length (firstn j cyc129) = j) by (apply firstn_length_le; exact L).
  pose proof (at_exec sched129 (firstn j cyc129) (5 + 13 * k)) as X. rewrite E in X. rewrite X.
  - split; assumption.
  - intros i Li. rewrite sched129_cycle by lia. rewrite <- (firstn_skipn j cyc129) at 1. apply app_nth1. rewrite E. exact Li.
Qed.
Lemma split129 : forall n, (n < 5)%nat \/ exists k j, (j < 13)%nat /\ n = (5 + 13 * k + j)%nat.
Proof.
  intro n. destruct (Nat.lt_ge_cases n 5) as [L|G]; auto. right. exists ((n - 5) / 13)%nat, ((n - 5) mod 13)%nat.
  pose proof (Nat.mod_upper_bound (n - 5) 13). pose proof (Nat.div_mod (n - 5) 13). lia.
Qed.
Lemma cyc_labels : forall j, (j < 13)%nat -> nth j cyc129 (MDie 0) = MRun 1 true \/ nth j cyc129 (MDie 0) = MRun 2 true \/
  nth j cyc129 (MDie 0) = MCall 2 Mutex_Model.CUnlock \/ nth j cyc129 (MDie 0) = MCall 2 (CLock MBlock).
Proof. intros j L. do 13 (destruct j as [|j]; [cbn; auto|]). lia. Qed.
Lemma legal129 : m_legal sched129.
Proof.
  intro n. destruct (split129 n) as [L|(k & j & L & ->)].
  - do 5 (destruct n as [|n]; [cbn; split; [lia | reflexivity]|]). lia.
  - destruct (at129_j k j) as [[A _] _]; [lia|]. rewrite sched129_cycle by exact L.
    destruct (cyc_labels j L) as [E|[E|[E|E]]]; rewrite E; cbn; split; auto; lia.
Qed.
Lemma deathless129 : m_deathless sched129.
Proof.
  intros n t. destruct (split129 n) as [L|(k & j & L & ->)].
  - do 5 (destruct n as [|n]; [cbn; discriminate|]). lia.
  - rewrite sched129_cycle by exact L. destruct (cyc_labels j L) as [E|[E|[E|E]]]; rewrite E; discriminate.
Qed.
Lemma view_eq : forall s a b c p q x y, view s = (a, b, c, (p, q), (x, y)) -> m_own s 1 = x /\ m_own s 2 = y /\ m_pc s 2 = q /\ m_pc s 1 = p /\ m_val s = a.
Proof. intros s a b c p q x y H. unfold view in H. injection H as H5 _ _ H4 H1 H2 H3. auto. Qed.
Lemma fair129 : m_fair sched129.
Proof.
  intros n t H k L. destruct (Z.eq_dec t 1) as [->|N1].
  - exists (5 + 13 * k + 0)%nat, true. split; [lia|]. apply (sched129_cycle k 0). lia.
  - exfalso. destruct (at129 n) as [[_ Q] V]. apply (H (5 + 13 * n)%nat); [lia|]. destruct (Z.eq_dec t 2) as [->|N2].
    + apply (view_eq _ _ _ _ _ _ _ _ V).
    + apply Q; assumption.
Qed.
Lemma polite129 : m_polite sched129.
Proof.
  intros n t _. exists (5 + 13 * n + 3)%nat. split; [lia|]. destruct (at129_j n 3) as [[_ Q] V]; [lia|]. cbn [nth views129] in V.
  destruct (view_eq _ _ _ _ _ _ _ _ V) as (V1 & V2 & _).
  destruct (Z.eq_dec t 1) as [->|N1]; [exact V1|]. destruct (Z.eq_dec t 2) as [->|N2]; [exact V2|]. apply Q; assumption.
Qed.
Lemma own129 : forall n, m_own (m_at sched129 n) 1 = false.
Proof.
  intro n. destruct (split129 n) as [L|(k & j & L & ->)].
  - do 5 (destruct n as [|n]; [reflexivity|]). lia.
  - destruct (at129_j k j) as [_ V]; [lia|]. do 13 (destruct j as [|j]; [exact (proj1 (view_eq _ _ _ _ _ _ _ _ V))|]). lia.
Qed.
Theorem C129_waiter_served_refuted : ~ C129_statement.
Proof.
  intro H. destruct (H sched129 legal129 deathless129 fair129 polite129 5%nat 1) as (k & _ & E); [left; reflexivity|]. rewrite own129 in E. discriminate.
Qed.

(** the strongest part: who waits for ever is overtaken for ever *)
Lemma changes : forall (f : nat -> Z) a b, (a <= b)%nat -> f a = 0 -> f b <> 0 -> exists c, (a <= c < b)%nat /\ f c = 0 /\ f (S c) <> 0.
Proof.
  intros f a b L A B. induction b as [|b IH]; [replace a with 0%nat in A by lia; contradiction|].
  destruct (Nat.eq_dec a (S b)) as [->|N]; [contradiction|]. destruct (Z.eq_dec (f b) 0) as [E|E].
  - exists b. split; [lia|]. auto.
  - destruct IH as (c & C & D); auto; [lia|]. exists c. split; [lia|]. exact D.
Qed.

Lemma decide_range : forall (f : nat -> Z) a n, (forall i, (a <= i < a + n)%nat -> f i = 0) \/ exists i, (a <= i < a + n)%nat /\ f i <> 0.
Proof.
  intros f a n. induction n as [|n [IH|(i & I & J)]].
  - left. intros i L. lia.
  - destruct (Z.eq_dec (f (a + n)%nat) 0) as [E|E]; [left | right; exists (a + n)%nat; split; [lia | exact E]].
    intros i L. destruct (Nat.eq_dec i (a + n)) as [->|N]; auto. apply IH. lia.
  - right. exists i. split; [lia | exact J].
Qed.
Lemma step_val : forall s l, m_val (m_step s l) = m_val s \/ m_val (m_step s l) = 0 \/
  exists u b k, l = MRun u b /\ m_pc s u = MCas k /\ m_val (m_step s l) = u /\ m_pc (m_step s l) u = MAdd2 k.
Proof.
  intros s l. destruct l as [u c|u b|u]; cbn [m_step].
  - left. unfold m_call. destruct (m_pc s u); auto. destruct c; reflexivity.
  - unfold m_run. destruct (m_pc s u) as [ | k | k | k | k | k | k | | g | g | g | g old | g | g | r | ret | ret | ret v | ret | ret c | ret | ret v | ret ] eqn:Ep; auto.
    5:{ destruct (m_val s =? 0); [|left; unfold m_failed; destruct k, b; reflexivity].
        right. right. exists u, b, k. cbn. rewrite upd_eq. auto. }
    all: unfold m_take_guard, m_drop_guard, m_unlock_end, m_failed, m_locked, m_unlocked, m_return, m_goto, m_set;
      repeat (match goal with
              | |- context [if ?c then _ else _] => destruct c
              | |- context [match ?x with _ => _ end] => is_var x; destruct x
              end; cbn [m_val]; auto).
  - left. reflexivity.
Qed.
Lemma pc_frame : forall s l t, (forall b, l <> MRun t b) -> m_pc s t <> MIdle -> m_pc (m_step s l) t = m_pc s t.
Proof.
  intros s l t N W. destruct l as [u c|u b|u]; cbn [m_step]; auto.
  - unfold m_call. destruct (m_pc s u) eqn:E; auto. assert (t <> u) by (intro; subst; contradiction).
    destruct c; cbn; rewrite upd_neq by auto; reflexivity.
  - destruct (Z.eq_dec u t) as [->|M]; [exfalso; eapply N; reflexivity|]. destruct (run_other s u t b) as [E _]; auto.
Qed.
Lemma waits_look : forall s t b, t <> 0 -> m_val s = 0 -> m_waiting s t -> m_waiting (m_step s (MRun t b)) t -> m_pc s t = MRead MBlock /\ m_pc (m_step s (MRun t b)) t = MCas MBlock.
Proof.
  intros s t b T V [E|E] W; unfold m_step, m_run, m_waiting in *; rewrite E in *; rewrite V in *.
  - destruct (Z.eqb_spec 0 t); [congruence|]. cbn. rewrite upd_eq. auto.
  - exfalso. cbn in W. rewrite upd_eq in W. destruct W; discriminate.
Qed.
Theorem C129_overtaken_for_ever_partial : forall sched n t, m_legal sched -> m_fair sched ->
  (forall k, (n <= k)%nat -> m_waiting (m_at sched k) t) ->
  (forall k, exists j, (k <= j)%nat /\ m_val (m_at sched j) = 0) ->
  forall k, exists j u, (k <= j)%nat /\ m_taken sched j u /\ u <> t.
Proof.
  intros sched n t LG F W Z k.
  destruct (Z (Nat.max n k)) as (j0 & L0 & V0).
  assert (NI : forall i, (n <= i)%nat -> m_pc (m_at sched i) t <> MIdle) by (intros i Li; destruct (W i Li) as [->| ->]; discriminate).
  destruct (F n t NI j0) as (j1 & b1 & L1 & R1); [lia|]. destruct (F n t NI (S j1)) as (j2 & b2 & L2 & R2); [lia|].
  assert (T0 : t <> 0) by (specialize (LG j1); rewrite R1 in LG; apply LG).
  assert (X : exists i, (j0 <= i)%nat /\ m_val (m_at sched i) <> 0).
  { destruct (decide_range (fun i => m_val (m_at sched i)) j0 (S j2 - j0)) as [A|(i & I & J)]; [|exists i; split; [lia | exact J]].
    exfalso. assert (A' : forall i, (j0 <= i <= j2)%nat -> m_val (m_at sched i) = 0) by (intros i Li; apply A; lia). clear A.
    assert (P : forall d, (S j1 + d <= j2)%nat -> m_pc (m_at sched (S j1 + d)) t = MCas MBlock).
    { induction d as [|d IH]; intro Ld.
      - rewrite Nat.add_0_r. cbn [m_at]. rewrite R1. apply waits_look; auto; [apply A'; lia | apply W; lia |].
        specialize (W (S j1)). cbn [m_at] in W. rewrite R1 in W. apply W. lia.
      - rewrite Nat.add_succ_r. specialize (IH ltac:(lia)). cbn [m_at].
        destruct (sched (S j1 + d)%nat) as [u c|u b|u] eqn:R; [| |rewrite pc_frame; auto; [discriminate | rewrite IH; discriminate]].
        + rewrite pc_frame; auto; [discriminate | rewrite IH; discriminate].
        + destruct (Z.eq_dec u t) as [->|N]; [|rewrite pc_frame; auto; [intros b' E; inversion E; congruence | rewrite IH; discriminate]].
          exfalso. destruct (waits_look (m_at sched (S j1 + d)) t b T0) as [E _]; [apply A'; lia | apply W; lia | |congruence].
          specialize (W (S (S j1 + d))). cbn [m_at] in W. rewrite R in W. apply W. lia. }
    specialize (P (j2 - S j1)%nat ltac:(lia)). replace (S j1 + (j2 - S j1))%nat with j2 in P by lia.
    destruct (waits_look (m_at sched j2) t b2 T0) as [E _]; [apply A'; lia | apply W; lia | |congruence].
    specialize (W (S j2)). cbn [m_at] in W. rewrite R2 in W. apply W. lia. }
  destruct X as (i & Li & Vi). destruct (changes (fun x => m_val (m_at sched x)) j0 i Li V0 Vi) as (c & Lc & Vc & Vs).
  exists c, (m_val (m_at sched (S c))). split; [lia|]. split; [split; [exact Vc | split; [reflexivity | exact Vs]]|].
  intro E. cbn [m_at] in *. destruct (step_val (m_at sched c) (sched c)) as [D|[D|(u & b & q & D & P1 & P2 & P3)]]; try congruence.
  assert (U : u = t) by congruence. rewrite U in P3. specialize (W (S c) ltac:(lia)). cbn [m_at] in W. unfold m_waiting in W. rewrite P3 in W. destruct W; discriminate.
Qed.
Example C129_case : m_legal sched129 /\ m_fair sched129 /\ (forall k, (5 <= k)%nat -> m_waiting (m_at sched129 k) 1) /\
  (forall k, exists j, (k <= j)%nat /\ m_val (m_at sched129 j) = 0).
Proof.
  split; [exact legal129|]. split; [exact fair129|]. split.
  - intros k L. destruct (split129 k) as [L'|(q & j & Lj & ->)]; [lia|]. destruct (at129_j q j) as [_ V]; [lia|].
    do 13 (destruct j as [|j]; [destruct (view_eq _ _ _ _ _ _ _ _ V) as (_ & _ & _ & P & _); unfold m_waiting; rewrite P; auto|]). lia.
  - intro k. exists (5 + 13 * k + 9)%nat. split; [lia|]. destruct (at129_j k 9) as [_ V]; [lia|]. apply (view_eq _ _ _ _ _ _ _ _ V).
Qed.

(** ** C130: while holders unlock and the scheduler is fair, who keeps asking for a read/write lock gets it *)
Definition C130_statement : Prop := forall sched, w_fair sched -> w_polite sched ->
  forall a r, keeps_asking sched a r -> exists k, w_holds (w_at sched k) a.

(** readers 1 and 2 hold the lock in turn, each taking it before the other gives it back; the writer 3 asks in between *)
Definition pre130 : list wlabel := [WCall 1 (CRd KTry); WRun 1 false; WRun 1 false].
Definition cyc130 : list wlabel :=
  [WCall 3 (CWr (KBlock 0 0)); WRun 3 false; WCall 2 (CRd KTry); WRun 2 false; WRun 2 false; WCall 1 RwWord_Model.CUnlock; WRun 1 false; WRun 1 false;
   WCall 3 (CWr (KBlock 0 0)); WRun 3 false; WCall 1 (CRd KTry); WRun 1 false; WRun 1 false; WCall 2 RwWord_Model.CUnlock; WRun 2 false; WRun 2 false].
Definition dw := WRun 0 false.
Definition cyclic (pre cyc : list wlabel) (n : nat) : wlabel :=
  if (n <? length pre)%nat then nth n pre dw else nth ((n - length pre) mod length cyc) cyc dw.
Section Cycle.
Variables (pre cyc : list wlabel) (V : nat -> wstate -> Prop).
Hypothesis C0 : (0 < length cyc)%nat.
Hypothesis base : V 0 (w_at (cyclic pre cyc) (length pre)).
Hypothesis next : forall j s, (j < length cyc)%nat -> V j s -> V (S j) (w_step s (nth j cyc dw)).
Hypothesis wrap : forall s, V (length cyc) s -> V 0 s.
Lemma cyclic_at : forall k i, (i < length cyc)%nat -> cyclic pre cyc (length pre + length cyc * k + i) = nth i cyc dw.
Proof.
  intros k i L. unfold cyclic. replace ((length pre + length cyc * k + i <? length pre)%nat) with false by (symmetry; apply Nat.ltb_ge; lia).
  replace (length pre + length cyc * k + i - length pre)%nat with (i + k * length cyc)%nat by lia. rewrite Nat.mod_add by lia. rewrite Nat.mod_small by lia. reflexivity.
Qed.
Lemma cyclic_from : forall k, V 0 (w_at (cyclic pre cyc) (length pre + length cyc * k)) ->
  forall j, (j <= length cyc)%nat -> V j (w_at (cyclic pre cyc) (length pre + length cyc * k + j)).
Proof.
  intros k Q. induction j as [|j IH]; intro L; [rewrite Nat.add_0_r; auto|]. rewrite Nat.add_succ_r.
  cbn [w_at]. rewrite cyclic_at by lia. apply next; [lia|]. apply IH. lia.
Qed.
Lemma cyclic_start : forall k, V 0 (w_at (cyclic pre cyc) (length pre + length cyc * k)).
Proof.
  induction k as [|k IH]; [rewrite Nat.mul_0_r, Nat.add_0_r; exact base|].
  replace (length pre + length cyc * S k)%nat with (length pre + length cyc * k + length cyc)%nat by lia. apply wrap. apply cyclic_from; auto.
Qed.
Lemma cyclic_all : forall k j, (j <= length cyc)%nat -> V j (w_at (cyclic pre cyc) (length pre + length cyc * k + j)).
Proof. intros k j L. apply cyclic_from; auto. apply cyclic_start. Qed.
Lemma cyclic_split : forall n, (n < length pre)%nat \/ exists k j, (j < length cyc)%nat /\ n = (length pre + length cyc * k + j)%nat.
Proof.
  intro n. destruct (Nat.lt_ge_cases n (length pre)) as [L|G]; auto. right. exists ((n - length pre) / length cyc)%nat, ((n - length pre) mod length cyc)%nat.
  pose proof (Nat.mod_upper_bound (n - length pre) (length cyc)). pose proof (Nat.div_mod (n - length pre) (length cyc)). lia.
Qed.
End Cycle.
Definition sched130 : nat -> wlabel := cyclic pre130 cyc130.
Definition wview (s : wstate) := (w_val s, w_pc s 1, w_pc s 2, w_pc s 3).
Definition wquiet (s : wstate) : Prop := forall t, t <> 1 -> t <> 2 -> t <> 3 -> w_pc s t = WIdle.
Definition seen (views : list (Z * wpc * wpc * wpc)) (j : nat) (s : wstate) : Prop := wquiet s /\ wview s = nth j views (0, WIdle, WIdle, WIdle).
Ltac wgo := 
  match goal with |- forall j s, (j < ?n)%nat -> seen ?views j s -> _ => 
    let j := fresh "j" in let L := fresh "L" in let v := fresh "v" in let pc := fresh "pc" in let re := fresh "re" in let Q := fresh "Q" in let V := fresh "V" in
    let V1 := fresh "V1" in let V2 := fresh "V2" in let V3 := fresh "V3" in let V4 := fresh "V4" in
    let t := fresh "t" in let N1 := fresh "N1" in let N2 := fresh "N2" in let N3 := fresh "N3" in
    intros j [v pc re] L [Q V]; cbn in L; unfold seen, wquiet, wview in *; cbn [w_val w_pc] in *;
    do 16 (destruct j as [|j];
    [unfold views in V; cbn [nth] in V; injection V as V1 V2 V3 V4; subst v;
     cbn [nth w_step]; unfold w_call, w_run; cbn [w_val w_pc w_res]; rewrite ?V2, ?V3, ?V4;
     unfold w_goto, w_loop_head, w_failed, RW_UNLOCK, RW_WLOCK; cbn;
     (split; [intros t N1 N2 N3; rewrite ?upd_neq by auto; apply Q; auto | unfold upd; cbn; rewrite ?V2, ?V3, ?V4; reflexivity])|try (exfalso; lia)]); exfalso; lia
  end.
Definition wviews : list (Z * wpc * wpc * wpc) :=
  [(1, WHold Rd, WIdle, WIdle); (1, WHold Rd, WIdle, WWrCas (KBlock 0 1)); (1, WHold Rd, WIdle, WIdle); (1, WHold Rd, WRdRead KTry, WIdle); (1, WHold Rd, WRdCas KTry 1, WIdle); (2, WHold Rd, WHold Rd, WIdle);
   (2, WUnRead Rd, WHold Rd, WIdle); (2, WUnCas Rd 2 1, WHold Rd, WIdle); (1, WIdle, WHold Rd, WIdle); (1, WIdle, WHold Rd, WWrCas (KBlock 0 1)); (1, WIdle, WHold Rd, WIdle);
   (1, WRdRead KTry, WHold Rd, WIdle); (1, WRdCas KTry 1, WHold Rd, WIdle); (2, WHold Rd, WHold Rd, WIdle); (2, WHold Rd, WUnRead Rd, WIdle); (2, WHold Rd, WUnCas Rd 2 1, WIdle); (1, WHold Rd, WIdle, WIdle)].
Lemma wone : forall j s, (j < length cyc130)%nat -> seen wviews j s -> seen wviews (S j) (w_step s (nth j cyc130 dw)).
Proof. unfold cyc130. wgo. Qed.
Lemma at130_j : forall k j, (j <= 16)%nat -> wquiet (w_at sched130 (3 + 16 * k + j)) /\ wview (w_at sched130 (3 + 16 * k + j)) = nth j wviews (0, WIdle, WIdle, WIdle).
Proof.
  apply (cyclic_all pre130 cyc130 (seen wviews)); [cbn; lia | | exact wone | intros s H; exact H].
  split; [|reflexivity]. intros t N1 N2 N3. cbn. unfold upd. destruct (Z.eqb_spec t 1); [contradiction | reflexivity].
Qed.
Lemma at130 : forall k, wquiet (w_at sched130 (3 + 16 * k)) /\ wview (w_at sched130 (3 + 16 * k)) = (1, WHold Rd, WIdle, WIdle).
Proof. intro k. pose proof (at130_j k 0) as H. rewrite Nat.add_0_r in H. apply H. lia. Qed.
Lemma wview_eq : forall s v a b c, wview s = (v, a, b, c) -> w_val s = v /\ w_pc s 1 = a /\ w_pc s 2 = b /\ w_pc s 3 = c.
Proof. intros s v a b c H. unfold wview in H. injection H as H1 H2 H3 H4. auto. Qed.
Lemma fair130 : w_fair sched130.
Proof.
  intros n a H. exfalso. destruct (at130 n) as [Q V]. destruct (wview_eq _ _ _ _ _ V) as (_ & V1 & V2 & V3).
  destruct (H (3 + 16 * n)%nat) as [I N]; [lia|]. destruct (Z.eq_dec a 1) as [->|N1]; [apply N; exists Rd; exact V1|].
  destruct (Z.eq_dec a 2) as [->|N2]; [contradiction|]. destruct (Z.eq_dec a 3) as [->|N3]; [contradiction|]. apply I. apply Q; auto.
Qed.
Lemma polite130 : w_polite sched130.
Proof.
  intros n a _. destruct (Z.eq_dec a 1) as [->|N1].
  - exists (3 + 16 * n + 8)%nat. split; [lia|]. destruct (at130_j n 8) as [_ V]; [lia|]. destruct (wview_eq _ _ _ _ _ V) as (_ & E & _). intros [r H]. rewrite E in H. discriminate.
  - exists (3 + 16 * n)%nat. split; [lia|]. destruct (at130 n) as [Q V]. destruct (wview_eq _ _ _ _ _ V) as (_ & _ & V2 & V3). intros [r H].
    destruct (Z.eq_dec a 2) as [->|N2]; [rewrite V2 in H; discriminate|]. destruct (Z.eq_dec a 3) as [->|N3]; [rewrite V3 in H; discriminate|].
    rewrite Q in H by auto. discriminate.
Qed.
Lemma asks130 : keeps_asking sched130 3 Wr.
Proof.
  intro n. exists (3 + 16 * n + 1)%nat, false. split; [lia|]. split; [apply (cyclic_at pre130 cyc130 ltac:(cbn; lia) n 1); cbn; lia|].
  destruct (at130_j n 1) as [_ V]; [lia|]. destruct (wview_eq _ _ _ _ _ V) as (_ & _ & _ & E). eexists. exact E.
Qed.
Lemma never130 : forall n, ~ w_holds (w_at sched130 n) 3.
Proof.
  intros n [r H]. destruct (cyclic_split pre130 cyc130 ltac:(cbn; lia) n) as [L|(k & j & L & ->)]; cbn in L.
  - do 3 (destruct n as [|n]; [discriminate H|]). lia.
  - destruct (at130_j k j) as [_ V]; [lia|]. 
    do 16 (destruct j as [|j]; [destruct (wview_eq _ _ _ _ _ V) as (_ & _ & _ & E); cbn [length pre130 cyc130] in H; rewrite E in H; discriminate|]). lia.
Qed.
Theorem C130_asker_served_refuted : ~ C130_statement.
Proof. intro H. destruct (H sched130 fair130 polite130 3 Wr asks130) as [k K]. exact (never130 k K). Qed.

(** the strongest parts: a writer that never gets the lock finds it taken anew whenever it was free *)
Theorem C130_writer_overtaken_partial : forall sched a, keeps_asking sched a Wr -> (forall k, ~ w_holds (w_at sched k) a) ->
  (forall k, exists j, (k <= j)%nat /\ w_val (w_at sched j) = 0) ->
  forall k, exists j, (k <= j)%nat /\ w_val (w_at sched j) = 0 /\ w_val (w_at sched (S j)) <> 0.
Proof.
  intros sched a A N Z k. destruct (Z k) as (j0 & L0 & V0). destruct (A j0) as (j1 & b & L1 & R & q & P).
  assert (V1 : w_val (w_at sched j1) <> 0).
  { intro V. apply (N (S j1)). exists Wr. cbn [w_at]. rewrite R. cbn [w_step]. unfold w_run. rewrite P, V. cbn. apply upd_eq. }
  destruct (changes (fun x => w_val (w_at sched x)) j0 j1 L1 V0 V1) as (c & Lc & D). exists c. split; [lia | exact D].
Qed.
(** a reader that never gets the lock sees a writer, or the word changes under it, again and again *)
Lemma goto_other : forall s u p a, u <> a -> w_pc (w_goto s u p) a = w_pc s a.
Proof. intros s u [p|e] a N; cbn; rewrite upd_neq; auto. Qed.
Lemma wpc_frame : forall s l a q b, (forall e, l <> WRun a e) -> w_pc s a = WRdCas q b -> w_pc (w_step s l) a = WRdCas q b.
Proof.
  intros s l a q b N P. destruct l as [u c|u e]; cbn [w_step].
  - destruct (Z.eq_dec u a) as [->|M]; [unfold w_call; rewrite P; exact P|].
    unfold w_call. destruct (w_pc s u), c; auto; rewrite goto_other; auto.
  - destruct (Z.eq_dec u a) as [->|M]; [exfalso; eapply N; reflexivity|]. unfold w_run.
    destruct (w_pc s u); auto;
    repeat match goal with |- context [if ?c then _ else _] => destruct c end;
    first [rewrite goto_other by auto; auto; fail | cbn; rewrite upd_neq by auto; auto].
Qed.
Theorem C130_reader_disturbed_partial : forall sched a, keeps_asking sched a Rd -> (forall k, ~ w_holds (w_at sched k) a) ->
  forall k, exists j, (k <= j)%nat /\ (w_val (w_at sched j) < 0 \/ w_val (w_at sched (S j)) <> w_val (w_at sched j)).
Proof.
  intros sched a A N k. destruct (A k) as (j1 & b1 & L1 & R1 & q & P1). set (b := w_val (w_at sched j1)).
  destruct (Z_lt_le_dec b 0) as [Lb|Gb]; [exists j1; split; [lia | left; exact Lb]|].
  destruct (A (S j1)) as (j2 & b2 & L2 & R2 & q2 & P2).
  destruct (decide_range (fun i => w_val (w_at sched i) - b) (S j1) (j2 - j1)) as [E|(i & I & J)].
  - exfalso. assert (E' : forall i, (S j1 <= i <= j2)%nat -> w_val (w_at sched i) = b) by (intros i Li; specialize (E i); cbv beta in E; lia). clear E.
    assert (Q : forall d, (S j1 + d <= j2)%nat -> w_pc (w_at sched (S j1 + d)) a = WRdCas q b).
    { induction d as [|d IH]; intro Ld.
      - rewrite Nat.add_0_r. cbn [w_at]. rewrite R1. cbn [w_step]. unfold w_run. rewrite P1. cbn. apply upd_eq.
      - rewrite Nat.add_succ_r. specialize (IH ltac:(lia)). cbn [w_at].
        assert (D : forall e, sched (S j1 + d)%nat <> WRun a e).
        { intros e D. apply (N (S (S j1 + d))). exists Rd. cbn [w_at]. rewrite D. cbn [w_step]. unfold w_run. rewrite IH, E' by lia.
          replace (b <? RW_UNLOCK) with false by (symmetry; apply Z.ltb_ge; exact Gb). rewrite Z.eqb_refl. cbn. apply upd_eq. }
        apply wpc_frame; auto. }
    specialize (Q (j2 - S j1)%nat ltac:(lia)). replace (S j1 + (j2 - S j1))%nat with j2 in Q by lia. congruence.
  - destruct (changes (fun x => w_val (w_at sched x) - b) j1 i) as (c & Lc & D1 & D2); [lia | unfold b; lia | exact J|].
    exists c. split; [lia|]. right. cbv beta in D1, D2. lia.
Qed.
(** writer 1 unlocks and locks again, writer 3 and reader 2 ask in between *)
Definition pre130b : list wlabel := [WCall 1 (CWr KTry); WRun 1 false].
Definition cyc130b : list wlabel := [WCall 3 (CWr KTry); WRun 3 false; WCall 2 (CRd KTry); WRun 2 false; WRun 2 false;
  WCall 1 RwWord_Model.CUnlock; WRun 1 false; WRun 1 false; WCall 1 (CWr KTry); WRun 1 false].
Definition wviews_b : list (Z * wpc * wpc * wpc) :=
  [(-1, WHold Wr, WIdle, WIdle); (-1, WHold Wr, WIdle, WWrCas KTry); (-1, WHold Wr, WIdle, WIdle); (-1, WHold Wr, WRdRead KTry, WIdle); (-1, WHold Wr, WRdCas KTry (-1), WIdle); (-1, WHold Wr, WIdle, WIdle);
   (-1, WUnRead Wr, WIdle, WIdle); (-1, WUnCas Wr (-1) 0, WIdle, WIdle); (0, WIdle, WIdle, WIdle); (0, WWrCas KTry, WIdle, WIdle); (-1, WHold Wr, WIdle, WIdle)].
Lemma wone_b : forall j s, (j < length cyc130b)%nat -> seen wviews_b j s -> seen wviews_b (S j) (w_step s (nth j cyc130b dw)).
Proof. unfold cyc130b. wgo. Qed.
Lemma at130b : forall k j, (j <= 10)%nat -> wquiet (w_at (cyclic pre130b cyc130b) (2 + 10 * k + j)) /\ wview (w_at (cyclic pre130b cyc130b) (2 + 10 * k + j)) = nth j wviews_b (0, WIdle, WIdle, WIdle).
Proof.
  apply (cyclic_all pre130b cyc130b (seen wviews_b)); [cbn; lia | | exact wone_b | intros s H; exact H].
  split; [|reflexivity]. intros t N1 N2 N3. cbn. unfold upd. destruct (Z.eqb_spec t 1); [contradiction | reflexivity].
Qed.
Example C130_case : keeps_asking (cyclic pre130b cyc130b) 3 Wr /\ keeps_asking (cyclic pre130b cyc130b) 2 Rd /\
  (forall k, ~ w_holds (w_at (cyclic pre130b cyc130b) k) 3 /\ ~ w_holds (w_at (cyclic pre130b cyc130b) k) 2) /\
  (forall k, exists j, (k <= j)%nat /\ w_val (w_at (cyclic pre130b cyc130b) j) = 0).
Proof.
  repeat split.
  - intro n. exists (2 + 10 * n + 1)%nat, false. split; [lia|]. split; [apply (cyclic_at pre130b cyc130b ltac:(cbn; lia) n 1); cbn; lia|].
    destruct (at130b n 1) as [_ V]; [lia|]. destruct (wview_eq _ _ _ _ _ V) as (_ & _ & _ & E). eexists. exact E.
  - intro n. exists (2 + 10 * n + 3)%nat, false. split; [lia|]. split; [apply (cyclic_at pre130b cyc130b ltac:(cbn; lia) n 3); cbn; lia|].
    destruct (at130b n 3) as [_ V]; [lia|]. destruct (wview_eq _ _ _ _ _ V) as (_ & _ & E & _). eexists. exact E.
  - intros [r H]. destruct (cyclic_split pre130b cyc130b ltac:(cbn; lia) k) as [L|(q & j & L & ->)]; cbn in L.
    + do 2 (destruct k as [|k]; [discriminate H|]). lia.
    + destruct (at130b q j) as [_ V]; [lia|].
      do 10 (destruct j as [|j]; [destruct (wview_eq _ _ _ _ _ V) as (_ & _ & _ & E); cbn [length pre130b cyc130b] in H; rewrite E in H; discriminate|]). lia.
  - intros [r H]. destruct (cyclic_split pre130b cyc130b ltac:(cbn; lia) k) as [L|(q & j & L & ->)]; cbn in L.
    + do 2 (destruct k as [|k]; [discriminate H|]). lia.
    + destruct (at130b q j) as [_ V]; [lia|].
      do 10 (destruct j as [|j]; [destruct (wview_eq _ _ _ _ _ V) as (_ & _ & E & _); cbn [length pre130b cyc130b] in H; rewrite E in H; discriminate|]). lia.
  - intro n. exists (2 + 10 * n + 8)%nat. split; [lia|]. destruct (at130b n 8) as [_ V]; [lia|]. apply (wview_eq _ _ _ _ _ V).
Qed.

Print Assumptions C129_waiter_served_refuted.
Print Assumptions C129_overtaken_for_ever_partial.
Print Assumptions C130_asker_served_refuted.
Print Assumptions C130_writer_overtaken_partial.
Print Assumptions C130_reader_disturbed_partial.
