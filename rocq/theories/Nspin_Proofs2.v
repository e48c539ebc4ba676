(** Named mutexes with the spin lock: calls that run alone. *)
From Coq Require Import ZArith List Bool Lia.
From Verif Require Import Base Name_Model Name_Spec Name_Proofs Mutex_Model Mutex_Spec Mutex_Proofs Mutex_Proofs2
  Nmtx_Model Nmtx_Proofs Nmtx_Proofs2 Nmtx_Proofs4 Nmtx_Proofs5 Guard_Model Nspin_Model Nspin_Proofs.
Import ListNotations.
Open Scope Z_scope.

Definition q_alone (q : qstate) (t : Z) (cs : list bool) : qstate := fold_left (fun q b => q_run q t b) cs q.

Section Wait.
Variables (t : Z) (p : npc) (s : nstate).
Hypothesis T0 : t <> 0.
Hypothesis Ep : n_pc s t = NWait p.

Definition there (q : qstate) (x : gpc) : Prop := q_n q = s /\ q_g q t = x.

Lemma wait_run : forall q x b, there q x ->
  q_run q t b = let g := Guard_Model.g_step (mkG (n_guard s) (n_alive s) (upd (q_g q) t x)) t in
    match g_pc g t with
    | GIn => mkQ (n_goto (n_set_guard s (g_word g)) t p) (upd (q_g q) t GIdle)
    | x => mkQ (n_set_guard s (g_word g)) (upd (q_g q) t x)
    end.
Proof.
  intros q x b [E1 E2]. unfold q_run, q_view. rewrite E1, Ep, E2. reflexivity.
Qed.

Definition got (q : qstate) : Prop := q_n q = n_goto (n_set_guard s t) t p /\ q_g q t = GIdle.

Lemma wait_start : forall q b, there q GIdle -> there (q_run q t b) (GLock 0 0).
Proof.
  intros q b H. rewrite (wait_run q GIdle b H). unfold Guard_Model.g_step. cbn [g_pc]. rewrite upd_eq. cbn [g_pc g_word]. rewrite upd_eq.
  split; cbn [q_n q_g]; [apply set_guard_same | apply upd_eq].
Qed.
Lemma wait_free : forall q b c o, there q (GLock c o) -> n_guard s = 0 \/ n_guard s = t -> got (q_run q t b).
Proof.
  intros q b c o H G. rewrite (wait_run q _ b H). unfold Guard_Model.g_step. cbn [g_pc g_word]. rewrite upd_eq.
  destruct (Z.eqb_spec (n_guard s) 0) as [E|E].
  - cbn [g_pc g_word]. rewrite upd_eq. split; cbn [q_n q_g]; [reflexivity | apply upd_eq].
  - destruct G as [G|G]; [congruence|]. rewrite G, Z.eqb_refl. cbn [g_pc g_word]. rewrite upd_eq.
    split; cbn [q_n q_g]; [reflexivity | apply upd_eq].
Qed.

Variable d : Z.
Hypothesis G : n_guard s = d.
Hypothesis D0 : d <> 0.
Hypothesis Dt : d <> t.
Hypothesis DEAD : n_alive s d = false.

Lemma wait_first : forall q b, there q (GLock 0 0) -> there (q_run q t b) (GLock 1 d).
Proof.
  intros q b H. rewrite (wait_run q _ b H). unfold Guard_Model.g_step. cbn [g_pc g_word]. rewrite upd_eq.
  rewrite G, (proj2 (Z.eqb_neq d 0) D0), (proj2 (Z.eqb_neq d t) Dt). cbn [negb].
  cbn [g_pc g_word]. unfold g_next. change (0 =? INT_MAX) with false. cbv iota. rewrite upd_eq. cbn [Z.add].
  split; cbn [q_n q_g]; [rewrite <- G; apply set_guard_same | apply upd_eq].
Qed.
Lemma wait_spin : forall q b c, there q (GLock c d) -> 0 <= c <= TRYLOCK_LIMIT -> there (q_run q t b) (GLock (c + 1) d).
Proof.
  intros q b c H Hc. rewrite (wait_run q _ b H). unfold Guard_Model.g_step. cbn [g_pc g_word]. rewrite upd_eq.
  rewrite G, (proj2 (Z.eqb_neq d 0) D0), (proj2 (Z.eqb_neq d t) Dt), Z.eqb_refl. cbn [negb].
  unfold TRYLOCK_LIMIT in *. rewrite (proj2 (Z.ltb_ge 1000 c)) by lia. cbn [g_pc g_word].
  unfold g_next. rewrite (proj2 (Z.eqb_neq c INT_MAX)) by (unfold INT_MAX; lia). rewrite upd_eq.
  split; cbn [q_n q_g]; [rewrite <- G; apply set_guard_same | apply upd_eq].
Qed.
Lemma wait_spins : forall cs q c, there q (GLock c d) -> 0 <= c -> c + Z.of_nat (length cs) <= TRYLOCK_LIMIT + 1 ->
  there (q_alone q t cs) (GLock (c + Z.of_nat (length cs)) d).
Proof.
  induction cs as [|b cs IH]; intros q c H Hc Hl; cbn [length] in *.
  - replace (c + Z.of_nat 0) with c by lia. exact H.
  - unfold q_alone in *. cbn [fold_left]. replace (c + Z.of_nat (S (length cs))) with (c + 1 + Z.of_nat (length cs)) by lia.
    apply IH; try lia. apply wait_spin; auto. lia.
Qed.
Lemma wait_take : forall q b1 b2 b3, there q (GLock 1001 d) -> got (q_run (q_run (q_run q t b1) t b2) t b3).
Proof.
  intros q b1 b2 b3 H.
  assert (H1 : there (q_run q t b1) (GLockProbe 1001 d)).
  { rewrite (wait_run q _ b1 H). unfold Guard_Model.g_step. cbn [g_pc g_word]. rewrite upd_eq.
    rewrite G, (proj2 (Z.eqb_neq d 0) D0), (proj2 (Z.eqb_neq d t) Dt), Z.eqb_refl. cbn [negb].
    change (TRYLOCK_LIMIT <? 1001) with true. cbv iota. cbn [g_pc g_word]. rewrite upd_eq.
    split; cbn [q_n q_g]; [rewrite <- G; apply set_guard_same | apply upd_eq]. }
  assert (H2 : there (q_run (q_run q t b1) t b2) (GLockTake 1001 d)).
  { rewrite (wait_run _ _ b2 H1). unfold Guard_Model.g_step. cbn [g_pc g_word g_alive]. rewrite upd_eq, DEAD. cbn [g_pc g_word]. rewrite upd_eq.
    split; cbn [q_n q_g]; [apply set_guard_same | apply upd_eq]. }
  rewrite (wait_run _ _ b3 H2). unfold Guard_Model.g_step. cbn [g_pc g_word]. rewrite upd_eq, G, Z.eqb_refl. cbn [g_pc g_word]. rewrite upd_eq.
  split; cbn [q_n q_g]; [reflexivity | apply upd_eq].
Qed.
End Wait.

Lemma q_alone_app : forall cs cs' q t, q_alone q t (cs ++ cs') = q_alone (q_alone q t cs) t cs'.
Proof. intros. unfold q_alone. apply fold_left_app. Qed.

(** how many steps one step of Nmtx_Model.v takes here, when the list lock can be had *)
Lemma wait_all : forall q t p, t <> 0 -> n_pc (q_n q) t = NWait p -> q_g q t = GIdle ->
  n_guard (q_n q) = 0 \/ n_guard (q_n q) = t \/ n_alive (q_n q) (n_guard (q_n q)) = false ->
  exists N, (1 <= N <= 1005)%nat /\ forall cs, length cs = N -> got t p (q_n q) (q_alone q t cs).
Proof.
  intros q t p T0 Ep Eg TK. assert (H : there t (q_n q) q GIdle) by (split; auto).
  destruct (Z.eq_dec (n_guard (q_n q)) 0) as [Z0|Z0]; [|destruct (Z.eq_dec (n_guard (q_n q)) t) as [Zt|Zt]].
  1,2: exists 2%nat; split; [lia|]; intros [|b1 [|b2 [|]]] L; try discriminate; cbn [q_alone fold_left];
    apply (wait_free t p (q_n q) Ep _ b2 0 0); [apply (wait_start t p (q_n q)); auto | auto].
  exists 1005%nat. split; [lia|]. intros cs L.
  assert (DEAD : n_alive (q_n q) (n_guard (q_n q)) = false) by tauto.
  destruct cs as [|b1 [|b2 cs]]; try discriminate. cbn [length] in L.
  assert (L3 : length cs = 1003%nat) by lia. clear L.
  change (b1 :: b2 :: cs) with ([b1; b2] ++ cs). rewrite q_alone_app. rewrite <- (firstn_skipn 1000 cs), q_alone_app.
  assert (LF : length (firstn 1000 cs) = 1000%nat) by (rewrite firstn_length, L3; reflexivity).
  assert (LS : length (skipn 1000 cs) = 3%nat) by (rewrite skipn_length, L3; reflexivity).
  remember (firstn 1000 cs) as c1 eqn:E1. remember (skipn 1000 cs) as c2 eqn:E2. clear E1 E2 L3.
  destruct c2 as [|x1 [|x2 [|x3 [|]]]]; try discriminate.
  change (q_alone ?a t [x1; x2; x3]) with (q_run (q_run (q_run a t x1) t x2) t x3).
  eapply (wait_take t p (q_n q)); eauto.
  replace 1001 with (1 + Z.of_nat (length c1)) by (rewrite LF; reflexivity).
  apply (wait_spins t p (q_n q) T0 Ep (n_guard (q_n q))); auto; try lia; [|rewrite LF; unfold TRYLOCK_LIMIT; lia].
  change (q_alone q t [b1; b2]) with (q_run (q_run q t b1) t b2).
  apply (wait_first t p (q_n q) Ep (n_guard (q_n q))); auto. apply (wait_start t p (q_n q)); auto.
Qed.

Section Solo.
Variables (U : list Z) (key : Z -> nameent) (val cnt : Z -> Z).
Hypothesis ND : NoDup U.
Let s0 := n_init U key val cnt.
Variable okb : bool -> Prop.

Definition others_idle (s : nstate) (t : Z) : Prop := forall u, u <> t -> n_alive s u = true -> n_pc s u = NIdle.

Lemma one_step : forall q t h, n_history s0 n_any (q_n q) h -> t <> 0 -> n_alive (q_n q) t = true -> others_idle (q_n q) t ->
  q_g q t = GIdle ->
  exists N, (1 <= N <= 1005)%nat /\ forall cs, length cs = N -> Forall okb cs ->
    exists b, okb b /\ q_n (q_alone q t cs) = n_run (q_n q) t b /\ q_g (q_alone q t cs) t = GIdle.
Proof.
  intros q t h H T0 AL OI Eg.
  pose proof (ninv_reach AnyTime U key val cnt _ h ND H) as NI.
  assert (TK : n_guard (q_n q) = 0 \/ n_guard (q_n q) = t \/ n_alive (q_n q) (n_guard (q_n q)) = false).
  { destruct (Z.eq_dec (n_guard (q_n q)) 0) as [|Z0]; auto. destruct (Z.eq_dec (n_guard (q_n q)) t) as [|Zt]; auto.
    right. right. destruct (n_alive (q_n q) (n_guard (q_n q))) eqn:A; auto. exfalso.
    pose proof (guard_inside U key val cnt _ h ND H _ Z0 eq_refl A) as GI. rewrite (OI _ Zt A) in GI. exact GI. }
  destruct (releases (n_pc (q_n q) t)) eqn:RL.
  - assert (GT : n_guard (q_n q) = t) by (apply (ni_guard _ _ NI t AL), releases_guarded, RL).
    exists 2%nat. split; [lia|]. intros [|b1 [|b2 [|]]] L F; try discriminate. exists b2.
    split; [apply (Forall_inv (Forall_inv_tail F))|]. cbn [q_alone fold_left].
    assert (X : there t (q_n q) (q_run q t b1) (GUnlock 0 0)).
    { unfold q_run, q_view. rewrite RL, Eg. unfold Guard_Model.g_step. cbn [g_pc g_word]. rewrite upd_eq. cbn [g_pc g_word]. rewrite upd_eq.
      split; cbn [q_n q_g]; [apply set_guard_same | apply upd_eq]. }
    destruct X as [X1 X2]. unfold q_run at 1 3, q_view. rewrite X1, RL, X2. unfold Guard_Model.g_step. cbn [g_pc g_word g_alive]. rewrite upd_eq.
    rewrite GT, Z.eqb_refl. cbn [g_pc g_word]. rewrite upd_eq. cbn [q_n q_g]. rewrite upd_eq. split; auto.
    apply release_split; auto.
  - destruct (n_pc (q_n q) t) as [ |p| | | | | | | | | | | ] eqn:Ep.
    2:{ destruct (wait_all q t p T0 Ep Eg TK) as (N & LN & HN). exists N. split; auto. intros cs L F.
      destruct cs as [|b cs]; [simpl in L; lia|]. exists b. split; [apply (Forall_inv F)|].
      destruct (HN (b :: cs) L) as [HA HB]. split; auto. rewrite HA. unfold n_run. rewrite Ep.
      assert (E : (n_guard (q_n q) =? 0) || (n_guard (q_n q) =? t) || negb (n_alive (q_n q) (n_guard (q_n q))) = true).
      { rewrite !orb_true_iff, !Z.eqb_eq, negb_true_iff. tauto. }
      rewrite E. reflexivity. }
    all: exists 1%nat; split; [lia|]; intros [|b [|]] L F; try discriminate; exists b; (split; [apply (Forall_inv F)|]);
      cbn [q_alone fold_left]; unfold q_run; rewrite Ep, RL; cbn [q_n q_g]; auto.
Qed.

Lemma idle_stays : forall cs q t, n_pc (q_n q) t = NIdle -> q_alone q t cs = q.
Proof.
  induction cs as [|b cs IH]; intros q t E; auto. unfold q_alone in *. cbn [fold_left].
  assert (X : q_run q t b = q).
  { unfold q_run. rewrite E. cbn [releases]. unfold n_run. rewrite E. destruct q; reflexivity. }
  rewrite X. auto.
Qed.

(** what calls that run alone do in Nmtx_Model.v they do here *)
Lemma lift : forall n q t h (P : nstate -> Prop), n_history s0 n_any (q_n q) h -> t <> 0 -> n_alive (q_n q) t = true ->
  others_idle (q_n q) t -> q_g q t = GIdle -> (forall s, P s -> n_pc s t = NIdle) -> within okb n (q_n q) t P ->
  forall cs, (1005 * n <= length cs)%nat -> Forall okb cs -> P (q_n (q_alone q t cs)).
Proof.
  induction n as [|n IH]; intros q t h P H T0 AL OI Eg PI W cs L F.
  - assert (P0 : P (q_n q)) by (apply (W []); auto). rewrite idle_stays; auto.
  - destruct (one_step q t h H T0 AL OI Eg) as (N & LN & HN).
    rewrite <- (firstn_skipn N cs) in F |- *. apply Forall_app in F as [F1 F2]. rewrite q_alone_app.
    assert (LF : length (firstn N cs) = N) by (rewrite firstn_length; lia).
    destruct (HN _ LF F1) as (b & OB & E1 & E2). destruct (run_keeps (q_n q) t b) as [KA KO].
    apply (IH _ t (h ++ n_events (q_n q) (NRun t b))); auto.
    + rewrite E1. apply (nh_step s0 n_any (q_n q) (NRun t b)); [exact H | split; auto | exact I].
    + rewrite E1, KA. auto.
    + rewrite E1. intros u N0 A. rewrite KA in A. rewrite KO; auto.
    + rewrite E1. intros bs LB FB. apply (W (b :: bs)); [simpl; auto | constructor; auto].
    + rewrite skipn_length. lia.
Qed.
End Solo.
