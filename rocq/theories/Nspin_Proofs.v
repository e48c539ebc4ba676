(** The spin lock around the list of named mutexes behaves as the atomic one of Nmtx_Model.v. *)
From Coq Require Import ZArith List Bool Lia.
From Verif Require Import Base Name_Model Name_Spec Name_Proofs Mutex_Model Mutex_Spec Mutex_Proofs Mutex_Proofs2
  Nmtx_Model Nmtx_Proofs Nmtx_Proofs2 Nmtx_Proofs4 Nmtx_Proofs5 Guard_Model Nspin_Model.
Import ListNotations.
Open Scope Z_scope.

Definition waiting (p : npc) : Prop := match p with NWait _ => True | _ => False end.

Definition spot_ok (s : nstate) (p : npc) (x : gpc) : Prop :=
  match x with
  | GIdle => True
  | GLock _ _ | GLockProbe _ _ => waiting p
  | GLockTake _ o => waiting p /\ n_alive s o = false
  | GUnlock _ _ => releases p = true
  | _ => False
  end.
Definition qinv (q : qstate) : Prop :=
  forall t, n_alive (q_n q) t = true -> spot_ok (q_n q) (n_pc (q_n q) t) (q_g q t).

Lemma set_guard_same : forall s, n_set_guard s (n_guard s) = s.
Proof. intros []. reflexivity. Qed.

Lemma releases_guarded : forall p, releases p = true -> guarded p.
Proof. intros [ | | | | | | |c e p| | | | | ]; try discriminate; simpl; auto. destruct p; try discriminate; simpl; auto. Qed.

(** the release of Nmtx_Model.v with the word already free *)
Lemma release_split : forall s t b, t <> 0 -> n_guard s = t -> releases (n_pc s t) = true ->
  n_run (n_set_guard s 0) t b = n_run s t b.
Proof.
  intros s t b T0 G R. unfold n_run. cbn [n_pc n_set_guard]. destruct (n_pc s t) as [ |p|c|c e|c e|c e|r|c e p|w|w|w es|w es e p|w]; try discriminate.
  - unfold n_drop_guard. rewrite G, Z.eqb_refl. cbn [n_guard n_set_guard]. destruct (Z.eqb_spec 0 t); [congruence|]. reflexivity.
  - unfold n_drop_guard. rewrite G, Z.eqb_refl. cbn [n_guard n_set_guard]. destruct (Z.eqb_spec 0 t); [congruence|]. reflexivity.
  - destruct p; try discriminate. unfold m_run, n_view. cbn [m_pc]. rewrite !upd_eq. unfold m_drop_guard, m_unlocked, m_set.
    cbn [m_guard n_guard n_set_guard]. rewrite G, Z.eqb_refl. destruct (Z.eqb_spec 0 t); [congruence|]. cbn. rewrite !upd_eq. reflexivity.
  - unfold n_drop_guard. rewrite G, Z.eqb_refl. cbn [n_guard n_set_guard]. destruct (Z.eqb_spec 0 t); [congruence|]. reflexivity.
Qed.

(** one step: nothing happens to the machine of Nmtx_Model.v, or one step of it *)
Definition stutters (q : qstate) (t : Z) (b : bool) : Prop :=
  q_n (q_run q t b) = q_n q.
Definition moves (q : qstate) (t : Z) (b : bool) : Prop :=
  q_n (q_run q t b) = n_run (q_n q) t b /\ q_g (q_run q t b) t = GIdle.

Lemma q_run_other : forall q t b u, u <> t -> q_g (q_run q t b) u = q_g q u.
Proof.
  intros q t b u N. unfold q_run.
  destruct (releases _); [|destruct (n_pc (q_n q) t)];
    try (destruct (g_pc (Guard_Model.g_step _ t) t)); cbn [q_g]; rewrite ?upd_neq by auto; auto.
Qed.

Lemma q_run_cases : forall q t b, t <> 0 -> n_alive (q_n q) t = true ->
  (guarded (n_pc (q_n q) t) -> n_guard (q_n q) = t) ->
  spot_ok (q_n q) (n_pc (q_n q) t) (q_g q t) -> q_g (q_run q t b) t <> GUB ->
  (stutters q t b /\ n_pc (q_n q) t <> NIdle /\ spot_ok (q_n q) (n_pc (q_n q) t) (q_g (q_run q t b) t)) \/ moves q t b.
Proof.
  intros q t b T0 AL GD SP NU. unfold stutters, moves. unfold q_run in *.
  remember (q_n q) as s eqn:Es.
  assert (V : forall x, q_view q t x = mkG (n_guard s) (n_alive s) (upd (q_g q) t x)) by (intros; unfold q_view; rewrite <- Es; reflexivity).
  destruct (releases (n_pc s t)) eqn:RL.
  - assert (G : n_guard s = t) by (apply GD, releases_guarded, RL).
    pose proof (release_split s t b T0 G RL) as RS.
    assert (NI : n_pc s t <> NIdle) by (intros E; rewrite E in RL; discriminate).
    destruct (q_g q t) as [ |c o|c o|c o| |c o|c o|c o| ] eqn:Eg; cbn [spot_ok] in SP; try contradiction;
      try (destruct (n_pc s t); discriminate || contradiction).
    + (* the call *)
      left. assert (X : Guard_Model.g_step (q_view q t GIn) t = mkG (n_guard s) (n_alive s) (upd (upd (q_g q) t GIn) t (GUnlock 0 0))).
      { rewrite V. unfold Guard_Model.g_step. cbn [g_pc g_word g_alive]. rewrite upd_eq. reflexivity. }
      split; [|split; auto].
      * rewrite X; cbn [g_pc g_word]; rewrite upd_eq; cbn [q_n]; apply set_guard_same.
      * rewrite X; cbn [g_pc g_word]; rewrite upd_eq; cbn [q_g]; rewrite upd_eq; exact RL.
    + destruct SP as [SP _]. destruct (n_pc s t); discriminate || contradiction.
    + right. assert (X : Guard_Model.g_step (q_view q t (GUnlock c o)) t = mkG 0 (n_alive s) (upd (upd (q_g q) t (GUnlock c o)) t GIdle)).
      { rewrite V. unfold Guard_Model.g_step. cbn [g_pc g_word g_alive]. rewrite upd_eq, G, Z.eqb_refl. reflexivity. }
      split.
      * rewrite X; cbn [g_pc g_word]; rewrite upd_eq; cbn [q_n]; exact RS.
      * rewrite X; cbn [g_pc g_word]; rewrite upd_eq; cbn [q_g]; apply upd_eq.
  - destruct (n_pc s t) as [ |p| | | | | | | | | | | ] eqn:Ep.
    2:{ assert (RUN : (n_guard s =? 0) || (n_guard s =? t) || negb (n_alive s (n_guard s)) = true ->
                  n_run s t b = n_goto (n_set_guard s t) t p) by (intros E; unfold n_run; rewrite Ep, E; reflexivity).
      unfold Guard_Model.g_step in *. rewrite V in *. cbn [g_pc g_word g_alive] in *. rewrite upd_eq in *.
      destruct (q_g q t) as [ |c o|c o|c o| |c o|c o|c o| ] eqn:Eg; cbn [spot_ok] in SP; try contradiction; try discriminate.
      - left. cbn [g_pc g_word] in *. rewrite upd_eq in *. cbn [q_n q_g]. rewrite upd_eq. split; [apply set_guard_same|]. split; [discriminate|]. exact I.
      - destruct (n_guard s =? 0) eqn:E0; cbn [g_pc g_word] in *.
        + right. rewrite upd_eq in *. cbn [q_n q_g]. rewrite upd_eq, RUN by reflexivity. auto.
        + destruct (n_guard s =? t) eqn:E1; cbn [g_pc g_word] in *.
          * right. rewrite upd_eq in *. cbn [q_n q_g]. rewrite upd_eq, RUN by reflexivity. apply Z.eqb_eq in E1. rewrite E1. auto.
          * left. destruct (negb (n_guard s =? o)).
            -- cbn [g_pc g_word] in *. rewrite upd_eq in *. unfold g_next in *. destruct (0 =? INT_MAX); cbn [q_n q_g] in *; rewrite upd_eq in *; [congruence|].
               split; [apply set_guard_same|]. split; [discriminate | exact I].
            -- destruct (TRYLOCK_LIMIT <? c); cbn [g_pc g_word] in *; rewrite upd_eq in *.
               ++ cbn [q_n q_g]. rewrite upd_eq. split; [apply set_guard_same|]. split; [discriminate | exact I].
               ++ unfold g_next in *. destruct (c =? INT_MAX); cbn [q_n q_g] in *; rewrite upd_eq in *; [congruence|].
                  split; [apply set_guard_same|]. split; [discriminate | exact I].
      - left. destruct (n_alive s o) eqn:A; cbn [g_pc g_word] in *; rewrite upd_eq in *.
        + unfold g_next in *. destruct (c =? INT_MAX); cbn [q_n q_g] in *; rewrite upd_eq in *; [congruence|].
          split; [apply set_guard_same|]. split; [discriminate | exact I].
        + cbn [q_n q_g]. rewrite upd_eq. split; [apply set_guard_same|]. split; [discriminate|]. split; [exact I | exact A].
      - destruct SP as [_ DEAD]. destruct (n_guard s =? o) eqn:E; cbn [g_pc g_word] in *; rewrite upd_eq in *.
        + right. apply Z.eqb_eq in E. rewrite E in RUN. rewrite DEAD in RUN. cbn [q_n q_g]. rewrite upd_eq, RUN; auto. rewrite orb_true_r. reflexivity.
        + left. unfold g_next in *. destruct (c =? INT_MAX); cbn [q_n q_g] in *; rewrite upd_eq in *; [congruence|].
          split; [apply set_guard_same|]. split; [discriminate | exact I]. }
    all: right; cbn [q_n q_g]; split; [reflexivity|];
      destruct (q_g q t); cbn [spot_ok waiting] in SP; try contradiction; try congruence; try (destruct SP; contradiction); auto.
Qed.

Lemma call_other : forall s t c u, u <> t -> n_pc (n_call s t c) u = n_pc s u.
Proof.
  intros s t c u N. unfold n_call. destruct (n_pc s t); auto; destruct c as [[n|] k|[n|]|n| ]; simpl; rewrite upd_neq; auto.
Qed.
Lemma call_alive : forall s t c, n_alive (n_call s t c) = n_alive s.
Proof. intros s t c. unfold n_call. destruct (n_pc s t); auto; destruct c as [[n|] k|[n|]|n| ]; auto. Qed.

Lemma run_keeps : forall s t b, n_alive (n_run s t b) = n_alive s /\ forall u, u <> t -> n_pc (n_run s t b) u = n_pc s u.
Proof.
  intros s t b. unfold n_run, n_drop_guard.
  repeat match goal with
  | |- context [match ?x with _ => _ end] => destruct x
  end; split; intros; cbn; rewrite ?upd_neq by auto; auto.
Qed.

Lemma spot_alive : forall s s' p x, (forall o, n_alive s o = false -> n_alive s' o = false) -> spot_ok s p x -> spot_ok s' p x.
Proof. intros s s' p x H S. destruct x; cbn in *; auto. destruct S; auto. Qed.

Section Sched.
Variable d : sched.
Variables (U : list Z) (key : Z -> nameent) (val cnt : Z -> Z).
Hypothesis ND : NoDup U.
Let s0 := n_init U key val cnt.

Lemma run_ok : forall s t b, n_ok d s (NRun t b).
Proof. intros s t b. destruct d; simpl; unfold n_no_exit_in_window, n_no_wait, n_any; auto. Qed.

(** every history with the spin lock is one of Nmtx_Model.v *)
Lemma spin_sim : forall q h, q_history s0 (n_ok d) q h -> n_history s0 (n_ok d) (q_n q) h /\ qinv q.
Proof.
  intros q h H. induction H as [|q l h H [IH QI] EN OK NO].
  - split; [constructor|]. intros t _. exact I.
  - pose proof (ninv_reach d U key val cnt _ h ND IH) as NI.
    destruct l as [t c|t b|t].
    + split; [apply (nh_step s0 (n_ok d) (q_n q) (NCall t c)); auto|].
      intros u A. cbn [q_step q_n q_g] in *. cbn [n_step] in *. rewrite call_alive in A. specialize (QI u A).
      apply (spot_alive (q_n q)); [intros o; rewrite call_alive; auto|].
      destruct (Z.eq_dec u t) as [->|N]; [|rewrite call_other by auto; exact QI].
      unfold n_call. destruct (n_pc (q_n q) t) eqn:Ep; try (rewrite Ep; exact QI).
      destruct (q_g q t); cbn in QI; try contradiction; try discriminate; try (destruct QI; contradiction); exact I.
    + simpl in EN. destruct EN as [T0 AL].
      destruct (run_keeps (q_n q) t b) as (SA & SO).
      destruct (q_run_cases q t b T0 AL (ni_guard _ _ NI t AL) (QI t AL) (NO t)) as [(ST & NID & SP)|(MV & MG)].
      * unfold stutters in ST. cbn [q_step].
        assert (EV : q_events q (NRun t b) = []).
        { cbn [q_events]. rewrite ST. destruct (n_pc (q_n q) t); congruence || reflexivity. }
        rewrite EV, app_nil_r, ST. split; [exact IH|].
        intros u A. rewrite ST in A |- *. destruct (Z.eq_dec u t) as [->|N]; [exact SP|]. rewrite q_run_other by auto. apply QI; auto.
      * cbn [q_step].
        assert (EV : q_events q (NRun t b) = n_events (q_n q) (NRun t b)) by (cbn [q_events n_events]; rewrite MV; reflexivity).
        rewrite EV, MV. split; [apply (nh_step s0 (n_ok d) (q_n q) (NRun t b)); [exact IH | split; auto | apply run_ok]|].
        intros u A. rewrite MV, SA in A. rewrite MV. destruct (Z.eq_dec u t) as [->|N]; [rewrite MG; exact I|].
        rewrite q_run_other, SO by auto. apply (spot_alive (q_n q)); [intros o; rewrite SA; auto | apply QI; auto].
    + split; [apply (nh_step s0 (n_ok d) (q_n q) (NDie t)); auto|].
      intros u A. cbn [q_step q_n q_g n_step n_alive n_pc] in *.
      apply (spot_alive (q_n q)).
      * intros o Ho. cbn [n_alive]. unfold upd. destruct (o =? t); auto.
      * apply QI. unfold upd in A. destruct (u =? t); auto. discriminate.
Qed.
End Sched.
