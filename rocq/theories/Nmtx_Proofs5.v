(** Named mutexes: calls that run alone. *)
From Coq Require Import ZArith List Bool Lia.
From Verif Require Import Base Name_Model Name_Spec Name_Proofs Mutex_Model Mutex_Spec Mutex_Proofs Mutex_Proofs2
  Nmtx_Model Nmtx_Spec Nmtx_Proofs Nmtx_Proofs2.
Import ListNotations.
Open Scope Z_scope.

(** ** A live thread that has the guard is inside it *)
Lemma guard_inside : forall U key val cnt s h, NoDup U -> n_history (n_init U key val cnt) n_any s h ->
  forall u, u <> 0 -> n_guard s = u -> n_alive s u = true -> guarded (n_pc s u).
Proof.
  intros U key val cnt s h ND H. induction H as [|s l h H IH EN OK]; intros u U0 G A; [simpl in G; congruence|].
  pose proof (ninv_reach AnyTime U key val cnt s h ND H) as I.
  destruct l as [t c|t b|t]; simpl in EN, G, A |- *.
  - assert (G' : n_guard s = u /\ n_alive s u = true).
    { unfold n_call in G, A. destruct (n_pc s t); auto; destruct c as [[n|] k|[n|]|n| ]; simpl in G, A; auto. }
    destruct G' as [G1 A1]. specialize (IH u U0 G1 A1).
    unfold n_call. destruct (n_pc s t) eqn:Ep; auto.
    assert (N : u <> t) by (intros ->; rewrite Ep in IH; exact IH).
    destruct c as [[n|] k|[n|]|n| ]; simpl; rewrite upd_neq; auto.
  - destruct EN as [T0 AT]. destruct (Z.eq_dec u t) as [->|N].
    + pose proof (ni_pc _ _ I t) as PC. unfold n_run in G, A |- *. destruct (n_pc s t) as [ |p|c|c e|c e|c e|r|c e p|w|w|w es|w es e p|w] eqn:Ep.
      * rewrite Ep. specialize (IH t T0 G A). rewrite Ep in IH. exact IH.
      * destruct ((n_guard s =? 0) || (n_guard s =? t) || negb (n_alive s (n_guard s))) eqn:E.
        -- simpl. rewrite upd_eq. destruct p; simpl in PC; try (destruct PC; fail); simpl; auto.
        -- rewrite Ep. specialize (IH t T0 G A). rewrite Ep in IH. exact IH.
      * destruct (n_find s (ckey c)) as [e|]; destruct c as [n k|n|n| ]; try (simpl; rewrite upd_eq; simpl; auto; fail).
        destruct (n_free s) as [|e fr]; simpl; rewrite upd_eq; simpl; auto.
      * simpl. rewrite upd_eq. simpl. auto.
      * simpl. rewrite upd_eq. simpl. auto.
      * simpl in G. unfold n_drop_guard in G. destruct (n_guard s =? t) eqn:E; simpl in G; [congruence | apply Z.eqb_neq in E; congruence].
      * simpl in G. unfold n_drop_guard in G. destruct (n_guard s =? t) eqn:E; simpl in G; [congruence | apply Z.eqb_neq in E; congruence].
      * assert (G2 : m_guard (m_run (n_view s e t p) t b) = t).
        { destruct (m_pc (m_run (n_view s e t p) t b) t); exact G. }
        destruct PC as (_ & _ & SH).
        assert (TK : takes (m_pc (n_view s e t p) t) = false) by (simpl; rewrite upd_eq; destruct p; simpl in SH; auto; destruct SH).
        rewrite run_guard in G2 by exact TK.
        assert (PP : m_pc (n_view s e t p) t = p) by (simpl; apply upd_eq).
        rewrite PP in G2. cbn [m_guard n_view] in G2.
        assert (DR : drops p = false).
        { destruct (drops p) eqn:DP; auto. exfalso. destruct (n_guard s =? t) eqn:E; [congruence | apply Z.eqb_neq in E; congruence]. }
        rewrite DR in G2.
        assert (AS : n_alive s t = true) by exact AT.
        specialize (IH t T0 G2 AS). rewrite Ep in IH. simpl in IH.
        pose proof (run_keeps_guard (n_view s e t p) t b) as K. rewrite PP in K. specialize (K IH DR).
        destruct (m_pc (m_run (n_view s e t p) t b) t) eqn:Eq; simpl in K; try (destruct K; fail); simpl; rewrite upd_eq; simpl; auto.
      * exfalso. assert (G2 : n_guard s = t) by (destruct (n_list s); [destruct w as [[c e]|]|]; exact G).
        specialize (IH t T0 G2 AT). rewrite Ep in IH. exact IH.
      * simpl. rewrite upd_eq. simpl. auto.
      * destruct es as [|e es]; simpl; rewrite upd_eq; simpl; auto.
      * destruct (m_pc (m_run (n_view s e t p) t b) t); simpl; rewrite upd_eq; simpl; auto.
      * exfalso. destruct w as [[c e]|]; simpl in G; unfold n_drop_guard in G; destruct (n_guard s =? t) eqn:E; simpl in G; try congruence; apply Z.eqb_neq in E; congruence.
    + assert (X : n_guard s = u /\ n_alive s u = true /\ n_pc (n_run s t b) u = n_pc s u).
      { pose proof (ni_pc _ _ I t) as PC. unfold n_run in G, A |- *. destruct (n_pc s t) as [ |p|c|c e|c e|c e|r|c e p|w|w|w es|w es e p|w] eqn:Ep.
        - auto.
        - destruct ((n_guard s =? 0) || (n_guard s =? t) || negb (n_alive s (n_guard s))); simpl in G, A |- *; [congruence | auto].
        - destruct (n_find s (ckey c)) as [e|]; destruct c as [n k|n|n| ]; try (simpl in G, A |- *; rewrite upd_neq; auto; fail).
          destruct (n_free s) as [|e fr]; simpl in G, A |- *; rewrite upd_neq; auto.
        - simpl in G, A |- *. rewrite upd_neq; auto.
        - simpl in G, A |- *. rewrite upd_neq; auto.
        - simpl in G, A |- *. unfold n_drop_guard in *. destruct (n_guard s =? t); simpl in *; [congruence | rewrite upd_neq; auto].
        - simpl in G, A |- *. unfold n_drop_guard in *. destruct (n_guard s =? t); simpl in *; [congruence | rewrite upd_neq; auto].
        - destruct PC as (_ & _ & SH).
          assert (TK : takes (m_pc (n_view s e t p) t) = false) by (simpl; rewrite upd_eq; destruct p; simpl in SH; auto; destruct SH).
          assert (G2 : m_guard (m_run (n_view s e t p) t b) = u) by (destruct (m_pc (m_run (n_view s e t p) t b) t); exact G).
          rewrite run_guard in G2 by exact TK. cbn [m_guard n_view] in G2.
          assert (G3 : n_guard s = u).
          { destruct (drops _); auto. destruct (n_guard s =? t); congruence. }
          split; auto. destruct (m_pc (m_run (n_view s e t p) t b) t); simpl in A |- *; rewrite upd_neq; auto.
        - destruct (n_list s); [destruct w as [[c e]|]|]; simpl in G, A |- *; rewrite upd_neq; auto.
        - simpl in G, A |- *. rewrite upd_neq; auto.
        - destruct es as [|e es]; simpl in G, A |- *; rewrite upd_neq; auto.
        - destruct PC as (_ & _ & _ & SH).
          assert (TK : takes (m_pc (n_view s e t p) t) = false) by (simpl; rewrite upd_eq; destruct p; simpl in SH; auto; destruct SH).
          assert (G2 : m_guard (m_run (n_view s e t p) t b) = u) by (destruct (m_pc (m_run (n_view s e t p) t b) t); exact G).
          rewrite run_guard in G2 by exact TK. cbn [m_guard n_view] in G2.
          assert (G3 : n_guard s = u).
          { destruct (drops _); auto. destruct (n_guard s =? t); congruence. }
          split; auto. destruct (m_pc (m_run (n_view s e t p) t b) t); simpl in A |- *; rewrite upd_neq; auto.
        - destruct w as [[c e]|]; simpl in G, A |- *; unfold n_drop_guard in *; destruct (n_guard s =? t); simpl in *; try congruence; rewrite upd_neq; auto. }
      destruct X as (X1 & X2 & X3). rewrite X3. apply IH; auto.
  - destruct (Z.eq_dec u t) as [->|N]; [rewrite upd_eq in A; discriminate|]. rewrite upd_neq in A by auto. auto.
Qed.

(** ** Running alone *)
Definition alone (s : nstate) (t : Z) (bs : list bool) : nstate := fold_left (fun s b => n_run s t b) bs s.
Lemma alone_idle : forall bs s t, n_pc s t = NIdle -> alone s t bs = s.
Proof.
  induction bs as [|b bs IH]; intros s t E; auto. unfold alone in *. simpl.
  assert (X : n_run s t b = s) by (unfold n_run; rewrite E; auto). rewrite X. apply IH; auto.
Qed.

Lemma neqb : forall a b : Z, a <> b -> (a =? b) = false.
Proof. intros. apply Z.eqb_neq. auto. Qed.
Ltac mstep := let bb := fresh "bb" in intros bb; cbv zeta; unfold m_run; cbn [m_pc]; rewrite upd_eq; cbn [m_val m_cnt m_guard m_alive];
  unfold m_unlock_end, m_unlocked, m_drop_guard, m_failed, m_return, m_locked, m_goto, m_set;
  rewrite ?Z.eqb_refl, ?neqb by (auto; try congruence); cbn; rewrite ?upd_eq; auto.

Section Bits.
(** retry decisions considered *)
Variable okb : bool -> Prop.
(** after [n] steps of [t] alone, whatever these decisions, [P] holds *)
Definition within (n : nat) (s : nstate) (t : Z) (P : nstate -> Prop) : Prop :=
  forall bs, length bs = n -> Forall okb bs -> P (alone s t bs).
Lemma within_step : forall n s t P, (forall b, okb b -> within n (n_run s t b) t P) -> within (S n) s t P.
Proof. intros n s t P H [|b bs] L F; [discriminate|]. simpl in L. injection L as L. inversion F; subst. apply (H b); auto. Qed.
Lemma within_done : forall n s t (P : nstate -> Prop), n_pc s t = NIdle -> P s -> within n s t P.
Proof. intros n s t P E H bs L F. rewrite alone_idle; auto. Qed.
Lemma within_weak : forall n s t (P Q : nstate -> Prop), (forall s', P s' -> Q s') -> within n s t P -> within n s t Q.
Proof. intros n s t P Q H W bs L F. auto. Qed.
Lemma within_more : forall k n s t (P : nstate -> Prop), (forall s', P s' -> n_pc s' t = NIdle) -> (k <= n)%nat -> within k s t P -> within n s t P.
Proof.
  intros k n s t P C LE W bs L F. rewrite <- (firstn_skipn k bs). unfold alone. rewrite fold_left_app.
  assert (FF : Forall okb (firstn k bs) /\ Forall okb (skipn k bs)) by (apply Forall_app; rewrite firstn_skipn; auto).
  assert (E := W (firstn k bs) ltac:(rewrite firstn_length; lia) (proj1 FF)).
  change (P (alone (alone s t (firstn k bs)) t (skipn k bs))). rewrite alone_idle; auto.
Qed.

(** what a call on entry [e] by [t] leaves alone *)
Definition frame (s s' : nstate) (t e : Z) : Prop :=
  n_list s' = n_list s /\ n_free s' = n_free s /\ (forall x, n_key s' x = n_key s x) /\ (forall u, n_alive s' u = n_alive s u) /\
  (forall x, x <> e -> n_val s' x = n_val s x) /\ (forall u, u <> t -> n_pc s' u = n_pc s u).
Lemma frame_refl : forall s t e, frame s s t e.
Proof. unfold frame. intros. repeat split; auto. Qed.
Lemma frame_trans : forall s1 s2 s3 t e, frame s1 s2 t e -> frame s2 s3 t e -> frame s1 s3 t e.
Proof.
  intros s1 s2 s3 t e (A & B & C & D & E & F) (A' & B' & C' & D' & E' & F'). unfold frame.
  split; [congruence|]. split; [congruence|]. split; [intros; rewrite C'; auto|]. split; [intros; rewrite D'; auto|].
  split; [intros; rewrite E'; auto | intros; rewrite F'; auto].
Qed.

Lemma op_run : forall s t c e p b, n_pc s t = NOp c e p ->
  let m := m_run (n_view s e t p) t b in let s' := n_run s t b in
  frame s s' t e /\ n_val s' e = m_val m /\ n_cnt s' e = m_cnt m /\ n_guard s' = m_guard m /\
  match m_pc m t with
  | MIdle => n_pc s' t = NIdle /\ n_res s' t = Some (match m_res m t with Some r => r | None => OK end)
  | MKGuard _ => n_pc s' t = NPEnter (Some (c, e))
  | q => n_pc s' t = NOp c e q
  end.
Proof.
  intros s t c e p b E m s'. unfold s', n_run. rewrite E. fold m.
  destruct (m_pc m t); unfold frame; simpl; rewrite ?upd_eq; repeat split; auto; intros; try (rewrite upd_neq; auto).
Qed.

(** one access of the mutex code, with the memory of the entry *)
Definition at_op (s : nstate) (t : Z) (c : ncall) (e : Z) (p : mpc) (v n g : Z) : Prop :=
  n_pc s t = NOp c e p /\ n_val s e = v /\ n_cnt s e = n /\ n_guard s = g.
Definition ended (s s' : nstate) (t e v g r : Z) : Prop :=
  frame s s' t e /\ n_pc s' t = NIdle /\ n_res s' t = Some r /\ n_val s' e = v /\ n_guard s' = g.

Lemma op_goto : forall n s s0 t c e p v k g q v' k' g' P, at_op s t c e p v k g ->
  (forall b, let m := m_run (mkMS v k g (n_alive s) (upd (fun _ => MIdle) t p) (fun _ => false) (fun _ => 0) (fun _ => None)) t b in
     m_pc m t = q /\ m_val m = v' /\ m_cnt m = k' /\ m_guard m = g') ->
  match q with MIdle | MKGuard _ => False | _ => True end ->
  frame s0 s t e ->
  (forall s', frame s0 s' t e -> (forall u, n_alive s' u = n_alive s u) -> at_op s' t c e q v' k' g' -> within n s' t P) -> within (S n) s t P.
Proof.
  intros n s s0 t c e p v k g q v' k' g' P (EP & EV & EK & EG) M Q F H. apply within_step. intros b OB.
  destruct (op_run s t c e p b EP) as (F1 & V1 & K1 & G1 & P1). specialize (M b). cbv zeta in M.
  unfold n_view in *. rewrite EV, EK, EG in *. destruct M as (M1 & M2 & M3 & M4).
  apply H.
  - eapply frame_trans; eauto.
  - destruct F1 as (_ & _ & _ & D & _). auto.
  - unfold at_op. rewrite M1 in P1. repeat split; try congruence. destruct q; try (destruct Q; fail); auto.
Qed.
Lemma op_end : forall n s s0 t c e p v k g v' g' r, at_op s t c e p v k g ->
  (forall b, let m := m_run (mkMS v k g (n_alive s) (upd (fun _ => MIdle) t p) (fun _ => false) (fun _ => 0) (fun _ => None)) t b in
     m_pc m t = MIdle /\ m_val m = v' /\ m_guard m = g' /\ m_res m t = Some r) ->
  frame s0 s t e -> within (S n) s t (fun s' => ended s0 s' t e v' g' r).
Proof.
  intros n s s0 t c e p v k g v' g' r (EP & EV & EK & EG) M F. apply within_step. intros b OB.
  destruct (op_run s t c e p b EP) as (F1 & V1 & K1 & G1 & P1). specialize (M b). cbv zeta in M.
  unfold n_view in *. rewrite EV, EK, EG in *. destruct M as (M1 & M2 & M3 & M4). rewrite M1, M4 in P1. destruct P1 as [P1 P2].
  apply within_done; auto. unfold ended. split; [eapply frame_trans; eauto | repeat split; congruence].
Qed.

Lemma op_lock_free : forall s t n k e, t <> 0 -> n_pc s t = NOp (NLock n k) e (MRead k) -> n_val s e = 0 ->
  within 3 s t (fun s' => ended s s' t e t (n_guard s) OK).
Proof.
  intros s t n k e T0 EP EV.
  eapply (op_goto _ s s t _ e _ 0 (n_cnt s e) (n_guard s) (MCas k) 0 (n_cnt s e) (n_guard s));
    [repeat split; eauto | mstep | exact I | apply frame_refl |]. intros s1 F1 A1 O1.
  eapply (op_goto _ s1 s t _ e _ _ _ _ (MAdd2 k) t (n_cnt s e) (n_guard s)); [exact O1 | mstep | exact I | exact F1 |]. intros s2 F2 A2 O2.
  eapply op_end; [exact O2 | mstep | exact F2].
Qed.
Lemma op_lock_own : forall s t n k e, t <> 0 -> n_pc s t = NOp (NLock n k) e (MRead k) -> n_val s e = t -> 0 <= n_cnt s e ->
  within 3 s t (fun s' => ended s s' t e t (n_guard s) OK).
Proof.
  intros s t n k e T0 EP EV C0. assert (C1 : (0 <=? n_cnt s e) = true) by (apply Z.leb_le; auto).
  eapply (op_goto _ s s t _ e _ t (n_cnt s e) (n_guard s) (MAdd k) t (n_cnt s e) (n_guard s));
    [repeat split; eauto | mstep | exact I | apply frame_refl |]. intros s1 F1 A1 O1.
  eapply (op_goto _ s1 s t _ e _ _ _ _ (MConfirm k) t (n_cnt s e + 1) (n_guard s)); [exact O1 | | exact I | exact F1 |].
  { intros b; cbv zeta; unfold m_run; cbn [m_pc]; rewrite upd_eq; cbn [m_val m_cnt m_guard m_alive]. rewrite C1. cbn. rewrite upd_eq. auto. }
  intros s2 F2 A2 O2.
  eapply op_end; [exact O2 | mstep | exact F2].
Qed.
Lemma op_lock_busy : forall s t n e v, v <> 0 -> v <> t -> n_pc s t = NOp (NLock n MTry) e (MRead MTry) -> n_val s e = v ->
  within 2 s t (fun s' => ended s s' t e v (n_guard s) EBUSY).
Proof.
  intros s t n e v V0 VT EP EV.
  eapply (op_goto _ s s t _ e _ v (n_cnt s e) (n_guard s) (MCas MTry) v (n_cnt s e) (n_guard s));
    [repeat split; eauto | mstep | exact I | apply frame_refl |]. intros s1 F1 A1 O1.
  eapply op_end; [exact O1 | mstep | exact F1].
Qed.
(** unlock: the guard [g] is dropped at the end if the call has it *)
Definition after_guard (g : bool) (G t : Z) : Z := if g then (if G =? t then 0 else G) else G.
Lemma op_unlock_end : forall n s0 s t c e r v k G, frame s0 s t e -> at_op s t c e (MURel r) v k G ->
  within (S n) s t (fun s' => ended s0 s' t e v (after_guard true G t) r).
Proof.
  intros n s0 s t c e r v k G F O. eapply op_end; [exact O | | exact F].
  intros b; cbv zeta; unfold m_run; cbn [m_pc]; rewrite upd_eq; cbn [m_val m_cnt m_guard m_alive].
  unfold m_drop_guard. simpl. destruct (G =? t); simpl; rewrite ?upd_eq; auto.
Qed.
Lemma op_unlock_free : forall n s t c e g, n_pc s t = NOp c e (MU0 g) -> n_val s e = 0 ->
  within (S (S n)) s t (fun s' => ended s s' t e 0 (after_guard g (n_guard s) t) OK).
Proof.
  intros n s t c e [|] EP EV.
  - eapply (op_goto _ s s t _ e _ 0 (n_cnt s e) (n_guard s) (MURel OK) 0 (n_cnt s e) (n_guard s));
      [repeat split; eauto | mstep | exact I | apply frame_refl |]. intros s1 F1 A1 O1. eapply op_unlock_end; eauto.
  - eapply op_end with (s0 := s); [repeat split; eauto | rewrite EV; mstep | apply frame_refl].
Qed.
Lemma op_unlock_other : forall n s t c e g v, v <> 0 -> v <> t -> n_pc s t = NOp c e (MU0 g) -> n_val s e = v ->
  within (S (S (S n))) s t (fun s' => ended s s' t e v (after_guard g (n_guard s) t) EPERM).
Proof.
  intros n s t c e g v V0 VT EP EV.
  eapply (op_goto _ s s t _ e _ v (n_cnt s e) (n_guard s) (MU1 g) v (n_cnt s e) (n_guard s));
    [repeat split; eauto | mstep | exact I | apply frame_refl |]. intros s1 F1 A1 O1.
  destruct g.
  - eapply (op_goto _ s1 s t _ e _ _ _ _ (MURel EPERM) v (n_cnt s e) (n_guard s)); [exact O1 | mstep | exact I | exact F1 |].
    intros s2 F2 A2 O2. eapply op_unlock_end; eauto.
  - eapply op_end; [exact O1 | mstep | exact F1].
Qed.
(** the loop counts down one lock per turn *)
Lemma op_unlock_own : forall m s0 s t c e g k G, t <> 0 -> frame s0 s t e -> at_op s t c e (MU0 g) t k G -> (Z.to_nat (k - 1) <= m)%nat ->
  within (6 + 3 * m) s t (fun s' => ended s0 s' t e 0 (after_guard g G t) OK).
Proof.
  induction m as [|m IH]; intros s0 s t c e g k G T0 F0 O0 LE.
  - eapply (op_goto _ s s0 t _ e _ _ _ _ (MU1 g) t k G); [exact O0 | mstep | exact I | exact F0 |]. intros s1 F1 A1 O1.
    eapply (op_goto _ s1 s0 t _ e _ _ _ _ (MU2 g) t k G); [exact O1 | mstep | exact I | exact F1 |]. intros s2 F2 A2 O2.
    assert (K1 : (k <=? 1) = true) by (apply Z.leb_le; lia).
    assert (END : forall n s3 k3, frame s0 s3 t e -> at_op s3 t c e (MU4 g) t k3 G -> within (S (S n)) s3 t (fun s' => ended s0 s' t e 0 (after_guard g G t) OK)).
    { intros n s3 k3 F3 O3. destruct g.
      - eapply (op_goto _ s3 s0 t _ e _ _ _ _ (MURel OK) 0 k3 G); [exact O3 | mstep | exact I | exact F3 |].
        intros s4 F4 A4 O4. eapply op_unlock_end; eauto.
      - eapply op_end; [exact O3 | mstep | exact F3]. }
    destruct (k <? 1) eqn:K2.
    + eapply (op_goto _ s2 s0 t _ e _ _ _ _ (MU3 g k) t (k - 1) G); [exact O2 | | exact I | exact F2 |].
      { intros b; cbv zeta; unfold m_run; cbn [m_pc]; rewrite upd_eq; cbn [m_val m_cnt m_guard m_alive]. rewrite K1, K2. cbn. rewrite upd_eq. auto. }
      intros s3 F3 A3 O3.
      eapply (op_goto _ s3 s0 t _ e _ _ _ _ (MU4 g) t (k - 1) G); [exact O3 | | exact I | exact F3 |].
      { intros b; cbv zeta; unfold m_run; cbn [m_pc]; rewrite upd_eq; cbn [m_val m_cnt m_guard m_alive]. rewrite (neqb (k - 1) k) by lia.
        cbn. rewrite upd_eq. auto. }
      intros s4 F4 A4 O4. eapply END; eauto.
    + eapply (op_goto _ s2 s0 t _ e _ _ _ _ (MU4 g) t (k - 1) G); [exact O2 | | exact I | exact F2 |].
      { intros b; cbv zeta; unfold m_run; cbn [m_pc]; rewrite upd_eq; cbn [m_val m_cnt m_guard m_alive]. rewrite K1, K2. cbn. rewrite upd_eq. auto. }
      intros s3 F3 A3 O3. eapply END; eauto.
  - destruct (Z.leb_spec k 1) as [L|L].
    + apply (within_more (6 + 3 * m)); [intros s' E; apply E | lia | eapply IH; eauto; lia].
    + replace (6 + 3 * S m)%nat with (S (S (S (6 + 3 * m)))) by lia.
      eapply (op_goto _ s s0 t _ e _ _ _ _ (MU1 g) t k G); [exact O0 | mstep | exact I | exact F0 |]. intros s1 F1 A1 O1.
      eapply (op_goto _ s1 s0 t _ e _ _ _ _ (MU2 g) t k G); [exact O1 | mstep | exact I | exact F1 |]. intros s2 F2 A2 O2.
      assert (K1 : (k <=? 1) = false) by (apply Z.leb_gt; lia).
      eapply (op_goto _ s2 s0 t _ e _ _ _ _ (MU0 g) t (k - 1) G); [exact O2 | | exact I | exact F2 |].
      { intros b; cbv zeta; unfold m_run; cbn [m_pc]; rewrite upd_eq; cbn [m_val m_cnt m_guard m_alive]. rewrite K1. cbn. rewrite upd_eq. auto. }
      intros s3 F3 A3 O3. eapply IH; eauto. lia.
Qed.

(** ** The recovery pass *)
Definition pframe (s s' : nstate) (t : Z) : Prop :=
  n_list s' = n_list s /\ n_free s' = n_free s /\ (forall x, n_key s' x = n_key s x) /\ (forall u, n_alive s' u = n_alive s u) /\
  (forall u, u <> t -> n_pc s' u = n_pc s u).
Lemma pframe_trans : forall s1 s2 s3 t, pframe s1 s2 t -> pframe s2 s3 t -> pframe s1 s3 t.
Proof.
  intros s1 s2 s3 t (A & B & C & D & F) (A' & B' & C' & D' & F'). unfold pframe.
  split; [congruence|]. split; [congruence|]. split; [intros; rewrite C'; auto|]. split; [intros; rewrite D'; auto|].
  intros; rewrite F'; auto.
Qed.
Lemma pframe_refl : forall s t, pframe s s t.
Proof. unfold pframe. intros. repeat split; auto. Qed.
Definition at_pass (s : nstate) (t : Z) (w : option (ncall * Z)) (es : list Z) (e : Z) (p : mpc) (v k g : Z) : Prop :=
  n_pc s t = NPAt w es e p /\ n_val s e = v /\ n_cnt s e = k /\ n_guard s = g.
Definition vals (s0 s : nstate) (e : Z) : Prop := forall x, x <> e -> n_val s x = n_val s0 x.

Lemma pass_goto : forall n s s0 t w es e p v k g q v' k' g' P, at_pass s t w es e p v k g ->
  (forall b, let m := m_run (mkMS v k g (n_alive s) (upd (fun _ => MIdle) t p) (fun _ => false) (fun _ => 0) (fun _ => None)) t b in
     m_pc m t = q /\ m_val m = v' /\ m_cnt m = k' /\ m_guard m = g') ->
  match q with MKRel _ => False | _ => True end ->
  pframe s0 s t -> vals s0 s e ->
  (forall s', pframe s0 s' t -> vals s0 s' e -> at_pass s' t w es e q v' k' g' -> within n s' t P) -> within (S n) s t P.
Proof.
  intros n s s0 t w es e p v k g q v' k' g' P (EP & EV & EK & EG) M Q F V H. apply within_step. intros b OB.
  specialize (M b). cbv zeta in M.
  assert (X : n_run s t b = n_goto (n_back s e (m_run (n_view s e t p) t b)) t (NPAt w es e q)).
  { unfold n_run. rewrite EP. unfold n_view. rewrite EV, EK, EG. destruct M as (M1 & _). cbv zeta. rewrite M1. destruct q; try (destruct Q; fail); auto. }
  rewrite X. unfold n_view. rewrite EV, EK, EG. destruct M as (M1 & M2 & M3 & M4). apply H.
  - eapply pframe_trans; eauto. unfold pframe. simpl. repeat split; auto. intros. rewrite upd_neq; auto.
  - intros x N. simpl. rewrite upd_neq; auto.
  - unfold at_pass. simpl. rewrite !upd_eq. auto.
Qed.
Lemma pass_rel : forall n s s0 t w es e p v k g ret v' g' P, at_pass s t w es e p v k g ->
  (forall b, let m := m_run (mkMS v k g (n_alive s) (upd (fun _ => MIdle) t p) (fun _ => false) (fun _ => 0) (fun _ => None)) t b in
     m_pc m t = MKRel ret /\ m_val m = v' /\ m_guard m = g') ->
  pframe s0 s t -> vals s0 s e ->
  (forall s', pframe s0 s' t -> vals s0 s' e -> n_pc s' t = NPass w es -> n_val s' e = v' -> n_guard s' = g' -> within n s' t P) -> within (S n) s t P.
Proof.
  intros n s s0 t w es e p v k g ret v' g' P (EP & EV & EK & EG) M F V H. apply within_step. intros b OB.
  specialize (M b). cbv zeta in M.
  assert (X : n_run s t b = n_goto (n_back s e (m_run (n_view s e t p) t b)) t (NPass w es)).
  { unfold n_run. rewrite EP. unfold n_view. rewrite EV, EK, EG. destruct M as (M1 & _). cbv zeta. rewrite M1. auto. }
  rewrite X. unfold n_view. rewrite EV, EK, EG. destruct M as (M1 & M2 & M3). apply H; simpl; rewrite ?upd_eq; auto.
  - eapply pframe_trans; eauto. unfold pframe. simpl. repeat split; auto. intros. rewrite upd_neq; auto.
  - intros x N. simpl. rewrite upd_neq; auto.
Qed.

Definition cleared (s : nstate) (x : Z) : Z := if n_alive s (n_val s x) then n_val s x else 0.
Lemma pass_entry : forall n s s0 t w es e (P : nstate -> Prop), n_pc s t = NPass w (e :: es) -> n_alive s t = true -> n_alive s 0 = true -> pframe s0 s t ->
  (forall s', P s' -> n_pc s' t = NIdle) ->
  (forall s', pframe s0 s' t -> (forall x, x <> e -> n_val s' x = n_val s x) -> n_val s' e = cleared s e -> n_guard s' = n_guard s ->
     n_pc s' t = NPass w es -> within n s' t P) -> within (7 + n) s t P.
Proof.
  intros n s s0 t w es e P EP AT A0 F0 CP H.
  assert (H' : forall s', pframe s s' t -> vals s s' e -> n_val s' e = cleared s e -> n_guard s' = n_guard s ->
     n_pc s' t = NPass w es -> within n s' t P).
  { intros s' F V E1 E2 E3. apply H; auto. eapply pframe_trans; eauto. }
  clear H. apply within_step. intros b OB.
  set (s1 := n_run s t b).
  assert (X : s1 = n_goto s t (NPAt w es e (n_start w e))) by (unfold s1, n_run; rewrite EP; auto).
  assert (F1 : pframe s s1 t) by (rewrite X; unfold pframe; simpl; repeat split; auto; intros; rewrite upd_neq; auto).
  assert (V1 : vals s s1 e) by (rewrite X; intros x N; auto).
  assert (AL1 : forall u, n_alive s1 u = n_alive s u) by (destruct F1 as (_ & _ & _ & D & _); auto).
  unfold n_start in X.
  set (r := match w with Some (_, x) => if x =? e then Some MBlock else None | None => None end) in X.
  assert (O1 : at_pass s1 t w es e (MK0 r) (n_val s e) (n_cnt s e) (n_guard s)) by (rewrite X; unfold at_pass; simpl; rewrite upd_eq; auto).
  clearbody s1. clear X. unfold cleared in H'.
  destruct ((n_val s e =? 0) || (n_val s e =? t)) eqn:E.
  - assert (AL : n_alive s (n_val s e) = true).
    { apply orb_true_iff in E as [E|E]; apply Z.eqb_eq in E; rewrite E; auto. }
    rewrite AL in H'. apply (within_more (S n)); [exact CP | lia |].
    eapply (pass_rel _ s1 s t w es e _ _ _ _ r); [exact O1 | | exact F1 | exact V1 | ].
    + intros b'. cbv zeta. unfold m_run. cbn [m_pc]. rewrite upd_eq. cbn [m_val m_cnt m_guard m_alive]. rewrite E. cbn. rewrite upd_eq. auto.
    + intros s2 F2 V2 P2 E2 G2. apply H'; auto.
  - eapply (pass_goto _ s1 s t w es e _ _ _ _ (MK1 r (n_val s e))); [exact O1 | | exact I | exact F1 | exact V1 | ].
    { intros b'. cbv zeta. unfold m_run. cbn [m_pc]. rewrite upd_eq. cbn [m_val m_cnt m_guard m_alive]. rewrite E. cbn. rewrite upd_eq. auto. }
    intros s2 F2 V2 O2. assert (AL2 : n_alive s2 (n_val s e) = n_alive s (n_val s e)) by (destruct F2 as (_ & _ & _ & D & _); auto).
    apply orb_false_iff in E as [E0 ET]. apply Z.eqb_neq in E0, ET.
    destruct (n_alive s (n_val s e)) eqn:AL.
    + apply (within_more (S n)); [exact CP | lia |].
      eapply (pass_rel _ s2 s t w es e _ _ _ _ r); [exact O2 | | exact F2 | exact V2 | ].
      * intros b'. cbv zeta. unfold m_run. cbn [m_pc]. rewrite upd_eq. cbn [m_val m_cnt m_guard m_alive]. rewrite AL2. cbn. rewrite upd_eq. auto.
      * intros s3 F3 V3 P3 E3 G3. apply H'; auto.
    + eapply (pass_goto _ s2 s t w es e _ _ _ _ (MF0 r)); [exact O2 | | exact I | exact F2 | exact V2 | ].
      { intros b'. cbv zeta. unfold m_run. cbn [m_pc]. rewrite upd_eq. cbn [m_val m_cnt m_guard m_alive]. rewrite AL2. cbn. rewrite upd_eq. auto. }
      intros s3 F3 V3 O3.
      assert (TAIL : forall s4, pframe s s4 t -> vals s s4 e -> at_pass s4 t w es e (MF2 r) (n_val s e) 0 (n_guard s) -> within (S (S n)) s4 t P).
      { intros s4 F4 V4 O4.
        eapply (pass_goto _ s4 s t w es e _ _ _ _ (MF3 r (n_val s e))); [exact O4 | mstep | exact I | exact F4 | exact V4 | ].
        intros s5 F5 V5 O5.
        eapply (pass_rel _ s5 s t w es e _ _ _ _ r); [exact O5 | mstep | exact F5 | exact V5 | ].
        intros s6 F6 V6 P6 E6 G6. apply H'; auto. }
      destruct (n_cnt s e =? 0) eqn:EC.
      * apply (within_more (S (S (S n)))); [exact CP | lia |].
        eapply (pass_goto _ s3 s t w es e _ _ _ _ (MF2 r) (n_val s e) 0); [exact O3 | | exact I | exact F3 | exact V3 | exact TAIL].
        intros b'. cbv zeta. unfold m_run. cbn [m_pc]. rewrite upd_eq. cbn [m_val m_cnt m_guard m_alive]. rewrite EC. cbn. rewrite upd_eq.
        apply Z.eqb_eq in EC. auto.
      * eapply (pass_goto _ s3 s t w es e _ _ _ _ (MF1 r (n_cnt s e))); [exact O3 | | exact I | exact F3 | exact V3 | ].
        { intros b'. cbv zeta. unfold m_run. cbn [m_pc]. rewrite upd_eq. cbn [m_val m_cnt m_guard m_alive]. rewrite EC. cbn. rewrite upd_eq. auto. }
        intros s4 F4 V4 O4.
        eapply (pass_goto _ s4 s t w es e _ _ _ _ (MF2 r) (n_val s e) 0); [exact O4 | mstep | exact I | exact F4 | exact V4 | exact TAIL].
Qed.
Lemma cleared_alive : forall s x, n_alive s 0 = true -> n_alive s (cleared s x) = true.
Proof. intros s x A. unfold cleared. destruct (n_alive s (n_val s x)) eqn:E; auto. Qed.
(** the walk over the list: owners of the entries passed that are dead are gone, everything else is as before *)
Lemma pass_walk : forall es n s s0 t w (P : nstate -> Prop), n_pc s t = NPass w es -> n_alive s t = true -> n_alive s 0 = true -> pframe s0 s t ->
  (forall x, n_val s x = n_val s0 x \/ n_val s x = cleared s0 x) ->
  (forall s', P s' -> n_pc s' t = NIdle) ->
  (forall s', pframe s0 s' t -> (forall x, n_val s' x = n_val s0 x \/ n_val s' x = cleared s0 x) ->
     (forall x, In x es -> n_val s' x = cleared s0 x) -> (forall x, n_val s x = cleared s0 x -> n_val s' x = cleared s0 x) -> n_guard s' = n_guard s ->
     n_pc s' t = NPass w [] -> within n s' t P) -> within (7 * length es + n) s t P.
Proof.
  induction es as [|e es IH]; intros n s s0 t w P EP AT A0 F0 V0 CP H.
  - simpl. apply H; auto. intros x [].
  - replace (7 * length (e :: es) + n)%nat with (7 + (7 * length es + n))%nat by (simpl; lia).
    assert (AL : forall u, n_alive s u = n_alive s0 u) by (destruct F0 as (_ & _ & _ & D & _); auto).
    assert (CE : forall x, n_val s x = n_val s0 x \/ n_val s x = cleared s0 x -> cleared s x = cleared s0 x).
    { intros x D. unfold cleared at 1. rewrite AL. destruct D as [D|D]; rewrite D; auto.
      rewrite (cleared_alive s0 x) by (rewrite <- AL; auto). auto. }
    apply (pass_entry _ s s0 t w es e); auto. intros s1 F1 V1 E1 G1 P1.
    assert (AL1 : forall u, n_alive s1 u = n_alive s0 u) by (destruct F1 as (_ & _ & _ & D & _); auto).
    assert (KEEP : forall x, n_val s x = cleared s0 x -> n_val s1 x = cleared s0 x).
    { intros x C. destruct (Z.eq_dec x e) as [->|N]; [rewrite E1; auto | rewrite V1; auto]. }
    apply (IH n s1 s0 t w P P1); auto.
    + rewrite AL1, <- AL; auto.
    + rewrite AL1, <- AL; auto.
    + intros x. destruct (Z.eq_dec x e) as [->|N]; [right; rewrite E1; auto | rewrite V1; auto].
    + intros s2 F2 V2 I2 K2 G2 P2. apply H; auto.
      * intros x [->|IN]; auto. apply K2. rewrite E1. auto.
      * congruence.
Qed.

(** ** Whole calls in a quiet state *)
Section Quiet.
Variables (U : list Z) (key : Z -> nameent) (val cnt : Z -> Z).
Hypothesis ND : NoDup U.
Variables (s : nstate) (h : list nevent) (t : Z).
Hypothesis H : n_history (n_init U key val cnt) n_any s h.
Hypothesis QUIET : forall u, n_alive s u = true -> n_pc s u = NIdle.
Hypothesis T0 : t <> 0.
Hypothesis AL : n_alive s t = true.

Lemma q_inv : ninv AnyTime s.
Proof. exact (ninv_reach AnyTime U key val cnt s h ND H). Qed.
Lemma q_take : (n_guard s =? 0) || (n_guard s =? t) || negb (n_alive s (n_guard s)) = true.
Proof.
  destruct (n_guard s =? 0) eqn:E; auto. destruct (n_alive s (n_guard s)) eqn:A; [|destruct (n_guard s =? t); auto].
  exfalso. apply Z.eqb_neq in E. pose proof (guard_inside U key val cnt s h ND H (n_guard s) E eq_refl A) as G.
  rewrite (QUIET _ A) in G. exact G.
Qed.
Lemma q_found : forall c e, proper_name c -> In e (n_list s) -> ename s e = canon (about c) -> n_find s (ckey c) = Some e.
Proof.
  intros c e PN IN E. destruct (n_find s (ckey c)) as [f|] eqn:F.
  - destruct (find_some AnyTime s c f q_inv PN F) as [IF EF]. f_equal. apply (ni_one _ _ q_inv); auto. congruence.
  - exfalso. exact (find_none AnyTime s c q_inv PN F e IN E).
Qed.
Lemma q_missing : forall c, proper_name c -> (forall e, In e (n_list s) -> ename s e <> canon (about c)) -> n_find s (ckey c) = None.
Proof.
  intros c PN N. destruct (n_find s (ckey c)) as [f|] eqn:F; auto. exfalso.
  destruct (find_some AnyTime s c f q_inv PN F) as [IF EF]. exact (N f IF EF).
Qed.

(** the state in which the lookup starts *)
Definition q_s1 (p : npc) : nstate := n_goto s t (NWait p).
Definition q_s2 (p : npc) : nstate := n_goto (n_set_guard (q_s1 p) t) t p.
Lemma q_run1 : forall b p, n_run (q_s1 p) t b = q_s2 p.
Proof. intros b p. unfold n_run, q_s1 at 1. simpl. rewrite upd_eq. rewrite q_take. reflexivity. Qed.
Lemma q_start : forall c, accepted c -> n_call s t c = q_s1 (NFind c).
Proof. intros c A. unfold n_call. rewrite (QUIET t AL). destruct c as [[n|] k|[n|]|n| ]; simpl in A; try (destruct A; fail); auto. Qed.
Lemma q_find : forall c, n_find (q_s2 (NFind c)) (ckey c) = n_find s (ckey c).
Proof. reflexivity. Qed.
Lemma q_frame : forall p q g e, frame s (n_goto (n_set_guard (n_goto (q_s2 p) t q) g) t q) t e.
Proof. intros. unfold frame. simpl. repeat split; auto. intros u N. rewrite !upd_neq; auto. Qed.

Lemma q_within : forall c n P, accepted c -> within n (q_s2 (NFind c)) t P -> within (S n) (n_call s t c) t P.
Proof. intros c n P A W. rewrite q_start by auto. apply within_step. intros b OB. rewrite q_run1. exact W. Qed.

(** the name is known: the mutex code starts with the guard released *)
Lemma q_lock_known : forall n k e m (P : nstate -> Prop), is_cstring n -> In e (n_list s) -> ename s e = canon (Some n) ->
  (forall s', frame s s' t e -> n_val s' e = n_val s e -> n_cnt s' e = n_cnt s e -> n_guard s' = 0 ->
     n_pc s' t = NOp (NLock (Some n) k) e (MRead k) -> within m s' t P) ->
  within (3 + m) (n_call s t (NLock (Some n) k)) t P.
Proof.
  intros n k e m P CN IN EN HP. set (c := NLock (Some n) k).
  apply q_within; [exact I|]. apply within_step. intros b OB.
  assert (X : n_run (q_s2 (NFind c)) t b = n_goto (q_s2 (NFind c)) t (NRelOp c e)).
  { unfold n_run. unfold q_s2 at 1. cbn [n_pc n_goto]. rewrite upd_eq. rewrite q_find, (q_found c e) by (auto; exact CN). reflexivity. }
  rewrite X. apply within_step. intros b2 OB2.
  assert (X2 : n_run (n_goto (q_s2 (NFind c)) t (NRelOp c e)) t b2 = n_goto (n_set_guard (n_goto (q_s2 (NFind c)) t (NRelOp c e)) 0) t (NOp c e (MRead k))).
  { unfold n_run. cbn [n_pc n_goto]. rewrite upd_eq. unfold n_drop_guard. cbn [n_guard n_goto q_s2 n_set_guard]. rewrite Z.eqb_refl. reflexivity. }
  rewrite X2. apply HP; try reflexivity; [|simpl; rewrite upd_eq; auto].
  unfold frame. simpl. repeat split; auto. intros u N. rewrite !upd_neq; auto.
Qed.
Lemma q_lock_free : forall n k e, is_cstring n -> In e (n_list s) -> ename s e = canon (Some n) -> n_val s e = 0 ->
  within 6 (n_call s t (NLock (Some n) k)) t (fun s' => ended s s' t e t 0 OK).
Proof.
  intros n k e CN IN EN V. apply (q_lock_known n k e 3); auto. intros s' F V' C' G' P'.
  eapply within_weak; [|eapply op_lock_free; eauto; congruence].
  intros s2 (F2 & A & B & C & D). split; [eapply frame_trans; eauto | rewrite G' in D; auto].
Qed.
Lemma q_lock_busy : forall n e, is_cstring n -> In e (n_list s) -> ename s e = canon (Some n) -> n_val s e <> 0 -> n_val s e <> t ->
  within 5 (n_call s t (NLock (Some n) MTry)) t (fun s' => ended s s' t e (n_val s e) 0 EBUSY).
Proof.
  intros n e CN IN EN V0 VT. apply (q_lock_known n MTry e 2); auto. intros s' F V' C' G' P'.
  eapply within_weak; [|eapply (op_lock_busy s' t (Some n) e (n_val s e)); eauto].
  intros s2 (F2 & A & B & C & D). split; [eapply frame_trans; eauto | rewrite G' in D; auto].
Qed.
Lemma q_lock_new : forall n k e fr, is_cstring n -> (forall x, In x (n_list s) -> ename s x <> canon (Some n)) -> n_free s = e :: fr ->
  within 8 (n_call s t (NLock (Some n) k)) t (fun s' => n_pc s' t = NIdle /\ n_res s' t = Some OK /\ n_guard s' = 0 /\
    n_list s' = e :: n_list s /\ n_free s' = fr /\ ename s' e = canon (Some n) /\ n_val s' e = t /\
    (forall x, x <> e -> ename s' x = ename s x /\ n_val s' x = n_val s x)).
Proof.
  intros n k e fr CN NEW FR. set (c := NLock (Some n) k).
  apply q_within; [exact I|]. apply within_step. intros b OB.
  set (s3 := n_goto (n_set_lists (q_s2 (NFind c)) (n_list s) fr) t (NInit c e)).
  assert (X : n_run (q_s2 (NFind c)) t b = s3).
  { unfold n_run. unfold q_s2 at 1. cbn [n_pc n_goto]. rewrite upd_eq. rewrite q_find, (q_missing c) by (auto; exact CN).
    unfold c at 1. cbn [n_free q_s2 n_goto n_set_guard q_s1]. rewrite FR. reflexivity. }
  rewrite X. apply within_step. intros b2 OB2.
  set (s4 := n_goto (n_set_ent s3 e (ckey c) 0 0) t (NIns c e)).
  assert (X2 : n_run s3 t b2 = s4) by (unfold n_run, s3 at 1; cbn [n_pc n_goto]; rewrite upd_eq; reflexivity).
  rewrite X2. apply within_step. intros b3 OB3.
  set (s5 := n_goto (n_set_lists s4 (e :: n_list s) fr) t (NRelOp c e)).
  assert (X3 : n_run s4 t b3 = s5) by (unfold n_run, s4 at 1; cbn [n_pc n_goto]; rewrite upd_eq; reflexivity).
  rewrite X3. apply within_step. intros b4 OB4.
  set (s6 := n_goto (n_set_guard s5 0) t (NOp c e (MRead k))).
  assert (X4 : n_run s5 t b4 = s6).
  { unfold n_run, s5 at 1. cbn [n_pc n_goto]. rewrite upd_eq. unfold n_drop_guard. cbn [n_guard n_goto s5 s4 s3 q_s2 n_set_guard n_set_ent n_set_lists].
    rewrite Z.eqb_refl. reflexivity. }
  rewrite X4. eapply within_weak; [|eapply (op_lock_free s6 t (Some n) k e)]; auto.
  - intros s' ((F1 & F2 & F3 & F4 & F5 & F6) & A & B & C & D). repeat split; auto.
    + unfold ename. rewrite F3. simpl. rewrite upd_eq. unfold ckey. rewrite key_name, canon_str. auto.
    + unfold ename. rewrite F3. simpl. rewrite upd_neq; auto.
    + rewrite F5 by auto. simpl. rewrite upd_neq; auto.
  - simpl. rewrite upd_eq. auto.
  - simpl. rewrite upd_eq. auto.
Qed.
(** refusals before the mutex code is reached *)
Lemma q_refused : forall c r, accepted c -> proper_name c -> (forall x, In x (n_list s) -> ename s x <> canon (about c)) ->
  (match c with NLock _ _ => n_free s = [] /\ r = ENOLCK | _ => r = EINVAL end) ->
  within 3 (n_call s t c) t (fun s' => n_pc s' t = NIdle /\ n_res s' t = Some r /\ n_guard s' = 0 /\
    n_list s' = n_list s /\ n_free s' = n_free s /\ (forall x, n_val s' x = n_val s x) /\ (forall x, ename s' x = ename s x)).
Proof.
  intros c r AC PN NEW R. apply q_within; auto. apply within_step. intros b OB.
  assert (X : n_run (q_s2 (NFind c)) t b = n_goto (q_s2 (NFind c)) t (NRelRet r)).
  { unfold n_run. unfold q_s2 at 1. cbn [n_pc n_goto]. rewrite upd_eq. rewrite q_find, (q_missing c) by auto.
    destruct c as [n k|n|n| ]; [|subst r; reflexivity ..]. destruct R as [FR ->]. cbn [n_free q_s2 n_goto n_set_guard q_s1]. rewrite FR. reflexivity. }
  rewrite X. apply within_step. intros b2 OB2.
  assert (X2 : n_run (n_goto (q_s2 (NFind c)) t (NRelRet r)) t b2 = n_return (n_set_guard (n_goto (q_s2 (NFind c)) t (NRelRet r)) 0) t r).
  { unfold n_run. cbn [n_pc n_goto]. rewrite upd_eq. unfold n_drop_guard. cbn [n_guard n_goto q_s2 n_set_guard]. rewrite Z.eqb_refl. reflexivity. }
  rewrite X2. apply within_done; simpl; rewrite ?upd_eq; repeat split; auto.
Qed.
Lemma q_unlock : forall n e m (P : nstate -> Prop), is_cstring n -> In e (n_list s) -> ename s e = canon (Some n) ->
  (forall s', frame s s' t e -> n_val s' e = n_val s e -> n_cnt s' e = n_cnt s e -> n_guard s' = t ->
     n_pc s' t = NOp (NUnlock (Some n)) e (MU0 true) -> within m s' t P) ->
  within (2 + m) (n_call s t (NUnlock (Some n))) t P.
Proof.
  intros n e m P CN IN EN HP. set (c := NUnlock (Some n)).
  apply q_within; [exact I|]. apply within_step. intros b OB.
  assert (X : n_run (q_s2 (NFind c)) t b = n_goto (q_s2 (NFind c)) t (NOp c e (MU0 true))).
  { unfold n_run. unfold q_s2 at 1. cbn [n_pc n_goto]. rewrite upd_eq. rewrite q_find, (q_found c e) by (auto; exact CN). reflexivity. }
  rewrite X. apply HP; try reflexivity; [|simpl; rewrite upd_eq; auto].
  unfold frame. simpl. repeat split; auto. intros u N. rewrite !upd_neq; auto.
Qed.
Lemma q_unlock_own : forall n e, is_cstring n -> In e (n_list s) -> ename s e = canon (Some n) -> n_val s e = t ->
  within (8 + 3 * Z.to_nat (n_cnt s e)) (n_call s t (NUnlock (Some n))) t (fun s' => ended s s' t e 0 0 OK).
Proof.
  intros n e CN IN EN V. apply (q_unlock n e (6 + 3 * Z.to_nat (n_cnt s e))); auto. intros s' F V' C' G' P'.
  eapply within_weak; [|eapply (op_unlock_own _ s s' t _ e true (n_cnt s e) t); eauto; [repeat split; eauto; congruence | lia]].
  intros s2 (F2 & A & B & C & D). unfold after_guard in D. rewrite Z.eqb_refl in D. repeat split; auto; apply F2.
Qed.
Lemma q_unlock_other : forall n e, is_cstring n -> In e (n_list s) -> ename s e = canon (Some n) -> n_val s e <> 0 -> n_val s e <> t ->
  within 5 (n_call s t (NUnlock (Some n))) t (fun s' => ended s s' t e (n_val s e) 0 EPERM).
Proof.
  intros n e CN IN EN V0 VT. apply (q_unlock n e 3); auto. intros s' F V' C' G' P'.
  eapply within_weak; [|eapply (op_unlock_other 0 s' t _ e true (n_val s e)); eauto].
  intros s2 (F2 & A & B & C & D). unfold after_guard in D. rewrite G', Z.eqb_refl in D. split; [eapply frame_trans; eauto | auto].
Qed.
Lemma q_unlock_free : forall n e, is_cstring n -> In e (n_list s) -> ename s e = canon (Some n) -> n_val s e = 0 ->
  within 4 (n_call s t (NUnlock (Some n))) t (fun s' => ended s s' t e 0 0 OK).
Proof.
  intros n e CN IN EN V0. apply (q_unlock n e 2); auto. intros s' F V' C' G' P'.
  eapply within_weak; [|eapply (op_unlock_free 0 s' t _ e true); eauto; congruence].
  intros s2 (F2 & A & B & C & D). unfold after_guard in D. rewrite G', Z.eqb_refl in D. split; [eapply frame_trans; eauto | auto].
Qed.

(** the pass *)
Lemma q_alive0 : n_alive s 0 = true.
Proof. apply (ni_zero _ _ q_inv). Qed.
Lemma pass_end : forall m s' w (P : nstate -> Prop), n_pc s' t = NPass w [] -> n_guard s' = t ->
  (forall s2, pframe s' s2 t -> (forall x, n_val s2 x = n_val s' x) -> n_guard s2 = 0 ->
     match w with None => n_pc s2 t = NIdle /\ n_res s2 t = Some OK | Some (c, e) => n_pc s2 t = NOp c e (MRead MBlock) end -> within m s2 t P) ->
  within (2 + m) s' t P.
Proof.
  intros m s' w P EP EG HP. apply within_step. intros b OB.
  assert (X : n_run s' t b = n_goto s' t (NPRel w)) by (unfold n_run; rewrite EP; auto).
  rewrite X. apply within_step. intros b2 OB2.
  assert (EG2 : n_guard (n_goto s' t (NPRel w)) = t) by exact EG.
  unfold n_run. cbn [n_pc n_goto]. rewrite upd_eq. unfold n_drop_guard. rewrite EG2, Z.eqb_refl.
  destruct w as [[c e]|]; apply HP; simpl; rewrite ?upd_eq; auto; unfold pframe; simpl; repeat split; auto; intros; rewrite !upd_neq; auto.
Qed.
(** from the start of the pass, entered with whatever continuation *)
Lemma q_pass : forall s0 w m (P : nstate -> Prop), pframe s s0 t -> (forall x, n_val s0 x = n_val s x) ->
  (n_guard s0 =? 0) || (n_guard s0 =? t) || negb (n_alive s0 (n_guard s0)) = true ->
  n_pc s0 t = NPEnter w -> (forall s', P s' -> n_pc s' t = NIdle) ->
  (forall s', pframe s s' t -> (forall x, n_val s' x = n_val s x \/ n_val s' x = cleared s x) ->
     (forall x, In x (n_list s) -> n_val s' x = cleared s x) -> (n_list s <> [] -> n_guard s' = 0) ->
     match w with None => n_pc s' t = NIdle /\ n_res s' t = Some OK | Some (c, e) => n_pc s' t = NOp c e (MRead MBlock) end -> within m s' t P) ->
  within (5 + 7 * length (n_list s) + m) s0 t P.
Proof.
  intros s0 w m P F0 V0 TK EP CP HP. assert (L0 : n_list s0 = n_list s) by apply F0.
  assert (A0 : forall u, n_alive s0 u = n_alive s u) by apply F0.
  destruct (n_list s) as [|e0 l0] eqn:EL.
  - simpl. apply (within_more (1 + m)); [exact CP | lia |]. apply within_step. intros b OB. unfold n_run. rewrite EP, L0.
    destruct w as [[c e]|]; apply HP; simpl; rewrite ?upd_eq; auto; try (intros x []; fail); try congruence;
      (eapply pframe_trans; [exact F0|]; unfold pframe; simpl; repeat split; auto; intros; rewrite !upd_neq; auto).
  - rewrite <- EL in *. apply within_step. intros b OB.
    assert (X : n_run s0 t b = n_goto s0 t (NWait (NPStart w))) by (unfold n_run; rewrite EP, L0, EL; auto).
    rewrite X. apply within_step. intros b2 OB2.
    set (s2 := n_goto (n_set_guard (n_goto s0 t (NWait (NPStart w))) t) t (NPStart w)).
    assert (X2 : n_run (n_goto s0 t (NWait (NPStart w))) t b2 = s2).
    { unfold n_run. cbn [n_pc n_goto]. rewrite upd_eq. cbn [n_guard n_alive n_goto]. rewrite TK. reflexivity. }
    rewrite X2. apply within_step. intros b3 OB3.
    set (s3 := n_goto s2 t (NPass w (n_list s))).
    assert (X3 : n_run s2 t b3 = s3).
    { unfold n_run, s2 at 1. cbn [n_pc n_goto]. rewrite upd_eq. unfold s3. replace (n_list s2) with (n_list s) by (simpl; auto). reflexivity. }
    rewrite X3.
    assert (F3 : pframe s s3 t).
    { eapply pframe_trans; [exact F0|]. unfold pframe. simpl. repeat split; auto. intros. rewrite !upd_neq; auto. }
    change (within (2 + (7 * length (n_list s) + m)) s3 t P).
    replace (2 + (7 * length (n_list s) + m))%nat with (7 * length (n_list s) + (2 + m))%nat by lia.
    apply (pass_walk (n_list s) (2 + m) s3 s t w P); auto.
    + simpl. rewrite upd_eq. auto.
    + simpl. rewrite A0. auto.
    + simpl. rewrite A0. exact q_alive0.
    + intros x. left. simpl. apply V0.
    + intros s4 F4 V4 I4 K4 G4 P4. apply (pass_end m s4 w P); auto.
      intros s5 F5 V5 G5 E5. apply HP; auto.
      * eapply pframe_trans; eauto.
      * intros x. rewrite V5. auto.
      * intros x IN. rewrite V5. auto.
Qed.
Lemma q_recover : within (5 + 7 * length (n_list s)) (n_call s t NRecover) t (fun s' =>
  pframe s s' t /\ n_pc s' t = NIdle /\ n_res s' t = Some OK /\ (forall x, In x (n_list s) -> n_val s' x = cleared s x)).
Proof.
  replace (5 + 7 * length (n_list s))%nat with (5 + 7 * length (n_list s) + 0)%nat by lia.
  assert (X : n_call s t NRecover = n_goto s t (NPEnter None)) by (unfold n_call; rewrite (QUIET t AL); auto).
  rewrite X. apply (q_pass _ None 0); auto.
  - unfold pframe. simpl. repeat split; auto. intros. rewrite upd_neq; auto.
  - exact q_take.
  - simpl. rewrite upd_eq. auto.
  - intros s' Y. apply Y.
  - intros s' F V I G [P R]. apply within_done; auto.
Qed.
End Quiet.
End Bits.

(** a blocking lock that runs a pass after its first failed attempt gets the mutex of a dead owner *)
Lemma q_lock_dead : forall U key val cnt s h t n e, NoDup U -> n_history (n_init U key val cnt) n_any s h ->
  (forall u, n_alive s u = true -> n_pc s u = NIdle) -> t <> 0 -> n_alive s t = true ->
  is_cstring n -> In e (n_list s) -> ename s e = canon (Some n) -> n_alive s (n_val s e) = false ->
  within (fun b => b = false) (13 + 7 * length (n_list s)) (n_call s t (NLock (Some n) MBlock)) t (fun s' =>
    n_pc s' t = NIdle /\ n_res s' t = Some OK /\ n_val s' e = t /\ n_list s' = n_list s /\ ename s' e = canon (Some n)).
Proof.
  intros U key val cnt s h t n e ND H QUIET T0 AL CN IN EN DEAD.
  assert (V0 : n_val s e <> 0). { intro E. rewrite E in DEAD. rewrite (q_alive0 U key val cnt ND s h) in DEAD by auto. discriminate. }
  assert (VT : n_val s e <> t) by congruence.
  replace (13 + 7 * length (n_list s))%nat with (3 + (S (S (5 + 7 * length (n_list s) + 3))))%nat by lia.
  apply (q_lock_known (fun b => b = false) U key val cnt ND s h t H QUIET AL n MBlock e); auto.
  intros s1 F1 V1 C1 G1 P1.
  eapply (op_goto _ _ s1 s t _ e _ (n_val s e) (n_cnt s e) 0 (MCas MBlock) (n_val s e) (n_cnt s e) 0);
    [repeat split; eauto | mstep | exact I | exact F1 |]. intros s2 F2 A2 (P2 & V2 & C2 & G2).
  apply within_step. intros b ->.
  destruct (op_run s2 t _ e _ false P2) as (F3 & V3 & C3 & G3 & P3).
  unfold m_run in *. cbn [m_pc n_view] in *. rewrite upd_eq in *. cbn [m_val m_cnt m_guard n_view] in *. rewrite V2 in *.
  rewrite (neqb (n_val s e) 0) in * by auto. cbn in P3, V3, G3. rewrite upd_eq in P3.
  assert (F13 : frame s (n_run s2 t false) t e) by (eapply frame_trans; eauto).
  destruct F13 as (A & B & C & D & E & F).
  apply (q_pass (fun b => b = false) U key val cnt ND s h t H AL _ (Some (NLock (Some n) MBlock, e)) 3); auto.
  - unfold pframe. repeat split; auto.
  - intros x. destruct (Z.eq_dec x e) as [->|N]; [congruence | auto].
  - rewrite G3, G2. reflexivity.
  - intros s' Y. apply Y.
  - intros s4 F4 V4 I4 G4 P4.
    assert (V4e : n_val s4 e = 0) by (rewrite I4 by auto; unfold cleared; rewrite DEAD; auto).
    eapply within_weak; [|eapply op_lock_free; eauto].
    intros s5 ((L5 & _ & K5 & _) & P5 & R5 & V5 & _). destruct F4 as (L4 & _ & K4 & _).
    repeat split; auto; [congruence|]. unfold ename in *. rewrite K5, K4. auto.
Qed.
