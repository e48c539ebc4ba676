(** Named mutexes: the invariant of the registry is kept by every step. *)
From Coq Require Import ZArith List Bool Lia.
From Verif Require Import Base Name_Model Name_Spec Name_Proofs Mutex_Model Mutex_Spec Mutex_Proofs Mutex_Proofs2 Mutex_Props
  Lin_Spec Lin_Proofs Nmtx_Model Nmtx_Spec Nmtx_Proofs.
Import ListNotations.
Open Scope Z_scope.

Section Inv.
Variable d : sched.
Notation ninv := (ninv d).
Notation pc_ok := (pc_ok d).
Notation mok := (mok d).

Lemma pc_ok_ext : forall s s' p, n_list s' = n_list s -> n_free s' = n_free s -> n_key s' = n_key s ->
  (forall e, ~ In e (n_list s) -> n_val s' e = n_val s e /\ n_cnt s' e = n_cnt s e) -> pc_ok s p -> pc_ok s' p.
Proof.
  intros s s' p L F K VC. unfold Nmtx_Proofs.pc_ok, pass_ok, entry_of, ename. rewrite L, F, K.
  destruct p as [ |p|c|c e|c e|c e|r|c e q|w|w|w es|w es e q|w]; auto.
  intros (A & B & C & D & E & G & H). destruct (VC e C) as [-> ->]. auto 10.
Qed.

(** a step that changes its program point, the guard and words of registered entries *)
Lemma words_step : forall s s' t, ninv s -> t <> 0 -> n_alive s t = true ->
  n_list s' = n_list s -> n_free s' = n_free s -> n_key s' = n_key s ->
  (forall e, ~ In e (n_list s) -> n_val s' e = n_val s e /\ n_cnt s' e = n_cnt s e) ->
  (forall u, n_alive s' u = n_alive s u) -> (forall u, u <> t -> n_pc s' u = n_pc s u) ->
  guard_move s s' t -> pc_ok s (n_pc s' t) -> new_of (n_pc s' t) = None ->
  (forall e, In e (n_list s) -> exists m, m_reach mok m /\ R s' e m) -> ninv s'.
Proof.
  intros s s' t I T0 AL L F K VC A O G PC NW ENT.
  assert (NH : forall e, ~ holds_entry (n_pc s' t) e).
  { intros e (c & [E|E]); rewrite E in NW; discriminate. }
  apply (ninv_step d s s' t); auto.
  - rewrite L. apply incl_refl.
  - intros e _. rewrite K. auto.
  - intros u e N H. rewrite L, F, K. pose proof (ni_pc _ _ I u) as P.
    assert (X : ~ In e (n_list s) /\ ~ In e (n_free s)).
    { destruct H as (c & [E|E]); rewrite E in P; simpl in P; tauto. }
    destruct X as [X Y]. destruct (VC e X). auto.
  - apply (pc_ok_ext s); auto.
  - rewrite L, F. apply (ni_nodup _ _ I).
  - intros e H. destruct (NH e H).
  - intros e IN. rewrite L in IN. auto.
  - unfold ename. rewrite L, K. apply (ni_one _ _ I).
  - intros c X. congruence.
  - intros e IN. rewrite L in IN. auto.
Qed.
(** a step that changes its program point and the guard *)
Lemma pc_step : forall s s' t, ninv s -> t <> 0 -> n_alive s t = true ->
  n_list s' = n_list s -> n_free s' = n_free s -> n_key s' = n_key s -> n_val s' = n_val s -> n_cnt s' = n_cnt s ->
  (forall u, n_alive s' u = n_alive s u) -> (forall u, u <> t -> n_pc s' u = n_pc s u) ->
  guard_move s s' t -> pc_ok s (n_pc s' t) -> new_of (n_pc s' t) = None ->
  (forall e, In e (n_list s) -> mproj e (n_pc s' t) = mproj e (n_pc s t) /\
     (n_guard s' = 0 -> n_guard s = t -> ~ in_guard (mproj e (n_pc s t)))) -> ninv s'.
Proof.
  intros s s' t I T0 AL L F K V C A O G PC NW ENT. apply (words_step s s' t); auto.
  - intros e _. rewrite V, C. auto.
  - intros e IN. destruct (ENT e IN) as [P D]. destruct (ni_ent _ _ I e IN) as (m & M & R0). exists m. split; auto.
    apply (R_keep s s' t); auto; congruence.
Qed.

(** what a pass sees of entries *)
Lemma pass_proj_not : forall w es e, in_guard (pass_proj w es e) -> False.
Proof. intros [[c x]|] es e; simpl; auto. destruct (x =? e); auto. destruct (memz e es); auto. Qed.
Lemma pass_proj_in : forall w es e, In e es -> pass_proj w es e = pass_proj w [e] e.
Proof.
  intros [[c x]|] es e IN; simpl; auto. destruct (x =? e); auto. apply memz_in in IN. rewrite IN. rewrite Z.eqb_refl. auto.
Qed.

Lemma shape_not_taking : forall c p, op_shape c p -> takes p = false /\ p <> MIdle.
Proof. intros c [] H; simpl in H; try (destruct H; fail); split; auto; discriminate. Qed.
Lemma pass_not_taking : forall w e p, pass_shape w e p -> takes p = false /\ p <> MIdle /\ in_guard p /\ drops p = false.
Proof. intros w e [] H; simpl in H; try (destruct H; fail); repeat split; auto; discriminate. Qed.

(** points a call can go to *)
Lemma op_next : forall s c t b, op_shape c (m_pc s t) ->
  op_shape c (m_pc (m_run s t b) t) \/ m_pc (m_run s t b) t = MIdle \/
  (m_pc (m_run s t b) t = MKGuard (Some MBlock) /\ exists n, c = NLock (Some n) MBlock).
Proof.
  intros s c t b H. unfold m_run. destruct (m_pc s t) as [ |k|k|k|k|k|k| |g|g|g|g old|g|g|r|ret|ret|ret v|ret|ret x|ret|ret v|ret] eqn:Ep;
    simpl in H; try (destruct H; fail);
  unfold m_take_guard, m_drop_guard, m_unlock_end, m_failed, m_locked, m_unlocked, m_return, m_goto, m_set;
  repeat (match goal with
          | |- context [if ?c then _ else _] => let E := fresh "E" in destruct c eqn:E
          | |- context [match ?x with _ => _ end] => is_var x; destruct x
          end; simpl); simpl; rewrite ?upd_eq; simpl; auto.
  all: left; split; auto; discriminate.
Qed.
Lemma pass_next : forall s w e t b, pass_shape w e (m_pc s t) ->
  pass_shape w e (m_pc (m_run s t b) t) \/ m_pc (m_run s t b) t = MKRel (ret_at w e).
Proof.
  intros s w e t b H. unfold m_run. destruct (m_pc s t) as [ |k|k|k|k|k|k| |g|g|g|g old|g|g|r|ret|ret|ret v|ret|ret x|ret|ret v|ret] eqn:Ep;
    simpl in H; try (destruct H; fail); subst ret;
  unfold m_goto, m_set;
  repeat (match goal with
          | |- context [if ?c then _ else _] => let E := fresh "E" in destruct c eqn:E
          end; simpl); simpl; rewrite ?upd_eq; simpl; auto.
Qed.

(** a step on entry [e] is a step of its mutex *)
Lemma entry_run : forall s e m t b p, R s e m -> m_pc m t = p -> takes p = false ->
  agree (m_run (n_view s e t p) t b) (m_run m t b) t.
Proof.
  intros s e m t b p [V C A P G] E T. apply run_local.
  - constructor; simpl; auto. rewrite upd_eq. auto.
  - intro u. simpl. auto.
  - simpl. rewrite upd_eq. auto.
Qed.

Lemma find_some : forall s c e, ninv s -> proper_name c -> n_find s (ckey c) = Some e -> entry_of s c e.
Proof.
  intros s c e I PN F. apply find_some in F as [IN E]. split; auto. apply Z.eqb_eq in E.
  destruct (ni_key _ _ I e IN) as (n & N1 & N2). rewrite N2 in E. unfold ckey in E.
  apply compare_name_zero in E; try (apply proper_str; auto); auto. unfold ename. rewrite canon_about, N2, key_name. auto.
Qed.
Lemma find_none : forall s c, ninv s -> proper_name c -> n_find s (ckey c) = None ->
  forall e, In e (n_list s) -> ename s e <> canon (about c).
Proof.
  intros s c I PN F e IN E. pose proof (List.find_none _ _ F e IN) as X. simpl in X. apply Z.eqb_neq in X. apply X.
  destruct (ni_key _ _ I e IN) as (n & N1 & N2). rewrite N2. unfold ckey. apply compare_name_zero; try (apply proper_str; auto); auto.
  unfold same_name. unfold ename in E. rewrite canon_about, N2, key_name in E. auto.
Qed.

Lemma path1 : forall ok m l, m_reach ok m -> m_enabled m l -> ok m l -> m_reach ok (m_step m l).
Proof. intros. constructor; auto. Qed.
Lemma mok_run : forall m t b, mok m (MRun t b).
Proof. unfold Nmtx_Proofs.mok. intros. destruct d; exact Logic.I. Qed.
Lemma mok_call : forall m t c, (c = CWaitUnlock -> d <> NoWait) -> mok m (MCall t c).
Proof.
  unfold Nmtx_Proofs.mok. intros m t c H. destruct d; [exact Logic.I ..|]. destruct c; simpl; auto. apply H; auto.
Qed.

(** ** A step inside the mutex functions *)
Lemma inv_op : forall s t b c e p, ninv s -> t <> 0 -> n_alive s t = true -> n_pc s t = NOp c e p -> ninv (n_run s t b).
Proof.
  intros s t b c e p I T0 AL Ep. pose proof (ni_pc _ _ I t) as PC. rewrite Ep in PC. simpl in PC. destruct PC as (F & EN & SH).
  destruct (shape_not_taking _ _ SH) as [TK NI].
  destruct (ni_ent _ _ I e (proj1 EN)) as (m0 & M0 & R0).
  assert (P0 : m_pc m0 t = p) by (rewrite (R_pc _ _ _ R0), Ep; simpl; rewrite Z.eqb_refl; auto).
  pose proof (entry_run s e m0 t b p R0 P0 TK) as AG.
  assert (AL0 : m_alive m0 t = true) by (rewrite (R_alive _ _ _ R0); auto).
  assert (M1 : m_reach mok (m_run m0 t b)).
  { apply (path1 mok m0 (MRun t b)); simpl; auto. apply mok_run. }
  unfold n_run. rewrite Ep. set (m := m_run (n_view s e t p) t b) in *.
  assert (VP : m_pc (n_view s e t p) t = p) by (simpl; apply upd_eq).
  assert (GU : m_guard m = if drops p then (if n_guard s =? t then 0 else n_guard s) else n_guard s).
  { unfold m. rewrite run_guard; rewrite VP; auto. }
  assert (NX : op_shape c (m_pc m t) \/ m_pc m t = MIdle \/ (m_pc m t = MKGuard (Some MBlock) /\ exists n, c = NLock (Some n) MBlock)).
  { apply op_next. rewrite VP. auto. }
  assert (GB : in_guard (m_pc m t) -> in_guard p).
  { intro G. rewrite <- VP. apply (run_guard_back _ t b); auto. rewrite VP. auto. }
  assert (DR : drops p = true -> n_guard s = t /\ m_pc m t = MIdle).
  { intro D. destruct p; try discriminate; [|destruct SH]. split.
    - apply (ni_guard _ _ I); auto. rewrite Ep. simpl. auto.
    - unfold m, m_run. rewrite VP. simpl. apply upd_eq. }
  assert (KEY : forall s' q, n_list s' = n_list s -> n_free s' = n_free s -> n_key s' = n_key s ->
    n_val s' = upd (n_val s) e (m_val m) -> n_cnt s' = upd (n_cnt s) e (m_cnt m) -> n_guard s' = m_guard m ->
    n_alive s' = n_alive s -> n_pc s' = upd (n_pc s) t q -> pc_ok s q -> new_of q = None -> (guarded q -> in_guard (m_pc m t)) ->
    mproj e q = m_pc m t -> (forall x, x <> e -> mproj x q = MIdle) -> ninv s').
  { intros s' q L Fr K V C G A PCs PO NW GQ PE PX.
    assert (QT : n_pc s' t = q) by (rewrite PCs; apply upd_eq).
    assert (OTH : forall u, u <> t -> n_pc s' u = n_pc s u) by (intros; rewrite PCs; apply upd_neq; auto).
    assert (GM : guard_move s s' t).
    { unfold guard_move. rewrite G, GU, QT, Ep. destruct (drops p) eqn:D.
      - destruct (DR eq_refl) as [E1 E2]. rewrite E1, Z.eqb_refl. right. right. split; auto. split; auto. intro X. apply GQ in X.
        rewrite E2 in X. exact X.
      - left. split; auto. simpl. intro X. auto. }
    apply (words_step s s' t); auto.
    - intros x NIN. rewrite V, C. assert (x <> e) by (intros ->; apply NIN, EN). rewrite !upd_neq; auto.
    - intro u. rewrite A. auto.
    - rewrite QT. auto.
    - rewrite QT. auto.
    - intros x IN. destruct (Z.eq_dec x e) as [->|NE].
      + exists (m_run m0 t b). split; auto. destruct AG as [A1 A2 A3]. apply (R_move s s' t) with (m := m0); auto.
        * intro u. rewrite A. auto.
        * rewrite V, upd_eq. auto.
        * rewrite C, upd_eq. auto.
        * intro u. rewrite alive_run. auto.
        * intros u N. apply (run_other m0 t u b); auto.
        * rewrite QT, PE. auto.
        * rewrite run_guard by (rewrite P0; auto). rewrite P0. destruct (drops p) eqn:D.
          -- destruct (DR eq_refl) as [E1 _]. assert (m_guard m0 = t).
             { apply (mok_guard d m0 M0 t AL0). rewrite P0. destruct p; try discriminate; simpl; auto. }
             right. right. destruct (Z.eqb_spec (m_guard m0) t); congruence.
          -- left. split; auto. intros X Y. split; [|rewrite G, GU; auto].
             apply run_keeps_guard; [rewrite P0 in *; auto | rewrite P0; auto].
      + destruct (ni_ent _ _ I x IN) as (mx & MX & RX). exists mx. split; auto. apply (R_keep s s' t); auto.
        * intro u. rewrite A. auto.
        * rewrite V, upd_neq; auto.
        * rewrite C, upd_neq; auto.
        * rewrite QT, PX, Ep by auto. simpl. destruct (Z.eqb_spec e x); congruence.
        * intros _ _. rewrite Ep. simpl. destruct (Z.eqb_spec e x); [congruence|]. auto. }
  assert (EQ : forall q, (if e =? e then q else MIdle) = q) by (intro q; rewrite Z.eqb_refl; auto).
  assert (NE : forall x q, x <> e -> (if e =? x then q else MIdle) = MIdle).
  { intros x q N. destruct (Z.eqb_spec e x); congruence. }
  destruct NX as [SH'|[E|[E (n & EC)]]].
  - assert (KQ : ninv (n_goto (n_back s e m) t (NOp c e (m_pc m t)))).
    { apply (KEY _ (NOp c e (m_pc m t))); auto; simpl; auto. }
    destruct (m_pc m t); simpl in SH'; try (destruct SH'; fail); exact KQ.
  - rewrite E. apply (KEY _ NIdle); auto; simpl; auto. intros [].
  - rewrite E. apply (KEY _ (NPEnter (Some (c, e)))); auto; simpl; auto.
    + split; auto. split; auto. exists n. auto.
    + intros [].
    + rewrite !Z.eqb_refl. auto.
Qed.

(** ** The pass *)
Lemma pass_proj_cons : forall w e es x, x <> e -> pass_proj w (e :: es) x = pass_proj w es x.
Proof.
  intros [[c y]|] e es x N; simpl; auto. destruct (y =? x); auto. destruct (Z.eqb_spec x e); [congruence | auto].
Qed.
Lemma take_ok : forall m t p, (m_guard m = 0 \/ m_guard m = t \/ m_alive m (m_guard m) = false) ->
  m_take_guard m t p = m_goto (m_set m (m_val m) (m_cnt m) t) t p.
Proof.
  intros m t p H. unfold m_take_guard.
  replace ((m_guard m =? 0) || (m_guard m =? t) || negb (m_alive m (m_guard m))) with true; auto.
  symmetry. rewrite !orb_true_iff, !Z.eqb_eq, negb_true_iff. tauto.
Qed.
(** the holder of the registry guard may take the guard of the mutex *)
Lemma takeable_of : forall s e m t, R s e m -> n_guard s = t ->
  m_guard m = 0 \/ m_guard m = t \/ m_alive m (m_guard m) = false.
Proof.
  intros s e m t R0 G. destruct (Z.eq_dec (m_guard m) 0) as [|N]; auto.
  destruct (m_alive m (m_guard m)) eqn:A; auto. right. left.
  rewrite (R_alive _ _ _ R0) in A. destruct (R_guard _ _ _ R0 _ N eq_refl A). congruence.
Qed.

Lemma inv_at : forall s t b w es e p, ninv s -> t <> 0 -> n_alive s t = true -> n_pc s t = NPAt w es e p -> ninv (n_run s t b).
Proof.
  intros s t b w es e p I T0 AL Ep. pose proof (ni_pc _ _ I t) as PC. rewrite Ep in PC. simpl in PC. destruct PC as (WO & ND & IC & SH).
  destruct (pass_not_taking _ _ _ SH) as (TK & NI & IG & DR).
  assert (EN : In e (n_list s)) by (apply IC; left; auto).
  destruct (ni_ent _ _ I e EN) as (m0 & M0 & R0).
  assert (P0 : m_pc m0 t = p) by (rewrite (R_pc _ _ _ R0), Ep; simpl; rewrite Z.eqb_refl; auto).
  pose proof (entry_run s e m0 t b p R0 P0 TK) as AG.
  assert (AL0 : m_alive m0 t = true) by (rewrite (R_alive _ _ _ R0); auto).
  assert (M1 : m_reach mok (m_run m0 t b)).
  { apply (path1 mok m0 (MRun t b)); simpl; auto. apply mok_run. }
  assert (NG : n_guard s = t) by (apply (ni_guard _ _ I); auto; rewrite Ep; simpl; auto).
  assert (MG : m_guard m0 = t) by (apply (mok_guard d m0 M0 t AL0); rewrite P0; auto).
  unfold n_run. rewrite Ep. set (m := m_run (n_view s e t p) t b) in *.
  assert (VP : m_pc (n_view s e t p) t = p) by (simpl; apply upd_eq).
  assert (GU : m_guard m = t) by (unfold m; rewrite run_guard; rewrite VP; auto; rewrite DR; auto).
  assert (MG1 : m_guard (m_run m0 t b) = t) by (rewrite run_guard; rewrite P0; auto; rewrite DR; auto).
  assert (NX : pass_shape w e (m_pc m t) \/ m_pc m t = MKRel (ret_at w e)) by (apply pass_next; rewrite VP; auto).
  assert (KEY : forall s' q m', n_list s' = n_list s -> n_free s' = n_free s -> n_key s' = n_key s ->
    n_val s' = upd (n_val s) e (m_val m) -> n_cnt s' = upd (n_cnt s) e (m_cnt m) -> n_guard s' = m_guard m ->
    n_alive s' = n_alive s -> n_pc s' = upd (n_pc s) t q -> pc_ok s q -> new_of q = None -> 
    m_reach mok m' -> m_val m' = m_val m -> m_cnt m' = m_cnt m -> (forall u, m_alive m' u = m_alive m0 u) ->
    (forall u, u <> t -> m_pc m' u = m_pc m0 u) -> m_pc m' t = mproj e q ->
    (m_guard m' = t /\ in_guard (m_pc m' t) \/ m_guard m' = 0) ->
    (forall x, x <> e -> mproj x q = pass_proj w es x) -> ninv s').
  { intros s' q m' L Fr K V C G A PCs PO NW MR MV MC MA MP MT MGG PX.
    assert (QT : n_pc s' t = q) by (rewrite PCs; apply upd_eq).
    assert (OTH : forall u, u <> t -> n_pc s' u = n_pc s u) by (intros; rewrite PCs; apply upd_neq; auto).
    assert (GM : guard_move s s' t).
    { left. rewrite G, GU, Ep. simpl. auto. }
    apply (words_step s s' t); auto.
    - intros x NIN. rewrite V, C. assert (x <> e) by (intros ->; contradiction). rewrite !upd_neq; auto.
    - intro u. rewrite A. auto.
    - rewrite QT. auto.
    - rewrite QT. auto.
    - intros x IN. destruct (Z.eq_dec x e) as [->|NE].
      + exists m'. split; auto. apply (R_move s s' t) with (m := m0); auto.
        * intro u. rewrite A. auto.
        * rewrite V, upd_eq. auto.
        * rewrite C, upd_eq. auto.
        * rewrite QT. auto.
        * destruct MGG as [[X Y]|X]; auto. right. left. rewrite G. auto.
      + destruct (ni_ent _ _ I x IN) as (mx & MX & RX). exists mx. split; auto. apply (R_keep s s' t); auto.
        * intro u. rewrite A. auto.
        * rewrite V, upd_neq; auto.
        * rewrite C, upd_neq; auto.
        * rewrite QT, PX, Ep by auto. simpl. destruct (Z.eqb_spec e x); congruence.
        * intros _ _. rewrite Ep. simpl. destruct (Z.eqb_spec e x); [congruence|]. exact (pass_proj_not _ _ _). }
  destruct AG as [A1 A2 A3]. inversion ND as [|x l ND1 ND2]; subst x l. destruct NX as [SH'|E].
  - assert (KQ : ninv (n_goto (n_back s e m) t (NPAt w es e (m_pc m t)))).
    { apply (KEY _ (NPAt w es e (m_pc m t)) (m_run m0 t b)); auto.
      - simpl. auto.
      - intro u. rewrite alive_run. auto.
      - intros u N. apply (run_other m0 t u b); auto.
      - simpl. rewrite Z.eqb_refl. auto.
      - left. split; auto. apply run_keeps_guard; rewrite P0; auto.
      - intros x N. simpl. destruct (Z.eqb_spec e x); congruence. }
    destruct (m_pc m t); simpl in SH'; try (destruct SH'; fail); exact KQ.
  - rewrite E. set (m1 := m_run m0 t b) in *.
    assert (A4 : m_pc m1 t = MKRel (ret_at w e)) by congruence.
    assert (AL1 : m_alive m1 t = true) by (unfold m1; rewrite alive_run; auto).
    apply (KEY _ (NPass w es) (m_run m1 t b)); auto.
    + simpl. split; auto. split; auto. intros x IN. apply IC. right. auto.
    + apply (path1 mok m1 (MRun t b)); simpl; auto. apply mok_run.
    + unfold m_run at 1. rewrite A4. unfold m_drop_guard. rewrite MG1, Z.eqb_refl. destruct (ret_at w e); simpl; auto.
    + unfold m_run at 1. rewrite A4. unfold m_drop_guard. rewrite MG1, Z.eqb_refl. destruct (ret_at w e); simpl; auto.
    + intro u. rewrite alive_run. unfold m1. rewrite alive_run. auto.
    + intros u N. destruct (run_other m1 t u b) as [-> _]; auto. apply (run_other m0 t u b); auto.
    + unfold m_run at 1. rewrite A4. simpl. unfold pass_proj, ret_at. apply memz_out in ND1.
      destruct w as [[c x]|]; [destruct (x =? e)|]; simpl; rewrite ?upd_eq, ?ND1; auto.
    + right. rewrite run_guard by (rewrite A4; auto). rewrite A4. simpl. rewrite MG1, Z.eqb_refl. auto.
Qed.

Lemma inv_pass : forall s t b w e es, ninv s -> t <> 0 -> n_alive s t = true -> n_pc s t = NPass w (e :: es) -> ninv (n_run s t b).
Proof.
  intros s t b w e es I T0 AL Ep. pose proof (ni_pc _ _ I t) as PC. rewrite Ep in PC. simpl in PC. destruct PC as (WO & ND & IC).
  assert (EN : In e (n_list s)) by (apply IC; left; auto).
  assert (NG : n_guard s = t) by (apply (ni_guard _ _ I); auto; rewrite Ep; simpl; auto).
  unfold n_run. rewrite Ep. set (s' := n_goto s t (NPAt w es e (n_start w e))).
  assert (QT : n_pc s' t = NPAt w es e (n_start w e)) by (simpl; apply upd_eq).
  assert (OTH : forall u, u <> t -> n_pc s' u = n_pc s u) by (intros; simpl; apply upd_neq; auto).
  assert (GM : guard_move s s' t) by (left; rewrite Ep; simpl; auto).
  apply (words_step s s' t); auto.
  - rewrite QT. simpl. auto.
  - rewrite QT. auto.
  - intros x IN. destruct (ni_ent _ _ I x IN) as (m & M & R0). destruct (Z.eq_dec x e) as [->|N].
    + assert (AL0 : m_alive m t = true) by (rewrite (R_alive _ _ _ R0); auto).
      pose proof (takeable_of s e m t R0 NG) as TK.
      assert (P0 : m_pc m t = pass_proj w (e :: es) e) by (rewrite (R_pc _ _ _ R0), Ep; auto).
      assert (X : exists m1, m_reach mok m1 /\ m_pc m1 t = MKGuard (ret_at w e) /\ m_val m1 = m_val m /\ m_cnt m1 = m_cnt m /\
        m_alive m1 = m_alive m /\ m_guard m1 = m_guard m /\ forall u, u <> t -> m_pc m1 u = m_pc m u).
      { assert (CASE : pass_proj w (e :: es) e = MKGuard (ret_at w e) /\ ret_at w e <> None \/ pass_proj w (e :: es) e = MIdle /\ ret_at w e = None).
        { unfold pass_proj, ret_at. destruct w as [[c x]|]; auto. destruct (x =? e); auto. simpl. rewrite Z.eqb_refl. simpl. left. split; auto. discriminate. }
        destruct CASE as [[E1 E2]|[E1 E2]].
        - exists m. rewrite P0, E1. auto 10.
        - exists (m_call m t CRecover). assert (P1 : m_pc m t = MIdle) by congruence. split.
          + apply (path1 mok m (MCall t CRecover)); simpl; auto. apply mok_call. discriminate.
          + unfold m_call. rewrite P1, E2. simpl. rewrite upd_eq. repeat split; auto. intros u N. apply upd_neq; auto. }
      destruct X as (m1 & R1 & P1 & V1 & C1 & A1 & G1 & O1).
      exists (m_run m1 t b). split; [apply (path1 mok m1 (MRun t b)); simpl; auto; [rewrite A1; auto | apply mok_run]|].
      assert (E1 : m_run m1 t b = m_goto (m_set m1 (m_val m1) (m_cnt m1) t) t (MK0 (ret_at w e))).
      { unfold m_run. rewrite P1. apply take_ok. rewrite G1, A1. auto. }
      rewrite E1. apply (R_move s s' t) with (m := m); auto; simpl.
      * rewrite V1. apply (R_val _ _ _ R0).
      * rewrite C1. apply (R_cnt _ _ _ R0).
      * intro u. rewrite A1. auto.
      * intros u N. rewrite upd_neq; auto.
      * rewrite !upd_eq. simpl. rewrite Z.eqb_refl. auto.
      * right. left. rewrite upd_eq. simpl. auto.
    + exists m. split; auto. apply (R_keep s s' t); auto.
      * rewrite QT, Ep. simpl. destruct (Z.eqb_spec e x); [congruence|]. rewrite pass_proj_cons; auto.
      * intros _ _. rewrite Ep. exact (pass_proj_not _ _ _).
Qed.

(** ** Calls on the registry *)
Definition call_start (c : mcall) : mpc :=
  match c with CLock k => MRead k | CUnlock => MUGuard | CWaitUnlock => MU0 false | CRecover => MKGuard None end.
Lemma call_facts : forall m t c, m_pc m t = MIdle ->
  m_val (m_call m t c) = m_val m /\ m_cnt (m_call m t c) = m_cnt m /\ m_guard (m_call m t c) = m_guard m /\
  m_alive (m_call m t c) = m_alive m /\ m_pc (m_call m t c) t = call_start c /\ forall u, u <> t -> m_pc (m_call m t c) u = m_pc m u.
Proof.
  intros m t c E. unfold m_call. rewrite E. destruct c; simpl; rewrite upd_eq; repeat split; auto; intros u N; apply upd_neq; auto.
Qed.
Lemma inv_wait : forall s t b p, ninv s -> t <> 0 -> n_alive s t = true -> n_pc s t = NWait p -> ninv (n_run s t b).
Proof.
  intros s t b p I T0 AL Ep. pose proof (ni_pc _ _ I t) as PC. rewrite Ep in PC. unfold n_run. rewrite Ep.
  destruct ((n_guard s =? 0) || (n_guard s =? t) || negb (n_alive s (n_guard s))) eqn:E; auto.
  assert (TK : takeable s t).
  { unfold takeable. rewrite !orb_true_iff, !Z.eqb_eq, negb_true_iff in E. tauto. }
  apply (pc_step s _ t); simpl; rewrite ?upd_eq; auto.
  - intros u N. apply upd_neq; auto.
  - right. left. auto.
  - destruct p; simpl in PC; try (destruct PC; fail); simpl; auto.
  - destruct p; simpl in PC; try (destruct PC; fail); simpl; auto.
  - intros e IN. rewrite Ep. simpl. split; auto.
Qed.

Lemma fine_wait : forall c, fine d c -> mcall_of c = CWaitUnlock -> d <> NoWait.
Proof. intros c (A & B & C) E. destruct c; try discriminate. eapply C; eauto. Qed.

Lemma inv_find : forall s t b c, ninv s -> t <> 0 -> n_alive s t = true -> n_pc s t = NFind c -> ninv (n_run s t b).
Proof.
  intros s t b c I T0 AL Ep. pose proof (ni_pc _ _ I t) as PC. rewrite Ep in PC. simpl in PC.
  assert (NG : n_guard s = t) by (apply (ni_guard _ _ I); auto; rewrite Ep; simpl; auto).
  assert (PN : proper_name c) by (destruct PC; auto).
  assert (AC : accepted c) by (destruct PC as (_ & X & _); auto).
  assert (STEP : forall q, pc_ok s q -> new_of q = None -> (forall e, mproj e q = MIdle) -> ninv (n_goto s t q)).
  { intros q PQ NQ MQ. apply (pc_step s _ t); simpl; rewrite ?upd_eq; auto.
    - intros u N. apply upd_neq; auto.
    - left. rewrite Ep. simpl. auto.
    - intros e IN. rewrite MQ, Ep. simpl. auto. }
  unfold n_run. rewrite Ep. destruct (n_find s (ckey c)) as [e|] eqn:F.
  - pose proof (find_some s c e I PN F) as EO. assert (EN : In e (n_list s)) by (destruct EO; auto).
    destruct c as [n k|n|n| ]; try (destruct AC; fail).
    + apply STEP; auto. simpl. split; auto. split; auto. left. destruct n; [|destruct AC]. eexists; eexists; reflexivity.
    + set (s' := n_goto s t (NOp (NUnlock n) e (MU0 true))).
      assert (QT : n_pc s' t = NOp (NUnlock n) e (MU0 true)) by (simpl; apply upd_eq).
      assert (OTH : forall u, u <> t -> n_pc s' u = n_pc s u) by (intros; simpl; apply upd_neq; auto).
      assert (GM : guard_move s s' t) by (left; rewrite Ep; simpl; auto).
      apply (words_step s s' t); auto.
      * rewrite QT. simpl. split; auto. split; auto. destruct n; [|destruct AC]. eexists; reflexivity.
      * rewrite QT. auto.
      * intros x IN. destruct (ni_ent _ _ I x IN) as (m & M & R0). destruct (Z.eq_dec x e) as [->|N].
        -- assert (AL0 : m_alive m t = true) by (rewrite (R_alive _ _ _ R0); auto).
           pose proof (takeable_of s e m t R0 NG) as TK.
           assert (P0 : m_pc m t = MIdle) by (rewrite (R_pc _ _ _ R0), Ep; auto).
           assert (M1 : m_reach mok (m_call m t CUnlock)).
           { apply (path1 mok m (MCall t CUnlock)); simpl; auto. apply mok_call. discriminate. }
           destruct (call_facts m t CUnlock P0) as (F1 & F2 & F3 & F4 & F5 & F6). set (m1 := m_call m t CUnlock) in *.
           exists (m_run m1 t b). split.
           { apply (path1 mok _ (MRun t b)); simpl; auto; [rewrite F4; auto | apply mok_run]. }
           assert (E1 : m_run m1 t b = m_goto (m_set m1 (m_val m1) (m_cnt m1) t) t (MU0 true)).
           { unfold m_run. rewrite F5. apply take_ok. rewrite F3, F4. auto. }
           rewrite E1. apply (R_move s s' t) with (m := m); auto; simpl.
           ++ rewrite F1. apply (R_val _ _ _ R0).
           ++ rewrite F2. apply (R_cnt _ _ _ R0).
           ++ intro u. rewrite F4. auto.
           ++ intros u N. rewrite !upd_neq; auto.
           ++ rewrite !upd_eq. simpl. rewrite Z.eqb_refl. auto.
           ++ right. left. rewrite upd_eq. simpl. auto.
        -- exists m. split; auto. apply (R_keep s s' t); auto.
           ++ rewrite QT, Ep. simpl. destruct (Z.eqb_spec e x); [congruence|auto].
           ++ intros _ _. rewrite Ep. simpl. auto.
    + apply STEP; auto. simpl. split; auto. split; auto. right. eexists; reflexivity.
  - destruct c as [n k|n|n| ]; try (destruct AC; fail); try (apply STEP; simpl; auto; fail).
    destruct (n_free s) as [|e fr] eqn:FR; [apply STEP; simpl; auto|].
    pose proof (ni_nodup _ _ I) as ND. rewrite FR in ND. pose proof (NoDup_remove_1 _ _ _ ND) as ND1. pose proof (NoDup_remove_2 _ _ _ ND) as ND2.
    assert (NL : ~ In e (n_list s)) by (intro; apply ND2; apply in_or_app; auto).
    assert (NF : ~ In e fr) by (intro; apply ND2; apply in_or_app; auto).
    set (s' := n_goto (n_set_lists s (n_list s) fr) t (NInit (NLock n k) e)).
    assert (QT : n_pc s' t = NInit (NLock n k) e) by (simpl; apply upd_eq).
    assert (OTH : forall u, u <> t -> n_pc s' u = n_pc s u) by (intros; simpl; apply upd_neq; auto).
    assert (GM : guard_move s s' t) by (left; rewrite Ep; simpl; auto).
    apply (ninv_step d s s' t); auto.
    + apply incl_refl.
    + intros u x N H. pose proof (ni_pc _ _ I u) as P.
      assert (X : ~ In x (n_list s) /\ ~ In x (n_free s)).
      { destruct H as (c & [E|E]); rewrite E in P; simpl in P; tauto. }
      simpl. rewrite FR in X. simpl in X. tauto.
    + rewrite QT. simpl. split; auto. split; auto. destruct n; [|destruct AC]. eexists; eexists; reflexivity.
    + intros x H u N H'. rewrite QT in H. destruct H as (c & [E|E]); inversion E; subst x c. pose proof (ni_pc _ _ I u) as P.
      assert (X : ~ In e (n_free s)) by (destruct H' as (c & [E'|E']); rewrite E' in P; simpl in P; tauto).
      apply X. rewrite FR. left. auto.
    + apply (ni_one _ _ I).
    + intros c X x IN. rewrite QT in X. inversion X; subst c. apply (find_none s (NLock n k) I PN F x IN).
    + intros x IN. destruct (ni_ent _ _ I x IN) as (m & M & R0). exists m. split; auto. apply (R_keep s s' t); auto.
      * rewrite QT, Ep. auto.
      * intros _ _. rewrite Ep. simpl. auto.
Qed.

Lemma inv_init : forall s t b c e, ninv s -> t <> 0 -> n_alive s t = true -> n_pc s t = NInit c e -> ninv (n_run s t b).
Proof.
  intros s t b c e I T0 AL Ep. pose proof (ni_pc _ _ I t) as PC. rewrite Ep in PC. simpl in PC. destruct PC as (FC & LC & NL & NF).
  unfold n_run. rewrite Ep. set (s' := n_goto (n_set_ent s e (ckey c) 0 0) t (NIns c e)).
  assert (QT : n_pc s' t = NIns c e) by (simpl; apply upd_eq).
  assert (OTH : forall u, u <> t -> n_pc s' u = n_pc s u) by (intros; simpl; apply upd_neq; auto).
  assert (GM : guard_move s s' t) by (left; rewrite Ep; simpl; auto).
  assert (LE : forall x, In x (n_list s) -> x <> e) by (intros x IN ->; contradiction).
  assert (HT : holds_entry (n_pc s t) e) by (exists c; rewrite Ep; auto).
  apply (ninv_step d s s' t); auto.
  - apply incl_refl.
  - intros x IN. simpl. apply upd_neq. auto.
  - intros u x N H. pose proof (ni_pc _ _ I u) as P.
    assert (X : ~ In x (n_list s) /\ ~ In x (n_free s)).
    { destruct H as (c' & [E|E]); rewrite E in P; simpl in P; tauto. }
    assert (x <> e). { intros ->. apply N. apply (ni_held _ _ I u t e); auto. }
    simpl. rewrite !upd_neq; tauto.
  - rewrite QT. simpl. rewrite !upd_eq. auto 10.
  - apply (ni_nodup _ _ I).
  - intros x H u N H'. rewrite QT in H. destruct H as (c' & [E|E]); inversion E; subst x c'. apply N. apply (ni_held _ _ I u t e); auto.
  - intros x y INx INy. unfold ename. simpl in *. rewrite !upd_neq by auto. apply (ni_one _ _ I); auto.
  - intros c' X x IN. rewrite QT in X. inversion X; subst c'. unfold ename. simpl in *. rewrite upd_neq by auto.
    apply (ni_new _ _ I t c); auto. rewrite Ep. auto.
  - intros x IN. destruct (ni_ent _ _ I x IN) as (m & M & R0). exists m. split; auto. apply (R_keep s s' t); auto; simpl; try (apply upd_neq; auto; fail).
    + rewrite upd_eq, Ep. auto.
    + intros _ _. rewrite Ep. simpl. auto.
Qed.

Lemma inv_ins : forall s t b c e, ninv s -> t <> 0 -> n_alive s t = true -> n_pc s t = NIns c e -> ninv (n_run s t b).
Proof.
  intros s t b c e I T0 AL Ep. pose proof (ni_pc _ _ I t) as PC. rewrite Ep in PC. simpl in PC. destruct PC as (FC & LC & NL & NF & K & V & C).
  assert (NG : n_guard s = t) by (apply (ni_guard _ _ I); auto; rewrite Ep; simpl; auto).
  unfold n_run. rewrite Ep. set (s' := n_goto (n_set_lists s (e :: n_list s) (n_free s)) t (NRelOp c e)).
  assert (QT : n_pc s' t = NRelOp c e) by (simpl; apply upd_eq).
  assert (OTH : forall u, u <> t -> n_pc s' u = n_pc s u) by (intros; simpl; apply upd_neq; auto).
  assert (GM : guard_move s s' t) by (left; rewrite Ep; simpl; auto).
  assert (HT : holds_entry (n_pc s t) e) by (exists c; rewrite Ep; auto).
  assert (EE : ename s e = canon (about c)) by (unfold ename; rewrite K; unfold ckey; rewrite key_name, canon_about; auto).
  assert (NEW : forall x, In x (n_list s) -> ename s x <> ename s e).
  { rewrite EE. apply (ni_new _ _ I t c); auto. rewrite Ep. auto. }
  apply (ninv_step d s s' t); auto.
  - simpl. intros x IN. right. auto.
  - intros u x N H. pose proof (ni_pc _ _ I u) as P.
    assert (X : ~ In x (n_list s) /\ ~ In x (n_free s)).
    { destruct H as (c' & [E|E]); rewrite E in P; simpl in P; tauto. }
    assert (x <> e). { intros ->. apply N. apply (ni_held _ _ I u t e); auto. }
    simpl. repeat split; try tauto. intros [E|E]; [congruence | tauto].
  - rewrite QT. simpl. split; auto. split; auto. split; simpl; auto.
  - simpl. constructor; [|apply (ni_nodup _ _ I)]. intro X. apply in_app_or in X. tauto.
  - intros x H u N H'. rewrite QT in H. destruct H as (c' & [E|E]); discriminate.
  - intros x IN. simpl in IN. destruct IN as [->|IN]; auto. right. exists (str_of (name_of c)). split; [apply proper_str; destruct FC; auto | auto].
  - intros x y INx INy E. unfold ename in E. simpl in *. destruct INx as [<-|INx]; destruct INy as [<-|INy]; auto.
    + exfalso. apply (NEW y INy). auto.
    + exfalso. apply (NEW x INx). auto.
    + apply (ni_one _ _ I); auto.
  - intros c' X. rewrite QT in X. discriminate.
  - intros x IN. simpl in IN. destruct IN as [<-|IN].
    + destruct (ni_virgin _ _ I) as (m & M1 & M2 & M3 & M4 & M5 & M6). exists m. split; auto. constructor; simpl; auto; try congruence.
      intro u. rewrite M5. destruct (Z.eq_dec u t) as [->|N]; [rewrite upd_eq; auto|]. rewrite upd_neq by auto.
      pose proof (ni_pc _ _ I u) as P. assert (X : forall c' x, entry_of s c' x -> (x =? e) = false).
      { intros c' x [Y _]. apply Z.eqb_neq. intros ->. contradiction. }
      assert (XP : forall w es, pass_ok d s w -> pass_proj w es e = MIdle).
      { intros [[c' x]|] es; simpl; auto. intros (_ & _ & Y). rewrite (X c' x); auto. }
      symmetry. destruct (n_pc s u) as [ |p|c'|c' x|c' x|c' x|r|c' x q|w|w|w es|w es x q|w]; cbn [mproj Nmtx_Proofs.pc_ok] in *; auto.
      * destruct p; try (destruct P; fail); cbn [mproj] in *; auto.
      * destruct P as (_ & Y & _). rewrite (X c' x); auto.
      * destruct P as (P & _). auto.
      * destruct P as (P & _ & Y & _). destruct (Z.eqb_spec x e) as [->|N']; auto. exfalso. apply NL. apply Y. left. auto.
    + destruct (ni_ent _ _ I x IN) as (m & M & R0). exists m. split; auto. apply (R_keep s s' t); auto.
      * rewrite QT, Ep. auto.
      * intros _ _. rewrite Ep. simpl. auto.
Qed.

Lemma drop_eq : forall s t, n_guard s = t -> n_drop_guard s t = n_set_guard s 0.
Proof. intros s t <-. unfold n_drop_guard. rewrite Z.eqb_refl. auto. Qed.

Lemma inv_relop : forall s t b c e, ninv s -> t <> 0 -> n_alive s t = true -> n_pc s t = NRelOp c e -> ninv (n_run s t b).
Proof.
  intros s t b c e I T0 AL Ep. pose proof (ni_pc _ _ I t) as PC. rewrite Ep in PC. simpl in PC. destruct PC as (FC & EO & CC).
  assert (NG : n_guard s = t) by (apply (ni_guard _ _ I); auto; rewrite Ep; simpl; auto).
  assert (EN : In e (n_list s)) by (destruct EO; auto).
  unfold n_run. rewrite Ep, drop_eq by auto. set (q := match c with NLock _ k => MRead k | _ => MU0 false end).
  set (s' := n_goto (n_set_guard s 0) t (NOp c e q)).
  assert (QT : n_pc s' t = NOp c e q) by (simpl; apply upd_eq).
  assert (OTH : forall u, u <> t -> n_pc s' u = n_pc s u) by (intros; simpl; apply upd_neq; auto).
  assert (IQ : ~ in_guard q) by (unfold q; destruct c; simpl; auto).
  assert (GM : guard_move s s' t).
  { right. right. rewrite QT. simpl. auto. }
  assert (SH : op_shape c q).
  { unfold q. destruct CC as [(n & k & ->)|(n & ->)]; simpl; eexists; reflexivity. }
  apply (words_step s s' t); auto.
  - rewrite QT. simpl. auto.
  - rewrite QT. auto.
  - intros x IN. destruct (ni_ent _ _ I x IN) as (m & M & R0). destruct (Z.eq_dec x e) as [->|N].
    + assert (AL0 : m_alive m t = true) by (rewrite (R_alive _ _ _ R0); auto).
      assert (P0 : m_pc m t = MIdle) by (rewrite (R_pc _ _ _ R0), Ep; auto).
      exists (m_call m t (mcall_of c)). split.
      { apply (path1 mok m (MCall t (mcall_of c))); simpl; auto. apply mok_call. apply fine_wait. auto. }
      destruct (call_facts m t (mcall_of c) P0) as (F1 & F2 & F3 & F4 & F5 & F6). set (m1 := m_call m t (mcall_of c)) in *.
      apply (R_move s s' t) with (m := m); auto; simpl.
      * rewrite F1. apply (R_val _ _ _ R0).
      * rewrite F2. apply (R_cnt _ _ _ R0).
      * intro u. rewrite F4. auto.
      * rewrite !upd_eq. simpl. rewrite Z.eqb_refl, F5. unfold q. destruct CC as [(n & k & ->)|(n & ->)]; auto.
      * left. split; auto. rewrite P0. simpl. tauto.
    + exists m. split; auto. apply (R_keep s s' t); auto.
      * rewrite QT, Ep. simpl. destruct (Z.eqb_spec e x); [congruence|auto].
      * intros _ _. rewrite Ep. simpl. auto.
Qed.

(** ** Every step *)
Lemma nodup_first : forall l m : list Z, NoDup (l ++ m) -> NoDup l.
Proof.
  induction l as [|x l IH]; intros m H; [constructor|]. simpl in H. inversion H; subst. constructor; eauto.
  intro X. apply H2. apply in_or_app. auto.
Qed.
Lemma ninv_run : forall s t b, ninv s -> t <> 0 -> n_alive s t = true -> ninv (n_run s t b).
Proof.
  intros s t b I T0 AL. pose proof (ni_pc _ _ I t) as PC.
  destruct (n_pc s t) as [ |p|c|c e|c e|c e|r|c e q|w|w|w es|w es e q|w] eqn:Ep; simpl in PC.
  - unfold n_run. rewrite Ep. auto.
  - eapply inv_wait; eauto.
  - eapply inv_find; eauto.
  - eapply inv_init; eauto.
  - eapply inv_ins; eauto.
  - eapply inv_relop; eauto.
  - assert (NG : n_guard s = t) by (apply (ni_guard _ _ I); auto; rewrite Ep; simpl; auto).
    unfold n_run. rewrite Ep, drop_eq by auto. apply (pc_step s _ t); simpl; rewrite ?upd_eq; simpl; auto.
    + intros u N. apply upd_neq; auto.
    + right. right. simpl. rewrite upd_eq. simpl. auto.
    + intros e IN. rewrite Ep. simpl. auto.
  - eapply inv_op; eauto.
  - unfold n_run. rewrite Ep. destruct (n_list s) as [|e0 l] eqn:L.
    + destruct w as [[c e]|].
      * destruct PC as (_ & _ & IN & _). rewrite L in IN. destruct IN.
      * apply (pc_step s _ t); simpl; rewrite ?upd_eq; simpl; auto.
        -- intros u N. apply upd_neq; auto.
        -- left. simpl. rewrite upd_eq. simpl. tauto.
        -- intros e IN. rewrite Ep. simpl. auto.
    + apply (pc_step s _ t); simpl; rewrite ?upd_eq; simpl; auto.
      * intros u N. apply upd_neq; auto.
      * left. simpl. rewrite upd_eq. simpl. tauto.
      * intros e IN. rewrite Ep. split; auto. intros _ _. exact (pass_proj_not _ _ _).
  - unfold n_run. rewrite Ep. apply (pc_step s _ t); simpl; rewrite ?upd_eq; simpl; auto.
    + intros u N. apply upd_neq; auto.
    + left. simpl. rewrite Ep. simpl. auto.
    + split; auto. split; [|apply incl_refl]. exact (nodup_first _ _ (ni_nodup _ _ I)).
    + intros e IN. rewrite Ep. split; [apply pass_proj_in; auto | intros _ _; exact (pass_proj_not _ _ _)].
  - destruct es as [|e es].
    + unfold n_run. rewrite Ep. apply (pc_step s _ t); simpl; rewrite ?upd_eq; simpl; auto.
      * intros u N. apply upd_neq; auto.
      * left. simpl. rewrite Ep. simpl. auto.
      * tauto.
      * intros e IN. rewrite Ep. split; auto. intros _ _; exact (pass_proj_not _ _ _).
    + eapply inv_pass; eauto.
  - eapply inv_at; eauto.
  - assert (NG : n_guard s = t) by (apply (ni_guard _ _ I); auto; rewrite Ep; simpl; auto).
    unfold n_run. rewrite Ep, drop_eq by auto. destruct w as [[c e]|].
    + destruct PC as (A & (n & ->) & C). apply (pc_step s _ t); simpl; rewrite ?upd_eq; simpl; auto.
      * intros u N. apply upd_neq; auto.
      * right. right. simpl. rewrite upd_eq. simpl. auto.
      * split; auto. split; auto. eexists; reflexivity.
      * intros x IN. rewrite Ep. split; auto. intros _ _; exact (pass_proj_not _ _ _).
    + apply (pc_step s _ t); simpl; rewrite ?upd_eq; simpl; auto.
      * intros u N. apply upd_neq; auto.
      * right. right. simpl. rewrite upd_eq. simpl. auto.
      * intros e IN. rewrite Ep. simpl. auto.
Qed.

Lemma ninv_call : forall s t c, ninv s -> t <> 0 -> n_alive s t = true -> n_ok d s (NCall t c) -> ninv (n_call s t c).
Proof.
  intros s t c I T0 AL OK. unfold n_call. destruct (n_pc s t) eqn:Ep; auto.
  assert (PN : proper_name c) by (unfold n_ok in OK; destruct d; [exact OK | destruct OK; auto ..]).
  assert (GO : forall s' q, n_list s' = n_list s -> n_free s' = n_free s -> n_key s' = n_key s -> n_val s' = n_val s ->
    n_cnt s' = n_cnt s -> n_guard s' = n_guard s -> n_alive s' = n_alive s -> n_pc s' = upd (n_pc s) t q -> pc_ok s q ->
    ~ guarded q -> (forall e, mproj e q = MIdle) -> new_of q = None -> ninv s').
  { intros s' q L F K V C G A P PQ NQ MQ WQ. apply (pc_step s _ t); auto; rewrite ?P, ?upd_eq; auto.
    - intro u. rewrite ?A. auto.
    - intros u N. apply upd_neq; auto.
    - left. rewrite P, upd_eq. split; auto. intros X. destruct (NQ X).
    - intros e IN. rewrite Ep, MQ. simpl. auto. }
  assert (FW : forall n, c = NWaitUnlock n -> d <> NoWait).
  { intros n -> E. unfold n_ok in OK. rewrite E in OK. destruct OK as [_ []]. }
  destruct c as [[n|] k|[n|]|n| ];
    [apply (GO _ (NWait (NFind (NLock (Some n) k)))) | apply (GO _ NIdle) | apply (GO _ (NWait (NFind (NUnlock (Some n))))) |
     apply (GO _ NIdle) | apply (GO _ (NWait (NFind (NWaitUnlock n)))) | apply (GO _ (NPEnter None))];
    simpl; auto; unfold fine; simpl; auto.
Qed.

Lemma ninv_die : forall s t, ninv s -> t <> 0 -> n_ok d s (NDie t) -> ninv (n_step s (NDie t)).
Proof.
  intros s t I T0 OK. set (s' := n_step s (NDie t)).
  assert (MA : forall u, n_alive s' u = true -> n_alive s u = true).
  { intros u. simpl. unfold upd. destruct (u =? t); auto. discriminate. }
  assert (DIE : forall m, (forall u, m_alive m u = n_alive s u) -> forall u, m_alive (m_step m (MDie t)) u = n_alive s' u).
  { intros m A u. simpl. unfold upd. destruct (u =? t); auto. }
  constructor; auto.
  - destruct (ni_zero _ _ I) as [Z1 Z2]. split; auto. simpl. rewrite upd_neq; auto.
  - exact (ni_nodup _ _ I).
  - intro u. apply (pc_ok_ext s s'); auto. exact (ni_pc _ _ I u).
  - exact (ni_held _ _ I).
  - intros u A G. apply (ni_guard _ _ I u); auto.
  - exact (ni_key _ _ I).
  - exact (ni_one _ _ I).
  - intros u c A. apply (ni_new _ _ I u c); auto.
  - destruct (ni_virgin _ _ I) as (m & M1 & M2 & M3 & M4 & M5 & M6). exists (m_step m (MDie t)). repeat split; auto.
    apply path1; simpl; auto. unfold Nmtx_Proofs.mok. destruct d; simpl; auto. intros u ret _ X. rewrite M5 in X. discriminate.
  - intros e IN. destruct (ni_ent _ _ I e IN) as (m & M & R0). exists (m_step m (MDie t)). split.
    + apply path1; simpl; auto. unfold Nmtx_Proofs.mok. unfold n_ok in OK. destruct d eqn:W; simpl; auto; try exact Logic.I.
      intros u ret A X. destruct OK as [_ OK]. rewrite (R_val _ _ _ R0). rewrite (R_alive _ _ _ R0) in A. rewrite (R_pc _ _ _ R0) in X.
      pose proof (ni_pc _ _ I u) as P.
      destruct (n_pc s u) as [ |p|c|c x|c x|c x|r|c x q|w|w|w es|w es x q|w] eqn:Eu; cbn [mproj Nmtx_Proofs.pc_ok] in *; try discriminate;
        assert (NP : forall w0 es0, pass_proj w0 es0 e <> MK1 ret t) by
          (intros [[c0 x0]|] es0; simpl; try discriminate; destruct (x0 =? e); try discriminate; destruct (memz e es0); discriminate).
      * destruct p; cbn [mproj] in *; try (destruct P; fail); try discriminate. destruct (NP _ _ X).
      * destruct P as (_ & _ & SH). destruct (x =? e); [|discriminate]. subst q. destruct SH.
      * destruct (NP _ _ X).
      * destruct (NP _ _ X).
      * destruct (NP _ _ X).
      * destruct (Z.eqb_spec x e) as [->|N]; [|destruct (NP _ _ X)]. subst q. eapply OK; eauto.
      * destruct (NP _ _ X).
    + destruct R0 as [V C A P G]. constructor; [exact V | exact C | exact (DIE m A) | exact P |]. intros u U0 EU AU. apply G; auto.
Qed.

Lemma ninv_init : forall U key val cnt, NoDup U -> ninv (n_init U key val cnt).
Proof.
  intros U key val cnt ND. constructor; simpl; auto; try tauto.
  - intros t u e (c & [E|E]); discriminate.
  - exists m_init. repeat split; auto. apply mr_init.
Qed.
Lemma ninv_reach : forall U key val cnt s h, NoDup U -> n_history (n_init U key val cnt) (n_ok d) s h -> ninv s.
Proof.
  intros U key val cnt s h ND H. induction H as [|s l h H IH EN OK].
  - apply ninv_init; auto.
  - destruct l as [t c|t b|t]; simpl in EN.
    + apply ninv_call; tauto.
    + apply ninv_run; tauto.
    + apply ninv_die; auto.
Qed.
End Inv.
