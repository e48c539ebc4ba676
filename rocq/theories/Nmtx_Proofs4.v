(** Named mutexes: what histories say about locks, and the room of the table. *)
From Coq Require Import ZArith List Bool Lia.
From Verif Require Import Base Name_Model Name_Spec Name_Proofs Mutex_Model Mutex_Spec Mutex_Proofs Mutex_Proofs2 Mutex_Props
  Lin_Spec Lin_Proofs Nmtx_Model Nmtx_Spec Nmtx_Proofs Nmtx_Proofs2 Nmtx_Proofs3.
Import ListNotations.
Open Scope Z_scope.

Lemma same_true : forall a b, same a b = true <-> canon a = canon b.
Proof. intros. unfold same. destruct (list_eq_dec Z.eq_dec (canon a) (canon b)); split; auto; discriminate. Qed.

Notation running := Nmtx_Spec.running.
Notation locked_by := Nmtx_Spec.locked_by.
Notation has_lock := Nmtx_Spec.has_lock.
Notation dead_in := Nmtx_Spec.dead_in.

Lemma nrunning_app : forall t h e acc, running t (h ++ e) acc = running t e (running t h acc).
Proof. intros t h. induction h as [|[u c|u r|u] h IH]; intros e acc; simpl; auto. Qed.
Lemma nlocked_by_app : forall n t h e run acc, locked_by n t (h ++ e) run acc = locked_by n t e (running t h run) (locked_by n t h run acc).
Proof.
  intros n t h. induction h as [|[u c|u r|u] h IH]; intros e run acc; simpl; auto; destruct (u =? t); auto.
Qed.

(** names outside the table have no owner *)
Lemma g_known_owner : forall room a h, g_history room a h -> forall x, g_known a x = false -> g_owner a x = 0.
Proof.
  intros room a h H. induction H as [|a h e a' H IH S]; intros x K; auto.
  destruct S; simpl in *; auto.
  - unfold setn in *. destruct (list_eq_dec Z.eq_dec x (canon (Some n))); [discriminate | auto].
  - match goal with X : geffect _ _ _ _ _ |- _ => destruct X; auto end.
    rewrite setn_neq; auto. intros ->. congruence.
  - unfold setn. destruct (list_eq_dec Z.eq_dec x n); auto.
Qed.

Record gtold (a : gstate) (h : list nevent) (n : option cstring) (t : Z) : Prop := {
  gt_alive : g_alive a t = true <-> ~ dead_in t h;
  gt_run : g_alive a t = true -> match g_op a t with
           | GIdle => running t h None = None
           | GWaits c => running t h None = Some c
           | GDone r => exists c, running t h None = Some c /\
                         (forall m k, c = NLock m k -> canon n = canon m -> r = OK -> g_owner a (canon n) = t)
           end;
  gt_lock : g_alive a t = true -> has_lock n t h = true -> g_owner a (canon n) = t;
  gt_unl : g_alive a t = true -> forall x, canon n = canon x ->
           running t h None = Some (NUnlock x) \/ running t h None = Some (NWaitUnlock x) -> has_lock n t h = false
}.

Lemma gtold_other : forall a h n t e a', gtold a h n t -> g_alive a' t = g_alive a t -> g_op a' t = g_op a t ->
  (g_alive a t = true -> g_owner a (canon n) = t -> g_owner a' (canon n) = t) ->
  (forall x, In x e -> match x with VCall u _ | VRet u _ | VDie u => u <> t end) -> gtold a' (h ++ e) n t.
Proof.
  intros a h n t e a' [A B C D] EA EO OW NE.
  assert (R : forall acc, running t e acc = acc /\ forall l, locked_by n t e acc l = l).
  { clear - NE. induction e as [|x e IH]; intros acc; simpl; auto.
    assert (N : match x with VCall u _ | VRet u _ | VDie u => u <> t end) by (apply NE; left; auto).
    assert (IH' := fun acc => IH (fun y Y => NE y (or_intror Y)) acc).
    destruct x as [u c|u r|u]; apply Z.eqb_neq in N; rewrite ?N; auto. }
  assert (ER : running t (h ++ e) None = running t h None) by (rewrite nrunning_app; apply R).
  assert (EL : has_lock n t (h ++ e) = has_lock n t h) by (unfold Nmtx_Spec.has_lock; rewrite nlocked_by_app; apply R).
  constructor; rewrite ?EA, ?EO, ?ER, ?EL; auto.
  - rewrite A. unfold Nmtx_Spec.dead_in. split; intros H X; apply H.
    + apply in_app_or in X as [X|X]; auto. apply NE in X. congruence.
    + apply in_or_app. auto.
  - intro AL. specialize (B AL). destruct (g_op a t); auto. destruct B as (c & R1 & R2). exists c. split; auto.
    intros m k K E1 E2. apply OW; eauto.
Qed.

(** another thread cannot take a mutex away *)
Lemma effect_keeps : forall a u c own r n t, geffect a u c own r -> t <> 0 -> u <> t -> g_owner a n = t -> own n = t.
Proof.
  intros a u c own r n t EF T0 N E. destruct EF as [c0 own0 r0 AC K M| | | | | ]; auto.
  unfold setn. destruct (list_eq_dec Z.eq_dec n (canon (about c0))) as [->|X]; auto.
  destruct M as [m k [O|O]|m O1 O2|m O1 O2|m c1 C [O|O]|m c1 C O1 O2]; congruence.
Qed.

Lemma own_effect : forall v t c v' r, meffect v t c v' r -> v = t -> t <> 0 -> v' = t \/ exists m, c = NUnlock m \/ c = NWaitUnlock m.
Proof. intros v t c v' r M E T0. destruct M; auto; right; exists n; auto. Qed.

Lemma gtold_step : forall a h e a' n, g_step a e a' -> (forall x, g_known a x = false -> g_owner a x = 0) ->
  (forall t, t <> 0 -> gtold a h n t) -> forall t, t <> 0 -> gtold a' (h ++ e) n t.
Proof.
  intros a h e a' n S KO T t T0. pose proof (T t T0) as TT.
  destruct S as [a u c U0 AU OU|a u m k r U0 AU OU KN RM|a u c own r U0 AU OU EF|a u r AU OU|a u c x AU OU RC ON OD|a u U0|a u m k r AU OU KN RM].
  - destruct (Z.eq_dec u t) as [->|N].
    + destruct TT as [A B C D]. specialize (B AU). rewrite OU in B.
      assert (ER : running t (h ++ [VCall t c]) None = Some c) by (rewrite nrunning_app, B; simpl; rewrite Z.eqb_refl; auto).
      assert (EL : has_lock n t (h ++ [VCall t c]) = match c with NUnlock x | NWaitUnlock x => if same n x then false else has_lock n t h | _ => has_lock n t h end).
      { unfold Nmtx_Spec.has_lock. rewrite nlocked_by_app. simpl. rewrite Z.eqb_refl. auto. }
      constructor; rewrite ?ER, ?EL; simpl.
      * rewrite A. unfold Nmtx_Spec.dead_in. split; intros H X; apply H; [|apply in_or_app; auto].
        apply in_app_or in X as [X|[X|[]]]; auto. discriminate.
      * rewrite upd_eq. auto.
      * intros _. destruct c; auto; destruct (same n name); auto; discriminate.
      * intros _ x E [X|X]; inversion X; subst; apply same_true in E; rewrite E; auto.
    + apply (gtold_other a h n t); simpl; auto.
      * rewrite upd_neq; auto.
      * intros x [<-|[]]. auto.
  - apply (gtold_other a h n t); simpl; auto.
    + intros _ E. unfold setn. destruct (list_eq_dec Z.eq_dec (canon n) (canon (Some m))) as [X|X]; auto.
      rewrite X, KO in E by auto. congruence.
    + intros x [].
  - destruct (Z.eq_dec u t) as [->|N].
    + destruct TT as [A B C D]. pose proof (B AU) as B'. rewrite OU in B'. rewrite app_nil_r. constructor; auto; simpl.
      * intros _. rewrite upd_eq. exists c. split; auto. intros m k K E1 E2. subst c r.
        inversion EF; subst; try discriminate. simpl in *. rewrite E1, setn_eq.
        match goal with X : meffect _ _ _ _ _ |- _ => inversion X; subst; auto end; try discriminate;
          match goal with X : _ \/ _ |- _ => destruct X; discriminate end.
      * intros _ HL. specialize (C AU HL). destruct EF as [c0 own0 r0 AC K M| | | | | ]; auto.
        unfold setn. destruct (list_eq_dec Z.eq_dec (canon n) (canon (about c0))) as [X|X]; auto.
        rewrite X in C. destruct (own_effect _ _ _ _ _ M C T0) as [E|(m & CC)]; auto.
        exfalso. assert (canon n = canon m) by (destruct CC as [-> | ->]; auto).
        rewrite (D AU m) in HL; auto; [discriminate|]. rewrite B'. destruct CC as [-> | ->]; auto.
    + apply (gtold_other a h n t); simpl; auto.
      * rewrite upd_neq; auto.
      * intros AL E. eapply effect_keeps; eauto.
      * intros x [].
  - destruct (Z.eq_dec u t) as [->|N].
    + destruct TT as [A B C D]. specialize (B AU). rewrite OU in B. destruct B as (c & R1 & R2).
      assert (ER : running t (h ++ [VRet t r]) None = None) by (rewrite nrunning_app, R1; simpl; rewrite Z.eqb_refl; auto).
      assert (EL : has_lock n t (h ++ [VRet t r]) = match c with NLock m _ => if same n m && (r =? OK) then true else has_lock n t h | _ => has_lock n t h end).
      { unfold Nmtx_Spec.has_lock. rewrite nlocked_by_app. simpl. rewrite Z.eqb_refl, R1. auto. }
      constructor; rewrite ?ER, ?EL; simpl.
      * rewrite A. unfold Nmtx_Spec.dead_in. split; intros H X; apply H; [|apply in_or_app; auto].
        apply in_app_or in X as [X|[X|[]]]; auto. discriminate.
      * rewrite upd_eq. auto.
      * intros _. destruct c as [m k|m|m| ]; auto. destruct (same n m && (r =? OK)) eqn:E; auto. intros _.
        apply andb_true_iff in E as [E1 E2]. apply same_true in E1. apply Z.eqb_eq in E2. apply (R2 m k); auto.
      * intros _ x _ [X|X]; discriminate.
    + apply (gtold_other a h n t); simpl; auto.
      * rewrite upd_neq; auto.
      * intros x [<-|[]]. auto.
  - apply (gtold_other a h n t); simpl; auto.
    + intros AL E. unfold setn. destruct (list_eq_dec Z.eq_dec (canon n) x) as [X|X]; auto. congruence.
    + intros y [].
  - destruct (Z.eq_dec u t) as [->|N].
    + constructor; simpl; rewrite ?upd_eq; try (intros; discriminate).
      split; [discriminate|]. intro H. exfalso. apply H. unfold Nmtx_Spec.dead_in. apply in_or_app. right. left. auto.
    + apply (gtold_other a h n t); simpl; auto.
      * rewrite upd_neq; auto.
      * intros x [<-|[]]. auto.
  - rewrite app_nil_r. destruct (Z.eq_dec u t) as [->|N].
    + destruct TT as [A B C D]. constructor; simpl; auto; congruence.
    + rewrite <- (app_nil_r h). apply (gtold_other a h n t); simpl; auto.
      * rewrite upd_neq; auto.
      * intros x [].
Qed.

Lemma gtold_history : forall room a h, g_history room a h -> forall n t, t <> 0 -> gtold a h n t.
Proof.
  intros room a h H n. induction H as [|a h e a' H IH S]; intros t T0.
  - constructor; simpl; auto; try discriminate. split; [intros _ X; exact X | reflexivity].
  - eapply gtold_step; eauto. eapply g_known_owner; eauto.
Qed.

(** ** Room, for any schedule *)
Section Room.
Variables (U : list Z) (key : Z -> nameent) (val cnt : Z -> Z).
Hypothesis ND : NoDup U.
Notation s0 := (n_init U key val cnt).
Notation ninv := (ninv AnyTime).

(** entries taken from the free list are registered or held by somebody *)
Definition held_list (s : nstate) (l : list Z) : Prop :=
  NoDup l /\ (forall e, In e l <-> exists t, holds_entry (n_pc s t) e) /\
  (length U = length (n_list s) + length (n_free s) + length l)%nat.
(** the lock call of a new name a thread is in *)
Definition wants (p : npc) : option ncall := match p with NWait (NFind c) | NFind c | NInit c _ | NIns c _ => Some c | _ => None end.
Definition full (s : nstate) (h : list nevent) : Prop := (length U <= length (n_list s) + deaths h)%nat.

Record rinv (s : nstate) (h : list nevent) : Prop := {
  ri_held : exists l, held_list s l;
  ri_wants : forall t n k, wants (n_pc s t) = Some (NLock (Some n) k) -> In (canon (Some n)) (locked_names h);
  ri_names : forall e, In e (n_list s) -> In (ename s e) (locked_names h);
  ri_dead : forall t, n_alive s t = false -> In (VDie t) h;
  ri_pc : forall t, n_pc s t = NRelRet ENOLCK -> full s h;
  ri_ret : forall t, In (VRet t ENOLCK) h -> full s h
}.

Definition dead_threads (h : list nevent) : list Z := flat_map (fun v => match v with VDie t => [t] | _ => [] end) h.
Lemma dead_threads_in : forall h t, In (VDie t) h -> In t (dead_threads h).
Proof. intros h t IN. apply in_flat_map. exists (VDie t). simpl. auto. Qed.
Lemma dead_threads_length : forall h, length (dead_threads h) = deaths h.
Proof. unfold deaths. induction h as [|[t c|t r|t] h IH]; simpl; auto. Qed.

Lemma holds_one : forall p e f, holds_entry p e -> holds_entry p f -> e = f.
Proof. intros p e f (c & [E|E]) (c' & [E'|E']); congruence. Qed.
Lemma holders : forall s l, NoDup l -> (forall e, In e l -> exists t, holds_entry (n_pc s t) e) ->
  exists T, NoDup T /\ length T = length l /\ forall t, In t T -> exists e, In e l /\ holds_entry (n_pc s t) e.
Proof.
  intros s. induction l as [|e l IH]; intros N H.
  - exists []. split; [constructor|]. split; auto. intros t [].
  - inversion N; subst. destruct IH as (T & T1 & T2 & T3); auto. { intros x IN. apply H. right. auto. }
    destruct (H e (or_introl eq_refl)) as (t & HT). exists (t :: T). split; [|split].
    + constructor; auto. intro IN. destruct (T3 t IN) as (f & F1 & F2). rewrite (holds_one _ _ _ HT F2) in *. contradiction.
    + simpl. auto.
    + intros u [<-|IN]; [exists e; simpl; auto|]. destruct (T3 u IN) as (f & F1 & F2). exists f. simpl. auto.
Qed.

Lemma full_now : forall s h t c, ninv s -> rinv s h -> n_alive s t = true -> n_pc s t = NFind c -> n_free s = [] -> full s h.
Proof.
  intros s h t c I [(l & L1 & L2 & L3) _ _ RD _ _] AL Ep FR. unfold full. rewrite FR in L3. simpl in L3.
  destruct (holders s l L1) as (T & T1 & T2 & T3); [intros e; apply L2|].
  assert (LE : (length T <= length (dead_threads h))%nat).
  { apply NoDup_incl_length; auto. intros u IN. apply dead_threads_in, RD. destruct (T3 u IN) as (e & _ & HE).
    destruct (n_alive s u) eqn:AU; auto. exfalso.
    assert (G1 : n_guard s = t) by (apply (ni_guard _ _ I); auto; rewrite Ep; simpl; auto).
    assert (G2 : n_guard s = u) by (apply (ni_guard _ _ I); auto; destruct HE as (c' & [E|E]); rewrite E; simpl; auto).
    assert (TU : u = t) by congruence. rewrite TU, Ep in HE. destruct HE as (c' & [E|E]); discriminate. }
  rewrite dead_threads_length in LE. lia.
Qed.

Lemma locked_names_app : forall h e, locked_names (h ++ e) = locked_names h ++ locked_names e.
Proof. intros. unfold locked_names. apply flat_map_app. Qed.
Lemma deaths_app : forall h e, deaths (h ++ e) = (deaths h + deaths e)%nat.
Proof. intros. unfold deaths. rewrite filter_app, app_length. auto. Qed.

(** results of mutex calls *)
Lemma op_result : forall s c t b r, op_shape c (m_pc s t) -> m_pc (m_run s t b) t = MIdle -> m_res (m_run s t b) t = Some r -> r <> ENOLCK.
Proof.
  intros s c t b r H. unfold m_run. destruct (m_pc s t) as [ |k|k|k|k|k|k| |g|g|g|g old|g|g|x|ret|ret|ret v|ret|ret x|ret|ret v|ret] eqn:Ep;
    simpl in H; try (destruct H; fail);
  unfold m_take_guard, m_drop_guard, m_unlock_end, m_failed, m_locked, m_unlocked, m_return, m_goto, m_set;
  repeat (match goal with
          | |- context [if ?c then _ else _] => let E := fresh "E" in destruct c eqn:E
          | |- context [match ?x with _ => _ end] => is_var x; destruct x
          end; simpl); simpl; rewrite ?upd_eq; intros A B; try discriminate A; inversion B; subst; try discriminate; tauto.
Qed.

(** what a step of a live thread does to the registry *)
Lemma run_shape : forall s t b, ninv s -> t <> 0 -> n_alive s t = true ->
  let s' := n_run s t b in
  n_alive s' = n_alive s /\ (forall u, u <> t -> n_pc s' u = n_pc s u) /\
  ((n_list s' = n_list s /\ (forall e, In e (n_list s) -> n_key s' e = n_key s e) /\ n_free s' = n_free s /\
    (forall e, holds_entry (n_pc s' t) e <-> holds_entry (n_pc s t) e) /\
    (wants (n_pc s' t) = wants (n_pc s t) \/ wants (n_pc s' t) = None) /\
    (n_pc s' t = NRelRet ENOLCK -> exists c, n_pc s t = NFind c /\ n_free s = []) /\
    (forall r, In (VRet t r) (n_events s (NRun t b)) -> r = ENOLCK -> n_pc s t = NRelRet ENOLCK)) \/
   (exists c e fr, n_pc s t = NFind c /\ n_pc s' t = NInit c e /\ n_free s = e :: fr /\ n_free s' = fr /\ n_list s' = n_list s /\
      n_key s' = n_key s /\ n_events s (NRun t b) = []) \/
   (exists c e, n_pc s t = NIns c e /\ n_pc s' t = NRelOp c e /\ n_free s' = n_free s /\ n_list s' = e :: n_list s /\
      n_key s' = n_key s /\ n_events s (NRun t b) = [])).
Proof.
  intros s t b I T0 AL. pose proof (ni_pc _ _ I t) as PC.
  assert (NH : forall p, new_of p = None -> forall e, ~ holds_entry p e) by (intros p N e (c & [E|E]); rewrite E in N; discriminate).
  assert (GO : forall s' p' ev, n_pc s' t = p' -> (forall u, u <> t -> n_pc s' u = n_pc s u) -> n_alive s' = n_alive s -> n_list s' = n_list s ->
    (forall e, In e (n_list s) -> n_key s' e = n_key s e) -> n_free s' = n_free s -> (forall e, holds_entry p' e <-> holds_entry (n_pc s t) e) ->
    (wants p' = wants (n_pc s t) \/ wants p' = None) -> (p' = NRelRet ENOLCK -> exists c, n_pc s t = NFind c /\ n_free s = []) ->
    (forall r, In (VRet t r) ev -> r = ENOLCK -> n_pc s t = NRelRet ENOLCK) ->
    n_alive s' = n_alive s /\ (forall u, u <> t -> n_pc s' u = n_pc s u) /\
    ((n_list s' = n_list s /\ (forall e, In e (n_list s) -> n_key s' e = n_key s e) /\ n_free s' = n_free s /\
    (forall e, holds_entry (n_pc s' t) e <-> holds_entry (n_pc s t) e) /\
    (wants (n_pc s' t) = wants (n_pc s t) \/ wants (n_pc s' t) = None) /\
    (n_pc s' t = NRelRet ENOLCK -> exists c, n_pc s t = NFind c /\ n_free s = []) /\
    (forall r, In (VRet t r) ev -> r = ENOLCK -> n_pc s t = NRelRet ENOLCK)) \/
   (exists c e fr, n_pc s t = NFind c /\ n_pc s' t = NInit c e /\ n_free s = e :: fr /\ n_free s' = fr /\ n_list s' = n_list s /\
      n_key s' = n_key s /\ ev = []) \/
   (exists c e, n_pc s t = NIns c e /\ n_pc s' t = NRelOp c e /\ n_free s' = n_free s /\ n_list s' = e :: n_list s /\
      n_key s' = n_key s /\ ev = []))).
  { intros s' p' ev PT P A L K F H W E V. rewrite PT. split; auto. split; auto. left. auto 10. }
  assert (HN : forall p q, new_of p = None -> new_of q = None -> forall e, holds_entry p e <-> holds_entry q e).
  { intros p q N1 N2 e. split; intro X; exfalso; [apply (NH p N1 e X) | apply (NH q N2 e X)]. }
  destruct (n_pc s t) as [ |p|c|c e|c e|c e|r|c e q|w|w|w es|w es e q|w] eqn:Ep; simpl in PC; unfold n_events, n_run; rewrite Ep; cbv zeta.
  - apply (GO _ NIdle); auto; try tauto; try discriminate; intros r [].
  - destruct ((n_guard s =? 0) || (n_guard s =? t) || negb (n_alive s (n_guard s))).
    + apply (GO _ p); simpl; rewrite ?upd_eq; auto; try (intros; apply upd_neq; auto; fail);
        destruct p; try (destruct PC; fail); auto; try discriminate; try (intros r []).
    + apply (GO _ (NWait p)); auto; try tauto; try discriminate. rewrite Ep. intros r []. 
  - destruct PC as (PN & AC & _). destruct (n_find s (ckey c)) as [e|] eqn:F.
    + destruct c as [n k|n|n| ]; try (destruct AC; fail).
      * apply (GO _ (NRelOp (NLock n k) e)); simpl; rewrite ?upd_eq; auto; try (intros; apply upd_neq; auto; fail); try discriminate; intros r [].
      * apply (GO _ (NOp (NUnlock n) e (MU0 true))); simpl; rewrite ?upd_eq; auto; try (intros; apply upd_neq; auto; fail); try discriminate; intros r [].
      * apply (GO _ (NRelOp (NWaitUnlock n) e)); simpl; rewrite ?upd_eq; auto; try (intros; apply upd_neq; auto; fail); try discriminate; intros r [].
    + destruct c as [n k|n|n| ]; try (destruct AC; fail).
      * destruct (n_free s) as [|e fr] eqn:FR.
        -- apply (GO _ (NRelRet ENOLCK)); simpl; rewrite ?upd_eq; auto; try (intros; apply upd_neq; auto; fail).
           ++ intros _. exists (NLock n k). auto.
           ++ intros r [].
        -- simpl. rewrite !upd_eq. split; auto. split; [intros; apply upd_neq; auto|]. right. left. exists (NLock n k), e, fr. auto 10.
      * apply (GO _ (NRelRet EINVAL)); simpl; rewrite ?upd_eq; auto; try (intros; apply upd_neq; auto; fail); try discriminate; intros r [].
      * apply (GO _ (NRelRet EINVAL)); simpl; rewrite ?upd_eq; auto; try (intros; apply upd_neq; auto; fail); try discriminate; intros r [].
  - destruct PC as (_ & _ & NL & _). 
    apply (GO _ (NIns c e)); simpl; rewrite ?upd_eq; auto; try (intros; apply upd_neq; auto; fail); try discriminate.
    + intros x IN. apply upd_neq. intros ->. contradiction.
    + intro x. split; intros (c' & [E|E]); inversion E; subst; exists c'; auto.
    + intros r [].
  - simpl. rewrite !upd_eq. split; auto. split; [intros; apply upd_neq; auto|]. right. right. exists c, e. auto 10.
  - apply (GO _ (NOp c e match c with NLock _ k => MRead k | _ => MU0 false end)); unfold n_drop_guard; destruct (n_guard s =? t); simpl; rewrite ?upd_eq; auto;
      try (intros; apply upd_neq; auto; fail); try discriminate; intros r [].
  - apply (GO _ NIdle); unfold n_drop_guard; destruct (n_guard s =? t); simpl; rewrite ?upd_eq; auto;
      try (intros; apply upd_neq; auto; fail); try discriminate; intros x [E|[]] E'; congruence.
  - destruct PC as (_ & _ & SH). set (m := m_run (n_view s e t q) t b) in *.
    assert (VP : m_pc (n_view s e t q) t = q) by (simpl; apply upd_eq).
    assert (NX : op_shape c (m_pc m t) \/ m_pc m t = MIdle \/ (m_pc m t = MKGuard (Some MBlock) /\ exists n, c = NLock (Some n) MBlock)).
    { apply op_next. rewrite VP. auto. }
    assert (RS : forall r, m_pc m t = MIdle -> m_res m t = Some r -> r <> ENOLCK).
    { intros r E1 E2. apply (op_result (n_view s e t q) c t b r); auto. rewrite VP. auto. }
    destruct NX as [SH'|[E|[E (n & EC)]]].
    + assert (X : (match m_pc m t with
        | MIdle => n_return (n_back s e m) t (match m_res m t with Some r => r | None => OK end)
        | MKGuard _ => n_goto (n_back s e m) t (NPEnter (Some (c, e)))
        | p' => n_goto (n_back s e m) t (NOp c e p') end) = n_goto (n_back s e m) t (NOp c e (m_pc m t)))
        by (destruct (m_pc m t); simpl in SH'; try (destruct SH'; fail); auto).
      rewrite X. apply (GO _ (NOp c e (m_pc m t))); simpl; rewrite ?upd_eq; auto; try (intros; apply upd_neq; auto; fail); try discriminate; intros r [].
    + rewrite E. apply (GO _ NIdle); simpl; rewrite ?upd_eq; auto; try (intros; apply upd_neq; auto; fail); try discriminate.
      intros r [X|[]] X'. inversion X as [X1]. rewrite X' in X1. destruct (m_res m t) as [y|] eqn:RE; [exfalso; apply (RS y); auto | discriminate].
    + rewrite E. apply (GO _ (NPEnter (Some (c, e)))); simpl; rewrite ?upd_eq; auto; try (intros; apply upd_neq; auto; fail); try discriminate; intros r [].
  - destruct (n_list s) as [|e0 l] eqn:L.
    + destruct w as [[c e]|].
      * destruct PC as (_ & _ & IN & _). rewrite L in IN. destruct IN.
      * apply (GO _ NIdle); simpl; rewrite ?upd_eq; auto; try (intros; apply upd_neq; auto; fail); try discriminate; intros r [X|[]] X'; rewrite X' in X; injection X; discriminate.
    + apply (GO _ (NWait (NPStart w))); simpl; rewrite ?upd_eq; auto; try (intros; apply upd_neq; auto; fail); try discriminate; intros r [].
  - apply (GO _ (NPass w (n_list s))); simpl; rewrite ?upd_eq; auto; try (intros; apply upd_neq; auto; fail); try discriminate; intros r [].
  - destruct es as [|e es].
    + apply (GO _ (NPRel w)); simpl; rewrite ?upd_eq; auto; try (intros; apply upd_neq; auto; fail); try discriminate; intros r [].
    + apply (GO _ (NPAt w es e (n_start w e))); simpl; rewrite ?upd_eq; auto; try (intros; apply upd_neq; auto; fail); try discriminate; intros r [].
  - destruct PC as (_ & _ & _ & SH). set (m := m_run (n_view s e t q) t b) in *.
    assert (VP : m_pc (n_view s e t q) t = q) by (simpl; apply upd_eq).
    assert (NX : pass_shape w e (m_pc m t) \/ m_pc m t = MKRel (ret_at w e)) by (apply pass_next; rewrite VP; auto).
    destruct NX as [SH'|E].
    + assert (X : (match m_pc m t with
        | MKRel _ => n_goto (n_back s e m) t (NPass w es)
        | p' => n_goto (n_back s e m) t (NPAt w es e p') end) = n_goto (n_back s e m) t (NPAt w es e (m_pc m t)))
        by (destruct (m_pc m t); simpl in SH'; try (destruct SH'; fail); auto).
      rewrite X. apply (GO _ (NPAt w es e (m_pc m t))); simpl; rewrite ?upd_eq; auto; try (intros; apply upd_neq; auto; fail); try discriminate; intros r [].
    + rewrite E. apply (GO _ (NPass w es)); simpl; rewrite ?upd_eq; auto; try (intros; apply upd_neq; auto; fail); try discriminate; intros r [].
  - destruct w as [[c e]|].
    + apply (GO _ (NOp c e (MRead MBlock))); unfold n_drop_guard; destruct (n_guard s =? t); simpl; rewrite ?upd_eq; auto;
        try (intros; apply upd_neq; auto; fail); try discriminate; intros r [].
    + apply (GO _ NIdle); unfold n_drop_guard; destruct (n_guard s =? t); simpl; rewrite ?upd_eq; auto;
        try (intros; apply upd_neq; auto; fail); try discriminate; intros r [X|[]] X'; rewrite X' in X; injection X; discriminate.
Qed.

Lemma full_mono : forall s s' h e, full s h -> (length (n_list s) <= length (n_list s'))%nat -> full s' (h ++ e).
Proof. unfold full. intros. rewrite deaths_app. lia. Qed.
Lemma held_same : forall s s' l, held_list s l -> n_list s' = n_list s -> n_free s' = n_free s ->
  (forall t e, holds_entry (n_pc s' t) e <-> holds_entry (n_pc s t) e) -> held_list s' l.
Proof.
  intros s s' l (A & B & C) L F H. split; auto. split; [|rewrite L, F; auto]. intro e. rewrite B.
  split; intros (t & X); exists t; apply H; auto.
Qed.

Lemma run_events : forall s t b v, In v (n_events s (NRun t b)) -> exists r, v = VRet t r.
Proof.
  intros s t b v. unfold n_events. destruct (n_pc s t); try (intros []; fail);
    destruct (n_pc (n_run s t b) t); try (intros []; fail); destruct (n_res (n_run s t b) t); try (intros []; fail); intros [<-|[]]; eauto.
Qed.

Lemma rinv_run : forall s h t b, ninv s -> rinv s h -> t <> 0 -> n_alive s t = true -> rinv (n_run s t b) (h ++ n_events s (NRun t b)).
Proof.
  intros s h t b I RI T0 AL. pose proof (ninv_run AnyTime s t b I T0 AL) as I'.
  destruct RI as [(l & HL) RW RN RD RP RR] eqn:ERI. clear ERI.
  assert (FN : forall c, n_pc s t = NFind c -> n_free s = [] -> full s h).
  { intros c E F. apply (full_now s h t c); auto. }
  destruct (run_shape s t b I T0 AL) as (A & O & [(L & K & F & H & W & E & V)|[(c & e & fr & P & P' & F & F' & L & K & V)|(c & e & P & P' & F & L & K & V)]]).
  - constructor.
    + exists l. apply (held_same s); auto. intros u x. destruct (Z.eq_dec u t) as [->|N]; auto. rewrite O by auto. tauto.
    + intros u n k X. rewrite locked_names_app. apply in_or_app. left. destruct (Z.eq_dec u t) as [->|N].
      * destruct W as [W|W]; [apply (RW t n k); congruence | congruence].
      * rewrite O in X by auto. eapply RW; eauto.
    + intros x IN. rewrite L in IN. unfold ename. rewrite K by auto. rewrite locked_names_app. apply in_or_app. left. apply RN; auto.
    + intros u X. rewrite A in X. apply in_or_app. auto.
    + intros u X. apply (full_mono s); [|rewrite L; auto]. destruct (Z.eq_dec u t) as [->|N].
      * destruct (E X) as (c & E1 & E2). eauto.
      * rewrite O in X by auto. eauto.
    + intros u X. apply (full_mono s); [|rewrite L; auto]. apply in_app_or in X as [X|X]; eauto.
      destruct (run_events s t b _ X) as (r & Y). inversion Y; subst. apply (RP t). apply (V ENOLCK); auto.
  - rewrite V, app_nil_r. destruct HL as (H1 & H2 & H3). constructor.
    + exists (e :: l). split; [|split].
      * constructor; auto. intro X. apply H2 in X. destruct X as (u & HU). pose proof (ni_pc _ _ I u) as PC.
        assert (Y : ~ In e (n_free s)) by (destruct HU as (c' & [Z|Z]); rewrite Z in PC; simpl in PC; tauto).
        apply Y. rewrite F. left. auto.
      * intro x. simpl. rewrite H2. split.
        -- intros [<-|(u & HU)]; [exists t; exists c; rewrite P'; auto|]. exists u. rewrite O; auto. intros ->. rewrite P in HU.
           destruct HU as (c' & [Z|Z]); discriminate.
        -- intros (u & HU). destruct (Z.eq_dec u t) as [->|N].
           ++ rewrite P' in HU. destruct HU as (c' & [Z|Z]); inversion Z; auto.
           ++ rewrite O in HU by auto. right. eauto.
      * rewrite L, F'. rewrite F in H3. simpl in *. lia.
    + intros u n k X. destruct (Z.eq_dec u t) as [->|N].
      * rewrite P' in X. simpl in X. apply (RW t n k). rewrite P. auto.
      * rewrite O in X by auto. eapply RW; eauto.
    + intros x IN. rewrite L in IN. unfold ename. rewrite K. apply RN; auto.
    + intros u X. rewrite A in X. auto.
    + intros u X. unfold full. rewrite L. destruct (Z.eq_dec u t) as [->|N]; [congruence|]. rewrite O in X by auto. eapply RP; eauto.
    + intros u X. unfold full. rewrite L. eapply RR; eauto.
  - rewrite V, app_nil_r. destruct HL as (H1 & H2 & H3).
    assert (IN0 : In e l) by (apply H2; exists t; exists c; auto).
    destruct (in_split _ _ IN0) as (l1 & l2 & EL). subst l.
    pose proof (NoDup_remove_1 _ _ _ H1) as ND1. pose proof (NoDup_remove_2 _ _ _ H1) as ND2.
    pose proof (ni_pc _ _ I t) as PC. rewrite P in PC. simpl in PC. destruct PC as (FC & (n0 & k0 & ->) & NL & NF & KE & _).
    constructor.
    + exists (l1 ++ l2). split; auto. split.
      * intro x. split.
        -- intro IN. assert (X : In x (l1 ++ e :: l2)) by (apply in_or_app; apply in_app_or in IN; simpl; tauto).
           apply H2 in X. destruct X as (u & HU). exists u. rewrite O; auto. intros ->. rewrite P in HU.
           destruct HU as (c' & [Z|Z]); inversion Z; subst. contradiction.
        -- intros (u & HU). destruct (Z.eq_dec u t) as [->|N].
           ++ rewrite P' in HU. destruct HU as (c' & [Z|Z]); discriminate.
           ++ rewrite O in HU by auto. assert (X : In x (l1 ++ e :: l2)) by (apply H2; eauto).
              apply in_or_app. apply in_app_or in X. simpl in X. destruct X as [X|[X|X]]; auto. subst x.
              exfalso. apply N. apply (ni_held _ _ I u t e); auto. exists (NLock (Some n0) k0). auto.
      * rewrite L, F. rewrite app_length in *. simpl in *. lia.
    + intros u n k X. destruct (Z.eq_dec u t) as [->|N].
      * rewrite P' in X. discriminate.
      * rewrite O in X by auto. eapply RW; eauto.
    + intros x IN. rewrite L in IN. unfold ename. rewrite K. destruct IN as [<-|IN]; [|apply RN; auto].
      rewrite KE. unfold ckey. rewrite key_name. apply (RW t n0 k0). rewrite P. auto.
    + intros u X. rewrite A in X. auto.
    + intros u X. assert (FU : full s h). { destruct (Z.eq_dec u t) as [->|N]; [congruence|]. rewrite O in X by auto. eapply RP; eauto. }
      unfold full in *. rewrite L. simpl. lia.
    + intros u X. pose proof (RR u X) as FU. unfold full in *. rewrite L. simpl. lia.
Qed.

Lemma rinv_call : forall s h t c, rinv s h -> t <> 0 -> n_alive s t = true -> rinv (n_call s t c) (h ++ n_events s (NCall t c)).
Proof.
  intros s h t c RI T0 AL. unfold n_events. destruct (n_pc s t) eqn:Ep;
    try (unfold n_call; rewrite Ep, app_nil_r; exact RI).
  destruct RI as [(l & HL) RW RN RD RP RR].
  assert (SH : exists p, n_pc (n_call s t c) t = p /\ new_of p = None /\ (wants p = None \/ wants p = Some c) /\ p <> NRelRet ENOLCK /\
    n_list (n_call s t c) = n_list s /\ n_free (n_call s t c) = n_free s /\ n_key (n_call s t c) = n_key s /\ n_alive (n_call s t c) = n_alive s /\
    (forall u, u <> t -> n_pc (n_call s t c) u = n_pc s u) /\
    forall r, n_pc (n_call s t c) t = NIdle -> n_res (n_call s t c) t = Some r -> r <> ENOLCK).
  { unfold n_call. rewrite Ep. destruct c as [[n|] k|[n|]|n| ]; simpl; rewrite ?upd_eq;
      (eexists; split; [reflexivity|]; simpl; repeat split; auto; try discriminate; try (intros; apply upd_neq; auto; fail)).
    all: intros r _ X; inversion X; discriminate. }
  destruct SH as (p & P & NW & W & NR & L & F & K & A & O & RS).
  set (ev := match n_pc (n_call s t c) t, n_res (n_call s t c) t with NIdle, Some r => [VRet t r] | _, _ => [] end).
  assert (EV : locked_names (VCall t c :: ev) = locked_names [VCall t c]).
  { unfold ev. destruct (n_pc (n_call s t c) t); auto. destruct (n_res (n_call s t c) t); auto. }
  constructor.
  - exists l. apply (held_same s); auto. intros u x. destruct (Z.eq_dec u t) as [->|N]; [|rewrite O by auto; tauto].
    rewrite P, Ep. split; intros (c' & [Z|Z]); rewrite ?Z in NW; discriminate.
  - intros u n k X. rewrite locked_names_app, EV. apply in_or_app. destruct (Z.eq_dec u t) as [->|N].
    + rewrite P in X. right. assert (c = NLock (Some n) k) by (destruct W; congruence). subst c. simpl. auto.
    + rewrite O in X by auto. left. eapply RW; eauto.
  - intros x IN. rewrite L in IN. unfold ename. rewrite K, locked_names_app. apply in_or_app. left. apply RN; auto.
  - intros u X. rewrite A in X. apply in_or_app. auto.
  - intros u X. apply (full_mono s); [|rewrite L; auto]. destruct (Z.eq_dec u t) as [->|N]; [congruence|]. rewrite O in X by auto. eauto.
  - intros u X. apply (full_mono s); [|rewrite L; auto]. apply in_app_or in X as [X|[X|X]]; eauto; [discriminate|]. exfalso.
    unfold ev in X. destruct (n_pc (n_call s t c) t) eqn:Y; try (destruct X; fail). destruct (n_res (n_call s t c) t) as [r|] eqn:Z; [|destruct X].
    destruct X as [X|[]]. inversion X; subst. apply (RS ENOLCK); auto.
Qed.

Lemma rinv_reach : forall s h, n_history s0 n_any s h -> rinv s h.
Proof.
  intros s h H. induction H as [|s l h H IH EN OK].
  - constructor; simpl; try discriminate; try tauto. exists []. split; [constructor|]. split; [|simpl; lia].
    intro e. split; [intros [] | intros (t & c & [E|E]); discriminate].
  - pose proof (ninv_reach AnyTime U key val cnt s h ND H) as I. destruct l as [t c|t b|t].
    + destruct EN. apply rinv_call; auto.
    + destruct EN. apply rinv_run; auto.
    + destruct IH as [(l & HL) RW RN RD RP RR]. constructor; simpl; eauto.
      * intros u n k X. rewrite locked_names_app. apply in_or_app. left. eapply RW; eauto.
      * intros e IN. rewrite locked_names_app. apply in_or_app. left. apply RN; auto.
      * intros u X. apply in_or_app. destruct (Z.eq_dec u t) as [E|N]; [rewrite E; simpl; auto|]. rewrite upd_neq in X by auto. auto.
      * intros u X. apply (full_mono s); simpl; eauto.
      * intros u X. apply (full_mono s); simpl; auto. apply in_app_or in X as [X|[X|[]]]; eauto. discriminate.
Qed.

Lemma names_nodup : forall s, ninv s -> NoDup (map (ename s) (n_list s)).
Proof.
  intros s I. pose proof (nodup_first _ _ (ni_nodup _ _ I)) as N. pose proof (ni_one _ _ I) as O. revert N O.
  induction (n_list s) as [|e l IH]; intros N O; simpl; [constructor|]. inversion N; subst. constructor.
  - intro X. apply in_map_iff in X as (f & E & IN). assert (f = e) by (apply O; simpl; auto). subst. contradiction.
  - apply IH; auto. intros. apply O; simpl; auto.
Qed.
Theorem no_room : forall s h t, n_history s0 n_any s h -> In (VRet t ENOLCK) h ->
  exists K, NoDup K /\ incl K (locked_names h) /\ (length U <= length K + deaths h)%nat.
Proof.
  intros s h t H IN. pose proof (rinv_reach s h H) as RI. pose proof (ninv_reach AnyTime U key val cnt s h ND H) as I.
  exists (map (ename s) (n_list s)). split; [apply names_nodup; auto|]. split.
  - intros x X. apply in_map_iff in X as (e & <- & IN'). apply (ri_names _ _ RI); auto.
  - rewrite map_length. apply (ri_ret _ _ RI t IN).
Qed.
End Room.
