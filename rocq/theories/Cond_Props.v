(** Properties C38-C44 and C69-C72: named condition variables. *)
From Coq Require Import ZArith List Bool Lia Sorted Permutation.
From Verif Require Import Base Cond_Model Cond_Spec Cond_Proofs Cond_Proofs2 Cond_Proofs3 Cond_Proofs4 Cond_Proofs5 Cond_Proofs6 Cond_Proofs7 Cond_Proofs8.
Import ListNotations.
Open Scope Z_scope.

(** ** Concrete executions *)
Definition s_init := c_init [101; 102; 103] 2.
Definition runs (t : Z) (n : nat) : list clabel := repeat (XRun t false) n.
Definition locks t := [XCall t (CLockM 1 KBlock); XRun t false].
Definition unlocks t := [XCall t (CUnlockM 1); XRun t false].
(** thread [t] takes the mutex and waits *)
Definition sleeps t k := locks t ++ [XCall t (CWait 1 1 k)] ++ runs t 7.

Lemma path_exec : forall (ok : cstate -> clabel -> Prop) ls s, (forall s x, In x ls -> ok s x) -> c_path ok s ls (c_exec s ls).
Proof. intros ok ls. induction ls as [|x ls IH]; intros s H; simpl; constructor; [apply H; left; auto | apply IH; intros; apply H; right; auto]. Qed.
Lemma reach_path : forall ok s0 s ls s2, c_reach s0 ok s -> c_path ok s ls s2 -> c_reach s0 ok s2.
Proof. intros ok s0 s ls s2 R P. induction P; auto. apply IHP. constructor; auto. Qed.
(** schedules without deaths, without timeouts (if [nt]), in which waits on condition 1 pass mutex 1 and own it *)
Fixpoint checks (nt : bool) (s : cstate) (ls : list clabel) : bool :=
  match ls with
  | [] => true
  | x :: r =>
    match x with
    | XCall t (CWait c m k) => (if c =? 1 then (m =? 1) && (c_m s 1 =? t) else true) && (if nt then match k with KTry => false | _ => true end else true)
    | XRun _ g => negb (nt && g)
    | XDie _ => false
    | _ => true
    end && checks nt (c_step s x) r
  end.
Lemma checks_path : forall nt ls s, checks nt s ls = true -> c_path (both (proper 1 1) (fun s x => nt = true -> no_timeouts s x)) s ls (c_exec s ls).
Proof.
  intros nt ls. induction ls as [|x ls IH]; intros s H; simpl; constructor.
  - simpl in H. apply andb_true_iff in H as [H _]. destruct x as [t cc|t g|t|m]; simpl; try discriminate.
    + destruct cc as [m k|m|c m k|c|c|]; repeat split; simpl; auto; apply andb_true_iff in H as [H1 H2].
      * subst c. simpl in H1. apply andb_true_iff in H1 as [H1 _]. apply Z.eqb_eq; auto.
      * subst c. simpl in H1. apply andb_true_iff in H1 as [_ H1]. apply Z.eqb_eq; auto.
      * intros ->. destruct k; discriminate || congruence.
    + repeat split; simpl; auto. intros ->. destruct g; auto; discriminate.
    + repeat split; simpl; auto.
  - apply IH. simpl in H. apply andb_true_iff in H as [_ H]. auto.
Qed.
Lemma path_weaken : forall (P Q : cstate -> clabel -> Prop) s ls s2, (forall s x, P s x -> Q s x) -> c_path P s ls s2 -> c_path Q s ls s2.
Proof. intros P Q s ls s2 W H. induction H; constructor; auto. Qed.
Lemma proper_path : forall ls s, checks false s ls = true -> c_path (proper 1 1) s ls (c_exec s ls).
Proof. intros ls s H. eapply path_weaken; [|apply (checks_path false); auto]. intros s' x [A _]; auto. Qed.
Lemma owners_path : forall ls s, checks false s ls = true -> c_path (owners_wait 1) s ls (c_exec s ls).
Proof. intros ls s H. eapply path_weaken; [|apply (checks_path false); auto]. intros s' x [[_ A] _]. eapply waits_own; eauto. Qed.
Lemma quiet_path : forall ls s, checks true s ls = true -> c_path (both (proper 1 1) no_timeouts) s ls (c_exec s ls).
Proof. intros ls s H. eapply path_weaken; [|apply (checks_path true); auto]. intros s' x [A B]; split; auto. Qed.
Lemma any_path : forall ls s, c_path any_schedule s ls (c_exec s ls).
Proof. intros. apply path_exec. intros; exact I. Qed.
Lemma nd_init : NoDup [101; 102; 103].
Proof. repeat constructor; simpl; intuition lia. Qed.
Lemma one_call_dec : forall t ls, forallb (fun x => match x with XCall u _ => negb (u =? t) | _ => true end) ls = true -> one_call t ls.
Proof. intros t ls H c I. rewrite forallb_forall in H. specialize (H _ I). simpl in H. rewrite Z.eqb_refl in H. discriminate. Qed.

(** whether thread [t] wakes entry [w] along [ls] *)
Fixpoint wokeb (t : Z) (s : cstate) (ls : list clabel) (w : Z) : bool :=
  match ls with
  | [] => false
  | x :: r => (match actor x with Some u => u =? t | None => false end && w_wait (c_w s w) && negb (w_wait (c_w (c_step s x) w))) || wokeb t (c_step s x) r w
  end.
Lemma wokeb_in : forall t s ls wk w, own_wakes t s ls wk -> In w wk -> wokeb t s ls w = true.
Proof.
  intros t s ls wk w H. induction H as [s|s x ls ws N H IH|s x ls ws E F H IH|s x ls ws v E W W' F H IH]; simpl; intro I; try contradiction.
  - rewrite IH by auto. apply orb_true_r.
  - rewrite IH by auto. apply orb_true_r.
  - destruct I as [->|I]; [|rewrite IH by auto; apply orb_true_r]. rewrite E, Z.eqb_refl, W, W'. auto.
Qed.
Lemma wokeb_out : forall t s ls wk w, own_wakes t s ls wk -> wokeb t s ls w = true -> In w wk.
Proof.
  intros t s ls wk w H. induction H as [s|s x ls ws N H IH|s x ls ws E F H IH|s x ls ws v E W W' F H IH]; simpl; intro I; try discriminate.
  - apply IH. destruct (actor x) as [u|] eqn:A; auto. destruct (Z.eqb_spec u t); [congruence|]. auto.
  - apply orb_true_iff in I as [I|I]; auto. apply andb_true_iff in I as [I I2]. apply andb_true_iff in I as [_ I1]. rewrite (F w I1) in I2. discriminate.
  - apply orb_true_iff in I as [I|I]; [|right; auto]. destruct (Z.eq_dec w v) as [->|N]; [left; auto|]. exfalso.
    apply andb_true_iff in I as [I I2]. apply andb_true_iff in I as [_ I1]. rewrite (F w N I1) in I2. discriminate.
Qed.
(** a check that holds at every moment *)
Fixpoint always (f : cstate -> bool) (s : cstate) (ls : list clabel) : bool :=
  f s && match ls with [] => true | x :: r => always f (c_step s x) r end.
Lemma always_moment : forall f ok s l1 s1 l2, c_path ok s l1 s1 -> always f s (l1 ++ l2) = true -> f s1 = true.
Proof.
  intros f ok s l1 s1 l2 P. induction P; simpl; intro A.
  - destruct l2; apply andb_true_iff in A; tauto.
  - apply andb_true_iff in A as [_ A]. auto.
Qed.

(** ** C38: signal *)
Definition C38_statement : Prop :=
  forall UW n c s t ls s2, NoDup UW -> c_reach (c_init UW n) any_schedule s -> c_alive s t = true -> t <> 0 -> idle s t ->
    c_path any_schedule s (XCall t (CSignal c) :: ls) s2 -> one_call t ls -> idle s2 t ->
    exists wk, own_wakes t s (XCall t (CSignal c) :: ls) wk /\
      at_some_moment any_schedule s (XCall t (CSignal c) :: ls) s2 (fun s1 => woke_one c s1 wk).
(** thread 2 waits without owning the mutex; the signal chooses its entry just before that call fails and nobody is woken,
    although thread 1 is blocked *)
Definition c38_before := locks 1 ++ [XCall 2 (CWait 1 1 KBlock)] ++ runs 2 7 ++ [XCall 1 (CWait 1 1 KBlock)] ++ runs 1 7.
Definition c38_call := runs 3 4 ++ runs 2 1 ++ runs 3 3.
Theorem C38_signal_lost_to_failing_wait_refuted : ~ C38_statement.
Proof.
  intro H. set (s := c_exec s_init c38_before). set (s2 := c_exec s (XCall 3 (CSignal 1) :: c38_call)).
  assert (R : c_reach s_init any_schedule s) by (eapply reach_path; [constructor | apply any_path]).
  destruct (H [101; 102; 103] 2%nat 1 s 3 c38_call s2) as (wk & OW & l1 & l2 & s1 & E & P1 & P2 & WO).
  - apply nd_init.
  - exact R.
  - vm_compute; reflexivity.
  - lia.
  - unfold idle. vm_compute. reflexivity.
  - apply any_path.
  - apply one_call_dec. vm_compute. reflexivity.
  - unfold idle. vm_compute. reflexivity.
  - assert (NW : forall w, w = 101 \/ w = 102 -> ~ In w wk).
    { intros w D I. pose proof (wokeb_in _ _ _ _ _ OW I) as B. destruct D as [->| ->]; revert B; vm_compute; discriminate. }
    set (f := fun s' : cstate => match c_wl s' 1 with [a; b] => (a =? 102) && (b =? 101) && w_wait (c_w s' 102) | _ => false end).
    assert (F : f s1 = true).
    { eapply always_moment; [exact P1|]. rewrite <- E. vm_compute. reflexivity. }
    unfold f in F. destruct (c_wl s1 1) as [|a [|b [|]]] eqn:L; try discriminate. apply andb_true_iff in F as [F W]. apply andb_true_iff in F as [A B].
    apply Z.eqb_eq in A, B. subst a b. destruct WO as [[-> NC]|(w & -> & [[I _] _])].
    + apply (NC 102). split; auto. rewrite L. left; auto.
    + rewrite L in I. apply (NW w); [|left; auto]. destruct I as [<-|[<-|[]]]; auto.
Qed.

(** Every signal call by any live thread, if all wait calls on the condition are made by owners of the mutex they pass
    (whatever mutexes, with deaths, recoveries and timeouts): at some moment of the call the longest waiter is the one that is
    woken, or nobody is counted as waiting and nobody is woken.
    Missing: wait calls made without owning the mutex. *)
Theorem C38_signal_wakes_longest_partial : forall UW n c s t ls s2, NoDup UW -> c_reach (c_init UW n) (owners_wait c) s ->
  c_alive s t = true -> t <> 0 -> idle s t -> c_path (owners_wait c) s (XCall t (CSignal c) :: ls) s2 -> one_call t ls -> idle s2 t ->
  exists wk, own_wakes t s (XCall t (CSignal c) :: ls) wk /\
    at_some_moment (owners_wait c) s (XCall t (CSignal c) :: ls) s2 (fun s1 => woke_one c s1 wk) /\
    (c_res s2 t = Some OK \/ c_res s2 t = Some EINVAL /\ wk = []).
Proof. intros UW n c s t ls s2 ND R AL T0 ID P ONE ID2. eapply signal_whole; eauto. Qed.

(** If all wait calls pass one mutex, the longest waiter is a call that has released the mutex whenever such a call is counted. *)
Theorem C38_longest_waiter_is_blocked : forall UW n c m s w u' w', NoDup UW -> c_reach (c_init UW n) (waits_with c m) s ->
  longest s c w -> counted s c w' -> released s c u' w' -> c_alive s u' = true -> c_alive s (w_tid (c_w s w)) = true ->
  released s c (w_tid (c_w s w)) w.
Proof. intros UW n c m s w u' w' ND R. intros. eapply longest_released; eauto. eapply good2_reach; eauto. Qed.
(** ... and a woken call stays woken. *)
Theorem C38_woken_stays_woken : forall UW n c s ls s2 u w, NoDup UW -> c_reach (c_init UW n) (owners_wait c) s ->
  c_path (owners_wait c) s ls s2 -> one_call u ls -> c_alive s2 u = true -> released s c u w -> w_wait (c_w s w) = false ->
  released s2 c u w -> w_wait (c_w s2 w) = false.
Proof.
  intros UW n c s ls s2 u w ND R P ONE AL RL W RL2.
  destruct (woken_path UW c (owners_wait c) s ls s2 u w) as [[_ Q]|Q]; auto; [eapply good_reach; eauto|].
  unfold released in RL2. destruct (c_pc s2 u); simpl in Q; contradiction.
Qed.

(** two threads blocked, a third one signals: the first one is woken *)
Definition c38_two := sleeps 1 KBlock ++ sleeps 2 KBlock.
Example C38_example :
  let s := c_exec s_init c38_two in let s2 := c_exec s (XCall 3 (CSignal 1) :: runs 3 7) in
  c_reach s_init (owners_wait 1) s /\ c_path (owners_wait 1) s (XCall 3 (CSignal 1) :: runs 3 7) s2 /\
  wokeb 3 s (XCall 3 (CSignal 1) :: runs 3 7) 101 = true /\ wokeb 3 s (XCall 3 (CSignal 1) :: runs 3 7) 102 = false /\ c_res s2 3 = Some OK.
Proof.
  cbv zeta. split; [eapply reach_path; [constructor | apply owners_path; vm_compute; reflexivity]|]. split; [apply owners_path; vm_compute; reflexivity|].
  split; [vm_compute; reflexivity|]. split; vm_compute; reflexivity.
Qed.

(** ** C39: broadcast *)
(** All schedules: everybody counted at some moment of the call is woken, unless its own call fails meanwhile; nobody else is
    woken, except calls on the same condition that were still registering. *)
Theorem C39_broadcast_wakes_all : forall UW n c s t ls s2, NoDup UW -> c_reach (c_init UW n) any_schedule s ->
  c_alive s t = true -> t <> 0 -> idle s t -> c_path any_schedule s (XCall t (CBroadcast c) :: ls) s2 -> one_call t ls -> idle s2 t ->
  exists wk l1 l2 s1, own_wakes t s (XCall t (CBroadcast c) :: ls) wk /\
    XCall t (CBroadcast c) :: ls = l1 ++ l2 /\ c_path any_schedule s l1 s1 /\ c_path any_schedule s1 l2 s2 /\ woke_all any_schedule c s1 l2 wk /\
    (c_res s2 t = Some OK \/ c_res s2 t = Some EINVAL /\ wk = []).
Proof. intros UW n c s t ls s2 ND R AL T0 ID P ONE ID2. eapply broadcast_whole; eauto. Qed.
(** If all waiters own the mutex they pass, all counted calls are woken. *)
Theorem C39_broadcast_wakes_all_owners : forall UW n c s t ls s2, NoDup UW -> c_reach (c_init UW n) (owners_wait c) s ->
  c_alive s t = true -> t <> 0 -> idle s t -> c_path (owners_wait c) s (XCall t (CBroadcast c) :: ls) s2 -> one_call t ls -> idle s2 t ->
  exists wk, own_wakes t s (XCall t (CBroadcast c) :: ls) wk /\
    at_some_moment (owners_wait c) s (XCall t (CBroadcast c) :: ls) s2 (fun s1 => forall w, counted s1 c w -> In w wk).
Proof.
  intros UW n c s t ls s2 ND R AL T0 ID P ONE ID2.
  destruct (broadcast_whole UW n c (owners_wait c) s t ls s2 ND R AL T0 ID P ONE ID2) as (wk & l1 & l2 & s1 & OW & E & P1 & P2 & (_ & A & _) & _).
  exists wk. split; auto. exists l1, l2, s1. split; auto. split; auto. split; auto. intros w CT. destruct (A w CT) as [|Q]; auto. exfalso.
  eapply not_withdrawn; [| |exact Q]; auto. eapply good_path; [| exact P1 |]; auto. eapply good_reach; eauto.
Qed.
Example C39_example :
  let s := c_exec s_init c38_two in let s2 := c_exec s (XCall 3 (CBroadcast 1) :: runs 3 9) in
  c_reach s_init (owners_wait 1) s /\ c_path (owners_wait 1) s (XCall 3 (CBroadcast 1) :: runs 3 9) s2 /\ c_res s2 3 = Some OK /\
  wokeb 3 s (XCall 3 (CBroadcast 1) :: runs 3 9) 101 = true /\ wokeb 3 s (XCall 3 (CBroadcast 1) :: runs 3 9) 102 = true.
Proof.
  cbv zeta. split; [eapply reach_path; [constructor | apply owners_path; vm_compute; reflexivity]|]. split; [apply owners_path; vm_compute; reflexivity|].
  split; [vm_compute; reflexivity|]. split; vm_compute; reflexivity.
Qed.

(** ** C40: no lost wakeup *)
Theorem C40_no_lost_wakeup : forall UW n c m s t ls s2, NoDup UW -> c_reach (c_init UW n) (proper c m) s ->
  t <> 0 -> idle s t -> c_m s m = t -> c_path (proper c m) s (XCall t (CSignal c) :: ls) s2 -> one_call t ls -> idle s2 t ->
  exists wk, own_wakes t s (XCall t (CSignal c) :: ls) wk /\
    at_some_moment (proper c m) s (XCall t (CSignal c) :: ls) s2 (fun s1 => woke_one c s1 wk /\
      forall w, counted s1 c w <-> exists u, released s1 c u w /\ w_wait (c_w s1 w) = true).
Proof. intros. eapply owner_signal; eauto. Qed.
Example C40_example :
  let s := c_exec s_init (c38_two ++ locks 3) in let s2 := c_exec s (XCall 3 (CSignal 1) :: runs 3 7) in
  c_reach s_init (proper 1 1) s /\ c_m s 1 = 3 /\ c_path (proper 1 1) s (XCall 3 (CSignal 1) :: runs 3 7) s2 /\ idle s2 3 /\
  wokeb 3 s (XCall 3 (CSignal 1) :: runs 3 7) 101 = true.
Proof.
  cbv zeta. split; [eapply reach_path; [constructor | apply proper_path; vm_compute; reflexivity]|]. split; [vm_compute; reflexivity|].
  split; [apply proper_path; vm_compute; reflexivity|]. split; [unfold idle|]; vm_compute; reflexivity.
Qed.

(** ** C41: a successful wait returns with the mutex *)
Theorem C41_success_owns_mutex : forall UW n s t c m k ls s2, NoDup UW -> c_reach (c_init UW n) any_schedule s ->
  t <> 0 -> idle s t -> c_path any_schedule s (XCall t (CWait c m k) :: ls) s2 -> one_call t ls -> c_alive s2 t = true -> idle s2 t ->
  c_res s2 t = Some OK -> c_m s2 m = t.
Proof.
  intros UW n s t c m k ls s2 ND R T0 ID P ONE AL ID2 RS.
  destruct (wait_whole UW n any_schedule s t c m k ls s2 ND R T0 ID P ONE AL ID2) as (r & E & (A & _)).
  apply A. congruence.
Qed.
Definition c41_call := runs 1 7 ++ [XCall 3 (CSignal 1)] ++ runs 3 6 ++ runs 1 6.
Example C41_example :
  let s := c_exec s_init (locks 1) in let s2 := c_exec s (XCall 1 (CWait 1 1 KBlock) :: c41_call) in
  c_reach s_init any_schedule s /\ c_path any_schedule s (XCall 1 (CWait 1 1 KBlock) :: c41_call) s2 /\ idle s2 1 /\ c_res s2 1 = Some OK /\ c_m s2 1 = 1.
Proof.
  cbv zeta. split; [eapply reach_path; [constructor | apply any_path]|]. split; [apply any_path|]. split; [unfold idle|split]; vm_compute; reflexivity.
Qed.

(** ** C42: a timed-out wait *)
Definition C42_statement : Prop :=
  forall UW n s t c m k ls s2, NoDup UW -> c_reach (c_init UW n) (proper c m) s ->
    t <> 0 -> idle s t -> c_path (proper c m) s (XCall t (CWait c m k) :: ls) s2 -> one_call t ls -> c_alive s2 t = true -> idle s2 t ->
    c_res s2 t = Some ETIMEDOUT -> c_m s2 m = t.
(** the relocking uses the same timeout: it gives up while thread 2 owns the mutex *)
Definition c42_call := runs 1 7 ++ locks 2 ++ [XRun 1 true; XRun 1 true] ++ runs 1 4.
Theorem C42_timeout_without_mutex_refuted : ~ C42_statement.
Proof.
  intro H. set (s := c_exec s_init (locks 1)). set (s2 := c_exec s (XCall 1 (CWait 1 1 KTimed) :: c42_call)).
  assert (E : c_m s2 1 = 1).
  { apply (H [101; 102; 103] 2%nat s 1 1 1 KTimed c42_call s2).
    - apply nd_init.
    - eapply reach_path; [constructor | apply proper_path; vm_compute; reflexivity].
    - lia.
    - unfold idle. vm_compute. reflexivity.
    - apply proper_path. vm_compute. reflexivity.
    - apply one_call_dec. vm_compute. reflexivity.
    - vm_compute. reflexivity.
    - unfold idle. vm_compute. reflexivity.
    - vm_compute. reflexivity. }
  revert E. vm_compute. discriminate.
Qed.
(** All schedules: a wait call that reports a timeout has the mutex, or another thread owned the mutex at some moment of the call.
    Calls without timeout never report one. Missing: ownership after a timeout under contention. *)
Theorem C42_timeout_partial : forall UW n s t c m k ls s2 r, NoDup UW -> c_reach (c_init UW n) any_schedule s ->
  t <> 0 -> idle s t -> c_path any_schedule s (XCall t (CWait c m k) :: ls) s2 -> one_call t ls -> c_alive s2 t = true -> idle s2 t ->
  c_res s2 t = Some r -> r = ETIMEDOUT \/ r = EBUSY ->
  k <> KBlock /\ (c_m s2 m = t \/ at_some_moment any_schedule s (XCall t (CWait c m k) :: ls) s2 (held_by_other m t)).
Proof.
  intros UW n s t c m k ls s2 r ND R T0 ID P ONE AL ID2 RS D.
  destruct (wait_whole UW n any_schedule s t c m k ls s2 ND R T0 ID P ONE AL ID2) as (r' & E & (_ & B & _)).
  apply B. assert (r' = r) by congruence. subst; auto.
Qed.
Example C42_example :
  let s := c_exec s_init (locks 1) in let s2 := c_exec s (XCall 1 (CWait 1 1 KTimed) :: runs 1 7 ++ [XRun 1 true] ++ runs 1 5) in
  c_reach s_init any_schedule s /\ idle s2 1 /\ c_res s2 1 = Some ETIMEDOUT /\ c_m s2 1 = 1.
Proof. cbv zeta. split; [eapply reach_path; [constructor | apply any_path]|]. split; [unfold idle|split]; vm_compute; reflexivity. Qed.

(** ** C43: the signal reaches a call that returns 0 *)
(** at some moment of the signal call: if a call is blocked then a call is woken that returns 0 whenever it returns *)
Definition C43_claim (ok : cstate -> clabel -> Prop) (c m : Z) : Prop :=
  forall UW n s t ls s2, NoDup UW -> c_reach (c_init UW n) ok s ->
    t <> 0 -> idle s t -> c_m s m = t -> c_path ok s (XCall t (CSignal c) :: ls) s2 -> one_call t ls -> idle s2 t ->
    exists wk l1 l2 s1, own_wakes t s (XCall t (CSignal c) :: ls) wk /\ XCall t (CSignal c) :: ls = l1 ++ l2 /\
      c_path ok s l1 s1 /\ c_path ok s1 l2 s2 /\
      ((exists u w, blocked s1 c u w) ->
        exists u' w', In w' wk /\ released s1 c u' w' /\ u' <> 0 /\
          forall ls' s3, c_path ok s2 ls' s3 -> one_call u' (l2 ++ ls') -> idle s3 u' -> c_res s3 u' = Some OK).
Definition C43_statement : Prop := forall c m, C43_claim (proper c m) c m.

(** thread 1 has timed out and waits for the mutex, thread 2 is blocked, thread 3 owns the mutex and signals *)
Definition c43_before := sleeps 1 KTimed ++ sleeps 2 KBlock ++ locks 3 ++ [XRun 1 true].
Definition c43_after := unlocks 3 ++ runs 1 5.
Theorem C43_signal_swallowed_refuted : ~ C43_statement.
Proof.
  intro H. set (s := c_exec s_init c43_before). set (s2 := c_exec s (XCall 3 (CSignal 1) :: runs 3 7)). set (s3 := c_exec s2 c43_after).
  assert (R : c_reach s_init (proper 1 1) s) by (eapply reach_path; [constructor | apply proper_path; vm_compute; reflexivity]).
  destruct (H 1 1 [101; 102; 103] 2%nat s 3 (runs 3 7) s2) as (wk & l1 & l2 & s1 & OW & E & P1 & P2 & Q).
  - apply nd_init.
  - exact R.
  - lia.
  - unfold idle. vm_compute. reflexivity.
  - vm_compute. reflexivity.
  - apply proper_path. vm_compute. reflexivity.
  - apply one_call_dec. vm_compute. reflexivity.
  - unfold idle. vm_compute. reflexivity.
  - set (f := fun s' : cstate => match c_wl s' 1 with [a; b] => (a =? 102) && (b =? 101) | _ => false end &&
        (w_tid (c_w s' 101) =? 1) && match c_pc s' 2 with WW a x => (a_c a =? 1) && (x =? 102) && w_wait (c_w s' 102) | _ => false end).
    assert (F : f s1 = true) by (eapply always_moment; [exact P1|]; rewrite <- E; vm_compute; reflexivity).
    unfold f in F. apply andb_true_iff in F as [F F3]. apply andb_true_iff in F as [F1 F2].
    destruct (c_wl s1 1) as [|a [|b [|]]] eqn:L; try discriminate. apply andb_true_iff in F1 as [A B]. apply Z.eqb_eq in A, B, F2. subst a b.
    destruct Q as (u' & w' & I & RL & U0 & Q).
    { exists 2, 102. unfold blocked. destruct (c_pc s1 2); try discriminate. apply andb_true_iff in F3 as [F3 F4]. apply andb_true_iff in F3 as [F5 F6].
      apply Z.eqb_eq in F5, F6. subst. auto. }
    assert (R1 : c_reach s_init (proper 1 1) s1) by (eapply reach_path; eauto).
    pose proof (CI_reach [101; 102; 103] 2 (proper 1 1) s1 nd_init R1) as CI1.
    assert (AL : c_alive s1 u' = true) by (eapply (nodeath_reach [101; 102; 103] 2 (proper 1 1)); eauto; intros s' x' [O _]; auto).
    destruct (released_reg _ _ _ _ RL) as (a & RG & C). destruct (ci_reg _ _ CI1 u' a w' AL RG) as (IW & T & _). rewrite C, L in IW.
    assert (w' = 101).
    { destruct IW as [<-|[<-|[]]]; auto. exfalso. pose proof (wokeb_in _ _ _ _ _ OW I) as W. revert W. vm_compute. discriminate. }
    subst w'. assert (EU : u' = 1) by congruence. rewrite EU in Q.
    assert (K : c_res s3 1 = Some OK).
    { refine (Q c43_after s3 _ _ _).
      - unfold s3. apply proper_path. vm_compute. reflexivity.
      - intros cc J. apply in_app_or in J as [J|J].
        + assert (J' : In (XCall 1 cc) (XCall 3 (CSignal 1) :: runs 3 7)) by (rewrite E; apply in_or_app; auto).
          clear - J'. simpl in J'. repeat (destruct J' as [J'|J']; [discriminate|]). contradiction.
        + clear - J. simpl in J. repeat (destruct J as [J|J]; [discriminate|]). contradiction.
      - unfold idle. vm_compute. reflexivity. }
    revert K. vm_compute. discriminate.
Qed.
(** True if no timeout expires. *)
Theorem C43_signal_reaches_waiter_partial : forall c m, C43_claim (both (proper c m) no_timeouts) c m.
Proof.
  intros c m UW n s t ls s2 ND R T0 ID M P ONE ID2. set (ok := both (proper c m) no_timeouts) in *.
  assert (W0 : forall s x, ok s x -> proper c m s x) by (intros s' x' [O _]; auto).
  assert (W1 : forall s x, ok s x -> owners_wait c s x) by (intros s' x' [[_ O] _]; eapply waits_own; eauto).
  assert (W2 : forall s x, ok s x -> owners_wait c s x /\ no_timeouts s x) by (intros s' x' O; split; [apply W1; auto | apply O]).
  assert (W4 : forall s x, ok s x -> no_deaths s x) by (intros s' x' [[O _] _]; auto).
  destruct (owner_signal UW n c m ok s t ls s2 ND W0 R T0 ID M P ONE ID2) as (wk & OW & l1 & l2 & s1 & E & P1 & P2 & WO & CT).
  exists wk, l1, l2, s1. split; auto. split; auto. split; auto. split; auto. intros (u & w & BL).
  assert (C0 : counted s1 c w).
  { apply CT. exists u. unfold blocked in BL. unfold released. destruct (c_pc s1 u); try contradiction. destruct BL as (A & -> & B). auto. }
  destruct WO as [[_ NC]|(w' & -> & [CW _])]; [exfalso; eapply NC; eauto|]. destruct (proj1 (CT w') CW) as (u' & RL & _).
  assert (R1 : c_reach (c_init UW n) ok s1) by (eapply reach_path; eauto).
  assert (U0 : u' <> 0) by (intros ->; unfold released in RL; rewrite (zero_reach UW n ok s1 R1) in RL; contradiction).
  exists u', w'. split; [left; auto|]. split; auto. split; auto. intros ls' s3 P3 ONE' ID3.
  assert (P13 : c_path ok s1 (l2 ++ ls') s3) by (eapply path_app; eauto).
  apply (released_end UW c ok s1 (l2 ++ ls') s3 u' w'); auto.
  - rewrite (nodeath_path ok _ _ _ u' W4 P13). apply (nodeath_reach UW n ok s1 u' W4 R1).
  - eapply good_reach; eauto.
  - eapply TI_reach; eauto.
Qed.
Example C43_example :
  let s := c_exec s_init (c38_two ++ locks 3) in let s2 := c_exec s (XCall 3 (CSignal 1) :: runs 3 7) in let s3 := c_exec s2 (unlocks 3 ++ runs 1 6) in
  c_path (both (proper 1 1) no_timeouts) s_init (c38_two ++ locks 3) s /\ c_path (both (proper 1 1) no_timeouts) s (XCall 3 (CSignal 1) :: runs 3 7) s2 /\
  c_path (both (proper 1 1) no_timeouts) s2 (unlocks 3 ++ runs 1 6) s3 /\ idle s3 1 /\ c_res s3 1 = Some OK.
Proof.
  cbv zeta. split; [apply quiet_path; vm_compute; reflexivity|]. split; [apply quiet_path; vm_compute; reflexivity|]. split; [apply quiet_path; vm_compute; reflexivity|].
  split; [unfold idle|]; vm_compute; reflexivity.
Qed.

(** ** C44: waiter entries *)
(** All schedules: a live thread that is not inside a call has no entry in any list; no two lists share an entry and no listed
    entry is free. *)
Theorem C44_idle_thread_has_no_entry : forall UW n s t c w, NoDup UW -> c_reach (c_init UW n) any_schedule s ->
  c_alive s t = true -> idle s t -> In w (c_wl s c) -> w_tid (c_w s w) <> t.
Proof. intros UW n s t c w ND R. apply (idle_no_entry UW). eapply CI_reach; eauto. Qed.
Theorem C44_entries_not_shared : forall UW n s c c' w, NoDup UW -> c_reach (c_init UW n) any_schedule s ->
  In w (c_wl s c) -> NoDup (c_wl s c) /\ In w UW /\ ~ In w (c_pool s) /\ (In w (c_wl s c') -> c = c').
Proof.
  intros UW n s c c' w ND R I. pose proof (CI_reach UW n any_schedule s ND R) as H. destruct (ci_wl _ _ H c) as [A B].
  split; auto. split; auto. split; [eapply ci_disj; eauto | intro J; eapply ci_disj2; eauto].
Qed.
(** each waiting call has exactly one entry, registered under its thread in the list of its condition *)
Theorem C44_waiting_call_has_its_entry : forall UW n s c u w, NoDup UW -> c_reach (c_init UW n) any_schedule s -> c_alive s u = true ->
  entering s c u w \/ released s c u w -> forall c' w', In w' (c_wl s c') /\ w_tid (c_w s w') = u <-> c' = c /\ w' = w.
Proof.
  intros UW n s c u w ND R AL D. pose proof (CI_reach UW n any_schedule s ND R) as H.
  assert (Q : exists a, reg (c_pc s u) = Some (a, w) /\ a_c a = c).
  { destruct D as [D|D]; [|apply released_reg; auto]. apply entering_ent in D as (a & E & C). exists a. destruct (ent_pre _ _ _ E) as (_ & _ & RG). auto. }
  destruct Q as (a & RG & C). intros c' w'. split.
  - intros [I T]. destruct (ci_own _ _ H c' w' I) as (b & Q & C'); [rewrite T; auto|]. rewrite T, RG in Q. inversion Q; subst. auto.
  - intros [-> ->]. destruct (ci_reg _ _ H u a w AL RG) as (I & T & _). rewrite C in I. auto.
Qed.
(** no deaths: when no call is running the free list is complete *)
Theorem C44_all_entries_return : forall UW n s, NoDup UW -> c_reach (c_init UW n) no_deaths s -> (forall t, idle s t) ->
  Permutation (c_pool s) UW /\ forall c, c_wl s c = [].
Proof. intros UW n s ND R ID. apply all_idle; auto; [eapply CI_reach; eauto | eapply (CV_reach UW n no_deaths); eauto]. Qed.
(** all schedules: a failing wait call does not change any mutex *)
Theorem C44_failed_wait_leaves_mutexes : forall UW n s t c m k ls s2 r, NoDup UW -> c_reach (c_init UW n) any_schedule s ->
  t <> 0 -> idle s t -> c_path any_schedule s (XCall t (CWait c m k) :: ls) s2 -> one_call t ls -> c_alive s2 t = true -> idle s2 t ->
  c_res s2 t = Some r -> r = EPERM \/ r = ENOLCK \/ r = EINVAL -> mutexes_untouched t s (XCall t (CWait c m k) :: ls).
Proof. intros. eapply wait_fail; eauto. Qed.
Example C44_example :
  let s := c_exec s_init (locks 1) in let s2 := c_exec s (XCall 2 (CWait 1 1 KBlock) :: runs 2 12) in
  c_reach s_init any_schedule s /\ c_path any_schedule s (XCall 2 (CWait 1 1 KBlock) :: runs 2 12) s2 /\ idle s2 2 /\ c_res s2 2 = Some EPERM /\ c_m s2 1 = 1 /\ c_wl s2 1 = [].
Proof.
  cbv zeta. split; [eapply reach_path; [constructor | apply any_path]|]. split; [apply any_path|]. split; [unfold idle|repeat split]; vm_compute; reflexivity.
Qed.
Example C44_example_released :
  let s := c_exec s_init c38_two in c_reach s_init any_schedule s /\ released s 1 2 102 /\ c_alive s 2 = true /\ c_wl s 1 = [102; 101].
Proof. cbv zeta. split; [eapply reach_path; [constructor | apply any_path]|]. split; [vm_compute; auto|split; vm_compute; reflexivity]. Qed.

(** ** C69: dead waiters *)
Definition C69_statement : Prop :=
  forall UW n c m s t ls s2, NoDup UW -> c_reach (c_init UW n) (waits_with c m) s -> c_alive s t = true ->
    t <> 0 -> idle s t -> c_m s m = t -> c_path (waits_with c m) s (XCall t (CSignal c) :: ls) s2 -> one_call t ls -> idle s2 t ->
    exists wk, own_wakes t s (XCall t (CSignal c) :: ls) wk /\
      at_some_moment (waits_with c m) s (XCall t (CSignal c) :: ls) s2 (fun s1 =>
        (exists u w, c_alive s1 u = true /\ blocked s1 c u w) -> exists w', In w' wk /\ c_alive s1 (w_tid (c_w s1 w')) = true).
Fixpoint checks_ww (s : cstate) (ls : list clabel) : bool :=
  match ls with
  | [] => true
  | x :: r => match x with XCall t (CWait c m k) => if c =? 1 then (m =? 1) && (c_m s 1 =? t) else true | _ => true end && checks_ww (c_step s x) r
  end.
Lemma ww_path : forall ls s, checks_ww s ls = true -> c_path (waits_with 1 1) s ls (c_exec s ls).
Proof.
  intros ls. induction ls as [|x ls IH]; intros s H; simpl; constructor; simpl in H; apply andb_true_iff in H as [H H']; auto.
  destruct x as [t cc| | |]; simpl; auto. destruct cc; auto. intros ->. simpl in H. apply andb_true_iff in H as [A B]. apply Z.eqb_eq in A, B. auto.
Qed.
(** thread 1 dies while it waits; the signal of thread 3 goes to its entry and thread 2 stays blocked *)
Definition c69_before := sleeps 1 KBlock ++ [XDie 1] ++ sleeps 2 KBlock ++ locks 3.
Theorem C69_signal_to_dead_waiter_refuted : ~ C69_statement.
Proof.
  intro H. set (s := c_exec s_init c69_before). set (s2 := c_exec s (XCall 3 (CSignal 1) :: runs 3 7)).
  assert (R : c_reach s_init (waits_with 1 1) s) by (eapply reach_path; [constructor | apply ww_path; vm_compute; reflexivity]).
  destruct (H [101; 102; 103] 2%nat 1 1 s 3 (runs 3 7) s2) as (wk & OW & l1 & l2 & s1 & E & P1 & P2 & Q).
  - apply nd_init.
  - exact R.
  - vm_compute. reflexivity.
  - lia.
  - unfold idle. vm_compute. reflexivity.
  - vm_compute. reflexivity.
  - apply ww_path. vm_compute. reflexivity.
  - apply one_call_dec. vm_compute. reflexivity.
  - unfold idle. vm_compute. reflexivity.
  - set (f := fun s' : cstate => c_alive s' 2 && negb (c_alive s' 1) && (w_tid (c_w s' 101) =? 1) &&
        match c_pc s' 2 with WW a x => (a_c a =? 1) && (x =? 102) && w_wait (c_w s' 102) | _ => false end).
    assert (F : f s1 = true) by (eapply always_moment; [exact P1|]; rewrite <- E; vm_compute; reflexivity).
    unfold f in F. apply andb_true_iff in F as [F F3]. apply andb_true_iff in F as [F F2]. apply andb_true_iff in F as [F0 F1].
    apply negb_true_iff in F1. apply Z.eqb_eq in F2. destruct Q as (w' & I & AL).
    { exists 2, 102. split; auto. unfold blocked. destruct (c_pc s1 2); try discriminate. apply andb_true_iff in F3 as [F3 F4]. apply andb_true_iff in F3 as [F5 F6].
      apply Z.eqb_eq in F5, F6. subst. auto. }
    pose proof (wokeb_in _ _ _ _ _ OW I) as W.
    assert (D : w' = 101).
    { destruct (signal_whole [101; 102; 103] 2 1 (waits_with 1 1) s 3 (runs 3 7) s2) as (wk2 & OW2 & (l3 & l4 & s4 & E4 & P3 & P4 & WO) & _).
      - apply nd_init.
      - intros. eapply waits_own; eauto.
      - exact R.
      - vm_compute. reflexivity.
      - lia.
      - unfold idle. vm_compute. reflexivity.
      - unfold s2. apply ww_path. vm_compute. reflexivity.
      - apply one_call_dec. vm_compute. reflexivity.
      - unfold idle. vm_compute. reflexivity.
      - pose proof (wokeb_out _ _ _ _ _ OW2 W) as I2. destruct WO as [[-> _]|(w2 & -> & [[IW _] _])]; [contradiction|].
        destruct I2 as [I2|[]]. subst w2.
        assert (F4 : match c_wl s4 1 with [a; b] => (a =? 102) && (b =? 101) | _ => false end = true).
        { apply (always_moment (fun s' => match c_wl s' 1 with [a; b] => (a =? 102) && (b =? 101) | _ => false end) _ _ _ _ l4 P3). rewrite <- E4. vm_compute. reflexivity. }
        destruct (c_wl s4 1) as [|a [|b [|]]]; try (discriminate F4). apply andb_true_iff in F4 as [A B]. apply Z.eqb_eq in A, B. subst a b.
        destruct IW as [IW|[IW|[]]]; [|symmetry; exact IW]. exfalso. rewrite <- IW in W. clear - W. revert W. vm_compute. discriminate. }
    rewrite D in AL. rewrite F2, F1 in AL. discriminate AL.
Qed.

(** True while the list of the condition holds no entry of a dead thread (which is what a recovery pass achieves, C72): with
    deaths elsewhere, the woken entry belongs to a live call that has released the mutex. *)
Theorem C69_live_waiters_partial : forall UW n c m s t ls s2, NoDup UW -> c_reach (c_init UW n) (waits_with c m) s -> c_alive s t = true ->
  t <> 0 -> idle s t -> c_path (waits_with c m) s (XCall t (CSignal c) :: ls) s2 -> one_call t ls -> idle s2 t ->
  exists wk, own_wakes t s (XCall t (CSignal c) :: ls) wk /\
    at_some_moment (waits_with c m) s (XCall t (CSignal c) :: ls) s2 (fun s1 =>
      (exists u w, c_alive s1 u = true /\ blocked s1 c u w) -> (forall w, In w (c_wl s1 c) -> c_alive s1 (w_tid (c_w s1 w)) = true) ->
      exists u' w', wk = [w'] /\ c_alive s1 u' = true /\ released s1 c u' w').
Proof.
  intros UW n c m s t ls s2 ND R AL T0 ID P ONE ID2.
  assert (W : forall s x, waits_with c m s x -> owners_wait c s x) by (intros; eapply waits_own; eauto).
  destruct (signal_whole UW n c (waits_with c m) s t ls s2 ND W R AL T0 ID P ONE ID2) as (wk & OW & (l1 & l2 & s1 & E & P1 & P2 & WO) & _).
  exists wk. split; auto. exists l1, l2, s1. split; auto. split; auto. split; auto. intros (u & w & A & B) LV.
  assert (R1 : c_reach (c_init UW n) (waits_with c m) s1) by (eapply reach_path; eauto).
  pose proof (CI_reach UW n (waits_with c m) s1 ND R1) as CI1.
  assert (RL : released s1 c u w /\ w_wait (c_w s1 w) = true).
  { unfold blocked in B. unfold released. destruct (c_pc s1 u); try contradiction. destruct B as (B1 & -> & B2). auto. }
  destruct RL as [RL WT]. destruct (released_reg _ _ _ _ RL) as (a & RG & C). destruct (ci_reg _ _ CI1 u a w A RG) as (IW & _). rewrite C in IW.
  assert (CT : counted s1 c w) by (split; auto).
  destruct WO as [[_ NC]|(w' & -> & LG)]; [exfalso; eapply NC; eauto|].
  exists (w_tid (c_w s1 w')), w'. split; auto. split; [apply LV; apply LG|].
  eapply longest_released; eauto; [eapply good2_reach; eauto | apply LV; apply LG].
Qed.
Example C69_example :
  let s := c_exec s_init (c38_two ++ [XDie 4]) in let s2 := c_exec s (XCall 3 (CSignal 1) :: runs 3 7) in
  c_reach s_init (waits_with 1 1) s /\ c_path (waits_with 1 1) s (XCall 3 (CSignal 1) :: runs 3 7) s2 /\ idle s2 3 /\ blocked s 1 2 102 /\ c_wl s 1 = [102; 101].
Proof.
  cbv zeta. split; [eapply reach_path; [constructor | apply ww_path; vm_compute; reflexivity]|]. split; [apply ww_path; vm_compute; reflexivity|].
  split; [unfold idle; vm_compute; reflexivity|]. split; vm_compute; auto.
Qed.

(** ** C70: no spurious wakeups *)
Theorem C70_no_spurious_wakeup : forall UW n s t c m k ls s2, NoDup UW -> c_reach (c_init UW n) any_schedule s ->
  t <> 0 -> idle s t -> c_path any_schedule s (XCall t (CWait c m k) :: ls) s2 -> one_call t ls -> c_alive s2 t = true -> idle s2 t ->
  c_res s2 t = Some OK -> woken_on_the_way any_schedule s (XCall t (CWait c m k) :: ls) c t.
Proof.
  intros UW n s t c m k ls s2 ND R T0 ID P ONE AL ID2 RS.
  destruct (wait_whole UW n any_schedule s t c m k ls s2 ND R T0 ID P ONE AL ID2) as (r & E & (A & _)).
  apply A. congruence.
Qed.
(** every outcome of a wait call *)
Theorem C70_results_of_wait : forall UW n s t c m k ls s2, NoDup UW -> c_reach (c_init UW n) any_schedule s ->
  t <> 0 -> idle s t -> c_path any_schedule s (XCall t (CWait c m k) :: ls) s2 -> one_call t ls -> c_alive s2 t = true -> idle s2 t ->
  exists r, c_res s2 t = Some r /\ In r [OK; ETIMEDOUT; EBUSY; EPERM; ENOLCK; EINVAL].
Proof.
  intros UW n s t c m k ls s2 ND R T0 ID P ONE AL ID2.
  destruct (wait_whole UW n any_schedule s t c m k ls s2 ND R T0 ID P ONE AL ID2) as (r & E & (_ & _ & B)). eauto.
Qed.

(** ** C71: a woken waiter returns *)
Theorem C71_woken_waiter_returns : forall UW n s u w c m k, NoDup UW -> c_reach (c_init UW n) any_schedule s -> u <> 0 -> c_alive s u = true ->
  c_guard s = None -> c_pc s u = WW (mkWA c m k) w -> w_wait (c_w s w) = false -> c_m s m = 0 ->
  let s' := c_exec s (repeat (XRun u false) 6) in idle s' u /\ c_res s' u = Some OK.
Proof.
  intros UW n s u w c m k ND R U0 AL G Ep W M. apply (woken_returns UW s u w c); auto; [eapply CI_reach; eauto|]. rewrite Ep. auto.
Qed.
Example C71_example :
  let s := c_exec s_init (sleeps 1 KBlock ++ [XCall 3 (CSignal 1)] ++ runs 3 6) in
  c_reach s_init any_schedule s /\ c_guard s = None /\ c_pc s 1 = WW (mkWA 1 1 KBlock) 101 /\ w_wait (c_w s 101) = false /\ c_m s 1 = 0.
Proof. cbv zeta. split; [eapply reach_path; [constructor | apply any_path]|]. repeat split; vm_compute; reflexivity. Qed.

(** ** C72: recovery pass *)
Theorem C72_recovery_clears_dead_waiters : forall UW n s t ls s2, NoDup UW -> c_reach (c_init UW n) any_schedule s ->
  c_alive s t = true -> t <> 0 -> idle s t -> c_path any_schedule s (XCall t CRecover :: ls) s2 -> one_call t ls -> idle s2 t ->
  forall c w, In w (c_wl s2 c) -> c_alive s (w_tid (c_w s2 w)) = true.
Proof.
  intros UW n s t ls s2 ND R AL T0 ID P ONE ID2. destruct (path_cons_inv _ _ _ _ _ P) as [O P'].
  pose proof (call_eq s t CRecover AL T0 ID) as E. pose proof (CI_reach UW n any_schedule s ND R) as H.
  apply (rec_path UW (c_alive s) any_schedule _ ls s2 t P'); auto.
  - apply CI_step; auto.
  - intros u A. rewrite E in A. auto.
  - unfold rinv. rewrite E. simpl. rewrite upd_eq. auto.
Qed.
Example C72_example :
  let s := c_exec s_init c69_before in let s2 := c_exec s (XCall 3 CRecover :: runs 3 8) in
  c_reach s_init any_schedule s /\ c_path any_schedule s (XCall 3 CRecover :: runs 3 8) s2 /\ c_wl s 1 = [102; 101] /\ c_alive s 1 = false /\ idle s2 3 /\ c_wl s2 1 = [102].
Proof.
  cbv zeta. split; [eapply reach_path; [constructor | apply any_path]|]. split; [apply any_path|]. repeat split; try (unfold idle); vm_compute; reflexivity.
Qed.

(** ** C105: signal and broadcast report an unknown name, and nothing else *)
(** A call that finds the condition in use succeeds and one that finds it unknown fails: success means that it was in use when
    the call returned, failure that it was unknown when the call began; nothing else is returned. *)
Theorem C105_unknown_name : forall UW n s t c cc ls s2, NoDup UW -> c_reach (c_init UW n) any_schedule s ->
  cc = CSignal c \/ cc = CBroadcast c -> c_alive s t = true -> t <> 0 -> idle s t ->
  c_path any_schedule s (XCall t cc :: ls) s2 -> one_call t ls -> idle s2 t ->
  (In c (c_conds s) -> c_res s2 t = Some OK) /\ (~ In c (c_conds s2) -> c_res s2 t = Some EINVAL) /\
  (c_res s2 t = Some OK \/ c_res s2 t = Some EINVAL).
Proof.
  intros UW n s t c cc ls s2 ND R CC AL T0 ID P ONE ID2. destruct (path_cons_inv _ _ _ _ _ P) as [O P'].
  pose proof (call_eq s t cc AL T0 ID) as E.
  destruct (sig_path _ c t (c_conds s) _ ls s2 P' ONE) as [A B].
  - apply conds_grow.
  - unfold sig_st. rewrite E. destruct CC as [->| ->]; simpl; rewrite upd_eq; auto.
  - unfold sig_st in A. rewrite ID2 in A. destruct A as [[A1 A2]|[A1 A2]]; rewrite A1; intuition.
Qed.
(** names are remembered: a condition that was in use stays in use *)
Theorem C105_names_stay : forall UW n s ls s2, NoDup UW -> c_reach (c_init UW n) any_schedule s -> c_path any_schedule s ls s2 ->
  forall c, In c (c_conds s) -> In c (c_conds s2).
Proof.
  intros UW n s ls s2 _ _ P. induction P; intros c0 I; auto. apply IHP. now apply conds_grow.
Qed.
(** thread 3 signals and broadcasts a name nobody waits on, then thread 1 waits on it and thread 3 signals again *)
Example C105_example :
  let a := c_exec s_init (XCall 3 (CSignal 1) :: runs 3 3) in let b := c_exec a (XCall 3 (CBroadcast 1) :: runs 3 3) in
  let d := c_exec b (sleeps 1 KBlock) in let e := c_exec d (XCall 3 (CSignal 1) :: runs 3 6) in
  idle a 3 /\ c_res a 3 = Some EINVAL /\ idle b 3 /\ c_res b 3 = Some EINVAL /\ c_conds b = [] /\ c_conds d = [1] /\ idle e 3 /\ c_res e 3 = Some OK.
Proof. cbv zeta. repeat split; try (unfold idle); vm_compute; reflexivity. Qed.

Print Assumptions C38_signal_lost_to_failing_wait_refuted.
Print Assumptions C38_signal_wakes_longest_partial.
Print Assumptions C38_longest_waiter_is_blocked.
Print Assumptions C38_woken_stays_woken.
Print Assumptions C39_broadcast_wakes_all.
Print Assumptions C39_broadcast_wakes_all_owners.
Print Assumptions C40_no_lost_wakeup.
Print Assumptions C41_success_owns_mutex.
Print Assumptions C42_timeout_without_mutex_refuted.
Print Assumptions C42_timeout_partial.
Print Assumptions C43_signal_swallowed_refuted.
Print Assumptions C43_signal_reaches_waiter_partial.
Print Assumptions C44_idle_thread_has_no_entry.
Print Assumptions C44_entries_not_shared.
Print Assumptions C44_waiting_call_has_its_entry.
Print Assumptions C44_all_entries_return.
Print Assumptions C44_failed_wait_leaves_mutexes.
Print Assumptions C69_signal_to_dead_waiter_refuted.
Print Assumptions C69_live_waiters_partial.
Print Assumptions C70_no_spurious_wakeup.
Print Assumptions C70_results_of_wait.
Print Assumptions C71_woken_waiter_returns.
Print Assumptions C72_recovery_clears_dead_waiters.
Print Assumptions C105_unknown_name.
Print Assumptions C105_names_stay.
