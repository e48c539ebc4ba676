(** The stack is used under its mutex, except by conversions. *)
From Verif Require Import Base Rcsv_Model Rcsv_Spec Rcsv_Proofs.
From Coq Require Import ZArith List Bool Lia.
Import ListNotations.
Open Scope Z_scope.

Definition rres {A} (b : bool) (r : res A) : Prop :=
  match r with Ret _ _ s | Wait _ _ s | Hang s => s_race s = b end.

Lemma rres_bind : forall A B b (r : res A) (k : A -> bool -> st -> res B),
  rres b r -> (forall a L s, r = Ret a L s -> s_race s = b -> rres b (k a L s)) -> rres b (bind r k).
Proof. intros A B b [a L s|c L s|s] k H K; cbn; auto. Qed.

Lemma stack_race : forall s l, s_mtx s = true -> s_race (set_stack s l) = s_race s.
Proof. intros s l M. cbn. rewrite M. cbn. apply orb_false_r. Qed.
Lemma move_race : forall src s d m, s_race (move_pending s d m src) = s_race s.
Proof. induction src as [|x r IH]; intros; cbn [move_pending]; auto. cbv zeta. rewrite IH. reflexivity. Qed.
Lemma pass_race : forall s o, s_mtx s = true -> s_race (pass_on s o) = s_race s.
Proof.
  intros s o M. unfold pass_on. destruct (pick s (o_pend (s_obj s o))) as [n rest]. cbv zeta.
  rewrite stack_race.
  - cbn [on set_obj s_race]. apply move_race.
  - rewrite !on_mtx, move_mtx. exact M.
Qed.
Lemma shm_race : forall c L s, rres (s_race s) (shm c L s).
Proof. intros. unfold shm. destruct (s_ans s); reflexivity. Qed.

Lemma rawunlock_r : forall o L s, s_mtx s = L -> rres (s_race s) (RawUnlock o L s).
Proof.
  intros o L s M. unfold RawUnlock. cbv zeta.
  destruct (is_unl (o_type (s_obj s o)) || negb (o_locked (s_obj s o))); [exact eq_refl|].
  destruct (stack_lock_ok L s M) as (s1 & -> & M1 & _ & _ & R1 & _). cbn [bind].
  destruct (o_master (s_obj s o)) as [m|]; [exact R1|].
  destruct (o_pend (s_obj s o)) as [|y r].
  - destruct (o_has (s_obj s o)).
    2:{ cbn [rres on set_obj s_race]. rewrite stack_race by auto. exact R1. }
    pose proof (stack_race s1 (erase o (s_stack s1)) M1) as RS.
    destruct (stack_unlock_ok true (set_stack s1 (erase o (s_stack s1))) M1) as (s2 & -> & M2 & _ & _ & R2 & _). cbn [bind].
    assert (Q : s_race s2 = s_race s) by congruence.
    apply rres_bind; [rewrite <- Q; apply shm_race|]. intros a L' s3 E R3.
    apply shm_ret in E as (-> & _ & _ & _ & M3 & _). rewrite M2 in M3.
    destruct (a =? 0); [exact R3|].
    destruct (stack_lock_ok false s3 M3) as (s4 & -> & M4 & _ & _ & R4 & _). cbn [bind rres].
    rewrite stack_race by auto. congruence.
  - cbn [rres on set_obj s_race]. rewrite pass_race by exact M1. rewrite stack_race by exact M1. exact R1.
Qed.

Lemma rawread_r : forall o L s, s_mtx s = L ->
  is_wr (o_type (s_obj s o)) && o_locked (s_obj s o) = false -> rres (s_race s) (RawReadLock o L s).
Proof.
  intros o L s M C. unfold RawReadLock. cbv zeta. rewrite C.
  destruct (o_locked (s_obj s o) && is_rd (o_type (s_obj s o))); [exact eq_refl|].
  destruct (o_locked (s_obj s o) && is_wr (o_type (s_obj s o)) && _); [exact eq_refl|].
  destruct (stack_lock_ok L s M) as (s1 & -> & M1 & _ & _ & R1 & _). cbn [bind unlock_if negb].
  set (s2 := on s1 o _). assert (M2 : s_mtx s2 = true) by exact M1. assert (R2 : s_race s2 = s_race s) by exact R1.
  set (s3 := set_stack _ _). assert (M3 : s_mtx s3 = true) by exact M2.
  assert (R3 : s_race s3 = s_race s) by (unfold s3; rewrite stack_race by auto; exact R2).
  destruct (first_match s3 _ _) as [i|]; [exact R3|].
  pose proof (stack_race s3 (s_stack s3 ++ [o]) M3) as R3'.
  destruct (stack_unlock_ok true (set_stack s3 (s_stack s3 ++ [o])) M3) as (s4 & -> & M4 & _ & _ & R4 & _). cbn [bind].
  assert (Q : s_race s4 = s_race s) by congruence.
  apply rres_bind; [rewrite <- Q; apply shm_race|]. intros a L5 s5 E R5.
  apply shm_ret in E as (-> & _ & _ & _ & M5 & _). rewrite M4 in M5.
  destruct (a =? 0); [exact R5|].
  destruct (stack_lock_ok false s5 M5) as (s6 & -> & M6 & _ & _ & R6 & _). cbn [bind rres on set_obj s_race].
  rewrite stack_race by auto. congruence.
Qed.

Lemma take_over_r : forall o rs L s, rres (s_race s) (take_over o rs L s).
Proof.
  induction rs as [|i r IH]; intros L s; cbn [take_over]; [exact eq_refl|]. cbv zeta.
  apply rres_bind.
  - destruct (_ && _); [apply shm_race|exact eq_refl].
  - intros a L' s' E R'.
    match goal with |- rres _ (take_over o r L' ?x) => pose proof (IH L' x) as H; assert (Q : s_race x = s_race s) end.
    { cbn [on set_obj s_race]. rewrite move_race. exact R'. }
    rewrite Q in H. exact H.
Qed.

Lemma relock_r : forall l L s, rres (s_race s) (relock l L s).
Proof.
  induction l as [|i r IH]; intros L s; cbn [relock]; [exact eq_refl|]. cbv zeta.
  set (s1 := on s i _). change (s_race s) with (s_race s1).
  destruct (is_unl _); [apply IH|]. destruct (s_mtx _); [exact eq_refl|apply IH].
Qed.

Lemma rawwrite_r : forall o L s, s_mtx s = L ->
  is_rd (o_type (s_obj s o)) && o_locked (s_obj s o) = false -> rres (s_race s) (RawWriteLock o L s).
Proof.
  intros o L s M C. unfold RawWriteLock. cbv zeta. rewrite C.
  destruct (o_locked (s_obj s o) && is_wr (o_type (s_obj s o))); [exact eq_refl|].
  destruct (o_locked (s_obj s o) && is_rd (o_type (s_obj s o)) && _); [exact eq_refl|].
  destruct (stack_lock_ok L s M) as (s1 & -> & M1 & _ & _ & R1 & _). cbn [bind unlock_if negb].
  set (s3 := on s1 o _). assert (M3 : s_mtx s3 = true) by exact M1. assert (R3 : s_race s3 = s_race s) by exact R1.
  destruct (scan s3 (s_obj s3 o) (s_stack s3)) as [[rs ks] [i|]].
  { cbn [rres on set_obj s_race]. rewrite stack_race by auto. exact R3. }
  pose proof (stack_race s3 ks M3) as R3'.
  pose proof (stack_race (set_stack s3 ks) (s_stack (set_stack s3 ks) ++ [o]) M3) as R3''.
  destruct (stack_unlock_ok true (set_stack (set_stack s3 ks) (s_stack (set_stack s3 ks) ++ [o])) M3)
    as (s4 & -> & M4 & _ & _ & R4 & _). cbn [bind].
  assert (Q4 : s_race s4 = s_race s) by congruence.
  apply rres_bind; [rewrite <- Q4; apply take_over_r|].
  intros u L5 s5 E5 R5. apply take_over_L in E5 as [-> M5]; auto.
  apply rres_bind; [rewrite <- R5; apply shm_race|]. intros a L6 s6 E6 R6.
  apply shm_ret in E6 as (-> & G6 & _ & _ & M6 & _). rewrite M5 in M6.
  destruct (Z.eqb_spec a 0) as [Z|Z]; [exact R6|].
  destruct (stack_lock_ok false s6 M6) as (s7 & -> & M7 & _ & _ & R7 & _). cbn [bind].
  pose proof (stack_race s7 (erase o (s_stack s7)) M7) as R7'.
  apply rres_bind.
  - assert (Q7 : s_race (set_stack s7 (erase o (s_stack s7))) = s_race s) by congruence.
    rewrite <- Q7. apply relock_r.
  - intros u' L8 s8 _ R8. exact R8.
Qed.

Lemma rawlock_r : forall o b L s, s_mtx s = L ->
  (o_locked (s_obj s o) = true -> o_type (s_obj s o) = ty b) -> rres (s_race s) (RawLock o b L s).
Proof.
  intros o [|] L s M C; cbn [RawLock].
  - apply rawread_r; auto. destruct (o_locked (s_obj s o)); [rewrite C by auto; reflexivity|apply andb_false_r].
  - apply rawwrite_r; auto. destruct (o_locked (s_obj s o)); [rewrite C by auto; reflexivity|apply andb_false_r].
Qed.

Lemma finish_r : forall b r, rres b r -> rres b (finish r).
Proof.
  intros b [a L s|c L s|s] H; cbn [finish bind] in *; auto.
  unfold stack_unlock. destruct L; exact H.
Qed.

(** a successful release leaves the object unlocked *)
Lemma rawunlock_unlocked : forall o L s L' s', RawUnlock o L s = Ret true L' s' ->
  o_type (s_obj s o) <> UNL -> o_locked (s_obj s' o) = false.
Proof.
  intros o L s L' s' E T. unfold RawUnlock in E. cbv zeta in E.
  destruct (is_unl (o_type (s_obj s o)) || negb (o_locked (s_obj s o))) eqn:X.
  { injection E as _ <-. apply orb_true_iff in X as [X|X]; [destruct (o_type (s_obj s o)); try discriminate X; congruence|].
    now apply negb_true_iff. }
  assert (W : forall s, o_locked (s_obj (on s o (fun b => w_state b false false)) o) = false).
  { intros s0. cbn. rewrite upd_eq. reflexivity. }
  destruct (stack_lock L s) as [[] L1 s1|c L1 s1|s1]; cbn [bind] in E; try discriminate E.
  destruct (o_master (s_obj s o)).
  { injection E as _ <-. apply W. }
  destruct (o_pend (s_obj s o)).
  - destruct (o_has (s_obj s o)); [|injection E as _ <-; apply W].
    destruct (stack_unlock _ _) as [[] L2 s2|c L2 s2|s2]; cbn [bind] in E; try discriminate E.
    destruct (shm _ _ _) as [a L3 s3|c L3 s3|s3]; cbn [bind] in E; try discriminate E.
    destruct (a =? 0); [injection E as _ <-; apply W|].
    destruct (stack_lock _ _) as [[] L4 s4|c L4 s4|s4]; cbn [bind] in E; discriminate E.
  - injection E as _ <-. apply W.
Qed.

Lemma call_r : forall p s, s_mtx s = false ->
  no_conversion s p -> s_race (reached (call p s)) = s_race s.
Proof.
  intros p s M NC.
  assert (K : forall r, rres (s_race s) r -> s_race (reached r) = s_race s) by (intros [a L x|c L x|x] H; exact H).
  apply K.
  destruct p as [o tid fd off len|o tid fd off len rd|o|o fd off len rd|o rd|o|o|o|o]; cbn [call no_conversion] in *.
  - exact eq_refl.
  - cbv zeta. destruct (fd =? FLCK_INVALID_HANDLE); [exact eq_refl|]. apply finish_r.
    match goal with |- rres ?b (RawLock o rd false ?x) => change b with (s_race x) end.
    apply rawlock_r; auto. cbn [set_obj s_obj]. rewrite upd_eq. cbn. intro X; discriminate X.
  - pose proof (finish_r _ _ (rawunlock_r o false s M)) as U.
    destruct (finish (RawUnlock o false s)) as [a L s1|c L s1|s1]; cbn [bind]; exact U.
  - apply finish_r. pose proof (rawunlock_m o false s M) as M1.
    apply rres_bind; [now apply rawunlock_r|]. intros b L s1 E R1. rewrite E in M1. cbn in M1.
    destruct b; cbn [negb]; [|exact R1].
    match goal with |- rres ?b (RawLock o rd L ?x) => assert (Q : s_race x = s_race s) by exact R1; rewrite <- Q end.
    apply rawlock_r; auto. cbn [on set_obj s_obj]. rewrite upd_eq. cbn. reflexivity.
  - apply finish_r. apply rawlock_r; auto.
  - destruct (o_type (s_obj s o)) eqn:T; [exact eq_refl| |]; apply finish_r;
      [apply rawread_r|apply rawwrite_r]; auto; rewrite T; reflexivity.
  - apply finish_r. apply (rawlock_r o true); auto.
  - apply finish_r. apply (rawlock_r o false); auto.
  - apply finish_r. apply rawunlock_r; auto.
Qed.
