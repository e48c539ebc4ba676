(** The stack mutex: who holds it where, and hanging. *)
From Verif Require Import Base Rcsv_Model Rcsv_Spec.
From Coq Require Import ZArith List Bool Lia.
Import ListNotations.
Open Scope Z_scope.

(** [N]: what a hanging state satisfies *)
Definition mres {A} (N : st -> Prop) (r : res A) : Prop :=
  match r with
  | Ret _ L s => s_mtx s = L
  | Wait _ L s => L = false /\ s_mtx s = false
  | Hang s => N s
  end.

Lemma mres_bind : forall A B (N : st -> Prop) (r : res A) (k : A -> bool -> st -> res B),
  mres N r -> (forall a L s, r = Ret a L s -> s_mtx s = L -> mres N (k a L s)) -> mres N (bind r k).
Proof. intros A B N [a L s|c L s|s] k H K; cbn; auto. Qed.

Lemma on_mtx : forall s o f, s_mtx (on s o f) = s_mtx s.
Proof. reflexivity. Qed.
Lemma stack_mtx : forall s l, s_mtx (set_stack s l) = s_mtx s.
Proof. reflexivity. Qed.
Lemma move_mtx : forall src s d m, s_mtx (move_pending s d m src) = s_mtx s.
Proof. induction src as [|x r IH]; intros; cbn [move_pending]; auto. cbv zeta. rewrite IH. reflexivity. Qed.
Lemma pass_mtx : forall s o, s_mtx (pass_on s o) = s_mtx s.
Proof.
  intros. unfold pass_on. destruct (pick s (o_pend (s_obj s o))) as [n rest]. cbv zeta.
  rewrite stack_mtx, !on_mtx. apply move_mtx.
Qed.

Lemma stack_lock_ok : forall L s, s_mtx s = L ->
  exists s', stack_lock L s = Ret tt true s' /\ s_mtx s' = true /\ s_obj s' = s_obj s /\ s_stack s' = s_stack s /\
             s_race s' = s_race s /\ s_log s' = s_log s /\ s_ans s' = s_ans s.
Proof.
  intros [|] s M; unfold stack_lock.
  - exists s. auto 10.
  - rewrite M. eexists. split; [reflexivity|]. cbn. auto 10.
Qed.

Lemma stack_unlock_ok : forall L s, s_mtx s = L ->
  exists s', stack_unlock L s = Ret tt false s' /\ s_mtx s' = false /\ s_obj s' = s_obj s /\ s_stack s' = s_stack s /\
             s_race s' = s_race s /\ s_log s' = s_log s /\ s_ans s' = s_ans s.
Proof.
  intros [|] s M; unfold stack_unlock.
  - eexists. split; [reflexivity|]. cbn. auto 10.
  - exists s. auto 10.
Qed.

Lemma shm_m : forall N c s, s_mtx s = false -> mres N (shm c false s).
Proof. intros N c s M. unfold shm. destruct (s_ans s); cbn; auto. Qed.

Lemma shm_ret : forall c L s a L' s', shm c L s = Ret a L' s' ->
  L' = L /\ s_log s' = (c, a) :: s_log s /\ s_obj s' = s_obj s /\ s_stack s' = s_stack s /\
  s_mtx s' = s_mtx s /\ s_race s' = s_race s.
Proof.
  intros c L s a L' s' E. unfold shm in E. destruct (s_ans s); [discriminate E|]. injection E as <- <- <-.
  cbn. auto 10.
Qed.

Lemma rawunlock_m : forall o L s, s_mtx s = L -> mres (fun _ => False) (RawUnlock o L s).
Proof.
  intros o L s M. unfold RawUnlock. cbv zeta.
  destruct (is_unl (o_type (s_obj s o)) || negb (o_locked (s_obj s o))); [exact M|].
  destruct (stack_lock_ok L s M) as (s1 & -> & M1 & _). cbn [bind].
  destruct (o_master (s_obj s o)) as [m|]; [exact M1|].
  destruct (o_pend (s_obj s o)) as [|y r].
  - destruct (o_has (s_obj s o)); [|exact M1].
    destruct (stack_unlock_ok true (set_stack s1 (erase o (s_stack s1))) M1) as (s2 & -> & M2 & _). cbn [bind].
    apply mres_bind; [now apply shm_m|]. intros a L' s3 E _.
    apply shm_ret in E as (-> & _ & _ & _ & M3 & _). rewrite M2 in M3.
    destruct (a =? 0); [exact M3|].
    destruct (stack_lock_ok false s3 M3) as (s4 & -> & M4 & _). cbn [bind]. exact M4.
  - unfold mres. rewrite on_mtx, pass_mtx. exact M1.
Qed.

Lemma unlock_if_m : forall b o L s, s_mtx s = L -> mres (fun _ => False) (unlock_if b o L s).
Proof. intros [|] o L s M; [now apply rawunlock_m|exact M]. Qed.

Lemma mres_weak : forall A (N N' : st -> Prop) (r : res A), (forall s, N s -> N' s) -> mres N r -> mres N' r.
Proof. intros A N N' [a L s|c L s|s] H; cbn; auto. Qed.

Lemma rawread_m : forall o L s, s_mtx s = L -> mres (fun _ => False) (RawReadLock o L s).
Proof.
  intros o L s M. unfold RawReadLock. cbv zeta.
  destruct (_ && _); [exact M|]. destruct (_ && _ && _); [exact M|].
  destruct (stack_lock_ok L s M) as (s1 & -> & M1 & _). cbn [bind].
  apply mres_bind; [now apply unlock_if_m|]. intros b L2 s2 _ M2.
  destruct (negb b); [exact M2|].
  set (s3 := set_stack _ _). assert (M3 : s_mtx s3 = L2) by exact M2.
  destruct (first_match s3 _ _) as [i|]; [exact M3|].
  destruct (stack_unlock_ok L2 (set_stack s3 (s_stack s3 ++ [o])) M3) as (s4 & -> & M4 & _). cbn [bind].
  apply mres_bind; [now apply shm_m|]. intros a L5 s5 E _.
  apply shm_ret in E as (-> & _ & _ & _ & M5 & _). rewrite M4 in M5.
  destruct (a =? 0); [exact M5|].
  destruct (stack_lock_ok false s5 M5) as (s6 & -> & M6 & _). cbn [bind]. exact M6.
Qed.

Lemma take_over_m : forall o rs s, s_mtx s = false -> mres (fun _ => False) (take_over o rs false s).
Proof.
  induction rs as [|i r IH]; intros s M; cbn [take_over]; [exact M|]. cbv zeta.
  apply mres_bind.
  - destruct (_ && _); [now apply shm_m|exact M].
  - intros a L s' E M'.
    assert (L = false).
    { destruct (_ && _); [apply shm_ret in E as (-> & _); reflexivity|injection E as _ <- _; reflexivity]. }
    rewrite H in *. apply IH. rewrite on_mtx, move_mtx. exact M'.
Qed.

Lemma take_over_L : forall o rs s a L s', take_over o rs false s = Ret a L s' -> s_mtx s = false ->
  L = false /\ s_mtx s' = false.
Proof.
  intros o rs s a L s' E M. pose proof (take_over_m o rs s M) as H. rewrite E in H. cbn in H.
  assert (forall rs s a L s', take_over o rs false s = Ret a L s' -> L = false) as G.
  { clear. induction rs as [|i r IH]; intros s a L s' E; cbn [take_over] in E; [injection E as _ <- _; reflexivity|].
    cbv zeta in E.
    destruct (o_locked (s_obj s i) && o_has (s_obj s i)).
    - destruct (shm _ _ _) as [a1 L1 s1|c L1 s1|s1] eqn:X; cbn [bind] in E; try discriminate E.
      apply shm_ret in X as (-> & _). exact (IH _ _ _ _ E).
    - cbn [bind] in E. exact (IH _ _ _ _ E). }
  pose proof (G _ _ _ _ _ E) as ->. auto.
Qed.

(** a write request was refused *)
Definition refused (s : st) : Prop :=
  exists t f o l a r, s_log s = (SWrite t f o l, a) :: r /\ a <> 0.

Lemma relock_m : forall l s, s_mtx s = true -> refused s -> mres refused (relock l true s).
Proof.
  induction l as [|i r IH]; intros s M R; cbn [relock]; [exact M|]. cbv zeta.
  destruct (is_unl _); [apply IH; [exact M|exact R]|]. rewrite on_mtx, M. exact R.
Qed.

Lemma rawwrite_m : forall o L s, s_mtx s = L -> mres refused (RawWriteLock o L s).
Proof.
  intros o L s M. unfold RawWriteLock. cbv zeta.
  destruct (_ && _); [exact M|]. destruct (_ && _ && _); [exact M|].
  destruct (stack_lock_ok L s M) as (s1 & -> & M1 & _). cbn [bind].
  apply mres_bind; [apply (mres_weak _ (fun _ => False)); [intros ? []|now apply unlock_if_m]|].
  intros b L2 s2 _ M2. destruct (negb b); [exact M2|].
  set (s3 := on s2 o _). assert (M3 : s_mtx s3 = L2) by exact M2.
  destruct (scan s3 (s_obj s3 o) (s_stack s3)) as [[rs ks] [i|]]; [exact M3|].
  destruct (stack_unlock_ok L2 (set_stack (set_stack s3 ks) (s_stack (set_stack s3 ks) ++ [o])) M3)
    as (s4 & -> & M4 & _). cbn [bind].
  apply mres_bind; [apply (mres_weak _ (fun _ => False)); [intros ? []|now apply take_over_m]|].
  intros u L5 s5 E5 _. apply take_over_L in E5 as [-> M5]; auto.
  apply mres_bind; [now apply shm_m|]. intros a L6 s6 E6 _.
  apply shm_ret in E6 as (-> & G6 & _ & _ & M6 & _). rewrite M5 in M6.
  destruct (Z.eqb_spec a 0) as [Z|Z]; [exact M6|].
  destruct (stack_lock_ok false s6 M6) as (s7 & -> & M7 & _ & _ & _ & G7 & _). cbn [bind].
  apply mres_bind.
  - apply relock_m; [exact M7|]. unfold refused. cbn [set_stack s_log]. rewrite G7, G6.
    unfold write_of. do 6 eexists. split; [reflexivity|exact Z].
  - intros u' L8 s8 _ M8. exact M8.
Qed.

Lemma rawlock_m : forall o b L s, s_mtx s = L -> mres refused (RawLock o b L s).
Proof.
  intros o [|] L s M; [apply (mres_weak _ (fun _ => False)); [intros ? []|now apply rawread_m]|now apply rawwrite_m].
Qed.

(** after a finished call the mutex is free *)
Definition fres (N : st -> Prop) (r : res bool) : Prop :=
  match r with
  | Ret _ L s => L = false /\ s_mtx s = false
  | Wait _ L s => L = false /\ s_mtx s = false
  | Hang s => N s
  end.

Lemma finish_f : forall N r, mres N r -> fres N (finish r).
Proof.
  intros N [a L s|c L s|s] H; cbn [finish bind] in *; auto. cbn in H.
  destruct (stack_unlock_ok L s H) as (s' & -> & M & _). cbn. auto.
Qed.

Lemma call_f : forall p s, s_mtx s = false -> fres refused (call p s).
Proof.
  intros p s M.
  assert (U : forall o s, s_mtx s = false -> fres refused (finish (RawUnlock o false s))).
  { intros o s0 M0. apply finish_f. apply (mres_weak _ (fun _ => False)); [intros ? []|now apply rawunlock_m]. }
  assert (R : forall o s, s_mtx s = false -> fres refused (finish (RawReadLock o false s))).
  { intros o s0 M0. apply finish_f. apply (mres_weak _ (fun _ => False)); [intros ? []|now apply rawread_m]. }
  assert (W : forall o s, s_mtx s = false -> fres refused (finish (RawWriteLock o false s))).
  { intros o s0 M0. apply finish_f. now apply rawwrite_m. }
  destruct p as [o tid fd off len|o tid fd off len rd|o|o fd off len rd|o rd|o|o|o|o]; cbn [call].
  - cbn. auto.
  - cbv zeta. destruct (fd =? FLCK_INVALID_HANDLE); [cbn; auto|]. apply finish_f. now apply rawlock_m.
  - specialize (U o s M). destruct (finish (RawUnlock o false s)) as [a L s1|c L s1|s1]; cbn [bind]; exact U.
  - apply finish_f. apply mres_bind.
    + apply (mres_weak _ (fun _ => False)); [intros ? []|now apply rawunlock_m].
    + intros b L s1 _ M1. destruct (negb b); [exact M1|]. now apply rawlock_m.
  - apply finish_f. now apply rawlock_m.
  - destruct (o_type (s_obj s o)); auto. cbn. auto.
  - auto.
  - auto.
  - auto.
Qed.

Lemma reach_mtx : forall ok s, reach ok s -> s_mtx s = false.
Proof.
  intros ok s H. induction H as [|s p answers b L s' H IH A E O]; [reflexivity|].
  pose proof (call_f p (set_ans s answers) IH) as F. rewrite E in F. apply F.
Qed.
