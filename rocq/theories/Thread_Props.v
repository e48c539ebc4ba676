(** Properties of the worker control. *)
From Verif Require Import Base Thread_Model Thread_Spec Thread_Proofs Thread_Proofs2 Thread_Proofs3.
From Coq Require Import ZArith List Bool Lia.
Import ListNotations.
Open Scope Z_scope.

(** running a list of labels *)
Fixpoint runl (ls : list tlabel) (s : tstate) : option tstate :=
  match ls with
  | [] => Some s
  | l :: r => match t_step s l with Some s' => runl r s' | None => None end
  end.

Lemma steps_app : forall ok a b c, steps ok a b -> steps ok b c -> steps ok a c.
Proof.
  intros ok a b c H K. induction K as [|x l y K IH O E]; auto. eapply steps_next; eauto.
Qed.

Lemma steps_one : forall (ok : tstate -> tlabel -> Prop) a l b, ok a l -> t_step a l = Some b -> steps ok a b.
Proof. intros ok a l b O E. eapply steps_next; [apply steps_refl| |]; eauto. Qed.

Definition forks (l : tlabel) : bool := match l with LFork _ => true | _ => false end.
Lemma runl_no_fork : forall ls s s', runl ls s = Some s' -> existsb forks ls = false -> steps no_fork s s'.
Proof.
  induction ls as [|l r IH]; intros s s' H N.
  - injection H as <-. apply steps_refl.
  - cbn [runl] in H. destruct (t_step s l) as [x|] eqn:E; [|discriminate H].
    cbn [existsb] in N. apply orb_false_iff in N as [N1 N2].
    eapply steps_app; [|apply IH; eauto]. apply (steps_one _ _ l); auto.
    intros t ->. discriminate N1.
Qed.

(** a run in which thread 1 makes all the calls, checked to be by the book *)
Definition mine (l : tlabel) : bool :=
  match l with LCall t _ | LCtl t _ _ | LFork t => t =? 1 | LWork _ _ => true end.
Definition bookb (s : tstate) (l : tlabel) : bool :=
  match l with
  | LCall t k => match t_pc s 1 with CIdle => true | _ => false end && negb (t_freed s) &&
                 match k with KInit => t_flag s =? STOP | _ => true end
  | LCtl t f _ => match t_pc s t with CExit3 _ => negb f | _ => true end
  | _ => true
  end.
Fixpoint runb (ls : list tlabel) (s : tstate) : option tstate :=
  match ls with
  | [] => Some s
  | l :: r => if mine l && bookb s l then match t_step s l with Some s' => runb r s' | None => None end else None
  end.

Definition others_idle (s : tstate) : Prop := forall t, t <> 1 -> t_pc s t = CIdle.

Lemma others_step : forall s l s', others_idle s -> mine l = true -> t_step s l = Some s' -> others_idle s'.
Proof.
  intros s l s' O M E t N. destruct l as [x k|x f w|w f|x]; cbn [mine] in M.
  - apply Z.eqb_eq in M. subst x. cbn [t_step] in E. destruct (t_pc s 1); try discriminate E.
    injection E as <-. destruct k; cbn [t_call s_pc t_pc]; rewrite upd_neq by auto; now apply O.
  - apply Z.eqb_eq in M. subst x. apply ctl_some in E as (_ & -> & _).
    unfold t_ctl. cbv zeta.
    destruct (t_pc s 1) as [|k|k|k|k| | |k o n|k|k|k|k o|k|k|k|k| | |n];
      try (destruct (cas _ _ _) as [v r]);
      repeat match goal with
      | |- context [if ?b then _ else _] => destruct b
      | |- context [match t_wk ?a ?b with _ => _ end] => destruct (t_wk a b)
      end; try (destruct k as [| | |m|[|m]]);
      cbn [fin_call s_pc s_res s_free t_pc]; rewrite ?upd_neq by auto; now apply O.
  - apply work_some in E as (_ & _ & ->). rewrite work_pc. now apply O.
  - apply Z.eqb_eq in M. subst x. cbn [t_step] in E. destruct (t_pc s 1); try discriminate E.
    injection E as <-. cbn [fork_t t_pc]. now rewrite (proj2 (Z.eqb_neq _ _) N).
Qed.

Lemma runb_book : forall ls s s', others_idle s -> runb ls s = Some s' -> steps by_the_book s s'.
Proof.
  induction ls as [|l r IH]; intros s s' O H.
  - injection H as <-. apply steps_refl.
  - cbn [runb] in H. destruct (mine l && bookb s l) eqn:M; [|discriminate H].
    apply andb_true_iff in M as [M B]. destruct (t_step s l) as [x|] eqn:E; [|discriminate H].
    eapply steps_app; [|apply (IH x); [exact (others_step _ _ _ O M E)|exact H]].
    apply (steps_one _ _ l); auto.
    destruct l as [t k|t f w|w f|t]; cbn [bookb by_the_book] in *; try exact I.
    + apply andb_true_iff in B as [B B3]. apply andb_true_iff in B as [B1 B2].
      split; [|split].
      * intros y. destruct (Z.eq_dec y 1) as [->|Y]; [|now apply O]. destruct (t_pc s 1); auto; discriminate B1.
      * now apply negb_true_iff.
      * intros ->. now apply Z.eqb_eq.
    + destruct (t_pc s t); auto. now apply negb_true_iff.
Qed.

Lemma reach_runb : forall ls n s, runb ls (init_t n) = Some s -> reach by_the_book n s.
Proof. intros ls n s H. apply (runb_book ls); auto. intros t _. reflexivity. Qed.

(** ** C60: the four values, and repeated exit requests *)

(** whatever the schedule, forks included, the flag holds one of the documented values *)
Theorem C60_four_values : forall n s, reach any n s ->
  t_flag s = 0 \/ t_flag s = 1 \/ t_flag s = 2 \/ t_flag s = 3.
Proof. intros n s H. exact (proj1 (inv4_reach _ _ _ H)). Qed.

(** an exit request stands, and so does the end of the worker, whatever exit requests follow *)
Theorem C60_exit_again : forall n s s', reach any n s -> calm s -> told s -> steps only_exit s s' ->
  told s' /\ (t_flag s = 3 -> t_flag s' = 3).
Proof.
  intros n s s' R C T H.
  pose proof (inv4_reach _ _ _ R) as I4. pose proof (invk_reach _ _ _ R) as IK.
  assert (X : inv4 s' /\ invk s' /\ calm s' /\ told s' /\ (t_flag s = FIN -> t_flag s' = FIN)).
  { induction H as [|a l b H IH O E]; [auto 6|].
    destruct IH as (A1 & A2 & A3 & A4 & A5).
    assert (NF : no_fork a l). { intros t ->. exact O. }
    destruct (calm_told_step _ _ _ E A1 A2 NF A3 A4) as (B1 & B2 & B3).
    split; [exact (inv4_step _ _ _ A1 E)|]. split; [exact (invk_step _ _ _ A2 E)|]. auto. }
  destruct X as (_ & _ & _ & X & Y). auto.
Qed.

(** ** C84: an exit request stands *)
Definition C84_statement : Prop := forall n s s', reach no_fork n s -> told s -> steps no_fork s s' -> told s'.

(** Run has seen "stopped"; meanwhile Exit sets "exit"; Run then overwrites it *)
Definition e84a : list tlabel :=
  [LCall 1 KInit; LCtl 1 false 7; LCtl 1 false 7;
   LCall 1 KRun; LCtl 1 false 0; LCtl 1 false 0;
   LCall 2 KExit; LCtl 2 false 0; LCtl 2 false 0; LCtl 2 false 0; LCtl 2 false 0; LCtl 2 false 0].
Definition e84b : list tlabel := [LCtl 1 false 0; LCtl 1 false 0].

Theorem C84_exit_stands_refuted : ~ C84_statement.
Proof.
  intros S.
  destruct (runl e84a (init_t 0)) as [s|] eqn:E1; [|vm_compute in E1; discriminate E1].
  destruct (runl e84b s) as [s'|] eqn:E2;
    [|exfalso; revert E2; apply (f_equal (fun o => match o with Some x => runl e84b x | None => None end)) in E1;
      rewrite <- E1; vm_compute; intro X; discriminate X].
  assert (R : reach no_fork 0 s) by (apply (runl_no_fork e84a); [exact E1|reflexivity]).
  assert (R' : steps no_fork s s') by (apply (runl_no_fork e84b); [exact E2|reflexivity]).
  assert (F : option_map t_flag (Some s) = Some 2) by (rewrite <- E1; vm_compute; reflexivity).
  assert (F' : option_map t_flag (Some s') = Some 0).
  { rewrite <- E2. change (runl e84b s) with (match Some s with Some x => runl e84b x | None => None end).
    rewrite <- E1. vm_compute. reflexivity. }
  cbn in F, F'. injection F as F. injection F' as F'.
  specialize (S 0%nat s s' R). unfold told in S. rewrite F, F' in S.
  unfold EXIT in S. specialize (S ltac:(lia) R'). lia.
Qed.

(** when no Run or Stop is past its test and no fork handler is at work, it stands for good,
    whatever is called afterwards *)
Theorem C84_exit_stands_partial : forall n s s', reach any n s -> calm s -> told s ->
  steps no_fork s s' -> told s' /\ (t_flag s = 3 -> t_flag s' = 3).
Proof.
  intros n s s' R C T H.
  pose proof (inv4_reach _ _ _ R) as I4. pose proof (invk_reach _ _ _ R) as IK.
  assert (X : inv4 s' /\ invk s' /\ calm s' /\ told s' /\ (t_flag s = FIN -> t_flag s' = FIN)).
  { induction H as [|a l b H IH NF E]; [auto 6|].
    destruct IH as (A1 & A2 & A3 & A4 & A5).
    destruct (calm_told_step _ _ _ E A1 A2 NF A3 A4) as (B1 & B2 & B3).
    split; [exact (inv4_step _ _ _ A1 E)|]. split; [exact (invk_step _ _ _ A2 E)|]. auto. }
  destruct X as (_ & _ & _ & X & Y). auto.
Qed.

(** the hypotheses are met: start, Run, Exit; then the flag is 2 and only thread 1 is inside a call *)
Definition e84c : list tlabel :=
  [LCall 1 KInit; LCtl 1 false 7; LCtl 1 false 7;
   LCall 1 KRun; LCtl 1 false 0; LCtl 1 false 0; LCtl 1 false 0; LWork 7 false; LWork 7 false;
   LCall 1 KExit; LCtl 1 false 0; LCtl 1 false 0; LCtl 1 false 0; LCtl 1 false 0].
Example C84_case :
  match runb e84c (init_t 1) with
  | Some s => t_flag s = 2 /\ t_pc s 1 = CJoin KRet /\ t_pc s 2 = CIdle /\ t_wk s 7 = WLoop /\
              t_flag (t_work (t_work (t_work (t_work s 7 false) 7 false) 7 false) 7 false) = 3
  | None => False
  end.
Proof. vm_compute. repeat split. Qed.

(** ** C85: nobody uses the deleted object *)
Definition C85_statement : Prop := forall n s, reach by_the_book n s -> t_bad s = false.

(** two fork handlers (the library was re-initialised): the child starts two workers, the deletion
    of the object ends only the second one *)
Definition e85 : list tlabel :=
  [LCall 1 KInit; LCtl 1 false 6; LCtl 1 false 6; LFork 1;
   LCtl 1 false 0; LCtl 1 false 0; LCtl 1 false 7;                 (* handler 1: reset, init *)
   LCtl 1 false 0; LCtl 1 false 0; LCtl 1 false 0;                 (* run *)
   LCtl 1 false 0; LCtl 1 false 0; LCtl 1 false 8;                 (* handler 2 *)
   LCtl 1 false 0; LCtl 1 false 0; LCtl 1 false 0].
Definition e85del : list tlabel :=
  [LCall 1 KDel; LCtl 1 false 0; LCtl 1 false 0; LCtl 1 false 0; LCtl 1 false 0;   (* cancel, flag *)
   LWork 8 false; LWork 8 false; LWork 8 false; LWork 8 false; LWork 8 false;
   LCtl 1 false 0; LCtl 1 false 0; LCtl 1 false 0; LCtl 1 false 0;
   LWork 7 false; LWork 7 false; LWork 7 false].

Theorem C85_deleted_object_refuted : ~ C85_statement.
Proof.
  intros S.
  destruct (runb (e85 ++ e85del) (init_t 2)) as [s|] eqn:E; [|vm_compute in E; discriminate E].
  assert (F : option_map t_bad (Some s) = Some true) by (rewrite <- E; vm_compute; reflexivity).
  specialize (S 2%nat s (reach_runb _ _ _ E)). cbn in F. rewrite S in F. discriminate F.
Qed.

(** with at most one handler: never, and after the deletion no worker is left that could *)
Theorem C85_deleted_object_partial : forall n s, (n <= 1)%nat -> reach by_the_book n s ->
  t_bad s = false /\ (t_freed s = true -> forall w, ~ live s w).
Proof.
  intros n s Hn R. destruct (invj_reach _ _ Hn R) as (t & p & _ & _ & B & F & D & _).
  split; [exact B|]. intros X w. destruct (F X) as [_ Y].
  destruct (Z.eq_dec w (t_cur s)) as [->|Z]; auto.
Qed.

Definition e85ok : list tlabel :=
  [LCall 1 KInit; LCtl 1 false 7; LCtl 1 false 7;
   LCall 1 KRun; LCtl 1 false 0; LCtl 1 false 0; LCtl 1 false 0; LWork 7 false; LWork 7 false;
   LCall 1 KDel; LCtl 1 false 0; LCtl 1 false 0; LCtl 1 false 0; LCtl 1 false 0;
   LCtl 1 false 0; LCtl 1 false 0;
   LWork 7 false; LWork 7 false; LWork 7 false; LWork 7 false;
   LCtl 1 false 0; LCtl 1 false 0; LCtl 1 false 0; LCtl 1 false 0].
Example C85_case :
  match runb e85ok (init_t 1) with
  | Some s => t_freed s = true /\ t_wk s 7 = WNone /\ t_pc s 1 = CIdle
  | None => False
  end.
Proof. vm_compute. repeat split. Qed.

(** ** C86: one worker *)
Definition C86_statement : Prop := forall n s w1 w2, reach by_the_book n s ->
  live s w1 -> live s w2 -> w1 = w2.

Theorem C86_one_worker_refuted : ~ C86_statement.
Proof.
  intros S.
  destruct (runb e85 (init_t 2)) as [s|] eqn:E; [|vm_compute in E; discriminate E].
  assert (F : option_map (fun x => (t_wk x 7, t_wk x 8)) (Some s) = Some (WStart, WStart))
    by (rewrite <- E; vm_compute; reflexivity).
  cbn in F. injection F as F7 F8.
  specialize (S 2%nat s 7 8 (reach_runb _ _ _ E)). unfold live in S. rewrite F7, F8 in S.
  specialize (S I I). discriminate S.
Qed.

Theorem C86_one_worker_partial : forall n s w1 w2, (n <= 1)%nat -> reach by_the_book n s ->
  live s w1 -> live s w2 -> w1 = w2.
Proof.
  intros n s w1 w2 Hn R L1 L2. destruct (invj_reach _ _ Hn R) as (t & p & _ & _ & B & F & D & _).
  destruct (Z.eq_dec w1 (t_cur s)) as [->|Z1]; [|elim (D _ Z1); exact L1].
  destruct (Z.eq_dec w2 (t_cur s)) as [->|Z2]; [reflexivity|elim (D _ Z2); exact L2].
Qed.

(** the worker of a forked child, started by its only handler *)
Example C86_case :
  match runb (firstn 7 e85ok ++ LFork 1 ::
              [LCtl 1 false 0; LCtl 1 false 0; LCtl 1 false 9; LCtl 1 false 0; LCtl 1 false 0; LCtl 1 false 0])
        (init_t 1) with
  | Some s => t_wk s 9 = WStart /\ t_wk s 7 = WNone /\ t_flag s = 0 /\ t_pc s 1 = CIdle
  | None => False
  end.
Proof. vm_compute. repeat split. Qed.

(** ** C87: a cancelled worker ends *)
Lemma alone_S : forall n w s, alone (S n) w s = alone n w (t_work s w false).
Proof. reflexivity. Qed.

Lemma alone_done : forall n w s, t_wk s w = WDone -> t_wk (alone n w s) w = WDone.
Proof.
  induction n as [|n IH]; intros w s H; auto. rewrite alone_S. apply IH.
  unfold t_work. rewrite H. cbn [cancel_point]. rewrite andb_false_r. exact H.
Qed.
Lemma alone_end : forall n w s, t_wk s w = WEnd -> t_wk (alone (S n) w s) w = WDone.
Proof.
  intros n w s H. rewrite alone_S. apply alone_done.
  unfold t_work. rewrite H. cbn [cancel_point]. rewrite andb_false_r. apply upd_eq.
Qed.
Lemma alone_fin : forall n w s o, t_wk s w = WFin o -> t_wk (alone (3 + n) w s) w = WDone.
Proof.
  intros n w s o H. change (3 + n)%nat with (S (2 + n)). rewrite alone_S.
  unfold t_work. rewrite H. cbn [cancel_point]. rewrite andb_false_r. cbv zeta. unfold cas.
  cbn [touch t_flag].
  destruct (Z.eqb_spec (t_flag s) o) as [X|X].
  - rewrite (proj2 (Z.eqb_eq _ _) X). apply (alone_end (S n)). apply upd_eq.
  - rewrite (proj2 (Z.eqb_neq _ _) X). destruct (t_flag s =? FIN).
    + apply (alone_end (S n)). apply upd_eq.
    + change (2 + n)%nat with (S (1 + n)). rewrite alone_S.
      unfold t_work. cbn [s_wk t_wk]. rewrite upd_eq. cbn [cancel_point]. rewrite andb_false_r.
      cbv zeta. unfold cas. cbn [touch t_flag s_wk]. rewrite Z.eqb_refl.
      rewrite Z.eqb_refl. apply (alone_end n). apply upd_eq.
Qed.
Lemma alone_clean : forall n w s, t_wk s w = WClean -> t_wk (alone (4 + n) w s) w = WDone.
Proof.
  intros n w s H. change (4 + n)%nat with (S (3 + n)). rewrite alone_S.
  unfold t_work. rewrite H. cbn [cancel_point]. rewrite andb_false_r.
  apply (alone_fin n) with (o := EXIT). apply upd_eq.
Qed.
Lemma alone_point : forall n w s, t_cancel s w = true -> cancel_point (t_wk s w) = true ->
  t_wk (alone (5 + n) w s) w = WDone.
Proof.
  intros n w s C H. change (5 + n)%nat with (S (4 + n)). rewrite alone_S.
  unfold t_work. rewrite C, H. cbn [andb]. apply (alone_clean n). apply upd_eq.
Qed.

(** seven of its own steps are enough, wherever the request finds it *)
Theorem C87_cancelled_worker_ends : forall n s w, reach any n s ->
  t_cancel s w = true -> t_wk s w <> WNone -> t_wk (alone 7 w s) w = WDone.
Proof.
  intros m s w _ C N.
  assert (W5 : cancel_point (t_wk s w) = true -> t_wk (alone 7 w s) w = WDone)
    by (intros; apply (alone_point 2); auto).
  destruct (t_wk s w) as [| | | | | | | | |o| |] eqn:H; try (apply W5; reflexivity).
  - congruence.
  - change 7%nat with (S (5 + 1)). rewrite alone_S. unfold t_work. rewrite H. cbn [cancel_point].
    rewrite andb_false_r. apply (alone_point 1); [exact C|]. cbn [s_wk t_wk]. rewrite upd_eq. reflexivity.
  - change 7%nat with (S (6 + 0)). rewrite alone_S. unfold t_work. rewrite H. cbn [cancel_point].
    rewrite andb_false_r. cbv zeta. destruct (t_flag (touch s) =? STOP).
    + apply (alone_point 1); [exact C|]. cbn [s_wk t_wk]. rewrite upd_eq. reflexivity.
    + change (6 + 0)%nat with (S (5 + 0)). rewrite alone_S. unfold t_work. cbn [s_wk t_wk touch].
      rewrite upd_eq. cbn [cancel_point]. rewrite andb_false_r. cbv zeta.
      destruct (_ =? RUN); apply (alone_point 0); try exact C; cbn [s_wk t_wk touch]; rewrite upd_eq; reflexivity.
  - change 7%nat with (S (5 + 1)). rewrite alone_S. unfold t_work. rewrite H. cbn [cancel_point].
    rewrite andb_false_r. cbv zeta. destruct (_ =? RUN);
      apply (alone_point 1); try exact C; cbn [s_wk t_wk touch]; rewrite upd_eq; reflexivity.
  - apply (alone_clean 3); auto.
  - apply (alone_fin 4) with (o := o); auto.
  - apply (alone_end 6); auto.
  - apply (alone_done 7); auto.
Qed.

(** the bound is exact: a worker found before the sleep *)
Example C87_case :
  match runb (firstn 7 e84c ++ [LWork 7 false; LWork 7 false; LWork 7 false;
                               LCall 1 KExit; LCtl 1 false 0; LCtl 1 false 0; LCtl 1 false 0]) (init_t 1) with
  | Some s => t_cancel s 7 = true /\ t_wk s 7 = WStop /\ t_wk (alone 6 7 s) 7 = WEnd /\
              t_wk (alone 7 7 s) 7 = WDone /\ t_flag (alone 7 7 s) = 3
  | None => False
  end.
Proof. vm_compute. repeat split. Qed.

(** ** C106: the end of a worker is recorded *)
(** the step with which a worker ends leaves the flag at "finished", whatever the schedule *)
Theorem C106_end_written : forall n s l s' w, reach any n s -> no_fork s l -> t_step s l = Some s' ->
  live s w -> ~ live s' w -> t_flag s' = 3.
Proof. intros n s l s' w _ NF E L N. exact (ends_step _ _ _ _ E NF L N). Qed.

(** after an exit request that nobody is about to overwrite, the flag says "finished" whenever a worker
    that was running then has ended *)
Theorem C106_end_visible : forall n s s' w, reach any n s -> calm s -> told s -> live s w ->
  steps no_fork s s' -> ~ live s' w -> t_flag s' = 3.
Proof.
  intros n s s' w R C T L H.
  pose proof (inv4_reach _ _ _ R) as I4. pose proof (invk_reach _ _ _ R) as IK.
  assert (X : inv4 s' /\ invk s' /\ calm s' /\ told s' /\ (live s' w \/ t_flag s' = FIN)).
  { induction H as [|a l b H IH NF E]; [auto 7|].
    destruct IH as (A1 & A2 & A3 & A4 & A5).
    destruct (calm_told_step _ _ _ E A1 A2 NF A3 A4) as (B1 & B2 & B3).
    split; [exact (inv4_step _ _ _ A1 E)|]. split; [exact (invk_step _ _ _ A2 E)|]. split; auto. split; auto.
    destruct A5 as [A5|A5]; [|right; auto].
    destruct (not_live_done b w) as [Y|Y]; [left; exact Y|right].
    apply (ends_step _ _ _ w E NF A5). unfold live. destruct Y as [-> |[-> | ->]]; auto. }
  destruct X as (_ & _ & _ & _ & [X|X]) ; [intro N; now elim N|intros _; exact X].
Qed.

(** the run of C84_case: exit request, worker 7 still running; then it ends *)
Example C106_case :
  match runb e84c (init_t 1) with
  | Some s => t_flag s = 2 /\ t_wk s 7 = WLoop /\
      match runl [LWork 7 false; LWork 7 false; LWork 7 false] s with
      | Some s' => t_wk s' 7 = WEnd /\ t_flag s' = 3 | None => False end
  | None => False
  end.
Proof. vm_compute. repeat split. Qed.

(** ** C107: a forked child has a worker of its own *)
(** whatever the parent's worker control was doing, in the child of a process that registered a fork
    handler: once the handlers are through, the control says "running" and the worker it refers to
    has been started in the child and is not cancelled, and it stays like this until the next call *)
Theorem C107_child_has_worker : forall n s t s1 s2, (1 <= n)%nat -> reach any n s -> t_freed s = false -> t_bup s = true ->
  t_step s (LFork t) = Some s1 -> steps smooth s1 s2 -> t_pc s2 t = CIdle ->
  (forall w, t_wk s1 w = WNone) /\
  t_init s2 = true /\ t_flag s2 = 0 /\ live s2 (t_cur s2) /\ t_cancel s2 (t_cur s2) = false.
Proof.
  intros n s t s1 s2 N R F BU E S I.
  cbn [t_step] in E. destruct (t_pc s t); try discriminate E. injection E as <-.
  split; [reflexivity|].
  pose proof (regs_reach _ _ _ R) as G. destruct n as [|n]; [lia|].
  pose proof (child_steps _ _ _ (child_fork _ t _ F BU G) S) as [_ _ C _ _ H _].
  rewrite I in H. destruct H as (H1 & H2 & H3). repeat split; auto.
  unfold live. destruct (t_wk s2 (t_cur s2)); auto.
Qed.
(** the condition of a path is met as soon as a worker was ever started *)
Theorem C107_started : forall n s w, reach any n s -> t_init s = true \/ t_wk s w <> WNone -> t_bup s = true.
Proof.
  intros n s w R H. destruct (t_bup s) eqn:B; auto. destruct (invb_reach _ _ _ R B) as (H1 & H2 & _).
  destruct H as [H|H]; [congruence|]. now elim (H (H2 w)).
Qed.
(** the handler is through after six steps of the forking thread *)
Theorem C107_child_soon : forall s t s1 w, reach any 1 s -> t_freed s = false -> t_bup s = true ->
  t_step s (LFork t) = Some s1 ->
  exists s2, runl (repeat (LCtl t false w) 6) s1 = Some s2 /\ steps smooth s1 s2 /\ t_pc s2 t = CIdle.
Proof.
  intros s t s1 w R F BU E. cbn [t_step] in E. destruct (t_pc s t); try discriminate E. injection E as <-.
  destruct (handler_six s t w F BU (regs_reach _ _ _ R)) as (a & b & c & d & e & s2 & E1 & E2 & E3 & E4 & E5 & E6 & P).
  exists s2. cbn [repeat runl]. rewrite E1, E2, E3, E4, E5, E6. split; [reflexivity|]. split; auto.
  assert (Q : forall x, smooth x (LCtl t false w)) by (intro; reflexivity).
  apply (steps_next _ _ e (LCtl t false w)); auto. apply (steps_next _ _ d (LCtl t false w)); auto.
  apply (steps_next _ _ c (LCtl t false w)); auto. apply (steps_next _ _ b (LCtl t false w)); auto.
  apply (steps_next _ _ a (LCtl t false w)); auto. apply (steps_next _ _ (fork_t s t) (LCtl t false w)); auto. apply steps_refl.
Qed.
(** fork while the parent's worker is ending: the child starts worker 9 *)
Example C107_case :
  match runb (firstn 7 e84c ++ [LWork 7 false; LCall 1 KExit; LCtl 1 false 0; LCtl 1 false 0; LCtl 1 false 0; LCtl 1 false 0;
              LWork 7 false; LWork 7 false; LWork 7 false; LWork 7 false; LCtl 1 false 0; LCtl 1 false 0]) (init_t 1) with
  | Some s => t_flag s = 3 /\ t_init s = false /\ t_pc s 1 = CIdle /\
      match runl (LFork 1 :: repeat (LCtl 1 false 9) 6) s with
      | Some s' => t_pc s' 1 = CIdle /\ t_flag s' = 0 /\ t_cur s' = 9 /\ t_wk s' 9 = WStart | None => False end
  | None => False
  end.
Proof. vm_compute. repeat split. Qed.

Print Assumptions C60_four_values.
Print Assumptions C60_exit_again.
Print Assumptions C84_exit_stands_refuted.
Print Assumptions C84_exit_stands_partial.
Print Assumptions C85_deleted_object_refuted.
Print Assumptions C85_deleted_object_partial.
Print Assumptions C86_one_worker_refuted.
Print Assumptions C86_one_worker_partial.
Print Assumptions C87_cancelled_worker_ends.
Print Assumptions C106_end_written.
Print Assumptions C106_end_visible.
Print Assumptions C107_child_has_worker.
Print Assumptions C107_child_soon.
Print Assumptions C107_started.
