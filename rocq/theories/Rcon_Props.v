(** Properties C137-C140: recursive lock objects used by several threads, and across a fork. *)
From Verif Require Import Base Rcsv_Model Rcsv_Spec Rcsv_Props Rcon_Model Rcon_Spec Rcon_Proofs Rcon_Proofs2 Rcon_Proofs3 Rcon_Proofs4.
From Coq Require Import ZArith List Bool Lia.
Import ListNotations.
Open Scope Z_scope.

(** sequential executions with the same conditions *)
Definition sequential (okc : st -> op -> Prop) (okr : op -> bool -> Prop) (s : st) (p : op) (b : bool) (s' : st) : Prop :=
  okc s p /\ okr p b.

(** ** C137: threads do not disturb each other's recursive lock objects *)
Section C137.
Variable own : Z -> Z.
Variable okc : st -> op -> Prop.
Variable okr : op -> bool -> Prop.
Hypothesis NC : forall s p, okc s p -> no_conversion s p.
Hypothesis AB : about_caller own okc.

Theorem C137_sequential_view : forall S t, c_reach (usage own okc okr) S -> c_thr S t = TIdle ->
  exists s, reach (sequential okc okr) s /\ sees own t s S.
Proof. intros S t R E. exact (proj2 (i_idle _ _ _ S (inv_reach own okc okr NC AB S R) t E)). Qed.

(** a call inside the shared lock layer is one that waits there with the same request *)
Theorem C137_waiting : forall S t p L c k, c_reach (usage own okc okr) S -> c_thr S t = TRun p (PShm L c k) ->
  exists s0 answers s, reach (sequential okc okr) s0 /\ allowed p s0 = true /\ okc s0 p /\
    call p (set_ans s0 answers) = Wait c L s /\ sees own t s S.
Proof.
  intros S t p L c k R E. destruct (i_run _ _ _ S (inv_reach own okc okr NC AB S R) t p _ E) as (_ & _ & _ & _ & s0 & an & R0 & A & O & H).
  destruct (H []) as (s & C & AN & SE). cbn [exec] in C. rewrite AN in C. exists s0, (an ++ []), s. auto.
Qed.
(** a call that returns is one that returns the same result *)
Theorem C137_returning : forall S t p b L, c_reach (usage own okc okr) S -> c_thr S t = TRun p (PRet b L) ->
  exists s0 answers s, reach (sequential okc okr) s0 /\ allowed p s0 = true /\ okc s0 p /\
    call p (set_ans s0 answers) = Ret b L s /\ sees own t s S.
Proof.
  intros S t p b L R E. destruct (i_run _ _ _ S (inv_reach own okc okr NC AB S R) t p _ E) as (_ & _ & _ & _ & s0 & an & R0 & A & O & H).
  destruct (H []) as (s & C & AN & SE). exists s0, (an ++ []), s. auto.
Qed.
End C137.

(** ranges equal or disjoint: the locked objects of a thread are locked in the shared lock layer, for
    writing if they are writers, and when none is locked the thread holds nothing there *)
Lemma about_family : forall own F, about_caller own (family_op F).
Proof.
  intros own F t s c p A O [H N]. split; [|exact (about_nc own t s c p A O N)].
  destruct p; cbn in *; auto; rewrite (proj1 A) by exact O; exact H.
Qed.
Theorem C137_locked_means_held : forall own F S t o, separate F -> c_reach (usage own (family_op F) any_result) S ->
  c_thr S t = TIdle -> honest (log_of t (c_log S)) -> own o = t -> locked (c_s S) o ->
  exists w, In (key_of (s_obj (c_s S) o), w) (held (log_of t (c_log S))) /\ (kind (c_s S) o = WR -> w = true).
Proof.
  intros own F S t o SEP R E HO O L.
  destruct (C137_sequential_view own (family_op F) any_result (fun s p H => proj2 H) (about_family own F) S t R E) as (s & RS & (A & LG & _)).
  destruct (C62_partial F s o SEP) as (w & I & _ & W).
  - apply (reach_weak (sequential (family_op F) any_result)); [|exact RS]. intros a p b d [[H _] _]. destruct p; exact H.
  - now rewrite LG.
  - unfold locked. now rewrite (proj1 A o O).
  - exists w. unfold kind in *. rewrite (proj1 A o O) in *. rewrite LG in I. auto.
Qed.
Theorem C137_balanced : forall own F S t, separate F -> c_reach (usage own (family_op F) any_result) S ->
  c_thr S t = TIdle -> honest (log_of t (c_log S)) ->
  clean (log_of t (c_log S)) /\ ((forall o, own o = t -> ~ locked (c_s S) o) -> held (log_of t (c_log S)) = []).
Proof.
  intros own F S t SEP R E HO.
  destruct (C137_sequential_view own (family_op F) any_result (fun s p H => proj2 H) (about_family own F) S t R E) as (s & RS & (A & LG & _)).
  destruct (C61_balanced_partial F s SEP) as (C & _ & B).
  - apply (reach_weak (sequential (family_op F) any_result)); [|exact RS]. intros a p b d [[H _] _]. destruct p; exact H.
  - now rewrite LG.
  - rewrite LG in *. split; [exact C|]. intros N. apply B. intros o L. destruct (Z.eq_dec (own o) t) as [O|O].
    + apply (N o O). unfold locked in *. now rewrite (proj1 A o O) in L.
    + unfold locked in L. rewrite (proj1 (proj2 A) o O) in L. discriminate L.
Qed.

(** ** Runs *)
Definition own10 (o : Z) : Z := o mod 10.
Definition ty_eqb (a b : ltype) : bool := match a, b with UNL, UNL | RD, RD | WR, WR => true | _, _ => false end.
Definition ncb (s : st) (p : op) : bool :=
  match p with
  | OLockAs o r => negb (o_locked (s_obj s o)) || ty_eqb (o_type (s_obj s o)) (ty r)
  | ORead o => negb (o_locked (s_obj s o)) || ty_eqb (o_type (s_obj s o)) RD
  | OWrite o => negb (o_locked (s_obj s o)) || ty_eqb (o_type (s_obj s o)) WR
  | _ => true
  end.
Lemma ncb_ok : forall s p, ncb s p = true -> no_conversion s p.
Proof.
  assert (T : forall a b, ty_eqb a b = true -> a = b) by (intros [] [] H; try reflexivity; discriminate H).
  intros s p H. destruct p; cbn in *; auto; unfold locked, kind; intros L; rewrite L in H; auto.
Qed.
Definition ownb (t : Z) (p : op) : bool :=
  (0 <? t) && (own10 (target p) =? t) && match p with ONew _ tid _ _ _ | ONewLock _ tid _ _ _ _ => tid =? t | _ => true end.
Lemma ownb_ok : forall t p, ownb t p = true -> owned own10 t p.
Proof.
  intros t p H. unfold ownb in H. apply andb_true_iff in H as [H H3]. apply andb_true_iff in H as [H1 H2].
  split; [now apply Z.ltb_lt|]. split; [now apply Z.eqb_eq|]. destruct p; auto; now apply Z.eqb_eq.
Qed.
Fixpoint crun (chk : st -> op -> bool) (l : list clabel) (S : cst) : option cst :=
  match l with
  | [] => Some S
  | x :: r =>
      if match x with KCall t p => ownb t p && chk (c_s S) p | _ => true end
      then match c_step S x with Some S' => crun chk r S' | None => None end else None
  end.
Lemma crun_reach : forall chk (okc : st -> op -> Prop), (forall s p, chk s p = true -> okc s p) -> forall l S S',
  crun chk l S = Some S' -> c_reach (usage own10 okc any_result) S -> c_reach (usage own10 okc any_result) S'.
Proof.
  intros chk okc H. induction l as [|x r IH]; intros S S' E R; cbn [crun] in E; [injection E as <-; exact R|].
  destruct (match x with KCall t p => ownb t p && chk (c_s S) p | _ => true end) eqn:C; [|discriminate E].
  destruct (c_step S x) as [S1|] eqn:E1; [|discriminate E]. apply (IH S1 S' E). eapply csteps_next; [exact R| |exact E1].
  destruct x as [t p|t|t a|t]; cbn; auto.
  - apply andb_true_iff in C as [C1 C2]. split; [now apply ownb_ok|auto].
  - destruct (c_thr S t) as [|p []|]; exact Logic.I.
Qed.
Lemma crun_shows : forall chk (okc : st -> op -> Prop), (forall s p, chk s p = true -> okc s p) -> forall A (f : cst -> A) v l,
  option_map f (crun chk l init_c) = Some v -> exists S, c_reach (usage own10 okc any_result) S /\ f S = v.
Proof.
  intros chk okc H A f v l E. destruct (crun chk l init_c) as [S|] eqn:C; [|discriminate E]. cbn in E. injection E as E.
  exists S. split; [|exact E]. exact (crun_reach chk okc H l init_c S C (csteps_refl _ _)).
Qed.

(** object [o] of thread [t] on [0, len) of descriptor 3 is made and locked for reading *)
Definition reads (o t len : Z) : list clabel :=
  [KCall t (ONew o t 3 0 len); KStep t; KCall t (ORead o)] ++ repeat (KStep t) 4 ++ [KAns t 0] ++ repeat (KStep t) 2.

(** ** C138: two threads are never at an access of the list of lock objects at the same time *)
Definition C138_statement : Prop :=
  forall own S t u, c_reach (usage own any_op any_result) S -> at_stack S t -> at_stack S u -> t = u.

(** both threads ask for writing with an object that reads *)
Definition two_upgrades : list clabel :=
  reads 11 1 10 ++ reads 12 2 10 ++
  [KCall 1 (OWrite 11)] ++ repeat (KStep 1) 6 ++ [KAns 1 0; KStep 1] ++
  [KCall 2 (OWrite 12)] ++ repeat (KStep 2) 6 ++ [KAns 2 0; KStep 2].
Definition at_stackb (S : cst) (t : Z) : bool := match c_thr S t with TRun _ (PAct true _ _) => true | _ => false end.
Lemma at_stackb_ok : forall S t, at_stackb S t = true -> at_stack S t.
Proof.
  intros S t H. unfold at_stackb in H. unfold at_stack.
  destruct (c_thr S t) as [|p [| [|] g k| | |]|]; try discriminate H. eauto.
Qed.
Theorem C138_one_at_a_time_refuted : ~ C138_statement.
Proof.
  intros H.
  destruct (crun_shows (fun _ _ => true) any_op (fun _ _ _ => Logic.I) _ (fun S => (at_stackb S 1, at_stackb S 2)) (true, true) two_upgrades) as (S & R & E);
    [vm_compute; reflexivity|]. injection E as E1 E2.
  pose proof (H own10 S 1 2 R (at_stackb_ok _ _ E1) (at_stackb_ok _ _ E2)) as X. discriminate X.
Qed.
(** without such calls a thread at an access has the mutex *)
Theorem C138_one_at_a_time_partial : forall own S t, c_reach (usage own no_conversion any_result) S -> at_stack S t ->
  c_hold S = Some t /\ forall u, at_stack S u -> u = t.
Proof.
  intros own S t R A. pose proof (inv_reach own no_conversion any_result (fun s p H => H) (about_nc own) S R) as I.
  assert (Q : forall u, at_stack S u -> c_hold S = Some u).
  { intros u (p & g & k & E). exact (at_act own _ _ (fun s p H => H) S u p I g k E). }
  split; [auto|]. intros u U. pose proof (Q t A). pose proof (Q u U). congruence.
Qed.

(** ** C139: a thread that waits for the list's mutex gets its turn *)
Definition C139_statement : Prop :=
  forall own S t, c_reach (usage own no_conversion any_result) S -> spinning S t ->
    exists u n S', c_hold S = Some u /\ runs n u S = Some S' /\ s_mtx (c_s S') = false.

(** thread 1 reads with object 11; its object 21 asks for writing and is refused.  Thread 2 wants to read *)
Definition refused_write : list clabel :=
  reads 11 1 10 ++ [KCall 1 (ONew 21 1 3 0 10); KStep 1; KCall 1 (OWrite 21)] ++ repeat (KStep 1) 5 ++ [KAns 1 0] ++
  repeat (KStep 1) 2 ++ [KAns 1 1] ++ repeat (KStep 1) 3 ++ [KCall 2 (ONew 12 2 3 0 10); KStep 2; KCall 2 (ORead 12); KStep 2].
Definition at_lockb (S : cst) (t : Z) : bool := match c_thr S t with TRun _ (PLck _) => true | _ => false end.
Lemma at_lockb_ok : forall S t, at_lockb S t = true -> exists p k, c_thr S t = TRun p (PLck k).
Proof. intros S t H. unfold at_lockb in H. destruct (c_thr S t) as [|p [| | k| |]|]; try discriminate H. eauto. Qed.
Definition refused_view (S : cst) := (at_lockb S 1, at_lockb S 2, c_hold S, s_mtx (c_s S)).
Lemma refused_reached : exists S, c_reach (usage own10 no_conversion any_result) S /\ refused_view S = (true, true, Some 1, true).
Proof. apply (crun_shows ncb no_conversion ncb_ok _ refused_view _ refused_write). vm_compute. reflexivity. Qed.

Theorem C139_turn_refuted : ~ C139_statement.
Proof.
  intros H. destruct refused_reached as (S & R & E). injection E as E1 E2 E3 E4.
  destruct (at_lockb_ok _ _ E1) as (p1 & k1 & T1). destruct (at_lockb_ok _ _ E2) as (p2 & k2 & T2).
  destruct (H own10 S 2 R) as (u & n & S' & HD & RN & M); [exists p2, k2; auto|].
  assert (u = 1) by congruence. subst u.
  assert (X : forall m, runs m 1 S = Some S).
  { induction m as [|m IH]; [reflexivity|]. cbn [runs c_step]. rewrite T1, E4. exact IH. }
  rewrite X in RN. injection RN as <-. congruence.
Qed.
(** the holder releases the mutex by its own steps, unless it was gone at a fork or was refused a write lock *)
Theorem C139_turn_partial : forall own S t, c_reach (usage own no_conversion any_result) S -> spinning S t ->
  exists u, c_hold S = Some u /\
    (c_thr S u <> TGone -> ~ write_refused (log_of u (c_log S)) ->
     exists n S', runs n u S = Some S' /\ c_hold S' = None /\ s_mtx (c_s S') = false).
Proof.
  intros own S t R (p & k & TH & M). pose proof (inv_reach own no_conversion any_result (fun s p H => H) (about_nc own) S R) as I.
  rewrite (i_mtx _ _ _ S I) in M. destruct (c_hold S) as [u|] eqn:HD; [|discriminate M]. exists u. split; [reflexivity|].
  intros NG NW. destruct (c_thr S u) as [|p1 q1|] eqn:TU; [|clear NG|congruence].
  - destruct (i_idle _ _ _ S I u TU) as [X _]. rewrite (holds_some S u HD) in X. discriminate X.
  - pose proof (i_run _ _ _ S I u p1 q1 TU) as (_ & O & Q & _).
    destruct (holder_releases own no_conversion any_result (fun s p H => H) (about_nc own) u (target p1) q1 Q S p1 eq_refl I TU HD NW) as (n & S' & RN & HN).
    exists n, S'. split; [exact RN|]. split; [exact HN|].
    assert (I' : Inv own no_conversion any_result S'); [|rewrite (i_mtx _ _ _ S' I'), HN; reflexivity].
    clear - RN I. revert S RN I. induction n as [|n IH]; intros S RN I; cbn [runs] in RN; [injection RN as <-; exact I|].
    destruct (c_step S (KStep u)) as [S1|] eqn:E; [|discriminate RN]. apply (IH S1 RN).
    apply (inv_own_step own no_conversion any_result (fun s p H => H) S u S1 I); [|exact E]. intros; exact Logic.I.
Qed.
(** a holder that spins itself never does: the mutex is lost for all threads *)
Theorem C139_lost_for_ever : forall own S S' u p k, c_reach (usage own no_conversion any_result) S ->
  c_hold S = Some u -> c_thr S u = TRun p (PLck k) -> csteps (usage own no_conversion any_result) S S' -> s_mtx (c_s S') = true.
Proof.
  intros own S S' u p k R HD TH H.
  destruct (lost_stays own no_conversion any_result (fun s p H => H) (about_nc own) S S' u R) as [[HD' _] R']; [split; eauto|exact H|].
  rewrite (i_mtx _ _ _ S' (inv_reach own no_conversion any_result (fun s p H => H) (about_nc own) S' R')), HD'. reflexivity.
Qed.

(** ** C140: after a fork the child can use recursive locks *)
Definition C140_statement : Prop :=
  forall own S t S1 p S2 ans, c_reach (usage own no_conversion any_result) S -> c_step S (KFork t) = Some S1 ->
    owned own t p -> no_conversion (c_s S1) p -> c_step S1 (KCall t p) = Some S2 -> grants_writes ans ->
    exists n, c_thr (alone ans n t S2) t = TIdle.

(** thread 2 has the mutex when thread 1 forks *)
Definition fork_inside : list clabel :=
  [KCall 1 (ONew 11 1 3 0 10); KStep 1; KCall 2 (ONew 12 2 3 0 10); KStep 2; KCall 2 (ORead 12); KStep 2; KStep 2].
Definition fork_after : list clabel := [KFork 1; KCall 1 (ORead 11); KStep 1].
Definition fork_view (S : cst) :=
  (s_mtx (c_s S), match c_thr S 1 with TIdle => true | _ => false end, o_alive (s_obj (c_s S) 11), o_locked (s_obj (c_s S) 11), o_type (s_obj (c_s S) 11)).
Definition thr_is_gone (S : cst) (t : Z) : bool := match c_thr S t with TGone => true | _ => false end.

Theorem C140_child_refuted : ~ C140_statement.
Proof.
  intros H.
  destruct (crun_shows ncb no_conversion ncb_ok _ fork_view (true, true, true, false, UNL) fork_inside) as (S & R & E);
    [vm_compute; reflexivity|]. injection E as E1 E2 E3 E4 E5.
  destruct (c_thr S 1) eqn:T1; try discriminate E2.
  set (S1 := mkC (c_s S) (c_hold S) (fun u => match c_thr S u with TIdle => TIdle | _ => TGone end) (c_log S)).
  assert (F : c_step S (KFork 1) = Some S1) by (cbn; rewrite T1; reflexivity).
  set (S2 := mkC (c_s S) (c_hold S) (upd (c_thr S1) 1 (TRun (ORead 11) (prog_of (ORead 11)))) (c_log S)).
  assert (C : c_step S1 (KCall 1 (ORead 11)) = Some S2).
  { unfold S1, S2. cbn [c_step c_thr c_s]. rewrite T1. unfold allowed. cbn [makes target]. rewrite E3. reflexivity. }
  destruct (H own10 S 1 S1 (ORead 11) S2 (fun _ _ => 0) R F) as (n & N).
  - split; [lia|]. split; [reflexivity|exact Logic.I].
  - cbn. unfold locked. rewrite E4. discriminate.
  - exact C.
  - intros ? ? ? ? ?. reflexivity.
  - destruct n as [|n]; [discriminate N|]. cbn [alone] in N.
    assert (X : exists q k, c_step S2 (KStep 1) = Some (mkC (c_s S) (c_hold S) q (c_log S)) /\ q 1 = TRun (ORead 11) (PLck k)).
    { cbn. unfold nop. rewrite E4. cbn. eexists _, _. split; [reflexivity|]. apply upd_eq. }
    destruct X as (q & k & X & Q). cbn [S2 c_thr] in N. rewrite upd_eq in N. cbn [prog_of pRawReadLock] in N.
    unfold pRawReadLock in N. rewrite X in N.
    assert (Y : forall m, alone (fun _ _ => 0) m 1 (mkC (c_s S) (c_hold S) q (c_log S)) = mkC (c_s S) (c_hold S) q (c_log S)).
    { induction m as [|m IH]; [reflexivity|]. cbn [alone c_step c_thr c_s]. rewrite Q, E1. exact IH. }
    rewrite Y in N. cbn [c_thr] in N. rewrite Q in N. discriminate N.
Qed.
(** with the mutex free at the fork, every call of the child returns when it is not disturbed and its
    requests for writing are granted *)
Theorem C140_child_partial : forall S t S1 p S2 ans, s_mtx (c_s S) = false -> c_step S (KFork t) = Some S1 ->
  c_step S1 (KCall t p) = Some S2 -> grants_writes ans ->
  exists n, c_thr (alone ans n t S2) t = TIdle /\ s_mtx (c_s (alone ans n t S2)) = false.
Proof.
  intros S t S1 p S2 ans M F C G. cbn in F. destruct (c_thr S t) eqn:T; try discriminate F. injection F as <-.
  cbn in C. rewrite T in C. destruct (allowed p (c_s S)); [|discriminate C]. injection C as <-.
  apply (calm_alone ans false (prog_of p) G (calm_prog p) _ t p); [|apply upd_eq].
  cbn [c_s]. rewrite <- M. destruct p; reflexivity.
Qed.
(** with the mutex held by another thread at the fork, it is never free in the child *)
Theorem C140_child_never : forall own S t u S1 S', c_reach (usage own no_conversion any_result) S ->
  c_hold S = Some u -> c_step S (KFork t) = Some S1 -> csteps (usage own no_conversion any_result) S1 S' -> s_mtx (c_s S') = true.
Proof.
  intros own S t u S1 S' R HD F H. pose proof (inv_reach own no_conversion any_result (fun s p H => H) (about_nc own) S R) as I.
  assert (R1 : c_reach (usage own no_conversion any_result) S1) by (exact (csteps_next _ _ _ (KFork t) _ R Logic.I F)).
  cbn in F. destruct (c_thr S t) eqn:T; try discriminate F. injection F as <-.
  destruct (lost_stays own no_conversion any_result (fun s p H => H) (about_nc own) _ S' u R1) as [[HD' _] R']; [|exact H|].
  - split; [exact HD|]. left. cbn [c_thr]. destruct (c_thr S u) eqn:TU; try reflexivity.
    destruct (i_idle _ _ _ S I u TU) as [X _]. rewrite (holds_some S u HD) in X. discriminate X.
  - rewrite (i_mtx _ _ _ S' (inv_reach own no_conversion any_result (fun s p H => H) (about_nc own) S' R')), HD'. reflexivity.
Qed.

(** ** Cases *)
(** ranges [0,10) of descriptor 3 of threads 1 and 2 *)
Definition famC (k : key) : Prop := (k_tid k = 1 \/ k_tid k = 2) /\ k_fd k = 3 /\ k_off k = 0 /\ k_len k = 10.
Lemma famC_separate : separate famC.
Proof.
  split.
  - intros k (_ & _ & O & L). unfold two63. lia.
  - intros [t f o l] [t' f' o' l'] (A1 & A2 & A3 & A4) (B1 & B2 & B3 & B4) (M & _). cbn in *. subst. congruence.
Qed.
Definition famCb (k : key) : bool := ((k_tid k =? 1) || (k_tid k =? 2)) && (k_fd k =? 3) && (k_off k =? 0) && (k_len k =? 10).
Lemma famCb_ok : forall k, famCb k = true -> famC k.
Proof.
  intros k H. unfold famCb in H. apply andb_true_iff in H as [H H4]. apply andb_true_iff in H as [H H3]. apply andb_true_iff in H as [H1 H2].
  apply Z.eqb_eq in H2, H3, H4. apply orb_true_iff in H1. split; [destruct H1 as [H1|H1]; apply Z.eqb_eq in H1; auto|auto].
Qed.
Definition fam_opb (s : st) (p : op) : bool :=
  ncb s p && match p with
  | ONewLock _ tid fd off len _ => famCb (Key tid fd off len)
  | OLockAt o fd off len _ => famCb (Key (o_tid (s_obj s o)) fd off len)
  | OLockAs o _ | OLock o | ORead o | OWrite o => famCb (key_of (s_obj s o))
  | ONew _ _ _ _ _ | ODel _ | OUnlock _ => true
  end.
Lemma fam_opb_ok : forall s p, fam_opb s p = true -> family_op famC s p.
Proof.
  intros s p H. unfold fam_opb in H. apply andb_true_iff in H as [H1 H2]. split; [|now apply ncb_ok].
  destruct p; cbn in *; auto; now apply famCb_ok.
Qed.

(** thread 1 reads; thread 2 has asked for writing and waits in the shared lock layer *)
Definition mixed : list clabel :=
  [KCall 1 (ONew 11 1 3 0 10); KCall 2 (ONew 12 2 3 0 10); KStep 2; KStep 1; KCall 1 (ORead 11); KCall 2 (OWrite 12);
   KStep 2; KStep 1; KStep 1; KStep 2; KStep 1; KStep 1; KStep 2; KAns 1 0; KStep 2; KStep 2; KStep 1; KStep 1; KStep 2].
Definition mixed_view (S : cst) :=
  (match c_thr S 1 with TIdle => true | _ => false end,
   match c_thr S 2 with TRun (OWrite 12) (PShm _ c _) => Some c | _ => None end,
   c_log S, o_locked (s_obj (c_s S) 11), s_stack (c_s S)).
Example C137_case : exists S, c_reach (usage own10 (family_op famC) any_result) S /\ c_thr S 1 = TIdle /\
  own10 11 = 1 /\ locked (c_s S) 11 /\ honest (log_of 1 (c_log S)) /\ held (log_of 1 (c_log S)) = [(Key 1 3 0 10, false)] /\
  s_stack (c_s S) = [11; 12] /\ (exists L k, c_thr S 2 = TRun (OWrite 12) (PShm L (SWrite 2 3 0 10) k)).
Proof.
  destruct (crun_shows fam_opb (family_op famC) fam_opb_ok _ mixed_view (true, Some (SWrite 2 3 0 10), [(1, (SRead 1 3 0 10, 0))], true, [11; 12]) mixed)
    as (S & R & E); [vm_compute; reflexivity|]. injection E as E1 E2 E3 E4 E5. exists S. split; [exact R|].
  split; [destruct (c_thr S 1); [reflexivity|discriminate E1|discriminate E1]|]. split; [reflexivity|]. split; [exact E4|].
  rewrite E3. cbn. split; [auto|]. split; [reflexivity|]. split; [exact E5|].
  destruct (c_thr S 2) as [|p q|]; try discriminate E2. destruct p; try discriminate E2.
  destruct (Z.eq_dec o 12) as [->|N].
  - destruct q; try discriminate E2. injection E2 as ->. eauto.
  - exfalso. assert (X : match o with 12 => true | _ => false end = false).
    { destruct o as [|x|x]; try reflexivity. do 4 (destruct x as [x|x|]; try reflexivity). elim N. reflexivity. }
    destruct o as [|x|x]; try discriminate E2. do 4 (destruct x as [x|x|]; try discriminate E2). elim N; reflexivity.
Qed.
Example C137_case_waiting : exists S p L c k, c_reach (usage own10 (family_op famC) any_result) S /\ c_thr S 2 = TRun p (PShm L c k).
Proof. destruct C137_case as (S & R & _ & _ & _ & _ & _ & _ & L & k & E). eauto 8. Qed.

(** thread 1 at the list while thread 2 spins *)
Definition contended : list clabel :=
  [KCall 1 (ONew 11 1 3 0 10); KStep 1; KCall 2 (ONew 12 2 3 0 10); KStep 2; KCall 2 (ORead 12); KStep 2;
   KCall 1 (ORead 11); KStep 1; KStep 1; KStep 2].
Definition contended_view (S : cst) := (at_stackb S 1, at_lockb S 2, c_hold S, s_mtx (c_s S), c_log S, thr_is_gone S 1).
Example C138_C139_case : exists S, c_reach (usage own10 no_conversion any_result) S /\ at_stack S 1 /\ spinning S 2 /\
  c_hold S = Some 1 /\ c_thr S 1 <> TGone /\ ~ write_refused (log_of 1 (c_log S)).
Proof.
  destruct (crun_shows ncb no_conversion ncb_ok _ contended_view (true, true, Some 1, true, [], false) contended) as (S & R & E);
    [vm_compute; reflexivity|]. injection E as E1 E2 E3 E4 E5 E6. exists S. split; [exact R|]. split; [now apply at_stackb_ok|].
  split; [destruct (at_lockb_ok _ _ E2) as (p & k & T); exists p, k; auto|]. split; [exact E3|].
  split; [intros T; unfold thr_is_gone in E6; rewrite T in E6; discriminate E6|]. rewrite E5. intros (a & b & c & d & e & f & X & _). discriminate X.
Qed.
Example C139_lost_case : exists S p k, c_reach (usage own10 no_conversion any_result) S /\ c_hold S = Some 1 /\ c_thr S 1 = TRun p (PLck k).
Proof.
  destruct refused_reached as (S & R & E). injection E as E1 E2 E3 E4. destruct (at_lockb_ok _ _ E1) as (p & k & T). exists S, p, k. auto.
Qed.
(** the child of thread 1 reads with its object while thread 2 was gone inside the shared lock layer *)
Example C140_case : option_map (fun S => (s_mtx (c_s S), thr_is_gone S 2, o_locked (s_obj (c_s (alone (fun _ _ => 0) 20 1 S)) 11)))
    (crun ncb ([KCall 1 (ONew 11 1 3 0 10); KStep 1; KCall 2 (ONew 12 2 3 0 10); KStep 2; KCall 2 (ORead 12)] ++ repeat (KStep 2) 4 ++
       [KFork 1; KCall 1 (ORead 11)]) init_c) = Some (false, true, true).
Proof. vm_compute. reflexivity. Qed.
Example C140_never_case : exists S u, c_reach (usage own10 no_conversion any_result) S /\ c_hold S = Some u /\ c_step S (KFork 1) <> None.
Proof.
  destruct (crun_shows ncb no_conversion ncb_ok _ (fun S => (c_hold S, match c_thr S 1 with TIdle => true | _ => false end)) (Some 2, true) fork_inside)
    as (S & R & E); [vm_compute; reflexivity|]. injection E as E1 E2. exists S, 2. split; [exact R|]. split; [exact E1|].
  cbn. destruct (c_thr S 1); discriminate.
Qed.

Print Assumptions C137_sequential_view.
Print Assumptions C137_waiting.
Print Assumptions C137_returning.
Print Assumptions C137_locked_means_held.
Print Assumptions C137_balanced.
Print Assumptions C138_one_at_a_time_refuted.
Print Assumptions C138_one_at_a_time_partial.
Print Assumptions C139_turn_refuted.
Print Assumptions C139_turn_partial.
Print Assumptions C139_lost_for_ever.
Print Assumptions C140_child_refuted.
Print Assumptions C140_child_partial.
Print Assumptions C140_child_never.
