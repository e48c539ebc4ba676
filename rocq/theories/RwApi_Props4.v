(** C67: what a recovery pass does clear. *)
From Coq Require Import ZArith List Bool Lia Permutation.
From Verif Require Import Base Range_Model RwWord_Model RwApi_Model RwApi_Spec RwApi_Proofs RwApi_Proofs2 RwApi_Proofs3
  RwApi_Proofs4 RwApi_Proofs5 RwApi_Proofs6 RwApi_Proofs7 RwApi_Proofs8 RwApi_Proofs9 RwApi_Proofs12 RwApi_Props.
Import ListNotations.
Open Scope Z_scope.

Section Recovered.
Variables UF UO UL : list Z.
Hypothesis UF_nd : NoDup UF.
Hypothesis UO_nd : NoDup UO.
Hypothesis UL_nd : NoDup UL.
Variable fds : Z -> Z -> option Z.
Variable mode : Z -> fmode.
Variable allow : Z -> bool.
Notation init := (r_init UF UO UL fds mode allow).

(** ** C67: when nobody died while holding the guard of the file list and the pools sufficed, and no running thread holds a lock on the file,
    one pass, of any privilege, leaves no entry of the file, and islocked answers 0.  The dead may have been anywhere else: holding
    locks, waiting for a lock, giving up after a refused try (but, as everywhere with [careful], not between the lock word and its mark). *)
Theorem C67_recovered_partial : forall s t priv d ls s1, r_reach init tidy s -> (forall u, alive s u = true -> idle s u) ->
  (forall u, alive s u = false -> r_palive s (proc_of_thread u) = false) ->
  (forall l g, holds s l g -> gr_dev g = d -> alive s (gr_t g) = false) -> alive s t = true ->
  r_path (only t) (r_step s (LCall t (CPass priv))) ls s1 -> idle s1 t ->
  (forall f, In f (h_flist (r_h s1)) -> f_dev (h_f (r_h s1) f) <> d) /\
  forall u fd off len ls2 s2, alive s1 u = true -> file_of s1 u fd = Some d ->
    r_path (only u) (r_step s1 (LCall u (CIsLocked fd off len))) ls2 s2 -> idle s2 u -> r_res s2 u = Some 0.
Proof.
  intros s t priv d ls s1 R ID WD NH AL P I1. destruct (tidy_reach UF UO UL UF_nd UO_nd UL_nd fds mode allow s R) as (S & W & N).
  pose proof (si_h _ _ _ s S) as H.
  assert (EQ : r_step s (LCall t (CPass priv)) = goto s t (RWait (P0 priv))) by (unfold r_step; rewrite AL, (ID t AL); reflexivity).
  assert (PI0 : PI t d (goto s t (RWait (P0 priv)))).
  { constructor; cbn [goto r_h r_pc r_palive]; [| |rewrite upd_eq; auto].
    - intros f F. split.
      + destruct (f_prot (h_f (r_h s) f)) eqn:E; auto. destruct (np_f s N f F E) as (u & AU & Q). rewrite (ID u AU) in Q. discriminate.
      + intros o O. destruct (o_prot (h_o (r_h s) o)) eqn:E; auto. destruct (np_o s N f o F O E) as (u & AU & Q). rewrite (ID u AU) in Q. discriminate.
    - intros f o y F E O Y. apply WD. destruct (alive s (tid (r_h s) y)) eqn:AY; auto. exfalso.
      assert (U : In o UO) by (apply (hi_offs_used _ _ _ _ H f o (flist_UF _ _ _ _ f H F) O)).
      destruct (wi_l _ s W o y U Y AY) as [[g G]|M]; [|rewrite (ID _ AY) in M; destruct M].
      apply lks_in in Y as [k Y]. destruct (hi_lk _ _ _ _ H o k y U Y) as [_ (f' & F' & O' & Q)]. destruct (Q g G) as (_ & Q2 & _ & Q4 & _).
      assert (f' = f) by (apply (hi_offs_uniq _ _ _ _ H f' f o); auto; eapply flist_UF; eauto). subst f'.
      assert (Z1 : alive s (gr_t g) = false) by (apply (NH y g G); congruence). unfold tid in AY. congruence. }
  assert (S0 : SI UF UO UL (r_step s (LCall t (CPass priv)))) by (apply SI_step; auto; exact I).
  assert (AL0 : alive (r_step s (LCall t (CPass priv))) t = true) by (rewrite EQ; exact AL).
  rewrite <- EQ in PI0. clear EQ.
  assert (PI1 : PI t d s1).
  { clear R ID WD NH AL W N I1 H. revert S0 AL0 PI0. induction P as [sx|sx x ls sy O P IH]; auto. intros S0 AL0 PI0. pose proof O as [gu ->].
    assert (Q : alive (r_step sx (LRun t false gu)) t = alive sx t) by (apply (only_alive t sx [LRun t false gu]); repeat constructor; auto).
    apply IH; [apply SI_step; auto; exact I | rewrite Q; auto |]. rewrite run_step by auto. apply (pass_PI UF UO UL t d); auto. }
  assert (NOF : forall f, In f (h_flist (r_h s1)) -> f_dev (h_f (r_h s1) f) <> d) by (pose proof (pi_pc t d s1 PI1) as Q; rewrite I1 in Q; exact Q).
  split; auto. intros u fd off len ls2 s2 AU FO P2 I2.
  assert (IU : r_pc s1 u = RIdle).
  { destruct (Z.eq_dec u t) as [->|NE]; auto. destruct (only_env _ _ _ _ P) as (_ & _ & _ & E4). rewrite E4 by auto.
    assert (AUs : alive s u = true) by (rewrite (only_alive _ _ _ _ u P) in AU; apply (step_alive s (LCall t (CPass priv))); exact AU).
    unfold r_step. rewrite AL, (ID t AL). cbn. rewrite upd_neq by auto. exact (ID u AUs). }
  assert (E2 : r_step s1 (LCall u (CIsLocked fd off len)) = goto s1 u (RWait (Q2 (mkA Rd fd off len WBlock d)))).
  { unfold r_step. rewrite AU, IU. unfold r_call. rewrite (FO : dev_of _ _ _ = _). auto. }
  rewrite E2 in P2. rewrite (isl_alone ls2 _ s2 u (mkA Rd fd off len WBlock d) P2); [|exact AU|exact I2|left; cbn; apply upd_eq].
  cbn [goto r_h a_dev]. destruct (find_file (r_h s1) d) as [f|] eqn:EF; auto. destruct (find_file_some _ _ _ EF). exfalso. eapply NOF; eauto.
Qed.
End Recovered.

(** ** A concrete case: T1 holds, T2 waits behind it with a timeout, T3 holds other bytes and is about to give up after a refused try on
    the bytes of T1; their processes end; a pass of T4 *)
Definition pools_b2 s x := careful_b everyone s x && pools_b s x && match x with LDieThread t => match r_guard s with Some u => negb (u =? t) | None => true end
  | LDieProc p => match r_guard s with Some u => negb (proc_of_thread u =? p) | None => true end | _ => true end.
Lemma pools_b2_ok : forall s x, others_idle everyone s -> pools_b2 s x = true -> tidy s x.
Proof.
  intros s x J B. unfold pools_b2 in B. repeat rewrite andb_true_iff in B. destruct B as ((B1 & B2) & B3).
  split; [eapply careful_b_ok; eauto|]. split; [apply pools_b_ok; auto|]. destruct x; cbn; auto.
  - destruct (r_guard s) as [u|]; [|discriminate]. apply negb_true_iff, Z.eqb_neq in B3. congruence.
  - intros u E. rewrite E in B3. apply negb_true_iff, Z.eqb_neq in B3. auto.
Qed.
Definition ex67b := r_exec s0 (does T1 (lock_w 3 0 10) ++ LCall T2 (CLock Wr 3 0 10 WTimed) :: runs T2 8 ++ does T3 (lock_r 3 20 10) ++ LCall T3 (lock_w 3 0 10) :: runs T3 6 ++
  [LDieProc 1; LDieProc 2; LDieProc 3]).
Definition ex67c := r_exec ex67b (pass_of T4 false 30).
Example C67_recovered_case : r_reach s0 tidy ex67b /\ (forall u, alive ex67b u = false -> r_palive ex67b (proc_of_thread u) = false) /\ (forall u, alive ex67b u = true -> idle ex67b u) /\ r_pc ex67b T2 = AT (mkA Wr 3 0 10 WTimed 103) 1 11 22 /\ r_pc ex67b T3 = RWait (F1 (mkA Wr 3 0 10 WTry 103) 1 11 EBUSY) /\
  holds ex67b 21 (G T1 3 0 10 Wr) /\ holds ex67b 23 (G T3 3 20 10 Rd) /\ h_flist (r_h ex67b) = [1] /\ idle ex67c T4 /\ h_flist (r_h ex67c) = [] /\
  length (h_ofree (r_h ex67c)) = 4%nat /\ length (h_lfree (r_h ex67c)) = 5%nat.
Proof.
  assert (TA : forall u, r_talive ex67b u = true) by (intro; reflexivity).
  assert (Q : quiet_state everyone [21;22;23;24;25] ex67b) by (apply quiet_exec; [apply quiet_init|vm_compute; reflexivity]).
  split; [|split; [|split; [|repeat split; vm_compute; reflexivity]]].
  2: { intros u A. unfold alive in A. rewrite TA, andb_true_r in A. exact A. }
  2: { intros u A. destruct (in_dec Z.eq_dec u everyone) as [J|J]; [|apply Q; auto].
       destruct J as [<-|[<-|[<-|[<-|[]]]]]; [vm_compute in A; discriminate A| vm_compute in A; discriminate A| vm_compute in A; discriminate A| vm_compute; reflexivity]. }
  apply (check_reach pools_b2 tidy (others_idle everyone)).
  - intros s x J B. split; [apply pools_b2_ok; auto | apply others_idle_step; auto]. unfold pools_b2 in B. repeat rewrite andb_true_iff in B. apply B.
  - apply others_idle_init.
  - constructor.
  - vm_compute. reflexivity.
Qed.

Print Assumptions C67_recovered_partial.
