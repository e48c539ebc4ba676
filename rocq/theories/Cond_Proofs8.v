(** Results of signal and broadcast: the name is known or not. *)
From Coq Require Import ZArith List Bool Lia.
From Verif Require Import Base Cond_Model Cond_Spec Cond_Proofs Cond_Proofs2 Cond_Proofs3.
Import ListNotations.
Open Scope Z_scope.

Lemma take_conds : forall s t p, c_conds (take_guard s t p) = c_conds s.
Proof. intros. unfold take_guard. destruct (c_guard s) as [u|]; [destruct (c_alive s u)|]; reflexivity. Qed.

(** no step forgets a condition *)
Lemma conds_grow : forall s x, incl (c_conds s) (c_conds (c_step s x)).
Proof.
  intros s x. destruct x as [t cc|t g|t|m]; cbn [c_step].
  - destruct (c_alive s t && negb (t =? 0)); [|apply incl_refl].
    destruct (c_pc s t); try apply incl_refl.
    destruct cc; cbn [c_call]; try apply incl_refl; destruct (c_mk s _); apply incl_refl.
  - destruct (c_alive s t && negb (t =? 0)); [|apply incl_refl].
    unfold c_run. destruct (c_pc s t) as [|m k|m|a|a|a|a w|a w|a w|a w|a w r|a w|a w r|a w r|a w r|a w r|r|c b|c b|c ws l|c w|c ws|c w ws| |cs ws];
      try (rewrite take_conds; apply incl_refl); try apply incl_refl.
    + destruct (can_lock s m t); [apply incl_refl|]. destruct k; try apply incl_refl. destruct g; apply incl_refl.
    + unfold unlock_mutex. destruct (c_m s m =? t); apply incl_refl.
    + destruct (mem _ _); [apply incl_refl|]. destruct (c_cfree s); [apply incl_refl|]. intros z Z. right. exact Z.
    + destruct (c_pool s); apply incl_refl.
    + cbv zeta. unfold unlock_mutex. destruct (c_m s _ =? t); apply incl_refl.
    + destruct (w_wait _); [|apply incl_refl]. destruct (a_k a); try apply incl_refl; destruct g; apply incl_refl.
    + cbv zeta. destruct (can_lock s _ t); [apply incl_refl|]. destruct (a_k a); try apply incl_refl. destruct g; apply incl_refl.
    + destruct (mem _ _); apply incl_refl.
    + destruct (mem _ _); apply incl_refl.
    + destruct ws as [|w ws]; [destruct l|]; apply incl_refl.
    + destruct ws as [|w ws]; [apply incl_refl|]. destruct (w_wait _); apply incl_refl.
    + destruct cs as [|c cs]; [apply incl_refl|]. destruct ws as [[|w ws]|]; try apply incl_refl.
      cbv zeta. destruct (_ && _); apply incl_refl.
  - destruct (t =? 0); apply incl_refl.
  - destruct (c_alive s (c_m s m)); apply incl_refl.
Qed.

(** thread [t] inside a signal or broadcast call on [c] that began when the conditions were [cs0] *)
Definition sig_st (c t : Z) (cs0 : list Z) (s : cstate) : Prop :=
  match c_pc s t with
  | SG c' _ | SF c' _ => c' = c
  | SS c' _ _ | SW c' _ | SB c' _ | SU c' _ _ => c' = c /\ In c (c_conds s)
  | CX r => r = OK /\ In c (c_conds s) \/ r = EINVAL /\ ~ In c cs0
  | CIdle => c_res s t = Some OK /\ In c (c_conds s) \/ c_res s t = Some EINVAL /\ ~ In c cs0
  | _ => False
  end.

Lemma mem_in : forall x l, mem x l = true <-> In x l.
Proof.
  intros x l. unfold mem. rewrite existsb_exists. split.
  - intros (y & I & E). apply Z.eqb_eq in E. now subst.
  - intro I. exists x. split; auto. apply Z.eqb_refl.
Qed.

Lemma sig_other : forall c t cs0 s x, actor x <> Some t -> sig_st c t cs0 s -> sig_st c t cs0 (c_step s x).
Proof.
  intros c t cs0 s x N H. pose proof (conds_grow s x) as G. unfold sig_st in *.
  rewrite step_pc by auto. rewrite step_res by auto.
  destruct (c_pc s t); intuition.
Qed.

Lemma take_pc : forall s t p, take_guard s t p = s \/ c_pc (take_guard s t p) t = p.
Proof. intros s t p. unfold take_guard. destruct (c_guard s) as [u|]; [destruct (c_alive s u)|]; cbn; rewrite ?upd_eq; auto. Qed.

Lemma sig_own : forall c t cs0 s g, incl cs0 (c_conds s) -> sig_st c t cs0 s -> sig_st c t cs0 (c_step s (XRun t g)).
Proof.
  intros c t cs0 s g I H. cbn [c_step]. destruct (c_alive s t && negb (t =? 0)); [|exact H].
  assert (H0 := H). unfold sig_st in H. unfold c_run.
  destruct (c_pc s t) as [|m k|m|a|a|a|a w|a w|a w|a w|a w r|a w|a w r|a w r|a w r|a w r|r|c' b|c' b|c' ws l|c' w|c' ws|c' w ws| |cs ws] eqn:P;
    try contradiction; try exact H0.
  - unfold sig_st. cbn. rewrite !upd_eq. destruct H as [[-> H]|[-> H]]; auto.
  - subst c'. destruct (take_pc s t (SF c b)) as [->|E]; [exact H0|]. unfold sig_st. rewrite E. reflexivity.
  - subst c'. destruct (mem c (c_conds s)) eqn:M; [apply mem_in in M; destruct b|]; unfold sig_st; cbn; rewrite upd_eq; auto.
    right. split; auto. intro J. apply I in J. apply mem_in in J. congruence.
  - destruct H as [-> H]. destruct ws as [|w ws]; [destruct l|]; unfold sig_st; cbn; rewrite upd_eq; auto.
  - destruct H as [-> H]. unfold sig_st; cbn; rewrite upd_eq; auto.
  - destruct H as [-> H]. destruct ws as [|w ws]; [|destruct (w_wait _)]; unfold sig_st; cbn; rewrite upd_eq; auto.
  - destruct H as [-> H]. unfold sig_st; cbn; rewrite upd_eq; auto.
Qed.

Lemma sig_path : forall ok c t cs0 s ls s2, c_path ok s ls s2 -> one_call t ls -> incl cs0 (c_conds s) ->
  sig_st c t cs0 s -> sig_st c t cs0 s2 /\ incl (c_conds s) (c_conds s2).
Proof.
  intros ok c t cs0 s ls s2 P. induction P as [s|s x ls s2 O P IH]; intros ONE I H; [split; auto using incl_refl|].
  destruct (one_call_cons _ _ _ ONE) as [ONE' N]. pose proof (conds_grow s x) as G.
  destruct IH as [A B]; auto.
  - eapply incl_tran; eauto.
  - destruct N as [N|[g ->]]; [apply sig_other|apply sig_own]; auto.
  - split; auto. eapply incl_tran; eauto.
Qed.
