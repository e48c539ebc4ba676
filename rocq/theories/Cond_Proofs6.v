(** Condition variables: no timeouts; conservation of entries. *)
From Coq Require Import ZArith List Bool Lia Sorted Permutation.
From Verif Require Import Base Cond_Model Cond_Spec Cond_Proofs Cond_Proofs2 Cond_Proofs3 Cond_Proofs4 Cond_Proofs5.
Import ListNotations.
Open Scope Z_scope.

Section NoTimeouts.
Variable UW : list Z.
Variable c0 : Z.
Definition okpc (p : cpc) : Prop :=
  (forall a, wa p = Some a -> a_k a <> KTry) /\
  match p with WL a w r => r = OK | WJ a w r | WC a w r | WP a w r => a_c a = c0 -> r = OK | _ => True end.
Definition TI (s : cstate) : Prop := forall u, c_alive s u = true -> okpc (c_pc s u).

Lemma TI_run : forall s t, CI UW s -> OI c0 s -> c_alive s t = true -> okpc (c_pc s t) -> okpc (c_pc (c_run s t false) t).
Proof.
  intros s t H HO AL [A B]. split; [intros a E; apply A; eapply wa_run; eauto|]. pose proof (oi_wb _ _ HO t) as NB.
  unfold c_run, take_guard, unlock_mutex. revert A B.
  pcases s t Ep; intros A B; simpl; rewrite ?Ep; simpl; auto;
  repeat match goal with
  | |- context[match ?x with _ => _ end] => lazymatch x with upd _ _ _ _ => fail | c_pc _ _ => fail | _ => destruct x eqn:?; simpl; auto end
  end; rewrite ?upd_eq, ?Ep; simpl; auto.
  - intro E. exfalso. eapply NB; eauto.
  - exfalso. apply (A a); auto.
Qed.
Lemma TI_step : forall s x, CI UW s -> OI c0 s -> TI s -> no_timeouts s x -> TI (c_step s x).
Proof.
  intros s x H HO T NT u AL. pose proof (step_alive _ _ _ AL) as AL0.
  assert (D : actor x = Some u \/ actor x <> Some u) by (destruct (actor x) as [v|]; [destruct (Z.eq_dec v u); [left|right]; congruence | right; congruence]).
  destruct D as [D|D]; [|rewrite step_pc by auto; auto].
  destruct x as [v cc|v g|v|m]; simpl in D; try discriminate; inversion D; subst v; simpl in *.
  - destruct (c_alive s u && negb (u =? 0)); [|apply T; auto]. destruct (c_pc s u) eqn:Ep; try (apply T; auto; fail).
    unfold c_call. destruct cc; simpl; try destruct (c_mk s m); simpl; rewrite upd_eq; split; simpl; auto; try (intros a E; discriminate).
    intros a E. inversion E; subst. auto.
  - subst g. destruct (c_alive s u && negb (u =? 0)); [|apply T; auto]. apply TI_run; auto.
Qed.
Lemma TI_reach : forall n (ok : cstate -> clabel -> Prop) s, NoDup UW -> (forall s x, ok s x -> owners_wait c0 s x /\ no_timeouts s x) ->
  c_reach (c_init UW n) ok s -> TI s.
Proof.
  intros n ok s N W R. induction R; [intros u _; split; simpl; auto; discriminate|]. apply TI_step; auto; [eapply CI_reach; eauto| | apply W; auto].
  apply (OI_reach UW c0 n ok); auto. intros s1 x1 Q. apply W; auto.
Qed.

Lemma released_end : forall (ok : cstate -> clabel -> Prop) s ls s2 u w, u <> 0 -> (forall s x, ok s x -> owners_wait c0 s x /\ no_timeouts s x) ->
  c_path ok s ls s2 -> one_call u ls -> c_alive s2 u = true -> idle s2 u -> good UW c0 s -> TI s -> released s c0 u w -> c_res s2 u = Some OK.
Proof.
  intros ok s ls s2 u w U0 OKW P. induction P as [s|s x ls s2 O P IH]; intros ONE AL ID G T RL; [unfold released in RL; rewrite ID in RL; contradiction|].
  destruct (one_call_cons _ _ _ ONE) as [ONE' N]. pose proof (alive_path _ _ _ _ _ P AL) as AL1. pose proof (step_alive _ _ _ AL1) as AL0.
  destruct (OKW _ _ O) as [OW NT].
  pose proof (good_step _ _ _ _ G OW) as G'. destruct G as (H & HO & Z0). pose proof (TI_step s x H HO T NT) as T'.
  specialize (IH ONE' AL ID G' T').
  destruct N as [N|[g ->]]; [apply IH; unfold released in *; rewrite step_pc; auto|].
  pose proof RL as RL0. unfold released in RL. destruct (c_pc s u) eqn:Ep; try contradiction; destruct RL as [C EW]; try subst w0.
  - destruct (released_run UW c0 s u g w H AL0 RL0) as [Q|Q].
    + apply IH. rewrite run_eq; auto.
    + exfalso. unfold c_run in Q. rewrite Ep in Q. destruct (w_wait (c_w s w)); [destruct (a_k a); [|destruct g..]|]; simpl in Q; rewrite ?Ep, ?upd_eq in Q; auto.
  - destruct (released_run UW c0 s u g w H AL0 RL0) as [Q|Q].
    + apply IH. rewrite run_eq; auto.
    + exfalso. unfold c_run in Q. rewrite Ep in Q. simpl in Q. destruct (can_lock s _ u); [|destruct (a_k a); [|destruct g|]]; simpl in Q; rewrite ?Ep, ?upd_eq in Q; auto.
  - destruct (tail_path UW u U0 ok s (XRun u g :: ls) s2) with (a := a) (w := w) (r := r) as [E _]; auto; [constructor; auto|].
    rewrite E. f_equal. destruct (T u AL0) as [_ Q]. rewrite Ep in Q. auto.
  - destruct (tail_path UW u U0 ok s (XRun u g :: ls) s2) with (a := a) (w := w) (r := r) as [E _]; auto; [constructor; auto|].
    rewrite E. f_equal. destruct (T u AL0) as [_ Q]. rewrite Ep in Q. auto.
Qed.
End NoTimeouts.

(** ** Conservation of waiter entries *)
Section Conserve.
Variable UW : list Z.
Definition CV (s : cstate) : Prop := (forall t, c_alive s t = true) /\
  forall w, In w UW -> In w (c_pool s) \/ (exists c, In w (c_wl s c)) \/ exists t, hand (c_pc s t) = Some w.

Lemma CV_step : forall s x, CI UW s -> CV s -> no_deaths s x -> CV (c_step s x).
Proof.
  intros s x H [AL CV0] ND. split; [intro t; rewrite step_nodeath; auto|]. intros v I.
  assert (KEEP : forall s', c_pool s' = c_pool s -> c_wl s' = c_wl s -> (forall t, hand (c_pc s' t) = hand (c_pc s t)) ->
     In v (c_pool s') \/ (exists c, In v (c_wl s' c)) \/ exists t, hand (c_pc s' t) = Some v).
  { intros s' E1 E2 E3. rewrite E1, E2. destruct (CV0 v I) as [Q|[Q|[t Q]]]; auto. right. right. exists t. rewrite E3. auto. }
  assert (HU : forall (s' : cstate) t p, hand p = hand (c_pc s t) -> forall u, hand (upd (c_pc s) t p u) = hand (c_pc s u)).
  { intros s' t p E u. destruct (upd_cases _ (c_pc s) t p u) as [[-> ->]|[N ->]]; auto. }
  destruct x as [t cc|t g|t|m]; simpl; try contradiction.
  - destruct (c_alive s t && negb (t =? 0)); auto. destruct (c_pc s t) eqn:Ep; auto. unfold c_call.
    destruct cc; try destruct (c_mk s m); apply KEEP; simpl; auto; apply HU; auto; rewrite Ep; auto.
  - destruct (c_alive s t && negb (t =? 0)); auto. unfold c_run.
    assert (TK : forall p, hand p = hand (c_pc s t) -> In v (c_pool (take_guard s t p)) \/ (exists c, In v (c_wl (take_guard s t p) c)) \/ exists u, hand (c_pc (take_guard s t p) u) = Some v).
    { intros p E. destruct (take_cases s t p) as [->|[-> _]]; apply KEEP; simpl; auto. }
    pcases s t Ep; auto.
    all: try (apply TK; rewrite ?Ep; auto; fail).
    + destruct (can_lock s m t); [|destruct k; auto; [destruct g; auto|]]; apply KEEP; simpl; auto; apply HU; auto; rewrite Ep; auto.
    + unfold unlock_mutex. destruct (_ =? t); apply KEEP; simpl; auto; apply HU; auto; rewrite Ep; auto.
    + destruct (mem _ _); [|destruct (c_cfree s)]; apply KEEP; simpl; auto; apply HU; auto; rewrite Ep; auto.
    + destruct (c_pool s) as [|w rest] eqn:EP; [apply KEEP; simpl; auto; apply HU; auto; rewrite Ep; auto|]. simpl.
      destruct (CV0 v I) as [[->|Q]|[Q|[u Q]]]; auto.
      * right. right. exists t. rewrite upd_eq. auto.
      * right. right. exists u. destruct (upd_cases _ (c_pc s) t (WI a w) u) as [[-> ->]|[N ->]]; auto. rewrite Ep in Q. discriminate.
    + simpl. destruct (CV0 v I) as [Q|[[c Q]|[u Q]]]; auto.
      * right. left. exists c. destruct (upd_cases _ (c_wl s) (a_c a) (w :: c_wl s (a_c a)) c) as [[-> ->]|[N ->]]; auto. right; auto.
      * destruct (Z.eq_dec u t) as [->|N]; [rewrite Ep in Q; inversion Q; subst; right; left; exists (a_c a); rewrite upd_eq; left; auto|].
        right. right. exists u. rewrite upd_neq; auto.
    + apply KEEP; simpl; auto; apply HU; auto; rewrite Ep; auto.
    + apply KEEP; simpl; auto; apply HU; auto; rewrite Ep; auto.
    + unfold unlock_mutex. destruct (_ =? OK); destruct (_ =? t); apply KEEP; simpl; auto; apply HU; auto; rewrite Ep; auto.
    + apply KEEP; simpl; auto; apply HU; auto; rewrite Ep; auto.
    + destruct (w_wait _); [destruct (a_k a); auto; destruct g; auto|]; apply KEEP; simpl; auto; apply HU; auto; rewrite Ep; auto.
    + destruct (can_lock s _ t); [|destruct (a_k a); auto; [destruct g; auto|]]; apply KEEP; simpl; auto; apply HU; auto; rewrite Ep; auto.
    + destruct (mem _ _); [|apply KEEP; simpl; auto; apply HU; auto; rewrite Ep; auto]. simpl. destruct (Z.eq_dec v w) as [->|NW].
      * right. right. exists t. rewrite upd_eq. auto.
      * destruct (CV0 v I) as [Q|[[c Q]|[u Q]]]; auto.
        -- right. left. exists c. destruct (upd_cases _ (c_wl s) (a_c a) (cutoff w (c_wl s (a_c a))) c) as [[-> ->]|[N ->]]; auto. apply cutoff_in. auto.
        -- right. right. exists u. destruct (upd_cases _ (c_pc s) t (WP a w r) u) as [[-> ->]|[N ->]]; auto. rewrite Ep in Q. discriminate.
    + simpl. destruct (Z.eq_dec v w) as [->|NW]; auto. destruct (CV0 v I) as [Q|[Q|[u Q]]]; auto.
      right. right. exists u. destruct (upd_cases _ (c_pc s) t (CX r) u) as [[-> ->]|[N ->]]; auto. rewrite Ep in Q. simpl in Q. congruence.
    + apply KEEP; simpl; auto; apply HU; auto; rewrite Ep; auto.
    + destruct (mem _ _); [destruct b|]; apply KEEP; simpl; auto; apply HU; auto; rewrite Ep; auto.
    + destruct ws; [destruct last|]; apply KEEP; simpl; auto; apply HU; auto; rewrite Ep; auto.
    + apply KEEP; simpl; auto; apply HU; auto; rewrite Ep; auto.
    + destruct ws; [|destruct (w_wait _)]; apply KEEP; simpl; auto; apply HU; auto; rewrite Ep; auto.
    + apply KEEP; simpl; auto; apply HU; auto; rewrite Ep; auto.
    + destruct cs; [apply KEEP; simpl; auto; apply HU; auto; rewrite Ep; auto|].
      destruct ws as [[|w ws]|]; try (apply KEEP; simpl; auto; apply HU; auto; rewrite Ep; auto; fail).
      rewrite AL. change (negb true && mem w (c_wl s z)) with false. cbv iota. apply KEEP; simpl; auto; apply HU; auto; rewrite Ep; auto.
  - destruct (c_alive s (c_m s m)); auto.
Qed.
Lemma CV_reach : forall n (ok : cstate -> clabel -> Prop) s, NoDup UW -> (forall s x, ok s x -> no_deaths s x) -> c_reach (c_init UW n) ok s -> CV s.
Proof.
  intros n ok s N W R. induction R; [split; simpl; auto|]. apply CV_step; eauto. eapply CI_reach; eauto.
Qed.
Lemma idle_no_entry : forall s t c w, CI UW s -> c_alive s t = true -> idle s t -> In w (c_wl s c) -> w_tid (c_w s w) <> t.
Proof. intros s t c w H AL ID I E. destruct (ci_own _ _ H c w I) as (a & R & _); [rewrite E; auto|]. rewrite E, ID in R. discriminate. Qed.
Lemma all_idle : forall s, NoDup UW -> CI UW s -> CV s -> (forall t, idle s t) -> Permutation (c_pool s) UW /\ forall c, c_wl s c = [].
Proof.
  intros s ND H [AL C] ID.
  assert (E : forall c, c_wl s c = []).
  { intro c. destruct (c_wl s c) as [|w l] eqn:E; auto. exfalso. apply (idle_no_entry s (w_tid (c_w s w)) c w); auto. rewrite E; left; auto. }
  split; auto. apply NoDup_Permutation; auto; [apply (ci_pool _ _ H)|]. intro w. split; [apply (ci_pool _ _ H)|]. intro I.
  destruct (C w I) as [Q|[[c Q]|[t Q]]]; auto; [rewrite E in Q; contradiction|]. rewrite ID in Q. discriminate.
Qed.
(** each entry is at one place only *)
Lemma one_place : forall s t t' a a' w w', CI UW s -> c_alive s t = true -> c_alive s t' = true ->
  reg (c_pc s t) = Some (a, w) -> reg (c_pc s t') = Some (a', w') -> t <> t' -> w <> w'.
Proof. intros s t t' a a' w w' H A1 A2 R1 R2 N ->. destruct (ci_reg _ _ H t a w' A1 R1) as (_ & T1 & _). destruct (ci_reg _ _ H t' a' w' A2 R2) as (_ & T2 & _). congruence. Qed.
End Conserve.
