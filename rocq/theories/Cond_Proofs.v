(** Condition variables: the main invariant. *)
From Coq Require Import ZArith List Bool Lia Sorted.
From Verif Require Import Base Cond_Model Cond_Spec.
Import ListNotations.
Open Scope Z_scope.

Lemma mem_in : forall x l, mem x l = true <-> In x l.
Proof.
  intros x l. unfold mem. rewrite existsb_exists. split.
  - intros (y & I & E). apply Z.eqb_eq in E. subst; auto.
  - intro I. exists x. split; auto. apply Z.eqb_refl.
Qed.
Lemma mem_out : forall x l, mem x l = false <-> ~ In x l.
Proof. intros x l. rewrite <- mem_in. destruct (mem x l); split; congruence. Qed.
Lemma cutoff_in : forall w l x, In x (cutoff w l) <-> In x l /\ x <> w.
Proof.
  intros w l x. unfold cutoff. rewrite filter_In. split; intros [A B]; split; auto.
  - intro; subst. rewrite Z.eqb_refl in B. discriminate.
  - apply negb_true_iff. apply Z.eqb_neq. auto.
Qed.
Lemma cutoff_nd : forall w l, NoDup l -> NoDup (cutoff w l).
Proof. intros. apply NoDup_filter. auto. Qed.
Lemma cutoff_sorted : forall (R : Z -> Z -> Prop) w l, StronglySorted R l -> StronglySorted R (cutoff w l).
Proof.
  intros R w l H. induction H as [|a l S IH F]; simpl; [constructor|]. destruct (negb (a =? w)); auto.
  constructor; auto. rewrite Forall_forall in *. intros x I. apply cutoff_in in I. apply F; tauto.
Qed.

(** entry registered by a wait call, entry in the hands of a thread, guard held *)
Definition reg (p : cpc) : option (wargs * Z) :=
  match p with
  | WD a w | WS a w | WU a w | WB a w _ | WW a w | WL a w _ | WJ a w _ | WC a w _ => Some (a, w)
  | _ => None
  end.
Definition hand (p : cpc) : option Z := match p with WI _ w | WP _ w _ => Some w | _ => None end.
Definition named (p : cpc) : option Z := match p with WR a | WI a _ => Some (a_c a) | _ => None end.
Definition crit (p : cpc) : bool :=
  match p with
  | WN _ | WR _ | WI _ _ | WD _ _ | WC _ _ _ | WP _ _ _ | CX _ | SF _ _ | SS _ _ _ | SW _ _ | SB _ _ | SU _ _ _ | RP _ _ => true
  | _ => false
  end.

Section Inv.
Variable UW : list Z.

Record CI (s : cstate) : Prop := {
  ci_pool : NoDup (c_pool s) /\ incl (c_pool s) UW;
  ci_wl : forall c, NoDup (c_wl s c) /\ incl (c_wl s c) UW;
  ci_disj : forall c w, In w (c_wl s c) -> ~ In w (c_pool s);
  ci_disj2 : forall c c' w, In w (c_wl s c) -> In w (c_wl s c') -> c = c';
  ci_hand : forall t w, c_alive s t = true -> hand (c_pc s t) = Some w -> In w UW /\ ~ In w (c_pool s) /\ forall c, ~ In w (c_wl s c);
  ci_guard : forall t, c_alive s t = true -> crit (c_pc s t) = true -> c_guard s = Some t;
  ci_reg : forall t a w, c_alive s t = true -> reg (c_pc s t) = Some (a, w) ->
             In w (c_wl s (a_c a)) /\ w_tid (c_w s w) = t /\ w_mtx (c_w s w) = a_m a;
  ci_own : forall c w, In w (c_wl s c) -> c_alive s (w_tid (c_w s w)) = true ->
             exists a, reg (c_pc s (w_tid (c_w s w))) = Some (a, w) /\ a_c a = c;
  ci_sort : forall c, StronglySorted (fun x y => c_seq s y < c_seq s x) (c_wl s c);
  ci_now : forall c w, In w (c_wl s c) -> c_seq s w < c_now s;
  ci_cond : forall c w, In w (c_wl s c) -> In c (c_conds s);
  ci_name : forall t c, named (c_pc s t) = Some c -> In c (c_conds s)
}.

Lemma CI_init : forall n, NoDup UW -> CI (c_init UW n).
Proof.
  intros n H. constructor; simpl; intros; try contradiction; try discriminate; auto.
  - split; auto. intros x; auto.
  - split; [constructor|]. intros x [].
  - constructor.
Qed.

(** steps that change neither lists nor entries *)
Lemma CI_same : forall s s' t, CI s ->
  c_wl s' = c_wl s -> c_pool s' = c_pool s -> c_seq s' = c_seq s -> c_now s' = c_now s -> incl (c_conds s) (c_conds s') ->
  c_alive s' = c_alive s ->
  (forall w, w_tid (c_w s' w) = w_tid (c_w s w) /\ w_mtx (c_w s' w) = w_mtx (c_w s w)) ->
  (forall u, u <> t -> c_pc s' u = c_pc s u) ->
  reg (c_pc s' t) = reg (c_pc s t) -> hand (c_pc s' t) = hand (c_pc s t) ->
  (forall u, u <> t -> c_alive s u = true -> crit (c_pc s u) = true -> c_guard s' = Some u) ->
  (c_alive s t = true -> crit (c_pc s' t) = true -> c_guard s' = Some t) ->
  (forall c, named (c_pc s' t) = Some c -> In c (c_conds s')) -> CI s'.
Proof.
  intros s s' t H E1 E2 E3 E4 E5 E6 E7 E8 E9 E10 G1 G2 NM. destruct H as [A1 A2 A3 A4 A5 A6 A7 A8 A9 A10 A11 A12].
  assert (RG : forall u, reg (c_pc s' u) = reg (c_pc s u)) by (intro u; destruct (Z.eq_dec u t) as [->|N]; auto; rewrite E8; auto).
  assert (HD : forall u, hand (c_pc s' u) = hand (c_pc s u)) by (intro u; destruct (Z.eq_dec u t) as [->|N]; auto; rewrite E8; auto).
  constructor; rewrite ?E1, ?E2, ?E3, ?E4, ?E6; auto.
  - intros u w AL. rewrite HD. apply A5. auto.
  - intros u AL C. destruct (Z.eq_dec u t) as [->|N]; auto. apply G1; auto. rewrite <- (E8 u N); auto.
  - intros u a w AL R. rewrite RG in R. destruct (E7 w) as [-> ->]. auto.
  - intros c w I AL. destruct (E7 w) as [Q _]. rewrite Q in *. rewrite RG. auto.
  - intros c w I. apply E5. eauto.
  - intros u c Q. destruct (Z.eq_dec u t) as [->|N]; auto. rewrite E8 in Q by auto. apply E5. eauto.
Qed.

Lemma take_cases : forall s t p, take_guard s t p = s \/
  (take_guard s t p = goto (set_guard s (Some t)) t p /\ (c_guard s = None \/ exists u, c_guard s = Some u /\ c_alive s u = false)).
Proof.
  intros s t p. unfold take_guard. destruct (c_guard s) as [u|]; [destruct (c_alive s u) eqn:E|]; auto. right. split; auto. right. exists u. auto.
Qed.

Ltac pcs Ep := simpl; rewrite ?upd_eq; rewrite ?Ep; simpl; auto; try discriminate.
(** step of [t] without list changes; [p] is the old program point *)
Ltac same_step s t Ep :=
  apply (CI_same s _ t); simpl; auto; [try (intros x ?; simpl; auto; fail)|..]; rewrite ?upd_eq, ?Ep; simpl; auto;
  try (intros; apply upd_neq; auto; fail); try discriminate.

Lemma set_wait_same : forall (s : cstate) w b x,
  w_tid (upd (c_w s) w (w_set_wait (c_w s w) b) x) = w_tid (c_w s x) /\ w_mtx (upd (c_w s) w (w_set_wait (c_w s w) b) x) = w_mtx (c_w s x).
Proof. intros s w b x. destruct (upd_cases _ (c_w s) w (w_set_wait (c_w s w) b) x) as [[-> ->]|[N ->]]; auto. Qed.

Lemma CI_goto : forall s t p, CI s -> reg p = reg (c_pc s t) -> hand p = hand (c_pc s t) ->
  (c_alive s t = true -> crit p = true -> c_guard s = Some t) -> (forall c, named p = Some c -> In c (c_conds s)) -> CI (goto s t p).
Proof.
  intros s t p H R HD C NM. apply (CI_same s _ t); simpl; auto; rewrite ?upd_eq; auto; try (intros; apply upd_neq; auto; fail); [intros x I; auto|].
  intros u N AL CR. eapply ci_guard; eauto.
Qed.
Lemma CI_ret : forall s t r, CI s -> reg (c_pc s t) = None -> hand (c_pc s t) = None -> CI (ret s t r).
Proof.
  intros s t r H R HD. apply (CI_same s _ t); simpl; auto; rewrite ?upd_eq; auto; try (intros; apply upd_neq; auto; fail); [intros x I; auto| | discriminate | discriminate].
  intros u N AL CR. eapply ci_guard; eauto.
Qed.
Lemma CI_take : forall s t p, CI s -> reg p = reg (c_pc s t) -> hand p = hand (c_pc s t) -> named p = None -> CI (take_guard s t p).
Proof.
  intros s t p H R HD NM. destruct (take_cases s t p) as [->|[-> G]]; auto.
  apply (CI_same s _ t); simpl; auto; rewrite ?upd_eq; auto; try (intros; apply upd_neq; auto; fail); [intros x I; auto| |intros; congruence].
  intros u N AL CR. pose proof (ci_guard s H u AL CR) as Q. destruct G as [G|(v & G & D)]; [congruence|].
  assert (v = u) by congruence. subst. congruence.
Qed.
Lemma CI_drop : forall s t p, CI s -> c_alive s t = true -> crit (c_pc s t) = true -> reg p = reg (c_pc s t) -> hand p = hand (c_pc s t) ->
  crit p = false -> named p = None -> CI (goto (set_guard s None) t p).
Proof.
  intros s t p H AL CR R HD C NM. apply (CI_same s _ t); simpl; auto; rewrite ?upd_eq; auto; try (intros; apply upd_neq; auto; fail); [intros x I; auto| | congruence | congruence].
  intros u N ALu CRu. pose proof (ci_guard s H u ALu CRu) as Q. pose proof (ci_guard s H t AL CR). congruence.
Qed.
Lemma CI_mutex : forall s m v, CI s -> CI (set_m s m v).
Proof. intros s m v []. constructor; simpl; auto. Qed.
Lemma CI_wait : forall s w b, CI s -> CI (set_w s w (w_set_wait (c_w s w) b)).
Proof.
  intros s w b H. apply (CI_same s _ 0); simpl; auto; [intros x I; auto | apply set_wait_same | | |].
  3: intros c Q; eapply ci_name; eauto.
  - intros u _ AL CR. eapply ci_guard; eauto.
  - intros AL CR. eapply ci_guard; eauto.
Qed.

Lemma CI_run : forall s t g, CI s -> c_alive s t = true -> CI (c_run s t g).
Proof.
  intros s t g H AL. unfold c_run. pose proof (ci_guard s H t AL) as GT. destruct (c_pc s t) as
    [|m k|m|a|a|a|a w|a w|a w|a w|a w r|a w|a w r|a w r|a w r|a w r|r|c b|c b|c ws last|c w|c ws|c w ws| |cs ws] eqn:Ep; auto.
  - (* ML *) destruct (can_lock s m t).
    + apply CI_ret; [apply CI_mutex; auto| |]; simpl; rewrite Ep; auto.
    + destruct k; auto; [destruct g; auto|]; apply CI_ret; auto; rewrite Ep; auto.
  - (* MU *) unfold unlock_mutex. destruct (c_m s m =? t); apply CI_ret; auto; try (apply CI_mutex; auto); simpl; rewrite Ep; auto.
  - (* WG *) apply CI_take; auto; rewrite ?Ep; auto.
  - (* WN *) destruct (mem (a_c a) (c_conds s)) eqn:EM.
    + apply CI_goto; auto; rewrite ?Ep; auto. intros c E. inversion E; subst. apply mem_in; auto.
    + destruct (c_cfree s) as [|n]; [apply CI_goto; auto; rewrite ?Ep; auto; discriminate|].
      apply (CI_same s _ t); simpl; auto; rewrite ?upd_eq, ?Ep; auto; try (intros; apply upd_neq; auto; fail).
      * intros x I. right; auto.
      * intros u N ALu C. eapply ci_guard; eauto.
      * intros c E. inversion E; subst. left; auto.
  - (* WR *) destruct (c_pool s) as [|w rest] eqn:EP; [apply CI_goto; auto; rewrite ?Ep; auto; discriminate|].
    destruct H as [A1 A2 A3 A4 A5 A6 A7 A8 A9 A10 A11 A12]. rewrite EP in A1. destruct A1 as [P1 P2]. inversion P1; subst.
    constructor; simpl; auto.
    + split; auto. intros x I. apply P2. right; auto.
    + intros c x I J. apply (A3 c x I). rewrite EP. right; auto.
    + intros u x ALu. destruct (upd_cases _ (c_pc s) t (WI a w) u) as [[-> ->]|[N ->]]; simpl.
      * intro E. inversion E; subst x. split; [apply P2; left; auto|]. split; auto. intros c I. apply (A3 c w I). rewrite EP. left; auto.
      * intro E. destruct (A5 u x ALu E) as (X1 & X2 & X3). split; auto. split; auto. intro I. apply X2. rewrite EP. right; auto.
    + intros u ALu. destruct (upd_cases _ (c_pc s) t (WI a w) u) as [[-> ->]|[N ->]]; auto.
    + intros u b x ALu. destruct (upd_cases _ (c_pc s) t (WI a w) u) as [[-> ->]|[N ->]]; auto. simpl. discriminate.
    + intros c x I ALx. destruct (A8 c x I ALx) as (b & Q & R). exists b. split; auto.
      destruct (upd_cases _ (c_pc s) t (WI a w) (w_tid (c_w s x))) as [[E ->]|[N ->]]; auto. rewrite E, Ep in Q. discriminate.
    + intros u c. destruct (upd_cases _ (c_pc s) t (WI a w) u) as [[-> ->]|[N ->]]; eauto. simpl. intro E. apply (A12 t). rewrite Ep; auto.
  - (* WI *)
    destruct H as [A1 A2 A3 A4 A5 A6 A7 A8 A9 A10 A11 A12].
    assert (HW : In w UW /\ ~ In w (c_pool s) /\ forall c, ~ In w (c_wl s c)) by (apply (A5 t); auto; rewrite Ep; auto).
    destruct HW as (W1 & W2 & W3).
    assert (WLS : forall c x, In x (upd (c_wl s) (a_c a) (w :: c_wl s (a_c a)) c) -> (x = w /\ c = a_c a) \/ (x <> w /\ In x (c_wl s c))).
    { intros c x. destruct (upd_cases _ (c_wl s) (a_c a) (w :: c_wl s (a_c a)) c) as [[-> ->]|[N ->]].
      - intros [->|I]; auto. right. split; auto. intro; subst. eapply W3; eauto.
      - intro I. right. split; auto. intro; subst. eapply W3; eauto. }
    constructor; simpl; auto.
    + intro c. destruct (upd_cases _ (c_wl s) (a_c a) (w :: c_wl s (a_c a)) c) as [[-> ->]|[N ->]]; auto.
      destruct (A2 (a_c a)) as [X Y]. split; [constructor; auto|]. intros x [<-|I]; auto.
    + intros c x I. destruct (WLS c x I) as [[-> _]|[_ J]]; eauto.
    + intros c c' x I J. destruct (WLS c x I) as [[E1 E2]|[N1 I']]; destruct (WLS c' x J) as [[E3 E4]|[N2 J']]; try congruence. eauto.
    + intros u x ALu. destruct (upd_cases _ (c_pc s) t (WD a w) u) as [[-> ->]|[N ->]]; simpl; [discriminate|].
      intro E. exfalso. assert (crit (c_pc s u) = true) by (destruct (c_pc s u); simpl in *; auto; discriminate).
      pose proof (A6 u ALu H). assert (crit (c_pc s t) = true) by (rewrite Ep; auto). pose proof (A6 t AL H1). congruence.
    + intros u ALu. destruct (upd_cases _ (c_pc s) t (WD a w) u) as [[-> ->]|[N ->]]; auto.
    + intros u b x ALu. destruct (upd_cases _ (c_pc s) t (WD a w) u) as [[-> ->]|[N ->]]; simpl.
      * intro E. inversion E; subst. rewrite !upd_eq. simpl. auto.
      * intro E. destruct (A7 u b x ALu E) as (X & Y & Z). assert (x <> w) by (intro; subst x; eapply W3; eauto).
        rewrite (upd_neq _ (c_w s)) by auto. split; auto.
        destruct (upd_cases _ (c_wl s) (a_c a) (w :: c_wl s (a_c a)) (a_c b)) as [[E1 ->]|[N1 ->]]; auto. rewrite E1 in X. right; auto.
    + intros c x I. destruct (WLS c x I) as [[-> ->]|[N J]].
      * rewrite upd_eq. simpl. intros _. exists a. rewrite upd_eq. auto.
      * rewrite (upd_neq _ (c_w s)) by auto. intro ALx. destruct (A8 c x J ALx) as (b & Q & R). exists b. split; auto.
        destruct (upd_cases _ (c_pc s) t (WD a w) (w_tid (c_w s x))) as [[E ->]|[N1 ->]]; auto. rewrite E, Ep in Q. discriminate.
    + intro c. assert (SS : StronglySorted (fun x y => upd (c_seq s) w (c_now s) y < upd (c_seq s) w (c_now s) x) (c_wl s c)).
      { assert (NI : forall x, In x (c_wl s c) -> x <> w) by (intros x I E; subst; eapply W3; eauto).
        pose proof (A9 c) as S. revert S NI. generalize (c_wl s c). induction l as [|x l IH]; intros S NI; [constructor|].
        inversion S; subst. constructor; [apply IH; auto; intros; apply NI; right; auto|]. rewrite Forall_forall in *. intros y I.
        rewrite !upd_neq by (apply NI; simpl; auto). auto. }
      destruct (upd_cases _ (c_wl s) (a_c a) (w :: c_wl s (a_c a)) c) as [[-> ->]|[N ->]]; auto.
      constructor; auto. rewrite Forall_forall. intros x I. rewrite upd_eq. rewrite upd_neq by (intro; subst; eapply W3; eauto). eauto.
    + intros c x I. destruct (WLS c x I) as [[-> ->]|[N J]].
      * rewrite upd_eq. lia.
      * rewrite upd_neq by auto. pose proof (A10 c x J). lia.
    + intros c x I. destruct (WLS c x I) as [[-> ->]|[N J]]; eauto. apply (A12 t). rewrite Ep; auto.
    + intros u c. destruct (upd_cases _ (c_pc s) t (WD a w) u) as [[-> ->]|[N ->]]; eauto. discriminate.
  - (* WD *) apply CI_drop; auto; rewrite ?Ep; auto.
  - (* WS *) apply CI_goto; [apply CI_wait; auto|..]; simpl; rewrite ?Ep; simpl; auto; discriminate.
  - (* WU *) unfold unlock_mutex.
    assert (Q : forall sx, CI sx -> c_pc sx = c_pc s -> c_guard sx = c_guard s ->
      CI (goto sx t (if unlock_result s (w_mtx (c_w s w)) t =? OK then WW a w else WB a w (unlock_result s (w_mtx (c_w s w)) t)))).
    { intros sx HX E1 E2. destruct (_ =? OK); apply CI_goto; auto; rewrite ?E1, ?Ep; simpl; auto; discriminate. }
    destruct (c_m s (w_mtx (c_w s w)) =? t); apply Q; auto. apply CI_mutex; auto.
  - (* WB *) apply CI_goto; [apply CI_wait; auto|..]; simpl; rewrite ?Ep; simpl; auto; discriminate.
  - (* WW *) destruct (w_wait (c_w s w)).
    + destruct (a_k a); auto; destruct g; auto; apply CI_goto; auto; rewrite ?Ep; simpl; auto; discriminate.
    + apply CI_goto; auto; rewrite ?Ep; simpl; auto; discriminate.
  - (* WL *) destruct (can_lock s (w_mtx (c_w s w)) t).
    + apply CI_goto; [apply CI_mutex; auto|..]; simpl; rewrite ?Ep; simpl; auto; discriminate.
    + destruct (a_k a); auto; [destruct g; auto|]; apply CI_goto; auto; rewrite ?Ep; simpl; auto; discriminate.
  - (* WJ *) apply CI_take; auto; rewrite ?Ep; auto.
  - (* WC *) destruct H as [A1 A2 A3 A4 A5 A6 A7 A8 A9 A10 A11 A12].
    destruct (A7 t a w AL) as (W1 & W2 & W3); [rewrite Ep; auto|]. apply mem_in in W1. rewrite W1. apply mem_in in W1.
    assert (WLS : forall c x, In x (upd (c_wl s) (a_c a) (cutoff w (c_wl s (a_c a))) c) <-> In x (c_wl s c) /\ x <> w).
    { intros c x. destruct (upd_cases _ (c_wl s) (a_c a) (cutoff w (c_wl s (a_c a))) c) as [[-> ->]|[N ->]]; [apply cutoff_in|].
      split; [|tauto]. intro I. split; auto. intro; subst. apply N. eauto. }
    constructor; simpl; auto.
    + intro c. destruct (upd_cases _ (c_wl s) (a_c a) (cutoff w (c_wl s (a_c a))) c) as [[-> ->]|[N ->]]; auto.
      split; [apply cutoff_nd; apply A2|]. intros x I. apply cutoff_in in I. apply (A2 (a_c a)). tauto.
    + intros c x I. apply WLS in I. apply (A3 c x). tauto.
    + intros c c' x I J. apply WLS in I, J. apply (A4 c c' x); tauto.
    + intros u x ALu. destruct (upd_cases _ (c_pc s) t (WP a w r) u) as [[-> ->]|[N ->]]; simpl.
      * intro E. inversion E; subst x. split; [apply (A2 (a_c a)); auto|]. split; eauto. intros c I. apply WLS in I. tauto.
      * intro E. destruct (A5 u x ALu E) as (X & Y & Z). split; auto. split; auto. intros c I. apply WLS in I. apply (Z c). tauto.
    + intros u ALu. destruct (upd_cases _ (c_pc s) t (WP a w r) u) as [[-> ->]|[N ->]]; auto.
    + intros u b x ALu. destruct (upd_cases _ (c_pc s) t (WP a w r) u) as [[-> ->]|[N ->]]; simpl; [discriminate|].
      intro E. destruct (A7 u b x ALu E) as (X & Y & Z). split; auto. apply WLS. split; auto. intro; subst. congruence.
    + intros c x I ALx. apply WLS in I as [I N]. destruct (A8 c x I ALx) as (b & Q & R). exists b. split; auto.
      destruct (upd_cases _ (c_pc s) t (WP a w r) (w_tid (c_w s x))) as [[E ->]|[N1 ->]]; auto. rewrite E, Ep in Q. simpl in Q. congruence.
    + intro c. destruct (upd_cases _ (c_wl s) (a_c a) (cutoff w (c_wl s (a_c a))) c) as [[-> ->]|[N ->]]; auto. apply cutoff_sorted; auto.
    + intros c x I. apply WLS in I. apply (A10 c x). tauto.
    + intros c x I. apply WLS in I. apply (A11 c x). tauto.
    + intros u c. destruct (upd_cases _ (c_pc s) t (WP a w r) u) as [[-> ->]|[N ->]]; eauto. discriminate.
  - (* WP *) destruct H as [A1 A2 A3 A4 A5 A6 A7 A8 A9 A10 A11 A12].
    destruct (A5 t w AL) as (W1 & W2 & W3); [rewrite Ep; auto|]. constructor; simpl; auto.
    + destruct A1 as [P1 P2]. split; [constructor; auto|]. intros x [<-|I]; auto.
    + intros c x I [<-|J]; [eapply W3; eauto|eapply A3; eauto].
    + intros u x ALu. destruct (upd_cases _ (c_pc s) t (CX r) u) as [[-> ->]|[N ->]]; simpl; [discriminate|]. intro E. exfalso.
      assert (C : crit (c_pc s u) = true) by (destruct (c_pc s u); simpl in *; auto; discriminate).
      pose proof (A6 u ALu C). assert (C1 : crit (c_pc s t) = true) by (rewrite Ep; auto). pose proof (A6 t AL C1). congruence.
    + intros u ALu. destruct (upd_cases _ (c_pc s) t (CX r) u) as [[-> ->]|[N ->]]; auto.
    + intros u b x ALu. destruct (upd_cases _ (c_pc s) t (CX r) u) as [[-> ->]|[N ->]]; simpl; [discriminate|]. auto.
    + intros c x I ALx. destruct (A8 c x I ALx) as (b & Q & R). exists b. split; auto.
      destruct (upd_cases _ (c_pc s) t (CX r) (w_tid (c_w s x))) as [[E ->]|[N1 ->]]; auto. rewrite E, Ep in Q. discriminate.
    + intros u c. destruct (upd_cases _ (c_pc s) t (CX r) u) as [[-> ->]|[N ->]]; eauto. discriminate.
  - (* CX *) apply (CI_same s _ t); simpl; auto; rewrite ?upd_eq, ?Ep; simpl; auto; try (intros; apply upd_neq; auto; fail); try discriminate.
    + intros x I; auto.
    + intros u N ALu C. pose proof (ci_guard s H u ALu C). assert (c_guard s = Some t) by auto. congruence.
  - (* SG *) apply CI_take; auto; rewrite ?Ep; auto.
  - (* SF *) destruct (mem c (c_conds s)); [destruct b|]; apply CI_goto; auto; rewrite ?Ep; simpl; auto; discriminate.
  - (* SS *) destruct ws; [destruct last|]; apply CI_goto; auto; rewrite ?Ep; simpl; auto; discriminate.
  - (* SW *) apply CI_goto; [apply CI_wait; auto|..]; simpl; rewrite ?Ep; simpl; auto; discriminate.
  - (* SB *) destruct ws as [|w ws]; [|destruct (w_wait (c_w s w))]; apply CI_goto; auto; rewrite ?Ep; simpl; auto; discriminate.
  - (* SU *) apply CI_goto; [apply CI_wait; auto|..]; simpl; rewrite ?Ep; simpl; auto; discriminate.
  - (* RG *) apply CI_take; auto; rewrite ?Ep; auto.
  - (* RP *) destruct cs as [|c cs]; [apply CI_goto; auto; rewrite ?Ep; simpl; auto; discriminate|].
    destruct ws as [[|w ws]|]; try (apply CI_goto; auto; rewrite ?Ep; simpl; auto; discriminate).
    destruct (negb (c_alive s (w_tid (c_w s w))) && mem w (c_wl s c)) eqn:ED; [|apply CI_goto; auto; rewrite ?Ep; simpl; auto; discriminate].
    apply andb_true_iff in ED as [ED W1]. apply negb_true_iff in ED. apply mem_in in W1.
    assert (CT : crit (c_pc s t) = true) by (rewrite Ep; auto). apply CI_goto; simpl; rewrite ?Ep; simpl; auto; [|discriminate].
    destruct H as [A1 A2 A3 A4 A5 A6 A7 A8 A9 A10 A11 A12].
    assert (WLS : forall c' x, In x (upd (c_wl s) c (cutoff w (c_wl s c)) c') <-> In x (c_wl s c') /\ x <> w).
    { intros c' x. destruct (upd_cases _ (c_wl s) c (cutoff w (c_wl s c)) c') as [[-> ->]|[N ->]]; [apply cutoff_in|].
      split; [|tauto]. intro I. split; auto. intro; subst. apply N. eauto. }
    constructor; simpl; auto.
    + destruct A1 as [P1 P2]. split; [constructor; auto; eapply A3; eauto|]. intros x [<-|I]; auto. apply (A2 c); auto.
    + intro c'. destruct (upd_cases _ (c_wl s) c (cutoff w (c_wl s c)) c') as [[-> ->]|[N ->]]; auto.
      split; [apply cutoff_nd; apply A2|]. intros x I. apply cutoff_in in I. apply (A2 c). tauto.
    + intros c' x I [<-|J]; apply WLS in I; [tauto|]. apply (A3 c' x); tauto.
    + intros c1 c2 x I J. apply WLS in I, J. apply (A4 c1 c2 x); tauto.
    + intros u x ALu E. destruct (A5 u x ALu E) as (X & Y & Z). split; auto. split.
      * intros [<-|J]; auto. eapply Z; eauto.
      * intros c' I. apply WLS in I. apply (Z c'); tauto.
    + intros u b x ALu E. destruct (A7 u b x ALu E) as (X & Y & Z). split; auto. apply WLS. split; auto. intro; subst. congruence.
    + intros c' x I ALx. apply WLS in I as [I N]. auto.
    + intro c'. destruct (upd_cases _ (c_wl s) c (cutoff w (c_wl s c)) c') as [[-> ->]|[N ->]]; auto. apply cutoff_sorted; auto.
    + intros c' x I. apply WLS in I. apply (A10 c' x). tauto.
    + intros c' x I. apply WLS in I. apply (A11 c' x). tauto.
Qed.

Lemma CI_step : forall s x, CI s -> CI (c_step s x).
Proof.
  intros s x H. destruct x as [t c|t g|t|m]; simpl.
  - destruct (c_alive s t && negb (t =? 0)); auto. destruct (c_pc s t) eqn:Ep; auto. unfold c_call.
    destruct c as [m k|m|c m k|c|c|].
    + apply CI_goto; [destruct H; constructor; simpl; auto|..]; simpl; rewrite ?Ep; simpl; auto; discriminate.
    + destruct (c_mk s m); [apply CI_goto | apply CI_ret]; auto; rewrite ?Ep; simpl; auto; discriminate.
    + destruct (c_mk s m); [apply CI_goto | apply CI_ret]; auto; rewrite ?Ep; simpl; auto; discriminate.
    + apply CI_goto; auto; rewrite ?Ep; simpl; auto; discriminate.
    + apply CI_goto; auto; rewrite ?Ep; simpl; auto; discriminate.
    + apply CI_goto; auto; rewrite ?Ep; simpl; auto; discriminate.
  - destruct (c_alive s t) eqn:AL; simpl; auto. destruct (t =? 0); simpl; auto. apply CI_run; auto.
  - destruct (t =? 0); auto.
    assert (Q : forall u, upd (c_alive s) t false u = true -> c_alive s u = true).
    { intro u. destruct (upd_cases _ (c_alive s) t false u) as [[-> ->]|[N ->]]; auto. discriminate. }
    destruct H. constructor; simpl; eauto.
  - destruct (c_alive s (c_m s m)); auto. apply CI_mutex; auto.
Qed.
Lemma CI_reach : forall n ok s, NoDup UW -> c_reach (c_init UW n) ok s -> CI s.
Proof. intros n ok s N R. induction R; [apply CI_init; auto | apply CI_step; auto]. Qed.
End Inv.
