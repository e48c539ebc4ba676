(** Condition variables: wait calls. *)
From Coq Require Import ZArith List Bool Lia Sorted.
From Verif Require Import Base Cond_Model Cond_Spec Cond_Proofs Cond_Proofs2 Cond_Proofs3 Cond_Proofs4.
Import ListNotations.
Open Scope Z_scope.

(** ** Entries named by a running signal or broadcast call are in the list *)
Definition sigok (s : cstate) (p : cpc) : Prop :=
  match p with
  | SS c ws last => incl ws (c_wl s c) /\ forall w, last = Some w -> In w (c_wl s c)
  | SW c w => In w (c_wl s c)
  | SB c ws => incl ws (c_wl s c)
  | SU c w ws => In w (c_wl s c) /\ incl ws (c_wl s c)
  | _ => True
  end.
Definition SI (s : cstate) : Prop := forall t, c_alive s t = true -> sigok s (c_pc s t).

Lemma sigok_wl : forall s s' p, (forall c, c_wl s' c = c_wl s c) -> sigok s p -> sigok s' p.
Proof. intros s s' p E. destruct p; simpl; rewrite ?E; auto. Qed.
Lemma SI_run : forall s t g, sigok s (c_pc s t) -> sigok (c_run s t g) (c_pc (c_run s t g) t).
Proof.
  intros s t g H. unfold c_run, take_guard, unlock_mutex. revert H.
  pcases s t Ep; simpl; rewrite ?Ep; simpl; auto; intro H;
  repeat match goal with
  | |- context[match ?x with _ => _ end] => lazymatch x with upd _ _ _ _ => fail | c_pc _ _ => fail | _ => destruct x; simpl; auto end
  end; rewrite ?upd_eq, ?Ep; simpl; auto.
  - intros x I; auto.
  - split; [intros x I; auto|discriminate].
  - destruct H as [A B]. apply B. auto.
  - destruct H as [A B]. split; [intros x I; apply A; right; auto|]. intros w E. inversion E; subst. apply A. left; auto.
  - destruct H as [A B]. split; [intros x I; apply A; right; auto|]. auto.
  - split; [apply H; left; auto | intros x I; apply H; right; auto].
  - intros x I; apply H; right; auto.
  - apply H.
Qed.
Lemma SI_step : forall UW s x, CI UW s -> SI s -> SI (c_step s x).
Proof.
  intros UW s x H S t AL. pose proof (step_alive _ _ _ AL) as AL0.
  assert (D : actor x = Some t \/ actor x <> Some t) by (destruct (actor x) as [v|]; [destruct (Z.eq_dec v t); [left|right]; congruence | right; congruence]).
  destruct D as [D|D].
  - destruct x as [u cc|u g|u|m]; simpl in D; try discriminate; inversion D; subst u; simpl.
    + destruct (c_alive s t && negb (t =? 0)); auto. destruct (c_pc s t) eqn:Ep; try (apply S; auto; fail).
      unfold c_call. destruct cc; simpl; try destruct (c_mk s m); simpl; rewrite upd_eq; simpl; auto.
    + destruct (c_alive s t && negb (t =? 0)); auto. apply SI_run; auto.
  - rewrite step_pc by auto. specialize (S t AL0).
    destruct (crit (c_pc s t)) eqn:CR.
    + apply (sigok_wl s); auto. intro c. destruct (step_wl s x c) as [E|(u & g & -> & ALu & Q)]; auto. exfalso. apply D. simpl. f_equal.
      pose proof (ci_guard _ _ H t AL0 CR). assert (CU : crit (c_pc s u) = true) by (destruct (c_pc s u); auto; contradiction).
      pose proof (ci_guard _ _ H u ALu CU). congruence.
    + destruct (c_pc s t); simpl in *; auto; discriminate.
Qed.
Lemma SI_init : forall UW n, SI (c_init UW n).
Proof. intros UW n t _. simpl. auto. Qed.
Lemma SI_reach : forall UW n (ok : cstate -> clabel -> Prop) s, NoDup UW -> c_reach (c_init UW n) ok s -> SI s.
Proof. intros UW n ok s N R. induction R; [apply SI_init|]. eapply SI_step; eauto. eapply CI_reach; eauto. Qed.

(** a mark that is taken off during a wait call is taken off by a signal or broadcast *)
Lemma mark_off : forall UW s x t a w, CI UW s -> SI s -> c_alive s t = true -> reg (c_pc s t) = Some (a, w) -> match c_pc s t with WB _ _ _ => False | _ => True end ->
  w_wait (c_w s w) = true -> w_wait (c_w (c_step s x) w) = false -> wakes s x (a_c a) t.
Proof.
  intros UW s x t a w H S AL R NB W W'. destruct (ci_reg _ _ H t a w AL R) as (I & T & _).
  destruct (step_w s x w) as [E|(u & g & -> & ALu & Q)]; [congruence|].
  assert (C : forall c, In w (c_wl s c) -> c = a_c a) by (intros; eapply ci_disj2; eauto).
  assert (ER : entering s (a_c a) t w \/ released s (a_c a) t w).
  { unfold entering, released. destruct (c_pc s t); simpl in R; try discriminate; inversion R; subst; auto. }
  pose proof (S u ALu) as SU. exists u, w. split; auto. split; auto. unfold signalling.
  destruct (c_pc s u) eqn:Ep; simpl in SU; try contradiction; destruct Q as [-> Q]; try congruence.
  - exfalso. destruct (ci_reg _ _ H u a0 w ALu) as (_ & T2 & _); [rewrite Ep; auto|]. assert (TU : t = u) by congruence. rewrite TU, Ep in NB. auto.
  - apply C. auto.
  - apply C. tauto.
Qed.

Section Wait.
Variable UW : list Z.
Variables (t c m : Z) (k : ckind).
Hypothesis T0 : t <> 0.
Definition A := mkWA c m k.

Definition res_ok (B1 B2 : Prop) (s : cstate) (r : Z) : Prop :=
  (r = OK -> c_m s m = t /\ B1) /\
  (r = ETIMEDOUT \/ r = EBUSY -> k <> KBlock /\ (c_m s m = t \/ B2)) /\
  In r [OK; ETIMEDOUT; EBUSY; EPERM; ENOLCK; EINVAL].
Definition wst (B1 B2 : Prop) (s : cstate) : Prop :=
  match c_pc s t with
  | WG a | WN a | WR a | WI a _ => a = A
  | WD a w | WS a w | WU a w | WW a w => a = A /\ (w_wait (c_w s w) = true \/ B1)
  | WB a w r => a = A /\ r = EPERM
  | WL a w r => a = A /\ (r = OK /\ B1 \/ r = ETIMEDOUT /\ k <> KBlock)
  | WJ a w r | WC a w r | WP a w r => a = A /\ res_ok B1 B2 s r
  | CX r => res_ok B1 B2 s r
  | CIdle => exists r, c_res s t = Some r /\ res_ok B1 B2 s r
  | _ => False
  end.
Definition contended (s : cstate) : Prop := c_m s m <> 0 /\ c_m s m <> t.

Lemma res_mono : forall (B1 B2 B1' B2' : Prop) s s' r, (B1 -> B1') -> (B2 -> B2') -> (c_m s m = t -> c_m s' m = t) -> res_ok B1 B2 s r -> res_ok B1' B2' s' r.
Proof. intros B1 B2 B1' B2' s s' r I1 I2 M (X & Y & Z). split; [|split]; auto; intro E; [destruct (X E)|destruct (Y E)]; tauto. Qed.

Ltac ok_in := simpl; unfold OK, ETIMEDOUT, EBUSY, EPERM, ENOLCK, EINVAL; auto 10.
Lemma res_err : forall B1 B2 s r, r = EPERM \/ r = ENOLCK \/ r = EINVAL -> res_ok B1 B2 s r.
Proof.
  intros B1 B2 s r H. split; [|split].
  - intro; subst. destruct H as [H|[H|H]]; discriminate.
  - intros [->| ->]; destruct H as [H|[H|H]]; discriminate.
  - destruct H as [->|[->| ->]]; ok_in.
Qed.

Lemma wst_other : forall B1 B2 s x, CI UW s -> SI s -> c_alive (c_step s x) t = true -> actor x <> Some t -> wst B1 B2 s ->
  wst (B1 \/ wakes s x c t) (B2 \/ contended s) (c_step s x).
Proof.
  intros B1 B2 s x H S AL N W. pose proof (step_alive _ _ _ AL) as AL0.
  assert (M : c_m s m = t -> c_m (c_step s x) m = t).
  { intro M. destruct (step_m s x m) as [E|[E|(u & g & -> & ALu & U0 & [E|E] & Q)]]; try congruence. exfalso. apply N. simpl. congruence. }
  assert (MARK : forall a w, reg (c_pc s t) = Some (a, w) -> match c_pc s t with WB _ _ _ => False | _ => True end -> a = A ->
     w_wait (c_w s w) = true \/ B1 -> w_wait (c_w (c_step s x) w) = true \/ (B1 \/ wakes s x c t)).
  { intros a w R NB -> [Wt|]; auto. destruct (w_wait (c_w (c_step s x) w)) eqn:W'; auto. right. right. apply (mark_off UW s x t A w); auto. }
  assert (RM : forall r, res_ok B1 B2 s r -> res_ok (B1 \/ wakes s x c t) (B2 \/ contended s) (c_step s x) r).
  { intros r R. eapply res_mono; [| |exact M|exact R]; auto. }
  unfold wst in *. rewrite step_pc by auto. pose proof (step_res s x t N) as RS.
  destruct (c_pc s t) eqn:Ep; auto; try (destruct W as [-> W]; split; auto; fail).
  - destruct W as (r & E & R). exists r. split; [congruence|auto].
  - destruct W as [-> W]; split; auto. eapply MARK; eauto; simpl; auto.
  - destruct W as [-> W]; split; auto. eapply MARK; eauto; simpl; auto.
  - destruct W as [-> W]; split; auto. eapply MARK; eauto; simpl; auto.
  - destruct W as [-> W]; split; auto. eapply MARK; eauto; simpl; auto.
  - destruct W as [-> W]; split; auto. tauto.
Qed.

Lemma wst_run : forall B1 B2 s g, CI UW s -> c_alive s t = true -> wst B1 B2 s ->
  wst B1 (B2 \/ contended s) (c_run s t g).
Proof.
  intros B1 B2 s g H AL W.
  assert (RM : forall r s', c_m s' = c_m s -> res_ok B1 B2 s r -> res_ok B1 (B2 \/ contended s) s' r).
  { intros r s' E R. eapply res_mono; [| | |exact R]; auto. rewrite E; auto. }
  unfold c_run. pose proof (fun a w => ci_reg _ _ H t a w AL) as RG. unfold wst in W.
  destruct (c_pc s t) eqn:Ep; try contradiction.
  - unfold wst. rewrite Ep. destruct W as (r & E & R). exists r. split; auto.
  - subst. unfold wst. destruct (take_cases s t (WN A)) as [->|[-> _]]; rewrite ?Ep; simpl; rewrite ?upd_eq; auto.
  - subst. unfold wst. destruct (mem _ _); [simpl; rewrite upd_eq; auto|]. destruct (c_cfree s); simpl; rewrite upd_eq; auto. apply res_err; auto.
  - subst. unfold wst. destruct (c_pool s); simpl; rewrite upd_eq; auto. apply res_err; auto.
  - subst. unfold wst. simpl. rewrite !upd_eq. auto.
  - destruct W as [-> W]. unfold wst. simpl. rewrite upd_eq. auto.
  - destruct W as [-> W]. unfold wst. simpl. rewrite !upd_eq. auto.
  - destruct W as [-> W]. destruct (RG A w eq_refl) as (_ & _ & MX). simpl in MX.
    unfold wst, unlock_mutex, unlock_result. rewrite MX.
    destruct (Z.eqb_spec (c_m s m) 0) as [E0|E0]; destruct (Z.eqb_spec (c_m s m) t) as [E1|E1]; simpl; rewrite ?upd_eq; auto.
  - destruct W as [-> ->]. unfold wst. simpl. rewrite upd_eq. split; auto. apply res_err; auto.
  - destruct W as [-> W]. unfold wst. destruct (w_wait (c_w s w)) eqn:Wt.
    + simpl. destruct k eqn:K; [rewrite Ep, Wt; auto| |]; (destruct g; [simpl; rewrite upd_eq; split; auto; right; split; auto; congruence | rewrite Ep, Wt; auto]).
    + simpl. rewrite upd_eq. split; auto. left. split; auto. destruct W; congruence.
  - destruct W as [-> W]. destruct (RG A w eq_refl) as (_ & _ & MX). simpl in MX. rewrite MX. unfold can_lock. simpl.
    destruct ((c_m s m =? 0) || (c_m s m =? t)) eqn:CL.
    + unfold wst. simpl. rewrite upd_eq. split; auto. unfold res_ok. simpl. rewrite upd_eq. destruct W as [[-> B]|[-> B]].
      * split; [auto|split; [|ok_in]]. intros [E|E]; discriminate.
      * split; [discriminate|split; [|ok_in]]. auto.
    + apply orb_false_iff in CL as [C1 C2]. apply Z.eqb_neq in C1, C2. assert (CT : contended s) by (split; auto).
      assert (KEEP : wst B1 (B2 \/ contended s) s) by (unfold wst; rewrite Ep; auto).
      destruct k eqn:K; auto; [destruct g; auto|]; unfold wst; simpl; rewrite upd_eq; split; auto; destruct W as [[-> B]|[-> B]]; simpl; (split; [discriminate|split; [|ok_in]]);
        intros _; split; try congruence; auto.
  - destruct W as [-> R]. unfold wst. destruct (take_cases s t (WC A w r)) as [->|[-> _]]; rewrite ?Ep; simpl; rewrite ?upd_eq; auto.
  - destruct W as [-> R]. unfold wst. destruct (RG A w eq_refl) as (I & _). apply mem_in in I. rewrite I. simpl. rewrite upd_eq. auto.
  - destruct W as [-> R]. unfold wst. simpl. rewrite upd_eq. auto.
  - unfold wst. simpl. rewrite !upd_eq. exists r. split; auto.
Qed.

Variable ok : cstate -> clabel -> Prop.
Lemma wait_path : forall s ls s2, c_path ok s ls s2 -> one_call t ls -> c_alive s2 t = true -> idle s2 t ->
  forall B1 B2, CI UW s -> SI s -> wst B1 B2 s ->
  exists r, c_res s2 t = Some r /\ res_ok (B1 \/ woken_on_the_way ok s ls c t) (B2 \/ at_some_moment ok s ls s2 contended) s2 r.
Proof.
  intros s ls s2 P. induction P as [s|s x ls s2 O P IH]; intros ONE AL ID B1 B2 H S W.
  - unfold wst in W. rewrite ID in W. destruct W as (r & E & R). exists r. split; auto. eapply res_mono; [| | |exact R]; auto.
  - destruct (one_call_cons _ _ _ ONE) as [ONE' N]. pose proof (alive_path _ _ _ _ _ P AL) as AL1. pose proof (step_alive _ _ _ AL1) as AL0.
    assert (W' : wst (B1 \/ wakes s x c t) (B2 \/ contended s) (c_step s x)).
    { destruct N as [N|[g ->]]; [apply wst_other; auto|]. pose proof (wst_run B1 B2 s g H AL0 W) as Q. rewrite run_eq by auto.
      unfold wst in *. destruct (c_pc (c_run s t g) t); auto; try tauto.
      - destruct Q as (r & E & R). exists r. split; auto. eapply res_mono; [| | |exact R]; auto.
      - destruct Q; split; auto. eapply res_mono; [| | |exact H1]; auto.
      - destruct Q; split; auto. eapply res_mono; [| | |exact H1]; auto.
      - destruct Q; split; auto. eapply res_mono; [| | |exact H1]; auto.
      - eapply res_mono; [| | |exact Q]; auto. }
    destruct (IH ONE' AL ID _ _ (CI_step _ _ _ H) (SI_step _ _ _ H S) W') as (r & E & R). exists r. split; auto.
    eapply res_mono; [| | |exact R]; auto.
    + intros [[B|B]|(l1 & y & l2 & s1 & -> & X & Y)]; auto; right.
      * exists [], x, ls, s. repeat split; auto. constructor.
      * exists (x :: l1), y, l2, s1. repeat split; auto. constructor; auto.
    + intros [[B|B]|B]; auto; right; [apply moment_now; auto; constructor; auto | apply moment_later; auto].
Qed.

(** ** Failed calls leave the mutexes alone *)
Definition fails (r : Z) : Prop := r = EPERM \/ r = ENOLCK \/ r = EINVAL.
Lemma tail_path : forall s ls s2, c_path ok s ls s2 -> one_call t ls -> c_alive s2 t = true -> idle s2 t -> CI UW s ->
  forall a w r, c_pc s t = WJ a w r \/ c_pc s t = WC a w r \/ c_pc s t = WP a w r ->
  c_res s2 t = Some r /\ mutexes_untouched t s ls.
Proof.
  intros s ls s2 P. induction P as [s|s x ls s2 O P IH]; intros ONE AL ID H a w r D; [unfold idle in *; destruct D as [D|[D|D]]; congruence|].
  destruct (one_call_cons _ _ _ ONE) as [ONE' N]. pose proof (alive_path _ _ _ _ _ P AL) as AL1. pose proof (step_alive _ _ _ AL1) as AL0.
  specialize (IH ONE' AL ID (CI_step _ _ _ H)). destruct N as [N|[g ->]].
  - destruct (IH a w r) as [X Y]; [rewrite step_pc; auto|]. split; auto. apply mu_other; auto.
  - assert (E : c_step s (XRun t g) = c_run s t g) by (apply run_eq; auto).
    assert (MU : forall m', c_m (c_step s (XRun t g)) m' = c_m s m').
    { intro m'. destruct (step_m s (XRun t g) m') as [Q|[Q|(u & g' & EQ & ALu & U0 & D' & Q)]]; auto.
      - rewrite E. destruct (run_m s t g m') as [Q'|[_ Q']]; auto. exfalso. destruct D as [D|[D|D]]; rewrite D in Q'; auto.
      - exfalso. inversion EQ; subst u. destruct D as [D|[D|D]]; rewrite D in Q; auto. }
    assert (K : c_res s2 t = Some r /\ mutexes_untouched t (c_step s (XRun t g)) ls).
    { unfold c_run in E. destruct D as [D|[D|D]]; rewrite D in E.
      - destruct (take_cases s t (WC a w r)) as [Q|[Q _]]; rewrite Q in E; apply (IH a w r); rewrite E; auto. simpl. rewrite upd_eq. auto.
      - destruct (ci_reg _ _ H t a w AL0) as (I & _); [rewrite D; auto|]. apply mem_in in I. rewrite I in E. apply (IH a w r). rewrite E. simpl. rewrite upd_eq. auto.
      - destruct (exit_tail _ _ _ _ t r P) as (B & C & D'); auto. rewrite E. simpl. apply upd_eq. }
    destruct K. split; auto. apply mu_same; auto.
Qed.
Lemma mid_path : forall s ls s2, c_path ok s ls s2 -> one_call t ls -> c_alive s2 t = true -> idle s2 t -> CI UW s ->
  forall a w, (c_pc s t = WW a w \/ exists r, c_pc s t = WL a w r /\ ~ fails r) -> exists r, c_res s2 t = Some r /\ ~ fails r.
Proof.
  intros s ls s2 P. induction P as [s|s x ls s2 O P IH]; intros ONE AL ID H a w D; [unfold idle in *; destruct D as [D|(r & D & _)]; congruence|].
  destruct (one_call_cons _ _ _ ONE) as [ONE' N]. pose proof (alive_path _ _ _ _ _ P AL) as AL1. pose proof (step_alive _ _ _ AL1) as AL0.
  specialize (IH ONE' AL ID (CI_step _ _ _ H)). destruct N as [N|[g ->]].
  - apply (IH a w). rewrite step_pc; auto.
  - assert (E : c_step s (XRun t g) = c_run s t g) by (apply run_eq; auto).
    assert (TL : forall r s', c_step s (XRun t g) = goto s' t (WJ a w r) -> ~ fails r -> exists r, c_res s2 t = Some r /\ ~ fails r).
    { intros r s' EQ NF. destruct (tail_path _ ls s2 P ONE' AL ID (CI_step _ _ _ H) a w r) as [X _]; [left; rewrite EQ; simpl; apply upd_eq|]. eauto. }
    unfold c_run in E. destruct D as [D|(r & D & NF)]; rewrite D in E.
    + assert (ST : forall s' p, c_step s (XRun t g) = goto s' t p -> (exists r, p = WL a w r /\ ~ fails r) -> exists r, c_res s2 t = Some r /\ ~ fails r).
      { intros s' p EQ (r & -> & NF). apply (IH a w). right. exists r. rewrite EQ. simpl. rewrite upd_eq. auto. }
      assert (F1 : ~ fails OK) by (intros [F|[F|F]]; discriminate). assert (F2 : ~ fails ETIMEDOUT) by (intros [F|[F|F]]; discriminate).
      destruct (w_wait (c_w s w)); [|eauto]. destruct (a_k a); [apply (IH a w); rewrite E; auto|destruct g..]; eauto; apply (IH a w); rewrite E; auto.
    + assert (F2 : ~ fails ETIMEDOUT) by (intros [F|[F|F]]; discriminate). assert (F3 : ~ fails EBUSY) by (intros [F|[F|F]]; discriminate).
      destruct (can_lock s _ t); eauto. destruct (a_k a); [apply (IH a w); rewrite E; eauto|destruct g|]; eauto.
      * eapply TL; eauto. destruct (r =? OK); auto.
      * apply (IH a w); rewrite E; eauto.
      * eapply TL; eauto. destruct (r =? OK); auto.
Qed.
Lemma fail_path : forall s ls s2 r, c_path ok s ls s2 -> one_call t ls -> c_alive s2 t = true -> idle s2 t -> CI UW s ->
  (exists a, pre (c_pc s t) = Some a) \/ (exists a w r, c_pc s t = WB a w r) -> c_res s2 t = Some r -> fails r -> mutexes_untouched t s ls.
Proof.
  intros s ls s2 r P. induction P as [s|s x ls s2 O P IH]; intros ONE AL ID H D RS FR; [constructor|].
  destruct (one_call_cons _ _ _ ONE) as [ONE' N]. pose proof (alive_path _ _ _ _ _ P AL) as AL1. pose proof (step_alive _ _ _ AL1) as AL0.
  specialize (IH ONE' AL ID (CI_step _ _ _ H)). destruct N as [N|[g ->]].
  - apply mu_other; auto. apply IH; auto. rewrite step_pc; auto.
  - assert (E : c_step s (XRun t g) = c_run s t g) by (apply run_eq; auto).
    assert (GO : forall s' p, c_step s (XRun t g) = goto s' t p -> c_m s' = c_m s -> (exists a, pre p = Some a) \/ (exists a w r, p = WB a w r) \/ (exists a w r, p = WJ a w r) \/ (exists r, p = CX r) ->
       mutexes_untouched t s (XRun t g :: ls)).
    { intros s' p EQ EM K. apply mu_same; auto; [rewrite EQ; simpl; rewrite EM; auto|]. destruct K as [K|[K|[(a & w & r' & K)|(r' & K)]]].
      - apply IH; auto. left. rewrite EQ. simpl. rewrite upd_eq. auto.
      - apply IH; auto. right. rewrite EQ. simpl. rewrite upd_eq. auto.
      - subst p. apply (tail_path _ ls s2 P ONE' AL ID (CI_step _ _ _ H) a w r'). left. rewrite EQ. simpl. apply upd_eq.
      - subst p. apply (exit_tail _ _ _ _ t r' P); auto. rewrite EQ. simpl. apply upd_eq. }
    assert (ST : c_step s (XRun t g) = s -> mutexes_untouched t s (XRun t g :: ls)).
    { intro EQ. apply mu_same; auto; [rewrite EQ; auto|]. apply IH; auto. rewrite EQ. auto. }
    unfold c_run in E. destruct D as [[a D]|(a & w & r' & D)]; [|rewrite D in E; eapply GO; [exact E| |]; simpl; eauto 10].
    destruct (c_pc s t) eqn:Ep; simpl in D; try discriminate; inversion D; subst.
    + destruct (take_cases s t (WN a)) as [Q|[Q _]]; rewrite Q in E; auto. eapply GO; [exact E| |]; simpl; eauto.
    + destruct (mem _ _); [eapply GO; [exact E| |]; simpl; eauto|]. destruct (c_cfree s); eapply GO; try exact E; simpl; eauto 10.
    + destruct (c_pool s); eapply GO; try exact E; simpl; eauto 10.
    + eapply GO; try exact E; simpl; eauto 10.
    + eapply GO; try exact E; simpl; eauto 10.
    + eapply GO; try exact E; simpl; eauto 10.
    + destruct (unlock_result s (w_mtx (c_w s w)) t =? OK) eqn:U.
      * exfalso. destruct (mid_path _ ls s2 P ONE' AL ID (CI_step _ _ _ H) a w) as (r' & X & Y); [left; rewrite E; simpl; apply upd_eq|]. apply Y. congruence.
      * eapply GO; try exact E; eauto 10. unfold unlock_mutex, unlock_result in *. destruct (c_m s (w_mtx (c_w s w)) =? t); auto. rewrite orb_true_r in U. discriminate.
Qed.
End Wait.
