(** Condition variables: waiters of one mutex; woken entries stay woken; mutexes kept during a signal. *)
From Coq Require Import ZArith List Bool Lia Sorted.
From Verif Require Import Base Cond_Model Cond_Spec Cond_Proofs Cond_Proofs2 Cond_Proofs3.
Import ListNotations.
Open Scope Z_scope.

(** arguments of a wait call *)
Definition wa (p : cpc) : option wargs :=
  match p with
  | WG a | WN a | WR a | WI a _ | WD a _ | WS a _ | WU a _ | WB a _ _ | WW a _ | WL a _ _ | WJ a _ _ | WC a _ _ | WP a _ _ => Some a
  | _ => None
  end.
Definition ent (p : cpc) : option (wargs * Z) := match p with WD a w | WS a w | WU a w => Some (a, w) | _ => None end.

Lemma wa_run : forall s t g a, wa (c_pc (c_run s t g) t) = Some a -> wa (c_pc s t) = Some a.
Proof.
  intros s t g a0. unfold c_run, take_guard, unlock_mutex.
  pcases s t Ep; simpl; rewrite ?Ep; simpl; auto;
  repeat match goal with
  | |- context[match ?x with _ => _ end] => destruct x; simpl; auto
  end; rewrite ?upd_eq, ?Ep; simpl; auto; discriminate.
Qed.
Lemma ent_run : forall s t g a w, ent (c_pc (c_run s t g) t) = Some (a, w) -> ent (c_pc s t) = Some (a, w) \/ c_pc s t = WI a w.
Proof.
  intros s t g a0 w0. unfold c_run, take_guard, unlock_mutex.
  pcases s t Ep; simpl; rewrite ?Ep; simpl; auto;
  repeat match goal with
  | |- context[match ?x with _ => _ end] => destruct x; simpl; auto
  end; rewrite ?upd_eq, ?Ep; simpl; auto; try discriminate. intro E. inversion E; auto.
Qed.
(** a call starts outside of the phases above *)
Lemma call_pc : forall s t c, c_pc (c_call s t c) t = CIdle \/ ent (c_pc (c_call s t c) t) = None /\
  (forall a, wa (c_pc (c_call s t c) t) = Some a -> c = CWait (a_c a) (a_m a) (a_k a)).
Proof.
  intros s t c. unfold c_call. destruct c as [m k|m|c m k|c|c|]; simpl; try destruct (c_mk s m); simpl; rewrite upd_eq; auto; right; split; auto; intros a E; simpl in E; try discriminate.
  inversion E; subst; auto.
Qed.
Lemma wa_step : forall s x t a, wa (c_pc (c_step s x) t) = Some a -> wa (c_pc s t) = Some a \/ x = XCall t (CWait (a_c a) (a_m a) (a_k a)).
Proof.
  intros s x t a P. destruct x as [u cc|u g|u|m]; try (rewrite step_pc in P by (simpl; congruence); auto; fail).
  - destruct (Z.eq_dec u t) as [->|N]; [|left; rewrite step_pc in P by (simpl; congruence); auto].
    simpl in P. destruct (c_alive s t && negb (t =? 0)); auto. destruct (c_pc s t) eqn:Ep; rewrite ?Ep in P; auto.
    destruct (call_pc s t cc) as [E|[_ E]]; [rewrite E in P; discriminate|]. right. rewrite (E a P). auto.
  - destruct (Z.eq_dec u t) as [->|N]; [|left; rewrite step_pc in P by (simpl; congruence); auto].
    simpl in P. destruct (c_alive s t && negb (t =? 0)); auto. left. eapply wa_run; eauto.
Qed.
Lemma ent_step : forall s x t a w, ent (c_pc (c_step s x) t) = Some (a, w) ->
  ent (c_pc s t) = Some (a, w) \/ exists g, x = XRun t g /\ c_alive s t = true /\ t <> 0 /\ c_pc s t = WI a w.
Proof.
  intros s x t a w P. destruct x as [u cc|u g|u|m]; try (rewrite step_pc in P by (simpl; congruence); auto; fail).
  - destruct (Z.eq_dec u t) as [->|N]; [|left; rewrite step_pc in P by (simpl; congruence); auto].
    simpl in P. destruct (c_alive s t && negb (t =? 0)); auto. destruct (c_pc s t) eqn:Ep; rewrite ?Ep in P; auto.
    destruct (call_pc s t cc) as [E|[E _]]; rewrite E in P; discriminate.
  - destruct (Z.eq_dec u t) as [->|N]; [|left; rewrite step_pc in P by (simpl; congruence); auto].
    simpl in P. destruct (c_alive s t) eqn:AL; simpl in P; auto. destruct (Z.eqb_spec t 0); simpl in P; auto. destruct (ent_run _ _ _ _ _ P); auto. right. eauto.
Qed.

(** the list of a condition after one step *)
Lemma wl_cases : forall s x c, c_wl (c_step s x) c = c_wl s c \/
  (exists t g a w, x = XRun t g /\ c_alive s t = true /\ c_pc s t = WI a w /\ a_c a = c /\ c_wl (c_step s x) c = w :: c_wl s c) \/
  (exists t g a w r, x = XRun t g /\ c_alive s t = true /\ c_pc s t = WC a w r /\ a_c a = c /\ c_wl (c_step s x) c = cutoff w (c_wl s c)) \/
  (exists t g w, x = XRun t g /\ c_alive s t = true /\ c_alive s (w_tid (c_w s w)) = false /\ c_wl (c_step s x) c = cutoff w (c_wl s c)).
Proof.
  intros s x c. destruct (step_wl s x c) as [E|(t & g & -> & AL & Q)]; auto.
  destruct (Z.eqb_spec t 0) as [->|T0]; [left; simpl; rewrite andb_false_r; auto|]. rewrite run_eq by auto.
  unfold c_run. destruct (c_pc s t) eqn:Ep; try contradiction.
  - right. left. exists t, g, a, w. repeat split; auto. simpl. rewrite Q. apply upd_eq.
  - destruct (mem w (c_wl s (a_c a))); auto. right. right. left. exists t, g, a, w, r. repeat split; auto. simpl. rewrite Q. apply upd_eq.
  - destruct cs as [|c1 cs]; auto. destruct ws as [[|w ws]|]; auto. destruct (negb (c_alive s (w_tid (c_w s w))) && mem w (c_wl s c1)) eqn:B; auto.
    simpl. destruct (upd_cases _ (c_wl s) c1 (cutoff w (c_wl s c1)) c) as [[-> ->]|[N ->]]; auto. apply andb_true_iff in B as [B _]. apply negb_true_iff in B.
    right. right. right. exists t, g, w. auto.
Qed.

Lemma alive_path : forall ok s ls s2 t, c_path ok s ls s2 -> c_alive s2 t = true -> c_alive s t = true.
Proof. intros ok s ls s2 t P. induction P; auto. intro A. eapply step_alive; eauto. Qed.

Section Mutex.
Variable UW : list Z.
Variable c0 m0 : Z.

Record MI (s : cstate) : Prop := {
  mi_m : forall t a, c_alive s t = true -> wa (c_pc s t) = Some a -> a_c a = c0 -> a_m a = m0;
  mi_head : forall t a w, c_alive s t = true -> ent (c_pc s t) = Some (a, w) -> a_c a = c0 -> exists l, c_wl s c0 = w :: l
}.
Lemma MI_init : forall n, MI (c_init UW n).
Proof. intro n. constructor; simpl; intros; discriminate. Qed.

Lemma ent_pre : forall p a w, ent p = Some (a, w) -> pre p = Some a /\ wa p = Some a /\ reg p = Some (a, w).
Proof. intros p a w E. destruct p; simpl in *; try discriminate; inversion E; auto. Qed.

Lemma MI_step : forall s x, good UW c0 s -> MI s -> waits_with c0 m0 s x -> MI (c_step s x).
Proof.
  intros s x (H & HO & Z0) [A B] W. constructor.
  - intros t a AL P E. pose proof (step_alive _ _ _ AL) as AL0. destruct (wa_step _ _ _ _ P) as [Q|Q]; eauto. subst x. simpl in W. apply W; auto.
  - intros t a w AL P E. pose proof (step_alive _ _ _ AL) as AL0. destruct (ent_step _ _ _ _ _ P) as [Q|(g & -> & _ & T0 & Q)].
    + destruct (ent_pre _ _ _ Q) as (Q1 & Q2 & Q3). pose proof (oi_pre _ _ HO t a AL0 Q1 E) as M. destruct (B t a w AL0 Q E) as [l L].
      destruct (ci_reg _ _ H t a w AL0 Q3) as (R1 & R2 & R3).
      destruct (wl_cases s x c0) as [F|[(u & g & b & v & -> & ALu & Eu & C & F)|[(u & g & b & v & r & -> & ALu & Eu & C & F)|(u & g & v & -> & ALu & D & F)]]].
      * rewrite F. eauto.
      * exfalso. assert (PU : pre (c_pc s u) = Some b) by (rewrite Eu; auto). pose proof (oi_pre _ _ HO u b ALu PU C) as MU.
        assert (wa (c_pc s u) = Some b) by (rewrite Eu; auto). rewrite (A u b) in MU; auto. rewrite (A t a) in M; auto.
        assert (UT : u = t) by congruence. rewrite UT in Eu. rewrite Eu in Q. discriminate.
      * destruct (ci_reg _ _ H u b v ALu) as (S1 & S2 & S3); [rewrite Eu; auto|].
        assert (v <> w) by (intro VW; rewrite VW in *; assert (UT : u = t) by congruence; rewrite UT in *; rewrite Eu in Q; discriminate). rewrite F, L. simpl. replace (w =? v) with false by (symmetry; apply Z.eqb_neq; auto). simpl. eauto.
      * assert (v <> w) by (intro; subst; congruence). rewrite F, L. simpl. replace (w =? v) with false by (symmetry; apply Z.eqb_neq; auto). simpl. eauto.
    + rewrite run_eq by auto. unfold c_run. rewrite Q. simpl. rewrite E, upd_eq. eauto.
Qed.
Lemma waits_own : forall s x, waits_with c0 m0 s x -> owners_wait c0 s x.
Proof. intros s x. destruct x as [t c| | |]; simpl; auto. destruct c; auto. intros H E. destruct (H E); subst; auto. Qed.

Definition good2 (s : cstate) : Prop := good UW c0 s /\ MI s.
Lemma good2_step : forall s x, good2 s -> waits_with c0 m0 s x -> good2 (c_step s x).
Proof. intros s x [A B] W. split; [apply good_step; auto; apply waits_own; auto | apply MI_step; auto]. Qed.
Lemma good2_init : forall n, NoDup UW -> good2 (c_init UW n).
Proof. intros n N. split; [split; [apply CI_init; auto|split; [apply OI_init|auto]]|apply MI_init]. Qed.
Lemma good2_reach : forall n (ok : cstate -> clabel -> Prop) s, NoDup UW -> (forall s x, ok s x -> waits_with c0 m0 s x) -> c_reach (c_init UW n) ok s -> good2 s.
Proof. intros n ok s N W R. induction R; [apply good2_init; auto | apply good2_step; auto]. Qed.
Lemma good2_path : forall (ok : cstate -> clabel -> Prop) s ls s2, (forall s x, ok s x -> waits_with c0 m0 s x) -> c_path ok s ls s2 -> good2 s -> good2 s2.
Proof. intros ok s ls s2 W P. induction P; auto. intro G. apply IHP. apply good2_step; auto. Qed.

(** who owns an entry of the list *)
Lemma entry_owner : forall s w, good2 s -> In w (c_wl s c0) -> c_alive s (w_tid (c_w s w)) = true ->
  entering s c0 (w_tid (c_w s w)) w \/ released s c0 (w_tid (c_w s w)) w.
Proof.
  intros s w [(H & HO & Z0) M] I AL. destruct (ci_own _ _ H c0 w I AL) as (a & R & E). unfold entering, released.
  destruct (c_pc s (w_tid (c_w s w))) eqn:Ep; simpl in R; try discriminate; inversion R; subst; auto.
  exfalso. eapply (oi_wb _ _ HO); eauto.
Qed.
Lemma entering_ent : forall s c u w, entering s c u w <-> exists a, ent (c_pc s u) = Some (a, w) /\ a_c a = c.
Proof.
  intros s c u w. unfold entering. split.
  - destruct (c_pc s u); try contradiction; intros [E ->]; simpl; eauto.
  - intros (a & E & C). destruct (c_pc s u); simpl in E; try discriminate; inversion E; subst; auto.
Qed.
Lemma released_reg : forall s c u w, released s c u w -> exists a, reg (c_pc s u) = Some (a, w) /\ a_c a = c.
Proof. intros s c u w. unfold released. destruct (c_pc s u); try contradiction; intros [E ->]; simpl; eauto. Qed.

(** a call that is still registering is not the longest waiter if another one waits *)
Lemma longest_released : forall s w u' w', good2 s -> longest s c0 w -> counted s c0 w' -> released s c0 u' w' ->
  c_alive s u' = true -> c_alive s (w_tid (c_w s w)) = true -> released s c0 (w_tid (c_w s w)) w.
Proof.
  intros s w u' w' G [[I W] L] CT RL ALu AL. destruct (entry_owner s w G I AL) as [EN|R]; auto. exfalso.
  destruct G as [(H & HO & Z0) M]. apply entering_ent in EN as (a & EN & C). destruct (mi_head _ M _ _ _ AL EN C) as [l E].
  assert (N : w' <> w).
  { intro; subst w'. destruct (released_reg _ _ _ _ RL) as (b & RB & CB). destruct (ci_reg _ _ H u' b w ALu RB) as (_ & T & _).
    rewrite <- T in RB. destruct (ent_pre _ _ _ EN) as (_ & _ & RE). unfold released in RL. rewrite <- T in RL. destruct (c_pc s (w_tid (c_w s w))); simpl in EN; try discriminate; contradiction. }
  pose proof (L w' CT N). pose proof (ci_sort _ _ H c0) as S. rewrite E in S. inversion S as [|? ? S' F]; subst. rewrite Forall_forall in F.
  destruct CT as [I' _]. rewrite E in I'. destruct I' as [I'|I']; [congruence|]. specialize (F w' I'). lia.
Qed.

(** ** A woken entry stays woken *)
Lemma released_back : forall s x u w, actor x <> Some u -> released (c_step s x) c0 u w -> released s c0 u w.
Proof. intros s x u w N. unfold released. rewrite step_pc; auto. Qed.
Lemma woken_step : forall s x u w, good UW c0 s -> c_alive s u = true -> released s c0 u w -> w_wait (c_w s w) = false ->
  w_wait (c_w (c_step s x) w) = false.
Proof.
  intros s x u w (H & HO & Z0) AL RL W. destruct (step_w s x w) as [E|(v & g & -> & ALv & Q)]; [congruence|].
  destruct (released_reg _ _ _ _ RL) as (a & R & C). destruct (ci_reg _ _ H u a w AL R) as (I & T & _).
  destruct (c_pc s v) eqn:Ep; try contradiction; destruct Q as [-> Q]; auto.
  - exfalso. assert (HD : hand (c_pc s v) = Some w) by (rewrite Ep; auto). destruct (ci_hand _ _ H v w ALv HD) as (_ & _ & NI). eapply NI; eauto.
  - exfalso. destruct (ci_reg _ _ H v a0 w ALv) as (_ & T2 & _); [rewrite Ep; auto|]. assert (UV : u = v) by congruence. unfold released in RL. rewrite UV, Ep in RL. auto.
Qed.
(** phases after the release are left only towards the end of the call *)
Definition gone (p : cpc) : Prop := match p with WP _ _ _ | CX _ | CIdle => True | _ => False end.
Lemma released_run : forall s u g w, CI UW s -> c_alive s u = true -> released s c0 u w -> released (c_run s u g) c0 u w \/ gone (c_pc (c_run s u g) u).
Proof.
  intros s t g w0 H AL. unfold released, gone, c_run, take_guard, unlock_mutex.
  pcases s t Ep; simpl; rewrite ?Ep; simpl; try tauto; intros [? ?]; subst;
  repeat match goal with
  | |- context[match ?x with _ => _ end] => lazymatch x with upd _ _ _ _ => fail | c_pc _ _ => fail | _ => destruct x; simpl; auto end
  end; rewrite ?upd_eq, ?Ep; simpl; auto.
Qed.
Lemma gone_run : forall s u g, gone (c_pc s u) -> gone (c_pc (c_run s u g) u).
Proof. intros s u g. unfold gone, c_run. destruct (c_pc s u) eqn:Ep; try contradiction; intros _; simpl; rewrite ?upd_eq, ?Ep; auto. Qed.
Lemma woken_path : forall (ok : cstate -> clabel -> Prop) s ls s2 u w, (forall s x, ok s x -> owners_wait c0 s x) -> c_path ok s ls s2 -> one_call u ls -> good UW c0 s ->
  c_alive s2 u = true -> (released s c0 u w /\ w_wait (c_w s w) = false) \/ gone (c_pc s u) ->
  (released s2 c0 u w /\ w_wait (c_w s2 w) = false) \/ gone (c_pc s2 u).
Proof.
  intros ok s ls s2 u w OKW P. induction P as [s|s x ls s2 O P IH]; auto. intros ONE G AL D. destruct (one_call_cons _ _ _ ONE) as [ONE' N].
  apply IH; auto; [apply good_step; auto|].
  assert (ALs : c_alive s u = true).
  { eapply step_alive. eapply alive_path; eauto. }
  destruct D as [[RL W]|GN].
  - pose proof (woken_step s x u w G ALs RL W) as W'. destruct N as [N|[g ->]].
    + left. split; auto. unfold released in *. rewrite step_pc; auto.
    + simpl. rewrite ALs. simpl. destruct (negb (u =? 0)) eqn:U0; simpl; auto. simpl in W'. rewrite ALs, U0 in W'. simpl in W'.
      destruct (released_run s u g w (proj1 G) ALs RL); auto.
  - right. destruct N as [N|[g ->]]; [rewrite step_pc; auto|]. simpl. destruct (c_alive s u && negb (u =? 0)); auto. apply gone_run; auto.
Qed.
End Mutex.

(** ** A thread keeps its mutex during a signal *)
Definition sigpc (p : cpc) : Prop :=
  match p with SG _ _ | SF _ _ | SS _ _ _ | SW _ _ | SB _ _ | SU _ _ _ | CX _ | CIdle => True | _ => False end.
Lemma sig_run : forall s t g, sigpc (c_pc s t) -> sigpc (c_pc (c_run s t g) t).
Proof.
  intros s t g. unfold sigpc, c_run, take_guard. pcases s t Ep; try tauto; intros _; simpl; rewrite ?Ep; simpl; auto;
  repeat match goal with
  | |- context[match ?x with _ => _ end] => lazymatch x with upd _ _ _ _ => fail | c_pc _ _ => fail | _ => destruct x; simpl; auto end
  end; rewrite ?upd_eq, ?Ep; simpl; auto.
Qed.
Lemma own_kept : forall ok s ls s2 t m, c_path ok s ls s2 -> one_call t ls -> t <> 0 -> c_alive s2 t = true -> sigpc (c_pc s t) -> c_m s m = t ->
  c_m s2 m = t /\ sigpc (c_pc s2 t).
Proof.
  intros ok s ls s2 t m P. induction P as [s|s x ls s2 O P IH]; auto. intros ONE T0 AL SP M. destruct (one_call_cons _ _ _ ONE) as [ONE' N].
  pose proof (alive_path _ _ _ _ _ P AL) as AL1. pose proof (step_alive _ _ _ AL1) as AL0. apply IH; auto.
  - destruct N as [N|[g ->]]; [rewrite step_pc; auto|]. rewrite run_eq by auto. apply sig_run; auto.
  - destruct (step_m s x m) as [E|[E|(u & g & -> & ALu & U0 & [E|E] & Q)]]; try congruence.
    assert (u = t) by congruence. rewrite H in Q. destruct (c_pc s t); simpl in SP; contradiction.
Qed.
