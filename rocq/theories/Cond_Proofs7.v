(** Condition variables: recovery pass, progress, and the calls as a whole. *)
From Coq Require Import ZArith List Bool Lia Sorted Permutation.
From Verif Require Import Base Cond_Model Cond_Spec Cond_Proofs Cond_Proofs2 Cond_Proofs3 Cond_Proofs4 Cond_Proofs5 Cond_Proofs6.
Import ListNotations.
Open Scope Z_scope.

(** ** Recovery pass *)
Lemma run_tid : forall s t g w, w_tid (c_w (c_run s t g) w) = w_tid (c_w s w) \/ (exists a, c_pc s t = WI a w) /\ w_tid (c_w (c_run s t g) w) = t.
Proof.
  intros s t g w0. unfold c_run, take_guard, unlock_mutex.
  pcases s t Ep; simpl; auto;
  repeat match goal with
  | |- context[upd (c_w s) ?w ?v w0] => destruct (upd_cases _ (c_w s) w v w0) as [[? ->]|[? ->]]; [subst|]; simpl; auto
  | |- context[match ?x with _ => _ end] => destruct x; simpl; auto
  end. eauto.
Qed.
Lemma step_tid : forall s x w, w_tid (c_w (c_step s x) w) = w_tid (c_w s w) \/
  exists t g a, x = XRun t g /\ c_alive s t = true /\ t <> 0 /\ c_pc s t = WI a w /\ w_tid (c_w (c_step s x) w) = t.
Proof.
  intros s x w0. destruct x as [t c|t g|t|m]; simpl.
  - left. destruct (c_alive s t && negb (t =? 0)); auto. destruct (c_pc s t); auto. destruct (call_w s t c) as (-> & _); auto.
  - destruct (c_alive s t) eqn:AL; simpl; auto. destruct (Z.eqb_spec t 0) as [T0|T0]; simpl; auto. destruct (run_tid s t g w0) as [|[[a E] Q]]; auto.
    right. exists t, g, a. auto.
  - destruct (t =? 0); auto.
  - destruct (c_alive s (c_m s m)); auto.
Qed.

Section Rec.
Variable UW : list Z.
Variable al : Z -> bool.
Definition rdone (s : cstate) : Prop := forall c w, In w (c_wl s c) -> al (w_tid (c_w s w)) = true.
Definition rinv (s : cstate) (t : Z) : Prop :=
  match c_pc s t with
  | RG => True
  | RP [] _ => rdone s
  | RP cs None => forall c w, In w (c_wl s c) -> al (w_tid (c_w s w)) = true \/ In c cs
  | RP (c0 :: cs) (Some ws) => forall c w, In w (c_wl s c) -> al (w_tid (c_w s w)) = true \/ In c cs \/ (c = c0 /\ In w ws)
  | CX _ | CIdle => rdone s
  | _ => False
  end.
Lemma rec_path : forall ok s ls s2 t, c_path ok s ls s2 -> one_call t ls -> t <> 0 -> idle s2 t -> CI UW s ->
  (forall u, c_alive s u = true -> al u = true) -> rinv s t -> rdone s2.
Proof.
  intros ok s ls s2 t P. induction P as [s|s x ls s2 O P IH]; intros ONE T0 ID H MONO RV; [unfold rinv in RV; rewrite ID in RV; auto|].
  destruct (one_call_cons _ _ _ ONE) as [ONE' N]. apply IH; auto; [apply CI_step; auto | intros u A; apply MONO; eapply step_alive; eauto |].
  (* entries after the step: old ones with the same owner, or new ones of live threads *)
  assert (OLD : forall c w, In w (c_wl (c_step s x) c) -> (In w (c_wl s c) /\ w_tid (c_w (c_step s x) w) = w_tid (c_w s w)) \/ al (w_tid (c_w (c_step s x) w)) = true).
  { intros c w I. destruct (step_tid s x w) as [E|(u & g & a & -> & ALu & U0 & Ep & E)]; [|right; rewrite E; apply MONO; auto].
    destruct (wl_cases s x c) as [F|[(u & g & a & v & -> & ALu & Eu & C & F)|[(u & g & a & v & r & -> & ALu & Eu & C & F)|(u & g & v & -> & ALu & D & F)]]]; rewrite F in I; auto.
    - destruct I as [->|I]; auto. right. destruct (Z.eqb_spec u 0) as [->|U0]; [simpl in F; rewrite andb_false_r in F; apply (f_equal (@length Z)) in F; simpl in F; lia|].
      rewrite run_eq by auto. unfold c_run. rewrite Eu. simpl. rewrite upd_eq. simpl. apply MONO; auto.
    - apply cutoff_in in I. tauto.
    - apply cutoff_in in I. tauto. }
  destruct N as [N|[g ->]].
  - assert (FIX : c_alive s t = true -> crit (c_pc s t) = true -> forall c, c_wl (c_step s x) c = c_wl s c).
    { intros AL CR c. apply (held_any UW c s x t); auto. }
    unfold rinv in *. rewrite step_pc by auto.
    assert (DN : rdone s -> rdone (c_step s x)) by (intros RD c w I; destruct (OLD c w I) as [[J E]|E]; auto; rewrite E; eauto).
    destruct (c_pc s t) eqn:Ep; auto.
    destruct cs as [|c1 cs]; auto. destruct ws as [ws|].
    + intros c w I. destruct (OLD c w I) as [[J E]|E]; auto. rewrite E. auto.
    + intros c w I. destruct (OLD c w I) as [[J E]|E]; auto. rewrite E. auto.
  - destruct (c_alive s t) eqn:AL; cycle 1. { simpl. rewrite AL. simpl. auto. }
    rewrite run_eq in * by auto. unfold rinv in *. unfold c_run in *. destruct (c_pc s t) eqn:Ep; try contradiction.
    + rewrite Ep. auto.
    + simpl. rewrite upd_eq. auto.
    + destruct (take_cases s t (RP (c_conds s) None)) as [->|[-> _]]; [rewrite Ep; auto|]. simpl. rewrite upd_eq.
      assert (Q : forall c w, In w (c_wl s c) -> In c (c_conds s)) by (apply ci_cond with UW; auto).
      destruct (c_conds s); [intros c w I; exfalso; eapply Q; eauto | intros c w I; right; eauto].
    + destruct cs as [|c1 cs]; [simpl; rewrite upd_eq; auto|]. destruct ws as [[|w1 ws]|].
      * simpl. rewrite upd_eq. assert (Q : forall c w, In w (c_wl s c) -> al (w_tid (c_w s w)) = true \/ In c cs) by (intros c w I; destruct (RV c w I) as [|[|[_ []]]]; auto).
        destruct cs; auto. intros c w I. destruct (Q c w I) as [|[]]; auto.
      * simpl. rewrite upd_eq. destruct (negb (c_alive s (w_tid (c_w s w1))) && mem w1 (c_wl s c1)) eqn:B; simpl.
        -- intros c w I. assert (I' : In w (c_wl s c) /\ (c = c1 -> w <> w1)).
           { destruct (upd_cases _ (c_wl s) c1 (cutoff w1 (c_wl s c1)) c) as [[-> E]|[NN E]]; rewrite E in I; [apply cutoff_in in I; tauto|]. split; auto. }
           destruct I' as [I1 I2]. destruct (RV c w I1) as [|[|[-> [->|]]]]; auto. exfalso. apply I2; auto.
        -- intros c w I. destruct (RV c w I) as [|[|[-> [->|]]]]; auto. apply andb_false_iff in B as [B|B].
           ++ apply negb_false_iff in B. left. apply MONO. auto.
           ++ apply mem_out in B. contradiction.
      * simpl. rewrite upd_eq. intros c w I. destruct (RV c w I) as [|[->|]]; auto.
Qed.
End Rec.

(** ** A woken waiter that runs alone returns *)
Lemma woken_returns : forall UW s u w c, CI UW s -> u <> 0 -> c_alive s u = true -> c_guard s = None -> w_wait (c_w s w) = false ->
  match c_pc s u with WW a x => x = w /\ a_c a = c /\ c_m s (a_m a) = 0 | _ => False end ->
  let s' := c_exec s (repeat (XRun u false) 6) in idle s' u /\ c_res s' u = Some OK.
Proof.
  intros UW s u w c H U0 AL G W PC. destruct (c_pc s u) eqn:Ep; try contradiction. destruct PC as (-> & C & M).
  destruct (ci_reg _ _ H u a w AL) as (I & T & MX); [rewrite Ep; auto|].
  assert (E1 : c_step s (XRun u false) = goto s u (WL a w OK)) by (rewrite run_eq by auto; unfold c_run; rewrite Ep, W; auto).
  set (s1 := goto s u (WL a w OK)) in *.
  assert (E2 : c_step s1 (XRun u false) = goto (set_m s1 (a_m a) u) u (WJ a w OK)).
  { rewrite run_eq by auto. unfold c_run, s1 at 1. simpl. rewrite upd_eq, MX. unfold can_lock. simpl. rewrite M. auto. }
  set (s2 := goto (set_m s1 (a_m a) u) u (WJ a w OK)) in *.
  assert (E3 : c_step s2 (XRun u false) = goto (set_guard s2 (Some u)) u (WC a w OK)).
  { rewrite run_eq by auto. unfold c_run. replace (c_pc s2 u) with (WJ a w OK) by (unfold s2; simpl; rewrite upd_eq; auto). unfold take_guard.
    replace (c_guard s2) with (@None Z) by auto. auto. }
  set (s3 := goto (set_guard s2 (Some u)) u (WC a w OK)) in *.
  assert (E4 : c_step s3 (XRun u false) = goto (set_wl s3 (a_c a) (cutoff w (c_wl s3 (a_c a)))) u (WP a w OK)).
  { rewrite run_eq by auto. unfold c_run. replace (c_pc s3 u) with (WC a w OK) by (unfold s3; simpl; rewrite upd_eq; auto).
    replace (mem w (c_wl s3 (a_c a))) with true; auto. symmetry. apply mem_in. auto. }
  set (s4 := goto (set_wl s3 (a_c a) (cutoff w (c_wl s3 (a_c a)))) u (WP a w OK)) in *.
  assert (E5 : c_step s4 (XRun u false) = goto (set_pool s4 (w :: c_pool s4)) u (CX OK)).
  { rewrite run_eq by auto. unfold c_run. replace (c_pc s4 u) with (WP a w OK) by (unfold s4; simpl; rewrite upd_eq; auto). auto. }
  set (s5 := goto (set_pool s4 (w :: c_pool s4)) u (CX OK)) in *.
  assert (E6 : c_step s5 (XRun u false) = ret (set_guard s5 None) u OK).
  { rewrite run_eq by auto. unfold c_run. replace (c_pc s5 u) with (CX OK) by (unfold s5; simpl; rewrite upd_eq; auto). auto. }
  simpl repeat. unfold c_exec. rewrite E1, E2, E3, E4, E5, E6. unfold idle. simpl. rewrite !upd_eq. auto.
Qed.

(** ** The calls *)
Lemma good_reach : forall UW n c (ok : cstate -> clabel -> Prop) s, NoDup UW -> (forall s x, ok s x -> owners_wait c s x) -> c_reach (c_init UW n) ok s -> good UW c s.
Proof.
  intros UW n c ok s N W R. split; [eapply CI_reach; eauto|]. split; [apply (OI_reach UW c n ok); auto|]. eapply zero_reach; eauto.
Qed.
Lemma call_eq : forall s t cc, c_alive s t = true -> t <> 0 -> idle s t -> c_step s (XCall t cc) = c_call s t cc.
Proof. intros s t cc A N I. simpl. rewrite A, I. destruct (Z.eqb_spec t 0); auto. contradiction. Qed.
Lemma path_cons_inv : forall ok s x ls s2, c_path ok s (x :: ls) s2 -> ok s x /\ c_path ok (c_step s x) ls s2.
Proof. intros ok s x ls s2 P. inversion P; subst; auto. Qed.

Lemma signal_whole : forall UW n c (ok : cstate -> clabel -> Prop) s t ls s2, NoDup UW -> (forall s x, ok s x -> owners_wait c s x) -> c_reach (c_init UW n) ok s ->
  c_alive s t = true -> t <> 0 -> idle s t -> c_path ok s (XCall t (CSignal c) :: ls) s2 -> one_call t ls -> idle s2 t ->
  exists wk, own_wakes t s (XCall t (CSignal c) :: ls) wk /\
    at_some_moment ok s (XCall t (CSignal c) :: ls) s2 (fun s1 => woke_one c s1 wk) /\
    (c_res s2 t = Some OK \/ c_res s2 t = Some EINVAL /\ wk = []).
Proof.
  intros UW n c ok s t ls s2 ND W R AL T0 ID P ONE ID2. pose proof (good_reach UW n c ok s ND W R) as G.
  destruct (path_cons_inv _ _ _ _ _ P) as [O P']. pose proof (call_eq s t (CSignal c) AL T0 ID) as E.
  destruct (signal_call UW c ok W _ ls s2 t P') as (wk & A & B & C); auto; [apply good_step; auto | rewrite E; simpl; apply upd_eq|].
  exists wk. split; [apply ow_same; auto; rewrite E; auto|]. split; auto. apply moment_later; auto.
Qed.
Lemma broadcast_whole : forall UW n c (ok : cstate -> clabel -> Prop) s t ls s2, NoDup UW -> c_reach (c_init UW n) ok s ->
  c_alive s t = true -> t <> 0 -> idle s t -> c_path ok s (XCall t (CBroadcast c) :: ls) s2 -> one_call t ls -> idle s2 t ->
  exists wk l1 l2 s1, own_wakes t s (XCall t (CBroadcast c) :: ls) wk /\
    XCall t (CBroadcast c) :: ls = l1 ++ l2 /\ c_path ok s l1 s1 /\ c_path ok s1 l2 s2 /\ woke_all ok c s1 l2 wk /\
    (c_res s2 t = Some OK \/ c_res s2 t = Some EINVAL /\ wk = []).
Proof.
  intros UW n c ok s t ls s2 ND R AL T0 ID P ONE ID2. pose proof (CI_reach UW n ok s ND R) as G.
  destruct (path_cons_inv _ _ _ _ _ P) as [O P']. pose proof (call_eq s t (CBroadcast c) AL T0 ID) as E.
  destruct (bc_call UW c ok _ ls s2 t P') as (wk & A & (l1 & l2 & s1 & -> & B1 & B2 & B3) & C); auto; [apply CI_step; auto | rewrite E; simpl; apply upd_eq|].
  exists wk, (XCall t (CBroadcast c) :: l1), l2, s1. split; [apply ow_same; auto; rewrite E; auto|]. split; auto. split; [constructor; auto|]. auto.
Qed.
Lemma not_withdrawn : forall UW c (ok : cstate -> clabel -> Prop) s ls w, (forall s x, ok s x -> owners_wait c s x) -> good UW c s -> ~ withdrawn ok s ls c w.
Proof.
  intros UW c ok s ls w W G (l1 & x & l2 & s1 & _ & P & WD). apply (no_withdraw c s1 x w); auto.
  assert (good UW c s1). { clear WD. revert G. induction P; auto. intro G. apply IHP. apply good_step; auto. } apply H.
Qed.
Lemma good_path : forall UW c (ok : cstate -> clabel -> Prop) s ls s2, (forall s x, ok s x -> owners_wait c s x) -> c_path ok s ls s2 -> good UW c s -> good UW c s2.
Proof. intros UW c ok s ls s2 W P. induction P; auto. intro G. apply IHP. apply good_step; auto. Qed.
Lemma CI_path : forall UW ok s ls s2, c_path ok s ls s2 -> CI UW s -> CI UW s2.
Proof. intros UW ok s ls s2 P. induction P; auto. intro G. apply IHP. apply CI_step; auto. Qed.

(** signal by the owner of the mutex *)
Lemma one_call_app : forall t l1 l2, one_call t (l1 ++ l2) -> one_call t l1 /\ one_call t l2.
Proof. intros t l1 l2 H. split; intros c I; apply (H c); apply in_or_app; auto. Qed.
Lemma nodeath_path : forall (ok : cstate -> clabel -> Prop) s ls s2 t, (forall s x, ok s x -> no_deaths s x) -> c_path ok s ls s2 -> c_alive s2 t = c_alive s t.
Proof. intros ok s ls s2 t W P. induction P; auto. rewrite IHP, step_nodeath; eauto. Qed.
Lemma nodeath_reach : forall UW n (ok : cstate -> clabel -> Prop) s t, (forall s x, ok s x -> no_deaths s x) -> c_reach (c_init UW n) ok s -> c_alive s t = true.
Proof. intros UW n ok s t W R. induction R; auto. rewrite step_nodeath; eauto. Qed.

Lemma owner_counted : forall UW c m s t, good2 UW c m s -> (forall u, c_alive s u = true) -> sigpc (c_pc s t) -> c_m s m = t ->
  forall w, counted s c w <-> exists u, released s c u w /\ w_wait (c_w s w) = true.
Proof.
  intros UW c m s t G AL SP M w. split.
  - intros [I W]. destruct (entry_owner UW c m s w G I (AL _)) as [EN|RL]; [|eauto].
    exfalso. apply entering_ent in EN as (a & E & C). destruct (ent_pre _ _ _ E) as (P1 & P2 & _). destruct G as [(H & HO & Z0) MI].
    pose proof (oi_pre _ _ HO _ _ (AL _) P1 C) as Q. rewrite (mi_m _ _ _ MI _ _ (AL _) P2 C) in Q. assert (TU : w_tid (c_w s w) = t) by congruence.
    rewrite TU in E. destruct (c_pc s t); simpl in *; try discriminate; contradiction.
  - intros (u & RL & W). destruct (released_reg _ _ _ _ RL) as (a & R & <-). destruct G as [(H & _) _]. split; auto.
    apply (ci_reg _ _ H u a w (AL u) R).
Qed.

Lemma owner_signal : forall UW n c m (ok : cstate -> clabel -> Prop) s t ls s2, NoDup UW -> (forall s x, ok s x -> proper c m s x) -> c_reach (c_init UW n) ok s ->
  t <> 0 -> idle s t -> c_m s m = t -> c_path ok s (XCall t (CSignal c) :: ls) s2 -> one_call t ls -> idle s2 t ->
  exists wk, own_wakes t s (XCall t (CSignal c) :: ls) wk /\
    at_some_moment ok s (XCall t (CSignal c) :: ls) s2 (fun s1 => woke_one c s1 wk /\
      forall w, counted s1 c w <-> exists u, released s1 c u w /\ w_wait (c_w s1 w) = true).
Proof.
  intros UW n c m ok s t ls s2 ND W R T0 ID M P ONE ID2.
  assert (W1 : forall s x, ok s x -> owners_wait c s x) by (intros s' x' O; eapply waits_own; apply (W _ _ O)).
  assert (W2 : forall s x, ok s x -> no_deaths s x) by (intros s' x' O; apply (W _ _ O)).
  assert (W3 : forall s x, ok s x -> waits_with c m s x) by (intros s' x' O; apply (W _ _ O)).
  assert (AL : forall u, c_alive s u = true) by (intro u; apply (nodeath_reach UW n ok s u W2 R)).
  destruct (signal_whole UW n c ok s t ls s2 ND W1 R (AL t) T0 ID P ONE ID2) as (wk & A & (l1 & l2 & s1 & E & P1 & P2 & WO) & _).
  exists wk. split; auto. exists l1, l2, s1. split; auto. split; auto. split; auto. split; auto.
  assert (AL1 : forall u, c_alive s1 u = true) by (intro u; rewrite (nodeath_path ok _ _ _ u W2 P1); auto).
  assert (G1 : good2 UW c m s1) by (eapply good2_path; eauto; eapply good2_reach; eauto).
  assert (K : c_m s1 m = t /\ sigpc (c_pc s1 t)).
  { destruct l1 as [|x l1].
    - inversion P1; subst. rewrite ID. simpl. auto.
    - simpl in E. inversion E; subst x ls. destruct (path_cons_inv _ _ _ _ _ P1) as [O P1'].
      destruct (one_call_app _ _ _ ONE) as [ONE1 _]. pose proof (call_eq s t (CSignal c) (AL t) T0 ID) as EC.
      apply (own_kept ok _ l1 s1 t m P1'); auto; rewrite EC; simpl; auto. rewrite upd_eq. simpl. auto. }
  destruct K as [K1 K2]. eapply owner_counted; eauto.
Qed.

(** wait calls *)
Lemma wait_whole : forall UW n (ok : cstate -> clabel -> Prop) s t c m k ls s2, NoDup UW -> c_reach (c_init UW n) ok s ->
  t <> 0 -> idle s t -> c_path ok s (XCall t (CWait c m k) :: ls) s2 -> one_call t ls -> c_alive s2 t = true -> idle s2 t ->
  exists r, c_res s2 t = Some r /\
    res_ok t m k (woken_on_the_way ok s (XCall t (CWait c m k) :: ls) c t) (at_some_moment ok s (XCall t (CWait c m k) :: ls) s2 (contended t m)) s2 r.
Proof.
  intros UW n ok s t c m k ls s2 ND R T0 ID P ONE AL ID2. destruct (path_cons_inv _ _ _ _ _ P) as [O P'].
  pose proof (alive_path _ _ _ _ _ P AL) as AL0. pose proof (call_eq s t (CWait c m k) AL0 T0 ID) as E.
  pose proof (CI_reach UW n ok s ND R) as H. pose proof (SI_reach UW n ok s ND R) as S.
  destruct (wait_path UW t c m k T0 ok _ ls s2 P' ONE AL ID2 False False) as (r & RS & RO); [apply CI_step; auto | eapply SI_step; eauto | |].
  - unfold wst. rewrite E. unfold c_call. destruct (c_mk s m); simpl; rewrite !upd_eq; auto. exists EINVAL. split; auto. apply res_err; auto.
  - exists r. split; auto. eapply res_mono; [| | |exact RO]; auto.
    + intros [[]|(l1 & y & l2 & s1 & -> & X & Y)]. exists (XCall t (CWait c m k) :: l1), y, l2, s1. repeat split; auto. constructor; auto.
    + intros [[]|Q]. apply moment_later; auto.
Qed.
Lemma wait_fail : forall UW n (ok : cstate -> clabel -> Prop) s t c m k ls s2 r, NoDup UW -> c_reach (c_init UW n) ok s ->
  t <> 0 -> idle s t -> c_path ok s (XCall t (CWait c m k) :: ls) s2 -> one_call t ls -> c_alive s2 t = true -> idle s2 t ->
  c_res s2 t = Some r -> r = EPERM \/ r = ENOLCK \/ r = EINVAL -> mutexes_untouched t s (XCall t (CWait c m k) :: ls).
Proof.
  intros UW n ok s t c m k ls s2 r ND R T0 ID P ONE AL ID2 RS F. destruct (path_cons_inv _ _ _ _ _ P) as [O P'].
  pose proof (alive_path _ _ _ _ _ P AL) as AL0. pose proof (call_eq s t (CWait c m k) AL0 T0 ID) as E.
  pose proof (CI_reach UW n ok s ND R) as H.
  apply mu_same; auto; [rewrite E; intro; destruct (call_w s t (CWait c m k)) as (_ & _ & -> & _); auto|].
  destruct (c_mk s m) eqn:MK.
  - apply (fail_path UW t T0 ok _ ls s2 r); auto; [apply CI_step; auto|]. left. rewrite E. unfold c_call. rewrite MK. simpl. rewrite upd_eq. simpl. eauto.
  - apply (idle_tail ok _ ls s2 t P'); auto. rewrite E. unfold c_call, idle. rewrite MK. simpl. apply upd_eq.
Qed.
