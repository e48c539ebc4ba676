(** The simulation: forks before the first call. *)
From Coq Require Import ZArith List Bool Lia.
From Verif Require Import Base Pid_Model Pid_Proofs Mutex_Model Fchild_Model Fchild_Proofs RwWord_Model RwApi_Model RwApi_Spec RwApi_Proofs RwApi_Proofs2 RwApi_Proofs3 RwApi_Proofs5 Rfork_Model Rfork_Spec Rfork_Proofs.
Import ListNotations.
Open Scope Z_scope.

Lemma named_proc : forall u, named u -> proc_of_thread (id_of u) = t_pid (u_t u).
Proof.
  intros u N. rewrite (named_id u N). destruct N as (_ & P & T). rewrite compose_arith. unfold proc_of_thread, two32, INT_MAX in *.
  rewrite !Z.mod_small by lia. change (2 ^ 32) with 4294967296. rewrite Z.div_add_l by lia. rewrite Z.div_small by lia. lia.
Qed.
Lemma there_iff : forall sys p, there sys p = true <-> exists u, In u sys /\ u_run u = true /\ t_pid (u_t u) = p.
Proof.
  intros sys p. unfold there. rewrite existsb_exists. split; intros (u & U & E); exists u; (split; [exact U|]).
  - apply andb_true_iff in E as [A B]. apply Z.eqb_eq in B. auto.
  - destruct E as [-> ->]. rewrite Z.eqb_refl. auto.
Qed.
Lemma there_app : forall sys w p, u_run w = true -> there (sys ++ [w]) p = there sys p || (t_pid (u_t w) =? p).
Proof. intros sys w p R. unfold there. rewrite existsb_app. cbn. rewrite R. cbn. rewrite orb_false_r. auto. Qed.

Definition ids (s : kstate) (id : Z) : Prop := exists u, In u (k_sys s) /\ id_of u = id.
Definition unborn (s : kstate) (p : Z) : Prop := forall u, In u (k_sys s) -> t_pid (u_t u) <> p.
(** the process [u] belongs to looks the same in the two machines *)
Definition same_home (a b : rstate) (p : Z) : Prop := (forall fd, r_fd a p fd = r_fd b p fd) /\ r_mode a p = r_mode b p /\ r_allow a p = r_allow b p.

Record ksim (s : kstate) (m : rstate) : Prop := mkKS {
  y_well : well (k_sys s);
  y_same : same_r (k_r s) m;
  y_ask1 : r_talive (k_r s) = found (k_sys s);
  y_ask2 : r_palive (k_r s) = there (k_sys s);
  y_tal : forall u, In u (k_sys s) -> r_talive m (id_of u) = u_run u;
  y_pal : forall u, In u (k_sys s) -> r_palive m (t_pid (u_t u)) = there (k_sys s) (t_pid (u_t u));
  y_rest : forall id, ~ ids s id -> r_talive m id = true;
  y_restp : forall p, unborn s p -> p <> 0 -> r_palive m p = true;
  y_zero : r_palive m 0 = false;
  y_home : forall u, In u (k_sys s) -> same_home (k_r s) m (t_pid (u_t u));
  y_says : says (ids s) m
}.
Definition furnished (s : kstate) (m : rstate) (F : Z -> Z -> option Z) (M : Z -> fmode) (A : Z -> bool) : Prop :=
  forall p, unborn s p -> (forall fd, r_fd m p fd = F p fd) /\ r_mode m p = M p /\ r_allow m p = A p.

Lemma y_named : forall s m u, ksim s m -> In u (k_sys s) -> named u.
Proof. intros s m u X U. apply (w_named _ (y_well _ _ X)); auto. Qed.
Lemma y_unborn0 : forall s m, ksim s m -> unborn s 0.
Proof. intros s m X u U. destruct (y_named s m u X U) as (_ & P & _). lia. Qed.
Lemma y_palive : forall s m id, ksim s m -> id = 0 \/ ids s id -> r_palive (k_r s) (proc_of_thread id) = r_palive m (proc_of_thread id).
Proof.
  intros s m id X [->|(u & U & <-)].
  - change (proc_of_thread 0) with 0. rewrite (y_zero s m X), (y_ask2 s m X). destruct (there (k_sys s) 0) eqn:T; auto.
    apply there_iff in T as (u & U & _ & E). destruct (y_unborn0 s m X u U E).
  - rewrite (named_proc u (y_named s m u X U)), (y_ask2 s m X), (y_pal s m X u U). auto.
Qed.
Lemma y_alive_u : forall s m u, ksim s m -> In u (k_sys s) -> alive m (id_of u) = u_run u.
Proof.
  intros s m u X U. unfold alive. rewrite (named_proc u (y_named s m u X U)), (y_pal s m X u U), (y_tal s m X u U).
  destruct (u_run u) eqn:R; [|apply andb_false_r]. rewrite andb_true_r. apply there_iff. eauto.
Qed.
Lemma y_alive : forall s m id, ksim s m -> id = 0 \/ ids s id -> alive (k_r s) id = alive m id.
Proof.
  intros s m id X K. unfold alive. rewrite (y_palive s m id X K). destruct K as [->|(u & U & <-)].
  - change (proc_of_thread 0) with 0. rewrite (y_zero s m X). auto.
  - rewrite (y_ask1 s m X), (y_tal s m X u U), (found_run _ u (y_well s m X) U). auto.
Qed.
Lemma y_fd : forall s m u fd, ksim s m -> In u (k_sys s) -> r_fd (k_r s) (t_pid (u_t u)) fd = r_fd m (t_pid (u_t u)) fd.
Proof. intros s m u fd X U. apply (y_home s m X u U). Qed.
Lemma y_probe : forall s m priv id fd dev, ksim s m -> id = 0 \/ ids s id -> probe_dead (k_r s) priv id fd dev = probe_dead m priv id fd dev.
Proof.
  intros s m priv id fd dev X K. unfold probe_dead. rewrite (y_alive s m id X K), (y_palive s m id X K).
  destruct (is_no_fd fd); auto. destruct priv; auto. destruct (r_palive m (proc_of_thread id)) eqn:P; auto.
  destruct K as [->|(u & U & <-)]; [change (proc_of_thread 0) with 0 in P; rewrite (y_zero s m X) in P; discriminate P|].
  rewrite (named_proc u (y_named s m u X U)), (y_fd s m u fd X U). auto.
Qed.
Lemma y_dev : forall s m u fd, ksim s m -> In u (k_sys s) -> dev_of (k_r s) (id_of u) fd = dev_of m (id_of u) fd.
Proof. intros s m u fd X U. unfold dev_of. rewrite (named_proc u (y_named s m u X U)), (y_fd s m u fd X U). auto. Qed.

Lemma get_in : forall s i u, k_get s i = Some u -> nth_error (k_sys s) i = Some u /\ In u (k_sys s) /\ u_run u = true.
Proof.
  intros s i u H. unfold k_get in H. destruct (nth_error (k_sys s) i) as [w|] eqn:E; [|discriminate H]. destruct (u_run w) eqn:R; [|discriminate H].
  injection H as ->. split; auto. split; auto. eapply nth_error_In; eauto.
Qed.
(** a thread of [m] that is not idle and lives belongs to a running user thread *)
Lemma y_actor : forall s m t, ksim s m -> r_pc m t <> RIdle -> alive m t = true -> exists j w, k_running s j w /\ id_of w = t.
Proof.
  intros s m t X P A. destruct (n_act _ _ (y_says s m X) t P) as (w & W & <-). rewrite (y_alive_u s m w X W) in A.
  apply In_nth_error in W as [j W]. exists j, w. split; auto. split; auto.
Qed.

(** ** A thread more *)
Lemma sim_more : forall s m w r, ksim s m -> named w -> u_run w = true -> (forall u, In u (k_sys s) -> t_tid (u_t u) <> t_tid (u_t w)) ->
  same_r (k_r s) r -> (forall u, In u (k_sys s) -> same_home r m (t_pid (u_t u))) -> same_home r m (t_pid (u_t w)) -> there (k_sys s) (t_pid (u_t w)) = true \/ unborn s (t_pid (u_t w)) ->
  ksim (mkK (k_sys s ++ [w]) (ask_r (k_sys s ++ [w]) r)) m.
Proof.
  intros s m w r X N RW F SR HO HW TW. pose proof X as [W V A1 A2 L P R RP Z H S].
  assert (UP : forall id, ids s id -> ids (mkK (k_sys s ++ [w]) (ask_r (k_sys s ++ [w]) r)) id).
  { intros id (u & U & E). exists u. split; auto. cbn. apply in_or_app. auto. }
  assert (PW : r_palive m (t_pid (u_t w)) = true).
  { destruct TW as [T|U]; [|apply RP; auto; destruct N as (_ & N & _); lia]. apply there_iff in T as (u & U & RU & <-). rewrite P by auto. apply there_iff. eauto. }
  constructor; cbn [k_sys k_r]; auto.
  - apply well_app; auto.
  - destruct V as (V1 & V2 & V3 & V4), SR as (S1 & S2 & S3 & S4). repeat split; cbn; congruence.
  - intros u U. apply in_app_or in U as [U|[<-|[]]]; auto. rewrite RW. apply R. intros (u & U & E). apply (F u U). apply named_inj; auto. apply (w_named _ W); auto.
  - intros u U. rewrite there_app by auto. apply in_app_or in U as [U|[<-|[]]].
    + rewrite P by auto. destruct (Z.eqb_spec (t_pid (u_t w)) (t_pid (u_t u))) as [E|E]; [|rewrite orb_false_r; auto].
      rewrite orb_true_r. rewrite <- E. destruct (there (k_sys s) (t_pid (u_t w))) eqn:T; auto. rewrite E in T, PW. rewrite P in PW by auto. congruence.
    + rewrite Z.eqb_refl, orb_true_r. auto.
  - intros p U. apply RP. intros u I. apply (U u). cbn. apply in_or_app. auto.
  - intros u U. apply in_app_or in U as [U|[<-|[]]]; [exact (HO u U) | exact HW].
  - apply (says_mono _ _ _ UP S).
Qed.

Lemma furnished_more : forall s m w r F M A, furnished s m F M A -> furnished (mkK (k_sys s ++ [w]) r) m F M A.
Proof. intros s m w r F M A Q p U. apply Q. intros u I. apply U. cbn. apply in_or_app. auto. Qed.

(** ** Same threads, other contents *)
Lemma sim_same_sys : forall s m r m', ksim s m -> same_r r m' -> r_talive r = r_talive (k_r s) -> r_palive r = r_palive (k_r s) ->
  r_talive m' = r_talive m -> r_palive m' = r_palive m -> (forall u, In u (k_sys s) -> same_home r m' (t_pid (u_t u))) -> says (ids s) m' ->
  ksim (mkK (k_sys s) r) m'.
Proof.
  intros s m r m' [W V A1 A2 L P R RP Z H S] V' E1 E2 E3 E4 H' S'. constructor; cbn [k_sys k_r]; auto; rewrite ?E1, ?E2, ?E3, ?E4; auto.
Qed.

Section Sim.
Variable fam : Z -> Z -> Z -> Prop.
Definition okm := RwApi_Spec.both careful (in_family fam).
Definition okk (s : kstate) (x : klabel) : Prop := k_fork_first s x /\ k_careful s x /\ k_family fam s x.
Variable s0 : rstate.

Lemma two_steps : forall m x, r_reach s0 okm m -> okm m x -> r_reach s0 okm (r_step m x).
Proof. intros. apply rr_step; auto. Qed.

Lemma sim_kcall : forall s m F M A i c, ksim s m -> furnished s m F M A -> r_reach s0 okm m -> okk s (KCall i c) ->
  exists m', r_reach s0 okm m' /\ ksim (k_step s (KCall i c)) m' /\ furnished (k_step s (KCall i c)) m' F M A.
Proof.
  intros s m F M A i c X FU R (_ & _ & FM). cbn [k_step]; cbv zeta. destruct (k_get s i) as [u|] eqn:G; [|eauto]. destruct (get_in s i u G) as (NU & IU & RU).
  destruct (r_pc (k_r s) (id_of u)) eqn:PC; eauto.
  pose proof X as [W V A1 A2 L P RS RP Z H S]. assert (N : named u) by (apply (w_named _ W); auto).
  set (w := mkU (snd (get_flckpid (u_t u))) true).
  assert (SN : same_nums u w). { unfold same_nums, w. cbn [u_t]. split; [|split; [|apply query_keeps; apply N]]; unfold get_flckpid, get_threadid; destruct (t_cache (u_t u) =? 0); auto. }
  destruct (same_id u w N SN) as [NN EI]. destruct SN as (SP & ST & _).
  assert (PCm : r_pc m (id_of u) = RIdle) by (destruct V as (_ & _ & V3 & _); rewrite <- V3; auto).
  assert (ALm : alive m (id_of u) = true) by (rewrite (y_alive_u s m u X IU); auto).
  assert (ST' : r_step m (LCall (id_of u) c) = r_call m (id_of u) c) by (cbn; rewrite ALm, PCm; auto).
  destruct (call_env m (id_of u) c) as (E1 & E2 & E3 & E4 & E5 & E6 & E7 & _). destruct (call_env (k_r s) (id_of u) c) as (B1 & B2 & B3 & B4 & B5 & B6 & B7 & _).
  exists (r_call m (id_of u) c).
  assert (IW : forall id, ids s id -> ids (mkK (replace_nth i w (k_sys s)) (ask_r (replace_nth i w (k_sys s)) (r_call (k_r s) (id_of u) c))) id) by (intros; eapply replace_id; eauto).
  assert (PIDS : forall x, In x (replace_nth i w (k_sys s)) -> exists y, In y (k_sys s) /\ t_pid (u_t y) = t_pid (u_t x) /\ u_run y = u_run x /\ id_of y = id_of x).
  { intros x I. destruct (replace_cases _ _ _ _ _ W NU NN EI I) as [->|[I' _]]; [exists u | exists x]; auto. }
  assert (BACK : forall y, In y (k_sys s) -> exists x, In x (replace_nth i w (k_sys s)) /\ t_pid (u_t y) = t_pid (u_t x) /\ u_run y = u_run x).
  { intros y I. destruct (in_replace _ i u w y NU I) as [->|I']; [exists w; split; [eapply in_replace_new; eauto | auto] | exists y; auto]. }
  assert (TH : forall p, there (replace_nth i w (k_sys s)) p = there (k_sys s) p).
  { intro p. destruct (there (k_sys s) p) eqn:T.
    - apply there_iff in T as (y & Y & RY & <-). destruct (BACK y Y) as (x & I & EX & ER). apply there_iff. exists x. rewrite <- ER. auto.
    - destruct (there (replace_nth i w (k_sys s)) p) eqn:T'; auto. apply there_iff in T' as (x & I & RX & <-). destruct (PIDS x I) as (y & Y & EY & ER & _).
      assert (T2 : there (k_sys s) (t_pid (u_t x)) = true) by (apply there_iff; exists y; rewrite ER; auto). congruence. }
  split; [|split].
  - rewrite <- ST'. apply rr_step; auto. split; [exact I|]. destruct c; cbn; auto. intros d FD. apply (FM u d); [split; auto|]. unfold file_of in FD.
    change (id_of u / two32) with (proc_of_thread (id_of u)) in FD. rewrite (named_proc u N) in FD. destruct (fd <? 0); auto. rewrite (y_fd s m u fd X IU). auto.
  - constructor; cbn [k_sys k_r]; auto.
    + eapply well_replace; eauto. split; [|split]; auto. apply NN.
    + assert (Q : same_r (r_call (k_r s) (id_of u) c) (r_call m (id_of u) c)).
      { apply view_call_r; auto; [intro; apply (y_dev s m u); auto | rewrite (named_proc u N); apply (H u IU)]. }
      exact Q.
    + rewrite E3. intros x I. destruct (PIDS x I) as (y & Y & _ & ER & EX). rewrite <- EX, <- ER. auto.
    + rewrite E4. intros x I. destruct (PIDS x I) as (y & Y & EY & _ & _). rewrite TH, <- EY. auto.
    + rewrite E3. intros id NI. apply RS. intro Q. apply NI. apply IW. auto.
    + rewrite E4. intros p U. apply RP. intros y Y E. destruct (BACK y Y) as (x & I & EX & _). apply (U x I). congruence.
    + rewrite E4. auto.
    + intros x I. destruct (PIDS x I) as (y & Y & EY & _ & _). rewrite <- EY. destruct (H y Y) as (H1 & H2 & H3). split; [|split]; cbn [r_fd r_mode r_allow ask_r].
      * intro fd. rewrite B5, E5. auto. * rewrite B6, E6. auto. * rewrite B7, E7. auto.
    + apply says_call; [apply (says_mono _ _ m IW S) | apply IW; exists u; auto].
  - intros p U. rewrite E5, E6, E7. apply FU. intros y Y E. destruct (BACK y Y) as (x & I & EX & _). apply (U x I). congruence.
Qed.

Lemma sim_krun : forall s m F M A i race gu, ksim s m -> furnished s m F M A -> r_reach s0 okm m ->
  exists m', r_reach s0 okm m' /\ ksim (k_step s (KRun i race gu)) m' /\ furnished (k_step s (KRun i race gu)) m' F M A.
Proof.
  intros s m F M A i race gu X FU R. cbn [k_step]; cbv zeta. destruct (k_get s i) as [u|] eqn:G; [|eauto]. destruct (get_in s i u G) as (NU & IU & RU).
  pose proof X as [W V A1 A2 L P RS RP Z H S]. assert (N : named u) by (apply (w_named _ W); auto).
  assert (ST' : r_step m (LRun (id_of u) race gu) = r_run m (id_of u) race gu) by (cbn; rewrite (y_alive_u s m u X IU), RU; auto).
  destruct (run_env m (id_of u) race gu) as (E1 & E2 & E3 & E4 & E5). destruct (run_env (k_r s) (id_of u) race gu) as (B1 & B2 & B3 & B4 & B5).
  exists (r_run m (id_of u) race gu). split; [|split].
  - rewrite <- ST'. apply rr_step; auto. split; exact I.
  - apply (sim_same_sys s m); auto.
    + apply view_run_r; auto.
      * intros v GV. apply (y_alive s m); auto. right. apply (n_grd _ _ S). destruct V as (_ & V2 & _). congruence.
      * intros l priv dev. apply (y_probe s m); auto. destruct V as (V1 & _). rewrite V1. apply (n_tid _ _ S).
      * rewrite (named_proc u N). apply (H u IU).
    + intros y Y. destruct (H y Y) as (H1 & H2 & H3). split; [|split]; [intro fd|..]; congruence.
    + apply says_run; auto. exists u. auto.
  - intros p U. rewrite E3, E4, E5. apply FU. exact U.
Qed.

Lemma sim_kset : forall s m F M A i x, ksim s m -> furnished s m F M A -> r_reach s0 okm m -> okk s x ->
  match x with KSetFd j _ _ | KSetMode j _ => j = i | _ => False end ->
  exists m', r_reach s0 okm m' /\ ksim (k_step s x) m' /\ furnished (k_step s x) m' F M A.
Proof.
  intros s m F M A i x X FU R (_ & CF & _) SH. pose proof X as [W V A1 A2 L P RS RP Z H S]. pose proof V as (V1 & V2 & V3 & V4).
  destruct x as [| | | | |j fd d|j mo|]; try contradiction; subst j; cbn [k_step]; cbv zeta; (destruct (k_get s i) as [u|] eqn:G; [|eauto]); destruct (get_in s i u G) as (NU & IU & RU);
    assert (N : named u) by (apply (w_named _ W); auto).
  - exists (r_step m (LSetFd (t_pid (u_t u)) fd d)). split; [|split].
    + apply rr_step; auto. split; [|exact I]. intros t dev PT AT LF. assert (NI : r_pc m t <> RIdle) by (intro Q; rewrite Q in LF; discriminate LF).
      destruct (y_actor s m t X NI AT) as (k & w & RW & <-). apply (CF u k w dev); auto; [split; auto | | rewrite V3; auto].
      rewrite (named_proc w) in PT by (apply (w_named _ W); eapply nth_error_In; apply RW). auto.
    + apply (sim_same_sys s m _ _ X); [|reflexivity..| |].
      * repeat split; auto.
      * intros y Y. destruct (H y Y) as (H1 & H2 & H3). split; [|split]; cbn; auto. intro fd'. destruct ((t_pid (u_t y) =? t_pid (u_t u)) && (fd' =? fd)); auto.
      * destruct S as [S1 S2 S3]. constructor; auto.
    + intros p U. cbn. destruct (FU p U) as (F1 & F2 & F3). split; auto. intro fd'. destruct (Z.eqb_spec p (t_pid (u_t u))) as [->|NE]; [destruct (U u IU eq_refl) | cbn; auto].
  - exists (r_step m (LSetMode (t_pid (u_t u)) mo)). split; [|split].
    + apply rr_step; auto. split; exact I.
    + apply (sim_same_sys s m _ _ X); [|reflexivity..| |].
      * repeat split; auto.
      * intros y Y. destruct (H y Y) as (H1 & H2 & H3). split; [|split]; cbn; auto. destruct (Z.eq_dec (t_pid (u_t y)) (t_pid (u_t u))) as [->|NE]; [rewrite !upd_eq | rewrite !upd_neq by auto]; auto.
      * destruct S as [S1 S2 S3]. constructor; auto.
    + intros p U. cbn. destruct (FU p U) as (F1 & F2 & F3). rewrite upd_neq by (intro E; apply (U u IU); auto). auto.
Qed.

Lemma sim_kdie : forall s m F M A i, ksim s m -> furnished s m F M A -> r_reach s0 okm m -> okk s (KDie i) ->
  exists m', r_reach s0 okm m' /\ ksim (k_step s (KDie i)) m' /\ furnished (k_step s (KDie i)) m' F M A.
Proof.
  intros s m F M A i X FU R (_ & CF & _). cbn [k_step]; cbv zeta. destruct (k_get s i) as [u|] eqn:G; [|eauto]. destruct (get_in s i u G) as (NU & IU & RU).
  pose proof X as [W V A1 A2 L P RS RP Z H S]. pose proof V as (V1 & V2 & V3 & V4). assert (N : named u) by (apply (w_named _ W); auto).
  set (w := mkU (u_t u) false). assert (SN : same_nums u w) by (repeat split; auto; apply N). destruct (same_id u w N SN) as [NN EI].
  set (sys := replace_nth i w (k_sys s)).
  assert (PIDS : forall x, In x sys -> x = w \/ In x (k_sys s) /\ id_of x <> id_of u).
  { intros x I. destruct (replace_cases _ _ _ _ _ W NU NN EI I) as [->|[I' Q]]; auto. }
  assert (BACK : forall y, In y (k_sys s) -> exists x, In x sys /\ t_pid (u_t y) = t_pid (u_t x) /\ id_of y = id_of x).
  { intros y I. destruct (in_replace _ i u w y NU I) as [->|I']; [exists w; split; [eapply in_replace_new; eauto | auto] | exists y; auto]. }
  assert (IW : forall id, ids s id -> ids (mkK sys (ask_r sys (k_r s))) id) by (intros; eapply replace_id; eauto).
  assert (TH : forall p, p <> t_pid (u_t u) -> there sys p = there (k_sys s) p).
  { intros p NE. destruct (there (k_sys s) p) eqn:T.
    - apply there_iff in T as (y & Y & RY & <-). apply there_iff. exists y. split; auto. destruct (in_replace _ i u w y NU Y) as [->|I']; auto. congruence.
    - destruct (there sys p) eqn:T'; auto. apply there_iff in T' as (x & I & RX & <-). destruct (PIDS x I) as [->|[I' _]]; [discriminate RX|].
      assert (T2 : there (k_sys s) (t_pid (u_t x)) = true) by (apply there_iff; exists x; auto). congruence. }
  set (m1 := r_step m (LDieThread (id_of u))).
  assert (R1 : r_reach s0 okm m1). { apply rr_step; auto. split; [|exact I]. cbn. rewrite <- V3. apply CF. split; auto. }
  assert (W' : well sys) by (eapply well_replace; eauto).
  assert (T1 : forall x, In x sys -> r_talive m1 (id_of x) = u_run x).
  { intros x I. cbn. destruct (PIDS x I) as [->|[I' Q]]; [rewrite EI, upd_eq; auto | rewrite upd_neq by auto; auto]. }
  assert (Q1 : forall id, ~ ids (mkK sys (ask_r sys (k_r s))) id -> r_talive m1 id = true).
  { intros id NI. cbn. rewrite upd_neq; [apply RS; intro Q; apply NI, IW, Q|]. intros ->. apply NI, IW. exists u. auto. }
  assert (U1 : forall p, unborn (mkK sys (ask_r sys (k_r s))) p -> unborn s p).
  { intros p U y Y E. destruct (BACK y Y) as (x & I & EX & _). apply (U x I). congruence. }
  assert (HO : forall x, In x sys -> same_home (k_r s) m (t_pid (u_t x))).
  { intros x I. destruct (PIDS x I) as [->|[I' _]]; auto. apply (H u IU). }
  assert (SS : forall m', r_h m' = r_h m -> r_guard m' = r_guard m -> r_pc m' = r_pc m -> says (ids (mkK sys (ask_r sys (k_r s)))) m').
  { intros m' E1 E2 E3. destruct (says_mono _ _ m IW S) as [S1 S2 S3]. constructor; rewrite ?E1, ?E2, ?E3; auto. }
  destruct (there sys (t_pid (u_t u))) eqn:TU.
  - exists m1. split; [exact R1 | split].
    + constructor; auto.
      * intros x I. cbn [k_sys]. change (r_palive m1) with (r_palive m). destruct (Z.eq_dec (t_pid (u_t x)) (t_pid (u_t u))) as [E|NE].
        -- rewrite E, TU, (P u IU). apply there_iff. eauto.
        -- rewrite TH by auto. destruct (PIDS x I) as [->|[I' _]]; [destruct NE; auto | auto].
      * intros p U. apply RP. auto.
    + intros p U. apply FU. apply U1. exact U.
  - exists (r_step m1 (LDieProc (t_pid (u_t u)))). split; [|split].
    + apply rr_step; auto. split; [|exact I]. intros t PT AL IN. cbn in IN. assert (NI : r_pc m t <> RIdle) by (intro Q; rewrite Q in IN; destruct IN).
      destruct (n_act _ _ S t NI) as (y & Y & EY). unfold alive in AL. apply andb_true_iff in AL as [_ AL]. cbn in AL.
      destruct (Z.eq_dec t (id_of u)) as [->|NE]; [rewrite upd_eq in AL; discriminate AL|]. rewrite upd_neq in AL by auto. subst t. rewrite (L y Y) in AL.
      rewrite (named_proc y) in PT by (apply (w_named _ W); auto).
      assert (T2 : there sys (t_pid (u_t u)) = true); [|congruence]. apply there_iff. exists y. split; auto.
      destruct (in_replace _ i u w y NU Y) as [->|I']; auto. congruence.
    + constructor; auto.
      * intros x I. cbn [k_sys]. cbn. destruct (Z.eq_dec (t_pid (u_t x)) (t_pid (u_t u))) as [E|NE].
        -- rewrite E, upd_eq, TU. auto.
        -- rewrite upd_neq, TH by auto. destruct (PIDS x I) as [->|[I' _]]; [destruct NE; auto | auto].
      * intros p U. cbn. rewrite upd_neq; [apply RP; auto|]. intros ->. destruct (U1 _ U u IU eq_refl).
      * cbn. destruct (Z.eq_dec 0 (t_pid (u_t u))) as [E|NE]; [rewrite E, upd_eq; auto | rewrite upd_neq; auto].
    + intros p U. apply FU. apply U1. exact U.
Qed.
End Sim.

Section Reach.
Variables UF UO UL : list Z.
Variable fam : Z -> Z -> Z -> Prop.

Lemma sim_init : forall F M A, let m := r_step (r_init UF UO UL F M A) (LDieProc 0) in
  r_reach (r_init UF UO UL F M A) (okm fam) m /\ ksim (k_init UF UO UL) m /\ furnished (k_init UF UO UL) m F M A.
Proof.
  intros F M A. cbv zeta. split; [|split].
  - apply rr_step; [apply rr_init|]. split; [|exact I]. intros t _ _ [].
  - constructor; auto; try (intros u U; solve [destruct U]).
    + constructor; [intros u [] | intros i j u v Q; destruct i; discriminate Q].
    + repeat split; auto.
    + intros p U NZ. cbn. rewrite upd_neq by auto. auto.
    + constructor; cbn; auto; intros; try discriminate. congruence.
  - intros p U. cbn. auto.
Qed.

(** What happens with forks before first calls also happens without forks: some other processes with the same tables. *)
Theorem k_reach_sim : forall s, k_reach (k_init UF UO UL) (okk fam) s ->
  forall F M A, exists fds mode allow m, r_reach (r_init UF UO UL fds mode allow) (okm fam) m /\ ksim s m /\ furnished s m F M A.
Proof.
  intros s R. induction R as [|s x R IH EN OK]; intros F M A.
  - exists F, M, A, (r_step (r_init UF UO UL F M A) (LDieProc 0)). apply sim_init.
  - destruct x as [n tab mo al|i n|i n|i c|i race gu|i fd d|i mo|i].
    + destruct (IH (upd F n tab) (upd M n mo) (upd A n al)) as (fds & mode & allow & m & RM & X & FU). exists fds, mode, allow, m. split; auto.
      destruct EN as [NR FR].
      assert (UN : unborn s n) by (intros u U; apply (FR u U)). destruct (FU n UN) as (F1 & F2 & F3). rewrite upd_eq in F1, F2, F3.
      split.
      * apply (sim_more s m (mkU (mkT n n 0) true) (furnish (k_r s) n tab mo al)); auto.
        -- split; [apply names_itself_iff; left; auto|]. split; auto.
        -- intros u U. cbn. apply (FR u U).
        -- repeat split; auto.
        -- intros u U. destruct (y_home s m X u U) as (H1 & H2 & H3). assert (NE : t_pid (u_t u) <> n) by (apply (FR u U)).
           split; [|split]; cbn; rewrite upd_neq by auto; auto.
        -- split; [|split]; cbn; rewrite upd_eq; auto.
      * intros p U. assert (NE : p <> n). { intros ->. apply (U (mkU (mkT n n 0) true)); [cbn; apply in_or_app; right; left; auto | auto]. }
        assert (UP : unborn s p) by (intros u I; apply U; cbn; apply in_or_app; auto). destruct (FU p UP) as (G1 & G2 & G3). rewrite upd_neq in G1, G2, G3 by auto. auto.
    + destruct (IH F M A) as (fds & mode & allow & m & RM & X & FU). exists fds, mode, allow, m. split; auto. cbn [k_step]; cbv zeta.
      destruct (k_get s i) as [u|] eqn:G; [|auto]. destruct (get_in s i u G) as (NU & IU & RU). destruct EN as [NR FR].
      pose proof (y_named s m u X IU) as (_ & NP & _). split; [|apply furnished_more; auto].
      apply (sim_more s m (mkU (mkT (t_pid (u_t u)) n 0) true) (k_r s)); auto.
      * split; [apply names_itself_iff; left; auto|]. split; auto.
      * intros v U. cbn. apply (FR v U).
      * repeat split; auto.
      * intros v U. apply (y_home s m X v U).
      * apply (y_home s m X u IU).
      * left. apply there_iff. exists u. auto.
    + cbn [k_step]; cbv zeta. destruct (k_get s i) as [u|] eqn:G; [|auto]. destruct (r_pc (k_r s) (id_of u)) eqn:PC; auto. destruct (get_in s i u G) as (NU & IU & RU).
      set (p0 := t_pid (u_t u)) in *.
      destruct (IH (upd F n (r_fd (k_r s) p0)) (upd M n (r_mode (k_r s) p0)) (upd A n (r_allow (k_r s) p0))) as (fds & mode & allow & m & RM & X & FU).
      exists fds, mode, allow, m. split; auto. destruct EN as [NR FR].
      assert (UN : unborn s n) by (intros v U; apply (FR v U)). destruct (FU n UN) as (F1 & F2 & F3). rewrite upd_eq in F1, F2, F3.
      assert (C0 : t_cache (u_t u) = 0) by (apply OK; split; auto).
      split.
      * apply (sim_more s m (mkU (fork_child (u_t u) n) true) (furnish (k_r s) n (r_fd (k_r s) p0) (r_mode (k_r s) p0) (r_allow (k_r s) p0))); auto.
        -- split; [apply names_itself_iff; left; auto|]. split; auto.
        -- intros v U. cbn. apply (FR v U).
        -- repeat split; auto.
        -- intros v U. destruct (y_home s m X v U) as (H1 & H2 & H3). assert (NE : t_pid (u_t v) <> n) by (apply (FR v U)).
           split; [|split]; cbn; rewrite upd_neq by auto; auto.
        -- split; [|split]; cbn; rewrite upd_eq; auto.
      * intros p U. assert (NE : p <> n). { intros ->. apply (U (mkU (fork_child (u_t u) n) true)); [cbn; apply in_or_app; right; left; auto | auto]. }
        assert (UP : unborn s p) by (intros v I; apply U; cbn; apply in_or_app; auto). destruct (FU p UP) as (G1 & G2 & G3). rewrite upd_neq in G1, G2, G3 by auto. auto.
    + destruct (IH F M A) as (fds & mode & allow & m & RM & X & FU). exists fds, mode, allow. apply (sim_kcall fam _ s m); auto.
    + destruct (IH F M A) as (fds & mode & allow & m & RM & X & FU). exists fds, mode, allow. apply (sim_krun fam _ s m); auto.
    + destruct (IH F M A) as (fds & mode & allow & m & RM & X & FU). exists fds, mode, allow. apply (sim_kset fam _ s m F M A i); auto.
    + destruct (IH F M A) as (fds & mode & allow & m & RM & X & FU). exists fds, mode, allow. apply (sim_kset fam _ s m F M A i); auto.
    + destruct (IH F M A) as (fds & mode & allow & m & RM & X & FU). exists fds, mode, allow. apply (sim_kdie fam _ s m); auto.
Qed.
End Reach.
