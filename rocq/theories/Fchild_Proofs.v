(** When threads fork only before their first call, the mutex machine sees only threads that /proc knows. *)
From Coq Require Import ZArith List Bool Lia.
From Verif Require Import Base Pid_Model Pid_Proofs Mutex_Model Mutex_Proofs Mutex_Proofs2 Mutex_Props Fchild_Model Fchild_Spec.
Import ListNotations.
Open Scope Z_scope.

Definition named (u : user) : Prop := names_itself (u_t u) /\ 0 < t_pid (u_t u) <= INT_MAX /\ 0 < t_tid (u_t u) <= INT_MAX.

Lemma pos_int32 : forall n, 0 < n <= INT_MAX -> is_int32 n.
Proof. unfold is_int32, INT_MIN, INT_MAX. lia. Qed.

Lemma named_id : forall u, named u -> id_of u = compose_flckpid (t_pid (u_t u)) (t_tid (u_t u)).
Proof. intros u [N _]. unfold id_of, get_flckpid. unfold names_itself in N. destruct (get_threadid (u_t u)); cbn in *; congruence. Qed.
Lemma named_dec : forall u, named u -> decompose_pid (id_of u) = t_pid (u_t u) /\ decompose_tid (id_of u) = t_tid (u_t u).
Proof.
  intros u N. rewrite (named_id u N). destruct N as (_ & P & T).
  split; [apply decompose_pid_compose | apply decompose_tid_compose]; apply pos_int32; auto.
Qed.
Lemma named_nz : forall u, named u -> id_of u <> 0.
Proof. intros u N. rewrite (named_id u N). destruct N as (_ & P & T). apply compose_nonzero; try apply pos_int32; auto. lia. Qed.
Lemma named_inj : forall u w, named u -> named w -> id_of u = id_of w -> t_tid (u_t u) = t_tid (u_t w).
Proof. intros u w N M E. destruct (named_dec u N) as [_ <-]. destruct (named_dec w M) as [_ <-]. congruence. Qed.

(** all threads name themselves, and no two have the same number *)
Record well (sys : list user) : Prop := mkW {
  w_named : forall u, In u sys -> named u;
  w_uniq : forall i j u w, nth_error sys i = Some u -> nth_error sys j = Some w -> t_tid (u_t u) = t_tid (u_t w) -> i = j
}.

Lemma well_nth : forall sys u w, well sys -> In u sys -> In w sys -> id_of u = id_of w -> u = w.
Proof.
  intros sys u w W U V E. apply In_nth_error in U as [i U]. apply In_nth_error in V as [j V].
  assert (X : t_tid (u_t u) = t_tid (u_t w)) by (apply named_inj; auto; apply (w_named sys W); eapply nth_error_In; eauto).
  pose proof (w_uniq sys W i j u w U V X). congruence.
Qed.

Lemma found_run : forall sys u, well sys -> In u sys -> found sys (id_of u) = u_run u.
Proof.
  intros sys u W U. unfold found. destruct (named_dec u (w_named sys W u U)) as [-> ->]. unfold FindThreadProcess, procs. destruct (u_run u) eqn:R.
  - apply existsb_exists. exists (t_pid (u_t u), t_tid (u_t u)). split; [|cbn; rewrite !Z.eqb_refl; auto].
    apply (in_map (fun u => (t_pid (u_t u), t_tid (u_t u)))). apply filter_In. auto.
  - destruct (existsb _ _) eqn:E; auto. apply existsb_exists in E as (p & I & E). apply in_map_iff in I as (w & <- & I). apply filter_In in I as [I RW].
    cbn in E. apply andb_true_iff in E as [_ E]. apply Z.eqb_eq in E.
    apply In_nth_error in U as [i U]. apply In_nth_error in I as [j I]. pose proof (w_uniq sys W j i w u I U E). congruence.
Qed.

Lemma nth_replace : forall A (l : list A) i j x, nth_error (replace_nth i x l) j =
  if Nat.eqb i j then match nth_error l i with Some _ => Some x | None => None end else nth_error l j.
Proof.
  induction l as [|a l IH]; intros [|i] [|j] x; cbn; auto.
  destruct (Nat.eqb i j); auto.
Qed.

(** a thread that takes the place of one with the same numbers *)
Definition same_nums (u w : user) : Prop := t_pid (u_t w) = t_pid (u_t u) /\ t_tid (u_t w) = t_tid (u_t u) /\ names_itself (u_t w).
Lemma same_id : forall u w, named u -> same_nums u w -> named w /\ id_of w = id_of u.
Proof.
  intros u w N (P & T & X). assert (NW : named w). { destruct N as (_ & A & B). split; auto. rewrite P, T. auto. }
  split; auto. rewrite (named_id u N), (named_id w NW), P, T. auto.
Qed.
Lemma well_replace : forall sys i u w, well sys -> nth_error sys i = Some u -> same_nums u w -> well (replace_nth i w sys).
Proof.
  intros sys i u w [W1 W2] U S. assert (N : named w) by (apply (same_id u w); auto; apply W1; eapply nth_error_In; eauto). constructor.
  - intros x X. apply In_replace_nth in X as [->|X]; auto.
  - intros a b x y X Y E. rewrite nth_replace in X, Y. rewrite U in X, Y. destruct S as (P & T & _).
    destruct (Nat.eqb_spec i a) as [EA|NA], (Nat.eqb_spec i b) as [EB|NB]; try congruence.
    + inversion X; subst x. rewrite <- EA. apply (W2 i b u y); auto. congruence.
    + inversion Y; subst y. rewrite <- EB. apply (W2 a i x u); auto. congruence.
    + apply (W2 a b x y); auto.
Qed.
Lemma in_replace : forall (sys : list user) i u w x, nth_error sys i = Some u -> In x sys -> x = u \/ In x (replace_nth i w sys).
Proof.
  intros sys i u w x U X. apply In_nth_error in X as [j X]. destruct (Nat.eqb_spec i j) as [->|N]; [left; congruence|]. right.
  apply (nth_error_In _ j). rewrite nth_replace. destruct (Nat.eqb_spec i j); [contradiction | auto].
Qed.
Lemma in_replace_new : forall (sys : list user) i u w, nth_error sys i = Some u -> In w (replace_nth i w sys).
Proof. intros sys i u w U. apply (nth_error_In _ i). rewrite nth_replace, Nat.eqb_refl, U. auto. Qed.
(** an element of the changed list is the new one, or another thread of the old list *)
Lemma replace_cases : forall sys i u w x, well sys -> nth_error sys i = Some u -> named w -> id_of w = id_of u -> In x (replace_nth i w sys) ->
  x = w \/ (In x sys /\ id_of x <> id_of u).
Proof.
  intros sys i u w x W U N E X. apply In_nth_error in X as [j X]. rewrite nth_replace, U in X. destruct (Nat.eqb_spec i j) as [->|NE]; [left; congruence|].
  right. assert (IX : In x sys) by (eapply nth_error_In; eauto). split; auto. intro Q. apply NE.
  assert (x = u) by (apply (well_nth sys); auto; eapply nth_error_In; eauto). subst x. apply (w_uniq sys W i j u u); auto.
Qed.
Lemma replace_id : forall sys i u w id, nth_error sys i = Some u -> id_of w = id_of u -> (exists x, In x sys /\ id_of x = id) ->
  exists x, In x (replace_nth i w sys) /\ id_of x = id.
Proof.
  intros sys i u w id U E (x & X & <-). destruct (in_replace sys i u w x U X) as [->|H]; [|eauto].
  exists w. split; auto. eapply in_replace_new; eauto.
Qed.

Lemma well_app : forall sys w, well sys -> named w -> (forall u, In u sys -> t_tid (u_t u) <> t_tid (u_t w)) -> well (sys ++ [w]).
Proof.
  intros sys w [W1 W2] N F. constructor.
  - intros u U. apply in_app_or in U as [U|[<-|[]]]; auto.
  - intros i j u v U V E. destruct (Nat.lt_ge_cases i (length sys)) as [A|A], (Nat.lt_ge_cases j (length sys)) as [B|B].
    + rewrite nth_error_app1 in U, V by auto. eauto.
    + rewrite nth_error_app1 in U by auto. rewrite nth_error_app2 in V by auto. destruct (j - length sys)%nat as [|[|k]] eqn:D; cbn in V; try discriminate.
      inversion V; subst v. exfalso. apply (F u); auto. eapply nth_error_In; eauto.
    + rewrite nth_error_app1 in V by auto. rewrite nth_error_app2 in U by auto. destruct (i - length sys)%nat as [|[|k]] eqn:D; cbn in U; try discriminate.
      inversion U; subst u. exfalso. apply (F v); auto. eapply nth_error_In; eauto.
    + rewrite nth_error_app2 in U, V by auto. destruct (i - length sys)%nat as [|[|k]] eqn:D; cbn in U; try discriminate.
      destruct (j - length sys)%nat as [|[|k']] eqn:D'; cbn in V; try discriminate. lia.
Qed.

(** ** The two machines *)
Definition same_view (a b : mstate) : Prop :=
  m_val a = m_val b /\ m_cnt a = m_cnt b /\ m_guard a = m_guard b /\ m_pc a = m_pc b /\ m_own a = m_own b /\ m_depth a = m_depth b /\ m_res a = m_res b.

(** what the shared words and the program points mention *)
Record mentions (ids : Z -> Prop) (m : mstate) : Prop := mkMen {
  n_val : m_val m = 0 \/ ids (m_val m);
  n_guard : m_guard m = 0 \/ ids (m_guard m);
  n_k1 : forall t ret v, m_pc m t = MK1 ret v -> ids v;
  n_pc : forall t, m_pc m t <> MIdle -> ids t
}.

Ltac fin := repeat match goal with |- context [if ?b then _ else _] => destruct b eqn:? end.

Lemma view_run : forall a b t again, same_view a b -> (m_guard a <> 0 -> m_alive a (m_guard a) = m_alive b (m_guard a)) ->
  (forall ret v, m_pc a t = MK1 ret v -> m_alive a v = m_alive b v) -> same_view (m_run a t again) (m_run b t again).
Proof.
  intros [va ca ga la pa oa da ra] [vb cb gb lb pb ob db rb] t again (E1 & E2 & E3 & E4 & E5 & E6 & E7) G K. cbn in *. subst vb cb gb pb ob db rb.
  assert (GG : (ga =? 0) || (ga =? t) || negb (la ga) = (ga =? 0) || (ga =? t) || negb (lb ga)).
  { destruct (Z.eqb_spec ga 0); auto. rewrite G; auto. }
  unfold m_run, m_take_guard. cbn. destruct (pa t) eqn:PC; cbn; rewrite <- ?GG; try rewrite <- (K _ _ eq_refl);
    unfold m_failed, m_unlock_end, m_drop_guard, m_goto, m_set, m_return, m_locked, m_unlocked, same_view; cbn;
    repeat match goal with
    | |- context [if ?b then _ else _] => destruct b
    | |- context [match ?k with MBlock => _ | MTimed => _ | MTry => _ end] => destruct k
    | |- context [match ?o with None => _ | Some _ => _ end] => destruct o
    end; repeat split.
Qed.
Lemma view_call : forall a b t c, same_view a b -> same_view (m_call a t c) (m_call b t c).
Proof.
  intros a b t c (E1 & E2 & E3 & E4 & E5 & E6 & E7). unfold m_call. rewrite <- E4. destruct (m_pc a t); [destruct c|..];
    unfold same_view, m_goto; cbn; repeat split; congruence.
Qed.

Lemma men_goto : forall ids m t p, mentions ids m -> ids t -> (forall ret v, p <> MK1 ret v) -> mentions ids (m_goto m t p).
Proof.
  intros ids m t p [V G K P] I N. constructor; cbn; auto.
  - intros u ret v. destruct (Z.eq_dec u t) as [->|NE]; [rewrite upd_eq; intro X; exfalso; eapply N; eauto | rewrite upd_neq by auto; eauto].
  - intros u. destruct (Z.eq_dec u t) as [->|NE]; [auto | rewrite upd_neq by auto; auto].
Qed.
Lemma men_idle : forall ids m m' t, mentions ids m -> m_val m' = m_val m -> m_guard m' = m_guard m -> m_pc m' = upd (m_pc m) t MIdle -> mentions ids m'.
Proof.
  intros ids m m' t [V G K P] EV EG EP. constructor; rewrite ?EV, ?EG, ?EP; auto.
  - intros u ret v. destruct (Z.eq_dec u t) as [->|NE]; [rewrite upd_eq; discriminate | rewrite upd_neq by auto; eauto].
  - intros u. destruct (Z.eq_dec u t) as [->|NE]; [rewrite upd_eq; congruence | rewrite upd_neq by auto; auto].
Qed.
Lemma men_set : forall ids m v c g, mentions ids m -> v = 0 \/ ids v -> g = 0 \/ ids g -> mentions ids (m_set m v c g).
Proof. intros ids m v c g [V G K P] A B. constructor; cbn; auto. Qed.

Lemma men_run : forall ids m t again, mentions ids m -> ids t -> mentions ids (m_run m t again).
Proof.
  intros ids m t again M I. pose proof (n_val ids m M) as V. pose proof (n_guard ids m M) as G.
  assert (FA : forall m' k b, mentions ids m' -> mentions ids (m_failed m' t k b)).
  { intros m' k b M'. unfold m_failed. destruct k; [destruct b| |destruct b];
      first [apply men_goto; auto; intros; discriminate | apply (men_idle ids m' _ t); auto]. }
  assert (UE : forall m' g r, mentions ids m' -> mentions ids (m_unlock_end m' t g r)).
  { intros m' g r M'. unfold m_unlock_end. destruct g; [apply men_goto; auto; intros; discriminate | apply (men_idle ids m' _ t); auto]. }
  assert (DG : mentions ids (m_drop_guard m t)) by (unfold m_drop_guard; destruct (m_guard m =? t); auto; apply men_set; auto).
  unfold m_run, m_take_guard. destruct (m_pc m t) eqn:PC; auto; fin; auto;
    try (apply men_goto; auto; try (intros; discriminate); apply men_set; auto; fail);
    try (apply men_goto; auto; intros; discriminate; fail);
    try (apply FA; auto; apply men_set; auto; fail);
    try (apply UE; auto; apply men_set; auto; fail).
  - (* MConfirm *) apply (men_idle ids m _ t); auto.
  - (* MAdd2 *) apply (men_idle ids (m_set m (m_val m) (m_cnt m + 1) (m_guard m)) _ t); auto. apply men_set; auto.
  - (* MURel *) apply (men_idle ids (m_drop_guard m t) _ t); auto.
  - (* MK0 *) constructor; cbn; auto.
    + intros u r v. destruct (Z.eq_dec u t) as [->|NE]; [rewrite upd_eq | rewrite upd_neq by auto; apply (n_k1 ids m M)].
      intro X. inversion X; subst. apply orb_false_iff in Heqb as [H _]. apply Z.eqb_neq in H. destruct V; congruence.
    + intros u. destruct (Z.eq_dec u t) as [->|NE]; [auto | rewrite upd_neq by auto; apply (n_pc ids m M)].
  - (* MKRel *) destruct ret; [apply men_goto; auto; intros; discriminate | apply (men_idle ids (m_drop_guard m t) _ t); auto].
Qed.
Lemma men_call : forall ids m t c, mentions ids m -> ids t -> mentions ids (m_call m t c).
Proof.
  intros ids m t c M I. unfold m_call. destruct (m_pc m t); auto. destruct c; apply men_goto; auto; try (intros; discriminate);
    destruct M as [V G K P]; constructor; auto.
Qed.

(** the mutex machine with the deaths of the user threads *)
Record sim (s : fstate) (m : mstate) : Prop := mkSim {
  x_well : well (f_sys s);
  x_view : same_view (f_m s) m;
  x_ask : m_alive (f_m s) = found (f_sys s);
  x_alive : forall u, In u (f_sys s) -> m_alive m (id_of u) = u_run u;
  x_rest : forall id, (forall u, In u (f_sys s) -> id_of u <> id) -> m_alive m id = true;
  x_men : mentions (fun id => exists u, In u (f_sys s) /\ id_of u = id) m
}.

Lemma found_alive : forall s m id, sim s m -> (exists u, In u (f_sys s) /\ id_of u = id) -> m_alive (f_m s) id = m_alive m id.
Proof. intros s m id X (u & U & <-). rewrite (x_ask s m X), (x_alive s m X u U). apply found_run; auto. apply (x_well s m X). Qed.

Lemma sim_new : forall s m w, sim s m -> named w -> u_run w = true -> (forall u, In u (f_sys s) -> t_tid (u_t u) <> t_tid (u_t w)) ->
  sim (mkF (f_sys s ++ [w]) (ask (f_sys s ++ [w]) (f_m s))) m.
Proof.
  intros s m w [W V A L R M] N RW F. constructor; cbn [f_sys f_m]; auto.
  - apply well_app; auto.
  - intros u U. apply in_app_or in U as [U|[<-|[]]]; auto. rewrite RW. apply R. intros u U E. apply (F u U). apply named_inj; auto. apply (w_named _ W); auto.
  - intros id H. apply R. intros u U. apply H. apply in_or_app. auto.
  - assert (UP : forall id, (exists u, In u (f_sys s) /\ id_of u = id) -> exists u, In u (f_sys s ++ [w]) /\ id_of u = id).
    { intros id (u & U & E). exists u. split; auto. apply in_or_app. auto. }
    destruct M as [M1 M2 M3 M4]. constructor; eauto; [destruct M1 | destruct M2]; auto.
Qed.

Lemma men_mono : forall (a b : Z -> Prop) m, (forall id, a id -> b id) -> mentions a m -> mentions b m.
Proof. intros a b m H [M1 M2 M3 M4]. constructor; eauto; [destruct M1 | destruct M2]; auto. Qed.

Lemma sim_step : forall s x m, sim s m -> m_reach no_exit_in_window m -> f_enabled s x -> fork_first s x -> no_window s x ->
  exists m', m_reach no_exit_in_window m' /\ sim (f_step s x) m'.
Proof.
  intros s x m X R EN FF NW. pose proof X as [W V A L RS M]. destruct x as [n|i n|i n|i c|i b|i]; cbn [f_step]; cbv zeta.
  - (* FProc *) exists m. split; auto. destruct EN as [B F]. apply sim_new; auto.
    + split; [apply names_itself_iff; left; auto | cbn; auto].
    + intros u U. apply (F u U).
  - destruct (nth_error (f_sys s) i) as [u|] eqn:U; [|eauto]. destruct (u_run u) eqn:RU; [|eauto]. exists m. split; auto. destruct EN as [B F].
    assert (N : named u) by (apply (w_named _ W); eapply nth_error_In; eauto). apply sim_new; auto.
    + split; [apply names_itself_iff; left; auto | cbn; split; auto; apply N].
    + intros w I. apply (F w I).
  - destruct (nth_error (f_sys s) i) as [u|] eqn:U; [|eauto]. destruct (u_run u) eqn:RU; [|eauto]. destruct (m_pc (f_m s) (id_of u)); eauto.
    exists m. split; auto. destruct EN as [B F]. assert (C : t_cache (u_t u) = 0) by (apply (FF u); split; auto). apply sim_new; auto.
    + split; [apply names_itself_iff; left; auto | cbn; auto].
    + intros w I. apply (F w I).
  - (* FCall *) destruct (nth_error (f_sys s) i) as [u|] eqn:U; [|eauto]. destruct (u_run u) eqn:RU; [|eauto].
    assert (IU : In u (f_sys s)) by (eapply nth_error_In; eauto). assert (N : named u) by (apply (w_named _ W); auto).
    set (w := mkU (snd (get_flckpid (u_t u))) true).
    assert (SN : same_nums u w). { unfold same_nums, w. cbn [u_t]. split; [|split; [|apply query_keeps; apply N]]; unfold get_flckpid, get_threadid; destruct (t_cache (u_t u) =? 0); auto. }
    destruct (same_id u w N SN) as [NN EI].
    exists (m_step m (MCall (id_of u) c)). split.
    { apply mr_step; [auto | split; [apply named_nz; auto | rewrite L; auto] | exact I]. }
    assert (IW : forall id, (exists x, In x (f_sys s) /\ id_of x = id) -> exists x, In x (replace_nth i w (f_sys s)) /\ id_of x = id) by (intros; eapply replace_id; eauto).
    constructor; cbn [f_sys f_m m_step]; auto.
    + eapply well_replace; eauto.
    + pose proof (view_call (f_m s) m (id_of u) c V) as H. exact H.
    + rewrite alive_call. intros x I. destruct (replace_cases _ _ _ _ _ W U NN EI I) as [->|[I' _]]; [rewrite EI, L; auto | apply L; auto].
    + rewrite alive_call. intros id H. apply RS. intros x I E. destruct (IW id ltac:(eauto)) as (y & Y & EY). apply (H y Y EY).
    + apply men_call; [apply (men_mono _ _ m IW M) | eauto].
  - (* FRun *) destruct (nth_error (f_sys s) i) as [u|] eqn:U; [|eauto]. destruct (u_run u) eqn:RU; [|eauto].
    assert (IU : In u (f_sys s)) by (eapply nth_error_In; eauto). assert (N : named u) by (apply (w_named _ W); auto).
    exists (m_step m (MRun (id_of u) b)). split.
    { apply mr_step; [auto | split; [apply named_nz; auto | rewrite L; auto] | exact I]. }
    constructor; cbn [f_sys f_m m_step]; auto.
    + pose proof V as (V1 & V2 & V3 & V4 & _).
      assert (H : same_view (m_run (f_m s) (id_of u) b) (m_run m (id_of u) b)).
      { apply view_run; auto.
        - intro NZ. apply (found_alive s m); auto. rewrite V3 in *. destruct (n_guard _ _ M) as [Q|Q]; [contradiction | exact Q].
        - intros ret v PC. apply (found_alive s m); auto. rewrite V4 in PC. apply (n_k1 _ _ M _ _ _ PC). }
      exact H.
    + rewrite alive_run. auto.
    + rewrite alive_run. auto.
    + apply men_run; eauto.
  - (* FDie *) destruct (nth_error (f_sys s) i) as [u|] eqn:U; [|eauto]. destruct (u_run u) eqn:RU; [|eauto].
    assert (IU : In u (f_sys s)) by (eapply nth_error_In; eauto). assert (N : named u) by (apply (w_named _ W); auto).
    set (w := mkU (u_t u) false). assert (SN : same_nums u w) by (split; [|split]; auto; apply N). destruct (same_id u w N SN) as [NN EI].
    exists (m_step m (MDie (id_of u))). split.
    { apply mr_step; [auto | apply named_nz; auto |]. intros c ret AC PC. destruct (n_pc _ _ M c) as (y & Y & <-); [rewrite PC; discriminate|].
      pose proof V as (V1 & V2 & V3 & V4 & _). rewrite <- V1. apply In_nth_error in Y as [j Y].
      apply (NW u j y ret); [split; auto | split; auto | rewrite V4; auto]. rewrite L in AC; auto. eapply nth_error_In; eauto. }
    assert (IW : forall id, (exists x, In x (f_sys s) /\ id_of x = id) -> exists x, In x (replace_nth i w (f_sys s)) /\ id_of x = id) by (intros; eapply replace_id; eauto).
    constructor; cbn [f_sys f_m m_step m_alive]; auto.
    + eapply well_replace; eauto.
    + intros x I. destruct (replace_cases _ _ _ _ _ W U NN EI I) as [->|[I' NE]]; [rewrite EI, upd_eq; auto | rewrite upd_neq by auto; auto].
    + intros id H. destruct (Z.eq_dec id (id_of u)) as [->|NE].
      * exfalso. apply (H w); auto. eapply in_replace_new; eauto.
      * rewrite upd_neq by auto. apply RS. intros x I E. destruct (IW id ltac:(eauto)) as (y & Y & EY). apply (H y Y EY).
    + assert (M' := men_mono _ _ m IW M). destruct M' as [M1 M2 M3 M4]. constructor; auto.
Qed.

Lemma sim_init : sim f_init m_init.
Proof.
  constructor; cbn; auto; try contradiction; [constructor; cbn; try contradiction; intros i; destruct i; discriminate | repeat split |].
  constructor; cbn; auto; try discriminate. intros t H. contradiction.
Qed.

Lemma f_reach_sim : forall s, f_reach (both fork_first no_window) s -> exists m, m_reach no_exit_in_window m /\ sim s m.
Proof.
  intros s R. induction R as [|s x R (m & RM & X) EN [FF NW]]; [exists m_init; split; [constructor | apply sim_init]|].
  apply (sim_step s x m); auto.
Qed.
