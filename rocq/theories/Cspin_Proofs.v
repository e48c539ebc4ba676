(** The spin lock around the conditions behaves as the atomic one of Cond_Model.v. *)
From Coq Require Import ZArith List Bool Lia.
From Verif Require Import Base Cond_Model Cond_Spec Cond_Proofs Cond_Proofs2 Cond_Proofs3 Guard_Model Cspin_Model Cspin_Spec.
Import ListNotations.
Open Scope Z_scope.

(** who owns the list lock and lives is inside *)
Definition inside (s : cstate) : Prop := forall u, c_guard s = Some u -> u <> 0 /\ (c_alive s u = true -> crit (c_pc s u) = true).
(** who is inside and lives owns the list lock *)
Definition owns (s : cstate) : Prop := forall t, c_alive s t = true -> crit (c_pc s t) = true -> c_guard s = Some t.

Lemma inside_goto : forall s t p, inside s -> (c_guard s = Some t -> crit p = true) -> inside (goto s t p).
Proof.
  intros s t p H C u G. cbn in *. destruct (H u G) as [A B]. split; auto. intro AL. destruct (Z.eq_dec u t) as [->|N]; [rewrite upd_eq; auto | rewrite upd_neq; auto].
Qed.
Lemma inside_ret : forall s t r, inside s -> c_guard s <> Some t -> inside (ret s t r).
Proof.
  intros s t r H C u G. cbn in *. destruct (H u G) as [A B]. split; auto. intro AL. destruct (Z.eq_dec u t) as [->|N]; [contradiction | rewrite upd_neq; auto].
Qed.
Lemma inside_free : forall s, inside (set_guard s None).
Proof. intros s u G. discriminate G. Qed.
Lemma inside_same : forall s s', inside s -> c_guard s' = c_guard s -> c_alive s' = c_alive s -> c_pc s' = c_pc s -> inside s'.
Proof. intros s s' H E1 E2 E3 u G. rewrite E1 in G. rewrite E2, E3. auto. Qed.
Lemma inside_take : forall s t p, inside s -> t <> 0 -> crit p = true -> inside (take_guard s t p).
Proof.
  intros s t p H T0 C. destruct (take_cases s t p) as [->|[-> _]]; auto. intros u G. cbn in *. injection G as <-. split; auto. rewrite upd_eq. auto.
Qed.
Lemma unlock_guard : forall s m t, c_guard (unlock_mutex s m t) = c_guard s /\ c_alive (unlock_mutex s m t) = c_alive s /\ c_pc (unlock_mutex s m t) = c_pc s.
Proof. intros s m t. unfold unlock_mutex. destruct (c_m s m =? t); auto. Qed.

Lemma inside_run : forall s t g, inside s -> c_alive s t = true -> t <> 0 -> inside (c_run s t g).
Proof.
  intros s t g H AL T0.
  assert (NG : crit (c_pc s t) = false -> c_guard s <> Some t).
  { intros C G. destruct (H t G) as [_ D]. rewrite (D AL) in C. discriminate. }
  unfold c_run. destruct (c_pc s t) as [|m k|m|a|a|a|a w|a w|a w|a w|a w r|a w|a w r|a w r|a w r|a w r|r|c b|c b|c ws l|c w|c ws|c w ws| |cs ws] eqn:Ep; cbn [crit] in NG; auto;
    try (apply inside_take; auto; fail).
  - destruct (can_lock s m t); [apply inside_ret; auto; eapply inside_same; eauto|]. destruct k; auto; [destruct g; auto|]; apply inside_ret; auto.
  - destruct (unlock_guard s m t) as (A & B & C). apply inside_ret; [eapply inside_same; eauto | rewrite A; auto].
  - destruct (mem _ _); [apply inside_goto; auto|]. destruct (c_cfree s); (apply inside_goto; [|auto]); auto; eapply inside_same; eauto.
  - destruct (c_pool s); (apply inside_goto; [|auto]); auto; eapply inside_same; eauto.
  - apply inside_goto; [eapply inside_same; eauto | auto].
  - apply inside_goto; [apply inside_free | discriminate].
  - apply inside_goto; [eapply inside_same; eauto|]. cbn. intro G. exact (False_ind _ (NG eq_refl G)).
  - cbv zeta. destruct (unlock_guard s (w_mtx (c_w s w)) t) as (A & B & C). apply inside_goto; [eapply inside_same; eauto|]. rewrite A. intro G. exact (False_ind _ (NG eq_refl G)).
  - apply inside_goto; [eapply inside_same; eauto|]. cbn. intro G. exact (False_ind _ (NG eq_refl G)).
  - destruct (w_wait _); [destruct (a_k a); auto; destruct g; auto|]; apply inside_goto; auto; intro G; exact (False_ind _ (NG eq_refl G)).
  - cbv zeta. destruct (can_lock s _ t); [apply inside_goto; [eapply inside_same; eauto|]; cbn; intro G; exact (False_ind _ (NG eq_refl G))|].
    destruct (a_k a); auto; [destruct g; auto|]; apply inside_goto; auto; intro G; exact (False_ind _ (NG eq_refl G)).
  - destruct (mem _ _); (apply inside_goto; [|auto]); auto; eapply inside_same; eauto.
  - apply inside_goto; [eapply inside_same; eauto | auto].
  - apply inside_ret; [apply inside_free | discriminate].
  - destruct (mem _ _); apply inside_goto; auto; destruct b; auto.
  - destruct ws as [|w ws]; [destruct l|]; apply inside_goto; auto.
  - apply inside_goto; [eapply inside_same; eauto | auto].
  - destruct ws as [|w ws]; [apply inside_goto; auto|]. destruct (w_wait _); apply inside_goto; auto.
  - apply inside_goto; [eapply inside_same; eauto | auto].
  - destruct cs as [|c cs]; [apply inside_goto; auto|]. destruct ws as [[|w ws]|]; try (apply inside_goto; auto; fail).
    cbv zeta. destruct (_ && _); apply inside_goto; auto; eapply inside_same; eauto.
Qed.
Lemma inside_step : forall s x, inside s -> inside (c_step s x).
Proof.
  intros s x H. destruct x as [t cc|t g|t|m]; cbn [c_step].
  - destruct (c_alive s t && negb (t =? 0)) eqn:A; auto. apply andb_true_iff in A as [AL T0]. destruct (c_pc s t) eqn:Ep; auto.
    assert (NG : c_guard s <> Some t) by (intro G; destruct (H t G) as [_ D]; specialize (D AL); rewrite Ep in D; discriminate).
    destruct cc; cbn [c_call]; try (apply inside_goto; [try (eapply inside_same; eauto; fail); auto | cbn; intro G; contradiction]; fail);
      destruct (c_mk s _); first [apply inside_goto; [auto | cbn; intro G; contradiction] | apply inside_ret; auto].
  - destruct (c_alive s t && negb (t =? 0)) eqn:A; auto. apply andb_true_iff in A as [AL T0]. apply negb_true_iff, Z.eqb_neq in T0. apply inside_run; auto.
  - destruct (t =? 0); auto. intros u G. cbn in *. destruct (H u G) as [U0 D]. split; auto. intro AL.
    destruct (Z.eq_dec u t) as [->|N]; [rewrite upd_eq in AL; discriminate | rewrite upd_neq in AL by auto; auto].
  - destruct (c_alive s (c_m s m)); auto; eapply inside_same; eauto.
Qed.
Lemma inside_init : forall UW n, inside (c_init UW n).
Proof. intros UW n u G. discriminate G. Qed.

(** ** Where threads are inside the loops *)
Definition spot_ok (s : cstate) (p : cpc) (x : gpc) : Prop :=
  match x with
  | GIdle => True
  | GLock _ _ | GLockProbe _ _ => entry s p <> None
  | GLockTake _ o => entry s p <> None /\ c_alive s o = false
  | GUnlock _ _ => leaves p = true
  | _ => False
  end.
Definition spots (y : ystate) : Prop := forall t, c_alive (y_c y) t = true -> spot_ok (y_c y) (c_pc (y_c y) t) (y_g y t).
Record yinv (y : ystate) : Prop := { yi_in : inside (y_c y); yi_owns : owns (y_c y); yi_spots : spots y }.

Lemma guard_word : forall s, inside s -> guard_of (word_of (c_guard s)) = c_guard s.
Proof.
  intros s H. destruct (c_guard s) as [u|] eqn:E; auto. cbn. unfold guard_of. destruct (Z.eqb_spec u 0) as [->|N]; auto. destruct (H 0 E); congruence.
Qed.
Lemma set_guard_same : forall s, set_guard s (c_guard s) = s.
Proof. intros []. reflexivity. Qed.
Lemma set_guard_twice : forall s g g', set_guard (set_guard s g) g' = set_guard s g'.
Proof. reflexivity. Qed.
Lemma leave_run : forall s t g gu, leaves (c_pc s t) = true -> c_run (set_guard s g) t gu = c_run s t gu.
Proof. intros s t g gu L. unfold c_run. cbn [c_pc set_guard]. destruct (c_pc s t); try discriminate; reflexivity. Qed.
Lemma leaves_crit : forall p, leaves p = true -> crit p = true.
Proof. intros [] H; try discriminate; reflexivity. Qed.
Lemma leaves_entry : forall s p, leaves p = true -> entry s p = None.
Proof. intros s [] H; try discriminate; reflexivity. Qed.
Lemma entry_crit : forall s p q, entry s p = Some q -> crit p = false /\ crit q = true.
Proof. intros s [] q H; try discriminate; injection H as <-; auto. Qed.
Lemma entry_some : forall s p, entry s p <> None -> exists q, entry s p = Some q.
Proof. intros s p H. destruct (entry s p); eauto. contradiction. Qed.
(** the step of Cond_Model.v that takes the list lock *)
Lemma entry_run : forall s t p gu, entry s (c_pc s t) = Some p -> c_run s t gu = take_guard s t p.
Proof. intros s t p gu H. unfold c_run. destruct (c_pc s t); try discriminate; injection H as <-; reflexivity. Qed.
Lemma take_free : forall s t p, c_guard s = None -> take_guard s t p = goto (set_guard s (Some t)) t p.
Proof. intros s t p G. unfold take_guard. rewrite G. reflexivity. Qed.
Lemma take_dead : forall s t p u, c_guard s = Some u -> c_alive s u = false -> take_guard s t p = goto (set_guard s (Some t)) t p.
Proof. intros s t p u G D. unfold take_guard. rewrite G, D. reflexivity. Qed.

Lemma y_run_other : forall y t b u, u <> t -> y_g (y_run y t b) u = y_g y u.
Proof.
  intros y t b u N. unfold y_run. destruct (entry _ _); [|destruct (leaves _)]; auto;
    destruct (g_pc (Guard_Model.g_step _ t) t); cbn [y_g]; rewrite ?upd_neq by auto; auto.
Qed.

Ltac fin4 := split; [|split; [|split]]; auto; discriminate.
(** one step: nothing happens to the machine of Cond_Model.v, or one step of it *)
Lemma y_run_cases : forall y t b, t <> 0 -> c_alive (y_c y) t = true -> yinv y -> y_g (y_run y t b) t <> GUB ->
  (y_c (y_run y t b) = y_c y /\ c_pc (y_c y) t <> CIdle /\ spot_ok (y_c y) (c_pc (y_c y) t) (y_g (y_run y t b) t) /\ y_g (y_run y t b) t <> GIdle) \/
  (y_c (y_run y t b) = c_run (y_c y) t b /\ y_g (y_run y t b) t = GIdle).
Proof.
  intros y t b T0 AL [IN OW SP] NU. specialize (SP t AL). remember (y_c y) as s eqn:Es.
  assert (V : forall x, y_view y t x = mkG (word_of (c_guard s)) (c_alive s) (upd (y_g y) t x)) by (intros; unfold y_view; rewrite <- Es; reflexivity).
  assert (SAME : set_guard s (guard_of (word_of (c_guard s))) = s) by (rewrite guard_word by auto; apply set_guard_same).
  unfold y_run in *. rewrite <- Es in *. destruct (entry s (c_pc s t)) as [p|] eqn:Ee.
  - destruct (entry_crit _ _ _ Ee) as [C1 C2].
    assert (NI : c_pc s t <> CIdle) by (intro E; rewrite E in Ee; discriminate).
    assert (GT : c_guard s <> Some t) by (intro G; destruct (IN t G) as [_ D]; rewrite (D AL) in C1; discriminate).
    assert (EN : entry s (c_pc s t) <> None) by (rewrite Ee; discriminate).
    unfold Guard_Model.g_step in *. rewrite V in *. cbn [g_pc g_word g_alive] in *. rewrite upd_eq in *.
    destruct (y_g y t) as [ |c o|c o|c o| |c o|c o|c o| ] eqn:Eg; cbn [spot_ok] in SP; try contradiction.
    + left. cbn [g_pc g_word] in *. rewrite upd_eq in *. cbn [y_c y_g]. rewrite upd_eq. cbn [spot_ok]. fin4.
    + destruct (word_of (c_guard s) =? 0) eqn:E0; cbn [g_pc g_word] in *.
      * right. rewrite upd_eq in *. cbn [y_c y_g]. rewrite upd_eq. split; auto. rewrite (entry_run s t p b Ee).
        assert (GN : c_guard s = None) by (destruct (c_guard s) as [u|] eqn:E; auto; cbn in E0; apply Z.eqb_eq in E0; destruct (IN u E); congruence).
        rewrite take_free by auto. unfold guard_of. destruct (Z.eqb_spec t 0); [contradiction | reflexivity].
      * destruct (word_of (c_guard s) =? t) eqn:E1; cbn [g_pc g_word] in *.
        -- exfalso. apply Z.eqb_eq in E1. destruct (c_guard s) as [u|] eqn:E; cbn in E1; congruence.
        -- left. destruct (negb (word_of (c_guard s) =? o)).
           ++ cbn [g_pc g_word] in *. rewrite upd_eq in *. unfold g_next in *. destruct (0 =? INT_MAX); cbn [y_c y_g] in *; rewrite upd_eq in *; [congruence|]. cbn [spot_ok]. fin4.
           ++ destruct (TRYLOCK_LIMIT <? c); cbn [g_pc g_word] in *; rewrite upd_eq in *.
              ** cbn [y_c y_g]. rewrite upd_eq. cbn [spot_ok]. fin4.
              ** unfold g_next in *. destruct (c =? INT_MAX); cbn [y_c y_g] in *; rewrite upd_eq in *; [congruence|]. cbn [spot_ok]. fin4.
    + left. destruct (c_alive s o) eqn:A; cbn [g_pc g_word] in *; rewrite upd_eq in *.
      * unfold g_next in *. destruct (c =? INT_MAX); cbn [y_c y_g] in *; rewrite upd_eq in *; [congruence|]. cbn [spot_ok]. fin4.
      * cbn [y_c y_g]. rewrite upd_eq. cbn [spot_ok]. fin4.
    + destruct SP as [_ DEAD]. destruct (word_of (c_guard s) =? o) eqn:E; cbn [g_pc g_word] in *; rewrite upd_eq in *.
      * right. apply Z.eqb_eq in E. cbn [y_c y_g]. rewrite upd_eq. split; auto. rewrite (entry_run s t p b Ee).
        unfold guard_of. destruct (Z.eqb_spec t 0); [contradiction|]. destruct (c_guard s) as [u|] eqn:G.
        -- cbn in E. subst u. symmetry. eapply take_dead; eauto.
        -- symmetry. apply take_free. exact G.
      * left. unfold g_next in *. destruct (c =? INT_MAX); cbn [y_c y_g] in *; rewrite upd_eq in *; [congruence|]. cbn [spot_ok]. fin4.
    + destruct (c_pc s t); discriminate.
  - destruct (leaves (c_pc s t)) eqn:RL.
    + assert (G : c_guard s = Some t) by (apply OW; auto; apply leaves_crit, RL).
      assert (NI : c_pc s t <> CIdle) by (intros E; rewrite E in RL; discriminate).
      assert (W : word_of (c_guard s) = t) by (rewrite G; reflexivity).
      unfold Guard_Model.g_step in *. rewrite V in *. cbn [g_pc g_word g_alive] in *. rewrite upd_eq in *.
      destruct (y_g y t) as [ |c o|c o|c o| |c o|c o|c o| ] eqn:Eg; cbn [spot_ok] in SP; try contradiction; try (exfalso; apply SP; auto; fail); try (destruct SP; congruence).
      * left. cbn [g_pc g_word] in *. rewrite upd_eq in *. cbn [y_c y_g]. rewrite upd_eq. cbn [spot_ok]. fin4.
      * right. rewrite W, Z.eqb_refl in *. cbn [g_pc g_word] in *. rewrite upd_eq in *. cbn [y_c y_g]. rewrite upd_eq. split; auto. apply leave_run. exact RL.
    + right. cbn [y_c y_g]. split; auto.
      destruct (y_g y t); cbn [spot_ok] in SP; auto; try contradiction; try congruence; destruct SP; congruence.
Qed.

(** ** The simulation *)
Section Sim.
Variable UW : list Z.
Record YI (y : ystate) : Prop := { yv_ci : CI UW (y_c y); yv_in : inside (y_c y); yv_spots : spots y }.

Lemma YI_yinv : forall y, YI y -> yinv y.
Proof. intros y [A B C]. constructor; auto. intros t AL CR. eapply ci_guard; eauto. Qed.

Lemma YI_init : forall n, NoDup UW -> YI (y_init (c_init UW n)).
Proof. intros n ND. constructor; [apply CI_init; auto | apply inside_init | intros t _; exact I]. Qed.

Lemma spot_mono : forall s s' p x, (forall o, c_alive s o = false -> c_alive s' o = false) -> spot_ok s p x -> spot_ok s' p x.
Proof.
  intros s s' p x M H. assert (E : entry s p <> None -> entry s' p <> None) by (destruct p; cbn; auto; discriminate).
  destruct x; cbn [spot_ok] in *; auto. destruct H; auto.
Qed.
Lemma spot_idle : forall s x, spot_ok s CIdle x -> x = GIdle.
Proof. intros s x H. destruct x; cbn in H; auto; try congruence; try contradiction. destruct H; congruence. Qed.
Lemma step_dead : forall s x o, c_alive s o = false -> c_alive (c_step s x) o = false.
Proof. intros s x o H. destruct (c_alive (c_step s x) o) eqn:E; auto. apply step_alive in E. congruence. Qed.

(** what one step is *)
Lemma step_sim : forall y x, YI y -> y_no_overflow (y_step y x) ->
  (counts y x = true /\ y_c (y_step y x) = c_step (y_c y) x) \/
  (counts y x = false /\ y_c (y_step y x) = y_c y /\ exists t g, x = XRun t g /\ (c_pc (y_c y) t <> CIdle \/ c_alive (y_c y) t && negb (t =? 0) = false)).
Proof.
  intros y x H NU. destruct x as [t cc|t g|t|m]; try (left; split; reflexivity). specialize (NU t). cbn [counts y_step c_step] in *.
  destruct (c_alive (y_c y) t && negb (t =? 0)) eqn:A.
  - pose proof A as A'. apply andb_true_iff in A as [AL T0]. apply negb_true_iff, Z.eqb_neq in T0.
    destruct (y_run_cases y t g T0 AL (YI_yinv y H) NU) as [(E1 & E2 & E3 & E4)|(E1 & E2)].
    + right. split; [destruct (y_g (y_run y t g) t); congruence|]. split; auto. exists t, g. auto.
    + left. rewrite E2. auto.
  - destruct (y_g y t) eqn:EG; [left; auto|right..]; split; auto; split; auto; exists t, g; auto.
Qed.
Lemma YI_step : forall y x, YI y -> y_no_overflow (y_step y x) -> YI (y_step y x).
Proof.
  intros y x H NU. destruct (step_sim y x H NU) as [[K E]|(K & E & t & g & -> & D)].
  - constructor.
    + rewrite E. apply CI_step, (yv_ci y H).
    + rewrite E. apply inside_step, (yv_in y H).
    + intros u AL. rewrite E in *. pose proof (step_alive _ _ _ AL) as AL0. pose proof (yv_spots y H u AL0) as SP.
      assert (M : forall o, c_alive (y_c y) o = false -> c_alive (c_step (y_c y) x) o = false) by (intros; apply step_dead; auto).
      assert (OTH : y_g (y_step y x) u = y_g y u -> c_pc (c_step (y_c y) x) u = c_pc (y_c y) u ->
        spot_ok (c_step (y_c y) x) (c_pc (c_step (y_c y) x) u) (y_g (y_step y x) u)) by (intros -> ->; eapply spot_mono; eauto).
      destruct x as [t cc|t g|t|m].
      * destruct (Z.eq_dec t u) as [->|N]; [|apply OTH; [reflexivity | apply step_pc; cbn; congruence]].
        cbn [y_step y_g]. destruct (c_pc (y_c y) u) eqn:Ep; try (apply OTH; [reflexivity|]; cbn [c_step]; rewrite Ep; destruct (_ && _); exact Ep).
        apply spot_idle in SP. rewrite SP. exact I.
      * destruct (Z.eq_dec t u) as [->|N].
        -- cbn [counts] in K. destruct (y_g (y_step y (XRun u g)) u); try discriminate. exact I.
        -- apply OTH; [|apply step_pc; cbn; congruence]. cbn [y_step]. destruct (_ && _); auto. apply y_run_other. congruence.
      * apply OTH; [reflexivity | apply step_pc; cbn; congruence].
      * apply OTH; [reflexivity | apply step_pc; cbn; congruence].
  - constructor; try (rewrite E; apply H). intros u AL. rewrite E in *. pose proof (yv_spots y H u AL) as SP.
    cbn [y_step] in *. destruct (c_alive (y_c y) t && negb (t =? 0)) eqn:A; [|exact SP].
    destruct (Z.eq_dec u t) as [->|N]; [|rewrite y_run_other; auto].
    apply andb_true_iff in A as [_ T0]. apply negb_true_iff, Z.eqb_neq in T0. pose proof (NU t) as NT. 
    destruct (y_run_cases y t g T0 AL (YI_yinv y H) NT) as [(_ & _ & Q & _)|(_ & Q)]; [exact Q | rewrite Q; exact I].
Qed.

Lemma path_sim : forall ok y ls y', YI y -> y_path ok y ls y' ->
  YI y' /\ c_path ok (y_c y) (shadow y ls) (y_c y') /\ y_hist y ls = c_hist (y_c y) (shadow y ls).
Proof.
  intros ok y ls y' H P. induction P as [y|y x ls y' O NU P IH]; [split; [auto | split; [constructor | reflexivity]]|].
  destruct (IH (YI_step y x H NU)) as (I1 & I2 & I3). split; auto. cbn [shadow y_hist].
  destruct (step_sim y x H NU) as [[K E]|(K & E & t & g & -> & D)]; rewrite K.
  - split; [constructor; auto; rewrite <- E; exact I2|]. cbn [c_hist]. rewrite I3, E. reflexivity.
  - rewrite <- E. split; [exact I2|]. rewrite I3. rewrite E. cbn [seen].
    destruct D as [D|D]; [|rewrite D; reflexivity]. destruct (_ && _); auto. destruct (c_pc (y_c y) t); [contradiction|..]; reflexivity.
Qed.

Lemma shadow_in : forall ls y x, In x (shadow y ls) -> In x ls.
Proof.
  induction ls as [|a ls IH]; intros y x H; [destruct H|]. cbn [shadow] in H. destruct (counts y a); [destruct H as [->|H]|]; cbn; eauto.
Qed.
Lemma shadow_one : forall ls y t, one_call t ls -> one_call t (shadow y ls).
Proof. intros ls y t H c I. eapply H, shadow_in, I. Qed.

(** a moment of the shadow is a moment *)
Lemma shadow_split : forall ok l1 l2 y ls y', YI y -> y_path ok y ls y' -> shadow y ls = l1 ++ l2 ->
  exists k1 k2 y1, ls = k1 ++ k2 /\ y_path ok y k1 y1 /\ y_path ok y1 k2 y' /\ shadow y k1 = l1 /\ shadow y1 k2 = l2 /\ YI y1.
Proof.
  intros ok l1 l2 y ls y' H P. revert l1. induction P as [y|y x ls y' O NU P IH]; intros l1 E.
  - cbn in E. symmetry in E. apply app_eq_nil in E as [-> ->]. exists [], [], y. split; [reflexivity|]. split; [apply yp_nil|]. split; [apply yp_nil|]. split; [reflexivity|]. split; auto.
  - destruct l1 as [|a l1].
    + exists [], (x :: ls), y. split; [reflexivity|]. split; [constructor|]. split; [constructor; auto|]. split; [reflexivity|]. split; auto.
    + cbn [shadow] in E. destruct (counts y x) eqn:K.
      * cbn [app] in E. injection E as -> E. destruct (IH (YI_step _ _ H NU) l1 E) as (k1 & k2 & y1 & E1 & P1 & P2 & E2 & E3 & H1).
        exists (a :: k1), k2, y1. split; [cbn; congruence|]. split; [constructor; auto|]. split; auto. split; auto. cbn [shadow]. rewrite K. congruence.
      * destruct (IH (YI_step _ _ H NU) (a :: l1) E) as (k1 & k2 & y1 & E1 & P1 & P2 & E2 & E3 & H1).
        exists (x :: k1), k2, y1. split; [cbn; congruence|]. split; [constructor; auto|]. split; auto. split; auto. cbn [shadow]. rewrite K. congruence.
Qed.

Lemma wakes_sim : forall ok t y ls y' ws, YI y -> y_path ok y ls y' -> own_wakes t (y_c y) (shadow y ls) ws -> y_wakes t y ls ws.
Proof.
  intros ok t y ls y' ws H P. revert ws. induction P as [y|y x ls y' O NU P IH]; intros ws W.
  - inversion W. constructor.
  - specialize (IH (YI_step y x H NU)). cbn [shadow] in W. destruct (step_sim y x H NU) as [[K E]|(K & E & u & g & -> & D)]; rewrite K in W.
    + inversion W; subst.
      * apply yw_other; auto. apply IH. rewrite E. auto.
      * apply yw_same; auto; [rewrite E; auto|]. apply IH. rewrite E. auto.
      * apply yw_woke; auto; try (rewrite E; auto; fail). apply IH. rewrite E. auto.
    + rewrite <- E in W. destruct (Z.eq_dec u t) as [->|N]; [apply yw_same | apply yw_other]; auto; [rewrite E; auto | cbn; congruence].
Qed.

Lemma moment_sim : forall ok y ls y' P, YI y -> y_path ok y ls y' -> at_some_moment ok (y_c y) (shadow y ls) (y_c y') P -> y_moment ok y ls y' P.
Proof.
  intros ok y ls y' P H PA (l1 & l2 & s1 & E & P1 & P2 & Q). destruct (shadow_split ok l1 l2 y ls y' H PA E) as (k1 & k2 & y1 & E1 & Y1 & Y2 & E2 & E3 & H1).
  exists k1, k2, y1. split; auto. split; auto. split; auto. destruct (path_sim ok y k1 y1 H Y1) as (_ & P1' & _). rewrite E2 in P1'.
  assert (X : y_c y1 = s1); [|rewrite X; exact Q]. clear - P1 P1'. revert P1'. generalize (y_c y1). induction P1; intros s2 P; inversion P; subst; auto.
Qed.

Lemma woken_sim : forall ok y ls y' c t, YI y -> y_path ok y ls y' -> woken_on_the_way ok (y_c y) (shadow y ls) c t -> y_woken ok y ls c t.
Proof.
  intros ok y ls y' c t H PA (l1 & x & l2 & s1 & E & P1 & (u & w & A1 & A2 & A3 & A4 & A5)).
  assert (Q : exists k1 k2 y1, ls = k1 ++ x :: k2 /\ y_path ok y k1 y1 /\ y_c y1 = s1 /\ y_c (y_step y1 x) = c_step s1 x).
  { clear A1 A2 A3 A4 A5. revert l1 P1 E. induction PA as [y|y z ls y' O NU PA IH]; intros l1 P1 E; [destruct l1; discriminate|]. cbn [shadow] in E.
    destruct (step_sim y z H NU) as [[K X]|(K & X & tt & g & -> & D)]; rewrite K in E.
    - destruct l1 as [|a l1]; cbn [app] in E; injection E as -> E.
      + inversion P1; subst. exists [], ls, y. split; [reflexivity|]. split; [apply yp_nil|]. auto.
      + inversion P1; subst. destruct (IH (YI_step _ _ H NU) l1) as (k1 & k2 & y1 & B1 & B2 & B3 & B4); auto; [rewrite X; auto|].
        exists (a :: k1), k2, y1. split; [cbn; congruence|]. split; [constructor; auto|]. auto.
    - destruct (IH (YI_step _ _ H NU) l1) as (k1 & k2 & y1 & B1 & B2 & B3 & B4); auto; [rewrite X; auto|].
      exists (XRun tt g :: k1), k2, y1. split; [cbn; congruence|]. split; [constructor; auto|]. auto. }
  destruct Q as (k1 & k2 & y1 & B1 & B2 & B3 & B4). exists k1, x, k2, y1, u, w. rewrite B4, B3. auto 10.
Qed.

Lemma y_path_start : forall ok n ls y, NoDup UW -> y_path ok (y_init (c_init UW n)) ls y -> YI y /\ c_reach (c_init UW n) ok (y_c y).
Proof.
  intros ok n ls y ND P. destruct (path_sim ok _ ls y (YI_init n ND) P) as (A & B & _). split; auto.
  cut (forall s ls s2, c_path ok s ls s2 -> c_reach (c_init UW n) ok s -> c_reach (c_init UW n) ok s2); [intro Q; eapply Q; [exact B | constructor]|].
  intros s l s2 PA. induction PA; auto. intro R. apply IHPA. constructor; auto.
Qed.
End Sim.
