(** Proofs for what the worker takes and gives back: the end of the worker, the callers, forks. *)
From Verif Require Import Base Thread_Model Thread_Spec Thread_Proofs Thread_Proofs2 Thread_Proofs3 Wres_Model Wres_Spec Wres_Proofs Wres_Proofs2.
From Coq Require Import ZArith List Bool Lia.
Import ListNotations.
Open Scope Z_scope.

Lemma A_clean : forall r w L F, modeA r w L F -> KI (r_t r) -> base (r_res r) -> t_wk (r_t r) w = WClean ->
  base (r_res (w_clean r w)) /\ modeA (w_clean r w) w L F.
Proof.
  intros r w L F A K B P. assert (A0 := A). destruct A as (A1 & A2 & A3 & A4 & A5 & A6).
  rewrite P in A4. cbn [W] in A4. destruct A4 as (Hk & H1 & H2 & H3 & H4 & H5 & H6 & H7 & H8 & H9 & H10).
  pose proof (base_zero _ B) as Z0.
  assert (FD : forall d, x_fds (r_res r) d = true -> In d F \/ d = x_evt (r_res r) \/ d = x_ino (r_res r)).
  { intros d X. destruct (A6 d X) as [Y|[_ Y]]; auto. }
  assert (NW : WClean <> WStart) by discriminate.
  set (x := r_res r) in *. set (b := r_arg r w) in *.
  unfold w_clean. cbv zeta. fold x b.
  destruct (r_ws r w) as [|[|[|[|[|[|[|[|k]]]]]]]] eqn:E.
  - destruct (H1 ltac:(lia)) as [s G]. rewrite (read_good _ _ _ G). split; [exact B|].
    apply A_at; auto; rewrite ?P, ?E; auto.
    cbn [W]. repeat split; auto; try lia; try (intros; lia); first [intros; apply H5; auto; lia|intros; apply H6; lia|intros; apply H9; lia].
  - split; [exact B|]. apply A_at; auto; rewrite ?P, ?E; auto.
    + intro X. now elim X.
    + cbn [W]. cbn. repeat split; auto; try lia; try (intros; lia); first [intros; apply H1; lia|intros; apply H5; auto; lia|intros; apply H6; lia|intros; apply H9; lia].
  - destruct (H1 ltac:(lia)) as [s G]. rewrite (free_good _ _ _ G). pose proof (good_neq _ _ _ G) as NE.
    split; [exact (base_free_path _ _ _ B G)|].
    assert (P0 : x_param x = 0) by (apply H4; lia).
    apply A_at; auto; rewrite ?P, ?E.
    + cbn. intro X. congruence.
    + cbn [W]. cbn. repeat split; auto; try lia; try (intros; lia); first [intros; apply upd_eq|intros; apply H5; auto; lia|intros; apply H6; lia|intros; apply H9; lia].
    + intros a X. cbn in X. fold b.
      destruct (Z.eq_dec a b) as [->|N1]; [auto|]. rewrite upd_neq in X by auto.
      destruct (Z.eq_dec a s) as [->|N2]; [rewrite upd_eq in X; now elim X|]. rewrite upd_neq in X by auto.
      destruct (A5 a X) as [Y|[Y|Y]]; auto. destruct G as (G1 & _). congruence.
  - specialize (H2 eq_refl). unfold free_blk. rewrite H2. assert (P0 : x_param x = 0) by (apply H4; lia).
    split; [now apply base_mem_gone|].
    apply A_at; auto; rewrite ?P, ?E.
    + cbn. intro X. congruence.
    + cbn [W]. cbn. repeat split; auto; try lia; try (intros; lia); first [intros; apply upd_eq|intros; apply H5; auto; lia|intros; apply H6; lia|intros; apply H9; lia].
    + intros a X. cbn in X. fold b.
      destruct (Z.eq_dec a b) as [->|N1]; [rewrite upd_eq in X; now elim X|]. rewrite upd_neq in X by auto.
      destruct (A5 a X) as [Y|[Y|Y]]; auto. rewrite H2 in Y. injection Y as <-. elim X. now apply base_zero_mem.
  - assert (X : (if x_watch x =? 0 then x else use_fd x (x_ino x)) = x).
    { destruct (Z.eqb_spec (x_watch x) 0) as [Y|Y]; [reflexivity|]. apply use_opened.
      destruct (H6 ltac:(lia)) as [Z|[Z _]]; auto. elim (H5 ltac:(lia) Y Z). }
    rewrite X. split; [exact B|]. apply A_at; auto; rewrite ?P, ?E; auto.
    cbn [W]. repeat split; auto; try lia; try (intros; lia); first [intros; apply H3; lia|intros; apply H4; lia|intros; apply H6; lia|intros; apply H9; lia].
  - assert (P0 : x_param x = 0) by (apply H4; lia).
    destruct (Z.eqb_spec (x_ino x) 0) as [Y|Y].
    + split; [exact B|]. apply A_at; auto; rewrite ?P, ?E; auto.
      cbn [W]. repeat split; auto; try lia; try (intros; lia); first [intros; rewrite Y; exact Z0|intros; apply H3; lia|intros; apply H9; lia].
    + destruct (H6 ltac:(lia)) as [Z|[Z NE]]; [contradiction|]. rewrite (close_opened _ _ Z).
      split; [now apply base_close|]. apply A_at; auto; rewrite ?P, ?E.
      * cbn [W]. cbn. repeat split; auto; try lia; try (intros; lia); try (intros; apply H3; lia); [intros; apply upd_eq|].
        intros _. destruct (H9 ltac:(lia)) as [V|V]; [left; exact V|right]. unfold opened. cbn. rewrite upd_neq by auto. exact V.
      * intros d X. cbn in X. destruct (Z.eq_dec d (x_ino x)) as [->|N]; [rewrite upd_eq in X; discriminate X|].
        rewrite upd_neq in X by auto. destruct (FD d X) as [V|V]; auto.
  - assert (P0 : x_param x = 0) by (apply H4; lia). specialize (H7 eq_refl).
    split; [exact B|]. apply A_at; auto; rewrite ?P, ?E.
    + cbn [W]. cbn. repeat split; auto; try lia; try (intros; lia); first [intros; apply H3; lia|intros; apply H9; lia].
    + intros d X. cbn. cbn in X. destruct (FD d X) as [V|[V|V]]; auto; subst d; congruence.
  - assert (P0 : x_param x = 0) by (apply H4; lia). assert (I0 : x_ino x = 0) by (apply H8; lia).
    destruct (Z.eqb_spec (x_evt x) 0) as [Y|Y].
    + split; [exact B|]. apply A_at; auto; rewrite ?P, ?E; auto.
      cbn [W]. repeat split; auto; try lia; try (intros; lia); first [intros; rewrite Y; exact Z0|intros; apply H3; lia].
    + destruct (H9 ltac:(lia)) as [Z|Z]; [contradiction|]. rewrite (close_opened _ _ Z).
      split; [now apply base_close|]. apply A_at; auto; rewrite ?P, ?E.
      * cbn [W]. cbn. repeat split; auto; try lia; try (intros; lia); try (intros; apply H3; lia); intros; apply upd_eq.
      * intros d X. cbn in X. destruct (Z.eq_dec d (x_evt x)) as [->|N]; [rewrite upd_eq in X; discriminate X|].
        rewrite upd_neq in X by auto. destruct (FD d X) as [V|V]; auto.
  - assert (k = 0%nat) by lia. subst k. assert (P0 : x_param x = 0) by (apply H4; lia).
    assert (I0 : x_ino x = 0) by (apply H8; lia). specialize (H10 eq_refl). assert (M0 : x_mem x b = Gone) by (apply H3; lia).
    split; [exact B|].
    pose proof (next_wk (r_t r) w false) as Q. cbv zeta in Q. rewrite P in Q.
    apply (A_go _ _ _ _ _ _ (WFin EXIT)); auto; try discriminate.
    + cbn [W]. cbn. auto.
    + intros d X. cbn. cbn in X. destruct (FD d X) as [V|[V|V]]; auto; subst d; congruence.
Qed.

(** the end: from mode A to mode B *)
Lemma A_fin : forall r w f o L F, modeA r w L F -> KI (r_t r) -> KI (t_work (r_t r) w f) -> base (r_res r) ->
  t_wk (r_t r) w = WFin o -> modeA (go r w f) w L F \/ modeB (go r w f) L F.
Proof.
  intros r w f o L F A K K' B P. assert (A0 := A). destruct A as (A1 & A2 & A3 & A4 & A5 & A6).
  rewrite P in A4. cbn [W] in A4. destruct A4 as (M & I0 & V0 & P0). pose proof (base_zero _ B) as Z0.
  assert (FD : forall d, x_fds (r_res r) d = true -> In d F).
  { intros d X. destruct (A6 d X) as [Y|[_ [Y|Y]]]; auto; subst d; congruence. }
  pose proof (next_wk (r_t r) w f) as Q. cbv zeta in Q. rewrite P in Q.
  change (go r w f) with (go (set_x r (r_res r)) w f). destruct Q as [Q|[o' Q]].
  - right. unfold go. unfold modeB. cbn [set_ws set_t set_x r_res r_t r_ws r_arg r_pth r_cs r_loc].
    split.
    { intros v X. destruct (Z.eq_dec v w) as [->|N]; [unfold live in X; rewrite Q in X; exact X|].
      apply work_live in X; auto. apply N. rewrite (ki_cur _ _ K X). symmetry. exact (ki_cur _ _ K A1). }
    split.
    { intro t. pose proof (ki_quiet _ w t K A1) as G. rewrite work_pc, A2. destruct (t_pc (r_t r) t); try reflexivity; destruct G. }
    split; [intros _ X; congruence|]. split; [|exact FD].
    intros a X. destruct (A5 a X) as [Y|[Y|Y]]; auto; subst; congruence.
  - left. apply (A_go _ _ _ _ _ _ (WFin o')); auto; try discriminate. cbn [W]. auto.
Qed.

(** a thread that ends after its worker is done: nothing changes *)
Lemma RI_dead : forall r w f, RI r -> t_wk (r_t r) w = WEnd -> RI (go r w f).
Proof.
  intros r w f [B (L & F & HL & HF & M)] P.
  assert (S : t_work (r_t r) w f = s_wk (r_t r) w WDone).
  { unfold t_work. rewrite P. cbn [cancel_point]. rewrite andb_false_r. reflexivity. }
  assert (LV : forall v, live (s_wk (r_t r) w WDone) v -> live (r_t r) v /\ v <> w).
  { intros v X. unfold live in *. cbn [s_wk t_wk] in X. destruct (upd_cases wpc (t_wk (r_t r)) w WDone v) as [[-> U]|[N U]]; rewrite U in X; tauto. }
  unfold go. rewrite S. split; [exact B|]. exists L, F. split; [exact HL|]. split; [exact HF|].
  destruct M as [(v & A1 & A2 & A3 & A4 & A5 & A6)|(B1 & B2 & B3 & B4 & B5)].
  - left. exists v. assert (N : v <> w) by (intros ->; unfold live in A1; rewrite P in A1; exact A1).
    assert (U : t_wk (s_wk (r_t r) w WDone) v = t_wk (r_t r) v) by (cbn [s_wk t_wk]; now apply upd_neq).
    unfold modeA. cbn [set_ws set_t r_res r_t r_ws r_arg r_pth r_cs].
    split; [unfold live; rewrite U; exact A1|]. split; [exact A2|]. split; [exact A3|].
    split; [rewrite U, upd_neq by auto; exact A4|]. split; [exact A5|]. intros d X. rewrite U. exact (A6 d X).
  - right. split; [intros v X; exact (B1 v (proj1 (LV v X)))|]. split; [exact B2|]. split; [exact B3|]. split; [exact B4|exact B5].
Qed.

Lemma RI_work : forall r w f, RI r -> KI (r_t r) -> KI (r_t (r_work r w f)) -> t_wk (r_t r) w <> WNone ->
  t_wk (r_t r) w <> WDone -> RI (r_work r w f).
Proof.
  intros r w f H K K' N1 N2. assert (H0 := H). destruct H as [B (L & F & HL & HF & M)].
  assert (D : t_wk (r_t r) w = WEnd \/ live (r_t r) w).
  { unfold live. destruct (t_wk (r_t r) w); auto; congruence. }
  destruct D as [D|LV].
  { unfold r_work. rewrite D. now apply RI_dead. }
  destruct M as [[v A]|M]; [|elim (proj1 M w LV)].
  assert (v = w). { rewrite (ki_cur _ _ K LV). exact (ki_cur _ _ K (proj1 A)). } subst v.
  assert (FW : r_forks (r_work r w f) = r_forks r).
  { unfold r_work, w_start, w_setup, w_wait, w_clean. cbv zeta.
    repeat match goal with |- context [match ?e with _ => _ end] => destruct e end; reflexivity. }
  assert (GOAL : base (r_res (r_work r w f)) /\ (modeA (r_work r w f) w L F \/ modeB (r_work r w f) L F)).
  { revert K'. unfold r_work. destruct (t_wk (r_t r) w) as [| | | | | | | | |o| |] eqn:P; intro K'; try congruence.
    - destruct (A_start _ _ _ _ A K B P); auto.
    - destruct (A_setup r w f L F A K B P); auto.
    - split; [exact B|left; apply A_loop; auto; rewrite P; exact I].
    - split; [exact B|left; apply A_loop; auto; rewrite P; exact I].
    - split; [exact B|left; apply A_loop; auto; rewrite P; exact I].
    - split; [exact B|left; apply A_loop; auto; rewrite P; exact I].
    - destruct (A_wait r w f L F A K B P) as [X Y]. rewrite X. auto.
    - destruct (A_clean r w L F A K B P); auto.
    - split; [exact B|]. eapply A_fin; eauto.
    - unfold live in LV. rewrite P in LV. destruct LV. }
  destruct GOAL as [GB GM]. split; [exact GB|]. exists L, F. rewrite FW. split; [exact HL|]. split; [exact HF|].
  destruct GM as [GM|GM]; [left; exists w; exact GM|right; exact GM].
Qed.
