(** Proofs for what the worker takes and gives back: steps of the worker. *)
From Verif Require Import Base Thread_Model Thread_Spec Thread_Proofs Thread_Proofs2 Thread_Proofs3 Wres_Model Wres_Spec Wres_Proofs.
From Coq Require Import ZArith List Bool Lia.
Import ListNotations.
Open Scope Z_scope.

Definition looping (p : wpc) : Prop := match p with WLoop | WStop | WSleep | WRun | WWait => True | _ => False end.

Lemma next_wk : forall s w f, let q := t_wk (t_work s w f) w in
  match t_wk s w with
  | WStart => q = WSetup
  | WSetup => q = WClean \/ q = WLoop /\ f = false
  | WLoop | WStop | WSleep | WRun | WWait => q = WClean \/ looping q
  | WClean => q = WFin EXIT
  | WFin _ => q = WEnd \/ exists o, q = WFin o
  | WEnd => q = WDone
  | WNone => q = WNone
  | WDone => q = WDone
  end.
Proof.
  intros s w f q. subst q. unfold t_work. destruct (t_wk s w) as [| | | | | | | | |o| |] eqn:P;
    rewrite ?andb_false_r; cbn [cancel_point]; rewrite ?andb_false_r;
    try (destruct (t_cancel s w); cbn [andb]);
    cbv zeta; try (destruct (cas _ _ _) as [v r]);
    repeat match goal with |- context [if ?b then _ else _] => destruct b end;
    cbn [s_wk s_flag touch t_wk]; rewrite ?upd_eq; auto; try (right; exact I); eauto.
Qed.

Lemma work_live : forall s w f x, live (t_work s w f) x -> x <> w -> live s x.
Proof. intros s w f x L N. unfold live in *. rewrite work_other in L by auto. exact L. Qed.

(** the resources after a change of one of the static members *)
Lemma base_param : forall x v, base x -> base (x_param_ x v).
Proof. intros x v H. exact H. Qed.
Lemma base_ino : forall x v, base x -> base (x_ino_ x v).
Proof. intros x v H. exact H. Qed.
Lemma base_watch : forall x v, base x -> base (x_watch_ x v).
Proof. intros x v H. exact H. Qed.
Lemma base_evt : forall x v, base x -> base (x_evt_ x v).
Proof. intros x v H. exact H. Qed.

Lemma base_open : forall x, base x -> base (open_fd x).
Proof.
  intros x (A & B & D & E & G). unfold open_fd. split; [cbn; lia|]. cbn [x_new_ x_fds_ x_mem x_new x_fds x_bad x_badfd].
  split; [intros a H; specialize (B a H); lia|]. split; [|split; [exact E|split; [exact (proj1 G)|intros b s H; specialize (proj2 G b s H); lia]]].
  intros d H. destruct (upd_cases bool (x_fds x) (x_new x) true d) as [[-> _]|[N U]]; [lia|].
  rewrite U in H. specialize (D d H). lia.
Qed.
Lemma base_zero : forall x, base x -> x_fds x 0 = false.
Proof. intros x (_ & _ & D & _). destruct (x_fds x 0) eqn:E; auto. specialize (D 0 E). lia. Qed.
Lemma base_zero_mem : forall x, base x -> x_mem x 0 = Gone.
Proof.
  intros x (_ & B & _). destruct (x_mem x 0) eqn:E; auto.
  - assert (Y : x_mem x 0 <> Gone) by congruence. specialize (B 0 Y). lia.
  - assert (Y : x_mem x 0 <> Gone) by congruence. specialize (B 0 Y). lia.
Qed.
Lemma base_close : forall x d, base x -> base (x_fds_ x d false).
Proof.
  intros x d (A & B & D & E & G). split; [exact A|]. split; [exact B|]. split; [|auto].
  intros e H. cbn [x_fds_ x_fds x_new] in *. destruct (upd_cases bool (x_fds x) d false e) as [[-> U]|[N U]]; rewrite U in H; [discriminate H|]. exact (D e H).
Qed.
Lemma base_fresh : forall x, base x -> x_fds x (x_new x) = false.
Proof. intros x (_ & _ & D & _). destruct (x_fds x (x_new x)) eqn:E; auto. specialize (D _ E). lia. Qed.

Lemma read_good : forall x b s, good x b s -> read_blk x b = x.
Proof. intros x b s (A & _). unfold read_blk. now rewrite A. Qed.
Lemma use_opened : forall x d, opened x d -> use_fd x d = x.
Proof. intros x d H. unfold use_fd. unfold opened in H. now rewrite H. Qed.
Lemma close_opened : forall x d, opened x d -> close_fd x d = x_fds_ x d false.
Proof. intros x d H. unfold close_fd. unfold opened in H. now rewrite H. Qed.
Lemma free_good : forall x b s, good x b s -> free_path x b = x_mem_ (x_mem_ x s Gone) b (Blk 0).
Proof. intros x b s (A & N & S). unfold free_path. rewrite A, (proj2 (Z.eqb_neq _ _) N), S. reflexivity. Qed.

Lemma base_mem_gone : forall x a, base x -> base (x_mem_ x a Gone).
Proof.
  intros x a (A & B & D & E). split; [exact A|]. destruct E as (E1 & E2 & E3). split; [|split; [exact D|split; [exact E1|split; [exact E2|]]]].
  2:{ intros b s H. cbn [x_mem_ x_mem x_new] in *. destruct (upd_cases cell (x_mem x) a Gone b) as [[-> U]|[N U]]; rewrite U in H; [discriminate H|]. exact (E3 b s H). }
  intros c H. cbn [x_mem_ x_mem x_new] in *. destruct (upd_cases cell (x_mem x) a Gone c) as [[-> U]|[N U]]; rewrite U in H; [now elim H|]. exact (B c H).
Qed.
Lemma base_mem_blk : forall x a, base x -> x_mem x a <> Gone -> base (x_mem_ x a (Blk 0)).
Proof.
  intros x a (A & B & D & E1 & E2 & E3) N. set (q := 0). split; [exact A|]. split; [|split; [exact D|split; [exact E1|split; [exact E2|]]]].
  2:{ intros b s H. cbn [x_mem_ x_mem x_new] in *. destruct (upd_cases cell (x_mem x) a (Blk q) b) as [[-> U]|[M U]]; rewrite U in H.
      - injection H as <-. unfold q. lia.
      - exact (E3 b s H). }
  intros c H. cbn [x_mem_ x_mem x_new] in *. destruct (upd_cases cell (x_mem x) a (Blk q) c) as [[-> U]|[M U]]; [exact (B a N)|].
  rewrite U in H. exact (B c H).
Qed.
Lemma good_neq : forall x b s, good x b s -> b <> s.
Proof. intros x b s (A & _ & S) ->. congruence. Qed.

Lemma base_free_path : forall x b s, base x -> good x b s -> base (x_mem_ (x_mem_ x s Gone) b (Blk 0)).
Proof.
  intros x b s H G. apply base_mem_blk; [now apply base_mem_gone|]. cbn [x_mem_ x_mem].
  rewrite upd_neq by (exact (good_neq _ _ _ G)). destruct G as (-> & _). discriminate.
Qed.

(** the worker does one access inside its place *)
Lemma A_at : forall r w L F x', modeA r w L F ->
  (x_param x' <> 0 -> hold x' (x_param x')) ->
  W (t_wk (r_t r) w) (S (r_ws r w)) x' (r_arg r w) (r_pth r w) ->
  (forall a, x_mem x' a <> Gone -> In a L \/ a = r_arg r w \/ x_mem x' (r_arg r w) = Blk a) ->
  (forall d, x_fds x' d = true -> In d F \/ t_wk (r_t r) w <> WStart /\ (d = x_evt x' \/ d = x_ino x')) ->
  modeA (at_ r w x') w L F.
Proof.
  intros r w L F x' (A1 & A2 & A3 & A4 & A5 & A6) P V M D. unfold at_.
  split; [exact A1|]. split; [exact A2|]. cbn [set_ws set_x r_res r_t r_ws r_arg r_pth].
  split; [exact P|]. split; [rewrite upd_eq; exact V|]. split; [exact M|exact D].
Qed.

(** the worker leaves its place and stays alive *)
Lemma A_go : forall r w f L F x' q, modeA r w L F -> KI (r_t r) ->
  t_wk (t_work (r_t r) w f) w = q ->
  (x_param x' <> 0 -> hold x' (x_param x')) -> q <> WStart ->
  W q 0 x' (r_arg r w) (r_pth r w) ->
  (forall a, x_mem x' a <> Gone -> In a L \/ a = r_arg r w \/ x_mem x' (r_arg r w) = Blk a) ->
  (forall d, x_fds x' d = true -> In d F \/ d = x_evt x' \/ d = x_ino x') ->
  modeA (go (set_x r x') w f) w L F.
Proof.
  intros r w f L F x' q (A1 & A2 & A3 & A4 & A5 & A6) K Q P N V M D. unfold go.
  split; cbn [set_ws set_t set_x r_res r_t r_ws r_arg r_pth].
  - unfold live. rewrite Q. destruct q; try exact I; exact V.
  - split; [exact A2|]. split; [exact P|]. split; [rewrite Q, upd_eq; exact V|]. split; [exact M|].
    intros d H. destruct (D d H) as [E|E]; [left; exact E|right; rewrite Q; auto].
Qed.

Lemma A_start : forall r w L F, modeA r w L F -> KI (r_t r) -> base (r_res r) -> t_wk (r_t r) w = WStart ->
  base (r_res (w_start r w)) /\ modeA (w_start r w) w L F.
Proof.
  intros r w L F A K B P. assert (A0 := A). destruct A as (A1 & A2 & A3 & A4 & A5 & A6).
  rewrite P in A4. cbn [W] in A4. destruct A4 as (H & Hk & H1 & H2 & H3 & H4).
  assert (FD : forall d, x_fds (r_res r) d = true -> In d F).
  { intros d X. destruct (A6 d X) as [Y|[Y _]]; auto. congruence. }
  unfold w_start. cbv zeta.
  destruct (r_ws r w) as [|[|[|[|k]]]] eqn:E.
  - split; [exact B|]. apply A_at; auto; rewrite ?P, ?E.
    cbn [W]. cbn. repeat split; auto; try lia; try (intros; auto; lia).
  - split; [exact B|]. apply A_at; auto; rewrite ?P, ?E.
    cbn [W]. cbn. repeat split; auto; try lia; try (intros; auto; lia); intros; apply H1; lia.
  - split; [exact B|]. apply A_at; auto; rewrite ?P, ?E.
    cbn [W]. cbn. repeat split; auto; try lia; try (intros; auto; lia); intros; first [apply H1|apply H2]; lia.
  - split; [exact B|]. apply A_at; auto; rewrite ?P, ?E.
    cbn [W]. cbn. repeat split; auto; try lia; try (intros; auto; lia); intros; first [apply H1|apply H2|apply H3]; lia.
  - assert (k = 0%nat) by lia. subst k. destruct H as [s G]. rewrite (read_good _ _ _ G).
    destruct G as (G1 & G2 & G3). rewrite G1.
    split; [exact B|].
    change (modeA (go (set_x (set_pth r w s) (r_res r)) w false) w L F).
    pose proof (next_wk (r_t r) w false) as Q. cbv zeta in Q. rewrite P in Q.
    apply (A_go _ w false L F (r_res r) WSetup); auto.
    + split; [exact A1|]. split; [exact A2|]. split; [exact A3|]. split; [|split; [exact A5|exact A6]].
      change (r_t (set_pth r w s)) with (r_t r). change (r_ws (set_pth r w s)) with (r_ws r). rewrite P, E. cbn [W]. cbn.
      split; [exists s; split; auto|]. split; [lia|]. auto.
    + discriminate.
    + cbn [W r_arg r_pth set_pth]. rewrite upd_eq.
      assert (I0 : x_ino (r_res r) = 0) by (apply H1; lia). assert (V0 : x_evt (r_res r) = 0) by (apply H3; lia).
      assert (W0 : x_watch (r_res r) = 0) by (apply H2; lia).
      split; [split; auto|]. split; [apply H4; lia|]. split; [lia|]. split; [auto|]. split; [intros; lia|].
      split; [auto|]. split; [intros; lia|auto].
Qed.

Lemma opened_new : forall x, opened (open_fd x) (x_new x).
Proof. intro x. unfold opened, open_fd. cbn. apply upd_eq. Qed.
Lemma opened_old : forall x d, opened x d -> opened (open_fd x) d.
Proof.
  intros x d H. unfold opened, open_fd in *. cbn.
  destruct (upd_cases bool (x_fds x) (x_new x) true d) as [[-> ->]|[_ ->]]; auto.
Qed.
Lemma fds_open : forall x d, x_fds (open_fd x) d = true -> d = x_new x \/ x_fds x d = true.
Proof.
  intros x d H. unfold open_fd in H. cbn in H. destruct (Z.eq_dec d (x_new x)) as [->|N]; auto.
  rewrite upd_neq in H by auto. auto.
Qed.

(** what a worker at its end has *)
Lemma W_clean0 : forall x b s, hold x b ->
  (x_ino x = 0 \/ opened x (x_ino x) /\ x_ino x <> x_evt x) ->
  (x_evt x = 0 \/ opened x (x_evt x)) -> (x_watch x <> 0 -> x_ino x <> 0) -> W WClean 0 x b s.
Proof. intros x b s H I V T. cbn [W]. repeat split; auto; try lia; intros; lia. Qed.

Lemma A_setup : forall r w f L F, modeA r w L F -> KI (r_t r) -> base (r_res r) -> t_wk (r_t r) w = WSetup ->
  base (r_res (w_setup r w f)) /\ modeA (w_setup r w f) w L F.
Proof.
  intros r w f L F A K B P. assert (A0 := A). destruct A as (A1 & A2 & A3 & A4 & A5 & A6).
  rewrite P in A4. cbn [W] in A4. destruct A4 as (G & HP & Hk & H1 & H2 & H3 & H4 & H5).
  pose proof (base_zero _ B) as Z0.
  assert (FD : forall d, x_fds (r_res r) d = true -> In d F \/ (d = x_evt (r_res r) \/ d = x_ino (r_res r))).
  { intros d X. destruct (A6 d X) as [Y|[_ Y]]; auto. }
  assert (HB : hold (r_res r) (r_arg r w)) by (exists (r_pth r w); exact G).
  assert (NW : WSetup <> WStart) by discriminate.
  assert (Q : forall g, t_wk (t_work (r_t r) w g) w = WClean \/ t_wk (t_work (r_t r) w g) w = WLoop /\ g = false).
  { intro g. pose proof (next_wk (r_t r) w g) as Q. cbv zeta in Q. rewrite P in Q. exact Q. }
  assert (QT : t_wk (t_work (r_t r) w true) w = WClean) by (destruct (Q true) as [?|[_ ?]]; [auto|discriminate]).
  unfold w_setup. cbv zeta.
  destruct (r_ws r w) as [|[|[|[|[|k]]]]] eqn:E.
  - assert (V0 : x_evt (r_res r) = 0) by (apply H1; lia). assert (I0 : x_ino (r_res r) = 0) by (apply H3; lia).
    assert (T0 : x_watch (r_res r) = 0) by (apply H5; lia).
    destruct (t_cancel (r_t r) w) eqn:CA.
    + split; [exact B|]. change (go r w false) with (go (set_x r (r_res r)) w false).
      assert (QC : t_wk (t_work (r_t r) w false) w = WClean).
      { unfold t_work. rewrite CA, P. cbn [cancel_point andb s_wk t_wk]. apply upd_eq. }
      apply (A_go _ _ _ _ _ _ WClean); auto; try discriminate. apply W_clean0; auto.
    + split; [exact B|]. apply A_at; auto; rewrite ?P, ?E; auto.
      { cbn [W]. split; [exact G|]. split; [exact HP|]. split; [lia|]. split; [auto|]. split; [intros; lia|].
        split; [auto|]. split; [intros; lia|auto]. }
  - assert (V0 : x_evt (r_res r) = 0) by (apply H1; lia). assert (I0 : x_ino (r_res r) = 0) by (apply H3; lia).
    assert (T0 : x_watch (r_res r) = 0) by (apply H5; lia).
    destruct f.
    + split; [exact B|]. apply (A_go _ _ _ _ _ _ WClean); auto; try discriminate; cbn.
      * apply W_clean0; auto.
      * intros d X. destruct (FD d X) as [Y|[Y|Y]]; auto; subst d; congruence.
    + split; [apply base_evt, base_open; exact B|]. apply A_at; auto; rewrite ?P, ?E.
      * cbn [W]. cbn. split; [exact G|]. split; [exact HP|]. split; [lia|]. split; [intros; lia|].
        split; [intros; apply opened_new|]. split; [auto|]. split; [intros; lia|auto].
      * intros d X. change (x_fds (open_fd (r_res r)) d = true) in X. cbn.
        destruct (fds_open _ _ X) as [Y|Y]; [right; auto|].
        destruct (FD d Y) as [Z|[Z|Z]]; auto; subst d; congruence.
  - assert (V1 : opened (r_res r) (x_evt (r_res r))) by (apply H2; lia). assert (I0 : x_ino (r_res r) = 0) by (apply H3; lia).
    assert (T0 : x_watch (r_res r) = 0) by (apply H5; lia).
    destruct f.
    + split; [exact B|]. apply (A_go _ _ _ _ _ _ WClean); auto; try discriminate; cbn.
      * apply W_clean0; auto.
      * intros d X. destruct (FD d X) as [Y|[Y|Y]]; auto; subst d; congruence.
    + split; [apply base_ino, base_open; exact B|]. apply A_at; auto; rewrite ?P, ?E.
      * cbn [W]. cbn. split; [exact G|]. split; [exact HP|]. split; [lia|]. split; [intros; lia|].
        split; [intros; apply (opened_old _ _ V1)|]. split; [intros; lia|].
        split; [|intros; exact T0]. intros _. split; [exact (opened_old _ _ V1)|]. split; [apply opened_new|].
        cbn. intro X. pose proof (base_fresh _ B) as Y. unfold opened in V1. congruence.
      * intros d X. change (x_fds (open_fd (r_res r)) d = true) in X. cbn.
        destruct (fds_open _ _ X) as [Y|Y]; [right; auto|].
        destruct (FD d Y) as [Z|[Z|Z]]; auto; subst d; congruence.
  - assert (BO : both (r_res r)) by (apply H4; lia). destruct BO as (V1 & I1 & NE).
    assert (I2 : x_ino (r_res r) <> 0) by (intro X; unfold opened in I1; congruence).
    assert (T0 : x_watch (r_res r) = 0) by (apply H5; lia).
    rewrite (use_opened _ _ I1). unfold read_str. rewrite (proj2 (proj2 G)).
    destruct f.
    + split; [exact B|]. apply (A_go _ _ _ _ _ _ WClean); auto; try discriminate; cbn.
      apply W_clean0; auto.
    + split; [exact B|]. apply A_at; auto; rewrite ?P, ?E; auto.
      * cbn [W]. cbn. split; [exact G|]. split; [exact HP|]. split; [lia|]. split; [intros; lia|].
        split; [auto|]. split; [intros; lia|]. split; [|intros; lia]. intros _. split; [exact V1|split; [exact I1|exact NE]].
  - assert (BO : both (r_res r)) by (apply H4; lia). destruct BO as (V1 & I1 & NE).
    assert (I2 : x_ino (r_res r) <> 0) by (intro X; unfold opened in I1; congruence).
    rewrite (use_opened _ _ V1), (use_opened _ _ I1).
    destruct f.
    + split; [exact B|]. apply (A_go _ _ _ _ _ _ WClean); auto; try discriminate; cbn.
      apply W_clean0; auto.
    + split; [exact B|]. apply A_at; auto; rewrite ?P, ?E; auto.
      * cbn [W]. cbn. split; [exact G|]. split; [exact HP|]. split; [lia|]. split; [intros; lia|].
        split; [auto|]. split; [intros; lia|]. split; [|intros; lia]. intros _. split; [exact V1|split; [exact I1|exact NE]].
  - assert (BO : both (r_res r)) by (apply H4; lia). assert (BO' := BO). destruct BO as (V1 & I1 & NE).
    assert (I2 : x_ino (r_res r) <> 0) by (intro X; unfold opened in I1; congruence).
    split; [exact B|]. change (go r w false) with (go (set_x r (r_res r)) w false).
    destruct (Q false) as [QC|[QC _]].
    + apply (A_go _ _ _ _ _ _ WClean); auto; try discriminate. apply W_clean0; auto.
    + apply (A_go _ _ _ _ _ _ WLoop); auto; try discriminate. cbn [W]. auto.
Qed.

Lemma W_looping : forall p k x b s, looping p -> W p k x b s -> hold x b /\ x_param x = b /\ k = 0%nat /\ both x.
Proof. intros p k x b s H X. destruct p; try (destruct H; fail); exact X. Qed.
Lemma W_looping' : forall p x b s, looping p -> hold x b -> x_param x = b -> both x -> W p 0 x b s.
Proof. intros p x b s H A B D. destruct p; try (destruct H; fail); cbn [W]; auto. Qed.

Lemma A_loop : forall r w f L F, modeA r w L F -> KI (r_t r) -> base (r_res r) -> looping (t_wk (r_t r) w) ->
  modeA (go r w f) w L F.
Proof.
  intros r w f L F A K B P. assert (A0 := A). destruct A as (A1 & A2 & A3 & A4 & A5 & A6).
  pose proof (base_zero _ B) as Z0.
  destruct (W_looping _ _ _ _ _ P A4) as (H & HP & Hk & V1 & I1 & NE).
  assert (I2 : x_ino (r_res r) <> 0) by (intro X; unfold opened in I1; congruence).
  assert (FD : forall d, x_fds (r_res r) d = true -> In d F \/ d = x_evt (r_res r) \/ d = x_ino (r_res r)).
  { intros d X. destruct (A6 d X) as [Y|[_ Y]]; auto. }
  pose proof (next_wk (r_t r) w f) as Q. cbv zeta in Q.
  assert (Q' : t_wk (t_work (r_t r) w f) w = WClean \/ looping (t_wk (t_work (r_t r) w f) w)).
  { destruct (t_wk (r_t r) w); try (destruct P; fail); exact Q. }
  change (go r w f) with (go (set_x r (r_res r)) w f).
  destruct Q' as [QC|QC].
  - apply (A_go _ _ _ _ _ _ WClean); auto; try discriminate. apply W_clean0; auto.
  - apply (A_go _ _ _ _ _ _ _ A0 K eq_refl); auto.
    + intro X. rewrite X in QC. exact QC.
    + apply W_looping'; auto. split; auto.
Qed.

Lemma A_wait : forall r w f L F, modeA r w L F -> KI (r_t r) -> base (r_res r) -> t_wk (r_t r) w = WWait ->
  r_res (w_wait r w f) = r_res r /\ modeA (w_wait r w f) w L F.
Proof.
  intros r w f L F A K B P. assert (A0 := A). destruct A as (A1 & A2 & A3 & A4 & A5 & A6).
  rewrite P in A4. cbn [W] in A4. destruct A4 as (H & HP & Hk & V1 & I1 & NE).
  unfold w_wait. cbv zeta. rewrite (use_opened _ _ V1), (use_opened _ _ I1).
  change (set_x r (r_res r)) with (set_x r (r_res r)).
  split; [reflexivity|]. change (go (set_x r (r_res r)) w f) with (go r w f). apply A_loop; auto. rewrite P. exact I.
Qed.
