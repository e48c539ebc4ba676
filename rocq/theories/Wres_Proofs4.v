(** Proofs for what the worker takes and gives back: the callers, forks, all executions. *)
From Verif Require Import Base Thread_Model Thread_Spec Thread_Proofs Thread_Proofs2 Thread_Proofs3 Wres_Model Wres_Spec Wres_Proofs Wres_Proofs2 Wres_Proofs3.
From Coq Require Import ZArith List Bool Lia.
Import ListNotations.
Open Scope Z_scope.

Lemma fin_other : forall s t k b u, u <> t -> t_pc (fin_call s t k b) u = t_pc s u.
Proof. intros s t k b u N. destruct k as [| | |n|[|n]]; cbn; now rewrite upd_neq. Qed.

Lemma ctl_other : forall s t f w u, u <> t -> t_pc (t_ctl s t f w) u = t_pc s u.
Proof.
  intros s t f w u N. unfold t_ctl. cbv zeta.
  destruct (t_pc s t) as [|k|k|k|k| | |k o n|k|k|k|k o|k|k|k|k| | |n];
    try (destruct (cas _ _ _) as [v r]);
    repeat match goal with |- context [if ?b then _ else _] => destruct b end;
    repeat match goal with |- context [match t_wk ?a ?b with _ => _ end] => destruct (t_wk a b) end;
    cbn [s_free t_pc]; rewrite ?fin_other by auto; cbn; rewrite ?upd_neq by auto; reflexivity.
Qed.

(** only pthread_create makes a worker *)
Lemma ctl_live : forall s t f w x, (forall k, t_pc s t <> CInit2 k) -> live (t_ctl s t f w) x -> live s x.
Proof.
  intros s t f w x N. unfold t_ctl. cbv zeta.
  assert (U : live (s_wk (touch s) (t_cur (touch s)) WNone) x -> live s x).
  { unfold live. cbn [s_wk t_wk touch t_cur]. unfold upd. destruct (x =? t_cur s); tauto. }
  destruct (t_pc s t) as [|k|k|k|k| | |k o n|k|k|k|k o|k|k|k|k| | |n]; try (now elim (N k));
    try (destruct (cas _ _ _) as [v r]);
    repeat match goal with |- context [if ?b then _ else _] => destruct b end;
    repeat match goal with |- context [match t_wk ?a ?b with _ => _ end] => destruct (t_wk a b) end;
    try exact U; unfold live; cbn [s_free t_wk]; rewrite ?fin_wk; auto.
Qed.

Lemma C_zero : forall p x b, C p 0 x b.
Proof. intros p x b. destruct p; cbn [C]; auto. Qed.

(** a caller leaves a place that is not pthread_create *)
Lemma RI_leave : forall r t f w s', RI r -> KI (r_t r) -> t_step (r_t r) (LCtl t f w) = Some s' ->
  KI (t_ctl (r_t r) t f w) ->
  (forall k, t_pc (r_t r) t <> CInit2 k) ->
  (forall n, t_pc (r_t r) t = CReset n -> r_cs r t <> 2%nat /\ r_cs r t <> 3%nat) -> RI (leave r t f w).
Proof.
  intros r t f w s' [B (L & F & HL & HF & M)] K E K' NI NR.
  pose proof (ctl_some _ _ _ _ _ E) as (IDL & -> & _).
  split; [exact B|]. exists L, F. split; [exact HL|]. split; [exact HF|]. unfold leave.
  destruct M as [(v & A1 & A2 & A3 & A4 & A5 & A6)|(B1 & B2 & B3 & B4 & B5)].
  - left. exists v. pose proof (ctl_wk _ _ _ _ _ _ E A1) as U.
    unfold modeA. cbn [set_cs set_t r_res r_t r_ws r_arg r_pth r_cs]. rewrite U.
    split; [unfold live; rewrite U; exact A1|]. split; [intro u; unfold upd; destruct (u =? t); auto|]. auto.
  - right. unfold modeB. cbn [set_cs set_t r_res r_t r_ws r_arg r_pth r_cs r_loc].
    split; [intros v X; apply (B1 v); eapply ctl_live; eauto|].
    split.
    { intro u. destruct (Z.eq_dec u t) as [->|N]; [rewrite upd_eq; apply C_zero|].
      rewrite upd_neq, ctl_other by auto. apply B2. }
    split.
    { intros _. apply B3. intros (u & n & P & Q).
      assert (u = t) by (apply (ki_one _ _ _ K); [rewrite P; discriminate|exact IDL]). subst u.
      destruct (NR n P). tauto. }
    split; [|exact B5]. intros a X. destruct (B4 a X) as [Y|(u & k & P & Q & Z)]; [auto|]. right.
    assert (u <> t) by (intros ->; exact (NI k P)).
    exists u, k. rewrite ctl_other, upd_neq by auto. auto.
Qed.

Lemma good_alloc : forall x b s, base x -> good x b s -> good (alloc x) b s.
Proof.
  intros x b s (A & B & _) (G1 & G2 & G3). unfold good, alloc. cbn.
  assert (b < x_new x). { assert (Y : x_mem x b <> Gone) by congruence. specialize (B b Y). lia. }
  assert (s < x_new x). { assert (Y : x_mem x s <> Gone) by congruence. specialize (B s Y). lia. }
  rewrite !upd_neq by lia. auto.
Qed.
Lemma base_alloc : forall x, base x -> base (alloc x).
Proof.
  intros x (A & B & D & E1 & E2 & E3). unfold alloc. split; [cbn; lia|]. cbn [x_new_ x_mem_ x_mem x_new x_fds x_bad x_badfd].
  split.
  { intros a H. destruct (Z.eq_dec a (x_new x + 1)) as [->|N1]; [lia|]. rewrite upd_neq in H by auto.
    destruct (Z.eq_dec a (x_new x)) as [->|N2]; [lia|]. rewrite upd_neq in H by auto. specialize (B a H). lia. }
  split; [intros d H; specialize (D d H); lia|]. split; [exact E1|]. split; [exact E2|].
  intros b s H. destruct (Z.eq_dec b (x_new x + 1)) as [->|N1]; [rewrite upd_eq in H; injection H as <-; lia|]. rewrite upd_neq in H by auto.
  destruct (Z.eq_dec b (x_new x)) as [->|N2]; [rewrite upd_eq in H; discriminate H|]. rewrite upd_neq in H by auto. specialize (E3 b s H). lia.
Qed.

(** the idle threads have nothing under way *)
Lemma B_others : forall r t u, KI (r_t r) -> (forall t, C (t_pc (r_t r) t) (r_cs r t) (r_res r) (r_loc r t)) ->
  t_pc (r_t r) t <> CIdle -> u <> t -> t_pc (r_t r) u = CIdle /\ r_cs r u = 0%nat.
Proof.
  intros r t u K B N D. assert (P : t_pc (r_t r) u = CIdle).
  { destruct (t_pc (r_t r) u) eqn:P; auto; elim D; apply (ki_one _ _ _ K); auto; rewrite P; discriminate. }
  split; auto. specialize (B u). rewrite P in B. exact B.
Qed.

Lemma RI_init2 : forall r t k f w s', RI r -> KI (r_t r) -> t_step (r_t r) (LCtl t f w) = Some s' ->
  KI (r_t (r_ctl r t f w)) -> t_pc (r_t r) t = CInit2 k -> RI (r_ctl r t f w).
Proof.
  intros r t k f w s' [B (L & F & HL & HF & M)] K E K' P.
  pose proof (ctl_some _ _ _ _ _ E) as (IDL & _ & FR). specialize (FR k P).
  destruct M as [(v & A1 & _)|(B1 & B2 & B3 & B4 & B5)].
  { exfalso. pose proof (ki_quiet _ v t K A1) as Q. rewrite P in Q. exact Q. }
  pose proof (fun u => B_others r t u K B2 IDL) as OT.
  assert (NC : ~ clearing r).
  { intros (u & n & Q & _). assert (u = t) by (apply (ki_one _ _ _ K); [rewrite Q; discriminate|exact IDL]). congruence. }
  specialize (B3 NC).
  assert (Bt := B2 t). rewrite P in Bt. cbn [C] in Bt.
  unfold r_ctl in *. cbv zeta in *. rewrite P in K' |- *.
  destruct Bt as [Z|(Z & NP & s & G & U)]; rewrite Z in K' |- *.
  - (* the block is made *)
    split; [exact (base_alloc _ B)|]. exists L, F. split; [exact HL|]. split; [exact HF|]. right.
    unfold modeB. cbn [set_cs set_loc set_x r_res r_t r_ws r_arg r_pth r_cs r_loc].
    assert (AB := B). destruct AB as (C1 & C2 & C3 & C4 & C5 & C6).
    split; [exact B1|]. split.
    { intro u. destruct (Z.eq_dec u t) as [->|N].
      - rewrite P, !upd_eq. cbn [C]. right. split; [reflexivity|]. split.
        + change (x_param (alloc (r_res r))) with (x_param (r_res r)). intro X.
          assert (Y : x_param (r_res r) <> 0) by (rewrite <- X; lia). destruct (B3 Y) as [s G]. destruct G as (G1 & _).
          assert (Z2 : x_mem (r_res r) (x_param (r_res r)) <> Gone) by congruence. specialize (C2 _ Z2). lia.
        + exists (x_new (r_res r)). split.
          * unfold good, alloc. cbn. rewrite upd_eq, upd_neq, upd_eq by lia. split; [reflexivity|]. split; [lia|reflexivity].
          * intros c X. unfold alloc in X. cbn in X. destruct (Z.eq_dec c (x_new (r_res r) + 1)); auto.
            rewrite upd_neq in X by auto. destruct (Z.eq_dec c (x_new (r_res r))) as [->|N2]; [rewrite upd_eq in X; discriminate X|].
            rewrite upd_neq in X by auto. specialize (C6 _ _ X). lia.
      - rewrite !upd_neq by auto. destruct (OT u N) as [-> ->]. apply C_zero. }
    split. { intros _ X. destruct (B3 X) as [s G]. exists s. now apply good_alloc. }
    split; [|exact B5]. intros a X. unfold alloc in X. cbn in X.
    destruct (Z.eq_dec a (x_new (r_res r) + 1)) as [->|N1].
    { right. exists t, k. rewrite !upd_eq. auto. }
    rewrite upd_neq in X by auto. destruct (Z.eq_dec a (x_new (r_res r))) as [->|N2].
    { right. exists t, k. rewrite !upd_eq. split; [exact P|]. split; [reflexivity|]. right. unfold alloc. cbn. now rewrite upd_eq. }
    rewrite upd_neq in X by auto. destruct (B4 a X) as [Y|(u & k' & Q & V & Y)]; [auto|].
    exfalso. assert (u = t) by (apply (ki_one _ _ _ K); [rewrite Q; discriminate|exact IDL]). subst u. congruence.
  - destruct f.
    + (* pthread_create failed *)
      rewrite (free_good _ _ _ G) in K' |- *. pose proof (good_neq _ _ _ G) as NE. set (b := r_loc r t) in *.
      set (x := x_mem_ (x_mem_ (r_res r) s Gone) b (Blk 0)) in *.
      assert (X1 : free_blk x b = x_mem_ x b Gone) by (unfold free_blk, x; cbn; rewrite upd_eq; reflexivity).
      rewrite X1 in K' |- *.
      split; [apply base_mem_gone; exact (base_free_path _ _ _ B G)|]. exists L, F. split; [exact HL|]. split; [exact HF|]. right.
      assert (MM : forall a, x_mem (x_mem_ x b Gone) a = if (a =? b) || (a =? s) then Gone else x_mem (r_res r) a).
      { intro a. unfold x. cbn. unfold upd. destruct (a =? b); [reflexivity|]. destruct (a =? s); reflexivity. }
      unfold modeB, leave. cbn [set_cs set_t set_x r_res r_t r_ws r_arg r_pth r_cs r_loc].
      assert (TC : t_ctl (r_t r) t true w = fin_call (touch (r_t r)) t k false) by (unfold t_ctl; rewrite P; reflexivity).
      rewrite TC.
      split; [intros v X; apply (B1 v); unfold live in *; rewrite fin_wk in X; exact X|]. split.
      { intro u. destruct (Z.eq_dec u t) as [->|N]; [rewrite upd_eq; apply C_zero|].
        rewrite fin_other, upd_neq by auto. destruct (OT u N) as [Q V]. change (t_pc (touch (r_t r)) u) with (t_pc (r_t r) u).
        rewrite Q, V. apply C_zero. }
      split.
      { intros _ X. change (x_param (x_mem_ x b Gone)) with (x_param (r_res r)) in *. destruct (B3 X) as [q (Q1 & Q2 & Q3)].
        exists q. unfold good. rewrite !MM.
        assert (N1 : x_param (r_res r) <> b) by auto.
        assert (N2 : x_param (r_res r) <> s) by (intro Y; rewrite Y in Q1; destruct G as (_ & _ & G3); congruence).
        assert (N3 : q <> b) by (intros ->; destruct G as (G1 & _); congruence).
        assert (N4 : q <> s) by (intros ->; elim N1; now apply U).
        rewrite (proj2 (Z.eqb_neq _ _) N1), (proj2 (Z.eqb_neq _ _) N2), (proj2 (Z.eqb_neq _ _) N3), (proj2 (Z.eqb_neq _ _) N4). auto. }
      split; [|exact B5]. intros a X. rewrite MM in X. left.
      destruct (Z.eqb_spec a b) as [EB|N1]; [now elim X|]. destruct (Z.eqb_spec a s) as [ES|N2]; [now elim X|]. cbn [orb] in X.
      destruct (B4 a X) as [Y|(u & k' & Q & V & Y)]; [exact Y|]. exfalso.
      assert (u = t) by (apply (ki_one _ _ _ K); [rewrite Q; discriminate|exact IDL]). subst u. fold b in Y.
      destruct Y as [Y|Y]; [contradiction|]. destruct G as (G1 & _). congruence.
    + (* the worker is made *)
      split; [exact B|]. exists L, F. split; [exact HL|]. split; [exact HF|]. left. exists w.
      assert (TC : t_ctl (r_t r) t false w =
        fin_call (s_cancel (s_wk (s_cur (s_init (touch (r_t r)) true) w) w WStart) w false) t k true)
        by (unfold t_ctl; rewrite P; reflexivity).
      assert (TW : t_wk (t_ctl (r_t r) t false w) w = WStart) by (rewrite TC, fin_wk; cbn; apply upd_eq).
      unfold modeA, leave. cbn [set_ws set_arg set_cs set_t set_x r_res r_t r_ws r_arg r_pth r_cs r_loc].
      split; [unfold live; rewrite TW; exact I|].
      split; [intro u; unfold upd; destruct (Z.eqb_spec u t) as [X|X]; [reflexivity|apply OT, X]|].
      split; [exact B3|]. rewrite TW, !upd_eq. split.
      { cbn [W]. split; [exists s; exact G|]. split; [lia|]. repeat split; intros; lia. }
      split.
      * intros a X. destruct (B4 a X) as [Y|(u & k' & Q & V & Y)]; [auto|].
        assert (u = t) by (apply (ki_one _ _ _ K); [rewrite Q; discriminate|exact IDL]). subst u. tauto.
      * intros d X. left. exact (B5 d X).
Qed.

Lemma RI_reset : forall r t n f w s', RI r -> KI (r_t r) -> t_step (r_t r) (LCtl t f w) = Some s' ->
  KI (r_t (r_ctl r t f w)) -> t_pc (r_t r) t = CReset n -> RI (r_ctl r t f w).
Proof.
  intros r t n f w s' H K E K' P. assert (H0 := H). destruct H as [B (L & F & HL & HF & M)].
  pose proof (ctl_some _ _ _ _ _ E) as (IDL & _ & _).
  destruct M as [(v & A1 & _)|(B1 & B2 & B3 & B4 & B5)].
  { exfalso. pose proof (ki_quiet _ v t K A1) as Q. rewrite P in Q. exact Q. }
  pose proof (fun u => B_others r t u K B2 IDL) as OT.
  assert (ONE : forall u m, t_pc (r_t r) u = CReset m -> u = t).
  { intros u m Q. apply (ki_one _ _ _ K); [rewrite Q; discriminate|exact IDL]. }
  assert (ML : forall a, x_mem (r_res r) a <> Gone -> In a L).
  { intros a X. destruct (B4 a X) as [Y|(u & k & Q & _)]; [exact Y|].
    assert (u = t) by (apply (ki_one _ _ _ K); [rewrite Q; discriminate|exact IDL]). congruence. }
  assert (Bt := B2 t). rewrite P in Bt. cbn [C] in Bt.
  unfold r_ctl in *. cbv zeta in *. rewrite P in K' |- *.
  assert (OC : forall u m x b, u <> t -> C (t_pc (r_t r) u) (upd (r_cs r) t m u) x b).
  { intros u m x b N. rewrite upd_neq by auto. destruct (OT u N) as [-> ->]. apply C_zero. }
  destruct Bt as [Z|[[Z HO]|[[Z HO]|[Z|[Z HO]]]]]; rewrite Z in K' |- *.
  - assert (NC : ~ clearing r). { intros (u & m & Q & V). pose proof (ONE u m Q) as ->. lia. }
    destruct (t_bup (r_t r)); [|apply (RI_leave _ _ _ _ _ H0 K E K'); [intros k X; congruence|intros m _; lia]].
    split; [exact B|]. exists L, F. split; [exact HL|]. split; [exact HF|]. right.
    unfold modeB. cbn [set_cs set_loc set_x r_res r_t r_ws r_arg r_pth r_cs r_loc].
    split; [exact B1|]. split.
    { intro u. destruct (Z.eq_dec u t) as [->|N]; [|rewrite upd_neq with (f := r_loc r) by auto; now apply OC].
      rewrite P, !upd_eq. cbn [C]. destruct (Z.eqb_spec (x_param (r_res r)) 0) as [X|X]; [tauto|].
      right. left. split; [reflexivity|]. now apply B3. }
    split; [intros _ X; now apply B3|]. split; [intros a X; left; now apply ML|exact B5].
  - destruct HO as [s G]. rewrite (free_good _ _ _ G) in K' |- *.
    split; [exact (base_free_path _ _ _ B G)|]. exists L, F. split; [exact HL|]. split; [exact HF|]. right.
    unfold modeB. cbn [set_cs set_loc set_x r_res r_t r_ws r_arg r_pth r_cs r_loc].
    split; [exact B1|]. split.
    { intro u. destruct (Z.eq_dec u t) as [->|N]; [|now apply OC].
      rewrite P, upd_eq. cbn [C]. right. right. left. split; [reflexivity|]. cbn. apply upd_eq. }
    split.
    { intros X. elim X. exists t, n. cbn [set_cs set_x r_t r_cs]. rewrite upd_eq. auto. }
    split; [|exact B5]. intros a X. left. cbn in X. apply ML.
    destruct (Z.eq_dec a (r_loc r t)) as [->|N1]; [destruct G as (G1 & _); congruence|]. rewrite upd_neq in X by auto.
    destruct (Z.eq_dec a s) as [->|N2]; [rewrite upd_eq in X; now elim X|]. now rewrite upd_neq in X by auto.
  - unfold free_blk in *. rewrite HO in K' |- *.
    split; [now apply base_mem_gone|]. exists L, F. split; [exact HL|]. split; [exact HF|]. right.
    unfold modeB. cbn [set_cs set_loc set_x r_res r_t r_ws r_arg r_pth r_cs r_loc].
    split; [exact B1|]. split.
    { intro u. destruct (Z.eq_dec u t) as [->|N]; [|now apply OC]. rewrite P, upd_eq. cbn [C]. auto. }
    split.
    { intros X. elim X. exists t, n. cbn [set_cs set_x r_t r_cs]. rewrite upd_eq. auto. }
    split; [|exact B5]. intros a X. left. cbn in X. apply ML.
    destruct (Z.eq_dec a (r_loc r t)) as [->|N1]; [congruence|]. now rewrite upd_neq in X by auto.
  - split; [exact B|]. exists L, F. split; [exact HL|]. split; [exact HF|]. right.
    unfold modeB. cbn [set_cs set_loc set_x r_res r_t r_ws r_arg r_pth r_cs r_loc].
    split; [exact B1|]. split.
    { intro u. destruct (Z.eq_dec u t) as [->|N]; [|now apply OC]. rewrite P, upd_eq. cbn [C]. cbn. auto 6. }
    split; [intros _ X; now elim X|]. split; [intros a X; left; now apply ML|exact B5].
  - apply (RI_leave _ _ _ _ _ H0 K E K'); [intros k X; congruence|]. intros m _. lia.
Qed.

Lemma RI_ctl : forall r t f w s', RI r -> KI (r_t r) -> t_step (r_t r) (LCtl t f w) = Some s' ->
  KI (r_t (r_ctl r t f w)) -> RI (r_ctl r t f w).
Proof.
  intros r t f w s' H K E K'.
  destruct (t_pc (r_t r) t) as [|k|k|k|k| | |k o n|k|k|k|k o|k|k|k|k| | |n] eqn:P;
    try (eapply RI_init2; eauto; fail); try (eapply RI_reset; eauto; fail);
    unfold r_ctl in *; cbv zeta in *; rewrite P in K' |- *;
    apply (RI_leave _ _ _ _ _ H K E K'); intros; congruence.
Qed.

Lemma RI_call : forall r t k, RI r -> t_pc (r_t r) t = CIdle -> RI (set_t r (t_call (r_t r) t k)).
Proof.
  intros r t k [B (L & F & HL & HF & M)] P.
  assert (X : exists q, t_call (r_t r) t k = s_pc (r_t r) t q /\ forall m, q <> CInit2 m)
    by (destruct k; cbn [t_call]; eexists; (split; [reflexivity|discriminate])).
  destruct X as (q & -> & NI).
  split; [exact B|]. exists L, F. split; [exact HL|]. split; [exact HF|].
  destruct M as [(v & A)|(B1 & B2 & B3 & B4 & B5)]; [left; exists v; exact A|].
  right. unfold modeB. cbn [set_t r_res r_t r_ws r_arg r_pth r_cs r_loc s_pc t_pc].
  split; [exact B1|]. split.
  { intro u. unfold upd. destruct (Z.eqb_spec u t) as [->|N]; [|apply B2].
    specialize (B2 t). rewrite P in B2. cbn [C] in B2. rewrite B2. apply C_zero. }
  split.
  { intros X. apply B3. intros (u & n & Q & V). apply X. exists u, n. cbn. rewrite upd_neq; [auto|]. intros ->. congruence. }
  split; [|exact B5]. intros a X. destruct (B4 a X) as [Y|(u & m & Q & V)]; [auto|].
  right. exists u, m. rewrite upd_neq; [auto|]. intros ->. congruence.
Qed.

Definition path_of (x : res) (b : Z) : Z := match x_mem x b with Blk s => s | _ => 0 end.

Lemma RI_fork : forall r t, RI r -> KI (r_t r) -> (forall u, ~ handling (r_t r) u) -> RI (r_fork r t).
Proof.
  intros r t [B (L & F & HL & HF & M)] K NH. split; [exact B|].
  assert (NL : forall w, ~ live (fork_t (r_t r) t) w) by (intros w X; exact X).
  assert (NC : ~ clearing r).
  { intros (u & n & Q & _). apply (NH u). unfold handling. rewrite Q. exact I. }
  destruct M as [(v & A1 & A2 & A3 & A4 & A5 & A6)|(B1 & B2 & B3 & B4 & B5)].
  - exists (r_arg r v :: path_of (r_res r) (r_arg r v) :: L), (x_evt (r_res r) :: x_ino (r_res r) :: F).
    cbn [r_fork r_forks length]. split; [lia|]. split; [lia|]. right.
    split; [exact NL|]. split; [intro u; apply C_zero|]. split; [intros _ X; now apply A3|].
    split.
    + intros a X. left. destruct (A5 a X) as [Y|[Y|Y]]; cbn [In]; auto. right. left. unfold path_of. now rewrite Y.
    + intros d X. destruct (A6 d X) as [Y|[_ [Y|Y]]]; cbn [In]; auto.
  - assert (X : (exists u k, t_pc (r_t r) u = CInit2 k) \/ forall u k, t_pc (r_t r) u <> CInit2 k).
    { destruct (ki _ K) as (u & p & Q & O & _). destruct (t_pc (r_t r) u) eqn:Q';
        try (right; intros x k9 X; destruct (Z.eq_dec x u) as [->|N]; [congruence|specialize (O x N); cbn in O; congruence]).
      left. eauto. }
    destruct X as [(u & k & Q)|NI].
    + exists (r_loc r u :: path_of (r_res r) (r_loc r u) :: L), F.
      cbn [r_fork r_forks length]. split; [lia|]. split; [lia|]. right.
      split; [exact NL|]. split; [intro x; apply C_zero|]. split; [intros _ X; now apply B3|]. split; [|exact B5].
      intros a X. left. destruct (B4 a X) as [Y|(u' & m & Q' & V & Y)]; [cbn [In]; auto|].
      assert (u' = u) by (apply (ki_one _ _ _ K); congruence). subst u'.
      destruct Y as [Y|Y]; cbn [In]; auto. right. left. unfold path_of. now rewrite Y.
    + exists L, F. cbn [r_fork r_forks]. split; [lia|]. split; [lia|]. right.
      split; [exact NL|]. split; [intro x; apply C_zero|]. split; [intros _ X; now apply B3|]. split; [|exact B5].
      intros a X. left. destruct (B4 a X) as [Y|(u' & m & Q' & V & Y)]; [auto|]. now elim (NI u' m).
Qed.

Lemma RI_new : forall r, RI r -> RI (set_t r (new_obj (r_t r))).
Proof. intros r H. exact H. Qed.

(** ** All executions *)
Lemma one_step : forall r l r', RI r -> KI (r_t r) -> one_handler r l -> r_step r l = Some r' -> RI r' /\ KI (r_t r').
Proof.
  intros r l r' H K [O1 O2] E. destruct l as [[t k|t f w|w f|t]|]; cbn [r_step] in E.
  - destruct O1 as [O1 _]. destruct (t_pc (r_t r) t) eqn:P; try discriminate E. injection E as <-. split; [now apply RI_call|].
    apply (KI_step _ _ _ K O1); [discriminate|]. cbn [t_step]. rewrite P. reflexivity.
  - destruct O1 as [O1 _]. destruct (t_step (r_t r) (LCtl t f w)) as [s'|] eqn:S; [|discriminate E]. injection E as <-.
    pose proof (ctl_some _ _ _ _ _ S) as (_ & X & _). subst s'.
    assert (K1 : KI (t_ctl (r_t r) t f w)) by (apply (KI_step _ _ _ K O1); [discriminate|exact S]).
    assert (K' : KI (r_t (r_ctl r t f w))).
    { assert (Y : r_t (r_ctl r t f w) = r_t r \/ r_t (r_ctl r t f w) = t_ctl (r_t r) t f w).
      { unfold r_ctl. cbv zeta. destruct (t_pc (r_t r) t); auto.
        - destruct (r_cs r t); [left; reflexivity|]. destruct f; right; reflexivity.
        - destruct (r_cs r t) as [|[|[|[|m]]]]; auto. destruct (t_bup (r_t r)); auto. }
      destruct Y as [-> | ->]; auto. }
    split; [eapply RI_ctl; eauto|exact K'].
  - destruct O1 as [O1 _].
    assert (X : t_wk (r_t r) w <> WNone /\ t_wk (r_t r) w <> WDone /\ r' = r_work r w f).
    { destruct (t_wk (r_t r) w); try discriminate E; injection E as <-; (split; [discriminate|split; [discriminate|reflexivity]]). }
    destruct X as (N1 & N2 & ->).
    assert (S : forall g, t_step (r_t r) (LWork w g) = Some (t_work (r_t r) w g)).
    { intro g. cbn [t_step]. destruct (t_wk (r_t r) w); congruence || reflexivity. }
    assert (K1 : forall g, KI (t_work (r_t r) w g)).
    { intro g. apply (KI_step (r_t r) (LWork w g) _ K); [exact I|discriminate|apply S]. }
    assert (K' : KI (r_t (r_work r w f))).
    { assert (Y : r_t (r_work r w f) = r_t r \/ exists g, r_t (r_work r w f) = t_work (r_t r) w g).
      { unfold r_work, w_start, w_setup, w_wait, w_clean. cbv zeta.
        destruct (t_wk (r_t r) w);
          repeat match goal with |- context [match r_ws r w with _ => _ end] => destruct (r_ws r w) as [|[|[|[|[|[|[|[|m]]]]]]]] end;
          repeat match goal with |- context [if ?b then _ else _] => destruct b end;
          first [left; reflexivity|right; eexists; reflexivity]. }
      destruct Y as [->|[g ->]]; auto. }
    split; [now apply RI_work|exact K'].
  - destruct O1 as [_ NH]. destruct (t_pc (r_t r) t) eqn:P; try discriminate E. injection E as <-.
    split; [now apply RI_fork|]. apply KI_fork; auto. now apply (O2 t).
  - destruct (t_freed (r_t r)) eqn:Fr; [|discriminate E]. injection E as <-. split; [now apply RI_new|]. now apply KI_new.
Qed.

Lemma all_reach : forall n r, r_reach one_handler n r -> RI r /\ KI (r_t r).
Proof.
  intros n r H. induction H as [|a l b H [IH1 IH2] O E]; [split; [apply RI_init|apply KI_init]|].
  eapply one_step; eauto.
Qed.

Lemma forks_none : forall n r, r_reach no_forks n r -> r_forks r = O /\ r_reach one_handler n r.
Proof.
  intros n r H. induction H as [|a l b H [IH1 IH2] [O1 O2] E]; [split; [reflexivity|apply rsteps_refl]|].
  split.
  - rewrite <- IH1. destruct l as [[t k|t f w|w f|t]|]; cbn [r_step] in E.
    + destruct (t_pc _ _); try discriminate E. injection E as <-. reflexivity.
    + destruct (t_step _ _); [|discriminate E]. injection E as <-. unfold r_ctl. cbv zeta.
      destruct (t_pc (r_t a) t); try reflexivity.
      * destruct (r_cs a t); [reflexivity|]. destruct f; reflexivity.
      * destruct (r_cs a t) as [|[|[|[|m]]]]; try reflexivity. destruct (t_bup (r_t a)); reflexivity.
    + assert (b = r_work a w f) by (destruct (t_wk (r_t a) w); try discriminate E; injection E as <-; reflexivity).
      subst b. unfold r_work, w_start, w_setup, w_wait, w_clean. cbv zeta.
      destruct (t_wk (r_t a) w);
          repeat match goal with |- context [match r_ws a w with _ => _ end] => destruct (r_ws a w) as [|[|[|[|[|[|[|[|m]]]]]]]] end;
          repeat match goal with |- context [if ?b then _ else _] => destruct b end; reflexivity.
    + now elim (O2 t).
    + destruct (t_freed _); [|discriminate E]. injection E as <-. reflexivity.
  - eapply rsteps_next; [exact IH2| |exact E]. split; [exact O1|]. intros t ->. now elim (O2 t).
Qed.

(** ** A number that was given back is not given out again *)
Lemma gone_stays : forall r l r' a, r_step r l = Some r' -> a < x_new (r_res r) -> x_mem (r_res r) a = Gone ->
  x_mem (r_res r') a = Gone /\ a < x_new (r_res r').
Proof.
  intros r l r' a E N G.
  assert (FP : forall x b, x_mem x a = Gone -> a < x_new x -> x_mem (free_path x b) a = Gone /\ a < x_new (free_path x b)).
  { intros x b X Y. unfold free_path. destruct (x_mem x b) as [| |q] eqn:M; [auto|auto|]. destruct (q =? 0); [auto|].
    destruct (x_mem x q) eqn:M'; [auto| |auto]. cbn. split; [|exact Y]. unfold upd.
    destruct (Z.eqb_spec a b) as [->|_]; [congruence|]. destruct (a =? q); auto. }
  assert (FB : forall x b, x_mem x a = Gone -> a < x_new x -> x_mem (free_blk x b) a = Gone /\ a < x_new (free_blk x b)).
  { intros x b X Y. unfold free_blk. destruct (x_mem x b); [auto|auto|]. cbn. split; [|exact Y]. unfold upd. destruct (a =? b); auto. }
  destruct l as [[t k|t f w|w f|t]|]; cbn [r_step] in E.
  - destruct (t_pc _ _); try discriminate E. injection E as <-. auto.
  - destruct (t_step _ _); [|discriminate E]. injection E as <-. unfold r_ctl. cbv zeta.
    destruct (t_pc (r_t r) t); auto.
    + destruct (r_cs r t).
      * cbn. rewrite !upd_neq by lia. split; [exact G|lia].
      * destruct f; [|auto]. cbn [leave set_cs set_t set_x r_res]. destruct (FP (r_res r) (r_loc r t) G N) as [X Y]. now apply FB.
    + destruct (r_cs r t) as [|[|[|[|m]]]]; auto; cbn [set_cs set_loc set_x r_res]; auto.
      destruct (t_bup (r_t r)); auto.
  - assert (r' = r_work r w f) by (destruct (t_wk (r_t r) w); try discriminate E; injection E as <-; reflexivity). subst r'.
    assert (OP : forall x, x_mem x a = Gone -> a < x_new x -> x_mem (open_fd x) a = Gone /\ a < x_new (open_fd x)) by (intros; cbn; split; [auto|lia]).
    assert (UF : forall x d, x_mem x a = Gone -> a < x_new x -> x_mem (use_fd x d) a = Gone /\ a < x_new (use_fd x d))
      by (intros x d; unfold use_fd; destruct (x_fds x d); auto).
    assert (CF : forall x d, x_mem x a = Gone -> a < x_new x -> x_mem (close_fd x d) a = Gone /\ a < x_new (close_fd x d))
      by (intros x d; unfold close_fd; destruct (x_fds x d); auto).
    assert (RB : forall x d, x_mem x a = Gone -> a < x_new x -> x_mem (read_blk x d) a = Gone /\ a < x_new (read_blk x d))
      by (intros x d; unfold read_blk; destruct (x_mem x d); auto).
    assert (RS : forall x d, x_mem x a = Gone -> a < x_new x -> x_mem (read_str x d) a = Gone /\ a < x_new (read_str x d))
      by (intros x d; unfold read_str; destruct (x_mem x d); auto).
    pose proof (OP _ G N) as OP0.
    assert (U2 : forall d e, x_mem (use_fd (use_fd (r_res r) d) e) a = Gone /\ a < x_new (use_fd (use_fd (r_res r) d) e))
      by (intros d e; destruct (UF _ d G N); auto).
    assert (U3 : forall d e, x_mem (read_str (use_fd (r_res r) d) e) a = Gone /\ a < x_new (read_str (use_fd (r_res r) d) e))
      by (intros d e; destruct (UF _ d G N); auto).
    unfold r_work, w_start, w_setup, w_wait, w_clean. cbv zeta.
    destruct (t_wk (r_t r) w); auto.
    + destruct (r_ws r w) as [|[|[|[|m]]]]; auto. cbn [go set_ws set_t set_pth set_x r_res]. auto.
    + destruct (r_ws r w) as [|[|[|[|[|m]]]]]; auto.
      * destruct (t_cancel _ _); auto.
      * destruct f; auto.
      * destruct f; auto.
      * destruct f; exact (U3 (x_ino (r_res r)) (r_pth r w)).
      * destruct f; exact (U2 (x_evt (r_res r)) (x_ino (r_res r))).
    + cbn [go set_ws set_t set_x r_res]. auto.
    + destruct (r_ws r w) as [|[|[|[|[|[|[|[|m]]]]]]]]; cbn [at_ go set_ws set_t set_x r_res]; auto.
      * destruct (_ =? 0); auto.
      * destruct (_ =? 0); auto.
      * destruct (_ =? 0); auto.
  - destruct (t_pc _ _); try discriminate E. injection E as <-. auto.
  - destruct (t_freed _); [|discriminate E]. injection E as <-. auto.
Qed.

(** ** A live worker was started with a path *)
Definition withpath (s : tstate) : Prop :=
  t_bup s = false -> (forall w, ~ live s w) /\ forall t k, t_pc s t <> CInit2 k.

Lemma bup_ctl : forall s t f w, t_bup (t_ctl s t f w) = false -> t_bup s = false /\
  ((forall x k, t_pc s x <> CInit2 k) -> forall x k, t_pc (t_ctl s t f w) x <> CInit2 k).
Proof.
  intros s t f w B. assert (B' : t_bup s = false).
  { revert B. unfold t_ctl. cbv zeta.
    destruct (t_pc s t) as [|k|k|k|k| | |k o n|k|k|k|k o|k|k|k|k| | |n];
      try (destruct (cas _ _ _) as [v r]);
      repeat match goal with |- context [if ?b then _ else _] => destruct b end;
      repeat match goal with |- context [match t_wk ?a ?b with _ => _ end] => destruct (t_wk a b) end;
      cbn [s_free t_bup]; rewrite ?(proj1 (bup_fin _ _ _ _)); cbn; auto; discriminate. }
  split; [exact B'|]. intro N. revert B. unfold t_ctl. cbv zeta.
  assert (T3 : forall x m, t_pc (touch s) x <> CInit2 m) by exact N.
  destruct (t_pc s t) as [|k|k|k|k| | |k o n|k|k|k|k o|k|k|k|k| | |n];
      try (destruct (cas _ _ _) as [v r]);
      repeat match goal with |- context [if ?b then _ else _] => destruct b end;
      repeat match goal with |- context [match t_wk ?a ?b with _ => _ end] => destruct (t_wk a b) end;
      intro B; try exact N; try (apply pc_fin; exact N); try (apply pc_upd; [exact N|discriminate]); try discriminate B.
Qed.

Lemma withpath_step : forall r l r', withpath (r_t r) -> KI (r_t r) -> r_step r l = Some r' -> withpath (r_t r').
Proof.
  intros r l r' H K E. destruct l as [[t k|t f w|w f|t]|]; cbn [r_step] in E.
  - destruct (t_pc (r_t r) t) eqn:P; try discriminate E. injection E as <-. intro B.
    assert (B' : t_bup (r_t r) = false) by (destruct k; exact B). destruct (H B') as [H1 H2].
    split; [intros w L; apply (H1 w); destruct k; exact L|].
    destruct k; cbn [set_t r_t t_call]; apply pc_upd; auto; discriminate.
  - destruct (t_step _ _) as [s'|] eqn:S; [|discriminate E]. injection E as <-.
    assert (Y : r_t (r_ctl r t f w) = r_t r \/ r_t (r_ctl r t f w) = t_ctl (r_t r) t f w).
      { unfold r_ctl. cbv zeta. destruct (t_pc (r_t r) t); auto.
        - destruct (r_cs r t); [left; reflexivity|]. destruct f; right; reflexivity.
        - destruct (r_cs r t) as [|[|[|[|m]]]]; auto. destruct (t_bup (r_t r)); auto. }
    destruct Y as [-> | ->]; auto. intro B. destruct (bup_ctl _ _ _ _ B) as [B1 B2]. destruct (H B1) as [H1 H2].
    split; [|now apply B2]. intros x L. apply (H1 x). eapply ctl_live; eauto.
  - assert (X : t_wk (r_t r) w <> WNone /\ t_wk (r_t r) w <> WDone /\ r' = r_work r w f).
    { destruct (t_wk (r_t r) w); try discriminate E; injection E as <-; (split; [discriminate|split; [discriminate|reflexivity]]). }
    destruct X as (N1 & N2 & ->).
    assert (Y : r_t (r_work r w f) = r_t r \/ exists g, r_t (r_work r w f) = t_work (r_t r) w g).
      { unfold r_work, w_start, w_setup, w_wait, w_clean. cbv zeta.
        destruct (t_wk (r_t r) w);
          repeat match goal with |- context [match r_ws r w with _ => _ end] => destruct (r_ws r w) as [|[|[|[|[|[|[|[|m]]]]]]]] end;
          repeat match goal with |- context [if ?b then _ else _] => destruct b end;
          first [left; reflexivity|right; eexists; reflexivity]. }
    destruct Y as [->|[g ->]]; auto. intro B.
    assert (B' : t_bup (r_t r) = false).
    { revert B. unfold t_work. destruct (_ && _); [auto|]. destruct (t_wk (r_t r) w); cbv zeta; try (destruct (cas _ _ _));
        repeat match goal with |- context [if ?b then _ else _] => destruct b end; auto. }
    destruct (H B') as [H1 H2]. rewrite work_pc. split; [|exact H2]. intros x L.
    destruct (Z.eq_dec x w) as [->|N]; [|apply (H1 x); eapply work_live; eauto].
    apply (H1 w). unfold live in *. pose proof (next_wk (r_t r) w g) as Q. cbv zeta in Q.
    destruct (t_wk (r_t r) w); auto; rewrite Q in L; exact L.
  - destruct (t_pc (r_t r) t) eqn:P; try discriminate E. injection E as <-. intro B.
    split; [intros w L; exact L|]. intros x k. cbn [r_fork r_t fork_t t_pc].
    destruct (x =? t); [|discriminate]. destruct (t_freed _); [discriminate|]. destruct (t_regs _); discriminate.
  - destruct (t_freed (r_t r)) eqn:Fr; [|discriminate E]. injection E as <-. intro B.
    destruct (ki_freed _ K Fr) as [P L]. split; [intros w X; exact (L w X)|]. intros t k X. cbn in X. rewrite P in X. discriminate X.
Qed.

Lemma withpath_reach : forall n r, r_reach one_handler n r -> withpath (r_t r).
Proof.
  intros n r H. induction H as [|a l b H IH O E].
  - intros _. split; [intros w X; exact X|discriminate].
  - eapply withpath_step; eauto. exact (proj2 (all_reach _ _ H)).
Qed.
