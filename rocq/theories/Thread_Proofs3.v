(** The end of a worker is recorded, and a forked child gets a worker. *)
From Verif Require Import Base Thread_Model Thread_Spec Thread_Proofs Thread_Proofs2.
From Coq Require Import ZArith List Bool Lia.
Import ListNotations.
Open Scope Z_scope.

(** a step of the worker that ends it writes the last value *)
Lemma work_ends : forall s w f, live s w -> ~ live (t_work s w f) w -> t_flag (t_work s w f) = FIN.
Proof.
  intros s w f L N. unfold live in *. revert N. unfold t_work.
  destruct (t_cancel s w && cancel_point (t_wk s w)).
  - cbn [s_wk t_wk]. rewrite upd_eq. intro N. now elim N.
  - destruct (t_wk s w) as [| | | | | | | | |o| |] eqn:P; cbv zeta; try contradiction;
      try (cbn [s_wk t_wk]; rewrite upd_eq; intro N; now elim N);
      try (match goal with |- context [if ?b then _ else _] => destruct b end;
           cbn [s_wk t_wk touch]; rewrite upd_eq; intro N; now elim N).
    unfold cas. cbn [touch t_flag].
    destruct (Z.eqb_spec (t_flag s) o) as [X|X].
    + rewrite (proj2 (Z.eqb_eq _ _) X). intros _. reflexivity.
    + rewrite (proj2 (Z.eqb_neq _ _) X). destruct (Z.eqb_spec (t_flag s) FIN) as [Y|Y].
      * intros _. exact Y.
      * cbn [s_wk t_wk touch]. rewrite upd_eq. intro N. now elim N.
Qed.

Lemma work_other : forall s w f x, x <> w -> t_wk (t_work s w f) x = t_wk s x.
Proof.
  intros s w f x N. unfold t_work. destruct (_ && _); [cbn; now rewrite upd_neq|].
  destruct (t_wk s w); cbv zeta; try (destruct (cas _ _ _));
    repeat match goal with |- context [if ?b then _ else _] => destruct b end;
    cbn [s_wk s_flag touch t_wk]; rewrite ?upd_neq by auto; reflexivity.
Qed.

Lemma fin_wk : forall s t k b, t_wk (fin_call s t k b) = t_wk s.
Proof. intros s t k b. destruct k as [| | |n|[|n]]; reflexivity. Qed.

(** a step of a caller leaves live workers alone *)
Lemma ctl_wk : forall s t f w s' x, t_step s (LCtl t f w) = Some s' -> live s x -> t_wk s' x = t_wk s x.
Proof.
  intros s t f w s' x E L. cbn [t_step] in E.
  assert (U : forall v, t_wk s v = WDone \/ t_wk s v = WNone -> forall q, upd (t_wk s) v q x = t_wk s x).
  { intros v D q. rewrite upd_neq; auto. intros ->. unfold live in L. destruct D as [D|D]; rewrite D in L; exact L. }
  destruct (t_pc s t) as [|k|k|k|k| | |k o n|k|k|k|k o|k|k|k|k| | |n] eqn:P; try discriminate E;
    try (destruct (t_wk s w) eqn:W; try discriminate E);
    injection E as <-; unfold t_ctl; rewrite P; cbv zeta; try (destruct (cas _ _ _));
    repeat match goal with
    | |- context [if ?b then _ else _] => destruct b
    | |- context [match t_wk ?a ?b with _ => _ end] => destruct (t_wk a b) eqn:?
    end;
    cbn [s_pc s_free s_flag s_init s_cur s_wk s_cancel touch t_wk t_cur]; rewrite ?fin_wk;
    cbn [s_pc s_free s_flag s_init s_cur s_wk s_cancel touch t_wk t_cur];
    try reflexivity; try (apply U; auto; fail).
Qed.

Lemma ends_step : forall s l s' w, t_step s l = Some s' -> no_fork s l -> live s w -> ~ live s' w -> t_flag s' = FIN.
Proof.
  intros s l s' w E NF L N. destruct l as [t k|t f v|v f|t].
  - cbn [t_step] in E. destruct (t_pc s t); try discriminate E. injection E as <-. elim N. destruct k; exact L.
  - elim N. unfold live in *. now rewrite (ctl_wk _ _ _ _ _ _ E L).
  - apply work_some in E as (_ & _ & ->). destruct (Z.eq_dec w v) as [->|X]; [now apply work_ends|].
    elim N. unfold live in *. now rewrite work_other.
  - now elim (NF t).
Qed.

(** ** A forked child *)
(** the worker is up and going *)
Definition going (p : wpc) : Prop :=
  match p with WStart | WSetup | WLoop | WStop | WSleep | WRun | WWait => True | _ => False end.

Definition hpc (p : cpc) (s : tstate) : Prop :=
  match p with
  | CReset _ => True
  | CInit1 (KRunH _) | CInit2 (KRunH _) => t_init s = false /\ t_flag s = STOP
  | CRun1 (KNextH _) | CRun2 (KNextH _) => t_init s = true /\ t_flag s = STOP /\ going (t_wk s (t_cur s))
  | CCas (KNextH _) o n => o = STOP /\ n = RUN /\ t_init s = true /\ t_flag s = STOP /\ going (t_wk s (t_cur s))
  | CIdle => t_init s = true /\ t_flag s = RUN /\ going (t_wk s (t_cur s))
  | _ => False
  end.

Record child (t : Z) (s : tstate) : Prop := mkChild {
  h_one : forall x, x <> t -> t_pc s x = CIdle;
  h_live : t_freed s = false;
  h_can : forall w, t_cancel s w = false;
  h_wk : forall w, t_wk s w = WNone \/ going (t_wk s w);
  h_flag : (forall w, t_wk s w = WNone) \/ t_flag s < EXIT;
  h_pc : hpc (t_pc s t) s;
  h_bup : t_bup s = true }.

Lemma child_fork : forall s t n, t_freed s = false -> t_bup s = true -> t_regs s = S n -> child t (fork_t s t).
Proof.
  intros s t n F BU R. constructor; cbn [fork_t t_pc t_freed t_cancel t_wk t_flag]; auto.
  - intros x X. now rewrite (proj2 (Z.eqb_neq _ _) X).
  - rewrite Z.eqb_refl, F, R. exact I.
Qed.

Lemma child_work : forall t s w, child t s -> t_wk s w <> WNone -> child t (t_work s w false).
Proof.
  intros t s w [A B C D E F BU] N.
  assert (G : going (t_wk s w)) by (destruct (D w); auto; contradiction).
  assert (E' : t_flag s < EXIT) by (destruct E as [E|E]; auto; elim N; apply E).
  assert (X : exists q, going q /\ t_work s w false = s_wk s w q).
  { unfold t_work. rewrite C. cbn [andb]. rewrite touch_id by auto.
    destruct (t_wk s w); try contradiction; cbv zeta;
      try (eexists; split; [|reflexivity]; exact I).
    - rewrite (proj2 (Z.ltb_lt _ _) E'). eexists; split; [|reflexivity]; exact I.
    - destruct (_ =? _); eexists; (split; [|reflexivity]); exact I.
    - destruct (_ =? _); eexists; (split; [|reflexivity]); exact I. }
  destruct X as (q & Q & ->). constructor; cbn [s_wk t_pc t_freed t_cancel t_wk t_flag]; auto.
  - intro x. destruct (Z.eq_dec x w) as [->|Y]; [rewrite upd_eq|rewrite upd_neq by auto]; auto.
  - assert (K : going (t_wk s (t_cur s)) -> going (upd (t_wk s) w q (t_cur s))).
    { intro H. destruct (Z.eq_dec (t_cur s) w) as [Y|Y]; [rewrite Y, upd_eq; exact Q|rewrite upd_neq by auto; exact H]. }
    unfold hpc in *. cbn [s_wk t_init t_flag t_wk t_cur] in *.
    destruct (t_pc s t) as [|k|k|k|k| | |k o n|k|k|k|k o|k|k|k|k| | |n]; auto; try (destruct k; intuition; fail).
    destruct F as (F1 & F2 & F3). auto.
Qed.

Lemma child_pc : forall t s p, child t s -> hpc p s -> child t (s_pc s t p).
Proof.
  intros t s p [A B C D E F BU] H. constructor; cbn [s_pc t_pc t_freed t_cancel t_wk t_flag]; auto.
  - intros x X. rewrite upd_neq by auto. auto.
  - rewrite upd_eq. exact H.
Qed.

Lemma child_step : forall t s l s', child t s -> smooth s l -> t_step s l = Some s' -> child t s'.
Proof.
  intros t s l s' H S E. destruct l as [x k|x f w|w f|x]; cbn [smooth] in S; try contradiction.
  - subst f. assert (x = t).
    { destruct (Z.eq_dec x t); auto. cbn [t_step] in E. rewrite (h_one _ _ H) in E by auto. discriminate E. }
    subst x. assert (H0 := H). destruct H as [A B C D EF F BU]. cbn [t_step] in E.
    destruct (t_pc s t) as [|k|k|k|k| | |k o n|k|k|k|k o|k|k|k|k| | |n] eqn:P; try contradiction; try discriminate E;
      try (destruct k as [| | |m|m]; try contradiction); cbn [hpc] in F.
    + injection E as <-. unfold t_ctl. rewrite P. cbv zeta. rewrite touch_id by auto. destruct F as [F1 F2]. rewrite F1.
      apply child_pc; [|split; auto]. constructor; auto. cbn [s_bup t_pc]. rewrite P. split; auto.
    + destruct (t_wk s w) eqn:W; try discriminate E. injection E as <-.
      unfold t_ctl. rewrite P. cbv zeta. rewrite touch_id by auto. cbn [fin_call]. destruct F as [F1 F2].
      constructor; cbn [s_pc s_cancel s_wk s_cur s_init t_pc t_freed t_cancel t_wk t_flag]; auto.
      * intros x X. rewrite upd_neq by auto. auto.
      * intro x. destruct (Z.eq_dec x w) as [->|Y]; [rewrite upd_eq; reflexivity|rewrite upd_neq by auto; auto].
      * intro x. destruct (Z.eq_dec x w) as [->|Y]; [rewrite upd_eq; right; exact I|rewrite upd_neq by auto; auto].
      * right. rewrite F2. reflexivity.
      * rewrite upd_eq. cbn [hpc s_pc s_cancel s_wk s_cur s_init s_flag t_init t_flag t_wk t_cur]. rewrite upd_eq. cbn [going]. auto.
    + injection E as <-. unfold t_ctl. rewrite P. cbv zeta. rewrite touch_id by auto. destruct F as (F1 & F2 & F3). rewrite F1.
      apply child_pc; auto. cbn [hpc]. auto.
    + injection E as <-. unfold t_ctl. rewrite P. cbv zeta. rewrite touch_id by auto. destruct F as (F1 & F2 & F3). rewrite F2.
      cbn [Z.eqb STOP Pos.eqb]. apply child_pc; auto. cbn [hpc]. auto.
    + injection E as <-. unfold t_ctl. rewrite P. cbv zeta. rewrite touch_id by auto.
      destruct F as (-> & -> & F1 & F2 & F3). unfold cas. rewrite F2, Z.eqb_refl, Z.eqb_refl.
      assert (K : child t (s_flag (s_pc s t CIdle) RUN)).
      { constructor; cbn [s_flag s_pc t_pc t_freed t_cancel t_wk t_flag]; auto.
        - intros x X. rewrite upd_neq by auto. auto.
        - right. reflexivity.
        - rewrite upd_eq. cbn [hpc s_pc s_cancel s_wk s_cur s_init s_flag t_init t_flag t_wk t_cur]. auto. }
      destruct m as [|m]; cbn [fin_call]; [exact K|].
      destruct K as [K1 K2 K3 K4 K5 K6 K7]. constructor; cbn [s_pc s_flag t_pc t_freed t_cancel t_wk t_flag] in *; auto.
      * intros x X. rewrite upd_neq by auto. auto.
      * rewrite upd_eq. exact I.
    + injection E as <-. unfold t_ctl. rewrite P. cbv zeta. rewrite touch_id by auto. rewrite BU.
      constructor; cbn [s_pc s_init s_flag t_pc t_freed t_cancel t_wk t_flag]; auto.
      * intros x X. rewrite upd_neq by auto. auto.
      * right. reflexivity.
      * rewrite upd_eq. cbn [hpc s_pc s_init s_flag t_init t_flag]. auto.
  - subst f. apply work_some in E as (N & _ & ->). now apply child_work.
Qed.

Lemma child_steps : forall t s s', child t s -> steps smooth s s' -> child t s'.
Proof. intros t s s' H S. induction S as [|a l b S IH O E]; auto. eapply child_step; eauto. Qed.

Lemma regs_step : forall s l s', t_step s l = Some s' -> t_regs s' = t_regs s.
Proof.
  intros s l s' E. destruct l as [t k|t f w|w f|t].
  - cbn [t_step] in E. destruct (t_pc s t); try discriminate E. injection E as <-. destruct k; reflexivity.
  - apply ctl_some in E as (_ & -> & _). unfold t_ctl. cbv zeta.
    destruct (t_pc s t) as [|k|k|k|k| | |k o n|k|k|k|k o|k|k|k|k| | |n];
      try (destruct (cas _ _ _) as [v r]);
      repeat match goal with
      | |- context [if ?b then _ else _] => destruct b
      | |- context [match t_wk ?a ?b with _ => _ end] => destruct (t_wk a b)
      end; try (destruct k as [| | |m|[|m]]); reflexivity.
  - apply work_some in E as (_ & _ & ->). unfold t_work. destruct (_ && _); [reflexivity|].
    destruct (t_wk s w) as [| | | | | | | | |o| |]; cbv zeta; try reflexivity;
      try (destruct (cas _ _ _) as [v r]);
      repeat match goal with |- context [if ?b then _ else _] => destruct b end; reflexivity.
  - cbn [t_step] in E. destruct (t_pc s t); try discriminate E. injection E as <-. reflexivity.
Qed.
Lemma regs_reach : forall ok n s, reach ok n s -> t_regs s = n.
Proof. intros ok n s R. induction R as [|a l b R IH O E]; [reflexivity|]. rewrite (regs_step _ _ _ E). exact IH. Qed.

(** six steps of the forking thread finish the only handler *)
Lemma ctl_go : forall s t w, t_pc s t <> CIdle -> t_wk s w = WNone \/ (forall k, t_pc s t <> CInit2 k) ->
  t_step s (LCtl t false w) = Some (t_ctl s t false w).
Proof.
  intros s t w N W. cbn [t_step]. destruct (t_pc s t); try reflexivity; [now elim N|].
  destruct W as [->|W]; [reflexivity|]. now elim (W k).
Qed.
Lemma handler_six : forall s t w, t_freed s = false -> t_bup s = true -> t_regs s = 1%nat ->
  exists a b c d e s2, t_step (fork_t s t) (LCtl t false w) = Some a /\ t_step a (LCtl t false w) = Some b /\
    t_step b (LCtl t false w) = Some c /\ t_step c (LCtl t false w) = Some d /\ t_step d (LCtl t false w) = Some e /\
    t_step e (LCtl t false w) = Some s2 /\ t_pc s2 t = CIdle.
Proof.
  intros s t w F BU R.
  set (z := fork_t s t).
  assert (Z1 : t_pc z t = CReset 0) by (cbn [z fork_t t_pc]; rewrite Z.eqb_refl, F, R; reflexivity).
  set (a := t_ctl z t false w).
  assert (A : a = s_pc (s_init (s_flag (touch z) STOP) false) t (CInit1 (KRunH 0))) by (unfold a, t_ctl; rewrite Z1; cbv zeta; cbn [touch z fork_t t_bup]; rewrite BU; reflexivity).
  assert (A1 : t_pc a t = CInit1 (KRunH 0)) by (rewrite A; cbn [s_pc t_pc]; apply upd_eq).
  set (b := t_ctl a t false w).
  assert (B : b = s_pc (s_bup (touch a)) t (CInit2 (KRunH 0))) by (unfold b, t_ctl; rewrite A1; cbv zeta; rewrite A; reflexivity).
  assert (B1 : t_pc b t = CInit2 (KRunH 0)) by (rewrite B; cbn [s_pc t_pc]; apply upd_eq).
  set (c := t_ctl b t false w).
  assert (C : c = s_pc (s_cancel (s_wk (s_cur (s_init (touch b) true) w) w WStart) w false) t (CRun1 (KNextH 0)))
    by (unfold c, t_ctl; rewrite B1; reflexivity).
  assert (C1 : t_pc c t = CRun1 (KNextH 0)) by (rewrite C; cbn [s_pc t_pc]; apply upd_eq).
  set (d := t_ctl c t false w).
  assert (D : d = s_pc (touch c) t (CRun2 (KNextH 0))) by (unfold d, t_ctl; rewrite C1; cbv zeta; rewrite C; reflexivity).
  assert (D1 : t_pc d t = CRun2 (KNextH 0)) by (rewrite D; cbn [s_pc t_pc]; apply upd_eq).
  assert (DF : t_flag d = STOP) by (rewrite D, C, B, A; reflexivity).
  set (e := t_ctl d t false w).
  assert (E : e = s_pc (touch d) t (CCas (KNextH 0) STOP RUN)).
  { unfold e, t_ctl. rewrite D1. cbv zeta. cbn [touch t_flag]. rewrite DF. reflexivity. }
  assert (E1 : t_pc e t = CCas (KNextH 0) STOP RUN) by (rewrite E; cbn [s_pc t_pc]; apply upd_eq).
  assert (EF : t_flag e = STOP) by (rewrite E; exact DF).
  exists a, b, c, d, e, (t_ctl e t false w).
  assert (G : forall x p, t_pc x t = p -> p <> CIdle -> (forall k, p <> CInit2 k) -> t_step x (LCtl t false w) = Some (t_ctl x t false w)).
  { intros x p <- X Y. apply ctl_go; auto. }
  split; [eapply G; [exact Z1| |]; intros; discriminate|].
  split; [eapply G; [exact A1| |]; intros; discriminate|].
  split. { apply ctl_go; [rewrite B1; discriminate|]. left. rewrite B, A. reflexivity. }
  split; [eapply G; [exact C1| |]; intros; discriminate|].
  split; [eapply G; [exact D1| |]; intros; discriminate|].
  split; [eapply G; [exact E1| |]; intros; discriminate|].
  unfold t_ctl. rewrite E1. cbv zeta. cbn [touch t_flag]. rewrite EF. unfold cas. rewrite !Z.eqb_refl.
  cbn [fin_call s_pc t_pc]. apply upd_eq.
Qed.

(** ** Something was started once *)
Definition invb (s : tstate) : Prop :=
  t_bup s = false -> t_init s = false /\ (forall w, t_wk s w = WNone) /\ (forall t k, t_pc s t <> CInit2 k).

Lemma bup_fin : forall s t k b, t_bup (fin_call s t k b) = t_bup s /\ t_init (fin_call s t k b) = t_init s.
Proof. intros s t k b. destruct k as [| | |n|[|n]]; split; reflexivity. Qed.
Lemma pc_fin : forall s t k b, (forall x m, t_pc s x <> CInit2 m) -> forall x m, t_pc (fin_call s t k b) x <> CInit2 m.
Proof.
  intros s t k b H x m. destruct k as [| | |n|[|n]]; cbn [fin_call s_res s_pc t_pc]; unfold upd; destruct (x =? t); auto; discriminate.
Qed.
Lemma pc_upd : forall s t p, (forall x m, t_pc s x <> CInit2 m) -> (forall m, p <> CInit2 m) ->
  forall x m, t_pc (s_pc s t p) x <> CInit2 m.
Proof. intros s t p H N x m. cbn [s_pc t_pc]. unfold upd. destruct (x =? t); auto. Qed.

Lemma invb_step : forall s l s', invb s -> t_step s l = Some s' -> invb s'.
Proof.
  intros s l s' H E. destruct l as [t k|t f w|w f|t].
  - cbn [t_step] in E. destruct (t_pc s t); try discriminate E. injection E as <-. unfold invb.
    intro B. assert (B' : t_bup s = false) by (destruct k; exact B). destruct (H B') as (H1 & H2 & H3).
    destruct k; (split; [exact H1|split; [exact H2|cbn [t_call]; apply pc_upd; auto; discriminate]]).
  - apply ctl_some in E as (_ & -> & _). unfold invb. intro B.
    assert (B' : t_bup s = false).
    { revert B. unfold t_ctl. cbv zeta.
      destruct (t_pc s t) as [|k|k|k|k| | |k o n|k|k|k|k o|k|k|k|k| | |n];
      try (destruct (cas _ _ _) as [v r]);
      repeat match goal with |- context [if ?b then _ else _] => destruct b end;
      repeat match goal with |- context [match t_wk ?a ?b with _ => _ end] => destruct (t_wk a b) end;
      cbn [s_free t_bup]; rewrite ?(proj1 (bup_fin _ _ _ _)); cbn; auto; discriminate. }
    destruct (H B') as (H1 & H2 & H3). clear H. revert B. unfold t_ctl. cbv zeta.
    assert (T1 : t_init (touch s) = false) by exact H1. assert (T2 : t_bup (touch s) = false) by exact B'.
    assert (T3 : forall x m, t_pc (touch s) x <> CInit2 m) by exact H3.
    assert (T4 : forall x, t_wk (touch s) x = WNone) by exact H2.
    assert (FIN' : forall k b, t_init (fin_call (touch s) t k b) = false /\
        (forall x, t_wk (fin_call (touch s) t k b) x = WNone) /\ (forall x m, t_pc (fin_call (touch s) t k b) x <> CInit2 m)).
    { intros k b. split; [rewrite (proj2 (bup_fin _ _ _ _)); exact T1|]. split; [rewrite fin_wk; exact T4|]. now apply pc_fin. }
    assert (PC' : forall p, (forall m, p <> CInit2 m) -> t_init (s_pc (touch s) t p) = false /\
        (forall x, t_wk (s_pc (touch s) t p) x = WNone) /\ (forall x m, t_pc (s_pc (touch s) t p) x <> CInit2 m)).
    { intros p N. split; [exact T1|]. split; [exact T4|]. now apply pc_upd. }
    destruct (t_pc s t) as [|k|k|k|k| | |k o n|k|k|k|k o|k|k|k|k| | |n] eqn:P; rewrite ?T1, ?T2, ?T4;
      try (intros _; first [apply FIN'|apply PC'; discriminate]; fail).
    + intros _. auto.
    + cbn. discriminate.
    + now elim (H3 t k).
    + destruct (_ =? STOP); intros _; first [apply FIN'|apply PC'; discriminate].
    + destruct (_ =? RUN); intros _; first [apply FIN'|apply PC'; discriminate].
    + destruct (cas _ _ _) as [v r]. destruct (r =? o); [intros _|].
      { split; [rewrite (proj2 (bup_fin _ _ _ _)); exact T1|]. split; [rewrite fin_wk; exact T4|]. now apply pc_fin. }
      destruct (r =? n); intros _; first [apply FIN'|apply PC'; discriminate].
    + destruct (EXIT <=? _); intros _; first [apply FIN'|apply PC'; discriminate].
    + destruct f; intros _; [apply FIN'|]. split; [exact T1|]. split; [exact T4|]. now apply pc_upd.
    + destruct (cas _ _ _) as [v r]. destruct (r =? o); [intros _|].
      { split; [exact T1|]. split; [exact T4|]. now apply pc_upd. }
      destruct (EXIT <=? r); intros _; apply PC'; discriminate.
    + destruct (_ =? FIN); intros _; apply PC'; discriminate.
    + intros _. split; [rewrite (proj2 (bup_fin _ _ _ _)); reflexivity|]. split; [rewrite fin_wk; exact T4|]. now apply pc_fin.
  - apply work_some in E as (N & _ & ->). intro B.
    assert (B' : t_bup s = false).
    { revert B. unfold t_work. destruct (_ && _); [auto|]. destruct (t_wk s w); cbv zeta; try (destruct (cas _ _ _));
        repeat match goal with |- context [if ?b then _ else _] => destruct b end; auto. }
    destruct (H B') as (_ & H2 & _). elim N. apply H2.
  - cbn [t_step] in E. destruct (t_pc s t); try discriminate E. injection E as <-. intro B.
    destruct (H B) as (H1 & _ & _). split; [exact H1|]. split; [reflexivity|]. intros x k. cbn [fork_t t_pc].
    destruct (x =? t); [|discriminate]. destruct (t_freed s); [discriminate|]. destruct (t_regs s); discriminate.
Qed.

Lemma invb_reach : forall ok n s, reach ok n s -> invb s.
Proof.
  intros ok n s R. induction R as [|a l b R IH O E]; [|eapply invb_step; eauto].
  intros _. split; [reflexivity|]. split; [reflexivity|]. discriminate.
Qed.
