From Verif Require Import Base Thread_Model Thread_Spec Thread_Proofs.
From Coq Require Import ZArith List Bool Lia.
Import ListNotations.
Open Scope Z_scope.

(** ** Told to exit and calm: it stays so *)
Definition kret (k : kont) : Prop := match k with KRunH _ | KNextH _ => False | _ => True end.
(** continuation of the exit methods: they are never part of a handler *)
Definition pc_kont (p : cpc) : Prop :=
  match p with
  | CExit1 k | CExit2 k | CExit3 k | CExit4 k _ | CJoin k | CJoin2 k | CLast k | CExit5 k => kret k
  | _ => True
  end.
Definition invk (s : tstate) : Prop := forall t, pc_kont (t_pc s t).

Lemma upd_k : forall f t p, (forall x, pc_kont (f x)) -> pc_kont p -> forall x, pc_kont (upd f t p x).
Proof. intros f t p H P x. unfold upd. destruct (x =? t); auto. Qed.

Lemma invk_pc : forall s t p, invk s -> pc_kont p -> invk (s_pc s t p).
Proof. intros s t p H P. unfold invk. cbn [t_pc s_pc]. now apply upd_k. Qed.

Lemma invk_fin : forall s t k b, invk s -> invk (fin_call s t k b).
Proof.
  intros s t k b P. unfold invk.
  destruct k as [| | |n|[|n]]; cbn [fin_call t_pc s_pc s_res]; apply upd_k; auto; exact I.
Qed.

Lemma ctl_some : forall s t f w s', t_step s (LCtl t f w) = Some s' ->
  t_pc s t <> CIdle /\ s' = t_ctl s t f w /\ (forall k, t_pc s t = CInit2 k -> t_wk s w = WNone).
Proof.
  intros s t f w s' E. cbn [t_step] in E.
  destruct (t_pc s t); try discriminate E;
    try (injection E as <-; split; [intro X; discriminate X|split; [reflexivity|intros k0 X; discriminate X]]).
  destruct (t_wk s w); try discriminate E; injection E as <-.
  split; [intro X; discriminate X|split; [reflexivity|intros; reflexivity]].
Qed.

Lemma work_some : forall s w f s', t_step s (LWork w f) = Some s' ->
  t_wk s w <> WNone /\ t_wk s w <> WDone /\ s' = t_work s w f.
Proof.
  intros s w f s' E. cbn [t_step] in E.
  destruct (t_wk s w); try discriminate E; injection E as <-;
    (split; [intro X; discriminate X|split; [intro X; discriminate X|reflexivity]]).
Qed.

Lemma work_pc : forall s w f, t_pc (t_work s w f) = t_pc s.
Proof.
  intros s w f. unfold t_work. destruct (_ && _); [reflexivity|].
  destruct (t_wk s w) as [| | | | | | | | |o| |]; cbv zeta; try reflexivity;
    repeat match goal with |- context [if ?b then _ else _] => destruct b end; try reflexivity.
  destruct (cas _ _ _) as [v r]. destruct (r =? o); [reflexivity|]. destruct (r =? FIN); reflexivity.
Qed.

Lemma invk_step : forall s l s', invk s -> t_step s l = Some s' -> invk s'.
Proof.
  intros s l s' H E. destruct l as [t k|t f w|w f|t].
  - cbn [t_step] in E. destruct (t_pc s t); try discriminate E. injection E as <-.
    destruct k; cbn [t_call]; apply invk_pc; auto; exact I.
  - apply ctl_some in E as (_ & -> & _). pose proof (H t) as Q.
    assert (H' : invk (touch s)) by exact H. unfold t_ctl.
    destruct (t_pc s t) as [|k|k|k|k| | |k o n|k|k|k|k o|k|k|k|k| | |n]; cbv zeta; auto; cbn [pc_kont] in Q;
      try (destruct (cas _ _ _) as [v r]);
      repeat match goal with
      | |- context [if ?b then _ else _] => destruct b
      | |- context [match t_wk ?a ?b with _ => _ end] => destruct (t_wk a b)
      end; try exact H;
      try (apply invk_pc; [exact H|first [exact I|exact Q]]);
      apply invk_fin; exact H.
  - apply work_some in E as (_ & _ & ->). unfold invk. rewrite work_pc. exact H.
  - cbn [t_step] in E. destruct (t_pc s t); try discriminate E. injection E as <-.
    intros x. cbn [fork_t t_pc]. destruct (x =? t); [|exact I].
    destruct (t_freed s); [exact I|]. destruct (t_regs s); exact I.
Qed.

Lemma invk_reach : forall ok n s, reach ok n s -> invk s.
Proof.
  intros ok n s H. induction H as [|s l s' H IH O E].
  - intros t. exact I.
  - eapply invk_step; eauto.
Qed.

Lemma calm_pc : forall s t p, calm s ->
  (forall k o n, p <> CCas k o n) ->
  match p with
  | CReset _ => False
  | CInit1 k | CInit2 k | CRun1 k | CRun2 k => kret k
  | _ => True
  end ->
  calm (s_pc s t p).
Proof.
  intros s t p C N K x. unfold switching, handling. cbn [s_pc t_pc].
  destruct (upd_cases cpc (t_pc s) t p x) as [[-> ->]|[D ->]]; [|exact (C x)].
  split.
  - intros (k & o & n & X). exact (N k o n X).
  - destruct p as [|k|k|k|k| | |k o n|k|k|k|k o|k|k|k|k| | |n]; auto; try (destruct k; auto; fail).
    exfalso. exact (N k o n eq_refl).
Qed.

Lemma calm_fin : forall s t k b, calm s -> kret k -> calm (fin_call s t k b).
Proof.
  intros s t k b C K.
  destruct k as [| | |n|n]; try (destruct K; fail); cbn [fin_call];
    [change (calm (s_pc s t CIdle))| |]; apply calm_pc; auto; try exact I; intros; discriminate.
Qed.

Lemma calm_told_step : forall s l s', t_step s l = Some s' -> inv4 s -> invk s -> no_fork s l ->
  calm s -> told s -> calm s' /\ told s' /\ (t_flag s = FIN -> t_flag s' = FIN).
Proof.
  intros s l s' E I4 IK NF C T.
  assert (T' : told s').
  { unfold told. destruct (Z.le_gt_cases EXIT (t_flag s')) as [L|L]; auto. exfalso.
    assert (NT : ~ told s') by (unfold told; lia).
    destruct (lowering _ _ _ E I4 T NT) as (t & f & w & -> & [S|[n S]]).
    - exact (proj1 (C t) S).
    - apply (proj2 (C t)). unfold handling. rewrite S. exact I. }
  split; [|split; [exact T'|]].
  2:{ intros F. eapply fin_stays; eauto. }
  destruct l as [t k|t f w|w f|t].
  - cbn [t_step] in E. destruct (t_pc s t); try discriminate E. injection E as <-.
    destruct k; cbn [t_call]; apply calm_pc; auto; try exact I; intros; discriminate.
  - apply ctl_some in E as (_ & -> & _). pose proof (IK t) as Q. destruct (C t) as [C1 C2].
    assert (C' : calm (touch s)) by exact C.
    unfold t_ctl. unfold switching, handling in C1, C2.
    destruct (t_pc s t) as [|k|k|k|k| | |k o n|k|k|k|k o|k|k|k|k| | |n]; cbv zeta; auto; cbn [pc_kont] in Q;
      try (assert (KR : kret k) by (destruct k; cbn; auto));
      try (exfalso; apply C1; eexists; eexists; eexists; reflexivity);
      try (exfalso; apply C2; exact I).
    + destruct (t_init _); [now apply calm_fin|apply calm_pc; auto; intros; discriminate].
    + destruct f; [now apply calm_fin|]. apply calm_fin; auto.
    + destruct (t_init _); [apply calm_pc; auto; intros; discriminate|now apply calm_fin].
    + destruct (Z.eqb_spec (t_flag (touch s)) STOP) as [X|X]; [|now apply calm_fin].
      exfalso. unfold told in T. cbn in X. unfold STOP, EXIT in *. lia.
    + destruct (t_init _); [apply calm_pc; auto; try exact I; intros; discriminate|apply calm_fin; auto; exact I].
    + destruct (Z.eqb_spec (t_flag (touch s)) RUN) as [X|X]; [|apply calm_fin; auto; exact I].
      exfalso. unfold told in T. cbn in X. unfold RUN, EXIT in *. lia.
    + destruct (t_init _); [apply calm_pc; auto; try exact I; intros; discriminate|now apply calm_fin].
    + destruct (EXIT <=? _); [now apply calm_fin|apply calm_pc; auto; try exact I; intros; discriminate].
    + destruct f; [now apply calm_fin|]. apply calm_pc; auto; try exact I; intros; discriminate.
    + destruct (cas _ _ _) as [v r].
      destruct (r =? o); [|destruct (EXIT <=? r)]; apply calm_pc; auto; try exact I; intros; discriminate.
    + destruct (t_wk _ _); apply calm_pc; auto; try exact I; intros; discriminate.
    + destruct (_ =? FIN); apply calm_pc; auto; try exact I; intros; discriminate.
    + destruct (t_wk _ _); apply calm_pc; auto; try exact I; intros; discriminate.
    + apply calm_fin; auto.
    + destruct (t_init _); apply calm_pc; auto; try exact I; intros; discriminate.
    + exact (calm_fin (touch s) t KRet true C' I).
  - apply work_some in E as (_ & _ & ->). intros x. unfold switching, handling. rewrite work_pc. exact (C x).
  - exfalso. exact (NF t eq_refl).
Qed.

(** ** Used by the book, the object is not used after its end *)
Definition exiting (p : cpc) : Prop :=
  match p with CExit4 _ _ | CJoin _ | CJoin2 _ => True | _ => False end.
(** continuations that occur *)
Definition kstart (k : kont) : Prop := match k with KRet | KRunH O | KNextH O => True | _ => False end.
Definition kexit (k : kont) : Prop := match k with KRet | KDtor | KFree => True | _ => False end.

Definition pc_inv (p : cpc) (s : tstate) : Prop :=
  match p with
  | CInit1 k => kstart k /\ (t_init s = false -> t_flag s = STOP)
  | CInit2 k => kstart k /\ t_flag s = STOP /\ t_init s = false
  | CRun1 k | CRun2 k => kstart k
  | CCas k o n => kstart k /\ (n = RUN \/ n = STOP)
  | CExit1 k | CExit2 k | CExit3 k | CExit4 k _ | CJoin k | CJoin2 k => kexit k
  | CLast k | CExit5 k => kexit k /\ ~ live s (t_cur s)
  | CDtor => t_init s = true -> ~ live s (t_cur s)
  | CFree => ~ live s (t_cur s)
  | CReset n => n = O /\ ~ live s (t_cur s)
  | _ => True
  end.

Definition J (p : cpc) (s : tstate) : Prop :=
  t_bad s = false /\ (t_freed s = true -> p = CIdle /\ ~ live s (t_cur s)) /\
  (forall w, w <> t_cur s -> ~ live s w) /\
  (t_init s = false -> ~ live s (t_cur s)) /\
  (t_flag s = FIN -> ~ live s (t_cur s)) /\
  (told s -> live s (t_cur s) -> exiting p) /\
  (t_regs s <= 1)%nat /\
  pc_inv p s.

(** one thread [t] is at [p], all others are idle *)
Definition invj (s : tstate) : Prop :=
  exists t p, t_pc s t = p /\ (forall x, x <> t -> t_pc s x = CIdle) /\ J p s.

Lemma only_t : forall (f : Z -> cpc) t p, (forall x, x <> t -> f x = CIdle) ->
  upd f t p t = p /\ (forall x, x <> t -> upd f t p x = CIdle).
Proof.
  intros f t p H. split; [apply upd_eq|]. intros x N. rewrite upd_neq; auto.
Qed.

(** setting the place of the busy thread *)
Lemma invj_pc : forall s t p, (forall x, x <> t -> t_pc s x = CIdle) -> J p (s_pc s t p) -> invj (s_pc s t p).
Proof.
  intros s t p O K. exists t, p. cbn [t_pc s_pc]. destruct (only_t (t_pc s) t p O) as [A B]. auto.
Qed.

(** [J] does not look at places and results *)
Lemma J_pc : forall p s t q, J p s -> J p (s_pc s t q).
Proof. intros p s t q H. exact H. Qed.
Lemma J_res : forall p s t b, J p s -> J p (s_res s t b).
Proof. intros p s t b H. exact H. Qed.

Lemma invj_idle_res : forall s t b, (forall x, x <> t -> t_pc s x = CIdle) -> J CIdle s ->
  invj (s_res (s_pc s t CIdle) t b).
Proof.
  intros s t b O K. exists t, CIdle. cbn [t_pc s_pc s_res]. destruct (only_t (t_pc s) t CIdle O) as [A B].
  auto.
Qed.

(** [J] with another place of the same kind *)
Lemma J_change : forall p q s, J p s -> t_freed s = false ->
  (told s -> live s (t_cur s) -> exiting q) -> pc_inv q s -> J q s.
Proof.
  intros p q s (B & F & D & E & N & G & R & H) NF G' H'.
  split; [exact B|]. split; [congruence|]. auto 10.
Qed.

Lemma invj_fin : forall p s t k b, (forall x, x <> t -> t_pc s x = CIdle) -> J p s ->
  t_freed s = false -> ~ exiting p ->
  (kstart k \/ kexit k /\ (~ live s (t_cur s))) ->
  invj (fin_call s t k b).
Proof.
  intros p s t k b O K NF NE Q.
  assert (G' : told s -> live s (t_cur s) -> False).
  { destruct K as (_ & _ & _ & _ & _ & G & _). intros A B. exact (NE (G A B)). }
  destruct k as [| | |n|n].
  - cbn [fin_call]. apply invj_idle_res; auto. apply (J_change p); auto; first [exact I|intros; exfalso; auto].
  - destruct Q as [[]|[_ Q]]. cbn [fin_call]. apply invj_pc; auto. apply J_pc.
    apply (J_change p); auto; first [intros; exfalso; now auto|intros _; exact Q].
  - destruct Q as [[]|[_ Q]]. cbn [fin_call]. apply invj_pc; auto. apply J_pc.
    apply (J_change p); auto; intros; exfalso; auto.
  - destruct n as [|n]; [|destruct Q as [[]|[[] _]]]. cbn [fin_call]. apply invj_pc; auto. apply J_pc.
    apply (J_change p); auto; first [exact I|intros; exfalso; auto].
  - destruct n as [|n]; [|destruct Q as [[]|[[] _]]]. cbn [fin_call]. apply invj_pc; auto. apply J_pc.
    apply (J_change p); auto; first [exact I|intros; exfalso; auto].
Qed.

Lemma invj_move : forall p q s t, (forall x, x <> t -> t_pc s x = CIdle) -> J p s ->
  t_freed s = false -> (exiting p -> exiting q \/ ~ live s (t_cur s)) -> pc_inv q s ->
  invj (s_pc s t q).
Proof.
  intros p q s t O K NF X H. apply invj_pc; auto. apply J_pc. apply (J_change p); auto.
  destruct K as (_ & _ & _ & _ & _ & G & _). intros A B. destruct (X (G A B)); tauto.
Qed.


Lemma touch_id : forall s, t_freed s = false -> touch s = s.
Proof. intros [a b c d e g h i m j k] X. cbn in X. subst j. unfold touch. cbn. now rewrite orb_false_r. Qed.

Lemma invj_ctl : forall s t f w s', invj s -> by_the_book s (LCtl t f w) ->
  t_step s (LCtl t f w) = Some s' -> invj s'.
Proof.
  intros s t f w s' (t0 & p & P & O & K) BB E.
  apply ctl_some in E as (NI & -> & FRESH). cbn [by_the_book] in BB.
  assert (t0 = t).
  { destruct (Z.eq_dec t t0); auto. elim NI. now apply O. }
  subst t0. pose proof K as (B & F & D & EI & N & G & R & H).
  assert (NF : t_freed s = false).
  { destruct (t_freed s) eqn:X; auto. destruct (F eq_refl) as [Y _]. congruence. }
  assert (TS : touch s = s).
  { now apply touch_id. }
  unfold t_ctl. rewrite TS. rewrite P in *. cbv zeta.
  destruct p as [|k|k|k|k| | |k o n|k|k|k|k o|k|k|k|k| | |n]; cbn [pc_inv] in H.
  - congruence.
  - destruct H as [H1 H2]. destruct (t_init s) eqn:X.
    + apply (invj_fin (CInit1 k)); auto.
    + apply (invj_move (CInit1 k)); auto; cbn; auto.
  - destruct H as (H1 & H2 & H3). destruct f; [apply (invj_fin (CInit2 k)); auto|].
    assert (FR : t_wk s w = WNone) by (eapply FRESH; reflexivity).
    apply (invj_fin CIdle); auto.
    split; [exact B|]. split; [cbn; congruence|]. split.
    { intros x NX. cbn in NX. unfold live. cbn [t_wk s_cancel s_wk s_cur s_init t_cur] in *.
      rewrite upd_neq by auto. destruct (Z.eq_dec x (t_cur s)) as [->|Y]; [exact (EI H3)|exact (D x Y)]. }
    split; [intro X; discriminate X|]. split; [cbn; rewrite H2; intro X; discriminate X|].
    split. { unfold told. cbn. rewrite H2. unfold EXIT, STOP. lia. }
    split; [exact R|]. exact I.
  - destruct (t_init s).
    + apply (invj_move (CRun1 k)); auto.
    + apply (invj_fin (CRun1 k)); auto.
  - destruct (t_flag s =? STOP).
    + apply (invj_move (CRun2 k)); auto; cbn; auto.
    + apply (invj_fin (CRun2 k)); auto.
  - destruct (t_init s).
    + apply (invj_move CStop1); auto; exact I.
    + apply (invj_fin CStop1); auto; left; exact I.
  - destruct (t_flag s =? RUN).
    + apply (invj_move CStop2); auto; cbn; auto.
    + apply (invj_fin CStop2); auto; left; exact I.
  - destruct H as [H1 H2]. unfold cas. destruct (Z.eqb_spec (t_flag s) o) as [X|X].
    + rewrite (proj2 (Z.eqb_eq _ _) X). apply (invj_fin CIdle); auto.
      split; [exact B|]. split; [cbn; congruence|]. split; [exact D|]. split; [exact EI|].
      split. { cbn. unfold FIN, RUN, STOP in *. lia. }
      split. { unfold told. cbn. unfold EXIT, RUN, STOP in *. lia. }
      split; [exact R|exact I].
    + rewrite (proj2 (Z.eqb_neq _ _) X). destruct (t_flag s =? n).
      * apply (invj_fin (CCas k o n)); auto.
      * apply (invj_move (CCas k o n)); auto; cbn; auto.
  - destruct (t_init s) eqn:X.
    + apply (invj_move (CExit1 k)); auto.
    + apply (invj_fin (CExit1 k)); auto.
  - destruct (Z.leb_spec EXIT (t_flag s)) as [X|X].
    + apply (invj_fin (CExit2 k)); auto; right; split; [exact H|]. intro Y. exact (G X Y).
    + apply (invj_move (CExit2 k)); auto.
  - rewrite BB. apply (invj_move (CExit3 k)); auto.
  - unfold cas. destruct (Z.eqb_spec (t_flag s) o) as [X|X].
    + rewrite (proj2 (Z.eqb_eq _ _) X). apply (invj_move (CExit4 k o)); auto; try (now left).
      split; [exact B|]. split; [cbn; congruence|]. split; [exact D|]. split; [exact EI|].
      split; [cbn; intro Y; discriminate Y|]. split; [intros; exact I|]. split; [exact R|exact H].
    + rewrite (proj2 (Z.eqb_neq _ _) X). destruct (EXIT <=? t_flag s).
      * apply (invj_move (CExit4 k o)); auto; now left.
      * apply (invj_move (CExit4 k o)); auto; now left.
  - destruct (t_wk s (t_cur s)) eqn:X; try (apply (invj_move (CJoin k)); auto; now left).
    + assert (NL : ~ live s (t_cur s)) by (unfold live; rewrite X; auto).
      apply (invj_move (CJoin k)); auto; cbn; auto.
    + assert (NL : forall x, ~ live (s_wk s (t_cur s) WNone) x).
      { intros x. unfold live. cbn [t_wk s_wk].
        destruct (upd_cases wpc (t_wk s) (t_cur s) WNone x) as [[-> ->]|[Y ->]]; auto.
        exact (D x Y). }
      apply (invj_move (CJoin k)); auto.
      * split; [exact B|]. split; [cbn; congruence|]. split; [intros; apply NL|]. split; [intros; apply NL|].
        split; [intros; apply NL|]. split; [intros; exact I|]. split; [exact R|exact H].
      * split; [exact H|exact (NL (t_cur s))].
  - destruct (Z.eqb_spec (t_flag s) FIN) as [X|X].
    + apply (invj_move (CJoin2 k)); auto; cbn; auto.
    + apply (invj_move (CJoin2 k)); auto; now left.
  - destruct H as [H1 H2]. destruct (t_wk s (t_cur s)) eqn:X; try (apply (invj_move (CLast k)); auto; cbn; auto; fail).
    assert (NL : forall x, ~ live (s_wk s (t_cur s) WNone) x).
    { intros x. unfold live. cbn [t_wk s_wk].
      destruct (upd_cases wpc (t_wk s) (t_cur s) WNone x) as [[-> ->]|[Y ->]]; auto.
      exact (D x Y). }
    apply (invj_move (CLast k)); auto.
    * split; [exact B|]. split; [cbn; congruence|]. split; [intros; apply NL|]. split; [intros; apply NL|].
      split; [intros; apply NL|]. split; [intros Y Z; exfalso; exact (NL _ Z)|]. split; [exact R|].
      split; [exact H1|apply NL].
    * split; [exact H1|exact (NL (t_cur s))].
  - destruct H as [H1 H2]. apply (invj_fin (CExit5 k)); auto.
    split; [exact B|]. split; [cbn; congruence|]. split; [exact D|]. split; [intros _; exact H2|].
    split; [exact N|]. split; [exact G|]. split; [exact R|]. split; auto.
  - destruct (t_init s) eqn:X.
    + apply (invj_move CDtor); auto; try exact I. 
    + apply (invj_move CDtor); auto. exact (EI eq_refl).
  - cbn [fin_call]. exists t, CIdle. cbn [t_pc s_pc s_res s_free].
    destruct (only_t (t_pc s) t CIdle O) as [A A'].
    split; [exact A|]. split; [exact A'|].
    split; [exact B|]. split; [intros _; split; [reflexivity|exact H]|]. split; [exact D|].
    split; [exact EI|]. split; [exact N|]. split; [exact G|]. split; [exact R|exact I].
  - destruct H as [-> H]. destruct (t_bup s); [|apply (invj_fin (CReset 0)); auto; left; exact I].
    apply (invj_move CIdle); auto.
    + split; [exact B|]. split; [cbn; congruence|]. split; [exact D|]. split; [intros _; exact H|].
      split; [intros _; exact H|]. split; [intros _ Y; exfalso; exact (H Y)|]. split; [exact R|exact I].
    + cbn. auto.
Qed.

Lemma not_live_done : forall s w, live s w \/ (t_wk s w = WNone \/ t_wk s w = WEnd \/ t_wk s w = WDone).
Proof. intros s w. unfold live. destruct (t_wk s w); auto. Qed.

(** [J] after a step of the current worker that keeps it alive *)
Lemma J_wk_live : forall p s w q, J p s -> live s w -> J p (s_wk s w q).
Proof.
  intros p s w q (B & F & D & EI & N & G & R & H) L.
  assert (w = t_cur s). { destruct (Z.eq_dec w (t_cur s)); auto. elim (D w); auto. }
  subst w.
  assert (LE : live (s_wk s (t_cur s) q) (t_cur s) -> live s (t_cur s)) by auto.
  split; [exact B|]. split; [intros X; destruct (F X); tauto|].
  split. { intros x NX. cbn in NX. unfold live. cbn [t_wk s_wk]. rewrite upd_neq by auto. exact (D x NX). }
  split; [intros X; elim (EI X); exact L|]. split; [intros X; elim (N X); exact L|].
  split; [intros X Y; exact (G X L)|]. split; [exact R|].
  destruct p as [|k|k|k|k| | |k o n|k|k|k|k o|k|k|k|k| | |n]; cbn [pc_inv t_flag t_init t_cur s_wk] in *; auto;
    try tauto.
Qed.

Lemma invj_work : forall s w f s', invj s -> t_step s (LWork w f) = Some s' -> invj s'.
Proof.
  intros s w f s' (t & p & P & O & K) E.
  apply work_some in E as (N1 & N2 & ->).
  exists t, p. rewrite work_pc. split; [exact P|]. split; [exact O|].
  pose proof K as (B & F & D & EI & N & G & R & H).
  destruct (not_live_done s w) as [L|[X|[X|X]]]; try congruence.
  - assert (CW : w = t_cur s). { destruct (Z.eq_dec w (t_cur s)); auto. elim (D w); auto. }
    assert (NF : t_freed s = false).
    { destruct (t_freed s) eqn:X; auto. destruct (F eq_refl) as [_ Y]. subst w. tauto. }
    assert (TS : touch s = s).
    { now apply touch_id. }
    unfold t_work. rewrite TS. destruct (_ && _); [now apply J_wk_live|].
    destruct (t_wk s w) as [| | | | | | | | |o| |] eqn:X; cbv zeta;
      repeat match goal with |- context [if ?b then _ else _] => destruct b end;
      try (now apply J_wk_live); try congruence.
    unfold cas. destruct (Z.eqb_spec (t_flag s) o) as [Y|Y].
    + rewrite (proj2 (Z.eqb_eq _ _) Y).
      assert (NL : forall x, ~ live (s_wk (s_flag s FIN) w WEnd) x).
      { intros x. unfold live. cbn [t_wk s_wk s_flag].
        destruct (upd_cases wpc (t_wk s) w WEnd x) as [[-> ->]|[Z ->]]; auto.
        apply D. congruence. }
      split; [exact B|]. split; [intros Q; destruct (F Q); split; auto|].
      split; [intros; apply NL|]. split; [intros; apply NL|]. split; [intros; apply NL|].
      split; [intros _ Q; elim (NL _ Q)|]. split; [exact R|].
      subst w. destruct p as [|k|k|k|k| | |k o' n|k|k|k|k o'|k|k|k|k| | |n];
        cbn [pc_inv t_flag t_init t_cur s_wk s_flag] in *; auto; try tauto.
    + rewrite (proj2 (Z.eqb_neq _ _) Y). destruct (t_flag s =? FIN); now apply J_wk_live.
  - (* the end of a thread *)
    unfold t_work. rewrite X, andb_false_r. cbn [cancel_point].
    assert (NL : forall x, live (s_wk s w WDone) x -> live s x).
    { intros x. unfold live. cbn [t_wk s_wk].
      destruct (upd_cases wpc (t_wk s) w WDone x) as [[-> ->]|[Z ->]]; auto. intros []. }
    split; [exact B|]. split; [intros Q; destruct (F Q) as [Q1 Q2]; split; [exact Q1|]; intro; apply Q2; now apply NL|].
    split; [intros x Q V; exact (D x Q (NL _ V))|]. split; [intros Q V; exact (EI Q (NL _ V))|].
    split; [intros Q V; exact (N Q (NL _ V))|]. split; [intros Q V; exact (G Q (NL _ V))|]. split; [exact R|].
    pose proof (NL (t_cur s)) as NC.
    destruct p as [|k|k|k|k| | |k o' n|k|k|k|k o'|k|k|k|k| | |n];
        cbn [pc_inv t_flag t_init t_cur s_wk s_flag] in *; auto; try tauto.
Qed.

Lemma invj_step : forall s l s', invj s -> by_the_book s l -> t_step s l = Some s' -> invj s'.
Proof.
  intros s l s' H BB E. destruct l as [t k|t f w|w f|t].
  - destruct H as (t0 & p & P & O & K). destruct BB as (ID & NF & KI).
    cbn [t_step] in E. rewrite ID in E. injection E as <-.
    assert (p = CIdle) by (rewrite <- P; apply ID). subst p.
    assert (O' : forall x, x <> t -> t_pc s x = CIdle) by (intros; apply ID).
    rewrite H in K.
    destruct k; cbn [t_call]; apply (invj_move CIdle); auto; cbn; auto.
  - eapply invj_ctl; eauto.
  - eapply invj_work; eauto.
  - destruct H as (t0 & p & P & O & K). cbn [t_step] in E.
    destruct (t_pc s t); try discriminate E. injection E as <-.
    destruct K as (B & F & D & EI & N & G & R & H).
    assert (NL : forall x, ~ live (fork_t s t) x) by (intros x; exact (fun q => q)).
    exists t. eexists. split; [reflexivity|].
    split. { intros x NX. cbn [fork_t t_pc]. rewrite (proj2 (Z.eqb_neq _ _) NX). reflexivity. }
    cbn [fork_t t_pc]. rewrite Z.eqb_refl.
    destruct (t_freed s) eqn:X.
    + split; [exact B|]. split; [intros; split; auto|]. split; [intros; apply NL|].
      split; [intros; apply NL|]. split; [intros; apply NL|]. split; [intros _ Q; elim (NL _ Q)|].
      split; [exact R|exact I].
    + split; [exact B|]. split; [intros Q; cbn in Q; congruence|]. split; [intros; apply NL|].
      split; [intros; apply NL|]. split; [intros; apply NL|]. split; [intros _ Q; elim (NL _ Q)|].
      split; [exact R|]. destruct (t_regs s) as [|n]; [exact I|]. split; [lia|apply NL].
Qed.

Lemma invj_reach : forall n s, (n <= 1)%nat -> reach by_the_book n s -> invj s.
Proof.
  intros n s Hn H. induction H as [|s l s' H IH O E].
  - exists 0, CIdle. split; [reflexivity|]. split; [reflexivity|].
    split; [reflexivity|]. split; [intro X; discriminate X|]. split; [intros w _ []|].
    split; [intros _ []|]. split; [intros _ []|]. split; [intros _ []|]. split; [exact Hn|exact I].
  - exact (invj_step _ _ _ IH O E).
Qed.
