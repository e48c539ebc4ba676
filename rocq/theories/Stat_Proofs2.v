(** Static objects: the worker and the cache of thread numbers. *)
From Coq Require Import List Bool Arith Lia.
From Verif Require Import Base Stat_Model Stat_Spec Stat_Proofs.
Import ListNotations.

(** as [grows], whatever the calling thread has used *)
Record adds (s s' : lstate) : Prop := mkAd {
  d_done : exists l, l_done s' = l ++ l_done s;
  d_dead : l_dead s' = l_dead s;
  d_kind : l_kind s' = l_kind s;
  d_lock : l_lock s' = l_lock s;
  d_exit : l_exit s' = l_exit s;
  d_badw : l_badw s' = l_badw s;
  d_user : forall i, l_built s' (User i) = l_built s (User i);
  d_built : forall x, l_built s x = true -> l_built s' x = true
}.
Lemma adds_refl : forall s, adds s s.
Proof. intro s. constructor; auto. exists []. auto. Qed.
Lemma adds_trans : forall a b c, adds a b -> adds b c -> adds a c.
Proof.
  intros a b c [(l1 & A1) B1 B2 B3 B4 B5 B6 B7] [(l2 & A2) C1 C2 C3 C4 C5 C6 C7]. constructor; auto; try congruence.
  exists (l2 ++ l1). rewrite A2, A1. apply app_assoc.
Qed.

(** the cache of thread numbers goes after the helper *)
Definition under (s : lstate) : Prop := exists l1 l2, l_done s = l1 ++ Helper :: l2 /\ In Tids l2.
Lemma under_adds : forall s s', under s -> adds s s' -> under s'.
Proof. intros s s' (l1 & l2 & E & I) A. destruct (d_done _ _ A) as (l & E'). exists (l ++ l1), l2. split; auto. rewrite E', E. apply app_assoc. Qed.

Record vee (s : lstate) : Prop := mkV {
  v_cons : cons s;
  v_att : att s;
  v_work : l_work s = true -> under s;
  v_lock : forall i, l_lock s i = true -> l_built s (User i) = true;
  v_badw : l_badw s = false
}.
(** without the helper, a recursive lock of the program stands above the cache *)
Definition num (s : lstate) : Prop :=
  l_built s Tids = true -> l_built s Helper = true \/
  exists l1 i l2, l_done s = l1 ++ User i :: l2 /\ In Tids l2 /\ l_kind s i = ULazy.
Lemma num_helper : forall s, l_built s Helper = true -> num s.
Proof. intros s B _. auto. Qed.
Lemma num_alive : forall s, cons s -> num s -> l_built s Helper = false -> l_built s Tids = true -> l_dead s Tids = false.
Proof.
  intros s C N B T. destruct (N T) as [X|(l1 & i & l2 & E & I & _)]; [congruence|]. apply (k_in s C). rewrite E. apply in_or_app. right. right. auto.
Qed.

Lemma vee_adds : forall s s', vee s -> adds s s' -> cons s' -> att s' -> (l_work s' = true -> l_work s = true) -> vee s'.
Proof.
  intros s s' [C A W L B] D C' A' X. constructor; auto.
  - intro Y. eapply under_adds; eauto.
  - intros i Y. rewrite (d_lock _ _ D) in Y. rewrite (d_user _ _ D). auto.
  - rewrite (d_badw _ _ D). auto.
Qed.

Lemma isbad_cons : forall s, cons s -> cons (l_isbad s) /\ adds s (l_isbad s).
Proof. intros s [C1 C2 C3]. split; [constructor; auto|]. constructor; auto. exists []. auto. Qed.
Lemma build_adds : forall s x, cons s -> ~ is_user x -> cons (l_build x s) /\ adds s (l_build x s).
Proof.
  intros s x C U. destruct (build_ok s x C U) as (A & G & _ & _ & _ & B). split; auto. destruct G as [(l & E & _) G1 G2 G3 G4 G5 G6 G7 G8 G9].
  constructor; auto. eauto.
Qed.
Lemma use_adds : forall s x, cons s -> ~ is_user x -> x <> Helper -> cons (l_use x s) /\ adds s (l_use x s) /\
  l_att (l_use x s) = l_att s /\ l_work (l_use x s) = l_work s /\ l_built (l_use x s) Helper = l_built s Helper.
Proof.
  intros s x C U N. unfold l_use. destruct (l_dead s x).
  - destruct (isbad_cons s C) as [A B]. auto.
  - destruct (build_adds s x C U) as [A B]. destruct (build_ok s x C U) as (_ & _ & _ & X & Y & _). split; auto. split; auto. split; auto. split; auto.
    unfold l_build. destruct (l_built s x); auto. cbn [l_built]. apply setf_neq. auto.
Qed.
Lemma att_adds : forall s s', att s -> adds s s' -> l_built s' Helper = l_built s Helper -> l_att s' = l_att s -> l_work s' = l_work s -> att s'.
Proof. intros s s' [A1 A2] G E F H. constructor; rewrite E, (d_dead _ _ G), F, ?H; auto. Qed.
Lemma vee_use : forall s x, vee s -> ~ is_user x -> x <> Helper -> vee (l_use x s) /\ adds s (l_use x s) /\ l_built (l_use x s) Helper = l_built s Helper.
Proof.
  intros s x V U N. pose proof V as [C A W L B]. destruct (use_adds s x C U N) as (C1 & A1 & E1 & E2 & E3). split; auto.
  apply (vee_adds s); auto. - apply (att_adds s); auto. - rewrite E2. auto.
Qed.

(** the state in which the library starts *)
Definition starts (s : lstate) (o : oc) : Prop :=
  l_built s Helper = true \/ (l_built s Tids = true -> l_dead s Tids = false) /\ (l_built s Tids = true \/ o_worker o = false).

Lemma vee_shm : forall cf o s, c_auto cf = true -> o_init o = true -> vee s -> starts s o ->
  vee (l_shm cf o s) /\ adds s (l_shm cf o s) /\ l_built (l_shm cf o s) Helper = true.
Proof.
  intros cf o s AU OI V ST. unfold l_shm. destruct (l_built s Helper) eqn:B; [split; auto; split; auto; apply adds_refl|].
  destruct ST as [X|[TL TO]]; [congruence|]. rewrite AU, OI. cbn [andb]. cbv zeta.
  destruct (vee_use s Debug V) as (V1 & A1 & B1); [cbn; auto | discriminate|]. rewrite B in B1. set (s1 := l_use Debug s) in *.
  assert (TD : l_dead s1 Tids = false).
  { rewrite (d_dead _ _ A1). destruct (l_dead s Tids) eqn:D; auto. rewrite <- TL; auto. apply (k_dead s (v_cons s V)). auto. }
  set (s2 := l_started true (o_worker o) s1).
  assert (C2 : cons s2 /\ adds s1 s2). { destruct (v_cons s1 V1) as [K1 K2 K3]. split; [constructor; auto|]. constructor; auto. exists []. auto. }
  destruct C2 as [C2 A2]. destruct (build_adds s2 Helper C2) as [C4 A4]; [cbn; auto|].
  assert (B3 : l_built s2 Helper = false) by exact B1.
  destruct (build_ok s2 Helper C2) as (_ & _ & B4 & AT4 & W4 & _); [cbn; auto|].
  assert (AD : adds s (l_build Helper s2)) by (eapply adds_trans; [|exact A4]; eapply adds_trans; eauto).
  split; [|split; auto]. constructor; auto.
  - constructor.
    + intros _ _. rewrite AT4. auto.
    + intros [Y|Y]; [congruence|]. rewrite (d_dead _ _ AD) in Y. apply (k_dead s (v_cons s V)) in Y. congruence.
  - rewrite W4. intro OW. unfold under, l_build. rewrite B3. cbn [l_done]. exists [], (l_done s2). split; auto.
    change (l_work s2) with (o_worker o) in OW. destruct TO as [TO|TO]; [|congruence].
    apply (k_in _ C2). split; [apply (d_built _ _ A2); apply (d_built _ _ A1); auto | rewrite (d_dead _ _ A2); auto].
  - intros i Y. rewrite (d_lock _ _ AD) in Y. rewrite (d_user _ _ AD). apply (v_lock s V). auto.
  - rewrite (d_badw _ _ AD). apply (v_badw s V).
Qed.

Lemma vee_call : forall cf o s, c_auto cf = true -> o_init o = true -> vee s -> starts s o ->
  vee (l_call cf o s) /\ adds s (l_call cf o s) /\ l_built (l_call cf o s) Helper = true.
Proof.
  intros cf o s AU OI V ST. destruct (vee_shm cf o s AU OI V ST) as (V1 & A1 & B1). unfold l_call. set (s1 := l_shm cf o s) in *.
  assert (X : vee (l_attach cf o s1) /\ adds s1 (l_attach cf o s1) /\ l_built (l_attach cf o s1) Helper = true).
  { unfold l_attach. destruct (l_att s1) eqn:AT; [split; auto; split; auto; apply adds_refl|].
    destruct (c_retry cf); [|split; auto; split; auto; apply adds_refl].
    destruct (l_dead s1 Helper) eqn:D.
    - destruct (isbad_cons s1 (v_cons s1 V1)) as [P Q]. split; [|auto]. apply (vee_adds s1); auto. apply (att_adds s1); auto. apply (v_att s1 V1).
    - rewrite (a_live s1 (v_att s1 V1) B1 D) in AT. discriminate. }
  destruct X as (V2 & A2 & B2). set (s2 := l_attach cf o s1) in *. cbv zeta.
  destruct (l_att s2).
  - destruct (vee_use s2 Tids V2) as (V3 & A3 & B3); [cbn; auto | discriminate|]. split; auto. split; [|congruence]. eapply adds_trans; [|exact A3]. eapply adds_trans; eauto.
  - split; auto. split; auto. eapply adds_trans; eauto.
Qed.

(** writing the lock of an object *)
Lemma vee_lock : forall s f h, vee s -> (forall i, f i = true -> l_built s (User i) = true) ->
  vee (mkL (l_done s) (l_built s) (l_dead s) (l_att s) (l_work s) (l_kind s) f h (l_exit s) (l_bad s) (l_badw s)).
Proof. intros s f h [[C1 C2 C3] [A1 A2] W L B] F. constructor; auto; constructor; auto. Qed.

Lemma starts_built : forall s o, l_built s Helper = true -> starts s o.
Proof. intros s o B. left. auto. Qed.

Lemma vee_runlock : forall cf o i s, c_auto cf = true -> o_init o = true -> vee s -> starts s o ->
  vee (l_runlock cf o i s) /\ l_built (l_runlock cf o i s) Helper = true.
Proof.
  intros cf o i s AU OI V ST. unfold l_runlock. destruct (vee_shm cf o s AU OI V ST) as (V1 & A1 & B1). set (s1 := l_shm cf o s) in *. cbv zeta.
  destruct (l_lock s1 i) eqn:LK; cbn [negb]; auto.
  destruct (vee_use s1 Stack V1) as (V2 & A2 & B2); [cbn; auto | discriminate|].
  destruct (vee_call cf o (l_use Stack s1) AU OI V2) as (V3 & A3 & B3); [apply starts_built; congruence|].
  split; [|exact B3]. apply vee_lock; auto. intros j Y. destruct (Nat.eq_dec j i) as [->|N]; [rewrite setn_eq in Y; discriminate|].
  rewrite setn_neq in Y by auto. apply (v_lock _ V3). auto.
Qed.

Lemma rlock_parts : forall cf o i s, c_auto cf = true -> o_init o = true -> vee s -> starts s o -> l_lock s i = false ->
  exists s1, vee s1 /\ adds s s1 /\ l_built s1 Helper = true /\ l_rlock cf o i s = l_setlock i (o_res o) s1.
Proof.
  intros cf o i s AU OI V ST LK. unfold l_rlock. rewrite LK. destruct (vee_shm cf o s AU OI V ST) as (V1 & A1 & B1). set (s1 := l_shm cf o s) in *.
  destruct (vee_use s1 Stack V1) as (V2 & A2 & B2); [cbn; auto | discriminate|].
  destruct (vee_call cf o (l_use Stack s1) AU OI V2) as (V3 & A3 & B3); [apply starts_built; congruence|].
  exists (l_call cf o (l_use Stack s1)). split; auto. split; [|split; auto]. eapply adds_trans; [exact A1|]. eapply adds_trans; eauto.
Qed.

(** building and destroying *)
Lemma vee_user : forall s i, vee s -> l_built s (User i) = false -> vee (l_build (User i) s).
Proof.
  intros s i [[C1 C2 C3] [A1 A2] W L B] BU. unfold l_build. rewrite BU.
  assert (D : l_dead s (User i) = false) by (destruct (l_dead s (User i)) eqn:D; auto; apply C3 in D; congruence). constructor; cbn; auto.
  - constructor; cbn.
    + intro y. destruct (sid_eqb_spec y (User i)) as [->|N].
      * rewrite setf_eq. split; auto.
      * rewrite setf_neq by auto. split; [intros [E|E]; [congruence | apply C1; auto] | intro E; right; apply C1; auto].
    + constructor; auto. intro Y. apply C1 in Y. destruct Y; congruence.
    + intros y Y. destruct (sid_eqb_spec y (User i)) as [->|N]; [apply setf_eq | rewrite setf_neq by auto; auto].
  - constructor; cbn; rewrite ?setf_neq by discriminate; auto.
  - intro Y. destruct (W Y) as (l1 & l2 & E & I). exists (User i :: l1), l2. cbn. rewrite E. auto.
  - intros j Y. apply L in Y. destruct (sid_eqb_spec (User j) (User i)) as [->|N]; [apply setf_eq | rewrite setf_neq by auto; auto].
Qed.

Lemma kill_cons : forall s y r, cons s -> l_done s = y :: r -> cons (l_kill y s).
Proof.
  intros s y r [C1 C2 C3] D. rewrite D in *. inversion C2; subst. constructor; cbn; rewrite ?D; cbn; auto.
  - intro z. destruct (sid_eqb_spec z y) as [->|N].
    + rewrite setf_eq. split; [contradiction | intros [_ Y]; discriminate].
    + rewrite setf_neq by auto. rewrite <- C1. cbn. split; auto. intros [Y|Y]; auto. congruence.
  - intros z Y. destruct (sid_eqb_spec z y) as [->|N]; [apply C1; left; auto | rewrite setf_neq in Y by auto; auto].
Qed.
Lemma vee_kill : forall s y r, vee s -> l_done s = y :: r -> y <> Helper -> vee (l_kill y s).
Proof.
  intros s y r [C [A1 A2] W L B] D N. constructor; auto.
  - apply (kill_cons s y r); auto.
  - constructor; cbn; rewrite ?setf_neq by auto; auto.
  - intro Y. destruct (W Y) as (l1 & l2 & E & I). rewrite D in E. destruct l1 as [|z l1]; cbn in E; inversion E; subst; [congruence|].
    exists l1, l2. cbn. rewrite D. auto.
Qed.
Lemma num_kill : forall s y r, num s -> l_done s = y :: r -> (forall i, y = User i -> l_kind s i <> ULazy) -> num (l_kill y s).
Proof.
  intros s y r N D NU T. destruct (N T) as [X|(l1 & i & l2 & E & I & KI)]; auto. rewrite D in E. destruct l1 as [|z l1]; cbn in E; inversion E; subst.
  - exfalso. apply (NU i); auto.
  - right. exists l1, i, l2. cbn. rewrite D. auto.
Qed.

Definition well (s : lstate) : Prop := vee s /\ num s.

Lemma vee_kind : forall s i k, vee s -> vee (l_setkind i k s).
Proof. intros s i k [[C1 C2 C3] [A1 A2] W L B]. constructor; auto; constructor; auto. Qed.

Lemma well_step : forall cf s x, c_auto cf = true -> well s -> inits s x -> numbers_first s x -> well (l_step cf s x).
Proof.
  intros cf s [x o] AU [V N] OI NF. unfold inits in OI. unfold numbers_first in NF. cbn [fst snd] in *.
  pose proof V as [C A W L B].
  assert (ST0 : (match x with LNew _ ULazy => True | LNew _ ULock => True | _ => False end) \/ starts s o).
  { destruct (l_built s Helper) eqn:BH; [right; left; auto|]. destruct NF as [Y|[Y|[Y|Y]]]; [congruence | | auto |].
    - right. right. split; auto. intro. eapply num_alive; eauto.
    - right. right. split; auto. intro. eapply num_alive; eauto. }
  destruct x as [| | |i k|i|i| | |]; unfold l_step; cbn [fst snd].
  - (* LDebug *) destruct (l_exit s); [split; auto|]. destruct (vee_use s Debug V) as (V1 & A1 & B1); [cbn; auto | discriminate|]. split; auto.
    intro T. assert (T' : l_built s Tids = true).
    { revert T. unfold l_use, l_build. destruct (l_dead s Debug); auto. destruct (l_built s Debug); auto. }
    destruct (N T') as [X|(l1 & i & l2 & E & I & KI)]; [left; congruence|]. right. destruct (d_done _ _ A1) as (l & E1).
    exists (l ++ l1), i, l2. rewrite E1, E, (d_kind _ _ A1). split; auto. apply app_assoc.
  - (* LNull *) destruct (l_exit s); [split; auto|]. destruct ST0 as [[]|ST]. destruct (vee_shm cf o s AU OI V ST) as (V1 & A1 & B1). split; auto. apply num_helper; auto.
  - (* LCall *) destruct (l_exit s); [split; auto|]. destruct ST0 as [[]|ST]. destruct (vee_call cf o s AU OI V ST) as (V1 & A1 & B1). split; auto. apply num_helper; auto.
  - (* LNew *) destruct (l_exit s); cbn [orb]; [split; auto|]. destruct (l_built s (User i)) eqn:BU; [split; auto|]. unfold l_new. cbv zeta.
    pose proof (vee_kind s i k V) as V1. set (s1 := l_setkind i k s) in *.
    assert (LK : l_lock s1 i = false) by (destruct (l_lock s1 i) eqn:Y; auto; apply (v_lock s1 V1) in Y; cbn in Y; congruence).
    assert (BU1 : l_built s1 (User i) = false) by exact BU.
    assert (N1 : num s1).
    { intro T. destruct (N T) as [X|(l1 & j & l2 & E & I & KI)]; auto. right. exists l1, j, l2. split; auto. split; auto.
      cbn. rewrite setn_neq; auto. intros ->. assert (Y : In (User i) (l_done s)) by (rewrite E; apply in_or_app; right; left; auto). apply (k_in s C) in Y. destruct Y; congruence. }
    assert (TU : vee (l_use Tids s1) /\ adds s1 (l_use Tids s1) /\ l_built (l_use Tids s1) Helper = l_built s1 Helper) by (apply vee_use; auto; discriminate).
    assert (TI : l_built s Helper = false -> In Tids (l_done (l_use Tids s1))).
    { intro BH. destruct TU as (V2 & A2 & B2). apply (k_in _ (v_cons _ V2)). rewrite (d_dead _ _ A2). cbn.
      assert (TD : l_dead s Tids = false). { destruct (l_dead s Tids) eqn:D; auto. rewrite <- D. eapply num_alive; eauto. apply (k_dead s C). auto. }
      split; auto. unfold l_use. change (l_dead s1 Tids) with (l_dead s Tids). rewrite TD. unfold l_build. destruct (l_built s1 Tids) eqn:BT; auto. }
    destruct k as [| |[|]].
    + destruct TU as (V2 & A2 & B2). assert (BU2 : l_built (l_use Tids s1) (User i) = false) by (rewrite (d_user _ _ A2); auto).
      split; [apply vee_user; auto|].
      unfold l_build. rewrite BU2. intro T. cbn. destruct (l_built s Helper) eqn:BH; [left; rewrite B2; exact BH|]. right.
      exists [], i, (l_done (l_use Tids s1)). cbn. split; auto. split; auto. rewrite (d_kind _ _ A2). cbn. apply setn_eq.
    + destruct TU as (V2 & A2 & B2). set (s2 := l_use Tids s1) in *.
      assert (LK2 : l_lock s2 i = false) by (rewrite (d_lock _ _ A2); auto).
      assert (ST2 : starts s2 o).
      { destruct (l_built s Helper) eqn:BH; [left; rewrite B2; exact BH|]. right. specialize (TI eq_refl). apply (k_in _ (v_cons _ V2)) in TI as [P Q]. split; auto. }
      destruct (rlock_parts cf o i s2 AU OI V2 ST2 LK2) as (s3 & V3 & A3 & B3 & E). rewrite E.
      assert (BU3 : l_built s3 (User i) = false) by (rewrite (d_user _ _ A3), (d_user _ _ A2); auto).
      pose proof (vee_user s3 i V3 BU3) as V4. unfold l_build in V4 |- *. change (l_built (l_setlock i (o_res o) s3) (User i)) with (l_built s3 (User i)). rewrite BU3 in *.
      split; [|apply num_helper; cbn; rewrite ?setf_neq by discriminate; auto].
      apply (vee_lock _ (setn (l_lock s3) i (o_res o)) (setn (l_held s3) i (o_res o && l_att s3)) V4).
      intros j Y. cbn. destruct (Nat.eq_dec j i) as [->|NE]; [apply setf_eq|]. rewrite setn_neq in Y by auto.
      rewrite setf_neq by congruence. apply (v_lock s3 V3). auto.
    + destruct ST0 as [[]|ST]. assert (ST1 : starts s1 o) by exact ST. destruct (vee_call cf o s1 AU OI V1 ST1) as (V2 & A2 & B2).
      assert (BU2 : l_built (l_call cf o s1) (User i) = false) by (rewrite (d_user _ _ A2); auto).
      split; [apply vee_user; auto|]. apply num_helper. unfold l_build. rewrite BU2. cbn. rewrite ?setf_neq by discriminate. auto.
    + split; [apply vee_user; auto|]. unfold l_build. rewrite BU1. intro T. cbn in T |- *. destruct (N1 T) as [X|(l1 & j & l2 & E & I & KI)]; [left; exact X|].
      right. exists (User i :: l1), j, l2. cbn. split; [f_equal; exact E | auto].
  - (* LLock *) destruct (l_exit s); [split; auto|]. destruct ST0 as [[]|ST].
    assert (Y : l_built s (User i) = true -> well (l_rlock cf o i s)).
    { intro BU. destruct (l_lock s i) eqn:LK; [unfold l_rlock; rewrite LK; split; auto|].
      destruct (rlock_parts cf o i s AU OI V ST LK) as (s3 & V3 & A3 & B3 & E). rewrite E. split; [|apply num_helper; auto].
      apply (vee_lock s3); auto. intros j Y. destruct (Nat.eq_dec j i) as [->|NE]; [rewrite (d_user _ _ A3); auto|].
      rewrite setn_neq in Y by auto. apply (v_lock s3 V3). auto. }
    destruct (l_kind s i), (l_built s (User i)); auto; split; auto.
  - (* LUnlock *) destruct (l_exit s); [split; auto|]. destruct ST0 as [[]|ST].
    destruct (vee_runlock cf o i s AU OI V ST) as (V1 & B1). assert (Y : well (l_runlock cf o i s)) by (split; auto; apply num_helper; auto).
    destruct (l_kind s i), (l_built s (User i)); auto; split; auto.
  - (* LWorker *) destruct (l_work s) eqn:WK; [|split; auto]. destruct (W eq_refl) as (l1 & l2 & E & I).
    assert (Y : In Tids (l_done s)) by (rewrite E; apply in_or_app; right; right; auto). apply (k_in s C) in Y as [P Q].
    unfold l_pass. rewrite Q. unfold l_build. rewrite P. split; auto.
  - (* LExit *) destruct C as [C1 C2 C3], A as [A1 A2]. split; [constructor; auto; constructor; auto | exact N].
  - (* LPop *) destruct (l_exit s); [|split; auto]. destruct ST0 as [[]|ST]. unfold l_pop. destruct (l_done s) as [|y r] eqn:D; [split; auto|].
    destruct y as [| | | |i].
    + split; [apply (vee_kill s Debug r); auto; discriminate | apply (num_kill s Debug r); auto; discriminate].
    + assert (BH : l_built s Helper = true) by (apply (k_in s C); rewrite D; left; auto).
      pose proof (kill_cons s Helper r C D) as [K1 K2 K3]. split; [|apply num_helper; auto]. constructor; auto.
      * constructor; auto.
      * constructor; cbn; auto.
      * cbn. discriminate.
    + split; [apply (vee_kill s Tids r); auto; discriminate | apply (num_kill s Tids r); auto; discriminate].
    + split; [apply (vee_kill s Stack r); auto; discriminate | apply (num_kill s Stack r); auto; discriminate].
    + assert (V1 : vee (l_kill (User i) s)) by (apply (vee_kill s (User i) r); auto; discriminate).
      assert (ST1 : starts (l_kill (User i) s) o).
      { destruct ST as [X|[X1 X2]]; [left; exact X|]. right. cbn. rewrite ?setf_neq by discriminate. auto. }
      set (s1 := l_kill (User i) s) in *.
      destruct (vee_runlock cf o i s1 AU OI V1 ST1) as (V2 & B2). destruct (vee_call cf o s1 AU OI V1 ST1) as (V3 & A3 & B3).
      destruct (l_kind s i); (split; [auto | apply num_helper; auto]).
Qed.

Lemma well_reach : forall cf s, c_auto cf = true -> l_reach cf (both inits numbers_first) s -> well s.
Proof.
  intros cf s AU R. induction R as [|s x R IH [OI NF]].
  - split; [|intro T; cbn in T; discriminate]. constructor; cbn; auto; try discriminate.
    + constructor; cbn; [|constructor|discriminate]. intro x. split; [contradiction | intros [Y _]; discriminate].
    + constructor; cbn; auto.
  - apply well_step; auto.
Qed.

Lemma tidy_reach : forall cf s, c_auto cf = true -> l_reach cf (both inits careful) s -> tidy s.
Proof.
  intros cf s AU R. induction R as [|s x R IH [OI NF]].
  - constructor; cbn; auto; try discriminate.
    + constructor; cbn; [|constructor|discriminate]. intro x. split; [contradiction | intros [Y _]; discriminate].
    + constructor; cbn; auto.
  - apply tidy_step; auto.
Qed.
