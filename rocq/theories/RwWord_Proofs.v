(** Invariant of the reader/writer lock word. *)
From Coq Require Import ZArith List Bool Lia.
From Verif Require Import Base RwWord_Model.
Import ListNotations.
Open Scope Z_scope.

(** the mode in which an agent holds the lock: from the successful call until its unlock takes effect *)
Definition holds_mode (p : wpc) : option rwmode :=
  match p with WHold r | WUnRead r | WUnCas r _ _ => Some r | _ => None end.

Definition pc_ok (p : wpc) : Prop :=
  match p with
  | WUnCas Rd b n => 1 <= b /\ n = b - 1
  | WUnCas Wr b n => b = -1 /\ n = 0
  | _ => True
  end.

Definition readers_are (s : wstate) (L : list Z) : Prop :=
  NoDup L /\ forall a, In a L <-> holds_mode (w_pc s a) = Some Rd.

Definition w_inv (s : wstate) : Prop :=
  (forall a, pc_ok (w_pc s a)) /\
  exists L, readers_are s L /\
    ((w_val s = Z.of_nat (length L) /\ forall a, holds_mode (w_pc s a) <> Some Wr) \/
     (w_val s = -1 /\ L = [] /\ exists w, forall a, holds_mode (w_pc s a) = Some Wr <-> a = w)).

Lemma w_inv_init : w_inv w_init.
Proof.
  split; [intros; exact I|]. exists []. split.
  - split; [constructor|]. intros a; cbn. split; [tauto|discriminate].
  - left. split; auto. intros a; cbn. discriminate.
Qed.

(** changing the pc of one agent without changing what it holds *)
Lemma w_inv_same : forall s a p res, w_inv s -> holds_mode p = holds_mode (w_pc s a) -> pc_ok p ->
  w_inv (mkW (w_val s) (upd (w_pc s) a p) res).
Proof.
  intros s a p res [P (L & [N R] & C)] Hm Hp. split.
  - intros x. cbn. destruct (upd_cases _ (w_pc s) a p x) as [[-> ->]|[? ->]]; auto.
  - assert (E : forall x, holds_mode (upd (w_pc s) a p x) = holds_mode (w_pc s x)).
    { intros x. destruct (upd_cases _ (w_pc s) a p x) as [[-> ->]|[? ->]]; auto. }
    exists L. split; [split; auto; intros x; cbn; rewrite E; auto|].
    destruct C as [[V W]|[V [HL [w W]]]].
    + left. split; auto. intros x; cbn. rewrite E. auto.
    + right. repeat split; auto. exists w. intros x; cbn. rewrite E. auto.
Qed.

Lemma goto_inv : forall s a (p : wpc + Z), w_inv s -> holds_mode (w_pc s a) = None ->
  (forall q, p = inl q -> holds_mode q = None /\ pc_ok q) -> w_inv (w_goto s a p).
Proof.
  intros s a p H Hn Hp. destruct p as [q|e]; cbn.
  - destruct (Hp q eq_refl). apply w_inv_same; auto. congruence.
  - apply w_inv_same; auto. exact I.
Qed.

Lemma w_failed_ok : forall k go e q, (forall k', holds_mode (go k') = None /\ pc_ok (go k')) ->
  w_failed k go e = inl q -> holds_mode q = None /\ pc_ok q.
Proof.
  intros k go e q H E. destruct k; cbn in E.
  - destruct (_ && _); [discriminate|]. destruct (cnt =? INT_MAX); inversion E; subst; auto. cbn; auto.
  - discriminate.
  - destruct e; inversion E; subst; auto.
Qed.

Lemma w_head_ok : forall k go q, (forall k', holds_mode (go k') = None /\ pc_ok (go k')) ->
  w_loop_head k go = inl q -> holds_mode q = None /\ pc_ok q.
Proof.
  intros k go q H E. destruct k; cbn in E.
  - destruct (_ && _); [discriminate|]. destruct (cnt =? INT_MAX); inversion E; subst; auto. cbn; auto.
  - inversion E; subst; auto.
  - inversion E; subst; auto.
Qed.

Lemma remove_length : forall (L : list Z) a, NoDup L -> In a L ->
  Z.of_nat (length (remove Z.eq_dec a L)) = Z.of_nat (length L) - 1.
Proof.
  induction L as [|x L IH]; intros a N Hin; [destruct Hin|].
  inversion N; subst. cbn [remove]. destruct (Z.eq_dec a x) as [->|Hne].
  - rewrite notin_remove by auto. cbn [length]. lia.
  - destruct Hin as [->|Hin]; [congruence|]. cbn [length]. specialize (IH a H2 Hin). lia.
Qed.

Lemma NoDup_remove_ : forall (L : list Z) a, NoDup L -> NoDup (remove Z.eq_dec a L).
Proof.
  induction L as [|x L IH]; intros a N; cbn; [constructor|].
  inversion N; subst. destruct (Z.eq_dec a x); auto. constructor; auto.
  intros Hin. apply in_remove in Hin. tauto.
Qed.

(** acquiring as reader *)
Lemma w_inv_rd : forall s a res, w_inv s -> holds_mode (w_pc s a) = None -> 0 <= w_val s ->
  w_inv (mkW (w_val s + 1) (upd (w_pc s) a (WHold Rd)) res).
Proof.
  intros s a res [P (L & [N R] & C)] Hn Hv.
  destruct C as [[V W]|[V _]]; [|lia]. split.
  - intros x; cbn. destruct (upd_cases _ (w_pc s) a (WHold Rd) x) as [[-> ->]|[? ->]]; cbn; auto.
  - exists (a :: L). split.
    + split.
      * constructor; auto. rewrite R, Hn. discriminate.
      * intros x; cbn. destruct (upd_cases _ (w_pc s) a (WHold Rd) x) as [[-> ->]|[Hx ->]].
        -- cbn. tauto.
        -- rewrite <- R. intuition congruence.
    + left. split; [cbn [w_val length]; lia|]. intros x; cbn.
      destruct (upd_cases _ (w_pc s) a (WHold Rd) x) as [[-> ->]|[Hx ->]]; cbn; auto. discriminate.
Qed.

Lemma w_inv_wr : forall s a res, w_inv s -> holds_mode (w_pc s a) = None -> w_val s = 0 ->
  w_inv (mkW (-1) (upd (w_pc s) a (WHold Wr)) res).
Proof.
  intros s a res [P (L & [N R] & C)] Hn Hv.
  destruct C as [[V W]|[V _]]; [|lia]. split.
  - intros x; cbn. destruct (upd_cases _ (w_pc s) a (WHold Wr) x) as [[-> ->]|[? ->]]; cbn; auto.
  - assert (L = []) by (destruct L; cbn in V; [auto|lia]). subst L.
    exists []. split.
    + split; [constructor|]. intros x; cbn.
      destruct (upd_cases _ (w_pc s) a (WHold Wr) x) as [[-> ->]|[Hx ->]].
      * cbn. split; [tauto|discriminate].
      * rewrite <- R. reflexivity.
    + right. repeat split; auto. exists a. intros x; cbn.
      destruct (upd_cases _ (w_pc s) a (WHold Wr) x) as [[-> ->]|[Hx ->]]; cbn; [tauto|].
      split; [intros E; destruct (W _ E)|congruence].
Qed.

Lemma w_inv_unrd : forall s a res, w_inv s -> holds_mode (w_pc s a) = Some Rd ->
  w_inv (mkW (w_val s - 1) (upd (w_pc s) a WIdle) res).
Proof.
  intros s a res [P (L & [N R] & C)] Hh.
  assert (Hin : In a L) by (apply R; auto).
  destruct C as [[V W]|[V [-> _]]]; [|destruct Hin]. split.
  - intros x; cbn. destruct (upd_cases _ (w_pc s) a WIdle x) as [[-> ->]|[? ->]]; cbn; auto.
  - exists (remove Z.eq_dec a L). split.
    + split; [now apply NoDup_remove_|]. intros x; cbn.
      destruct (upd_cases _ (w_pc s) a WIdle x) as [[-> ->]|[Hx ->]].
      * cbn. split; [intros E; apply remove_In in E; tauto|discriminate].
      * rewrite <- R. split; intros E; [eapply in_remove; eauto | apply in_in_remove; auto].
    + left. split; [cbn; rewrite remove_length; auto; lia|]. intros x; cbn.
      destruct (upd_cases _ (w_pc s) a WIdle x) as [[-> ->]|[Hx ->]]; cbn; auto. discriminate.
Qed.

Lemma w_inv_unwr : forall s a res, w_inv s -> holds_mode (w_pc s a) = Some Wr ->
  w_inv (mkW 0 (upd (w_pc s) a WIdle) res).
Proof.
  intros s a res [P (L & [N R] & C)] Hh.
  destruct C as [[V W]|[V [-> [w W]]]]; [destruct (W _ Hh)|]. split.
  - intros x; cbn. destruct (upd_cases _ (w_pc s) a WIdle x) as [[-> ->]|[? ->]]; cbn; auto.
  - exists []. split.
    + split; [constructor|]. intros x; cbn.
      destruct (upd_cases _ (w_pc s) a WIdle x) as [[-> ->]|[Hx ->]].
      * cbn. split; [tauto|discriminate].
      * rewrite <- R. reflexivity.
    + left. split; auto. intros x; cbn.
      destruct (upd_cases _ (w_pc s) a WIdle x) as [[-> ->]|[Hx ->]]; cbn; [discriminate|].
      intros E. apply W in E. apply W in Hh. congruence.
Qed.

(** what a holder sees in the word *)
Lemma holder_sees : forall s a r, w_inv s -> holds_mode (w_pc s a) = Some r ->
  match r with Rd => 1 <= w_val s | Wr => w_val s = -1 end.
Proof.
  intros s a r [P (L & [N R] & C)] Hh. destruct r.
  - assert (Hin : In a L) by (apply R; auto). destruct C as [[V W]|[V [-> _]]]; [|destruct Hin].
    destruct L; [destruct Hin|]. cbn in V. lia.
  - destruct C as [[V W]|[V _]]; auto. destruct (W _ Hh).
Qed.

Lemma w_inv_step : forall s l, w_inv s -> w_inv (w_step s l).
Proof.
  intros s l H. destruct l as [a c|a e]; cbn [w_step].
  - unfold w_call. destruct (w_pc s a) eqn:P; destruct c; auto.
    + apply goto_inv; auto; [rewrite P; auto|]. intros q E. eapply w_head_ok; eauto. cbn; auto.
    + apply goto_inv; auto; [rewrite P; auto|]. intros q E. eapply w_head_ok; eauto. cbn; auto.
    + cbn. apply w_inv_same; auto; try (rewrite P; auto; fail); exact I.
  - unfold w_run. pose proof (proj1 H a) as PK. destruct (w_pc s a) eqn:P; auto.
    + cbn. apply w_inv_same; auto; try (rewrite P; auto; fail); exact I.
    + unfold RW_UNLOCK. destruct (Z.ltb_spec b 0).
      * apply goto_inv; auto; [rewrite P; auto|]. intros q E. eapply w_failed_ok; eauto. cbn; auto.
      * destruct (Z.eqb_spec (w_val s) b).
        -- subst b. apply w_inv_rd; auto. rewrite P; auto.
        -- apply goto_inv; auto; [rewrite P; auto|]. intros q E. eapply w_failed_ok; eauto. cbn; auto.
    + unfold RW_UNLOCK, RW_WLOCK. destruct (Z.eqb_spec (w_val s) 0).
      * apply w_inv_wr; auto. rewrite P; auto.
      * apply goto_inv; auto; [rewrite P; auto|]. intros q E. eapply w_failed_ok; eauto. cbn; auto.
    + assert (Hs : match r with Rd => 1 <= w_val s | Wr => w_val s = -1 end)
        by (eapply holder_sees; eauto; rewrite P; auto).
      unfold RW_UNLOCK, RW_WLOCK. destruct (Z.eqb_spec (w_val s) 0); [destruct r; lia|].
      destruct (Z.leb_spec (w_val s) (-1)); cbn; apply w_inv_same; auto; try (rewrite P; auto; fail);
        destruct r; cbn; lia.
    + destruct (Z.eqb_spec (w_val s) b).
      * destruct r; destruct PK as [Hb ->]; subst b.
        -- apply w_inv_unrd; auto. rewrite P; auto.
        -- apply w_inv_unwr; auto. rewrite P; auto.
      * cbn. apply w_inv_same; auto; try (rewrite P; auto; fail); exact I.
Qed.

Lemma w_reach_inv : forall s, w_reach s -> w_inv s.
Proof. induction 1; [apply w_inv_init | now apply w_inv_step]. Qed.
