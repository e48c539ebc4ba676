(** Proofs for C160, C161. *)
From Coq Require Import ZArith List Bool Lia.
From Verif Require Import Base Refile_Model Refile_Spec.
Import ListNotations.
Open Scope Z_scope.

Lemma who_eqb_eq : forall a b, who_eqb a b = true <-> a = b.
Proof.
  intros [a b] [c d]. unfold who_eqb. cbn. rewrite andb_true_iff, !Z.eqb_eq. split; [intros [-> ->]; auto | intro H; inversion H; auto].
Qed.
Lemma same_got_eq : forall x y, same_got x y = true <-> x = y.
Proof.
  intros [[a b] c] [[d e] g]. unfold same_got. cbn. rewrite !andb_true_iff, !Z.eqb_eq, who_eqb_eq. split; [intros [[-> ->] ->]; auto | intro H; inversion H; auto].
Qed.
Lemma drop_in : forall x y l, In y (drop_got x l) <-> In y l /\ y <> x.
Proof.
  intros x y l. unfold drop_got. rewrite filter_In, negb_true_iff. split; intros [A B]; split; auto.
  - intros ->. assert (same_got x x = true) by (apply same_got_eq; auto). congruence.
  - destruct (same_got x y) eqn:E; auto. apply same_got_eq in E. congruence.
Qed.
Lemma others_at_true : forall procs s f, others_at procs s f = true <-> exists q, In q procs /\ at_file s q f.
Proof.
  intros procs s f. unfold others_at, at_file. rewrite existsb_exists. split; intros (q & I & H); exists q; split; auto.
  - apply andb_true_iff in H as [L A]. destruct (f_att s q) as [g|]; [|discriminate]. apply Z.eqb_eq in A. subst. auto.
  - destruct H as [L A]. rewrite L, A, Z.eqb_refl. auto.
Qed.

(** ** Invariant: who has a mutex is its owner in the file, lives, and somebody uses the file *)
Record FI (procs : list Z) (s : fsys) : Prop := mkFI {
  fi_own : forall u f n, has s u f n -> f_tab s f n = Some (Some u);
  fi_live : forall u f n, has s u f n -> f_live s (fst u) = true;
  fi_used : forall u f n, has s u f n -> exists q, In q procs /\ at_file s q f }.

Lemma lock_cases : forall s u n f, f_att s (fst u) = Some f ->
  (f_lock s u n = (s, EBUSY_F) /\ exists w, w <> u /\ f_tab s f n = Some (Some w)) \/
  (snd (f_lock s u n) = 0 /\ f_att (fst (f_lock s u n)) = f_att s /\ f_live (fst (f_lock s u n)) = f_live s /\ f_got (fst (f_lock s u n)) = (u, f, n) :: f_got s /\
   f_tab (fst (f_lock s u n)) f n = Some (Some u) /\ (forall g m, (g, m) <> (f, n) -> f_tab (fst (f_lock s u n)) g m = f_tab s g m) /\
   (forall w, f_tab s f n = Some (Some w) -> w = u)).
Proof.
  intros s u n f A. unfold f_lock. rewrite A. destruct (f_tab s f n) as [[w|]|] eqn:E.
  - destruct (who_eqb w u) eqn:W.
    + right. apply who_eqb_eq in W. subst w. cbn. rewrite E. repeat split; auto. intros w H. inversion H. auto.
    + left. split; auto. exists w. split; auto. intros ->. assert (who_eqb u u = true) by (apply who_eqb_eq; auto). congruence.
  - right. cbn. unfold set_name. rewrite !upd_eq. repeat split; auto; [|intros w H; discriminate]. intros g m N. destruct (Z.eq_dec g f) as [->|NG]; [rewrite upd_eq; rewrite upd_neq by congruence; auto | rewrite upd_neq by auto; auto].
  - right. cbn. unfold set_name. rewrite !upd_eq. repeat split; auto; [|intros w H; discriminate]. intros g m N. destruct (Z.eq_dec g f) as [->|NG]; [rewrite upd_eq; rewrite upd_neq by congruence; auto | rewrite upd_neq by auto; auto].
Qed.
Lemma unlock_cases : forall s u n f, f_att s (fst u) = Some f ->
  (fst (f_unlock s u n) = s /\ snd (f_unlock s u n) <> 0 /\ f_tab s f n <> Some None /\ f_tab s f n <> Some (Some u)) \/
  (snd (f_unlock s u n) = 0 /\ f_att (fst (f_unlock s u n)) = f_att s /\ f_live (fst (f_unlock s u n)) = f_live s /\ f_got (fst (f_unlock s u n)) = drop_got (u, f, n) (f_got s) /\
   f_tab (fst (f_unlock s u n)) f n = Some None /\ (forall g m, (g, m) <> (f, n) -> f_tab (fst (f_unlock s u n)) g m = f_tab s g m) /\
   (f_tab s f n = Some None \/ f_tab s f n = Some (Some u))).
Proof.
  intros s u n f A. unfold f_unlock. rewrite A. destruct (f_tab s f n) as [[w|]|] eqn:E.
  - destruct (who_eqb w u) eqn:W.
    + right. apply who_eqb_eq in W. subst w. cbn. unfold set_name. rewrite !upd_eq. repeat split; auto.
      intros g m N. destruct (Z.eq_dec g f) as [->|NG]; [rewrite upd_eq; rewrite upd_neq by congruence; auto | rewrite upd_neq by auto; auto].
    + left. cbn. repeat split; try discriminate. intro H. inversion H; subst w. assert (who_eqb u u = true) by (apply who_eqb_eq; auto). congruence.
  - right. cbn. rewrite E. repeat split; auto.
  - left. cbn. repeat split; discriminate.
Qed.
Lemma reinit_tab : forall procs s pid f ok g n, f_tab (f_reinit procs s pid f ok) g n = f_tab s g n \/ (ok = true /\ g = f /\ forall q, In q procs -> q <> pid -> ~ at_file s q f).
Proof.
  intros procs s pid f ok g n. unfold f_reinit. cbv zeta. destruct ok; [|auto]. cbn. destruct (others_at procs (f_leave s pid) f) eqn:O; auto.
  destruct (Z.eq_dec g f) as [->|N]; [|rewrite upd_neq by auto; auto]. right. repeat split; auto. intros q I NQ [L A].
  assert (X : others_at procs (f_leave s pid) f = true); [|congruence]. apply others_at_true. exists q. split; auto. split; auto. cbn. rewrite upd_neq by auto. auto.
Qed.

Lemma FI_step : forall procs s x, FI procs s -> stays procs s x -> FI procs (f_step procs s x).
Proof.
  intros procs s x F OK. pose proof F as [A B C]. unfold f_step. cbv zeta. match goal with |- context [if ?b then _ else _] => destruct b eqn:EN end; auto. apply andb_true_iff in EN as [IN LV].
  apply existsb_exists in IN as (p' & IP & EP). apply Z.eqb_eq in EP. subst p'.
  destruct x as [u n|u n|pid f ok|pid|pid].
  - destruct (f_att s (fst u)) as [f|] eqn:AT; [|unfold f_lock; rewrite AT; auto]. destruct (lock_cases s u n f AT) as [[-> _]|(R & E1 & E2 & E3 & E4 & E5 & E6)]; auto.
    assert (H : forall v g m, has (fst (f_lock s u n)) v g m -> (v, g, m) = (u, f, n) \/ has s v g m) by (intros v g m; unfold has; rewrite E3; intros [Q|Q]; auto).
    constructor; intros v g m Q; destruct (H v g m Q) as [E|Q']; try (inversion E; subst v g m; clear E).
    + auto.
    + destruct (Z.eq_dec g f) as [->|NG]; [destruct (Z.eq_dec m n) as [->|NM]|]; [|rewrite E5 by congruence; auto|rewrite E5 by congruence; auto].
      rewrite E4. rewrite (E6 v (A v f n Q')). auto.
    + rewrite E2. auto.
    + rewrite E2. eauto.
    + exists (fst u). unfold at_file. rewrite E1, E2. auto.
    + unfold at_file. rewrite E1, E2. apply (C v g m Q').
  - destruct (f_att s (fst u)) as [f|] eqn:AT; [|unfold f_unlock; rewrite AT; auto]. destruct (unlock_cases s u n f AT) as [(-> & _)|(R & E1 & E2 & E3 & E4 & E5 & E6)]; auto.
    assert (H : forall v g m, has (fst (f_unlock s u n)) v g m -> (v, g, m) <> (u, f, n) /\ has s v g m) by (intros v g m; unfold has; rewrite E3; rewrite drop_in; intros [Q1 Q2]; auto).
    constructor; intros v g m Q; destruct (H v g m Q) as [N Q'].
    + pose proof (A v g m Q') as T. destruct (Z.eq_dec g f) as [->|NG]; [destruct (Z.eq_dec m n) as [->|NM]|]; [|rewrite E5 by congruence; auto|rewrite E5 by congruence; auto].
      destruct E6 as [E6|E6]; rewrite E6 in T; [discriminate|]. inversion T. congruence.
    + rewrite E2. eauto.
    + unfold at_file. rewrite E1, E2. apply (C v g m Q').
  - assert (HS : forall v g m, has (f_reinit procs s pid f ok) v g m -> has s v g m) by (intros v g m; unfold has, f_reinit; cbv zeta; destruct ok; auto).
    assert (LS : f_live (f_reinit procs s pid f ok) = f_live s) by (unfold f_reinit; cbv zeta; destruct ok; auto).
    assert (AS : forall q g, q <> pid -> at_file s q g -> at_file (f_reinit procs s pid f ok) q g) by (intros q g N [L T]; split; [rewrite LS; auto|]; unfold f_reinit; cbv zeta; destruct ok; cbn; rewrite !upd_neq by auto; auto).
    assert (KQ : forall v g m, has s v g m -> exists q, In q procs /\ q <> pid /\ at_file s q g).
    { intros v g m Q. destruct (C v g m Q) as (q & I & AQ). destruct (Z.eq_dec q pid) as [->|N]; [|eauto]. destruct (OK g AQ) as [Y|Y]; auto. destruct (Y v m Q). }
    constructor; intros v g m Q; apply HS in Q.
    + destruct (reinit_tab procs s pid f ok g m) as [->|(_ & -> & Y)]; auto. destruct (KQ v f m Q) as (q & I & N & AQ). destruct (Y q I N AQ).
    + rewrite LS. eauto.
    + destruct (KQ v g m Q) as (q & I & N & AQ). exists q. split; auto.
  - assert (HS : forall v g m, has (f_die s pid) v g m -> has s v g m /\ fst v <> pid).
    { intros v g m Q. unfold has, f_die in Q. cbn in Q. apply filter_In in Q as [Q1 Q2]. apply negb_true_iff, Z.eqb_neq in Q2. auto. }
    constructor; intros v g m Q; destruct (HS v g m Q) as [Q1 Q2]; cbn.
    + auto.
    + rewrite upd_neq by auto. eauto.
    + destruct (C v g m Q1) as (q & I & AQ). assert (Y : exists q, In q procs /\ q <> pid /\ at_file s q g).
      { destruct (Z.eq_dec q pid) as [->|N]; [|eauto]. destruct (OK g AQ) as [Y|Y]; auto. destruct Q2. apply (Y v m Q1). }
      destruct Y as (q' & I' & N' & [L T]). exists q'. split; auto. split; cbn; rewrite upd_neq by auto; auto.
  - unfold f_pass. destruct (f_att s pid) as [f|] eqn:AT; auto. constructor; intros v g m Q; cbn in *.
    + pose proof (A v g m Q) as T. destruct (Z.eq_dec g f) as [->|NG]; [rewrite upd_eq, T | rewrite upd_neq by auto; auto]. rewrite (B v f m Q). auto.
    + apply (B v g m Q).
    + apply (C v g m Q).
Qed.
Lemma FI_init : forall procs t, FI procs (f_init t).
Proof. intros procs t. constructor; intros u f n []. Qed.
Lemma FI_reach : forall procs (ok : fsys -> flabel -> Prop) s0 s, (forall s x, ok s x -> stays procs s x) -> FI procs s0 -> f_reach procs ok s0 s -> FI procs s.
Proof. intros procs ok s0 s O F R. induction R as [|s x R IH H]; auto. apply FI_step; auto. Qed.
Lemma FI_excl : forall procs s, FI procs s -> exclusive s.
Proof. intros procs s F u v f n U V. pose proof (fi_own procs s F u f n U). pose proof (fi_own procs s F v f n V). congruence. Qed.

(** ** Who went to another file keeps what it had *)
Lemma away_step : forall procs s x u f n, FI procs s -> stays procs s x -> away (fst u) f s x -> has s u f n -> f_att s (fst u) <> Some f ->
  has (f_step procs s x) u f n /\ f_att (f_step procs s x) (fst u) <> Some f.
Proof.
  intros procs s x u f n F OK AW H NA. unfold f_step. cbv zeta. match goal with |- context [if ?b then _ else _] => destruct b eqn:EN end; auto.
  destruct x as [v m|v m|pid g ok|pid|pid].
  - destruct (f_att s (fst v)) as [g|] eqn:AT; [|unfold f_lock; rewrite AT; auto]. destruct (lock_cases s v m g AT) as [[-> _]|(R & E1 & E2 & E3 & E4 & E5 & E6)]; auto.
    rewrite E1. split; auto. unfold has. rewrite E3. right. auto.
  - destruct (f_att s (fst v)) as [g|] eqn:AT; [|unfold f_unlock; rewrite AT; auto]. destruct (unlock_cases s v m g AT) as [(-> & _)|(R & E1 & E2 & E3 & E4 & E5 & E6)]; auto.
    rewrite E1. split; auto. unfold has. rewrite E3. apply drop_in. split; auto. intro E. inversion E; subst v g m. auto.
  - split; [unfold has, f_reinit; cbv zeta; destruct ok; auto|]. unfold f_reinit. cbv zeta. cbn in AW. destruct (Z.eq_dec (fst u) pid) as [E|N].
    + destruct ok; cbn; rewrite E, upd_eq; [|discriminate]. intro Q. inversion Q. apply AW; auto.
    + destruct ok; cbn; rewrite !upd_neq by auto; auto.
  - cbn in AW. cbn. split; [unfold has; cbn; apply filter_In; split; auto; apply negb_true_iff, Z.eqb_neq; auto|]. rewrite upd_neq by auto. auto.
  - unfold f_pass. destruct (f_att s pid); auto.
Qed.
Lemma away_reach : forall procs s0 u f n s, FI procs s0 -> has s0 u f n -> f_att s0 (fst u) <> Some f -> f_reach procs (both_f (stays procs) (away (fst u) f)) s0 s ->
  FI procs s /\ has s u f n /\ f_att s (fst u) <> Some f.
Proof.
  intros procs s0 u f n s F H NA R. induction R as [|s x R (F' & H' & N') [O1 O2]]; auto. split; [apply FI_step; auto | apply away_step; auto].
Qed.
