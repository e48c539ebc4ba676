(** Invariant of attaching when the calls of one process do not overlap with its initialisation. *)
From Coq Require Import ZArith List Bool Lia.
From Verif Require Import Base Init_Model Init_Spec.
Import ListNotations.
Open Scope Z_scope.

Definition busy (x : ipc) : Prop := match x with IIdle | IUse => False | _ => True end.

Definition pok (s : istate) (t : Z) : Prop :=
  let p := proc t in
  match i_pc s t with
  | IIdle => True
  | IOpenX | IOpen => i_fd s p = false /\ i_map s p = false
  | ICWrite | IClose | IWrite _ | IRead _ => i_fd s p = true /\ i_map s p = false
  | IAttach => i_fd s p = true /\ i_map s p = false /\ In p (i_rd s)
  | ITrunc | IFill | IMap => i_fd s p = true /\ i_map s p = false /\ i_wr s = Some p
  | IHead | ILists | IDown => i_fd s p = true /\ i_map s p = true /\ i_wr s = Some p
  | IWorker => i_fd s p = true /\ i_map s p = true /\ In p (i_rd s)
  | IDet1 _ => i_fd s p = true
  | IDet2 _ | IDet3 _ => i_fd s p = true /\ i_map s p = false
  | IUse => i_fd s p = true /\ i_map s p = true
  end.

Record inv (s : istate) : Prop := mkInv {
  v_one : forall t u, proc t = proc u -> t <> u -> busy (i_pc s t) -> i_pc s u = IIdle;
  v_pok : forall t, pok s t;
  v_calm : forall p, (forall u, proc u = p -> ~ busy (i_pc s u)) -> i_fd s p = i_map s p;
  v_lock : forall p, i_map s p = true -> i_inh s p = true \/ In p (i_rd s) \/ i_wr s = Some p;
  v_excl : forall p, i_wr s = Some p -> i_rd s = [];
  v_dead : forall p, i_alive s p = false -> i_fd s p = false /\ i_map s p = false /\ ~ In p (i_rd s) /\ i_wr s <> Some p /\ all_idle s p
}.

Lemma in_without : forall p q l, In q (without p l) <-> In q l /\ q <> p.
Proof. intros. unfold without. rewrite filter_In. destruct (Z.eqb_spec q p); simpl; intuition congruence. Qed.
Lemma without_absent : forall p l, ~ In p l -> without p l = l.
Proof.
  intros p l. induction l as [|x l IH]; intro H; auto. simpl. destruct (Z.eqb_spec x p) as [->|]; simpl; [exfalso; apply H; left; auto|].
  f_equal. apply IH. intro. apply H. right. auto.
Qed.

Lemma inv_init : inv i_init.
Proof.
  constructor; simpl; try (intros; discriminate); auto; try tauto.
  - intros; exact I.
  - intros p _. repeat split; auto; discriminate.
Qed.

(** a step of thread t, busy before or beginning *)
Lemma inv_local : forall s s' t x,
  inv s -> i_alive s (proc t) = true -> (forall u, proc u = proc t -> u <> t -> i_pc s u = IIdle) ->
  i_pc s' = upd (i_pc s) t x -> i_alive s' = i_alive s ->
  (forall q, q <> proc t -> i_fd s' q = i_fd s q /\ i_map s' q = i_map s q /\ i_inh s' q = i_inh s q) ->
  (forall q, q <> proc t -> (In q (i_rd s') <-> In q (i_rd s)) /\ (i_wr s' = Some q <-> i_wr s = Some q)) ->
  (forall p, i_wr s' = Some p -> i_rd s' = []) ->
  pok s' t -> (~ busy x -> i_fd s' (proc t) = i_map s' (proc t)) ->
  (i_map s' (proc t) = true -> i_inh s' (proc t) = true \/ In (proc t) (i_rd s') \/ i_wr s' = Some (proc t)) ->
  inv s'.
Proof.
  intros s s' t x [V1 V2 V3 V4 V5 V6] A OT PC AL FR LK EX PK CA LO.
  constructor.
  - intros a b E N B. rewrite PC in *. destruct (Z.eq_dec a t) as [->|Na].
    + rewrite upd_neq by auto. apply OT; auto.
    + rewrite upd_neq in B by auto. destruct (Z.eq_dec b t) as [->|Nb]; [|rewrite upd_neq by auto; eapply V1; eauto].
      rewrite (OT a) in B; auto. contradiction.
  - intro a. destruct (Z.eq_dec a t) as [->|Na]; auto. unfold pok. rewrite PC, upd_neq by auto.
    destruct (Z.eq_dec (proc a) (proc t)) as [E|E]; [rewrite OT by auto; exact I|].
    specialize (V2 a). unfold pok in V2. destruct (FR _ E) as (-> & -> & _). destruct (LK _ E) as (L1 & L2).
    destruct (i_pc s a); rewrite ?L1, ?L2; auto.
  - intros p H. destruct (Z.eq_dec p (proc t)) as [->|E].
    + apply CA. specialize (H t eq_refl). rewrite PC, upd_eq in H. auto.
    + destruct (FR _ E) as (-> & -> & _). apply V3. intros u U. specialize (H u U). rewrite PC, upd_neq in H; auto. intros ->. auto.
  - intros p H. destruct (Z.eq_dec p (proc t)) as [->|E]; auto. destruct (FR _ E) as (_ & M & ->). rewrite M in H.
    destruct (LK _ E) as (L1 & L2). rewrite L1, L2. auto.
  - exact EX.
  - intros p H. rewrite AL in H. destruct (Z.eq_dec p (proc t)) as [->|E]; [congruence|]. destruct (FR _ E) as (-> & -> & _).
    destruct (LK _ E) as (L1 & L2). rewrite L1, L2. destruct (V6 p H) as (? & ? & ? & ? & D). repeat split; auto.
    intros u U. unfold idle. rewrite PC, upd_neq; [apply D; auto|]. intros ->. auto.
Qed.

Lemma drop_lock_others : forall s p q, q <> p -> (In q (i_rd (drop_lock s p)) <-> In q (i_rd s)) /\ (i_wr (drop_lock s p) = Some q <-> i_wr s = Some q).
Proof.
  intros s p q N. cbn. rewrite in_without. split; [tauto|]. unfold opt_is. destruct (i_wr s) as [w|]; [|tauto].
  destruct (Z.eqb_spec w p); [subst; split; congruence | tauto].
Qed.
Lemma drop_lock_excl : forall s p, (forall q, i_wr s = Some q -> i_rd s = []) -> forall q, i_wr (drop_lock s p) = Some q -> i_rd (drop_lock s p) = [].
Proof.
  intros s p H q E. cbn in *. destruct (opt_is (i_wr s) p); [discriminate|]. rewrite (H q E). reflexivity.
Qed.

Lemma can_write_spec : forall s p, can_write s p = true -> i_fd s p = true /\ (i_wr s = None \/ i_wr s = Some p) /\ forall q, In q (i_rd s) -> q = p.
Proof.
  intros s p H. unfold can_write in H. apply andb_true_iff in H as [H H3]. apply andb_true_iff in H as [H1 H2].
  split; auto. split.
  - destruct (i_wr s); auto. apply Z.eqb_eq in H2. subst. auto.
  - intros q Q. destruct (Z.eq_dec q p); auto. assert (In q (without p (i_rd s))) by (apply in_without; auto).
    destruct (without p (i_rd s)); [contradiction | discriminate].
Qed.
Lemma can_read_spec : forall s p, can_read s p = true -> i_fd s p = true /\ (i_wr s = None \/ i_wr s = Some p).
Proof.
  intros s p H. unfold can_read in H. apply andb_true_iff in H as [H1 H2]. split; auto. destruct (i_wr s); auto. apply Z.eqb_eq in H2. subst. auto.
Qed.
Lemma can_write_rd : forall s p, can_write s p = true -> without p (i_rd s) = [].
Proof. intros s p H. unfold can_write in H. apply andb_true_iff in H as [_ H]. destruct (without p (i_rd s)); auto; discriminate. Qed.

Lemma lock_write_others : forall s p q, can_write s p = true -> q <> p ->
  (In q (i_rd (lock_write s p)) <-> In q (i_rd s)) /\ (i_wr (lock_write s p) = Some q <-> i_wr s = Some q).
Proof.
  intros s p q C N. apply can_write_spec in C as (_ & W & R). cbn. rewrite in_without. split; [split; [tauto|intro H; apply R in H; congruence]|].
  split; [congruence|]. intro H. destruct W; congruence.
Qed.
Lemma lock_read_others : forall s p q, q <> p ->
  (In q (i_rd (lock_read s p)) <-> In q (i_rd s)) /\ (i_wr (lock_read s p) = Some q <-> i_wr s = Some q).
Proof.
  intros s p q N. cbn. rewrite in_without. split; [intuition congruence|]. unfold opt_is. destruct (i_wr s) as [w|]; [|tauto].
  destruct (Z.eqb_spec w p); [subst; split; congruence | tauto].
Qed.
Lemma lock_read_wr : forall s p, can_read s p = true -> i_wr (lock_read s p) = None.
Proof. intros s p C. apply can_read_spec in C as (_ & [W|W]); cbn; rewrite W; auto. cbn. rewrite Z.eqb_refl. auto. Qed.

Ltac icbn := cbn [i_exists i_file i_wr i_rd i_fd i_map i_alive i_pc i_use i_res i_inh i_crash goto ret set_file set_lock set_fd set_map set_use lock_write lock_read drop_lock] in *.

(** death of a process *)
Lemma inv_die : forall s p c, inv s -> inv (die s p c).
Proof.
  intros s p c [V1 V2 V3 V4 V5 V6]. unfold die. constructor; icbn.
  - intros a b E N B. destruct (Z.eqb_spec (proc b) p); auto. destruct (Z.eqb_spec (proc a) p); [congruence|]. eapply V1; eauto.
  - intro a. specialize (V2 a). unfold pok in *. icbn. destruct (Z.eqb_spec (proc a) p) as [E|N]; [exact I|].
    rewrite !upd_neq by auto. destruct (drop_lock_others s p (proc a) N) as [L1 L2]. icbn. destruct (i_pc s a); rewrite ?L1, ?L2; auto.
  - intros q H. destruct (Z.eq_dec q p) as [->|N]; [rewrite !upd_eq; auto|]. rewrite !upd_neq by auto. apply V3. intros u U. specialize (H u U).
    destruct (Z.eqb_spec (proc u) p); [congruence|auto].
  - intros q H. destruct (Z.eq_dec q p) as [->|N]; [rewrite upd_eq in H; discriminate|]. rewrite upd_neq in * by auto.
    destruct (drop_lock_others s p q N) as [L1 L2]. icbn. rewrite L1, L2. auto.
  - exact (drop_lock_excl s p V5).
  - intros q H. destruct (Z.eq_dec q p) as [->|N].
    + rewrite !upd_eq. split; [auto|]. split; [auto|]. split; [rewrite in_without; tauto|]. split.
      * unfold opt_is. destruct (i_wr s) as [w|]; [|discriminate]. destruct (Z.eqb_spec w p); congruence.
      * intros u U. unfold idle. icbn. rewrite U, Z.eqb_refl. auto.
    + rewrite !upd_neq in * by auto. destruct (drop_lock_others s p q N) as [L1 L2]. icbn. rewrite L1, L2.
      destruct (V6 q H) as (? & ? & ? & ? & D). repeat split; auto. intros u U. unfold idle. icbn. destruct (proc u =? p); auto. apply D; auto.
Qed.

Lemma inv_run : forall s t fail, inv s -> i_alive s (proc t) = true -> inv (i_run s t fail).
Proof.
  intros s t fail V A. pose proof (v_pok s V t) as PK. unfold pok in PK. unfold i_run.
  assert (OT : busy (i_pc s t) -> forall u, proc u = proc t -> u <> t -> i_pc s u = IIdle).
  { intros B u U N. apply (v_one s V t u); auto. }
  destruct (i_pc s t) eqn:PC; try (specialize (OT I)).
  - exact V.
  - (* IOpenX *) destruct PK as [F M]. destruct fail; [|destruct (i_exists s)].
    + apply (inv_local s _ t IIdle); auto; icbn; rewrite ?upd_eq, ?M; auto; try (apply V); try discriminate.
      * intros q Q. rewrite !upd_neq by auto. auto.
      * tauto.
      * unfold pok. icbn. rewrite upd_eq. exact I.
    + apply (inv_local s _ t IOpen); auto; icbn; rewrite ?upd_eq, ?M; auto; try (apply V); try discriminate.
      * intros q Q. rewrite !upd_neq by auto. auto.
      * tauto.
      * unfold pok. icbn. rewrite !upd_eq. auto using in_eq.
    + apply (inv_local s _ t ICWrite); auto; icbn; rewrite ?upd_eq, ?M; auto; try (apply V); try discriminate.
      * intros q Q. rewrite !upd_neq by auto. auto.
      * tauto.
      * unfold pok. icbn. rewrite !upd_eq. auto using in_eq.
      * intro X. exfalso. apply X. exact I.
  - (* IOpen *) destruct PK as [F M]. destruct fail.
    + apply (inv_local s _ t IIdle); auto; icbn; rewrite ?upd_eq, ?M; auto; try (apply V); try discriminate.
      * intros q Q. rewrite !upd_neq by auto. auto.
      * tauto.
      * unfold pok. icbn. rewrite upd_eq. exact I.
    + apply (inv_local s _ t (IWrite 0)); auto; icbn; rewrite ?upd_eq, ?M; auto; try (apply V); try discriminate.
      * intros q Q. rewrite !upd_neq by auto. auto.
      * tauto.
      * unfold pok. icbn. rewrite !upd_eq. auto using in_eq.
      * intro X. exfalso. apply X. exact I.
  - (* IWrite *) destruct PK as [F M]. destruct (n <? 100).
    + destruct (can_write s (proc t)) eqn:C; cbn [andb]; [destruct (negb fail)|].
      * apply (inv_local s _ t ITrunc); auto; icbn; auto; try (intros; congruence).
        -- intros q Q. apply lock_write_others; auto.
        -- intros. apply can_write_rd; auto.
        -- unfold pok. icbn. rewrite !upd_eq. auto using in_eq.
        -- intro X. exfalso. apply X. exact I.
      * apply (inv_local s _ t (IRead n)); auto; icbn; auto; try (apply V); try tauto; try (intros; congruence).
        -- unfold pok. icbn. rewrite !upd_eq. auto using in_eq.
        -- intro X. exfalso. apply X. exact I.
      * apply (inv_local s _ t (IRead n)); auto; icbn; auto; try (apply V); try tauto; try (intros; congruence).
        -- unfold pok. icbn. rewrite !upd_eq. auto using in_eq.
        -- intro X. exfalso. apply X. exact I.
    + apply (inv_local s _ t (IDet1 false)); auto; icbn; auto; try (apply V); try tauto; try (intros; congruence).
      -- unfold pok. icbn. rewrite !upd_eq. auto using in_eq.
      -- intro X. exfalso. apply X. exact I.
  - (* IRead *) destruct PK as [F M]. destruct (can_read s (proc t)) eqn:C; cbn [andb]; [destruct (negb fail)|].
    + apply (inv_local s _ t IAttach); auto; icbn; auto; try (intros; congruence).
      * intros q Q. apply (lock_read_others s (proc t) q); auto.
      * intros p W. pose proof (lock_read_wr s (proc t) C) as LW. icbn. congruence.
      * unfold pok. icbn. rewrite !upd_eq. auto using in_eq.
      * intro X. exfalso. apply X. exact I.
    + apply (inv_local s _ t (IWrite (n + 1))); auto; icbn; auto; try (apply V); try tauto; try (intros; congruence).
      * unfold pok. icbn. rewrite !upd_eq. auto using in_eq.
      * intro X. exfalso. apply X. exact I.
    + apply (inv_local s _ t (IWrite (n + 1))); auto; icbn; auto; try (apply V); try tauto; try (intros; congruence).
      * unfold pok. icbn. rewrite !upd_eq. auto using in_eq.
      * intro X. exfalso. apply X. exact I.
  - (* IAttach *) destruct PK as (F & M & R). rewrite M, F. cbn [negb orb].
    assert (D : inv (goto s t (IDet1 false))).
    { apply (inv_local s _ t (IDet1 false)); auto; icbn; auto; try (apply V); try tauto; try (intros; congruence).
      - unfold pok. icbn. rewrite !upd_eq. auto using in_eq.
      - intro X. exfalso. apply X. exact I. }
    assert (W : inv (goto (set_map s (proc t) true) t IWorker)).
    { apply (inv_local s _ t IWorker); auto; icbn; auto; try (apply V); try tauto; try (intros; congruence).
      - intros q Q. rewrite !upd_neq by auto. auto.
      - unfold pok. icbn. rewrite !upd_eq. auto using in_eq.
      - intro X. exfalso. apply X. exact I. }
    destruct fail; auto. destruct (i_file s); auto. apply inv_die; auto.
  - (* ICWrite *) destruct PK as [F M]. destruct (can_write s (proc t)) eqn:C; cbn [andb]; [destruct (negb fail)|].
    + apply (inv_local s _ t ITrunc); auto; icbn; auto; try (intros; congruence).
      * intros q Q. apply lock_write_others; auto.
      * intros. apply can_write_rd; auto.
      * unfold pok. icbn. rewrite !upd_eq. auto using in_eq.
      * intro X. exfalso. apply X. exact I.
    + apply (inv_local s _ t IClose); auto; icbn; auto; try (apply V); try tauto; try (intros; congruence).
      * unfold pok. icbn. rewrite !upd_eq. auto using in_eq.
      * intro X. exfalso. apply X. exact I.
    + apply (inv_local s _ t IClose); auto; icbn; auto; try (apply V); try tauto; try (intros; congruence).
      * unfold pok. icbn. rewrite !upd_eq. auto using in_eq.
      * intro X. exfalso. apply X. exact I.
  - (* IClose *) destruct PK as [F M].
    apply (inv_local s _ t IIdle); auto; icbn; rewrite ?upd_eq, ?M; auto; try discriminate.
    + intros q Q. rewrite !upd_neq by auto. auto.
    + intros q Q. apply (drop_lock_others s (proc t) q); auto.
    + apply (drop_lock_excl s (proc t)). apply V.
    + unfold pok. icbn. rewrite upd_eq. exact I.
  - (* ITrunc *) destruct PK as (F & M & W). rewrite F. cbn [negb orb]. destruct fail.
    + apply (inv_local s _ t (IDet1 false)); auto; icbn; auto; try (apply V); try tauto; try (intros; congruence).
      * unfold pok. icbn. rewrite !upd_eq. auto using in_eq.
      * intro X. exfalso. apply X. exact I.
    + apply (inv_local s _ t IFill); auto; icbn; auto; try (apply V); try tauto; try (intros; congruence).
      * unfold pok. icbn. rewrite !upd_eq. auto using in_eq.
      * intro X. exfalso. apply X. exact I.
  - destruct PK as (F & M & W). rewrite F. cbn [negb orb]. destruct fail.
    + apply (inv_local s _ t (IDet1 false)); auto; icbn; auto; try (apply V); try tauto; try (intros; congruence).
      * unfold pok. icbn. rewrite !upd_eq. auto using in_eq.
      * intro X. exfalso. apply X. exact I.
    + apply (inv_local s _ t IMap); auto; icbn; auto; try (apply V); try tauto; try (intros; congruence).
      * unfold pok. icbn. rewrite !upd_eq. auto using in_eq.
      * intro X. exfalso. apply X. exact I.
  - destruct PK as (F & M & W). rewrite F. cbn [negb orb]. destruct fail.
    + apply (inv_local s _ t (IDet1 false)); auto; icbn; auto; try (apply V); try tauto; try (intros; congruence).
      * unfold pok. icbn. rewrite !upd_eq. auto using in_eq.
      * intro X. exfalso. apply X. exact I.
    + apply (inv_local s _ t IHead); auto; icbn; auto; try (apply V); try tauto; try (intros; congruence).
      * intros q Q. rewrite !upd_neq by auto. auto.
      * unfold pok. icbn. rewrite !upd_eq. auto using in_eq.
      * intro X. exfalso. apply X. exact I.
  - destruct PK as (F & M & W).
    apply (inv_local s _ t ILists); auto; icbn; auto; try (apply V); try tauto; try (intros; congruence).
    + unfold pok. icbn. rewrite !upd_eq. auto using in_eq.

  - destruct PK as (F & M & W).
    apply (inv_local s _ t IDown); auto; icbn; auto; try (apply V); try tauto; try (intros; congruence).
    + unfold pok. icbn. rewrite !upd_eq. auto using in_eq.

  - destruct PK as (F & M & W). destruct (can_read s (proc t)) eqn:C; cbn [andb]; [destruct (negb fail)|].
    + apply (inv_local s _ t IWorker); auto; icbn; auto; try (intros; congruence).
      * intros q Q. apply (lock_read_others s (proc t) q); auto.
      * intros p W'. pose proof (lock_read_wr s (proc t) C) as LW. icbn. congruence.
      * unfold pok. icbn. rewrite !upd_eq. auto using in_eq.
      * intros _. right. left. left. auto.
    + apply (inv_local s _ t (IDet1 false)); auto; icbn; auto; try (apply V); try tauto; try (intros; congruence).
      * unfold pok. icbn. rewrite !upd_eq. auto using in_eq.

    + apply (inv_local s _ t (IDet1 false)); auto; icbn; auto; try (apply V); try tauto; try (intros; congruence).
      * unfold pok. icbn. rewrite !upd_eq. auto using in_eq.

  - (* IWorker *) destruct PK as (F & M & R). destruct fail; [|unfold done; destruct (i_use s t)].
    + apply (inv_local s _ t (IDet1 false)); auto; icbn; auto; try (apply V); try tauto; try (intros; congruence).
      * unfold pok. icbn. rewrite !upd_eq. auto using in_eq.

    + apply (inv_local s _ t IUse); auto; icbn; auto; try (apply V); try tauto; try (intros; congruence).
      * unfold pok. icbn. rewrite !upd_eq. auto using in_eq.

    + apply (inv_local s _ t IIdle); auto; icbn; auto; try (apply V); try tauto; try (intros; congruence).
      * unfold pok. icbn. rewrite !upd_eq. auto using in_eq.

  - (* IDet1 *)
    apply (inv_local s _ t (IDet2 r)); auto; icbn; rewrite ?upd_eq; auto; try (apply V); try tauto; try discriminate.
    + intros q Q. rewrite !upd_neq by auto. auto.
    + unfold pok. icbn. rewrite !upd_eq. auto using in_eq.
    + intro X. exfalso. apply X. exact I.
  - destruct PK as (F & M). rewrite F.
    apply (inv_local s _ t (IDet3 r)); auto; icbn; rewrite ?upd_eq, ?M; auto; try discriminate.
    + intros q Q. apply (drop_lock_others s (proc t) q); auto.
    + apply (drop_lock_excl s (proc t)). apply V.
    + unfold pok. icbn. rewrite upd_eq. auto.
    + intro X. exfalso. apply X. exact I.
  - destruct PK as (F & M). rewrite F.
    apply (inv_local s _ t IIdle); auto; icbn; rewrite ?upd_eq, ?M; auto; try discriminate.
    + intros q Q. rewrite !upd_neq by auto. auto.
    + intros q Q. apply (drop_lock_others s (proc t) q); auto.
    + apply (drop_lock_excl s (proc t)). apply V.
    + unfold pok. icbn. rewrite upd_eq. auto.
  - (* IUse *) destruct PK as (F & M). rewrite M. destruct V as [V1 V2 V3 V4 V5 V6]. constructor; icbn; auto.
    + intros a b E N B. destruct (Z.eq_dec a t) as [->|Na]; [rewrite upd_eq in B; contradiction|]. rewrite upd_neq in B by auto.
      destruct (Z.eq_dec b t) as [->|Nb]; [rewrite upd_eq; auto | rewrite upd_neq by auto; eapply V1; eauto].
    + intro a. specialize (V2 a). unfold pok in *. icbn. destruct (Z.eq_dec a t) as [->|Na]; [rewrite upd_eq; exact I | rewrite upd_neq by auto; auto].
    + intros p H. apply V3. intros u U. specialize (H u U). destruct (Z.eq_dec u t) as [->|Nu]; [rewrite PC; auto | rewrite upd_neq in H by auto; auto].
    + intros p H. destruct (V6 p H) as (? & ? & ? & ? & D). repeat split; auto. intros u U. unfold idle. icbn.
      destruct (Z.eq_dec u t) as [->|Nu]; [rewrite upd_eq; auto | rewrite upd_neq by auto; apply D; auto].
Qed.

Lemma inv_step : forall s x, inv s -> one_at_a_time s x -> inv (i_step s x).
Proof.
  intros s x V OK. destruct x as [p|p|t q|t c|t fail]; cbn [i_step].
  - destruct (i_alive s p) eqn:A; auto. destruct V as [V1 V2 V3 V4 V5 V6]. constructor; icbn; auto.
    intros q H. destruct (Z.eq_dec q p) as [->|N]; [rewrite upd_eq in H; discriminate|]. rewrite upd_neq in H by auto. apply V6; auto.
  - destruct (i_alive s p); auto. apply inv_die; auto.
  - destruct (i_alive s (proc t)) eqn:A; auto. destruct (i_alive s q) eqn:B; auto. cbn [negb andb]. destruct (i_pc s t) eqn:PC; auto.
    cbn [one_at_a_time] in OK. destruct V as [V1 V2 V3 V4 V5 V6]. destruct (V6 q B) as (D1 & D2 & D3 & D4 & D5).
    assert (NQ : proc t <> q) by congruence.
    constructor; icbn; auto.
    + intro a. specialize (V2 a). unfold pok in *. icbn. destruct (Z.eq_dec (proc a) q) as [E|N]; [unfold all_idle, idle in D5; rewrite D5 by exact E; exact I|].
      rewrite !upd_neq by auto. auto.
    + intros p H. destruct (Z.eq_dec p q) as [->|N]; [rewrite !upd_eq; apply V3; intros u U; rewrite OK; auto|]. rewrite !upd_neq by auto. auto.
    + intros p H. destruct (Z.eq_dec p q) as [->|N]; [rewrite upd_eq in *; auto|]. rewrite !upd_neq in * by auto. auto.
    + intros p H. destruct (Z.eq_dec p q) as [->|N]; [rewrite upd_eq in H; discriminate|]. rewrite !upd_neq in * by auto. apply V6; auto.
  - destruct (i_alive s (proc t)) eqn:A; auto. destruct (i_pc s t) eqn:PC; auto.
    assert (RT : forall b, inv (ret s t b)).
    { intro b. destruct V as [V1 V2 V3 V4 V5 V6]. assert (E : forall a, upd (i_pc s) t IIdle a = i_pc s a).
      { intro a. destruct (Z.eq_dec a t) as [->|N]; [rewrite upd_eq; auto | rewrite upd_neq by auto; auto]. }
      constructor; icbn; auto.
      - intros a c' E' N B. rewrite E in *. eapply V1; eauto.
      - intro a. specialize (V2 a). unfold pok in *. icbn. rewrite E. auto.
      - intros p H. apply V3. intros u U. rewrite <- E. apply H; auto.
      - intros p H. destruct (V6 p H) as (? & ? & ? & ? & D). repeat split; auto. intros u U. unfold idle. icbn. rewrite E. apply D; auto. }
    assert (ST : forall b, all_idle s (proc t) -> i_fd s (proc t) = false -> inv (goto (set_use s t b) t IOpenX)).
    { intros b AI F. assert (M : i_map s (proc t) = false).
      { rewrite <- (v_calm s V (proc t)); auto. intros u U. rewrite (AI u U). auto. }
      apply (inv_local s _ t IOpenX); auto; icbn; rewrite ?M; auto; try (apply V); try tauto; try discriminate.
      - intros u U _. apply AI; auto.
      - unfold pok. icbn. rewrite upd_eq. auto. }
    destruct c as [| |retry]; cbn [i_call one_at_a_time] in *; destruct (i_fd s (proc t)) eqn:F; auto.
    + assert (M : i_map s (proc t) = true).
      { rewrite <- (v_calm s V (proc t)); auto. intros u U. rewrite (OK u U). auto. }
      apply (inv_local s _ t (IDet1 true)); auto; icbn; auto; try (apply V); try tauto; try (intros; congruence).
      * intros u U _. apply OK; auto.
      * unfold pok. icbn. rewrite !upd_eq. auto using in_eq.
    + (* CUse, attached *)
      assert (NB : forall u, proc u = proc t -> ~ busy (i_pc s u)). { intros u U. destruct (OK u U) as [X|X]; unfold idle in *; rewrite X; auto. }
      assert (M : i_map s (proc t) = true) by (rewrite <- (v_calm s V (proc t)); auto).
      destruct V as [V1 V2 V3 V4 V5 V6]. constructor; icbn; auto.
      * intros a b E N B. destruct (Z.eq_dec a t) as [->|Na]; [rewrite upd_eq in B; contradiction|]. rewrite upd_neq in B by auto.
        destruct (Z.eq_dec b t) as [->|Nb]; [exfalso; eapply NB; eauto | rewrite upd_neq by auto; eapply V1; eauto].
      * intro a. specialize (V2 a). unfold pok in *. icbn. destruct (Z.eq_dec a t) as [->|Na]; [rewrite upd_eq; auto | rewrite upd_neq by auto; auto].
      * intros p H. apply V3. intros u U. specialize (H u U). destruct (Z.eq_dec u t) as [->|Nu]; [apply NB; auto | rewrite upd_neq in H by auto; auto].
      * intros p H. destruct (V6 p H) as (? & ? & ? & ? & D). repeat split; auto. intros u U. unfold idle. icbn.
        destruct (Z.eq_dec u t) as [->|Nu]; [congruence | rewrite upd_neq by auto; apply D; auto].
    + destruct retry; auto.
  - destruct (i_alive s (proc t)) eqn:A; auto. apply inv_run; auto.
Qed.

Lemma reach_inv : forall (ok : istate -> ilabel -> Prop) s, (forall s x, ok s x -> one_at_a_time s x) -> i_reach ok s -> inv s.
Proof. intros ok s H R. induction R; [apply inv_init | apply inv_step; auto]. Qed.
