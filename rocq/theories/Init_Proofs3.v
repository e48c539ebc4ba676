(** Between calls a process has everything or nothing; what a detach leaves behind. *)
From Coq Require Import ZArith List Bool Lia.
From Verif Require Import Base Init_Model Init_Spec Init_Proofs.
Import ListNotations.
Open Scope Z_scope.

Definition writing (x : ipc) : Prop :=
  match x with ITrunc | IFill | IMap | IHead | ILists | IDown | IDet1 _ | IDet2 _ => True | _ => False end.

Definition nolock (s : istate) (p : Z) : Prop := ~ In p (i_rd s) /\ i_wr s <> Some p.

Record invl (s : istate) : Prop := mkL {
  l_fd : forall p, i_fd s p = false -> nolock s p;
  l_wr : forall p, i_wr s = Some p -> exists t, proc t = p /\ writing (i_pc s t) }.

Lemma invl_init : invl i_init.
Proof. constructor; cbn; intros; try discriminate. split; auto. discriminate. Qed.

(** nothing changes but the program counter of a thread that was not writing *)
Lemma invl_same : forall s s' t x, invl s -> ~ writing (i_pc s t) -> i_pc s' = upd (i_pc s) t x ->
  i_fd s' = i_fd s -> i_rd s' = i_rd s -> i_wr s' = i_wr s -> invl s'.
Proof.
  intros s s' t x [A B] N P F R W. constructor; unfold nolock; rewrite ?F, ?R, ?W; auto.
  intros p E. destruct (B p E) as (u & U & V). exists u. split; auto. rewrite P, upd_neq; auto. intros ->. contradiction.
Qed.

(** a step of thread [t] that touches only its own process *)
Lemma invl_local : forall s s' t x, invl s -> i_pc s' = upd (i_pc s) t x ->
  (forall q, q <> proc t -> i_fd s' q = i_fd s q /\ (In q (i_rd s') <-> In q (i_rd s)) /\ (i_wr s' = Some q <-> i_wr s = Some q)) ->
  (i_fd s' (proc t) = false -> nolock s' (proc t)) -> (i_wr s' = Some (proc t) -> writing x) -> invl s'.
Proof.
  intros s s' t x [A B] P O F W. constructor.
  - intros p E. destruct (Z.eq_dec p (proc t)) as [->|N]; auto. destruct (O p N) as (O1 & O2 & O3).
    rewrite O1 in E. destruct (A p E) as [A1 A2]. split; [rewrite O2|rewrite O3]; auto.
  - intros p E. destruct (Z.eq_dec p (proc t)) as [->|N].
    + exists t. split; auto. rewrite P, upd_eq. auto.
    + destruct (O p N) as (_ & _ & O3). apply O3 in E. destruct (B p E) as (u & U & V). exists u. split; auto.
      rewrite P, upd_neq; auto. intros ->. auto.
Qed.

Lemma nolock_drop : forall s p, nolock (drop_lock s p) p.
Proof.
  intros s p. unfold nolock, drop_lock. cbn. split; [rewrite in_without; tauto|].
  unfold opt_is. destruct (i_wr s) as [q|]; [|discriminate]. destruct (Z.eqb_spec q p); [discriminate|congruence].
Qed.

Lemma invl_die : forall s p c, invl s -> invl (die s p c).
Proof.
  intros s p c [A B]. constructor; unfold die; cbn.
  - intros q E. destruct (Z.eq_dec q p) as [->|N]; [apply nolock_drop|]. rewrite upd_neq in E by auto.
    destruct (A q E) as [A1 A2]. destruct (drop_lock_others s p q N) as [D1 D2]. split; cbn; [intro X; apply A1, D1; exact X|intro X; apply A2, D2; exact X].
  - intros q E. destruct (Z.eq_dec q p) as [->|N]; [exfalso; apply (nolock_drop s p); exact E|].
    destruct (drop_lock_others s p q N) as [D1 D2]. apply D2 in E. destruct (B q E) as (u & U & V). exists u. split; auto.
    rewrite U. destruct (Z.eqb_spec q p); [contradiction|auto].
Qed.

Lemma invl_run : forall s t fail, inv s -> invl s -> i_alive s (proc t) = true -> invl (i_run s t fail).
Proof.
  intros s t fail V L A. pose proof (v_pok s V t) as PK. unfold pok in PK. unfold i_run.
  assert (WT : busy (i_pc s t) -> i_wr s = Some (proc t) -> writing (i_pc s t)).
  { intros B W. destruct (l_wr s L _ W) as (u & U & X). destruct (Z.eq_dec u t) as [->|N]; auto.
    rewrite (v_one s V t u) in X; auto. contradiction. }
  pose proof (l_fd s L (proc t)) as LF.
  (* locks and descriptor unchanged *)
  assert (K : forall s' x, busy (i_pc s t) -> (writing (i_pc s t) -> writing x) -> i_pc s' = upd (i_pc s) t x ->
     i_fd s' = i_fd s -> i_rd s' = i_rd s -> i_wr s' = i_wr s -> invl s').
  { intros s' x B W P F R Wr. apply (invl_local s s' t x); auto.
    - intros q Q. rewrite F, R, Wr. tauto.
    - unfold nolock. rewrite F, R, Wr. exact LF.
    - rewrite Wr. auto. }
  (* the descriptor becomes valid or stays invalid while there is no lock *)
  assert (KF : forall s' x b, busy (i_pc s t) -> ~ writing (i_pc s t) -> i_fd s (proc t) = false -> i_pc s' = upd (i_pc s) t x ->
     i_fd s' = upd (i_fd s) (proc t) b -> i_rd s' = i_rd s -> i_wr s' = i_wr s -> invl s').
  { intros s' x b B W F0 P F R Wr. apply (invl_local s s' t x); auto.
    - intros q Q. rewrite F, R, Wr, upd_neq by auto. tauto.
    - intros _. unfold nolock. rewrite R, Wr. apply LF; auto.
    - rewrite Wr. intro X. elim W. auto. }
  assert (KW : forall x, can_write s (proc t) = true -> i_fd s (proc t) = true -> writing x -> invl (goto (lock_write s (proc t)) t x)).
  { intros x C F W. apply (invl_local s _ t x); auto; cbn.
    - intros q Q. split; auto. apply (lock_write_others s (proc t) q); auto.
    - intro X. congruence. }
  assert (KR : forall x, can_read s (proc t) = true -> i_fd s (proc t) = true -> invl (goto (lock_read s (proc t)) t x)).
  { intros x C F. pose proof (lock_read_wr s (proc t) C) as LW. apply (invl_local s _ t x); auto; cbn.
    - intros q Q. split; auto. apply (lock_read_others s (proc t) q); auto.
    - intro X. congruence.
    - cbn in LW. rewrite LW. discriminate. }
  assert (KD : forall s' x, i_pc s' = upd (i_pc s) t x -> (forall q, q <> proc t -> i_fd s' q = i_fd s q) ->
     i_rd s' = i_rd (drop_lock s (proc t)) -> i_wr s' = i_wr (drop_lock s (proc t)) -> invl s').
  { intros s' x P F R W. pose proof (nolock_drop s (proc t)) as [D1 D2]. apply (invl_local s s' t x); auto.
    - intros q Q. split; auto. rewrite R, W. apply (drop_lock_others s (proc t) q); auto.
    - intros _. unfold nolock. rewrite R, W. auto.
    - rewrite W. intro X. contradiction. }
  destruct (i_pc s t) eqn:PC.
  - exact L.
  - destruct PK as [F M]. destruct fail; [|destruct (i_exists s)].
    + apply (KF _ IIdle false); auto; cbn; auto.
    + apply (KF _ IOpen false); auto; cbn; auto.
    + apply (KF _ ICWrite true); auto; cbn; auto.
  - destruct PK as [F M]. destruct fail.
    + apply (KF _ IIdle false); auto; cbn; auto.
    + apply (KF _ (IWrite 0) true); auto; cbn; auto.
  - destruct PK as [F M]. destruct (n <? 100); [|apply (K _ (IDet1 false)); cbn; auto].
    destruct (can_write s (proc t)) eqn:C; cbn [andb]; [destruct (negb fail)|].
    + apply KW; auto. exact I.
    + apply (K _ (IRead n)); cbn; auto.
    + apply (K _ (IRead n)); cbn; auto.
  - destruct PK as [F M]. destruct (can_read s (proc t)) eqn:C; cbn [andb]; [destruct (negb fail)|].
    + apply KR; auto.
    + apply (K _ (IWrite (n + 1))); cbn; auto.
    + apply (K _ (IWrite (n + 1))); cbn; auto.
  - destruct PK as (F & M & R). rewrite M, F. cbn [negb orb].
    assert (D : invl (goto s t (IDet1 false))) by (apply (K _ (IDet1 false)); cbn; auto).
    destruct fail; auto. destruct (i_file s); auto; [apply invl_die; auto| |]; apply (K _ IWorker); cbn; auto.
  - destruct PK as [F M]. destruct (can_write s (proc t)) eqn:C; cbn [andb]; [destruct (negb fail)|].
    + apply KW; auto. exact I.
    + apply (K _ IClose); cbn; auto.
    + apply (K _ IClose); cbn; auto.
  - apply (KD _ IIdle); cbn; auto. intros q Q. now rewrite upd_neq.
  - destruct PK as (F & M & W). rewrite F. cbn [negb orb]. destruct fail; [apply (K _ (IDet1 false))|apply (K _ IFill)]; cbn; auto.
  - destruct PK as (F & M & W). rewrite F. cbn [negb orb]. destruct fail; [apply (K _ (IDet1 false))|apply (K _ IMap)]; cbn; auto.
  - destruct PK as (F & M & W). rewrite F. cbn [negb orb]. destruct fail; [apply (K _ (IDet1 false))|apply (K _ IHead)]; cbn; auto.
  - apply (K _ ILists); cbn; auto.
  - apply (K _ IDown); cbn; auto.
  - destruct PK as (F & M & W). destruct (can_read s (proc t)) eqn:C; cbn [andb]; [destruct (negb fail)|].
    + apply KR; auto.
    + apply (K _ (IDet1 false)); cbn; auto.
    + apply (K _ (IDet1 false)); cbn; auto.
  - destruct PK as (F & M & R). destruct fail; [|unfold done; destruct (i_use s t)].
    + apply (K _ (IDet1 false)); cbn; auto.
    + apply (K _ IUse); cbn; auto.
    + apply (K _ IIdle); cbn; auto.
  - apply (K _ (IDet2 r)); cbn; auto.
  - destruct PK as [F M]. rewrite F. apply (KD _ (IDet3 r)); cbn; auto.
  - destruct PK as [F M]. rewrite F. apply (KD _ IIdle); cbn; auto. intros q Q. now rewrite upd_neq.
  - destruct PK as [F M]. rewrite M. apply (invl_same s _ t IIdle); auto. rewrite PC. auto.
Qed.

Lemma invl_step : forall s x, inv s -> invl s -> invl (i_step s x).
Proof.
  intros s x V L. destruct x as [p|p|t q|t c|t fail]; cbn [i_step].
  - destruct (i_alive s p); auto. destruct L as [A B]. constructor; auto.
  - destruct (i_alive s p); auto. apply invl_die; auto.
  - destruct (i_alive s (proc t)) eqn:A; auto. destruct (i_alive s q) eqn:B; auto. cbn [negb andb]. destruct (i_pc s t) eqn:PC; auto.
    destruct (v_dead s V q B) as (_ & _ & D1 & D2 & _). destruct L as [L1 L2]. constructor; unfold nolock; cbn; auto.
    intros p E. destruct (Z.eq_dec p q) as [->|N]; auto. rewrite upd_neq in E by auto. apply L1; auto.
  - destruct (i_alive s (proc t)) eqn:A; auto. destruct (i_pc s t) eqn:PC; auto.
    assert (N : ~ writing (i_pc s t)) by (rewrite PC; auto).
    destruct c as [| |retry]; cbn [i_call]; destruct (i_fd s (proc t)); try (destruct retry);
      eapply (invl_same s _ t); try exact N; auto; reflexivity.
  - destruct (i_alive s (proc t)) eqn:A; auto. apply invl_run; auto.
Qed.

Lemma reach_invl : forall s, i_reach one_at_a_time s -> inv s /\ invl s.
Proof.
  intros s R. induction R as [|s x R [IH1 IH2] O]; [split; [apply inv_init|apply invl_init]|].
  split; [apply inv_step|apply invl_step]; auto.
Qed.

(** ** A detach *)
Definition gone (s : istate) (p : Z) : Prop := i_map s p = false /\ i_fd s p = false /\ nolock s p.

Lemma calm_all : forall s p, inv s -> invl s -> all_idle s p ->
  gone s p \/ (i_map s p = true /\ i_fd s p = true /\ i_wr s <> Some p /\ (In p (i_rd s) \/ i_inh s p = true)).
Proof.
  intros s p V L AI.
  assert (E : i_fd s p = i_map s p) by (apply (v_calm s V); intros u U; rewrite (AI u U); auto).
  assert (NW : i_wr s <> Some p).
  { intro W. destruct (l_wr s L p W) as (u & U & X). rewrite (AI u U) in X. exact X. }
  destruct (i_map s p) eqn:M.
  - right. repeat split; auto. destruct (v_lock s V p M) as [X|[X|X]]; auto.
  - left. split; [|split]; auto. apply (l_fd s L); auto.
Qed.

(** thread [t] is detaching, or has finished *)
Definition det_st (s : istate) (t : Z) : Prop :=
  match i_pc s t with
  | IDet1 r => r = true
  | IDet2 r => r = true
  | IDet3 r => r = true /\ nolock s (proc t)
  | IIdle => i_res s t = Some true /\ gone s (proc t)
  | _ => False
  end.

(** what other processes do leaves process [p] as it is *)
Lemma frame_run : forall s u fail p, proc u <> p ->
  (forall t, proc t = p -> i_pc (i_run s u fail) t = i_pc s t /\ i_res (i_run s u fail) t = i_res s t) /\
  i_map (i_run s u fail) p = i_map s p /\ i_fd (i_run s u fail) p = i_fd s p /\ i_alive (i_run s u fail) p = i_alive s p /\
  (nolock s p -> nolock (i_run s u fail) p).
Proof.
  intros s u fail p N.
  assert (T : forall t, proc t = p -> t <> u) by (intros t E ->; contradiction).
  assert (DL : nolock s p -> nolock (drop_lock s (proc u)) p).
  { intros [A B]. destruct (drop_lock_others s (proc u) p) as [D1 D2]; auto. split; [rewrite D1|rewrite D2]; auto. }
  assert (DI : (forall t, proc t = p -> i_pc (die s (proc u) true) t = i_pc s t /\ i_res (die s (proc u) true) t = i_res s t) /\
    i_map (die s (proc u) true) p = i_map s p /\ i_fd (die s (proc u) true) p = i_fd s p /\ i_alive (die s (proc u) true) p = i_alive s p /\
    (nolock s p -> nolock (die s (proc u) true) p)).
  { unfold die. cbn. rewrite !upd_neq by auto. repeat split; auto; try (apply DL; auto).
    destruct (Z.eqb_spec (proc t) (proc u)); [congruence|auto]. }
  assert (LW : can_write s (proc u) = true -> nolock s p -> nolock (lock_write s (proc u)) p).
  { intros C [A B]. destruct (lock_write_others s (proc u) p) as [D1 D2]; auto. split; [rewrite D1|rewrite D2]; auto. }
  assert (LR : nolock s p -> nolock (lock_read s (proc u)) p).
  { intros [A B]. destruct (lock_read_others s (proc u) p) as [D1 D2]; auto. split; [rewrite D1|rewrite D2]; auto. }
  assert (SM : forall s' x, i_pc s' = upd (i_pc s) u x -> (forall t, t <> u -> i_res s' t = i_res s t) -> i_map s' p = i_map s p -> i_fd s' p = i_fd s p ->
    i_alive s' = i_alive s -> (nolock s p -> nolock s' p) ->
    (forall t, proc t = p -> i_pc s' t = i_pc s t /\ i_res s' t = i_res s t) /\
    i_map s' p = i_map s p /\ i_fd s' p = i_fd s p /\ i_alive s' p = i_alive s p /\ (nolock s p -> nolock s' p)).
  { intros s' x P R M F A L. split; [|rewrite A; auto]. intros t E. split; [rewrite P, upd_neq by auto; auto | auto]. }
  assert (DONE : (forall t, proc t = p -> i_pc (done s u) t = i_pc s t /\ i_res (done s u) t = i_res s t) /\
    i_map (done s u) p = i_map s p /\ i_fd (done s u) p = i_fd s p /\ i_alive (done s u) p = i_alive s p /\ (nolock s p -> nolock (done s u) p)).
  { unfold done. destruct (i_use s u); eapply SM; cbn; try reflexivity; auto. intros; now rewrite upd_neq. }
  unfold i_run. destruct (i_pc s u) eqn:PC;
    repeat match goal with
    | |- context [if can_write s ?a && ?b then _ else _] => destruct (can_write s a) eqn:?; cbn [andb]
    | |- context [if ?b then _ else _] => destruct b
    | |- context [match i_file s with _ => _ end] => destruct (i_file s)
    end; try exact DI; try exact DONE; try (split; [intros; split; reflexivity|auto]; fail);
    eapply SM; cbn; try reflexivity; auto; try (intros; now rewrite upd_neq); try (now rewrite upd_neq by auto);
    try (intro X; apply DL in X; exact X); try (intro X; apply LR in X; exact X); try (intro X; apply LW in X; auto; exact X).
Qed.

Lemma frame_other : forall s x p, elsewhere p x ->
  (forall t, proc t = p -> i_pc (i_step s x) t = i_pc s t /\ i_res (i_step s x) t = i_res s t) /\
  i_map (i_step s x) p = i_map s p /\ i_fd (i_step s x) p = i_fd s p /\ i_alive (i_step s x) p = i_alive s p /\
  (nolock s p -> nolock (i_step s x) p).
Proof.
  intros s x p E. destruct x as [q|q|u q|u c|u fail]; cbn [i_step elsewhere] in *.
  - destruct (i_alive s q); [auto 8|]. cbn. rewrite upd_neq by auto. auto 8.
  - destruct (i_alive s q); [|auto 8]. unfold die. cbn. rewrite !upd_neq by auto.
    split; [intros t T; destruct (Z.eqb_spec (proc t) q); [congruence|auto]|]. repeat split; auto.
    + destruct H as [A B]. destruct (drop_lock_others s q p) as [D1 D2]; auto. intro X. apply A, D1. exact X.
    + destruct H as [A B]. destruct (drop_lock_others s q p) as [D1 D2]; auto. intro X. apply B, D2. exact X.
  - destruct E as [E1 E2]. destruct (_ && _); [|auto 8]. destruct (i_pc s u); auto 8. cbn. rewrite !upd_neq by auto. auto 8.
  - destruct (i_alive s (proc u)); [|auto 8]. destruct (i_pc s u) eqn:PC; auto 8.
    assert (T : forall t, proc t = p -> t <> u) by (intros t X ->; contradiction).
    destruct c as [| |retry]; cbn [i_call]; destruct (i_fd s (proc u)); try (destruct retry); cbn;
      (split; [intros t X; rewrite !upd_neq by auto; auto|auto]).
  - destruct (i_alive s (proc u)); [|auto 8]. apply frame_run; auto.
Qed.

Lemma det_own : forall s t fail, inv s -> i_alive s (proc t) = true -> det_st s t -> det_st (i_step s (IRun t fail)) t /\
  i_alive (i_step s (IRun t fail)) (proc t) = true.
Proof.
  intros s t fail V A D. pose proof (v_pok s V t) as PK. unfold pok in PK. cbn [i_step]. rewrite A. unfold i_run. assert (D0 := D). unfold det_st in D.
  destruct (i_pc s t) eqn:PC; try contradiction.
  - auto.
  - subst r. unfold det_st. cbn. rewrite upd_eq. auto.
  - subst r. destruct PK as [F M]. rewrite F. unfold det_st. cbn. rewrite upd_eq. split; auto. split; auto.
    apply nolock_drop.
  - destruct D as [-> D]. destruct PK as [F M]. rewrite F. unfold det_st, gone. cbn. rewrite !upd_eq.
    split; auto. split; auto. split; auto. split; auto. apply nolock_drop.
Qed.

Lemma det_path : forall s ls s' t, i_path one_at_a_time s ls s' -> inv s -> i_alive s (proc t) = true -> det_st s t ->
  (forall x, In x ls -> elsewhere (proc t) x \/ exists b, x = IRun t b) -> det_st s' t.
Proof.
  intros s ls s' t P. induction P as [s|s x ls s' O P IH]; intros V A D Q; auto.
  pose proof (inv_step s x V O) as V'.
  destruct (Q x (or_introl eq_refl)) as [E|[b ->]].
  - destruct (frame_other s x (proc t) E) as (F1 & F2 & F3 & F4 & F5). destruct (F1 t eq_refl) as [P1 P2].
    apply IH; auto; [rewrite F4; auto| |intros y Y; apply Q; right; auto].
    unfold det_st, gone in *. rewrite P1, P2, F2, F3. destruct (i_pc s t); auto; tauto.
  - destruct (det_own s t b V A D) as [D' A']. apply IH; auto. intros y Y; apply Q; right; auto.
Qed.
