(** Invariant of the lengths. *)
From Coq Require Import ZArith List Bool Lia.
From Verif Require Import Base List_Model Layout_Model Init_Model Init_Spec Init_Proofs Mlen_Model Mlen_Spec.
Import ListNotations.
Open Scope Z_scope.

Local Opaque sz_total.

Definition made (f : fcont) : Prop := f = FPart \/ f = FReady.

Record minv (s : mstate) : Prop := mkMI {
  j_len : forall p, i_map (m_i s) p = true -> i_inh (m_i s) p = false -> (forall t, proc t = p -> i_pc (m_i s) t <> IHead) ->
          m_len s p = m_head s /\ made (i_file (m_i s));
  j_file : made (i_file (m_i s)) -> m_size s = m_head s /\ m_head s = sz_total (m_by s);
  j_imap : forall t, i_pc (m_i s) t = IMap -> m_size s = sz_total (m_loc s t);
  j_ihead : forall t, i_pc (m_i s) t = IHead -> m_len s (proc t) = sz_total (m_loc s t) /\ m_size s = sz_total (m_loc s t);
  j_ilists : forall t, i_pc (m_i s) t = ILists -> i_file (m_i s) = FPart;
  j_ex : i_exists (m_i s) = false -> forall p, i_fd (m_i s) p = false;
  j_open : forall t, i_pc (m_i s) t = IOpen -> i_exists (m_i s) = true
}.

Lemma minv_init : forall cnt, minv (m_init cnt).
Proof.
  intro cnt. constructor; cbn; try (intros; discriminate); auto. intros [H|H]; discriminate H.
Qed.

(** steps that leave file and lengths alone *)
Lemma minv_same : forall s s', minv s ->
  i_file (m_i s') = i_file (m_i s) -> i_exists (m_i s') = i_exists (m_i s) -> m_size s' = m_size s -> m_head s' = m_head s -> m_by s' = m_by s -> m_loc s' = m_loc s ->
  (forall p, i_map (m_i s') p = true -> i_inh (m_i s') p = false -> i_map (m_i s) p = true /\ i_inh (m_i s) p = false /\ m_len s' p = m_len s p) ->
  (forall p, i_fd (m_i s') p = true -> i_fd (m_i s) p = true \/ i_exists (m_i s) = true \/ exists q, i_fd (m_i s) q = true) ->
  (forall t, i_pc (m_i s') t = IOpen -> i_pc (m_i s) t = IOpen \/ i_exists (m_i s) = true) ->
  (forall t, i_pc (m_i s') t = IMap -> i_pc (m_i s) t = IMap) -> (forall t, i_pc (m_i s') t = ILists -> i_pc (m_i s) t = ILists) ->
  (forall t, i_pc (m_i s') t = IHead -> i_pc (m_i s) t = IHead /\ m_len s' (proc t) = m_len s (proc t)) ->
  (forall t, i_pc (m_i s) t = IHead -> i_pc (m_i s') t = IHead \/ i_map (m_i s') (proc t) = false) -> minv s'.
Proof.
  intros s s' [J1 J2 J3 J4 J5 J6 J7] EF EE ES EH EB EL M FD O1 O2 O3 O4 O5. constructor.
  - intros p MP IP N. destruct (M p MP IP) as (M1 & M2 & M3). rewrite M3, EF, EH. apply J1; auto. intros t T X.
    destruct (O5 t X) as [Y|Y]; [apply (N t T Y) | rewrite T, MP in Y; discriminate Y].
  - rewrite EF, ES, EH, EB. auto.
  - intros t X. rewrite ES, EL. auto.
  - intros t X. rewrite ES, EL. destruct (O4 t X) as [Y ->]. auto.
  - intros t X. rewrite EF. eauto.
  - rewrite EE. intros X p. destruct (i_fd (m_i s') p) eqn:F; auto. destruct (FD p F) as [Y|[Y|[q Y]]]; rewrite ?(J6 X) in Y; congruence.
  - intros t X. rewrite EE. destruct (O1 t X); eauto.
Qed.

Lemma map_fd : forall s p, inv s -> i_map s p = true -> i_fd s p = true.
Proof.
  intros s p V M. destruct (i_fd s p) eqn:F; auto. exfalso.
  assert (NB : forall u, proc u = p -> ~ busy (i_pc s u)).
  { intros u U B. pose proof (v_pok s V u) as K. unfold pok in K. rewrite U in K. destruct (i_pc s u); try contradiction; intuition congruence. }
  rewrite (v_calm s V p NB) in F. congruence.
Qed.

(** thread [t] has the exclusive lock *)
Lemma writer_alone : forall s t q, inv s -> i_wr s = Some (proc t) -> i_map s q = true -> i_inh s q = false -> q = proc t.
Proof.
  intros s t q V W M H. destruct (v_lock s V q M) as [X|[X|X]]; [congruence | rewrite (v_excl s V _ W) in X; contradiction | congruence].
Qed.
Definition wstage (x : ipc) : Prop := match x with ITrunc | IFill | IMap | IHead | ILists | IDown => True | _ => False end.
Lemma wstage_wr : forall s t, inv s -> wstage (i_pc s t) -> i_wr s = Some (proc t).
Proof. intros s t V W. pose proof (v_pok s V t) as K. unfold pok in K. destruct (i_pc s t); try contradiction; tauto. Qed.
Lemma writer_only : forall s t u, inv s -> wstage (i_pc s t) -> u <> t -> ~ wstage (i_pc s u).
Proof.
  intros s t u V W N X. pose proof (wstage_wr s t V W) as A. pose proof (wstage_wr s u V X) as B.
  assert (E : proc t = proc u) by congruence.
  assert (I : i_pc s u = IIdle). { apply (v_one s V t u); auto. destruct (i_pc s t); try contradiction; exact I. }
  rewrite I in X. contradiction.
Qed.
Lemma stage_other : forall s t u (x : ipc), inv s -> wstage (i_pc s t) -> u <> t -> i_pc s u = x -> wstage x -> False.
Proof. intros s t u x V W N <- X. eapply writer_only; eauto. Qed.

Ltac pcs t := match goal with
  | |- context [upd _ t _ ?u] => destruct (Z.eq_dec u t) as [->|?]; [rewrite ?upd_eq in * | rewrite ?upd_neq in * by auto]
  | H : context [upd _ t _ ?u] |- _ => destruct (Z.eq_dec u t) as [->|?]; [rewrite ?upd_eq in * | rewrite ?upd_neq in * by auto]
  end.
Ltac mcbn := cbn [m_i m_cnt m_loc m_by m_size m_head m_len m_unmap m_seti m_setlen m_setfile i_exists i_file i_wr i_rd i_fd i_map i_alive i_pc i_use i_res i_inh i_crash
  goto ret set_file set_lock set_fd set_map set_use drop_lock lock_write lock_read die].

Lemma minv_die : forall s p c, minv s -> minv (m_seti s (die (m_i s) p c)).
Proof.
  intros s p c J. apply (minv_same _ _ J); mcbn; auto.
  - intros q A B. destruct (Z.eq_dec q p) as [->|N]; [rewrite upd_eq in A; discriminate A|]. rewrite !upd_neq in * by auto. auto.
  - intros q A. destruct (Z.eq_dec q p) as [->|N]; [rewrite upd_eq in A; discriminate A|]. rewrite !upd_neq in * by auto. auto.
  - intros t X. destruct (proc t =? p); [discriminate X|]. auto.
  - intros t X. destruct (proc t =? p); [discriminate X|]. auto.
  - intros t X. destruct (proc t =? p); [discriminate X|]. auto.
  - intros t X. destruct (proc t =? p); [discriminate X|]. auto.
  - intros t X. destruct (Z.eqb_spec (proc t) p) as [E|N]; auto. right. rewrite E, upd_eq. auto.
Qed.

(** a move of thread [t] to [x] *)
Lemma minv_move : forall s t x i', minv s -> i_pc (m_i s) t <> IHead ->
  i_pc i' = upd (i_pc (m_i s)) t x -> (x = IOpen -> i_exists (m_i s) = true) -> x <> IMap -> x <> ILists -> x <> IHead ->
  i_file i' = i_file (m_i s) -> i_exists i' = i_exists (m_i s) ->
  (forall p, i_map i' p = true -> i_inh i' p = false -> i_map (m_i s) p = true /\ i_inh (m_i s) p = false) ->
  (forall p, i_fd i' p = true -> i_fd (m_i s) p = true \/ i_exists (m_i s) = true) -> minv (m_seti s i').
Proof.
  intros s t x i' J NH PC O N1 N2 N3 EF EE M FD. apply (minv_same _ _ J); mcbn; auto; rewrite ?PC.
  - intros p A B. destruct (M p A B). auto.
  - intros p A. destruct (FD p A); auto.
  - intros u X. pcs t; auto.
  - intros u X. pcs t; auto. congruence.
  - intros u X. pcs t; auto. congruence.
  - intros u X. pcs t; auto. congruence.
  - intros u X. left. pcs t; auto. congruence.
Qed.

Lemma minv_run : forall s t fail, inv (m_i s) -> minv s -> i_alive (m_i s) (proc t) = true -> minv (m_seti (m_run s t fail) (i_run (m_i s) t fail)).
Proof.
  intros s t fail V J AL. pose proof (v_pok (m_i s) V t) as PK. unfold pok in PK. unfold m_run, i_run, done.
  destruct (i_pc (m_i s) t) eqn:PC.
  - (* idle *) destruct s; exact J.
  - (* IOpenX *) destruct PK as [F M]. destruct fail; cbn [orb].
    + apply (minv_move s t IIdle); mcbn; auto; try congruence; try (intros p A; pcs (proc t); auto; discriminate).
    + destruct (i_exists (m_i s)) eqn:E.
      * apply (minv_move s t IOpen); mcbn; auto; try congruence; try (intros p A; pcs (proc t); auto; discriminate).
      * assert (NF := j_ex s J E). assert (NM : forall p, i_map (m_i s) p = false).
        { intro p. destruct (i_map (m_i s) p) eqn:X; auto. rewrite <- (NF p). symmetry. apply map_fd; auto. }
        assert (NW : forall u, u <> t -> ~ wstage (i_pc (m_i s) u)).
        { intros u _ W. pose proof (v_pok _ V u) as K. unfold pok in K. rewrite NF in K. destruct (i_pc (m_i s) u); try contradiction; intuition congruence. }
        constructor; mcbn.
        -- intros p X. rewrite NM in X. discriminate X.
        -- intros [X|X]; discriminate X.
        -- intros u X. pcs t; [discriminate X|]. exfalso. apply (NW u); auto. rewrite X. exact I.
        -- intros u X. pcs t; [discriminate X|]. exfalso. apply (NW u); auto. rewrite X. exact I.
        -- intros u X. pcs t; [discriminate X|]. exfalso. apply (NW u); auto. rewrite X. exact I.
        -- intro X. discriminate X.
        -- auto.
  - (* IOpen *) pose proof (j_open s J t PC) as E. destruct fail.
    + apply (minv_move s t IIdle); mcbn; auto; try congruence.
    + apply (minv_move s t (IWrite 0)); mcbn; auto; try congruence.
  - (* IWrite *) destruct (n <? 100); [destruct (can_write (m_i s) (proc t) && negb fail)|].
    + apply (minv_move s t ITrunc); mcbn; auto; congruence.
    + apply (minv_move s t (IRead n)); mcbn; auto; congruence.
    + apply (minv_move s t (IDet1 false)); mcbn; auto; congruence.
  - (* IRead *) destruct (can_read (m_i s) (proc t) && negb fail).
    + apply (minv_move s t IAttach); mcbn; auto; congruence.
    + apply (minv_move s t (IWrite (n + 1))); mcbn; auto; congruence.
  - (* IAttach *) destruct PK as (F & M & RD). rewrite M, F. cbn [negb orb]. destruct fail.
    { apply (minv_move s t (IDet1 false)); mcbn; auto; congruence. }
    assert (JOIN : made (i_file (m_i s)) -> minv (m_seti (m_setlen s (proc t) (m_head s)) (goto (set_map (m_i s) (proc t) true) t IWorker))).
    { intro MD. destruct J as [J1 J2 J3 J4 J5 J6 J7]. constructor; mcbn; auto.
      - intros p A B N. destruct (Z.eq_dec p (proc t)) as [->|NE]; [rewrite upd_eq; auto|]. rewrite !upd_neq in * by auto. apply J1; auto.
        intros u U X. apply (N u U). rewrite upd_neq by congruence. auto.
      - intros u X. pcs t; [discriminate X|]. auto.
      - intros u X. pcs t; [discriminate X|]. destruct (Z.eq_dec (proc u) (proc t)) as [EP|NE]; [|rewrite upd_neq by auto; auto].
        exfalso. assert (BY : busy (i_pc (m_i s) t)) by (rewrite PC; exact I). pose proof (v_one _ V t u (eq_sym EP) ltac:(auto) BY). congruence.
      - intros u X. pcs t; [discriminate X|]. eauto.
      - intros u X. pcs t; [discriminate X|]. eauto. }
    destruct (i_file (m_i s)) eqn:FC.
    + apply minv_die; auto.
    + apply (minv_move s t (IDet1 false)); mcbn; auto; congruence.
    + apply JOIN. left; auto.
    + apply JOIN. right; auto.
  - (* ICWrite *) destruct (can_write (m_i s) (proc t) && negb fail).
    + apply (minv_move s t ITrunc); mcbn; auto; congruence.
    + apply (minv_move s t IClose); mcbn; auto; congruence.
  - (* IClose *) apply (minv_move s t IIdle); mcbn; auto; try congruence; try (intros p A; pcs (proc t); auto; discriminate).
  - (* ITrunc *) destruct PK as (F & M & W). rewrite F. cbn [negb orb]. destruct fail.
    { apply (minv_move s t (IDet1 false)); mcbn; auto; congruence. }
    assert (WS : wstage (i_pc (m_i s) t)) by (rewrite PC; exact I). constructor; mcbn.
    + intros p A B _. rewrite (writer_alone _ t p V W A B), M in A. discriminate A.
    + intros [X|X]; discriminate X.
    + intros u X. pcs t; [discriminate X|]. exfalso. apply (stage_other _ t u IMap V); auto. exact I.
    + intros u X. pcs t; [discriminate X|]. exfalso. apply (stage_other _ t u IHead V); auto. exact I.
    + intros u X. pcs t; [discriminate X|]. exfalso. apply (stage_other _ t u ILists V); auto. exact I.
    + discriminate.
    + auto.
  - (* IFill *) destruct PK as (F & M & W). rewrite F. cbn [negb orb]. destruct fail.
    { apply (minv_move s t (IDet1 false)); mcbn; auto; congruence. }
    assert (WS : wstage (i_pc (m_i s) t)) by (rewrite PC; exact I). constructor; mcbn.
    + intros p A B _. rewrite (writer_alone _ t p V W A B), M in A. discriminate A.
    + intros [X|X]; discriminate X.
    + intros u X. pcs t; [reflexivity|]. exfalso. apply (stage_other _ t u IMap V); auto. exact I.
    + intros u X. pcs t; [discriminate X|]. exfalso. apply (stage_other _ t u IHead V); auto. exact I.
    + intros u X. pcs t; [discriminate X|]. exfalso. apply (stage_other _ t u ILists V); auto. exact I.
    + discriminate.
    + auto.
  - (* IMap *) destruct PK as (F & M & W). rewrite F. cbn [negb orb]. destruct fail.
    { apply (minv_move s t (IDet1 false)); mcbn; auto; congruence. }
    assert (WS : wstage (i_pc (m_i s) t)) by (rewrite PC; exact I). destruct J as [J1 J2 J3 J4 J5 J6 J7]. constructor; mcbn; auto.
    + intros p A B N. exfalso. destruct (Z.eq_dec p (proc t)) as [->|NE]; [apply (N t eq_refl); apply upd_eq|]. rewrite !upd_neq in * by auto.
      apply NE. apply (writer_alone _ t p V W A B).
    + intros u X. pcs t; [discriminate X|]. exfalso. apply (stage_other _ t u IMap V); auto. exact I.
    + intros u X. pcs t; [split; [reflexivity | apply (J3 t PC)]|]. exfalso. apply (stage_other _ t u IHead V); auto. exact I.
    + intros u X. pcs t; [discriminate X|]. exfalso. apply (stage_other _ t u ILists V); auto. exact I.
    + intros u X. pcs t; [discriminate X|]. eauto.
  - (* IHead *) destruct PK as (F & M & W). assert (WS : wstage (i_pc (m_i s) t)) by (rewrite PC; exact I). destruct (j_ihead s J t PC) as [L1 L2].
    constructor; mcbn.
    + intros p A B N. rewrite (writer_alone _ t p V W A B). split; [auto | left; auto].
    + auto.
    + intros u X. pcs t; [discriminate X|]. exfalso. apply (stage_other _ t u IMap V); auto. exact I.
    + intros u X. pcs t; [discriminate X|]. exfalso. apply (stage_other _ t u IHead V); auto. exact I.
    + auto.
    + discriminate.
    + auto.
  - (* ILists *) destruct PK as (F & M & W). assert (WS : wstage (i_pc (m_i s) t)) by (rewrite PC; exact I). pose proof (j_ilists s J t PC) as FP.
    destruct J as [J1 J2 J3 J4 J5 J6 J7]. constructor; mcbn.
    + intros p A B N. split; [|right; auto]. apply J1; auto. intros u U X. destruct (Z.eq_dec u t) as [->|NE]; [congruence|].
      apply (stage_other _ t u IHead V); auto. exact I.
    + intros _. apply J2. left; auto.
    + intros u X. pcs t; [discriminate X|]. exfalso. apply (stage_other _ t u IMap V); auto. exact I.
    + intros u X. pcs t; [discriminate X|]. exfalso. apply (stage_other _ t u IHead V); auto. exact I.
    + intros u X. pcs t; [discriminate X|]. exfalso. apply (stage_other _ t u ILists V); auto. exact I.
    + discriminate.
    + auto.
  - (* IDown *) destruct (can_read (m_i s) (proc t) && negb fail).
    + apply (minv_move s t IWorker); mcbn; auto; congruence.
    + apply (minv_move s t (IDet1 false)); mcbn; auto; congruence.
  - (* IWorker *) destruct fail; [|destruct (i_use (m_i s) t)].
    + apply (minv_move s t (IDet1 false)); mcbn; auto; congruence.
    + apply (minv_move s t IUse); mcbn; auto; congruence.
    + apply (minv_move s t IIdle); mcbn; auto; congruence.
  - (* IDet1 *)
    assert (Q : minv (m_seti s (goto (set_map (m_i s) (proc t) false) t (IDet2 r)))).
    { apply (minv_move s t (IDet2 r)); mcbn; auto; try congruence; try (intros p A B; pcs (proc t); [discriminate A | auto]). }
    destruct (i_map (m_i s) (proc t)); auto. destruct Q as [J1 J2 J3 J4 J5 J6 J7]. constructor; auto.
  - (* IDet2 *) apply (minv_move s t (IDet3 r)); destruct (i_fd (m_i s) (proc t)); mcbn; auto; congruence.
  - (* IDet3 *) apply (minv_move s t IIdle); destruct (i_fd (m_i s) (proc t)); mcbn; auto; try congruence; try (intros p A; pcs (proc t); auto; discriminate).
  - (* IUse *) destruct (i_map (m_i s) (proc t)).
    + apply (minv_move s t IIdle); mcbn; auto; congruence.
    + apply minv_die; auto.
Qed.

Lemma minv_step : forall s x, inv (m_i s) -> minv s -> one_at_a_time (m_i s) x -> minv (m_step s (MStep x)).
Proof.
  intros s x V J OK. destruct x as [p|p|t q|t c|t fail]; cbn [m_step].
  - cbn [i_step]. destruct (i_alive (m_i s) p); [destruct s; exact J|]. destruct J as [J1 J2 J3 J4 J5 J6 J7]. constructor; auto.
  - cbn [i_step]. destruct (i_alive (m_i s) p); [apply minv_die; auto | destruct s; exact J].
  - cbn [i_step]. destruct (i_alive (m_i s) (proc t)) eqn:A; auto. destruct (i_alive (m_i s) q) eqn:B; auto. cbn [negb andb].
    destruct (v_dead _ V q B) as (D1 & D2 & D3 & D4 & D5).
    assert (NQ : forall u, i_pc (m_i s) u = IHead -> proc u <> q). { intros u X Y. pose proof (D5 u Y) as Z0. unfold idle in Z0. congruence. }
    apply (minv_same _ _ J); destruct (i_pc (m_i s) t); mcbn; auto;
      try (intros p MP IP; destruct (Z.eq_dec p q) as [->|N]; [rewrite ?upd_eq in *; congruence | rewrite ?upd_neq in * by auto; auto]);
      try (intros u X; split; [exact X|]; rewrite upd_neq by auto; auto);
      intros p F; destruct (Z.eq_dec p q) as [->|N]; [rewrite ?upd_eq in *; eauto | rewrite ?upd_neq in * by auto; auto].
  - cbn [i_step]. destruct (i_alive (m_i s) (proc t)); [|destruct s; exact J]. destruct (i_pc (m_i s) t) eqn:PC; try (destruct s; exact J).
    unfold i_call. destruct c as [| |retry]; destruct (i_fd (m_i s) (proc t)); try destruct retry;
      first [apply (minv_move s t IIdle); mcbn; auto; congruence | apply (minv_move s t IOpenX); mcbn; auto; congruence
            | apply (minv_move s t (IDet1 true)); mcbn; auto; congruence | apply (minv_move s t IUse); mcbn; auto; congruence].
  - destruct (i_alive (m_i s) (proc t)) eqn:A; cbn [i_step]; rewrite A; [apply minv_run; auto | destruct s; exact J].
Qed.

Lemma m_i_step : forall s x, m_i (m_step s (MStep x)) = i_step (m_i s) x.
Proof.
  intros s x. destruct x as [p|p|t q|t c|t fail]; cbn [m_step]; auto.
  cbn [i_step]. destruct (i_alive (m_i s) (proc t) && negb (i_alive (m_i s) q)); auto.
Qed.

Lemma m_reach_i : forall (ok : istate -> ilabel -> Prop) s, m_reach ok s -> i_reach ok (m_i s).
Proof.
  intros ok s R. induction R as [cnt|s x R IH O|s p c R IH]; [constructor | rewrite m_i_step; constructor; auto | exact IH].
Qed.

Lemma m_reach_inv : forall (ok : istate -> ilabel -> Prop) s, (forall s x, ok s x -> one_at_a_time s x) -> m_reach ok s -> inv (m_i s) /\ minv s.
Proof.
  intros ok s H R. split; [apply (reach_inv ok); auto; apply m_reach_i; auto|].
  induction R as [cnt|s x R IH O|s p c R IH]; [apply minv_init| |].
  - apply minv_step; auto. apply (reach_inv ok); auto. apply m_reach_i; auto.
  - destruct IH as [J1 J2 J3 J4 J5 J6 J7]. constructor; auto.
Qed.

Lemma unmap_step : forall s x, m_unmap (m_step s (MStep x)) = m_unmap s \/
  exists t fail r, x = IRun t fail /\ i_alive (m_i s) (proc t) = true /\ i_pc (m_i s) t = IDet1 r /\ i_map (m_i s) (proc t) = true /\
    m_unmap (m_step s (MStep x)) = (proc t, match i_file (m_i s) with FEmpty => None | _ => Some (m_head s) end, m_len s (proc t)) :: m_unmap s.
Proof.
  intros s x. destruct x as [p|p|t q|t c|t fail]; cbn [m_step]; auto.
  - destruct (i_alive (m_i s) (proc t) && negb (i_alive (m_i s) q)); auto.
  - destruct (i_alive (m_i s) (proc t)) eqn:A; auto. unfold m_run. destruct (i_pc (m_i s) t) eqn:PC; auto;
      try (repeat match goal with |- context [if ?b then _ else _] => destruct b eqn:? | |- context [match i_file ?i with _ => _ end] => destruct (i_file i) eqn:? end; auto; fail).
    destruct (i_map (m_i s) (proc t)) eqn:M; auto. right. exists t, fail, r. auto.
Qed.

(** a process that did not inherit its mapping and is not writing the header: the mapping is the file *)
Lemma own_length : forall s p, inv (m_i s) -> minv s -> i_map (m_i s) p = true -> i_inh (m_i s) p = false ->
  (forall t, proc t = p -> i_pc (m_i s) t <> IHead) ->
  made (i_file (m_i s)) /\ m_len s p = m_head s /\ m_len s p = m_size s /\ m_len s p = sz_total (m_by s).
Proof.
  intros s p V J M H N. destruct (j_len s J p M H N) as [L MD]. destruct (j_file s J MD) as [Z1 Z2]. repeat split; auto; congruence.
Qed.

Lemma det_length : forall s t r, inv (m_i s) -> minv s -> i_pc (m_i s) t = IDet1 r -> i_map (m_i s) (proc t) = true -> i_inh (m_i s) (proc t) = false ->
  (match i_file (m_i s) with FEmpty => None | _ => Some (m_head s) end) = Some (m_len s (proc t)).
Proof.
  intros s t r V J PC M H. destruct (own_length s (proc t) V J M H) as (MD & L & _).
  - intros u U X. destruct (Z.eq_dec u t) as [->|N]; [congruence|].
    pose proof (v_one _ V t u (eq_sym U) ltac:(auto) ltac:(rewrite PC; exact I)). congruence.
  - rewrite L. destruct MD as [-> | ->]; auto.
Qed.

Lemma m_exec_app : forall l1 l2 s, m_exec s (l1 ++ l2) = m_exec (m_exec s l1) l2.
Proof. intros. unfold m_exec. apply fold_left_app. Qed.
Lemma m_i_exec : forall ls s, m_i (m_exec s ls) = i_exec (m_i s) ls.
Proof. induction ls as [|x ls IH]; intro s; auto. change (m_i (m_exec (m_step s (MStep x)) ls) = i_exec (i_step (m_i s) x) ls). rewrite IH, m_i_step. auto. Qed.
