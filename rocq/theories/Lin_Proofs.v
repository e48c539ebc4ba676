(** Forward simulation: the mutex machine shows only histories of the atomic mutex. *)
From Coq Require Import ZArith List Bool Lia.
From Verif Require Import Base Mutex_Model Mutex_Spec Mutex_Proofs Mutex_Proofs2 Lin_Spec.
Import ListNotations.
Open Scope Z_scope.

Definition ucall (g : bool) : mcall := if g then CUnlock else CWaitUnlock.
Definition pass_call (ret : option mkind) : mcall := match ret with None => CRecover | Some k => CLock k end.
(** what the atomic mutex has done for a thread at a program point *)
Definition op_of (val t : Z) (p : mpc) : op_state :=
  match p with
  | MIdle => OIdle
  | MRead k | MAdd k | MConfirm k | MSub k | MCas k => OWaits (CLock k)
  | MAdd2 k => ODone OK
  | MUGuard => OWaits CUnlock
  | MU1 g => if val =? t then OWaits (ucall g) else ODone EPERM
  | MU0 g | MU2 g | MU3 g _ | MU4 g | MU5 g => OWaits (ucall g)
  | MURel r => ODone r
  | MKGuard ret | MK0 ret | MK1 ret _ | MF0 ret | MF1 ret _ | MF2 ret | MF3 ret _ | MKRel ret => OWaits (pass_call ret)
  end.

Record sim (s : mstate) (a : atomic) : Prop := {
  sm_owner : at_owner a = m_val s;
  sm_alive : forall t, at_alive a t = m_alive s t;
  sm_op : forall t, m_alive s t = true -> at_op a t = op_of (m_val s) t (m_pc s t)
}.

(** passes run by a waiting call belong to blocking calls *)
Definition pass_blocks (p : mpc) : Prop :=
  match p with
  | MKGuard ret | MK0 ret | MK1 ret _ | MF0 ret | MF1 ret _ | MF2 ret | MF3 ret _ | MKRel ret =>
      match ret with Some k => k = MBlock | None => True end
  | _ => True
  end.
Lemma pass_blocks_run : forall s t b u, pass_blocks (m_pc s u) -> pass_blocks (m_pc (m_run s t b) u).
Proof.
  intros s t b u H. destruct (Z.eq_dec u t) as [->|N].
  2:{ destruct (run_other s t u b) as [-> _]; auto. }
  unfold m_run. destruct (m_pc s t) eqn:Ep; auto; try (rewrite Ep; auto; fail);
  unfold m_take_guard, m_drop_guard, m_unlock_end, m_failed, m_locked, m_unlocked, m_return, m_goto, m_set;
  repeat (match goal with
          | |- context [if ?c then _ else _] => destruct c
          | |- context [match ?x with _ => _ end] => is_var x; destruct x
          end; simpl; rewrite ?upd_eq, ?Ep; auto).
  all: simpl; rewrite ?upd_eq; auto.
Qed.

Inductive at_steps : atomic -> list event -> atomic -> Prop :=
| ats_nil : forall a, at_steps a [] a
| ats_cons : forall a e1 a1 e2 a2, at_step a e1 a1 -> at_steps a1 e2 a2 -> at_steps a (e1 ++ e2) a2.
Lemma at_history_steps : forall a e a', at_steps a e a' -> forall h, at_history a h -> at_history a' (h ++ e).
Proof.
  intros a e a' S. induction S as [|a e1 a1 e2 a2 S1 S2 IH]; intros h H; [rewrite app_nil_r; auto|].
  rewrite app_assoc. apply IH. econstructor; eauto.
Qed.

Lemma sim_frame : forall s a s' t, sim s a -> minv s -> m_alive s' = m_alive s ->
  (forall u, u <> t -> m_pc s' u = m_pc s u) ->
  (forall u, u <> t -> u <> 0 -> m_alive s u = true -> (m_val s' =? u) = (m_val s =? u)) ->
  forall al op, (forall u, al u = at_alive a u) -> (forall u, u <> t -> op u = at_op a u) -> op t = op_of (m_val s') t (m_pc s' t) ->
  sim s' (mkAt (m_val s') al op).
Proof.
  intros s a s' t S I AL PC V al op EA EO ET. constructor; simpl; auto.
  - intro u. rewrite AL, EA. apply (sm_alive _ _ S).
  - intros u AU. rewrite AL in AU. destruct (Z.eq_dec u t) as [->|N]; auto. rewrite EO by auto. rewrite PC by auto.
    rewrite (sm_op _ _ S u AU). destruct (Z.eq_dec u 0) as [->|N0].
    + destruct (mi_zero _ I) as (-> & _). reflexivity.
    + unfold op_of. destruct (m_pc s u); auto. rewrite V; auto.
Qed.

Lemma upd_same : forall (f : Z -> op_state) t v u, u <> t -> upd f t v u = f u.
Proof. intros. apply upd_neq; auto. Qed.
Lemma upd_twice_o : forall (f : Z -> op_state) t v w u, u <> t -> upd (upd f t v) t w u = f u.
Proof. intros. rewrite !upd_neq; auto. Qed.

Section Step.
Variables (s : mstate) (a : atomic) (t : Z) (b : bool).
Hypothesis S : sim s a.
Hypothesis I : minv s.
Hypothesis T0 : t <> 0.
Hypothesis AL : m_alive s t = true.
Let s' := m_run s t b.

Lemma al_a : at_alive a t = true.
Proof. rewrite (sm_alive _ _ S). exact AL. Qed.
Lemma val_case : m_val s' = m_val s \/ (m_val s = 0 /\ m_val s' = t) \/ (m_val s = t /\ m_val s' = 0) \/
  (m_val s <> 0 /\ m_alive s (m_val s) = false /\ m_val s' = 0).
Proof.
  pose proof (mi_chk _ I t AL) as C. unfold s', m_run. destruct (m_pc s t) eqn:Ep; simpl in C; auto;
  unfold m_take_guard, m_drop_guard, m_unlock_end, m_failed, m_locked, m_unlocked, m_return, m_goto, m_set, dead_owner in *;
  repeat (match goal with
          | |- context [if ?c then _ else _] => let E := fresh "E" in destruct c eqn:E
          | |- context [match ?x with _ => _ end] => is_var x; destruct x
          end; simpl; auto);
  rewrite ?Z.eqb_eq in *; intuition.
Qed.
Lemma other_val : forall u, u <> t -> u <> 0 -> m_alive s u = true -> (m_val s' =? u) = (m_val s =? u).
Proof.
  intros u N N0 AU. destruct val_case as [->|[[-> ->]|[[-> ->]|(V & D & ->)]]]; auto.
  - destruct (Z.eqb_spec t u); destruct (Z.eqb_spec 0 u); congruence.
  - destruct (Z.eqb_spec t u); destruct (Z.eqb_spec 0 u); congruence.
  - destruct (Z.eqb_spec (m_val s) u); destruct (Z.eqb_spec 0 u); congruence.
Qed.
Lemma other_pc : forall u, u <> t -> m_pc s' u = m_pc s u.
Proof. intros u N. destruct (run_other s t u b) as [E _]; auto. Qed.
Lemma alive_eq : m_alive s' = m_alive s.
Proof. apply alive_run. Qed.

(** the step changes nothing visible *)
Lemma by_stutter : m_val s' = m_val s -> op_of (m_val s') t (m_pc s' t) = op_of (m_val s) t (m_pc s t) ->
  m_events s (MRun t b) = [] -> exists a', at_steps a (m_events s (MRun t b)) a' /\ sim s' a'.
Proof.
  intros V O ->. exists a. split; [constructor|]. destruct a as [ow al op] eqn:EA.
  assert (E : ow = m_val s') by (rewrite V; apply (sm_owner _ _ S)). rewrite E.
  apply (sim_frame s a s' t); subst; auto using alive_eq, other_pc, other_val.
  simpl. rewrite O. apply (sm_op _ _ S t AL).
Qed.
(** the call takes effect *)
Lemma by_effect : forall c r, op_of (m_val s) t (m_pc s t) = OWaits c -> effect (m_val s) t c (m_val s') r ->
  op_of (m_val s') t (m_pc s' t) = ODone r ->
  m_events s (MRun t b) = [] -> exists a', at_steps a (m_events s (MRun t b)) a' /\ sim s' a'.
Proof.
  intros c r O EF O' ->. exists (mkAt (m_val s') (at_alive a) (upd (at_op a) t (ODone r))). split.
  - change (@nil event) with (@nil event ++ []). econstructor; [|constructor].
    apply (as_effect a t c (m_val s') r); auto using al_a; [rewrite (sm_op _ _ S t AL); auto | rewrite (sm_owner _ _ S); auto].
  - apply (sim_frame s a s' t); auto using alive_eq, other_pc, other_val, upd_same. rewrite upd_eq. auto.
Qed.
(** the call takes effect and returns *)
Lemma by_effect_ret : forall c r, op_of (m_val s) t (m_pc s t) = OWaits c -> effect (m_val s) t c (m_val s') r ->
  op_of (m_val s') t (m_pc s' t) = OIdle ->
  m_events s (MRun t b) = [ERet t r] -> exists a', at_steps a (m_events s (MRun t b)) a' /\ sim s' a'.
Proof.
  intros c r O EF O' ->. exists (mkAt (m_val s') (at_alive a) (upd (upd (at_op a) t (ODone r)) t OIdle)). split.
  - change [ERet t r] with (@nil event ++ [ERet t r] ++ []). econstructor; [|econstructor; [|constructor]].
    + apply (as_effect a t c (m_val s') r); auto using al_a; [rewrite (sm_op _ _ S t AL); auto | rewrite (sm_owner _ _ S); auto].
    + apply (as_ret (mkAt (m_val s') (at_alive a) (upd (at_op a) t (ODone r))) t r); simpl; auto using al_a. apply upd_eq.
  - apply (sim_frame s a s' t); auto using alive_eq, other_pc, other_val, upd_twice_o. rewrite upd_eq. auto.
Qed.
(** the call, which has taken effect, returns *)
Lemma by_ret : forall r, op_of (m_val s) t (m_pc s t) = ODone r -> m_val s' = m_val s ->
  op_of (m_val s') t (m_pc s' t) = OIdle ->
  m_events s (MRun t b) = [ERet t r] -> exists a', at_steps a (m_events s (MRun t b)) a' /\ sim s' a'.
Proof.
  intros r O V O' ->. exists (mkAt (m_val s') (at_alive a) (upd (at_op a) t OIdle)). split.
  - change [ERet t r] with ([ERet t r] ++ []). econstructor; [|constructor]. rewrite V, <- (sm_owner _ _ S).
    apply as_ret; auto using al_a. rewrite (sm_op _ _ S t AL). auto.
  - apply (sim_frame s a s' t); auto using alive_eq, other_pc, other_val, upd_same. rewrite upd_eq. auto.
Qed.
(** the mutex of a dead owner is freed *)
Lemma by_reap : forall c, c = CRecover \/ c = CLock MBlock -> op_of (m_val s) t (m_pc s t) = OWaits c ->
  m_val s <> 0 -> m_alive s (m_val s) = false -> m_val s' = 0 -> op_of (m_val s') t (m_pc s' t) = OWaits c ->
  m_events s (MRun t b) = [] -> exists a', at_steps a (m_events s (MRun t b)) a' /\ sim s' a'.
Proof.
  intros c C O V D V' O' ->. exists (mkAt 0 (at_alive a) (at_op a)). split.
  - change (@nil event) with (@nil event ++ []). econstructor; [|constructor]. apply (as_reap a t); auto using al_a.
    + rewrite (sm_op _ _ S t AL), O. destruct C as [->| ->]; auto.
    + rewrite (sm_owner _ _ S). auto.
    + rewrite (sm_owner _ _ S), (sm_alive _ _ S). auto.
  - rewrite <- V'. apply (sim_frame s a s' t); auto using alive_eq, other_pc, other_val. rewrite (sm_op _ _ S t AL), O, O'. auto.
Qed.
End Step.

Ltac lin_simpl Ep := unfold m_events, m_run; rewrite ?Ep;
  unfold m_take_guard, m_drop_guard, m_unlock_end, m_failed, m_locked, m_unlocked, m_return, m_goto, m_set; simpl.

(** at the exchange of a lock call the word does not name the caller *)
Definition cas_ok (s : mstate) : Prop := forall t k, t <> 0 -> m_alive s t = true -> m_pc s t = MCas k -> m_val s <> t.

Lemma cas_ok_run : forall s t b, cas_ok s -> minv s -> t <> 0 -> m_alive s t = true -> cas_ok (m_run s t b).
Proof.
  intros s t b C I T0 AL u k U0 AU E. rewrite alive_run in AU. destruct (Z.eq_dec u t) as [->|N].
  - assert (m_pc s t = MRead k /\ m_val s <> t /\ m_val (m_run s t b) = m_val s) as (_ & N & ->); auto.
    revert E. unfold m_run. destruct (m_pc s t) eqn:Ep; try (rewrite Ep; discriminate);
    unfold m_take_guard, m_drop_guard, m_unlock_end, m_failed, m_locked, m_unlocked, m_return, m_goto, m_set;
    repeat (match goal with
            | |- context [if ?c then _ else _] => let E := fresh "E" in destruct c eqn:E
            | |- context [match ?x with _ => _ end] => is_var x; destruct x
            end; simpl; rewrite ?upd_eq; try discriminate; try (rewrite Ep; discriminate)).
    all: simpl; rewrite ?upd_eq; try discriminate.
    intro X. inversion X; subst. apply Z.eqb_neq in E. auto.
  - assert (m_pc s u = MCas k) by (rewrite <- E; symmetry; apply (run_other s t u b); auto).
    change (m_run s t b) with (m_step s (MRun t b)). apply val_step; auto; [apply (C u k); auto|].
    intros b' X. inversion X. auto.
Qed.

(** what a step of a live thread can be for the atomic mutex *)
Inductive outcome (s : mstate) (t : Z) (b : bool) : Prop :=
| out_stutter : m_val (m_run s t b) = m_val s ->
    op_of (m_val (m_run s t b)) t (m_pc (m_run s t b) t) = op_of (m_val s) t (m_pc s t) ->
    m_events s (MRun t b) = [] -> outcome s t b
| out_effect : forall c r, op_of (m_val s) t (m_pc s t) = OWaits c -> effect (m_val s) t c (m_val (m_run s t b)) r ->
    op_of (m_val (m_run s t b)) t (m_pc (m_run s t b) t) = ODone r ->
    m_events s (MRun t b) = [] -> outcome s t b
| out_effect_ret : forall c r, op_of (m_val s) t (m_pc s t) = OWaits c -> effect (m_val s) t c (m_val (m_run s t b)) r ->
    op_of (m_val (m_run s t b)) t (m_pc (m_run s t b) t) = OIdle ->
    m_events s (MRun t b) = [ERet t r] -> outcome s t b
| out_ret : forall r, op_of (m_val s) t (m_pc s t) = ODone r -> m_val (m_run s t b) = m_val s ->
    op_of (m_val (m_run s t b)) t (m_pc (m_run s t b) t) = OIdle ->
    m_events s (MRun t b) = [ERet t r] -> outcome s t b
| out_reap : forall c, c = CRecover \/ c = CLock MBlock -> op_of (m_val s) t (m_pc s t) = OWaits c ->
    m_val s <> 0 -> m_alive s (m_val s) = false -> m_val (m_run s t b) = 0 ->
    op_of (m_val (m_run s t b)) t (m_pc (m_run s t b) t) = OWaits c ->
    m_events s (MRun t b) = [] -> outcome s t b.

Lemma run_outcome : forall s t b, minv s -> cas_ok s -> t <> 0 -> m_alive s t = true -> pass_blocks (m_pc s t) ->
  outcome s t b.
Proof.
  intros s t b I CO T0 AL PB.
  pose proof (mi_never _ I t AL) as NV. pose proof (mi_chk _ I t AL) as CK.
  assert (OW : pc_owner (m_pc s t) -> m_val s = t) by (intro P; apply (mi_own _ I t AL); auto).
  pose proof (mi_guard _ I t AL) as GD.
  assert (CN : m_val s = t -> cnt_ok (m_pc s t) (m_cnt s)).
  { intro E. pose proof (mi_cnt _ I) as C. rewrite E in C. apply C; auto. }
  destruct (m_pc s t) as [ |k|k|k|k|k|k| |g|g|g|g old|g|g|r|ret|ret|ret v|ret|ret c|ret|ret v|ret] eqn:Ep;
    simpl in NV, CK, OW, CN, PB; try (destruct (NV Logic.I); fail).
  - apply out_stutter; auto; lin_simpl Ep; rewrite ?Ep; auto.
  - destruct (Z.eqb_spec (m_val s) t) as [E|N].
    + apply out_stutter; auto; lin_simpl Ep; rewrite E, Z.eqb_refl; simpl; rewrite ?upd_eq; auto.
    + apply out_stutter; auto; lin_simpl Ep; destruct (Z.eqb_spec (m_val s) t); try contradiction; simpl; rewrite ?upd_eq; auto.
  - specialize (CN (OW Logic.I)). assert (E : (0 <=? m_cnt s) = true) by (apply Z.leb_le; lia).
    apply out_stutter; auto; lin_simpl Ep; rewrite E; simpl; rewrite ?upd_eq; auto.
  - pose proof (OW Logic.I) as E. assert (E' : (m_val s =? t) = true) by (apply Z.eqb_eq; auto).
    apply out_effect_ret with (c := CLock k) (r := OK); auto; lin_simpl Ep; rewrite ?E'; simpl; rewrite ?upd_eq; auto.
    rewrite E. constructor. auto.
  - destruct (Z.eqb_spec (m_val s) 0) as [E|N].
    + apply out_effect with (c := CLock k) (r := OK); auto; lin_simpl Ep; rewrite ?E; simpl; rewrite ?upd_eq; auto.
      constructor. auto.
    + assert (N' : (m_val s =? 0) = false) by (apply Z.eqb_neq; auto).
      assert (NT : m_val s <> t) by (apply (CO t k); auto).
      destruct k; [destruct b| |destruct b].
      * apply out_stutter; auto; lin_simpl Ep; rewrite ?N'; simpl; rewrite ?upd_eq; auto.
      * apply out_stutter; auto; lin_simpl Ep; rewrite ?N'; simpl; rewrite ?upd_eq; auto.
      * apply out_effect_ret with (c := CLock MTry) (r := EBUSY); auto; lin_simpl Ep; rewrite ?N'; simpl; rewrite ?upd_eq; auto.
        constructor; auto.
      * apply out_stutter; auto; lin_simpl Ep; rewrite ?N'; simpl; rewrite ?upd_eq; auto.
      * apply out_effect_ret with (c := CLock MTimed) (r := ETIMEDOUT); auto; lin_simpl Ep; rewrite ?N'; simpl; rewrite ?upd_eq; auto.
        constructor; auto.
  - apply out_ret with (r := OK); auto; lin_simpl Ep; rewrite ?upd_eq; auto.
  - destruct ((m_guard s =? 0) || (m_guard s =? t) || negb (m_alive s (m_guard s))) eqn:EG;
      apply out_stutter; auto; lin_simpl Ep; rewrite ?EG; simpl; rewrite ?upd_eq, ?Ep; auto.
  - destruct (Z.eqb_spec (m_val s) 0) as [E|N].
    + destruct g.
      * apply out_effect with (c := CUnlock) (r := OK); auto; lin_simpl Ep; rewrite ?E; simpl; rewrite ?upd_eq; auto.
        apply ef_unlock; auto.
      * apply out_effect_ret with (c := CWaitUnlock) (r := OK); auto; lin_simpl Ep; rewrite ?E; simpl; rewrite ?upd_eq; auto.
        apply ef_unlock; auto.
    + assert (N' : (m_val s =? 0) = false) by (apply Z.eqb_neq; auto).
      destruct (Z.eqb_spec (m_val s) t) as [E|NT].
      * apply out_stutter; auto; lin_simpl Ep; rewrite ?N'; simpl; rewrite ?upd_eq; auto. simpl. rewrite E, Z.eqb_refl. auto.
      * apply out_effect with (c := ucall g) (r := EPERM); auto; lin_simpl Ep; rewrite ?N'; simpl; rewrite ?upd_eq; auto.
        -- apply ef_eperm; auto. destruct g; auto.
        -- simpl. destruct (Z.eqb_spec (m_val s) t); auto. contradiction.
  - destruct (Z.eqb_spec (m_val s) t) as [E|NT].
    + apply out_stutter; auto; lin_simpl Ep; rewrite ?E, ?Z.eqb_refl; simpl; rewrite ?upd_eq; auto.
    + assert (NT' : (m_val s =? t) = false) by (apply Z.eqb_neq; auto). destruct g.
      * apply out_stutter; auto; lin_simpl Ep; rewrite ?NT'; simpl; rewrite ?upd_eq; auto.
      * apply out_ret with (r := EPERM); auto; lin_simpl Ep; rewrite ?NT'; simpl; rewrite ?upd_eq; auto.
  - specialize (CN (OW Logic.I)). destruct (Z.leb_spec (m_cnt s) 1) as [L|L].
    + assert (E : (m_cnt s <? 1) = false) by (apply Z.ltb_ge; lia). assert (E' : (m_cnt s <=? 1) = true) by (apply Z.leb_le; lia).
      apply out_stutter; auto; lin_simpl Ep; rewrite ?E', ?E; simpl; rewrite ?upd_eq; auto.
    + assert (E' : (m_cnt s <=? 1) = false) by (apply Z.leb_gt; lia).
      apply out_stutter; auto; lin_simpl Ep; rewrite ?E'; simpl; rewrite ?upd_eq; auto.
  - pose proof (OW Logic.I) as E. assert (E' : (m_val s =? t) = true) by (apply Z.eqb_eq; auto). destruct g.
    + apply out_effect with (c := CUnlock) (r := OK); auto; lin_simpl Ep; rewrite ?E'; simpl; rewrite ?upd_eq; auto.
      apply ef_unlock; auto.
    + apply out_effect_ret with (c := CWaitUnlock) (r := OK); auto; lin_simpl Ep; rewrite ?E'; simpl; rewrite ?upd_eq; auto.
      apply ef_unlock; auto.
  - apply out_ret with (r := r); auto; lin_simpl Ep; destruct (m_guard s =? t); simpl; rewrite ?upd_eq; auto.
  - destruct ((m_guard s =? 0) || (m_guard s =? t) || negb (m_alive s (m_guard s))) eqn:EG;
      apply out_stutter; auto; lin_simpl Ep; rewrite ?EG; simpl; rewrite ?upd_eq, ?Ep; auto.
  - apply out_stutter; auto; lin_simpl Ep; destruct (_ || _); simpl; rewrite ?upd_eq; auto.
  - apply out_stutter; auto; lin_simpl Ep; destruct (m_alive s v); simpl; rewrite ?upd_eq; auto.
  - apply out_stutter; auto; lin_simpl Ep; destruct (m_cnt s =? 0); simpl; rewrite ?upd_eq; auto.
  - apply out_stutter; auto; lin_simpl Ep; destruct (m_cnt s =? c); simpl; rewrite ?upd_eq; auto.
  - apply out_stutter; auto; lin_simpl Ep; destruct (m_val s =? 0); simpl; rewrite ?upd_eq; auto.
  - destruct CK as ((V & D) & EV & _). assert (E' : (m_val s =? v) = true) by (apply Z.eqb_eq; auto).
    apply out_reap with (c := pass_call ret); auto; lin_simpl Ep; rewrite ?E'; simpl; rewrite ?upd_eq; auto.
    destruct ret; simpl; subst; auto.
  - destruct ret as [k|].
    + apply out_stutter; auto; lin_simpl Ep; destruct (m_guard s =? t); simpl; rewrite ?upd_eq; auto.
    + apply out_effect_ret with (c := CRecover) (r := OK); auto; lin_simpl Ep; destruct (m_guard s =? t); simpl; rewrite ?upd_eq; auto; constructor.
Qed.

Lemma sim_run : forall s a t b, sim s a -> minv s -> cas_ok s -> t <> 0 -> m_alive s t = true -> pass_blocks (m_pc s t) ->
  exists a', at_steps a (m_events s (MRun t b)) a' /\ sim (m_run s t b) a'.
Proof.
  intros s a t b S I CO T0 AL PB. destruct (run_outcome s t b I CO T0 AL PB).
  - apply by_stutter; auto.
  - eapply by_effect; eauto.
  - eapply by_effect_ret; eauto.
  - eapply by_ret; eauto.
  - eapply by_reap; eauto.
Qed.

Lemma sim_call : forall s a t c, sim s a -> minv s -> t <> 0 -> m_alive s t = true ->
  exists a', at_steps a (m_events s (MCall t c)) a' /\ sim (m_call s t c) a'.
Proof.
  intros s a t c S I T0 AL. unfold m_events, m_call.
  destruct (m_pc s t) eqn:Ep; try (exists a; split; [constructor | exact S]; fail).
  exists (mkAt (at_owner a) (at_alive a) (upd (at_op a) t (OWaits c))). split.
  - change [ECall t c] with ([ECall t c] ++ []). econstructor; [|constructor]. apply as_call; auto.
    + rewrite (sm_alive _ _ S). auto.
    + rewrite (sm_op _ _ S t AL), Ep. auto.
  - constructor; simpl.
    + rewrite (sm_owner _ _ S). destruct c; auto.
    + intro u. rewrite (sm_alive _ _ S). destruct c; auto.
    + intros u AU. destruct (Z.eq_dec u t) as [->|N].
      * rewrite upd_eq. destruct c; simpl; rewrite upd_eq; auto.
      * rewrite upd_neq by auto. assert (AU' : m_alive s u = true) by (destruct c; auto).
        rewrite (sm_op _ _ S u AU'). destruct c; simpl; rewrite upd_neq; auto.
Qed.

Lemma sim_die : forall s a t, sim s a -> t <> 0 -> exists a', at_steps a (m_events s (MDie t)) a' /\ sim (m_step s (MDie t)) a'.
Proof.
  intros s a t S T0. exists (mkAt (at_owner a) (upd (at_alive a) t false) (at_op a)). split.
  - change (m_events s (MDie t)) with ([EDie t] ++ []). econstructor; [|constructor]. apply as_die; auto.
  - constructor; simpl.
    + apply (sm_owner _ _ S).
    + intro u. destruct (Z.eq_dec u t) as [->|N]; [rewrite !upd_eq | rewrite !upd_neq by auto]; auto. apply (sm_alive _ _ S).
    + intros u AU. apply (sm_op _ _ S). destruct (Z.eq_dec u t) as [->|N]; [rewrite upd_eq in AU; discriminate | rewrite upd_neq in AU by auto; auto].
Qed.

Lemma history_reach : forall ok s h, m_history ok s h -> m_reach ok s.
Proof. intros ok s h H. induction H; constructor; auto. Qed.

Lemma reach_facts : forall ok s, (forall s, m_reach ok s -> minv s) -> m_reach ok s -> cas_ok s /\ forall t, pass_blocks (m_pc s t).
Proof.
  intros ok s INV H. induction H as [|s l H IH EN O].
  - split; [intros t k _ _ E; discriminate | intro t; exact Logic.I].
  - destruct IH as (C & PB). pose proof (INV s H) as I. destruct l as [t c|t b|t]; simpl.
    + split.
      * intros u k U0 AU E. unfold m_call in *. destruct (m_pc s t) eqn:Ep; try (apply (C u k); auto; fail).
        assert (E' : m_pc s u = MCas k /\ m_alive s u = true).
        { destruct (Z.eq_dec u t) as [->|N]; destruct c; simpl in E, AU; rewrite ?upd_eq in E; rewrite ?upd_neq in E by auto; auto; discriminate. }
        replace (m_val _) with (m_val s) by (destruct c; auto). apply (C u k); tauto.
      * intro u. unfold m_call. destruct (m_pc s t) eqn:Ep; auto.
        destruct (Z.eq_dec u t) as [->|N]; destruct c; simpl; rewrite ?upd_eq; rewrite ?upd_neq by auto; simpl; auto.
    + destruct EN as [T0 AL]. split; [apply cas_ok_run; auto | intro u; apply pass_blocks_run; auto].
    + split; auto. intros u k U0 AU E. simpl in *. apply (C u k); auto.
      destruct (Z.eq_dec u t) as [->|N]; [rewrite upd_eq in AU; discriminate | rewrite upd_neq in AU by auto; auto].
Qed.

Lemma simulation : forall ok s h, (forall s, m_reach ok s -> minv s) -> m_history ok s h ->
  exists a, at_history a h /\ sim s a.
Proof.
  intros ok s h INV H. induction H as [|s l h H IH EN O].
  - exists at_init. split; constructor; auto.
  - destruct IH as (a & HA & S). pose proof (history_reach _ _ _ H) as R. pose proof (INV s R) as I.
    destruct (reach_facts ok s INV R) as [C PB].
    assert (E : exists a', at_steps a (m_events s l) a' /\ sim (m_step s l) a').
    { destruct l as [t c|t b|t]; destruct EN as [T0 AL] || idtac.
      - apply sim_call; auto. - apply sim_run; auto. - apply sim_die; auto. }
    destruct E as (a' & ST & S'). exists a'. split; [apply (at_history_steps _ _ _ ST); auto | auto].
Qed.

(** ** What the histories of the atomic mutex guarantee *)
Lemma running_app : forall t h1 h2 acc, running t (h1 ++ h2) acc = running t h2 (running t h1 acc).
Proof. intros t h1. induction h1 as [|[u c|u r|u] h1 IH]; intros; simpl; auto. Qed.
Lemma locked_by_app : forall t h1 h2 run acc,
  locked_by t (h1 ++ h2) run acc = locked_by t h2 (running t h1 run) (locked_by t h1 run acc).
Proof.
  intros t h1. induction h1 as [|[u c|u r|u] h1 IH]; intros; simpl; auto; destruct (u =? t); auto.
Qed.

Record told (a : atomic) (h : list event) (t : Z) : Prop := {
  td_alive : at_alive a t = true <-> ~ dead_in t h;
  td_run : at_alive a t = true -> match at_op a t with
           | OIdle => running t h None = None
           | OWaits c => running t h None = Some c
           | ODone r => exists c, running t h None = Some c /\ (forall k, c = CLock k -> r = OK -> at_owner a = t)
           end;
  td_lock : at_alive a t = true -> has_lock t h = true -> at_owner a = t;
  td_unl : at_alive a t = true -> running t h None = Some CUnlock \/ running t h None = Some CWaitUnlock -> has_lock t h = false
}.

Lemma told_other : forall a h t e a', told a h t -> at_alive a' t = at_alive a t -> at_op a' t = at_op a t ->
  (at_alive a t = true -> at_owner a = t -> at_owner a' = t) ->
  (forall x, In x e -> match x with ECall u _ | ERet u _ | EDie u => u <> t end) -> told a' (h ++ e) t.
Proof.
  intros a h t e a' [A B C D] EA EO OW NE.
  assert (R : forall acc, running t e acc = acc /\ forall l, locked_by t e acc l = l).
  { clear - NE. induction e as [|x e IH]; intros acc; simpl; auto.
    assert (N : match x with ECall u _ | ERet u _ | EDie u => u <> t end) by (apply NE; left; auto).
    assert (IH' := fun acc => IH (fun y Y => NE y (or_intror Y)) acc).
    destruct x as [u c|u r|u]; apply Z.eqb_neq in N; rewrite ?N; auto. }
  assert (ER : running t (h ++ e) None = running t h None) by (rewrite running_app; apply R).
  assert (EL : has_lock t (h ++ e) = has_lock t h) by (unfold has_lock; rewrite locked_by_app; apply R).
  constructor; rewrite ?EA, ?EO, ?ER, ?EL; auto.
  - rewrite A. unfold dead_in. split; intros H X; apply H.
    + apply in_app_or in X as [X|X]; auto. apply NE in X. congruence.
    + apply in_or_app. auto.
  - intro AL. specialize (B AL). destruct (at_op a t); auto. destruct B as (c & R1 & R2). exists c. split; auto.
    intros k K E. apply OW; eauto.
Qed.

Lemma told_step : forall a h e a', at_step a e a' -> (forall t, t <> 0 -> told a h t) -> forall t, t <> 0 -> told a' (h ++ e) t.
Proof.
  intros a h e a' S T t T0. pose proof (T t T0) as TT. destruct S as [a u c U0 AU OU|a u c owner' r U0 AU OU EF|a u r AU OU|a u AU OU ON OD|a u U0].
  - destruct (Z.eq_dec u t) as [->|N].
    + destruct TT as [A B C D]. specialize (B AU). rewrite OU in B.
      assert (ER : running t (h ++ [ECall t c]) None = Some c) by (rewrite running_app, B; simpl; rewrite Z.eqb_refl; auto).
      assert (EL : has_lock t (h ++ [ECall t c]) = match c with CUnlock | CWaitUnlock => false | _ => has_lock t h end).
      { unfold has_lock. rewrite locked_by_app. simpl. rewrite Z.eqb_refl. auto. }
      constructor; rewrite ?ER, ?EL; simpl.
      * rewrite A. unfold dead_in. split; intros H X; apply H; [|apply in_or_app; auto].
        apply in_app_or in X as [X|[X|[]]]; auto. discriminate.
      * rewrite upd_eq. auto.
      * intros _. destruct c; auto; discriminate.
      * intros _ [X|X]; inversion X; auto.
    + apply (told_other a h t); simpl; auto.
      * rewrite upd_neq; auto.
      * intros x [<-|[]]. auto.
  - destruct (Z.eq_dec u t) as [->|N].
    + destruct TT as [A B C D]. pose proof (B AU) as B'. rewrite OU in B'. rewrite app_nil_r. constructor; auto; simpl.
      * intros _. rewrite upd_eq. exists c. split; auto. intros k K E. subst c r.
        remember (CLock k) as c. remember OK as z. destruct EF; auto; subst; try discriminate; try destruct H; discriminate.
      * intros _ HL. specialize (C AU HL). inversion EF; subst; auto.
        -- exfalso. specialize (D AU). rewrite B' in D. destruct H as [-> | ->]; rewrite D in HL; auto; discriminate.
    + apply (told_other a h t); simpl; auto.
      * rewrite upd_neq; auto.
      * intros AL E. inversion EF; subst; auto; exfalso; destruct H; try congruence; destruct H0; congruence.
      * intros x [].
  - destruct (Z.eq_dec u t) as [->|N].
    + destruct TT as [A B C D]. specialize (B AU). rewrite OU in B. destruct B as (c & R1 & R2).
      assert (ER : running t (h ++ [ERet t r]) None = None) by (rewrite running_app, R1; simpl; rewrite Z.eqb_refl; auto).
      assert (EL : has_lock t (h ++ [ERet t r]) = match c with CLock _ => if r =? OK then true else has_lock t h | _ => has_lock t h end).
      { unfold has_lock. rewrite locked_by_app. simpl. rewrite Z.eqb_refl, R1. auto. }
      constructor; rewrite ?ER, ?EL; simpl.
      * rewrite A. unfold dead_in. split; intros H X; apply H; [|apply in_or_app; auto].
        apply in_app_or in X as [X|[X|[]]]; auto. discriminate.
      * rewrite upd_eq. auto.
      * intros _. destruct c; auto. destruct (Z.eqb_spec r OK); auto. intros _. apply (R2 k); auto.
      * intros _ [X|X]; discriminate.
    + apply (told_other a h t); simpl; auto.
      * rewrite upd_neq; auto.
      * intros x [<-|[]]. auto.
  - apply (told_other a h t); simpl; auto.
    + intros AL E. congruence.
    + intros x [].
  - destruct (Z.eq_dec u t) as [->|N].
    + constructor; simpl; rewrite ?upd_eq; try (intros; discriminate).
      split; [discriminate|]. intro H. exfalso. apply H. unfold dead_in. apply in_or_app. right. left. auto.
    + apply (told_other a h t); simpl; auto.
      * rewrite upd_neq; auto.
      * intros x [<-|[]]. auto.
Qed.

Lemma told_history : forall a h, at_history a h -> forall t, t <> 0 -> told a h t.
Proof.
  intros a h H. induction H as [|a h e a' H IH S]; intros t T0.
  - constructor; simpl; auto; try discriminate. split; [intros _ X; exact X | reflexivity].
  - eapply told_step; eauto.
Qed.
