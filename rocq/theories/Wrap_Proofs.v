(** 32-bit lock counter: agreement with the unbounded counter below the wrap; exclusion for any counter. *)
From Coq Require Import ZArith List Bool Lia.
From Verif Require Import Base Mutex_Model Mutex_Spec Mutex_Proofs Mutex_Proofs2 Wrap_Model.
Import ListNotations.
Open Scope Z_scope.

Lemma s32_id : forall x, is_int32 x -> s32 x = x.
Proof.
  intros x [H1 H2]. unfold INT_MIN, INT_MAX in *. unfold s32, two32.
  destruct (Z_lt_le_dec x 0) as [Hn|Hp].
  - replace (x mod 4294967296) with (x + 4294967296) by (apply Z.mod_unique with (q := -1); lia).
    destruct (Z.ltb_spec (x + 4294967296) 2147483648); lia.
  - rewrite Z.mod_small by lia. destruct (Z.ltb_spec x 2147483648); lia.
Qed.

Lemma with_cnt_same : forall s, with_cnt s (m_cnt s) = s.
Proof. intros []. reflexivity. Qed.

(** *** below the wrap *)
Definition pc_waiting (p : mpc) : Prop :=
  match p with
  | MCas _ | MKGuard (Some _) | MK0 (Some _) | MK1 (Some _) _ | MF0 (Some _) | MF1 (Some _) _
  | MF2 (Some _) | MF3 (Some _) _ | MKRel (Some _) => True
  | _ => False
  end.
Definition pc_rising (p : mpc) : Prop := match p with MRead _ | MAdd _ => True | _ => False end.

Record cinv (s : mstate) : Prop := {
  c_range : 0 <= m_cnt s <= INT_MAX;
  c_low : forall t, m_alive s t = true -> pc_rising (m_pc s t) -> m_val s = t -> m_cnt s < INT_MAX;
  c_wait : forall t, m_alive s t = true -> pc_waiting (m_pc s t) -> m_val s <> t
}.

Lemma cinv_init : cinv m_init.
Proof. constructor; cbn; unfold INT_MAX; intros; try tauto; lia. Qed.

Lemma cinv_frame : forall s t p' val' cnt' g' own' dep' res',
  minv s -> cinv s -> t <> 0 -> m_alive s t = true ->
  (val' = m_val s \/ val' = 0 \/ val' = t) ->
  (cnt' <= m_cnt s \/ m_val s = t \/ val' = t) ->
  (val' = m_val s \/ val' = 0 \/ cnt' <= m_cnt s \/ val' = t) ->
  0 <= cnt' <= INT_MAX ->
  (pc_rising p' -> val' = t -> cnt' < INT_MAX) ->
  (pc_waiting p' -> val' <> t) ->
  cinv (mkMS val' cnt' g' (m_alive s) (upd (m_pc s) t p') own' dep' res').
Proof.
  intros s t p' val' cnt' g' own' dep' res' I C Ht Ha Hv Hc Hvc Hr Hp Hw.
  assert (Z0 : m_pc s 0 = MIdle) by exact (proj1 (mi_zero _ I)).
  constructor; cbn [m_val m_cnt m_alive m_pc]; auto.
  - intros u Hu. destruct (upd_cases _ (m_pc s) t p' u) as [[-> ->]|[Hn ->]]; auto.
    intros R E. assert (u <> 0) by (intros ->; rewrite Z0 in R; exact R).
    assert (Es : m_val s = u) by (destruct Hv as [->|[->| ->]]; congruence).
    pose proof (c_low _ C u Hu R Es). destruct Hc as [Hc|[Hc|Hc]]; [lia|congruence|congruence].
  - intros u Hu. destruct (upd_cases _ (m_pc s) t p' u) as [[-> ->]|[Hn ->]]; auto.
    intros R E. assert (u <> 0) by (intros ->; rewrite Z0 in R; exact R).
    assert (Es : m_val s = u) by (destruct Hv as [->|[->| ->]]; congruence).
    exact (c_wait _ C u Hu R Es).
Qed.

Lemma cinv_run : forall s t b, minv s -> cinv s -> t <> 0 -> m_alive s t = true -> cinv (m_run s t b).
Proof.
  intros s t b I C Ht Ha.
  pose proof (mi_own _ I t Ha) as O. pose proof (mi_never _ I t Ha) as N.
  pose proof (mi_chk _ I t Ha) as K.
  assert (CT : m_val s = t -> cnt_ok (m_pc s t) (m_cnt s)).
  { intros E. rewrite <- E at 1. apply (mi_cnt _ I); rewrite E; auto. }
  pose proof (c_range _ C) as R. pose proof (c_low _ C t Ha) as L. pose proof (c_wait _ C t Ha) as W.
  unfold m_run. destruct (m_pc s t) eqn:P; cbn [pc_owner pc_never cnt_ok checker_ok pc_rising pc_waiting] in *;
    try (exfalso; tauto); try exact C.
  all: m_expose.
  all: repeat (match goal with |- context [match ?k with MBlock => _ | MTry => _ | MTimed => _ end] => destruct k
                           | |- context [match ?r with Some _ => _ | None => _ end] => destruct r end).
  all: m_expose; m_cases; try exact C; m_expose.
  all: apply cinv_frame; auto; cbn [pc_rising pc_waiting]; unfold INT_MAX in *; intros; auto; try tauto; try lia;
    try (intuition lia); try (intuition congruence).
  all: try (destruct ret; try tauto; auto; lia).
Qed.

Lemma cinv_step : forall s l, minv s -> cinv s -> m_enabled s l -> shallow s l -> cinv (m_step s l).
Proof.
  intros s [t c|t b|t] I C En Sh; cbn [m_step m_enabled shallow] in *.
  - destruct En as [Ht Ha]. unfold m_call. destruct (m_pc s t) eqn:P; auto.
    pose proof (c_range _ C) as R.
    destruct c; m_expose; apply cinv_frame; auto; cbn; try tauto; try lia; auto.
  - destruct En. now apply cinv_run.
  - constructor; cbn [m_val m_cnt m_alive m_pc].
    + exact (c_range _ C).
    + intros u Hu. apply (c_low _ C u). destruct (upd_cases _ (m_alive s) t false u) as [[-> E]|[_ E]]; congruence.
    + intros u Hu. apply (c_wait _ C u). destruct (upd_cases _ (m_alive s) t false u) as [[-> E]|[_ E]]; congruence.
Qed.

Lemma i_step_same : forall s, 0 <= m_cnt s <= INT_MAX -> with_cnt s (s32 (m_cnt s)) = s.
Proof.
  intros s H. rewrite s32_id; [apply with_cnt_same|]. unfold is_int32, INT_MIN, INT_MAX in *. lia.
Qed.

Lemma reach_weaken : forall (ok ok' : mstate -> mlabel -> Prop), (forall s l, ok s l -> ok' s l) ->
  forall s, m_reach ok s -> m_reach ok' s.
Proof. intros ok ok' H s R. induction R; constructor; auto. Qed.
Lemma path_weaken : forall (ok ok' : mstate -> mlabel -> Prop), (forall s l, ok s l -> ok' s l) ->
  forall s ls s', m_path ok s ls s' -> m_path ok' s ls s'.
Proof. intros ok ok' H s ls s' R. induction R; constructor; auto. Qed.

Lemma i_reach_same : forall s, i_reach window_shallow s -> m_reach window_shallow s /\ minv s /\ cinv s.
Proof.
  intros s R. induction R as [|s l R [Rm [I C]] En Ok].
  - split; [constructor|]. split; [apply minv_init | apply cinv_init].
  - assert (Rm' : m_reach window_shallow (m_step s l)) by (constructor; auto).
    assert (C' : cinv (m_step s l)) by (apply cinv_step; auto; apply Ok).
    unfold i_step. rewrite i_step_same by (apply (c_range _ C')).
    split; [exact Rm'|]. split; [|exact C'].
    apply minv_reach. apply (reach_weaken window_shallow); [|exact Rm']. intros s0 l0 H. apply H.
Qed.

Lemma i_path_same : forall s ls s', i_reach window_shallow s -> i_path window_shallow s ls s' -> m_path window_shallow s ls s'.
Proof.
  intros s ls s' R P. induction P as [s|s l ls s' En Ok P IH]; [constructor|].
  assert (E : i_step s l = m_step s l).
  { destruct (i_reach_same s R) as (_ & I & C). unfold i_step. apply i_step_same.
    apply (c_range _ (cinv_step s l I C En (proj2 Ok))). }
  rewrite E in IH. constructor; auto. apply IH. rewrite <- E. now constructor.
Qed.

(** *** exclusion with an arbitrary counter *)
Definition a_owner (p : mpc) : Prop :=
  match p with
  | MAdd _ | MConfirm _ | MSub _ | MAdd2 _ | MU2 _ | MU3 _ _ | MU4 _ => True
  | _ => False
  end.
Definition a_silent (p : mpc) : Prop :=
  match p with
  | MAdd2 _ | MUGuard | MU0 _ | MU1 _ | MU2 _ | MU3 _ _ | MU4 _ => True
  | _ => False
  end.
Definition a_never (p : mpc) : Prop := match p with MU5 _ => True | _ => False end.
Definition a_checker (s : mstate) (p : mpc) : Prop :=
  match p with
  | MF0 _ | MF1 _ _ | MF2 _ => dead_owner s
  | MF3 _ v => dead_owner s /\ m_val s = v
  | _ => True
  end.

Record ainv (s : mstate) : Prop := {
  ai_zero : m_pc s 0 = MIdle /\ m_own s 0 = false /\ m_alive s 0 = true;
  ai_guard : forall t, m_alive s t = true -> in_guard (m_pc s t) -> m_guard s = t;
  ai_own : forall t, m_alive s t = true -> m_own s t = true \/ a_owner (m_pc s t) -> m_val s = t;
  ai_val : forall t, t <> 0 -> m_alive s t = true -> m_val s = t -> m_own s t = true \/ a_silent (m_pc s t);
  ai_never : forall t, m_alive s t = true -> ~ a_never (m_pc s t);
  ai_unl : forall t, m_alive s t = true -> pc_calls_unlock (m_pc s t) -> m_own s t = false;
  ai_chk : forall t, m_alive s t = true -> a_checker s (m_pc s t);
  ai_K1 : forall t ret v, m_alive s t = true -> m_pc s t = MK1 ret v ->
           v <> 0 /\ v <> t /\ (m_alive s v = false -> m_val s = v)
}.

Lemma ainv_init : ainv m_init.
Proof.
  constructor; cbn; intros; try tauto; try discriminate; try congruence.
  destruct H0; [discriminate|tauto].
Qed.

Lemma ainv_cnt : forall s c, ainv s -> ainv (with_cnt s c).
Proof.
  intros s c I. constructor; unfold with_cnt; cbn [m_val m_cnt m_guard m_alive m_pc m_own]; apply I.
Qed.

Lemma a_guard_free_take : forall s t, ainv s ->
  m_guard s = 0 \/ m_guard s = t \/ m_alive s (m_guard s) = false -> guard_free_for s t.
Proof.
  intros s t I H u Hu Ha Hg. pose proof (ai_guard _ I u Ha Hg) as E.
  destruct H as [H|[H|H]].
  - assert (E0 : u = 0) by congruence. destruct (ai_zero _ I) as (Z1 & _). rewrite E0, Z1 in Hg. exact Hg.
  - congruence.
  - rewrite E in H. congruence.
Qed.

Lemma ainv_frame : forall s t p' val' cnt' g' own' dep' res',
  ainv s -> t <> 0 -> m_alive s t = true ->
  (forall u, u <> t -> own' u = m_own s u) ->
  (g' = m_guard s \/ guard_free_for s t) ->
  (in_guard p' -> g' = t) ->
  (val' = m_val s \/ (m_val s = 0 /\ val' = t) \/ (m_val s = t /\ val' = 0)
   \/ (dead_owner s /\ m_guard s = t /\ val' = 0)) ->
  (own' t = true \/ a_owner p' -> val' = t) ->
  (val' = t -> own' t = true \/ a_silent p') ->
  ~ a_never p' ->
  (pc_calls_unlock p' -> own' t = false) ->
  a_checker (mkMS val' cnt' g' (m_alive s) (upd (m_pc s) t p') own' dep' res') p' ->
  (forall ret v, p' = MK1 ret v -> v <> 0 /\ v <> t /\ (m_alive s v = false -> val' = v)) ->
  ainv (mkMS val' cnt' g' (m_alive s) (upd (m_pc s) t p') own' dep' res').
Proof.
  intros s t p' val' cnt' g' own' dep' res' I Ht Ha Ho Hg Hgt Hv Hown Hval Hnev Hunl Hchk HK1.
  assert (OV : forall u, u <> t -> m_alive s u = true -> u <> 0 ->
     (m_val s = u -> val' = u) /\ (val' = u -> m_val s = u)).
  { intros u Hu Hau Hu0. unfold dead_owner in Hv. split; intros E.
    - destruct Hv as [Hv|[[Hv _]|[[Hv _]|[[Hv0 Hv] _]]]]; subst; try congruence.
    - destruct Hv as [Hv|[[_ Hv]|[[_ Hv]|[_ [_ Hv]]]]]; congruence. }
  assert (OD : forall u, u <> t -> m_alive s u = true -> in_guard (m_pc s u) -> dead_owner s -> val' = m_val s).
  { intros u Hu Hau Hgu D. pose proof (ai_guard _ I u Hau Hgu) as E. unfold dead_owner in *.
    destruct Hv as [Hv|[[Hv _]|[[Hv _]|[_ [Hv _]]]]]; subst; try tauto; try congruence.
    destruct D as [_ D]. congruence. }
  constructor; cbn [m_val m_cnt m_guard m_alive m_pc m_own].
  - rewrite upd_neq by auto. rewrite Ho by auto. exact (ai_zero _ I).
  - intros u Hau Hgu. destruct (Z.eq_dec u t) as [->|Hu].
    + rewrite upd_eq in Hgu. auto.
    + rewrite upd_neq in Hgu by auto. destruct Hg as [->|Hg]; [now apply (ai_guard _ I)|].
      exfalso. exact (Hg u Hu Hau Hgu).
  - intros u Hau Hou. destruct (Z.eq_dec u t) as [->|Hu].
    + rewrite upd_eq in Hou. auto.
    + rewrite upd_neq in Hou by auto. rewrite Ho in Hou by auto.
      assert (Hu0 : u <> 0).
      { intros ->. destruct (ai_zero _ I) as (Z1 & Z2 & _). rewrite Z1, Z2 in Hou. cbn in Hou. destruct Hou; [discriminate|tauto]. }
      apply OV; auto. now apply (ai_own _ I).
  - intros u Hu0 Hau E. destruct (Z.eq_dec u t) as [->|Hu].
    + rewrite upd_eq. auto.
    + rewrite upd_neq by auto. rewrite Ho by auto. apply (ai_val _ I); auto. now apply OV.
  - intros u Hau. destruct (Z.eq_dec u t) as [->|Hu].
    + now rewrite upd_eq.
    + rewrite upd_neq by auto. now apply (ai_never _ I).
  - intros u Hau Hcu. destruct (Z.eq_dec u t) as [->|Hu].
    + rewrite upd_eq in Hcu. auto.
    + rewrite upd_neq in Hcu by auto. rewrite Ho by auto. now apply (ai_unl _ I).
  - intros u Hau. destruct (Z.eq_dec u t) as [->|Hu].
    + now rewrite upd_eq.
    + rewrite upd_neq by auto. pose proof (ai_chk _ I u Hau) as C. pose proof (OD u Hu Hau) as D.
      destruct (m_pc s u); cbn in C, D |- *; try exact C;
        unfold dead_owner in *; cbn [m_val m_cnt m_alive]; (rewrite D; [exact C | exact Logic.I | tauto]).
  - intros u ret v Hau E. destruct (Z.eq_dec u t) as [->|Hu].
    + rewrite upd_eq in E. eauto.
    + rewrite upd_neq in E by auto. destruct (ai_K1 _ I u ret v Hau E) as (K1 & K2 & K3). repeat split; auto.
      intros Dv. specialize (K3 Dv).
      assert (D : dead_owner s) by (unfold dead_owner; rewrite K3; auto).
      rewrite (OD u Hu Hau); auto. now rewrite E.
Qed.

Lemma ainv_run : forall s t b, ainv s -> t <> 0 -> m_alive s t = true -> ainv (m_run s t b).
Proof.
  intros s t b I Ht Ha.
  pose proof (ai_guard _ I t Ha) as G. pose proof (ai_own _ I t Ha) as O.
  pose proof (ai_val _ I t Ht Ha) as V. pose proof (ai_never _ I t Ha) as N.
  pose proof (ai_unl _ I t Ha) as U. pose proof (ai_chk _ I t Ha) as C.
  pose proof (fun ret v => ai_K1 _ I t ret v Ha) as K.
  pose proof (a_guard_free_take s t I) as GF.
  assert (OT : m_own s t = true -> m_val s = t) by tauto.
  unfold m_run. destruct (m_pc s t) eqn:P; cbn [in_guard a_owner a_silent a_never pc_calls_unlock a_checker] in *;
    try (exfalso; tauto); try exact I.
  all: m_expose.
  all: repeat (match goal with |- context [match ?k with MBlock => _ | MTry => _ | MTimed => _ end] => destruct k
                           | |- context [match ?r with Some _ => _ | None => _ end] => destruct r end).
  all: m_expose; m_cases; try exact I; m_expose.
  all: apply ainv_frame; auto; cbn [in_guard a_owner a_silent a_never pc_calls_unlock a_checker];
       unfold dead_owner; cbn [m_val m_cnt m_alive]; rewrite ?upd_eq; intros; rewrite ?upd_neq by auto;
       auto; try tauto; try discriminate; try (intuition congruence).
  destruct (K _ _ eq_refl) as (K1 & K2 & K3). rewrite K3 by auto. auto.
Qed.

Lemma ainv_call : forall s t c, ainv s -> t <> 0 -> m_alive s t = true -> ainv (m_call s t c).
Proof.
  intros s t c I Ht Ha.
  pose proof (ai_own _ I t Ha) as O.
  pose proof (ai_val _ I t Ht Ha) as V.
  unfold m_call. destruct (m_pc s t) eqn:P; try exact I.
  destruct c; m_expose; apply ainv_frame; auto;
    cbn [in_guard a_owner a_silent a_never pc_calls_unlock a_checker] in *;
    rewrite ?upd_eq; intros; rewrite ?upd_neq by auto; auto; try tauto; try discriminate.
  - destruct H; [discriminate|tauto].
  - destruct H; [discriminate|tauto].
Qed.

Lemma ainv_die : forall s t, ainv s -> t <> 0 ->
  (forall c ret, m_alive s c = true -> m_pc s c = MK1 ret t -> m_val s = t) ->
  ainv (m_step s (MDie t)).
Proof.
  intros s t I Ht Hk. cbn [m_step].
  assert (A : forall u, upd (m_alive s) t false u = true -> m_alive s u = true).
  { intros u. destruct (upd_cases _ (m_alive s) t false u) as [[-> ->]|[_ ->]]; congruence. }
  assert (D : forall u, m_alive s u = false -> upd (m_alive s) t false u = false).
  { intros u. destruct (upd_cases _ (m_alive s) t false u) as [[-> ->]|[_ ->]]; congruence. }
  constructor; cbn [m_val m_cnt m_guard m_alive m_pc m_own].
  - rewrite upd_neq by auto. exact (ai_zero _ I).
  - intros u Hu. apply (ai_guard _ I); auto.
  - intros u Hu. apply (ai_own _ I); auto.
  - intros u H0 Hu. apply (ai_val _ I); auto.
  - intros u Hu. apply (ai_never _ I); auto.
  - intros u Hu. apply (ai_unl _ I); auto.
  - intros u Hu. pose proof (ai_chk _ I u (A u Hu)) as C.
    destruct (m_pc s u); cbn in *; unfold dead_owner in *; cbn [m_val m_cnt m_alive]; intuition auto.
  - intros u ret v Hu E. destruct (ai_K1 _ I u ret v (A u Hu) E) as (K1 & K2 & K3). repeat split; auto.
    destruct (upd_cases _ (m_alive s) t false v) as [[-> ->]|[_ ->]]; auto.
    intros _. eauto.
Qed.

Lemma ainv_reach : forall s, a_reach no_exit_in_window s -> ainv s.
Proof.
  intros s R. induction R as [|s l c R IH En Ok]; [apply ainv_init|]. apply ainv_cnt.
  destruct l as [t k|t b|t]; cbn in En, Ok.
  - destruct En. now apply ainv_call.
  - destruct En. now apply ainv_run.
  - now apply ainv_die.
Qed.

Lemma i_reach_a : forall ok s, i_reach ok s -> a_reach ok s.
Proof. intros ok s R. induction R; constructor; auto. Qed.
