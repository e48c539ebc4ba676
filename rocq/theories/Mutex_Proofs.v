(** Invariant of the mutex machine. *)
From Coq Require Import ZArith List Bool Lia.
From Verif Require Import Base Mutex_Model.
Import ListNotations.
Open Scope Z_scope.

(** program points at which the thread holds the registry guard *)
Definition in_guard (p : mpc) : Prop :=
  match p with
  | MU0 true | MU1 true | MU2 true | MU3 true _ | MU4 true | MU5 true | MURel _ => True
  | MK0 _ | MK1 _ _ | MF0 _ | MF1 _ _ | MF2 _ | MF3 _ _ | MKRel _ => True
  | _ => False
  end.
(** program points at which the word must contain the thread's identity *)
Definition pc_owner (p : mpc) : Prop :=
  match p with
  | MAdd _ | MConfirm _ | MAdd2 _ | MU2 _ | MU4 _ => True
  | _ => False
  end.
(** program points at which the thread may be the recorded owner without [m_own] *)
Definition pc_silent_owner (p : mpc) : Prop :=
  match p with
  | MAdd2 _ | MUGuard | MU0 _ | MU1 _ | MU2 _ | MU4 _ => True
  | _ => False
  end.
(** error recovery branches never taken by live threads *)
Definition pc_never (p : mpc) : Prop :=
  match p with
  | MSub _ | MU3 _ _ | MU5 _ => True
  | _ => False
  end.
(** calls other than lock, started while owning *)
Definition pc_calls_unlock (p : mpc) : Prop :=
  match p with
  | MUGuard | MU0 _ | MU1 _ | MU2 _ | MU3 _ _ | MU4 _ | MU5 _ | MURel _ => True
  | _ => False
  end.

Definition cnt_ok (p : mpc) (c : Z) : Prop :=
  match p with
  | MAdd2 _ | MU4 _ => c = 0
  | _ => 1 <= c
  end.

Definition dead_owner (s : mstate) : Prop := m_val s <> 0 /\ m_alive s (m_val s) = false.

Definition checker_ok (s : mstate) (p : mpc) : Prop :=
  match p with
  | MF0 _ => dead_owner s
  | MF1 _ c => dead_owner s /\ m_cnt s = c
  | MF2 _ => dead_owner s /\ m_cnt s = 0
  | MF3 _ v => dead_owner s /\ m_val s = v /\ m_cnt s = 0
  | _ => True
  end.

Record minv (s : mstate) : Prop := {
  mi_zero : m_pc s 0 = MIdle /\ m_own s 0 = false /\ m_alive s 0 = true;
  mi_guard : forall t, m_alive s t = true -> in_guard (m_pc s t) -> m_guard s = t;
  mi_own : forall t, m_alive s t = true -> m_own s t = true \/ pc_owner (m_pc s t) -> m_val s = t;
  mi_val : forall t, t <> 0 -> m_alive s t = true -> m_val s = t ->
           m_own s t = true \/ pc_silent_owner (m_pc s t);
  mi_never : forall t, m_alive s t = true -> ~ pc_never (m_pc s t);
  mi_unl : forall t, m_alive s t = true -> pc_calls_unlock (m_pc s t) -> m_own s t = false;
  mi_chk : forall t, m_alive s t = true -> checker_ok s (m_pc s t);
  mi_K1 : forall t ret v, m_alive s t = true -> m_pc s t = MK1 ret v ->
           v <> 0 /\ v <> t /\ (m_alive s v = false -> m_val s = v);
  mi_cnt0 : m_val s = 0 -> m_cnt s = 0;
  mi_cnt : m_val s <> 0 -> m_alive s (m_val s) = true -> cnt_ok (m_pc s (m_val s)) (m_cnt s)
}.

Lemma minv_init : minv m_init.
Proof.
  constructor; cbn; intros; try tauto; try discriminate; try lia.
Qed.

(** The guard is in the hands of nobody but possibly t. *)
Definition guard_free_for (s : mstate) (t : Z) : Prop :=
  forall u, u <> t -> m_alive s u = true -> ~ in_guard (m_pc s u).

Lemma guard_free_take : forall s t, minv s ->
  m_guard s = 0 \/ m_guard s = t \/ m_alive s (m_guard s) = false -> guard_free_for s t.
Proof.
  intros s t I H u Hu Ha Hg. pose proof (mi_guard _ I u Ha Hg) as E.
  destruct H as [H|[H|H]].
  - assert (E0 : u = 0) by congruence. destruct (mi_zero _ I) as (Z1 & _). rewrite E0, Z1 in Hg. exact Hg.
  - congruence.
  - rewrite E in H. congruence.
Qed.

Lemma minv_frame : forall s t p' val' cnt' g' own' dep' res',
  minv s -> t <> 0 -> m_alive s t = true ->
  (forall u, u <> t -> own' u = m_own s u) ->
  (g' = m_guard s \/ guard_free_for s t) ->
  (in_guard p' -> g' = t) ->
  (val' = m_val s \/ (m_val s = 0 /\ val' = t) \/ (m_val s = t /\ val' = 0)
   \/ (dead_owner s /\ m_guard s = t /\ val' = 0)) ->
  (cnt' = m_cnt s \/ m_val s = t \/ (dead_owner s /\ m_guard s = t)) ->
  (own' t = true \/ pc_owner p' -> val' = t) ->
  (val' = t -> own' t = true \/ pc_silent_owner p') ->
  ~ pc_never p' ->
  (pc_calls_unlock p' -> own' t = false) ->
  checker_ok (mkMS val' cnt' g' (m_alive s) (upd (m_pc s) t p') own' dep' res') p' ->
  (forall ret v, p' = MK1 ret v -> v <> 0 /\ v <> t /\ (m_alive s v = false -> val' = v)) ->
  (val' = 0 -> cnt' = 0) ->
  (val' = t -> cnt_ok p' cnt') ->
  minv (mkMS val' cnt' g' (m_alive s) (upd (m_pc s) t p') own' dep' res').
Proof.
  intros s t p' val' cnt' g' own' dep' res' I Ht Ha Ho Hg Hgt Hv Hc Hown Hval Hnev Hunl Hchk HK1 Hc0 Hct.
  assert (OV : forall u, u <> t -> m_alive s u = true -> u <> 0 ->
     (m_val s = u -> val' = u) /\ (val' = u -> m_val s = u)).
  { intros u Hu Hau Hu0. unfold dead_owner in Hv. split; intros E.
    - destruct Hv as [Hv|[[Hv _]|[[Hv _]|[[Hv0 Hv] _]]]]; subst; try congruence.
    - destruct Hv as [Hv|[[_ Hv]|[[_ Hv]|[_ [_ Hv]]]]]; congruence. }
  assert (OD : forall u, u <> t -> m_alive s u = true -> in_guard (m_pc s u) -> dead_owner s ->
     val' = m_val s /\ cnt' = m_cnt s).
  { intros u Hu Hau Hgu D. pose proof (mi_guard _ I u Hau Hgu) as E. unfold dead_owner in *. split.
    - destruct Hv as [Hv|[[Hv _]|[[Hv _]|[_ [Hv _]]]]]; subst; try tauto; try congruence.
      destruct D as [_ D]. congruence.
    - destruct Hc as [Hc|[Hc|[_ Hc]]]; subst; try tauto; try congruence.
      destruct D as [_ D]. congruence. }
  constructor; cbn [m_val m_cnt m_guard m_alive m_pc m_own].
  - rewrite upd_neq by auto. rewrite Ho by auto. exact (mi_zero _ I).
  - intros u Hau Hgu. destruct (Z.eq_dec u t) as [->|Hu].
    + rewrite upd_eq in Hgu. auto.
    + rewrite upd_neq in Hgu by auto. destruct Hg as [->|Hg]; [now apply (mi_guard _ I)|].
      exfalso. exact (Hg u Hu Hau Hgu).
  - intros u Hau Hou. destruct (Z.eq_dec u t) as [->|Hu].
    + rewrite upd_eq in Hou. auto.
    + rewrite upd_neq in Hou by auto. rewrite Ho in Hou by auto.
      assert (Hu0 : u <> 0).
      { intros ->. destruct (mi_zero _ I) as (Z1 & Z2 & _). rewrite Z1, Z2 in Hou. cbn in Hou. destruct Hou; [discriminate|tauto]. }
      apply OV; auto. now apply (mi_own _ I).
  - intros u Hu0 Hau E. destruct (Z.eq_dec u t) as [->|Hu].
    + rewrite upd_eq. auto.
    + rewrite upd_neq by auto. rewrite Ho by auto. apply (mi_val _ I); auto. now apply OV.
  - intros u Hau. destruct (Z.eq_dec u t) as [->|Hu].
    + now rewrite upd_eq.
    + rewrite upd_neq by auto. now apply (mi_never _ I).
  - intros u Hau Hcu. destruct (Z.eq_dec u t) as [->|Hu].
    + rewrite upd_eq in Hcu. auto.
    + rewrite upd_neq in Hcu by auto. rewrite Ho by auto. now apply (mi_unl _ I).
  - intros u Hau. destruct (Z.eq_dec u t) as [->|Hu].
    + now rewrite upd_eq.
    + rewrite upd_neq by auto. pose proof (mi_chk _ I u Hau) as C. pose proof (OD u Hu Hau) as D.
      destruct (m_pc s u); cbn in C, D |- *; try exact I0; try exact C;
        unfold dead_owner in *; cbn [m_val m_cnt m_alive];
        (destruct D as [-> ->]; [exact Logic.I | tauto | tauto]).
  - intros u ret v Hau E. destruct (Z.eq_dec u t) as [->|Hu].
    + rewrite upd_eq in E. eauto.
    + rewrite upd_neq in E by auto. destruct (mi_K1 _ I u ret v Hau E) as (K1 & K2 & K3). repeat split; auto.
      intros Dv. specialize (K3 Dv).
      assert (D : dead_owner s) by (unfold dead_owner; rewrite K3; auto).
      destruct (OD u Hu Hau) as [-> _]; auto. now rewrite E.
  - exact Hc0.
  - intros Hn Hal. destruct (Z.eq_dec val' t) as [Et|Et].
    + rewrite Et, upd_eq. auto.
    + rewrite upd_neq by auto.
      assert (Ev : m_val s = val') by (apply (OV val'); auto).
      assert (Ec : cnt' = m_cnt s).
      { destruct Hc as [Hc|[Hc|[[_ Hc] _]]]; auto; [congruence|]. rewrite Ev in Hc. congruence. }
      rewrite Ec, <- Ev. apply (mi_cnt _ I); rewrite Ev; auto.
Qed.

Ltac m_expose :=
  unfold m_failed, m_take_guard, m_drop_guard, m_unlock_end, m_unlocked, m_locked, m_return, m_goto, m_set, dead_owner in *;
  cbn [m_val m_cnt m_guard m_alive m_pc m_own m_depth m_res] in *.

Ltac m_cases :=
  repeat match goal with
  | |- context [if ?c then _ else _] => destruct c eqn:?
  end;
  repeat match goal with
  | H : (_ || _) = true |- _ => apply orb_true_iff in H; destruct H as [H|H]
  | H : (_ || _) = false |- _ => apply orb_false_iff in H; destruct H
  | H : (_ =? _) = true |- _ => apply Z.eqb_eq in H
  | H : (_ =? _) = false |- _ => apply Z.eqb_neq in H
  | H : (_ <=? _) = true |- _ => apply Z.leb_le in H
  | H : (_ <=? _) = false |- _ => apply Z.leb_gt in H
  | H : (_ <? _) = true |- _ => apply Z.ltb_lt in H
  | H : (_ <? _) = false |- _ => apply Z.ltb_ge in H
  | H : negb _ = true |- _ => apply negb_true_iff in H
  | H : negb _ = false |- _ => apply negb_false_iff in H
  end.

Lemma minv_run : forall s t b, minv s -> t <> 0 -> m_alive s t = true -> minv (m_run s t b).
Proof.
  intros s t b I Ht Ha.
  pose proof (mi_guard _ I t Ha) as G. pose proof (mi_own _ I t Ha) as O.
  pose proof (mi_val _ I t Ht Ha) as V. pose proof (mi_never _ I t Ha) as N.
  pose proof (mi_unl _ I t Ha) as U. pose proof (mi_chk _ I t Ha) as C.
  pose proof (fun ret v => mi_K1 _ I t ret v Ha) as K.
  pose proof (mi_cnt0 _ I) as C0.
  assert (CT : m_val s = t -> cnt_ok (m_pc s t) (m_cnt s)).
  { intros E. rewrite <- E at 1. apply (mi_cnt _ I); rewrite E; auto. }
  pose proof (guard_free_take s t I) as GF.
  assert (OT : m_own s t = true -> m_val s = t) by tauto.
  unfold m_run. destruct (m_pc s t) eqn:P; cbn [in_guard pc_owner pc_silent_owner pc_never pc_calls_unlock cnt_ok checker_ok] in *;
    try (exfalso; tauto); try exact I.
  all: m_expose.
  all: repeat (match goal with |- context [match ?k with MBlock => _ | MTry => _ | MTimed => _ end] => destruct k
                           | |- context [match ?r with Some _ => _ | None => _ end] => destruct r end).
  all: m_expose; m_cases; try exact I; m_expose.
  all: apply minv_frame; auto; cbn [in_guard pc_owner pc_silent_owner pc_never pc_calls_unlock cnt_ok checker_ok];
       unfold dead_owner; cbn [m_val m_cnt m_alive]; rewrite ?upd_eq; intros; rewrite ?upd_neq by auto;
       auto; try tauto; try discriminate; try lia; try (intuition lia).
  - specialize (U Logic.I). destruct H as [H|H]; [congruence | tauto].
  - specialize (U Logic.I). destruct H as [H|H]; [congruence | tauto].
  - match goal with E : MK1 _ _ = MK1 _ _ |- _ => injection E as <- <- end. auto.
  - destruct (K _ _ eq_refl) as (K1 & K2 & K3). rewrite K3 by auto. auto.
  - exfalso. intuition congruence.
Qed.

Lemma minv_call : forall s t c, minv s -> t <> 0 -> m_alive s t = true -> minv (m_call s t c).
Proof.
  intros s t c I Ht Ha.
  pose proof (mi_own _ I t Ha) as O.
  pose proof (mi_val _ I t Ht Ha) as V.
  pose proof (mi_cnt0 _ I) as C0.
  assert (CT : m_val s = t -> cnt_ok (m_pc s t) (m_cnt s)).
  { intros E. rewrite <- E at 1. apply (mi_cnt _ I); rewrite E; auto. }
  unfold m_call. destruct (m_pc s t) eqn:P; try exact I.
  destruct c; m_expose; apply minv_frame; auto;
    cbn [in_guard pc_owner pc_silent_owner pc_never pc_calls_unlock cnt_ok checker_ok] in *;
    rewrite ?upd_eq; intros; rewrite ?upd_neq by auto; auto; try tauto; try discriminate.
  - destruct H; [discriminate|tauto].
  - destruct H; [discriminate|tauto].
Qed.

Lemma minv_die : forall s t, minv s -> t <> 0 ->
  (forall c ret, m_alive s c = true -> m_pc s c = MK1 ret t -> m_val s = t) ->
  minv (m_step s (MDie t)).
Proof.
  intros s t I Ht Hk. cbn [m_step].
  assert (A : forall u, upd (m_alive s) t false u = true -> m_alive s u = true).
  { intros u. destruct (upd_cases _ (m_alive s) t false u) as [[-> ->]|[_ ->]]; congruence. }
  assert (D : forall u, m_alive s u = false -> upd (m_alive s) t false u = false).
  { intros u. destruct (upd_cases _ (m_alive s) t false u) as [[-> ->]|[_ ->]]; congruence. }
  constructor; cbn [m_val m_cnt m_guard m_alive m_pc m_own].
  - rewrite upd_neq by auto. exact (mi_zero _ I).
  - intros u Hu. apply (mi_guard _ I); auto.
  - intros u Hu. apply (mi_own _ I); auto.
  - intros u H0 Hu. apply (mi_val _ I); auto.
  - intros u Hu. apply (mi_never _ I); auto.
  - intros u Hu. apply (mi_unl _ I); auto.
  - intros u Hu. pose proof (mi_chk _ I u (A u Hu)) as C.
    destruct (m_pc s u); cbn in *; unfold dead_owner in *; cbn [m_val m_cnt m_alive]; intuition auto.
  - intros u ret v Hu E. destruct (mi_K1 _ I u ret v (A u Hu) E) as (K1 & K2 & K3). repeat split; auto.
    destruct (upd_cases _ (m_alive s) t false v) as [[-> ->]|[_ ->]]; auto.
    intros _. eauto.
  - exact (mi_cnt0 _ I).
  - intros Hv Hu. apply (mi_cnt _ I); auto.
Qed.

Lemma minv_reach : forall s, m_reach no_exit_in_window s -> minv s.
Proof.
  intros s R. induction R as [|s l R IH En Ok]; [apply minv_init|].
  destruct l as [t c|t b|t]; cbn in En, Ok.
  - destruct En. now apply minv_call.
  - destruct En. now apply minv_run.
  - now apply minv_die.
Qed.

(** *** Without releases from inside a condition wait the dangerous window does not exist *)
Definition unguarded (p : mpc) : Prop :=
  match p with MU0 false | MU1 false | MU2 false | MU3 false _ | MU4 false | MU5 false => True | _ => False end.

Definition winv (s : mstate) : Prop :=
  (forall t, ~ unguarded (m_pc s t)) /\
  (forall c ret v, m_alive s c = true -> m_pc s c = MK1 ret v -> m_val s = v).

Lemma winv_frame : forall s t p' val' cnt' g' own' dep' res',
  minv s -> winv s -> m_alive s t = true ->
  ~ unguarded p' ->
  (forall ret v, p' = MK1 ret v -> val' = v) ->
  (val' = m_val s \/ m_val s = 0 \/ in_guard (m_pc s t)) ->
  winv (mkMS val' cnt' g' (m_alive s) (upd (m_pc s) t p') own' dep' res').
Proof.
  intros s t p' val' cnt' g' own' dep' res' I [W1 W2] Ha Hu Hp Hv. split; cbn [m_val m_alive m_pc].
  - intros u. destruct (upd_cases _ (m_pc s) t p' u) as [[-> ->]|[_ ->]]; auto.
  - intros c ret v Hc. destruct (upd_cases _ (m_pc s) t p' c) as [[-> ->]|[Hct ->]]; [eauto|].
    intros E. specialize (W2 c ret v Hc E).
    destruct Hv as [->|[Hv|Hg]]; auto.
    + exfalso. destruct (mi_K1 _ I c ret v Hc E) as (K1 & _). congruence.
    + exfalso. apply Hct. rewrite <- (mi_guard _ I c Hc), <- (mi_guard _ I t Ha); auto. now rewrite E.
Qed.

Lemma no_cond_wait_run : forall s t b, minv s -> winv s -> t <> 0 -> m_alive s t = true -> winv (m_run s t b).
Proof.
  intros s t b I W Ht Ha.
  pose proof (mi_never _ I t Ha) as N. pose proof (proj1 W t) as U.
  unfold m_run. destruct (m_pc s t) eqn:P; try exact W;
    cbn [pc_never unguarded] in *; try (exfalso; tauto).
  all: m_expose; repeat (match goal with |- context [match ?k with MBlock => _ | MTry => _ | MTimed => _ end] => destruct k
                           | |- context [match ?r with Some _ => _ | None => _ end] => destruct r end).
  all: try (destruct g; cbn [unguarded] in *; [|exfalso; tauto]).
  all: m_expose; m_cases; try exact W; m_expose.
  all: apply winv_frame; auto; rewrite ?P; cbn [unguarded in_guard]; auto; intros; try discriminate.
  all: match goal with E : MK1 _ _ = MK1 _ _ |- _ => injection E as <- <- end; auto.
Qed.

Lemma no_cond_wait_window : forall s, m_reach no_cond_wait s -> minv s /\ winv s.
Proof.
  intros s R. induction R as [|s l R [I W] En Ok].
  - split; [apply minv_init|]. split; cbn; intros; [tauto | discriminate].
  - destruct l as [t c|t b|t]; cbn in En, Ok.
    + destruct En. split; [now apply minv_call|]. cbn [m_step]. unfold m_call.
      destruct (m_pc s t) eqn:P; auto. destruct c; try tauto; m_expose; apply winv_frame; cbn; auto; discriminate.
    + destruct En. split; [now apply minv_run | now apply no_cond_wait_run].
    + split; [apply minv_die; auto; intros c ret Hc E; exact (proj2 W c ret t Hc E)|].
      destruct W as [W1 W2]. split; cbn [m_step m_pc m_alive m_val]; auto.
      intros c ret v Hc. apply W2 with (c := c) (ret := ret) (v := v).
      destruct (upd_cases _ (m_alive s) t false c) as [[-> E]|[_ E]]; congruence.
Qed.
