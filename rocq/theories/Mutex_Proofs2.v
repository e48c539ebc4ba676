(** Consequences of the mutex invariant along executions. *)
From Coq Require Import ZArith List Bool Lia.
From Verif Require Import Base Mutex_Model Mutex_Spec Mutex_Proofs.
Import ListNotations.
Open Scope Z_scope.

Lemma path_reach : forall ok s ls s', m_reach ok s -> m_path ok s ls s' -> m_reach ok s'.
Proof. intros ok s ls s' R P. induction P; auto. apply IHP. now constructor. Qed.

(** steps of other threads do not touch t's local state *)
Definition same_local (t : Z) (s s' : mstate) : Prop :=
  m_pc s' t = m_pc s t /\ m_own s' t = m_own s t /\ m_res s' t = m_res s t /\ m_depth s' t = m_depth s t.

Lemma run_other : forall s u t b, u <> t -> same_local t s (m_run s u b).
Proof.
  intros s u t b H. assert (H' : t <> u) by auto. unfold same_local, m_run.
  destruct (m_pc s u); m_expose;
    repeat (match goal with |- context [match ?k with MBlock => _ | MTry => _ | MTimed => _ end] => destruct k
                           | |- context [match ?r with Some _ => _ | None => _ end] => destruct r
                           | |- context [if ?c then _ else _] => destruct c end);
    cbn [m_val m_cnt m_guard m_alive m_pc m_own m_depth m_res]; rewrite ?upd_neq by auto; auto.
Qed.

Lemma call_other : forall s u t c, u <> t -> same_local t s (m_call s u c).
Proof.
  intros s u t c H. assert (H' : t <> u) by auto. unfold same_local, m_call.
  destruct (m_pc s u); auto. destruct c; m_expose; rewrite ?upd_neq by auto; auto.
Qed.

Lemma die_other : forall s u t, same_local t s (m_step s (MDie u)).
Proof. intros. unfold same_local. cbn. auto. Qed.

Lemma alive_run : forall s u b, m_alive (m_run s u b) = m_alive s.
Proof.
  intros s u b. unfold m_run.
  destruct (m_pc s u); m_expose;
    repeat (match goal with |- context [match ?k with MBlock => _ | MTry => _ | MTimed => _ end] => destruct k
                           | |- context [match ?r with Some _ => _ | None => _ end] => destruct r
                           | |- context [if ?c then _ else _] => destruct c end);
    reflexivity.
Qed.
Lemma alive_call : forall s u c, m_alive (m_call s u c) = m_alive s.
Proof. intros s u c. unfold m_call. destruct (m_pc s u); auto. destruct c; reflexivity. Qed.

Lemma one_call_cons : forall t l ls, one_call t (l :: ls) -> (forall c, l <> MCall t c) /\ l <> MDie t /\ one_call t ls.
Proof. intros t l ls H. destruct (H l (or_introl eq_refl)). repeat split; auto. all: intros; eapply H; right; eauto. Qed.

Lemma alive_step : forall s l t, l <> MDie t -> m_alive s t = true -> m_alive (m_step s l) t = true.
Proof.
  intros s [u c|u b|u] t H A; cbn [m_step].
  - now rewrite alive_call.
  - now rewrite alive_run.
  - cbn [m_alive]. rewrite upd_neq; auto. congruence.
Qed.

(** *** General induction along an execution for one call of t.
    [J n seen s]: after n own steps, in state s; [seen] = some earlier state satisfied P. *)
Lemma path_induct : forall ok (P : mstate -> Prop) (J : nat -> bool -> mstate -> Prop) t,
  (forall n h s b, minv s -> live_thread s t -> J n h s ->
       exists h', J (S n) h' (m_run s t b) /\ (h' = true -> h = true \/ P s)) ->
  (forall n h s l, minv s -> minv (m_step s l) -> live_thread s t -> m_enabled s l -> J n h s ->
                 (forall c, l <> MCall t c) -> (forall b, l <> MRun t b) -> l <> MDie t ->
                 same_local t s (m_step s l) -> J n h (m_step s l)) ->
  (forall s, m_reach ok s -> minv s) ->
  forall ls s s', m_path ok s ls s' -> m_reach ok s -> live_thread s t -> one_call t ls ->
  forall n h, J n h s ->
  exists h', J (own_steps t ls + n)%nat h' s' /\ (h' = true -> h = true \/ passes P s ls).
Proof.
  intros ok P J t Hown Hoth Hinv ls s s' Pa. induction Pa as [s|s l ls s' En Ok Pa IH]; intros R L O n h Jn.
  - exists h. split; auto.
  - destruct (one_call_cons _ _ _ O) as (O1 & O2 & O3).
    assert (R' : m_reach ok (m_step s l)) by now constructor.
    assert (L' : live_thread (m_step s l) t).
    { destruct L; split; auto. now apply alive_step. }
    pose proof (Hinv _ R) as I. pose proof (Hinv _ R') as I'.
    assert (Hcase : (exists b, l = MRun t b) \/ (forall b, l <> MRun t b)).
    { destruct l as [u c|u b|u]; try (right; discriminate).
      destruct (Z.eq_dec u t) as [->|Hu]; [left; eauto | right; congruence]. }
    destruct Hcase as [[b ->]|Hn].
    + cbn [own_steps]. rewrite Z.eqb_refl.
      replace (S (own_steps t ls) + n)%nat with (own_steps t ls + S n)%nat by lia.
      destruct (Hown n h s b I L Jn) as (h1 & J1 & S1).
      destruct (IH R' L' O3 _ _ J1) as (h2 & J2 & S2).
      exists h2. split; auto. intros E. destruct (S2 E) as [E1|E1].
      * destruct (S1 E1); auto. right. cbn [passes]. auto.
      * right. cbn [passes]. auto.
    + assert (Hos : own_steps t (l :: ls) = own_steps t ls).
      { destruct l as [u c|u b|u]; auto. cbn [own_steps]. destruct (Z.eqb_spec u t); auto. subst. now destruct (Hn b). }
      rewrite Hos.
      assert (J1 : J n h (m_step s l)).
      { apply Hoth; auto. destruct l as [u c|u b|u]; cbn [m_step].
        - apply call_other. intros ->. now apply (O1 c).
        - apply run_other. intros ->. now apply (Hn b).
        - apply die_other. }
      destruct (IH R' L' O3 _ _ J1) as (h2 & J2 & S2).
      exists h2. split; auto. intros E. destruct (S2 E) as [E1|E1]; auto. right. cbn [passes]. auto.
Qed.

(** *** Locking calls (any kind) of an owner: three own steps *)
Definition J_relock (k : mkind) (t : Z) (n : nat) (h : bool) (s : mstate) : Prop :=
  m_own s t = true /\ h = false /\
  match n with
  | O => m_pc s t = MRead k
  | 1%nat => m_pc s t = MAdd k
  | 2%nat => m_pc s t = MConfirm k
  | _ => m_pc s t = MIdle /\ m_res s t = Some OK
  end.

Lemma relock_path : forall k ok ls s s' t,
  (forall s, m_reach ok s -> minv s) ->
  m_reach ok s -> live_thread s t -> idle s t -> m_own s t = true -> ok s (MCall t (CLock k)) ->
  m_path ok (m_step s (MCall t (CLock k))) ls s' -> one_call t ls -> (3 <= own_steps t ls)%nat ->
  idle s' t /\ m_res s' t = Some OK /\ m_own s' t = true.
Proof.
  intros k ok ls s s' t Hinv R L Id Ow Okc Pa Oc N.
  assert (R1 : m_reach ok (m_step s (MCall t (CLock k)))) by (constructor; auto; exact L).
  assert (E1 : m_step s (MCall t (CLock k)) = m_goto s t (MRead k)).
  { cbn [m_step]. unfold m_call. rewrite Id. reflexivity. }
  rewrite E1 in *.
  destruct (path_induct ok (fun _ => False) (J_relock k t) t) with (ls := ls) (s := m_goto s t (MRead k)) (s' := s') (n := 0%nat) (h := false)
    as (h' & (J1 & J2 & J3) & _); auto.
  - intros n h s0 b I L0 (A & B & C). exists false. split; [|discriminate].
    assert (V : m_val s0 = t) by (apply (mi_own _ I); [apply L0 | auto]).
    pose proof (mi_cnt _ I) as CN. rewrite V in CN. specialize (CN (proj1 L0) (proj2 L0)).
    unfold J_relock, m_run. destruct n as [|[|[|n]]].
    + rewrite C, V, Z.eqb_refl. m_expose. rewrite upd_eq. auto.
    + rewrite C in *. cbn [cnt_ok] in CN. replace (0 <=? m_cnt s0) with true by (symmetry; apply Z.leb_le; lia).
      m_expose. rewrite upd_eq. auto.
    + rewrite C, V, Z.eqb_refl. m_expose. rewrite !upd_eq. auto.
    + destruct C as [C C']. rewrite C. auto.
  - intros n h s0 l I I' L0 En (A & B & C) _ _ _ (SL1 & SL2 & SL3 & SL4). unfold J_relock. rewrite SL1, SL2, SL3. auto.
  - unfold J_relock. cbn. rewrite upd_eq. auto.
  - rewrite Nat.add_0_r in J3. destruct (own_steps t ls) as [|[|[|n]]]; try lia. unfold idle. tauto.
Qed.

(** *** trylock *)
Definition owned_by_other (t : Z) (s : mstate) : Prop := m_val s <> 0 /\ m_val s <> t.

Definition J_try (t : Z) (n : nat) (h : bool) (s : mstate) : Prop :=
  match n with
  | O => m_pc s t = MRead MTry
  | 1%nat => (m_own s t = true /\ m_pc s t = MAdd MTry) \/ (m_own s t = false /\ m_pc s t = MCas MTry)
  | 2%nat => (m_own s t = true /\ m_pc s t = MConfirm MTry) \/ m_pc s t = MAdd2 MTry
             \/ (m_pc s t = MIdle /\ m_res s t = Some EBUSY /\ h = true)
  | _ => m_pc s t = MIdle /\
         ((m_res s t = Some OK /\ m_own s t = true) \/ (m_res s t = Some EBUSY /\ h = true))
  end.

Lemma try_path : forall ok ls s s' t,
  (forall s, m_reach ok s -> minv s) ->
  m_reach ok s -> live_thread s t -> idle s t -> ok s (MCall t (CLock MTry)) ->
  m_path ok (m_step s (MCall t (CLock MTry))) ls s' -> one_call t ls -> (3 <= own_steps t ls)%nat ->
  idle s' t /\
  ((m_res s' t = Some OK /\ m_own s' t = true) \/
   (m_res s' t = Some EBUSY /\ passes (owned_by_other t) (m_step s (MCall t (CLock MTry))) ls)).
Proof.
  intros ok ls s s' t Hinv R L Id Okc Pa Oc N.
  assert (R1 : m_reach ok (m_step s (MCall t (CLock MTry)))) by (constructor; auto; exact L).
  assert (E1 : m_step s (MCall t (CLock MTry)) = m_goto s t (MRead MTry)).
  { cbn [m_step]. unfold m_call. rewrite Id. reflexivity. }
  rewrite E1 in *.
  destruct (path_induct ok (owned_by_other t) (J_try t) t) with (ls := ls) (s := m_goto s t (MRead MTry)) (s' := s') (n := 0%nat) (h := false)
    as (h' & J1 & J2); auto.
  - intros n h s0 b I L0 C.
    pose proof (mi_own _ I t (proj2 L0)) as OW. pose proof (mi_val _ I t (proj1 L0) (proj2 L0)) as V.
    assert (CN : m_val s0 = t -> cnt_ok (m_pc s0 t) (m_cnt s0)).
    { intros E. rewrite <- E at 1. apply (mi_cnt _ I); rewrite E; apply L0. }
    unfold J_try in C. destruct n as [|[|[|n]]].
    + exists h. split; auto. unfold J_try, m_run. rewrite C in *. cbn in V.
      destruct (Z.eqb_spec (m_val s0) t) as [E|E]; m_expose; rewrite upd_eq.
      * left. destruct (V E); tauto.
      * right. split; auto. destruct (m_own s0 t); auto. exfalso. auto.
    + destruct C as [[A C]|[A C]].
      * exists h. split; auto. unfold J_try, m_run. rewrite C in *.
        assert (E : m_val s0 = t) by auto. specialize (CN E). cbn in CN.
        replace (0 <=? m_cnt s0) with true by (symmetry; apply Z.leb_le; lia).
        m_expose. rewrite upd_eq. auto.
      * unfold m_run. rewrite C in *. cbn in V.
        destruct (Z.eqb_spec (m_val s0) 0) as [E|E].
        -- exists h. split; auto. unfold J_try. m_expose. rewrite upd_eq. auto.
        -- exists true. split.
           ++ unfold J_try. m_expose. rewrite !upd_eq. auto.
           ++ intros _. right. split; auto. intros E'.
              destruct (V E') as [H|H]; [congruence | auto].
    + exists h. split; auto. unfold J_try, m_run. destruct C as [[A C]|[C|[C [A B]]]]; rewrite C in *.
      * rewrite (OW (or_introl A)), Z.eqb_refl. m_expose. rewrite !upd_eq. auto.
      * m_expose. rewrite !upd_eq. auto.
      * rewrite C. auto.
    + exists h. split; auto. unfold J_try, m_run. destruct C as [C D]. rewrite C. auto.
  - intros n h s0 l I I' L0 En C _ _ _ (SL1 & SL2 & SL3 & SL4). unfold J_try in *. rewrite SL1, SL2, SL3. auto.
  - unfold J_try. cbn. rewrite upd_eq. auto.
  - rewrite Nat.add_0_r in J1. destruct (own_steps t ls) as [|[|[|n]]]; try lia. cbn in J1. unfold idle.
    destruct J1 as [A [B|[B C]]]; auto. destruct (J2 C); [discriminate|auto].
Qed.

(** *** what one step can do to the word *)
Lemma val_step : forall s l t, t <> 0 -> m_val s <> t ->
  (forall b, l <> MRun t b) -> m_val (m_step s l) <> t.
Proof.
  intros s [u c|u b|u] t Ht Hv Hl; cbn [m_step].
  - unfold m_call. destruct (m_pc s u); auto. destruct c; auto.
  - assert (Hu : u <> t) by (intros ->; now apply (Hl b)). unfold m_run.
    destruct (m_pc s u); m_expose;
    repeat (match goal with |- context [match ?k with MBlock => _ | MTry => _ | MTimed => _ end] => destruct k
                           | |- context [match ?r with Some _ => _ | None => _ end] => destruct r
                           | |- context [if ?c then _ else _] => destruct c end);
    cbn [m_val]; auto.
  - auto.
Qed.

(** *** unlock by a thread that does not own the mutex *)
Definition J_unl (t : Z) (n : nat) (h : bool) (s : mstate) : Prop :=
  m_own s t = false /\ m_val s <> t /\
  match m_pc s t with
  | MUGuard | MU0 _ | MU1 _ => True
  | MURel r => r = EPERM \/ (r = OK /\ h = true)
  | MIdle => m_res s t = Some EPERM \/ (m_res s t = Some OK /\ h = true)
  | _ => False
  end.
Definition J_unl2 (t : Z) (n : nat) (h : bool) (s : mstate) : Prop :=
  m_own s t = false /\ m_val s <> t /\
  match m_pc s t with
  | MUGuard | MU0 _ => True
  | MU1 _ => h = true
  | MURel r => r = OK \/ (r = EPERM /\ h = true)
  | MIdle => m_res s t = Some OK \/ (m_res s t = Some EPERM /\ h = true)
  | _ => False
  end.

Lemma unlock_nonowner_path : forall ok ls s s' t,
  (forall s, m_reach ok s -> minv s) ->
  m_reach ok s -> live_thread s t -> idle s t -> m_own s t = false -> ok s (MCall t CUnlock) ->
  m_path ok (m_step s (MCall t CUnlock)) ls s' -> one_call t ls -> idle s' t ->
  (m_res s' t = Some OK /\ passes (fun x => m_val x = 0) (m_step s (MCall t CUnlock)) ls) \/
  (m_res s' t = Some EPERM /\ passes (owned_by_other t) (m_step s (MCall t CUnlock)) ls).
Proof.
  intros ok ls s s' t Hinv R L Id Ow Okc Pa Oc Id'.
  assert (R1 : m_reach ok (m_step s (MCall t CUnlock))) by (constructor; auto; exact L).
  assert (V0 : m_val s <> t).
  { intros E. destruct (mi_val _ (Hinv _ R) t (proj1 L) (proj2 L) E) as [H|H]; [congruence|]. rewrite Id in H. exact H. }
  assert (P1 : m_pc (m_step s (MCall t CUnlock)) t = MUGuard /\ m_own (m_step s (MCall t CUnlock)) t = false
               /\ m_val (m_step s (MCall t CUnlock)) = m_val s).
  { cbn [m_step]. unfold m_call. rewrite Id. cbn. rewrite !upd_eq. auto. }
  destruct P1 as (P1 & P2 & P3).
  assert (L1 : live_thread (m_step s (MCall t CUnlock)) t).
  { split; [apply L|]. apply alive_step; [discriminate | apply L]. }
  set (s1 := m_step s (MCall t CUnlock)) in *.
  assert (A : exists h', J_unl t (own_steps t ls + 0) h' s' /\ (h' = true -> false = true \/ passes (fun x => m_val x = 0) s1 ls)).
  { apply (path_induct ok (fun x => m_val x = 0) (J_unl t) t) with (s := s1); auto.
    - intros n h s0 b I L0 (A & B & C).
      unfold m_run. destruct (m_pc s0 t) eqn:P; try tauto.
      + exists h. split; auto. unfold J_unl. rewrite P. auto.
      + exists h. split; auto. unfold J_unl, m_take_guard. destruct (_ || _); m_expose; rewrite ?upd_eq, ?P; auto.
      + destruct (Z.eqb_spec (m_val s0) 0) as [E|E].
        * exists true. split; auto. unfold J_unl, m_unlock_end. destruct g; m_expose; rewrite !upd_eq; auto.
        * exists h. split; auto. unfold J_unl. m_expose. rewrite upd_eq. auto.
      + destruct (Z.eqb_spec (m_val s0) t) as [E|E]; [tauto|].
        exists h. split; auto. unfold J_unl, m_unlock_end. destruct g; m_expose; rewrite !upd_eq; auto.
      + exists h. split; auto. unfold J_unl, m_unlocked, m_drop_guard.
        destruct (m_guard s0 =? t); m_expose; rewrite !upd_eq; destruct C as [->|[-> ->]]; auto.
    - intros n h s0 l I I' L0 En (A & B & C) _ Hr _ (SL1 & SL2 & SL3 & SL4). unfold J_unl.
      rewrite SL1, SL2, SL3. split; auto. split; auto. apply val_step; auto. apply L0.
    - unfold J_unl. rewrite P1, P2, P3. auto. }
  assert (B : exists h', J_unl2 t (own_steps t ls + 0) h' s' /\ (h' = true -> false = true \/ passes (owned_by_other t) s1 ls)).
  { apply (path_induct ok (owned_by_other t) (J_unl2 t) t) with (s := s1); auto.
    - intros n h s0 b I L0 (A0 & B & C).
      unfold m_run. destruct (m_pc s0 t) eqn:P; try tauto.
      + exists h. split; auto. unfold J_unl2. rewrite P. auto.
      + exists h. split; auto. unfold J_unl2, m_take_guard. destruct (_ || _); m_expose; rewrite ?upd_eq, ?P; auto.
      + destruct (Z.eqb_spec (m_val s0) 0) as [E|E].
        * exists h. split; auto. unfold J_unl2, m_unlock_end. destruct g; m_expose; rewrite !upd_eq; auto.
        * exists true. split; [|intros _; right; split; auto]. unfold J_unl2. m_expose. rewrite upd_eq. auto.
      + destruct (Z.eqb_spec (m_val s0) t) as [E|E]; [tauto|].
        exists h. split; auto. unfold J_unl2, m_unlock_end. destruct g; m_expose; rewrite !upd_eq; auto.
      + exists h. split; auto. unfold J_unl2, m_unlocked, m_drop_guard.
        destruct (m_guard s0 =? t); m_expose; rewrite !upd_eq; destruct C as [->|[-> ->]]; auto.
    - intros n h s0 l I I' L0 En (A0 & B & C) _ Hr _ (SL1 & SL2 & SL3 & SL4). unfold J_unl2.
      rewrite SL1, SL2, SL3. split; auto. split; auto. apply val_step; auto. apply L0.
    - unfold J_unl2. rewrite P1, P2, P3. auto. }
  destruct A as (h1 & (_ & _ & A1) & A2). destruct B as (h2 & (_ & _ & B1) & B2).
  unfold idle in Id'. rewrite Id' in A1, B1.
  destruct A1 as [A1|[A1 ->]].
  - destruct B1 as [B1|[B1 ->]]; [rewrite A1 in B1; discriminate|]. destruct (B2 eq_refl); [discriminate|auto].
  - destruct (A2 eq_refl); [discriminate|auto].
Qed.

(** in an unlock call, a step while the word is not the caller's changes neither word nor count *)
Lemma unlock_nonowner_step : forall s t b, minv s -> live_thread s t -> pc_calls_unlock (m_pc s t) ->
  m_val s <> t -> m_val (m_run s t b) = m_val s /\ m_cnt (m_run s t b) = m_cnt s.
Proof.
  intros s t b I [Ht Ha] Hc Hv.
  pose proof (mi_own _ I t Ha) as O. pose proof (mi_never _ I t Ha) as N.
  unfold m_run. destruct (m_pc s t); cbn in Hc, O, N; try tauto; m_expose;
    repeat match goal with |- context [if ?c then _ else _] => destruct c end; auto; exfalso; auto.
Qed.

(** another thread's step never changes the word while it is a live thread's *)
Lemma val_kept : forall s l t, minv s -> live_thread s t -> m_val s = t -> m_enabled s l ->
  (forall b, l <> MRun t b) -> m_val (m_step s l) = t.
Proof.
  intros s [u c|u b|u] t I [Ht Ha] V En Hl; cbn [m_step].
  - unfold m_call. destruct (m_pc s u); auto. destruct c; auto.
  - assert (Hu : u <> t) by (intros ->; now apply (Hl b)). destruct En as [Hu0 Hau].
    pose proof (mi_chk _ I u Hau) as C. unfold m_run.
    destruct (m_pc s u); cbn [checker_ok] in C; m_expose;
    repeat (match goal with |- context [match ?k with MBlock => _ | MTry => _ | MTimed => _ end] => destruct k
                           | |- context [match ?r with Some _ => _ | None => _ end] => destruct r end);
    m_cases; cbn [m_val]; auto; try congruence.
    exfalso. destruct C as ((_ & C) & _). congruence.
  - exact V.
Qed.

(** unlock by the owner: whatever the depth, afterwards the word is not the caller's *)
Lemma unlock_releases : forall s t, minv s -> live_thread s t -> idle s t -> m_own s t = false -> m_val s <> t.
Proof.
  intros s t I [Ht Ha] Id Ow E. destruct (mi_val _ I t Ht Ha E) as [H|H]; [congruence|].
  unfold idle in Id. rewrite Id in H. exact H.
Qed.

Lemma unlock_owner_path : forall ok ls s s' t,
  (forall s, m_reach ok s -> minv s) ->
  m_reach ok s -> live_thread s t -> idle s t -> m_own s t = true -> ok s (MCall t CUnlock) ->
  m_path ok (m_step s (MCall t CUnlock)) ls s' -> one_call t ls -> idle s' t ->
  m_res s' t = Some OK /\ m_val s' <> t.
Proof.
  intros ok ls s s' t Hinv R L Id Ow Okc Pa Oc Id'.
  assert (R1 : m_reach ok (m_step s (MCall t CUnlock))) by (constructor; auto; exact L).
  assert (V0 : m_val s = t) by (apply (mi_own _ (Hinv _ R)); [apply L | auto]).
  assert (P1 : m_pc (m_step s (MCall t CUnlock)) t = MUGuard /\ m_own (m_step s (MCall t CUnlock)) t = false
               /\ m_val (m_step s (MCall t CUnlock)) = m_val s).
  { cbn [m_step]. unfold m_call. rewrite Id. cbn. rewrite !upd_eq. auto. }
  destruct P1 as (P1 & P2 & P3).
  assert (L1 : live_thread (m_step s (MCall t CUnlock)) t).
  { split; [apply L|]. apply alive_step; [discriminate | apply L]. }
  set (s1 := m_step s (MCall t CUnlock)) in *.
  set (J := fun (n : nat) (h : bool) (x : mstate) => m_own x t = false /\
     match m_pc x t with
     | MUGuard | MU0 _ | MU1 _ | MU2 _ | MU4 _ => m_val x = t
     | MURel r => m_val x <> t /\ r = OK
     | MIdle => m_val x <> t /\ m_res x t = Some OK
     | _ => False
     end).
  destruct (path_induct ok (fun _ => False) J t) with (ls := ls) (s := s1) (s' := s') (n := 0%nat) (h := false)
    as (h' & (J1 & J2) & _); auto.
  - intros n h s0 b I L0 (A & B). exists h. split; auto.
    pose proof (mi_cnt _ I) as CN. unfold J, m_run. destruct (m_pc s0 t) eqn:P; try tauto.
    + rewrite P. auto.
    + unfold m_take_guard. destruct (_ || _); m_expose; rewrite ?upd_eq, ?P; auto.
    + destruct (Z.eqb_spec (m_val s0) 0) as [E|E]; [exfalso; apply (proj1 L0); congruence|]. m_expose; rewrite ?upd_eq; auto.
    + rewrite B, Z.eqb_refl. m_expose; rewrite ?upd_eq; auto.
    + rewrite B in CN. specialize (CN (proj1 L0) (proj2 L0)). rewrite P in CN. cbn in CN.
      destruct (Z.leb_spec (m_cnt s0) 1); [|m_expose; rewrite ?upd_eq; auto].
      destruct (Z.ltb_spec (m_cnt s0) 1); [lia|]. m_expose; rewrite ?upd_eq; auto.
    + rewrite B, Z.eqb_refl. pose proof (proj1 L0). unfold m_unlock_end. destruct g; m_expose; rewrite ?upd_eq; auto.
    + unfold m_unlocked, m_drop_guard. destruct B as [B ->].
      destruct (m_guard s0 =? t); m_expose; rewrite ?upd_eq; auto.
  - intros n h s0 l I I' L0 En (A & B) _ Hr Hd (SL1 & SL2 & SL3 & SL4). unfold J. rewrite SL1, SL2, SL3. split; auto.
    assert (VS : m_val s0 <> t -> m_val (m_step s0 l) <> t) by (intros; apply val_step; auto; apply L0).
    assert (VK : m_val s0 = t -> m_val (m_step s0 l) = t) by (intros; apply val_kept; auto).
    destruct (m_pc s0 t) eqn:P; tauto.
  - unfold J. rewrite P1, P2, P3. auto.
  - unfold idle in Id'. rewrite Id' in J2. tauto.
Qed.

(** *** Recovery *)
Definition pass_done (c : Z) (s : mstate) : Prop := m_pc s c = MIdle.

Lemma recover_path : forall ok ls s s' c v,
  (forall s, m_reach ok s -> minv s) ->
  m_reach ok s -> live_thread s c -> idle s c -> v <> 0 -> m_alive s v = false -> ok s (MCall c CRecover) ->
  m_path ok (m_step s (MCall c CRecover)) ls s' -> one_call c ls -> idle s' c -> m_val s' <> v.
Proof.
  intros ok ls s s' c v Hinv R L Id Hv0 Dv Okc Pa Oc Id'.
  assert (R1 : m_reach ok (m_step s (MCall c CRecover))) by (constructor; auto; exact L).
  assert (Hcv : c <> v) by (intros ->; destruct L; congruence).
  assert (E1 : m_step s (MCall c CRecover) = m_goto s c (MKGuard None)).
  { cbn [m_step]. unfold m_call. rewrite Id. reflexivity. }
  rewrite E1 in *.
  set (J := fun (n : nat) (h : bool) (x : mstate) => m_alive x v = false /\
     match m_pc x c with
     | MKGuard None | MK0 None | MF0 None | MF1 None _ | MF2 None | MF3 None _ => True
     | MK1 None w => m_val x = v -> w = v
     | MKRel None | MIdle => m_val x <> v
     | _ => False
     end).
  destruct (path_induct ok (fun _ => False) J c) with (ls := ls) (s := m_goto s c (MKGuard None)) (s' := s') (n := 0%nat) (h := false)
    as (h' & (J1 & J2) & _); auto.
  - intros n h s0 b I L0 (A & B). exists h. split; auto. unfold J. rewrite alive_run. split; auto.
    pose proof (mi_chk _ I c (proj2 L0)) as C.
    unfold m_run. destruct (m_pc s0 c) eqn:P; try tauto; try (destruct ret; [tauto|]); cbn [checker_ok] in C.
    + rewrite P. auto.
    + unfold m_take_guard. destruct (_ || _); m_expose; rewrite ?upd_eq, ?P; auto.
    + m_cases; m_expose; rewrite ?upd_eq; auto; congruence.
    + destruct (m_alive s0 v0) eqn:Av; m_expose; rewrite upd_eq; auto. intros E. rewrite (B E) in Av. congruence.
    + m_cases; m_expose; rewrite ?upd_eq; auto.
    + m_cases; m_expose; rewrite ?upd_eq; auto.
    + m_cases; m_expose; rewrite ?upd_eq; auto; congruence.
    + m_cases; m_expose; rewrite ?upd_eq; auto; try congruence.
    + unfold m_drop_guard. destruct (m_guard s0 =? c); m_expose; rewrite ?upd_eq; auto.
  - intros n h s0 l I I' L0 En (A & B) _ Hr Hd (SL1 & SL2 & SL3 & SL4). unfold J. rewrite SL1. split.
    + destruct l as [u k|u b|u]; cbn [m_step]; [now rewrite alive_call | now rewrite alive_run |].
      cbn [m_alive]. destruct (upd_cases _ (m_alive s0) u false v) as [[_ ->]|[_ ->]]; auto.
    + assert (VS : m_val s0 <> v -> m_val (m_step s0 l) <> v).
      { intros. apply val_step; auto. intros b ->. cbn in En. destruct En. congruence. }
      destruct (m_pc s0 c) eqn:P; auto; destruct ret; auto.
      intros E. destruct (Z.eq_dec (m_val s0) v) as [E'|E']; auto. now destruct (VS E').
  - unfold J. cbn. rewrite upd_eq. auto.
  - unfold idle in Id'. rewrite Id' in J2. exact J2.
Qed.

(** a recovery pass run alone frees the mutex of a dead owner *)
Lemma recover_alone : forall s c, minv s -> live_thread s c -> idle s c ->
  dead_owner s -> m_guard s = 0 \/ m_guard s = c \/ m_alive s (m_guard s) = false ->
  exists n, (n <= 9)%nat /\
    let s' := alone (m_step s (MCall c CRecover)) c n in
    idle s' c /\ m_val s' = 0 /\ m_cnt s' = 0 /\ m_guard s' = 0 /\
    m_alive s' = m_alive s /\ (forall u, u <> c -> m_pc s' u = m_pc s u).
Proof.
  intros s c I [Hc Ha] Id [Dv Da] G.
  assert (Hcv : m_val s <> c) by congruence.
  assert (Hg : (m_guard s =? 0) || (m_guard s =? c) || negb (m_alive s (m_guard s)) = true).
  { destruct G as [G|[G|G]]; rewrite G; cbn; rewrite ?Z.eqb_refl, ?orb_true_r; auto. }
  destruct s as [v cn g al pc ow dp rs]. unfold idle in *. cbn [m_val m_cnt m_guard m_alive m_pc] in *.
  assert (E0 : m_step (mkMS v cn g al pc ow dp rs) (MCall c CRecover) = mkMS v cn g al (upd pc c (MKGuard None)) ow dp rs).
  { cbn [m_step]. unfold m_call. cbn [m_pc]. rewrite Id. reflexivity. }
  assert (E1 : forall pc, pc c = MKGuard None -> m_run (mkMS v cn g al pc ow dp rs) c true = mkMS v cn c al (upd pc c (MK0 None)) ow dp rs).
  { intros q E. unfold m_run. cbn [m_pc]. rewrite E. unfold m_take_guard. cbn [m_guard m_alive]. now rewrite Hg. }
  assert (E2 : forall pc, pc c = MK0 None -> m_run (mkMS v cn c al pc ow dp rs) c true = mkMS v cn c al (upd pc c (MK1 None v)) ow dp rs).
  { intros q E. unfold m_run. cbn [m_pc m_val]. rewrite E.
    destruct (Z.eqb_spec v 0); [tauto|]. destruct (Z.eqb_spec v c); [tauto|]. reflexivity. }
  assert (E3 : forall pc, pc c = MK1 None v -> m_run (mkMS v cn c al pc ow dp rs) c true = mkMS v cn c al (upd pc c (MF0 None)) ow dp rs).
  { intros q E. unfold m_run. cbn [m_pc m_alive]. rewrite E, Da. reflexivity. }
  assert (E4 : forall pc, pc c = MF2 None -> m_run (mkMS v 0 c al pc ow dp rs) c true = mkMS v 0 c al (upd pc c (MF3 None v)) ow dp rs).
  { intros q E. unfold m_run. cbn [m_pc m_val]. rewrite E. destruct (Z.eqb_spec v 0); [tauto|]. reflexivity. }
  assert (E5 : forall pc, pc c = MF3 None v -> m_run (mkMS v 0 c al pc ow dp rs) c true = mkMS 0 0 c al (upd pc c (MKRel None)) ow dp rs).
  { intros q E. unfold m_run. cbn [m_pc m_val]. rewrite E, Z.eqb_refl. reflexivity. }
  assert (E6 : forall pc, pc c = MKRel None -> m_run (mkMS 0 0 c al pc ow dp rs) c true = mkMS 0 0 0 al (upd pc c MIdle) ow dp (upd rs c (Some OK))).
  { intros q E. unfold m_run. cbn [m_pc m_val]. rewrite E. unfold m_drop_guard. cbn [m_guard]. rewrite Z.eqb_refl. reflexivity. }
  assert (Fin : forall pc', (forall u, u <> c -> pc' u = pc u) -> forall u, u <> c -> upd pc' c MIdle u = pc u).
  { intros pc' H u Hu. rewrite upd_neq by auto. auto. }
  destruct (Z.eq_dec cn 0) as [C0|C0].
  - subst cn. exists 7%nat. split; [lia|].
    assert (E7 : forall pc, pc c = MF0 None -> m_run (mkMS v 0 c al pc ow dp rs) c true = mkMS v 0 c al (upd pc c (MF2 None)) ow dp rs).
    { intros q E. unfold m_run. cbn [m_pc m_val m_cnt]. rewrite E. reflexivity. }
    rewrite E0. cbn [alone].
    rewrite E1 by apply upd_eq. rewrite E2 by apply upd_eq. rewrite E3 by apply upd_eq. rewrite E7 by apply upd_eq.
    rewrite E4 by apply upd_eq. rewrite E5 by apply upd_eq. rewrite E6 by apply upd_eq.
    cbn [m_pc m_val m_cnt m_guard m_alive]. repeat split; auto; [apply upd_eq|].
    intros u Hu. rewrite !upd_neq by auto. reflexivity.
  - exists 8%nat. split; [lia|].
    assert (E7 : forall pc, pc c = MF0 None -> m_run (mkMS v cn c al pc ow dp rs) c true = mkMS v cn c al (upd pc c (MF1 None cn)) ow dp rs).
    { intros q E. unfold m_run. cbn [m_pc m_val m_cnt]. rewrite E. destruct (Z.eqb_spec cn 0); [tauto|]. reflexivity. }
    assert (E8 : forall pc, pc c = MF1 None cn -> m_run (mkMS v cn c al pc ow dp rs) c true = mkMS v 0 c al (upd pc c (MF2 None)) ow dp rs).
    { intros q E. unfold m_run. cbn [m_pc m_val m_cnt]. rewrite E, Z.eqb_refl. reflexivity. }
    rewrite E0. cbn [alone].
    rewrite E1 by apply upd_eq. rewrite E2 by apply upd_eq. rewrite E3 by apply upd_eq. rewrite E7 by apply upd_eq.
    rewrite E8 by apply upd_eq.
    rewrite E4 by apply upd_eq. rewrite E5 by apply upd_eq. rewrite E6 by apply upd_eq.
    cbn [m_pc m_val m_cnt m_guard m_alive]. repeat split; auto; [apply upd_eq|].
    intros u Hu. rewrite !upd_neq by auto. reflexivity.
Qed.

(** a lock call run alone on a free mutex succeeds *)
Lemma lock_alone : forall s t k, live_thread s t -> idle s t -> m_val s = 0 ->
  let s' := alone (m_step s (MCall t (CLock k))) t 3 in
  idle s' t /\ m_own s' t = true /\ m_res s' t = Some OK.
Proof.
  intros s t k [Ht Ha] Id V. destruct s as [v cn g al pc ow dp rs]. unfold idle in *.
  cbn [m_val m_cnt m_guard m_alive m_pc] in *. subst v.
  assert (E0 : m_step (mkMS 0 cn g al pc ow dp rs) (MCall t (CLock k)) = mkMS 0 cn g al (upd pc t (MRead k)) ow dp rs).
  { cbn [m_step]. unfold m_call. cbn [m_pc]. rewrite Id. reflexivity. }
  assert (E1 : forall pc, pc t = MRead k -> m_run (mkMS 0 cn g al pc ow dp rs) t true = mkMS 0 cn g al (upd pc t (MCas k)) ow dp rs).
  { intros q E. unfold m_run. cbn [m_pc m_val]. rewrite E. destruct (Z.eqb_spec 0 t); [congruence|]. reflexivity. }
  assert (E2 : forall pc, pc t = MCas k -> m_run (mkMS 0 cn g al pc ow dp rs) t true = mkMS t cn g al (upd pc t (MAdd2 k)) ow dp rs).
  { intros q E. unfold m_run. cbn [m_pc m_val]. rewrite E. reflexivity. }
  cbn [alone]. rewrite E0, E1 by apply upd_eq. rewrite E2 by apply upd_eq.
  unfold m_run. cbn [m_pc]. rewrite upd_eq. cbn. rewrite !upd_eq. auto.
Qed.
