(** Named mutex with a 32-bit lock counter: C117, C118. *)
From Coq Require Import ZArith List Bool Lia.
From Verif Require Import Base Mutex_Model Mutex_Spec Mutex_Proofs Mutex_Proofs2 Mutex_Props Wrap_Model Wrap_Proofs.
Import ListNotations.
Open Scope Z_scope.

(** ** C117: the owner can lock again, however often it has locked already *)
Definition C117_statement : Prop := forall k s ls s' t,
  i_reach no_exit_in_window s -> live_thread s t -> idle s t -> m_own s t = true ->
  i_path no_exit_in_window (i_step s (MCall t (CLock k))) ls s' -> one_call t ls ->
  (3 <= own_steps t ls)%nat ->
  idle s' t /\ m_res s' t = Some OK /\ m_own s' t = true.

(** True while nobody locks a mutex that it holds 2^31 - 1 times already. *)
Theorem C117_relock_partial : forall k s ls s' t,
  i_reach window_shallow s -> live_thread s t -> idle s t -> m_own s t = true -> m_cnt s < INT_MAX ->
  i_path window_shallow (i_step s (MCall t (CLock k))) ls s' -> one_call t ls ->
  (3 <= own_steps t ls)%nat ->
  idle s' t /\ m_res s' t = Some OK /\ m_own s' t = true.
Proof.
  intros k s ls s' t R L Id Ow Lo Pa Oc N.
  assert (Okc : window_shallow s (MCall t (CLock k))) by (split; cbn; auto).
  assert (Pa' : i_path window_shallow s (MCall t (CLock k) :: ls) s') by (constructor; auto; exact L).
  apply i_path_same in Pa'; auto. inversion Pa'; subst.
  apply (relock_path k window_shallow ls s s' t); auto.
  - intros s0 R0. apply minv_reach. apply (reach_weaken window_shallow); [|exact R0]. intros ? ? H; apply H.
  - now apply i_reach_same.
Qed.
Print Assumptions C117_relock_partial.

(** Below the wrap the 32-bit counter is indistinguishable from an unbounded one: every state and every
    execution is one of Mutex_Model, so C05-C12 and C111 hold of it. *)
Theorem C117_same_as_unbounded_partial : forall s, i_reach window_shallow s ->
  m_reach no_exit_in_window s /\ 0 <= m_cnt s <= INT_MAX /\
  forall ls s', i_path window_shallow s ls s' -> m_path no_exit_in_window s ls s'.
Proof.
  intros s R. destruct (i_reach_same s R) as (Rm & I & C). split; [|split].
  - apply (reach_weaken window_shallow); [|exact Rm]. intros ? ? H; apply H.
  - apply (c_range _ C).
  - intros ls s' P. apply (path_weaken window_shallow); [|apply i_path_same; auto]. intros ? ? H; apply H.
Qed.
Print Assumptions C117_same_as_unbounded_partial.

(** *** the wrap *)
(** everybody is alive and between calls, [v] is recorded as owner (0: nobody) with count [c] *)
Record rest (s : mstate) (v c : Z) : Prop := {
  re_reach : i_reach no_exit_in_window s;
  re_val : m_val s = v;
  re_cnt : m_cnt s = c;
  re_guard : m_guard s = 0;
  re_alive : forall u, m_alive s u = true;
  re_pc : forall u, m_pc s u = MIdle;
  re_own : v <> 0 -> m_own s v = true
}.

Definition solo (t : Z) (l : mlabel) : Prop :=
  match l with MCall u _ => u = t | MRun u _ => u = t | MDie _ => False end.

Lemma solo_reach : forall t ls s, t <> 0 -> i_reach no_exit_in_window s -> (forall u, m_alive s u = true) ->
  (forall l, In l ls -> solo t l) ->
  i_reach no_exit_in_window (i_exec s ls) /\ (forall u, m_alive (i_exec s ls) u = true).
Proof.
  intros t ls. induction ls as [|l r IH]; intros s Ht R A H; [split; auto|]. cbn [i_exec].
  assert (Hl : solo t l) by (apply H; now left).
  apply IH; auto.
  - destruct l as [u c|u b|u]; cbn in Hl; [| |contradiction]; subst u; constructor; cbn; auto.
  - intros u. destruct l as [x c|x b|x]; cbn in Hl; [| |contradiction]; unfold i_step, with_cnt; cbn [m_alive m_step].
    + unfold m_call. destruct (m_pc s x); auto. destruct c; m_expose; auto.
    + unfold m_run. destruct (m_pc s x); m_expose;
        repeat (match goal with |- context [match ?k with MBlock => _ | MTry => _ | MTimed => _ end] => destruct k
                           | |- context [match ?r with Some _ => _ | None => _ end] => destruct r
                           | |- context [if ?c then _ else _] => destruct c end);
        cbn [m_alive]; auto.
  - intros l' Hl'. apply H. now right.
Qed.

(** the next step of the only running thread, computed *)
Lemma i_call_eq : forall s t c, m_pc s t = MIdle -> is_int32 (m_cnt s) ->
  i_step s (MCall t c) = m_call s t c.
Proof.
  intros s t c P H. unfold i_step. cbn [m_step].
  assert (E : m_cnt (m_call s t c) = m_cnt s) by (unfold m_call; rewrite P; destruct c; reflexivity).
  rewrite E, s32_id by auto. rewrite <- E. apply with_cnt_same.
Qed.

Ltac small := unfold is_int32, INT_MIN, INT_MAX in *; lia.

(** one step without, and one with, a change of the counter *)
Lemma i_run_eq : forall s t b s', m_run s t b = s' -> is_int32 (m_cnt s') -> i_step s (MRun t b) = s'.
Proof. intros s t b s' E H. unfold i_step. cbn [m_step]. rewrite E, s32_id by auto. apply with_cnt_same. Qed.
Lemma i_run_wrap : forall s t b s', m_run s t b = s' -> i_step s (MRun t b) = with_cnt s' (s32 (m_cnt s')).
Proof. intros s t b s' E. unfold i_step. cbn [m_step]. now rewrite E. Qed.

Ltac inner L :=
  match goal with |- context [i_step (mkMS ?a1 ?a2 ?a3 ?a4 ?a5 ?a6 ?a7 ?a8) (MRun ?t ?b)] =>
    erewrite (L (mkMS a1 a2 a3 a4 a5 a6 a7 a8) t b) end.

Definition lock3 (t : Z) (k : mkind) : list mlabel := [MCall t (CLock k); MRun t false; MRun t false; MRun t false].

Lemma relock_low : forall s t c k, t <> 0 -> rest s t c -> 0 <= c <= INT_MAX ->
  rest (i_exec s (lock3 t k)) t (s32 (c + 1)) /\ m_res (i_exec s (lock3 t k)) t = Some OK.
Proof.
  intros s t c k Ht H Hc.
  assert (I32 : is_int32 c) by small.
  destruct (solo_reach t (lock3 t k) s Ht (re_reach _ _ _ H) (re_alive _ _ _ H)) as [R A].
  { unfold lock3. cbn. intros l Hl. destruct Hl as [<-|[<-|[<-|[<-|[]]]]]; reflexivity. }
  destruct H as [_ Hv Hn Hg Ha Hp Ho].
  assert (E : i_exec s (lock3 t k) =
    mkMS t (s32 (c + 1)) 0 (m_alive s) (upd (upd (upd (upd (m_pc s) t (MRead k)) t (MAdd k)) t (MConfirm k)) t MIdle)
      (upd (m_own s) t true) (upd (m_depth s) t (m_depth s t + 1)) (upd (m_res s) t (Some OK))).
  { clear R A. unfold lock3. cbn [i_exec].
    rewrite i_call_eq by (auto; now rewrite Hn). unfold m_call. rewrite Hp. unfold m_goto. rewrite Hv, Hn, Hg.
    inner i_run_eq; [| unfold m_run; cbn [m_pc m_val]; rewrite upd_eq, Z.eqb_refl; unfold m_goto;
      cbn [m_val m_cnt m_guard m_alive m_pc m_own m_depth m_res]; reflexivity | exact I32].
    inner i_run_wrap; [| unfold m_run; cbn [m_pc m_cnt]; rewrite upd_eq; replace (0 <=? c) with true by (symmetry; apply Z.leb_le; lia);
      unfold m_goto, m_set; cbn [m_val m_cnt m_guard m_alive m_pc m_own m_depth m_res]; reflexivity].
    unfold with_cnt. cbn [m_val m_cnt m_guard m_alive m_pc m_own m_depth m_res].
    inner i_run_eq; [| unfold m_run; cbn [m_pc m_val]; rewrite upd_eq, Z.eqb_refl; unfold m_locked;
      cbn [m_val m_cnt m_guard m_alive m_pc m_own m_depth m_res]; reflexivity |].
    - reflexivity.
    - cbn [m_cnt]. unfold is_int32, s32, two32, INT_MIN, INT_MAX in *.
      pose proof (Z.mod_pos_bound (c + 1) 4294967296 ltac:(lia)). cbv zeta.
      destruct (Z.ltb_spec ((c + 1) mod 4294967296) 2147483648); lia. }
  rewrite E in R, A |- *. split; [constructor; cbn [m_val m_cnt m_guard m_alive m_pc m_own]; auto|].
  - intros u. unfold upd. destruct (u =? t); auto.
  - intros _. apply upd_eq.
  - cbn [m_res]. apply upd_eq.
Qed.

(** the first lock of a free mutex, whatever the counter *)
Lemma first_lock : forall s t c k, t <> 0 -> rest s 0 c -> is_int32 c ->
  rest (i_exec s [MCall t (CLock k); MRun t false; MRun t false; MRun t false]) t (s32 (c + 1)) /\
  m_res (i_exec s [MCall t (CLock k); MRun t false; MRun t false; MRun t false]) t = Some OK.
Proof.
  intros s t c k Ht H I32. change [MCall t (CLock k); MRun t false; MRun t false; MRun t false] with (lock3 t k).
  destruct (solo_reach t (lock3 t k) s Ht (re_reach _ _ _ H) (re_alive _ _ _ H)) as [R A].
  { unfold lock3. cbn. intros l Hl. destruct Hl as [<-|[<-|[<-|[<-|[]]]]]; reflexivity. }
  destruct H as [_ Hv Hn Hg Ha Hp Ho].
  assert (E : i_exec s (lock3 t k) =
    mkMS t (s32 (c + 1)) 0 (m_alive s) (upd (upd (upd (upd (m_pc s) t (MRead k)) t (MCas k)) t (MAdd2 k)) t MIdle)
      (upd (m_own s) t true) (upd (m_depth s) t (m_depth s t + 1)) (upd (m_res s) t (Some OK))).
  { clear R A. unfold lock3. cbn [i_exec].
    rewrite i_call_eq by (auto; now rewrite Hn). unfold m_call. rewrite Hp. unfold m_goto. rewrite Hv, Hn, Hg.
    inner i_run_eq; [| unfold m_run; cbn [m_pc m_val]; rewrite upd_eq; replace (0 =? t) with false by (symmetry; apply Z.eqb_neq; auto);
      unfold m_goto; cbn [m_val m_cnt m_guard m_alive m_pc m_own m_depth m_res]; reflexivity | exact I32].
    inner i_run_eq; [| unfold m_run; cbn [m_pc m_val]; rewrite upd_eq; cbn [Z.eqb];
      unfold m_goto, m_set; cbn [m_val m_cnt m_guard m_alive m_pc m_own m_depth m_res]; reflexivity | exact I32].
    inner i_run_wrap; [| unfold m_run; cbn [m_pc m_cnt]; rewrite upd_eq;
      unfold m_locked, m_set; cbn [m_val m_cnt m_guard m_alive m_pc m_own m_depth m_res]; reflexivity].
    unfold with_cnt. cbn [m_val m_cnt m_guard m_alive m_pc m_own m_depth m_res]. reflexivity. }
  rewrite E in R, A |- *. split; [constructor; cbn [m_val m_cnt m_guard m_alive m_pc m_own]; auto|].
  - intros u. unfold upd. destruct (u =? t); auto.
  - intros _. apply upd_eq.
  - cbn [m_res]. apply upd_eq.
Qed.

(** a try-lock by the owner with a counter below zero is refused *)
Lemma relock_wrapped : forall s t c, t <> 0 -> rest s t c -> INT_MIN <= c < 0 ->
  let s' := i_exec s (lock3 t MTry) in rest s' t c /\ m_res s' t = Some EBUSY.
Proof.
  intros s t c Ht H Hc. cbv zeta.
  assert (I32 : is_int32 c) by small. assert (I32' : is_int32 (c + 1)) by small.
  destruct (solo_reach t (lock3 t MTry) s Ht (re_reach _ _ _ H) (re_alive _ _ _ H)) as [R A].
  { unfold lock3. cbn. intros l Hl. destruct Hl as [<-|[<-|[<-|[<-|[]]]]]; reflexivity. }
  destruct H as [_ Hv Hn Hg Ha Hp Ho].
  assert (E : i_exec s (lock3 t MTry) =
    mkMS t c 0 (m_alive s) (upd (upd (upd (upd (m_pc s) t (MRead MTry)) t (MAdd MTry)) t (MSub MTry)) t MIdle)
      (m_own s) (m_depth s) (upd (m_res s) t (Some EBUSY))).
  { clear R A. unfold lock3. cbn [i_exec].
    rewrite i_call_eq by (auto; now rewrite Hn). unfold m_call. rewrite Hp. unfold m_goto. rewrite Hv, Hn, Hg.
    inner i_run_eq; [| unfold m_run; cbn [m_pc m_val]; rewrite upd_eq, Z.eqb_refl; unfold m_goto;
      cbn [m_val m_cnt m_guard m_alive m_pc m_own m_depth m_res]; reflexivity | exact I32].
    inner i_run_eq; [| unfold m_run; cbn [m_pc m_cnt]; rewrite upd_eq; replace (0 <=? c) with false by (symmetry; apply Z.leb_gt; lia);
      unfold m_goto, m_set; cbn [m_val m_cnt m_guard m_alive m_pc m_own m_depth m_res]; reflexivity | exact I32'].
    inner i_run_eq; [| unfold m_run; cbn [m_pc m_cnt]; rewrite upd_eq; unfold m_failed, m_return, m_set;
      cbn [m_val m_cnt m_guard m_alive m_pc m_own m_depth m_res]; reflexivity |].
    - replace (c + 1 - 1) with c by lia. reflexivity.
    - cbn [m_cnt]. small. }
  rewrite E in R, A |- *. split; [constructor; cbn [m_val m_cnt m_guard m_alive m_pc m_own]; auto|].
  - intros u. unfold upd. destruct (u =? t); auto.
  - cbn [m_res]. apply upd_eq.
Qed.

(** unlocking with the wrapped counter frees the mutex and leaves INT_MAX in the counter *)
Definition unlock_wrapped (t : Z) : list mlabel := MCall t CUnlock :: run t 7.
Lemma unlock_wrapped_run : forall s t, t <> 0 -> rest s t INT_MIN ->
  let s' := i_exec s (unlock_wrapped t) in rest s' 0 INT_MAX /\ m_res s' t = Some OK.
Proof.
  intros s t Ht H. cbv zeta.
  destruct (solo_reach t (unlock_wrapped t) s Ht (re_reach _ _ _ H) (re_alive _ _ _ H)) as [R A].
  { unfold unlock_wrapped, run. cbn. intros l Hl.
    repeat (destruct Hl as [<-|Hl]; [reflexivity|]). destruct Hl. }
  destruct H as [_ Hv Hn Hg Ha Hp Ho].
  assert (P : m_val (i_exec s (unlock_wrapped t)) = 0 /\ m_cnt (i_exec s (unlock_wrapped t)) = INT_MAX /\
    m_guard (i_exec s (unlock_wrapped t)) = 0 /\ (forall u, m_pc (i_exec s (unlock_wrapped t)) u = MIdle) /\
    m_res (i_exec s (unlock_wrapped t)) t = Some OK).
  { clear R A. unfold unlock_wrapped, run. cbn [repeat i_exec].
    rewrite i_call_eq by (auto; rewrite Hn; small). unfold m_call. rewrite Hp. unfold m_goto. rewrite Hv, Hn, Hg.
    cbn [m_val m_cnt m_guard m_alive m_pc m_own m_depth m_res].
    (* guard *)
    inner i_run_eq; [| unfold m_run; cbn [m_pc]; rewrite upd_eq; unfold m_take_guard; cbn [m_guard Z.eqb orb];
      unfold m_goto, m_set; cbn [m_val m_cnt m_guard m_alive m_pc m_own m_depth m_res]; reflexivity | cbn [m_cnt]; small].
    (* MU0 *)
    inner i_run_eq; [| unfold m_run; cbn [m_pc m_val]; rewrite upd_eq; replace (t =? 0) with false by (symmetry; apply Z.eqb_neq; auto);
      unfold m_goto; cbn [m_val m_cnt m_guard m_alive m_pc m_own m_depth m_res]; reflexivity | cbn [m_cnt]; small].
    (* MU1 *)
    inner i_run_eq; [| unfold m_run; cbn [m_pc m_val]; rewrite upd_eq, Z.eqb_refl;
      unfold m_goto; cbn [m_val m_cnt m_guard m_alive m_pc m_own m_depth m_res]; reflexivity | cbn [m_cnt]; small].
    (* MU2 *)
    inner i_run_wrap; [| unfold m_run; cbn [m_pc m_cnt]; rewrite upd_eq;
      replace (INT_MIN <=? 1) with true by reflexivity; replace (INT_MIN <? 1) with true by reflexivity;
      unfold m_goto, m_set; cbn [m_val m_cnt m_guard m_alive m_pc m_own m_depth m_res]; reflexivity].
    unfold with_cnt; cbn [m_val m_cnt m_guard m_alive m_pc m_own m_depth m_res].
    replace (s32 (INT_MIN - 1)) with INT_MAX by reflexivity.
    (* MU3 *)
    inner i_run_eq; [| unfold m_run; cbn [m_pc m_cnt]; rewrite upd_eq;
      replace (INT_MAX =? INT_MIN) with false by reflexivity;
      unfold m_goto, m_set; cbn [m_val m_cnt m_guard m_alive m_pc m_own m_depth m_res]; reflexivity | cbn [m_cnt]; small].
    (* MU4 *)
    inner i_run_eq; [| unfold m_run; cbn [m_pc m_val]; rewrite upd_eq, Z.eqb_refl; unfold m_unlock_end;
      unfold m_goto, m_set; cbn [m_val m_cnt m_guard m_alive m_pc m_own m_depth m_res]; reflexivity | cbn [m_cnt]; small].
    (* MURel *)
    inner i_run_eq; [| unfold m_run; cbn [m_pc]; rewrite upd_eq; unfold m_drop_guard; cbn [m_guard]; rewrite Z.eqb_refl;
      unfold m_unlocked, m_set; cbn [m_val m_cnt m_guard m_alive m_pc m_own m_depth m_res]; reflexivity | cbn [m_cnt]; small].
    cbn [m_val m_cnt m_guard m_alive m_pc m_own m_depth m_res].
    repeat split; auto; [|apply upd_eq].
    intros u. unfold upd. destruct (u =? t); auto. }
  destruct P as (P1 & P2 & P3 & P4 & P5). split; auto. constructor; auto.
Qed.

Lemma rest_init : rest m_init 0 0.
Proof. constructor; cbn; auto. constructor. Qed.

(** 2^31 locks in a row all succeed and leave INT_MIN in the counter *)
Lemma deep : forall t, t <> 0 -> forall n, 0 <= n -> 1 + n <= INT_MAX -> exists s, rest s t (1 + n).
Proof.
  intros t Ht. apply (natlike_ind (fun n => 1 + n <= INT_MAX -> exists s, rest s t (1 + n))).
  - intros _. exists (i_exec m_init (lock3 t MTry)).
    replace (1 + 0) with (s32 (0 + 1)) by reflexivity.
    apply (first_lock m_init t 0 MTry Ht rest_init). small.
  - intros n Hn IH Hm. destruct IH as [s Hs]; [lia|]. exists (i_exec s (lock3 t MTry)).
    replace (1 + Z.succ n) with (s32 (1 + n + 1)) by (rewrite s32_id by small; lia).
    apply (relock_low s t (1 + n) MTry Ht Hs). lia.
Qed.
Lemma wrapped : forall t, t <> 0 -> exists s, rest s t INT_MIN.
Proof.
  intros t Ht. destruct (deep t Ht (INT_MAX - 1)) as [s Hs]; try small.
  replace (1 + (INT_MAX - 1)) with INT_MAX in Hs by reflexivity.
  exists (i_exec s (lock3 t MTry)). replace INT_MIN with (s32 (INT_MAX + 1)) by reflexivity.
  apply (relock_low s t INT_MAX MTry Ht Hs). small.
Qed.

Lemma i_exec_path : forall t ls s, t <> 0 -> (forall u, m_alive s u = true) -> i_reach no_exit_in_window s ->
  (forall l, In l ls -> solo t l) -> i_path no_exit_in_window s ls (i_exec s ls).
Proof.
  intros t ls. induction ls as [|l r IH]; intros s Ht A R H; [constructor|]. cbn [i_exec].
  destruct (solo_reach t [l] s Ht R A) as [R1 A1].
  { intros l' [<-|[]]. apply H. now left. }
  assert (Hl : solo t l) by (apply H; now left). constructor.
  - destruct l; cbn in Hl |- *; try contradiction; subst; auto.
  - destruct l; cbn in Hl |- *; try contradiction; auto.
  - apply IH; auto. intros l' Hl'. apply H. now right.
Qed.

(** After 2^31 locks the owner's next try-lock answers EBUSY. *)
Theorem C117_relock_refuted : ~ C117_statement.
Proof.
  intros H. destruct (wrapped 1 ltac:(discriminate)) as [s Hs].
  destruct (relock_wrapped s 1 INT_MIN ltac:(discriminate) Hs ltac:(small)) as [Hr Hres].
  destruct (H MTry s [MRun 1 false; MRun 1 false; MRun 1 false] (i_exec s (lock3 1 MTry)) 1) as (_ & Hb & _).
  - apply Hs.
  - split; [discriminate | apply Hs].
  - apply Hs.
  - apply (re_own _ _ _ Hs). discriminate.
  - destruct (solo_reach 1 [MCall 1 (CLock MTry)] s ltac:(discriminate) (re_reach _ _ _ Hs) (re_alive _ _ _ Hs)) as [R1 A1].
    { intros l [<-|[]]. reflexivity. }
    change (i_exec s (lock3 1 MTry)) with (i_exec (i_step s (MCall 1 (CLock MTry))) [MRun 1 false; MRun 1 false; MRun 1 false]).
    apply (i_exec_path 1); [discriminate | exact A1 | exact R1 |].
    intros l Hl. cbn in Hl. destruct Hl as [<-|[<-|[<-|[]]]]; reflexivity.
  - intros l Hl. cbn in Hl. destruct Hl as [<-|[<-|[<-|[]]]]; split; intros; discriminate.
  - cbn. lia.
  - rewrite Hres in Hb. discriminate.
Qed.
Print Assumptions C117_relock_refuted.

(** The damage outlives the owner: once the deep lock is released the mutex is free with INT_MAX in its
    counter; from then on every thread that locks it gets it, is refused a second lock, and its unlock leaves
    the mutex in that condition again. *)
Theorem C117_damage_stays :
  (exists s, rest s 0 INT_MAX) /\
  forall s t, t <> 0 -> rest s 0 INT_MAX ->
    let s1 := i_exec s (lock3 t MTry) in
    let s2 := i_exec s1 (lock3 t MTry) in
    let s3 := i_exec s2 (unlock_wrapped t) in
    m_res s1 t = Some OK /\ m_own s1 t = true /\ m_res s2 t = Some EBUSY /\ m_own s2 t = true /\
    m_res s3 t = Some OK /\ rest s3 0 INT_MAX.
Proof.
  split.
  - destruct (wrapped 1 ltac:(discriminate)) as [s Hs]. exists (i_exec s (unlock_wrapped 1)).
    apply (unlock_wrapped_run s 1 ltac:(discriminate) Hs).
  - intros s t Ht Hs. cbv zeta.
    destruct (first_lock s t INT_MAX MTry Ht Hs ltac:(small)) as [H1 E1]. fold (lock3 t MTry) in H1, E1.
    replace (s32 (INT_MAX + 1)) with INT_MIN in H1 by reflexivity.
    destruct (relock_wrapped _ t INT_MIN Ht H1 ltac:(small)) as [H2 E2].
    destruct (unlock_wrapped_run _ t Ht H2) as [H3 E3].
    repeat split; auto; [apply (re_own _ _ _ H1); auto | apply (re_own _ _ _ H2); auto | apply H3 ..].
Qed.
Print Assumptions C117_damage_stays.

(** A blocking lock by the owner of a wrapped counter never returns while the thread runs alone, with or
    without recovery passes in between. *)
Definition spins (s : mstate) (t : Z) : Prop :=
  m_val s = t /\ (m_guard s = 0 \/ m_guard s = t) /\
  match m_pc s t with
  | MRead MBlock | MAdd MBlock | MKGuard (Some MBlock) | MK0 (Some MBlock) | MKRel (Some MBlock) => m_cnt s = INT_MIN
  | MSub MBlock => m_cnt s = INT_MIN + 1
  | _ => False
  end.

Lemma spins_step : forall s t b, t <> 0 -> spins s t -> spins (i_step s (MRun t b)) t.
Proof.
  intros s t b Ht (Hv & Hg & H). unfold i_step. cbn [m_step]. unfold m_run.
  destruct (m_pc s t) as [|[]|[]| |[]| | | | | | | | | | |[[]|]|[[]|]| | | | | |[[]|]] eqn:P; try contradiction.
  - rewrite Hv, Z.eqb_refl. unfold spins, with_cnt, m_goto. cbn [m_val m_cnt m_guard m_pc]. rewrite upd_eq, H. auto.
  - rewrite H. cbn [Z.leb Z.compare INT_MIN]. unfold spins, with_cnt, m_goto, m_set. cbn [m_val m_cnt m_guard m_pc]. rewrite upd_eq. auto.
  - unfold m_failed. destruct b; unfold spins, with_cnt, m_goto, m_set; cbn [m_val m_cnt m_guard m_pc]; rewrite upd_eq, H; auto.
  - unfold m_take_guard. assert (E : (m_guard s =? 0) || (m_guard s =? t) || negb (m_alive s (m_guard s)) = true).
    { destruct Hg as [->| ->]; rewrite ?Z.eqb_refl, ?orb_true_r; reflexivity. }
    rewrite E. unfold spins, with_cnt, m_goto, m_set. cbn [m_val m_cnt m_guard m_pc]. rewrite upd_eq, H. auto.
  - rewrite Hv, Z.eqb_refl, orb_true_r. unfold spins, with_cnt, m_goto. cbn [m_val m_cnt m_guard m_pc]. rewrite upd_eq, H. auto.
  - unfold m_drop_guard. destruct (m_guard s =? t); unfold spins, with_cnt, m_goto, m_set; cbn [m_val m_cnt m_guard m_pc];
      rewrite upd_eq, H; auto.
Qed.

Theorem C117_blocking_relock_spins :
  (exists s, rest s 1 INT_MIN) /\
  forall s t bs, t <> 0 -> rest s t INT_MIN ->
    m_own s t = true /\ m_pc (i_exec s (MCall t (CLock MBlock) :: map (MRun t) bs)) t <> MIdle.
Proof.
  split; [apply wrapped; discriminate|].
  intros s t bs Ht H. split; [now apply (re_own _ _ _ H)|]. cbn [i_exec].
  rewrite i_call_eq; [|apply H | rewrite (re_cnt _ _ _ H); small].
  assert (S : spins (m_call s t (CLock MBlock)) t).
  { unfold m_call. rewrite (re_pc _ _ _ H). unfold spins, m_goto. cbn [m_val m_cnt m_guard m_pc]. rewrite upd_eq.
    split; [apply H|]. split; [left|]; apply H. }
  revert S. generalize (m_call s t (CLock MBlock)). induction bs as [|b bs IH]; intros s1 S; cbn [map i_exec].
  - destruct S as (_ & _ & S). destruct (m_pc s1 t); congruence || contradiction.
  - apply IH. now apply spins_step.
Qed.
Print Assumptions C117_blocking_relock_spins.

(** ** C118: mutual exclusion does not depend on the counter *)
Theorem C118_exclusion_for_any_counter : forall s t u, a_reach no_exit_in_window s ->
  m_alive s t = true -> m_alive s u = true -> m_own s t = true -> m_own s u = true -> t = u.
Proof.
  intros s t u R At Au Ot Ou. pose proof (ainv_reach s R) as I.
  rewrite <- (ai_own _ I t At (or_introl Ot)). apply (ai_own _ I u Au (or_introl Ou)).
Qed.
Print Assumptions C118_exclusion_for_any_counter.

Theorem C118_exclusion_32bit : forall s t u, i_reach no_exit_in_window s ->
  m_alive s t = true -> m_alive s u = true -> m_own s t = true -> m_own s u = true -> t = u.
Proof. intros s t u R. apply C118_exclusion_for_any_counter, i_reach_a, R. Qed.
Print Assumptions C118_exclusion_32bit.

(** a thread that owns the mutex and finishes an unlock call no longer is the recorded owner, whatever the counter *)
Theorem C118_unlock_frees_for_any_counter : forall s t, a_reach no_exit_in_window s ->
  t <> 0 -> m_alive s t = true -> m_pc s t = MIdle -> m_own s t = false -> m_val s <> t.
Proof.
  intros s t R Ht Ha Hp Ho E. destruct (ai_val _ (ainv_reach s R) t Ht Ha E) as [H|H]; [congruence|].
  rewrite Hp in H. exact H.
Qed.
Print Assumptions C118_unlock_frees_for_any_counter.

(** an owner with a wrapped counter exists; a second thread is refused *)
Example C118_example : exists s, i_reach no_exit_in_window s /\ m_own s 1 = true /\ m_cnt s = INT_MIN /\
  m_alive s 2 = true /\ m_pc s 2 = MIdle.
Proof.
  destruct (wrapped 1 ltac:(discriminate)) as [s Hs]. exists s.
  repeat split; try apply Hs. discriminate.
Qed.

(** executions meeting the hypotheses of the C117 theorems *)
Example C117_example : exists s ls s', i_reach window_shallow s /\ live_thread s 1 /\ idle s 1 /\ m_own s 1 = true /\
  m_cnt s = 1 /\ m_cnt s < INT_MAX /\ i_path window_shallow (i_step s (MCall 1 (CLock MTimed))) ls s' /\ one_call 1 ls /\
  (3 <= own_steps 1 ls)%nat /\ In (MCall 2 (CLock MBlock)) ls.
Proof.
  exists (i_exec m_init (lock3 1 MBlock)), [MRun 1 false; MCall 2 (CLock MBlock); MRun 2 true; MRun 1 false; MRun 2 false; MRun 1 false].
  eexists. repeat split; try discriminate; try reflexivity.
  - unfold lock3. cbn [i_exec].
    repeat (apply ir_step; [| repeat split; discriminate | split; [exact I|]; cbn; try exact I; intros; discriminate]). constructor.
  - repeat (eapply ip_cons; [repeat split; discriminate | split; [exact I|]; cbn; try exact I; intros; discriminate |]). apply ip_nil.
  - intros c Hc. subst l. cbn in H. repeat (destruct H as [H|H]; [discriminate|]). exact H.
  - intros Hc. subst l. cbn in H. repeat (destruct H as [H|H]; [discriminate|]). exact H.
  - cbn. auto.
Qed.
