(** Whole calls and reachable states. *)
From Verif Require Import Base Rcsv_Model Rcsv_Spec Rcsv_Proofs Rcsv_Proofs3 Rcsv_Proofs4 Rcsv_Proofs5 Rcsv_Proofs6 Rcsv_Proofs7.
From Coq Require Import ZArith List Bool Lia Permutation.
Import ListNotations.
Open Scope Z_scope.

(** *** The log only grows *)
Definition grows (l : list (scall * Z)) (l' : list (scall * Z)) : Prop := exists m, l' = m ++ l.
Definition lres {A} (l : list (scall * Z)) (r : res A) : Prop :=
  match r with Ret _ _ s | Wait _ _ s | Hang s => grows l (s_log s) end.
Lemma grows_refl : forall l, grows l l.
Proof. intros l. exists []. reflexivity. Qed.
Lemma grows_cons : forall c l l', grows l l' -> grows l (c :: l').
Proof. intros c l l' [m ->]. exists (c :: m). reflexivity. Qed.
Lemma lres_bind : forall A B l (r : res A) (k : A -> bool -> st -> res B),
  lres l r -> (forall a L s, grows l (s_log s) -> lres l (k a L s)) -> lres l (bind r k).
Proof. intros A B l [a L s|c L s|s] k H K; cbn; auto. Qed.
Lemma shm_l : forall l c L s, grows l (s_log s) -> lres l (shm c L s).
Proof. intros l c L s H. unfold shm. destruct (s_ans s); cbn; auto. now apply grows_cons. Qed.
Lemma lock_l : forall l L s, grows l (s_log s) -> lres l (stack_lock L s).
Proof. intros l [|] s H; cbn; auto. unfold stack_lock. destruct (s_mtx s); exact H. Qed.
Lemma unlock_l : forall l L s, grows l (s_log s) -> lres l (stack_unlock L s).
Proof. intros l [|] s H; cbn; auto. Qed.
Lemma pass_log : forall s o, s_log (pass_on s o) = s_log s.
Proof.
  intros. unfold pass_on. destruct (pick s (o_pend (s_obj s o))) as [n rest]. cbv zeta.
  cbn [set_stack on set_obj s_log]. apply move_log.
Qed.

Lemma rawunlock_l : forall l o L s, grows l (s_log s) -> lres l (RawUnlock o L s).
Proof.
  intros l o L s H. unfold RawUnlock. cbv zeta.
  destruct (is_unl (o_type (s_obj s o)) || negb (o_locked (s_obj s o))); [exact H|].
  apply lres_bind; [now apply lock_l|]. intros _ L1 s1 H1.
  destruct (o_master (s_obj s o)); [exact H1|].
  destruct (o_pend (s_obj s o)).
  - destruct (o_has (s_obj s o)); [|exact H1].
    apply lres_bind; [now apply unlock_l|]. intros _ L2 s2 H2.
    apply lres_bind; [now apply shm_l|]. intros a L3 s3 H3.
    destruct (a =? 0); [exact H3|].
    apply lres_bind; [now apply lock_l|]. intros _ L4 s4 H4. exact H4.
  - cbn [lres on set_obj s_log]. rewrite pass_log. exact H1.
Qed.
Lemma unlock_if_l : forall l b o L s, grows l (s_log s) -> lres l (unlock_if b o L s).
Proof. intros l [|] o L s H; [now apply rawunlock_l|exact H]. Qed.

Lemma rawread_l : forall l o L s, grows l (s_log s) -> lres l (RawReadLock o L s).
Proof.
  intros l o L s H. unfold RawReadLock. cbv zeta.
  destruct (o_locked (s_obj s o) && is_rd (o_type (s_obj s o))); [exact H|].
  destruct (o_locked (s_obj s o) && is_wr (o_type (s_obj s o)) && _); [exact H|].
  apply lres_bind; [now apply lock_l|]. intros _ L1 s1 H1.
  apply lres_bind; [now apply unlock_if_l|]. intros b L2 s2 H2.
  destruct (negb b); [exact H2|].
  destruct (first_match _ _ _); [exact H2|].
  apply lres_bind; [now apply unlock_l|]. intros _ L3 s3 H3.
  apply lres_bind; [now apply shm_l|]. intros a L4 s4 H4.
  destruct (a =? 0); [exact H4|].
  apply lres_bind; [now apply lock_l|]. intros _ L5 s5 H5. exact H5.
Qed.

Lemma take_over_l : forall l o rs L s, grows l (s_log s) -> lres l (take_over o rs L s).
Proof.
  induction rs as [|i r IH]; intros L s H; cbn [take_over]; [exact H|]. cbv zeta.
  apply lres_bind.
  - destruct (o_locked (s_obj s i) && o_has (s_obj s i)); [now apply shm_l|exact H].
  - intros a L1 s1 H1. apply IH. cbn [on set_obj s_log]. rewrite move_log. exact H1.
Qed.
Lemma relock_l : forall l q L s, grows l (s_log s) -> lres l (relock q L s).
Proof.
  induction q as [|i r IH]; intros L s H; cbn [relock]; [exact H|]. cbv zeta.
  set (s1 := on s i _). assert (H1 : grows l (s_log s1)) by exact H.
  destruct (is_unl _); [now apply IH|]. destruct (s_mtx s1); [exact H1|now apply IH].
Qed.

Lemma rawwrite_l : forall l o L s, grows l (s_log s) -> lres l (RawWriteLock o L s).
Proof.
  intros l o L s H. unfold RawWriteLock. cbv zeta.
  destruct (o_locked (s_obj s o) && is_wr (o_type (s_obj s o))); [exact H|].
  destruct (o_locked (s_obj s o) && is_rd (o_type (s_obj s o)) && _); [exact H|].
  apply lres_bind; [now apply lock_l|]. intros _ L1 s1 H1.
  apply lres_bind; [now apply unlock_if_l|]. intros b L2 s2 H2.
  destruct (negb b); [exact H2|].
  destruct (scan _ _ _) as [[rs ks] [i|]]; [exact H2|].
  apply lres_bind; [now apply unlock_l|]. intros _ L3 s3 H3.
  apply lres_bind; [now apply take_over_l|]. intros _ L4 s4 H4.
  apply lres_bind; [now apply shm_l|]. intros a L5 s5 H5.
  destruct (a =? 0); [exact H5|].
  apply lres_bind; [now apply lock_l|]. intros _ L6 s6 H6.
  apply lres_bind; [now apply relock_l|]. intros _ L7 s7 H7. exact H7.
Qed.
Lemma rawlock_l : forall l o b L s, grows l (s_log s) -> lres l (RawLock o b L s).
Proof. intros l o [|] L s H; [now apply rawread_l|now apply rawwrite_l]. Qed.
Lemma finish_l : forall l r, lres l r -> lres l (finish r).
Proof.
  intros l r H. unfold finish. apply lres_bind; [exact H|]. intros a L s H1.
  apply lres_bind; [now apply unlock_l|]. intros _ L2 s2 H2. exact H2.
Qed.

Lemma call_l : forall p s, lres (s_log s) (call p s).
Proof.
  intros p s. pose proof (grows_refl (s_log s)) as H.
  destruct p as [o tid fd off len|o tid fd off len rd|o|o fd off len rd|o rd|o|o|o|o]; cbn [call].
  - exact H.
  - cbv zeta. destruct (fd =? FLCK_INVALID_HANDLE); [exact H|]. apply finish_l. now apply rawlock_l.
  - apply lres_bind; [apply finish_l; now apply rawunlock_l|]. intros a L s1 H1. exact H1.
  - apply finish_l. apply lres_bind; [now apply rawunlock_l|]. intros a L s1 H1.
    destruct (negb a); [exact H1|now apply rawlock_l].
  - apply finish_l. now apply rawlock_l.
  - destruct (o_type (s_obj s o)); [exact H|apply finish_l; now apply rawread_l|apply finish_l; now apply rawwrite_l].
  - apply finish_l. now apply rawread_l.
  - apply finish_l. now apply rawwrite_l.
  - apply finish_l. now apply rawunlock_l.
Qed.

Lemma honest_grow : forall l l', grows l l' -> honest l' -> honest l.
Proof. intros l l' [m ->] R. induction m as [|c m IH]; [exact R|]. apply IH. exact (honest_tail _ _ R). Qed.

Section Run.
  Variables (tidy : Prop) (F : key -> Prop).
  Hypothesis SEP : tidy -> separate F.
  Local Notation Inv := (Inv tidy F).
  Local Notation ires := (ires tidy F).
  Local Notation fails := (fails tidy).

  Definition lockpost (rd : bool) (o : Z) (b : bool) (s' : st) : Prop :=
    if b then o_locked (s_obj s' o) = true /\ (rd = false -> o_type (s_obj s' o) = WR)
    else o_locked (s_obj s' o) = false \/ fails (s_log s').
  Definition unlockpost (o : Z) (b : bool) (s' : st) : Prop :=
    if b then o_locked (s_obj s' o) = false else fails (s_log s').

  Lemma rawlock_i : forall o rd L s, s_mtx s = L -> Inv (s_obj s) (s_stack s) (s_log s) ->
    o_alive (s_obj s o) = true -> (tidy -> F (key_of (s_obj s o))) ->
    ires o (s_obj s) (lockpost rd o) (RawLock o rd L s).
  Proof.
    intros o [|] L s M I A FO; cbn [RawLock].
    - eapply ires_post; [now apply rawread_i|]. intros [|] s' H; cbn; [split; [exact H|discriminate]|exact H].
    - eapply ires_post; [now apply rawwrite_i|]. intros [|] s' H; cbn; [split; [apply H|intros _; apply H]|exact H].
  Qed.

  Lemma finish_i : forall o f (P : bool -> st -> Prop) r, ires o f P r ->
    (forall b s s', s_obj s' = s_obj s -> s_log s' = s_log s -> P b s -> P b s') -> ires o f P (finish r).
  Proof.
    intros o f P [b L s|c L s|s] H K; cbn [finish bind] in *; auto.
    destruct H as (M & I & KP & Q). destruct (stack_unlock_ok L s M) as (s' & -> & M' & E1 & E2 & _ & E3 & _).
    cbn. rewrite E1, E2, E3. split; [exact M'|]. split; [exact I|]. split; [exact KP|]. now apply (K b s).
  Qed.
  Lemma lockpost_ext : forall rd o b s s', s_obj s' = s_obj s -> s_log s' = s_log s -> lockpost rd o b s -> lockpost rd o b s'.
  Proof. intros rd o b s s' E E'. unfold lockpost. now rewrite E, E'. Qed.
  Lemma unlockpost_ext : forall o b s s', s_obj s' = s_obj s -> s_log s' = s_log s -> unlockpost o b s -> unlockpost o b s'.
  Proof. intros o b s s' E E'. unfold unlockpost. now rewrite E, E'. Qed.

  (** a call on [o]: the others *)
  Definition others (o : Z) (f f' : Z -> obj) : Prop :=
    forall z, z <> o -> o_alive (f' z) = o_alive (f z) /\ key_of (f' z) = key_of (f z) /\
      o_locked (f' z) = o_locked (f z) /\ (o_locked (f z) = true -> o_type (f z) = WR -> o_type (f' z) = WR).
  Lemma keeps_others : forall o f f', keeps o f f' -> others o f f'.
  Proof. intros o f f' [A B] z N. destruct (A z), (B z N). auto. Qed.
  Lemma others_trans : forall o f g h, others o f g -> others o g h -> others o f h.
  Proof.
    intros o f g h A B z N. destruct (A z N) as (A1 & A2 & A3 & A4), (B z N) as (B1 & B2 & B3 & B4).
    split; [congruence|]. split; [congruence|]. split; [congruence|]. intros L W. apply B4; [congruence|auto].
  Qed.
  Lemma others_own : forall o (f f' : Z -> obj), (forall z, z <> o -> f' z = f z) -> others o f f'.
  Proof. intros o f f' E z N. rewrite (E z N). auto. Qed.

  Definition cpost (p : op) (s : st) (b : bool) (s' : st) : Prop :=
    match asks s p with
    | Some t => if b then locked s' (target p) /\ (t = WR -> kind s' (target p) = WR)
                else ~ locked s' (target p) \/ fails (s_log s')
    | None => True
    end /\
    match p with OUnlock o => if b then ~ locked s' o else fails (s_log s') | _ => True end /\
    match p with ODel o => b = false -> fails (s_log s') | _ => True end.

  Definition cres (p : op) (s : st) (r : res bool) : Prop :=
    match r with
    | Ret b L s' => (clean_destruction s p b s' -> Inv (s_obj s') (s_stack s') (s_log s')) /\
                    others (target p) (s_obj s) (s_obj s') /\ cpost p s b s'
    | Wait c L s' => tidy -> honest (s_log s') -> clean (s_log s') /\ proper (held (s_log s')) c
    | Hang s' => True
    end.

  Lemma ires_lock : forall p rd o s g r, ires o g (lockpost rd o) r ->
    others o (s_obj s) g -> target p = o -> asks s p = Some (ty rd) ->
    match p with ODel _ | OUnlock _ => False | _ => True end -> cres p s r.
  Proof.
    intros p rd o s g [b L s'|c L s'|s'] H OT E A NP; cbn in *; auto.
    destruct H as (M & I & K & Q). split; [auto|]. rewrite E. split; [exact (others_trans _ _ _ _ OT (keeps_others _ _ _ K))|].
    unfold cpost. rewrite A, E. split; [|destruct p; try exact (conj Logic.I Logic.I); destruct NP].
    unfold locked, kind. destruct b.
    - destruct Q as [Q1 Q2]. split; [exact Q1|]. intros X. apply Q2. destruct rd; [discriminate X|reflexivity].
    - destruct Q as [Q|Q]; [left; congruence|now right].
  Qed.

  Lemma call_i : forall p s, s_mtx s = false -> Inv (s_obj s) (s_stack s) (s_log s) -> allowed p s = true ->
    (tidy -> in_family F s p true s) -> cres p s (call p s).
  Proof.
    intros p s M I A FAM.
    assert (FR : forall o tid fd off len t, o_alive (s_obj s o) = false ->
      let s1 := set_obj s o (mkO true tid fd off len t false false [] None) in
      Inv (s_obj s1) (s_stack s1) (s_log s1)).
    { intros o tid fd off len t D s1. apply (Inv_other tidy F (s_obj s) _ _ _ o I).
      - destruct I as [HG _]. apply (free_of _ (s_stack s)); [exact HG|].
        destruct (o_locked (s_obj s o)) eqn:L; [|reflexivity]. exfalso.
        destruct (g_lo _ _ HG o L) as [(X & _)|(x & (X & _) & _)]; congruence.
      - unfold s1, set_obj. cbn [s_obj]. unfold free. rewrite upd_eq. cbn. auto.
      - intros z N. unfold s1, set_obj. cbn [s_obj]. now apply upd_neq. }
    unfold allowed in A.
    destruct p as [o tid fd off len|o tid fd off len rd|o|o fd off len rd|o rd|o|o|o|o]; cbn [call makes target in_family] in *.
    - apply negb_true_iff in A. cbn [cres]. split; [intros _; apply (FR o tid fd off len UNL A)|]. split.
      + apply others_own. intros z N. cbn. now apply upd_neq.
      + unfold cpost. cbn. auto.
    - apply negb_true_iff in A. cbv zeta. specialize (FR o tid fd off len (ty rd) A). cbv zeta in FR.
      set (s1 := set_obj s o _) in *.
      assert (OT : others o (s_obj s) (s_obj s1)) by (apply others_own; intros z N; unfold s1; cbn; now apply upd_neq).
      assert (Eo : s_obj s1 o = mkO true tid fd off len (ty rd) false false [] None) by (unfold s1; cbn; apply upd_eq).
      destruct (fd =? FLCK_INVALID_HANDLE) eqn:E.
      + cbn [cres]. split; [intros _; exact FR|]. split; [exact OT|]. unfold cpost. cbn. rewrite E. auto.
      + apply (ires_lock _ rd o s (s_obj s1)); auto; [|cbn; rewrite E; reflexivity].
        apply finish_i; [|apply lockpost_ext]. apply rawlock_i; [exact M|exact FR|rewrite Eo; reflexivity|].
        rewrite Eo. exact FAM.
    - pose proof (finish_i o (s_obj s) _ _ (rawunlock_i tidy F o false s M I)
        (fun b s1 s2 E E' => fun Q => conj (unlockpost_ext o b s1 s2 E E' (proj1 Q)) (eq_trans (f_equal (fun g => o_type (g o)) E) (proj2 Q)))) as H.
      destruct (finish (RawUnlock o false s)) as [b L s1|c L s1|s1]; cbn [bind]; [|exact H|exact Logic.I].
      destruct H as (M1 & I1 & K1 & Q1 & _). cbn [cres target]. split; [|split].
      + cbn. intros ->. apply (Inv_other tidy F (s_obj s1) _ _ _ o I1).
        * apply (free_of _ (s_stack s1)); [apply I1|exact Q1].
        * unfold free. rewrite upd_eq. cbn. auto.
        * intros z N. now apply upd_neq.
      + apply (others_trans _ _ (s_obj s1)); [now apply keeps_others|]. apply others_own. intros z N. cbn. now apply upd_neq.
      + unfold cpost. cbn. split; [auto|]. split; [auto|]. intros ->. exact Q1.
    - pose proof (rawunlock_i tidy F o false s M I) as H.
      destruct (RawUnlock o false s) as [b L s1|c L s1|s1]; cbn [bind].
      + destruct H as (M1 & I1 & K1 & Q1 & _). destruct b; cbn [negb].
        * set (s2 := on s1 o _).
          assert (Eo : s_obj s2 o = w_type (w_range (s_obj s1 o) fd off len) (ty rd)) by (unfold s2, on, set_obj; cbn [s_obj]; apply upd_eq).
          assert (Ez : forall z, z <> o -> s_obj s2 z = s_obj s1 z) by (intros z N; unfold s2, on, set_obj; cbn [s_obj]; now apply upd_neq).
          assert (F1 : free (s_obj s1) o) by (apply (free_of _ (s_stack s1)); [apply I1|exact Q1]).
          destruct K1 as [ID K1]. destruct (ID o) as [AO KO].
          apply (ires_lock _ rd o s (s_obj s2)); auto.
          -- apply finish_i; [|apply lockpost_ext]. apply rawlock_i.
             ++ exact M1.
             ++ apply (Inv_other tidy F (s_obj s1) _ _ _ o I1 F1); [|exact Ez]. unfold free. rewrite Eo. exact F1.
             ++ rewrite Eo. cbn. congruence.
             ++ intros TD. rewrite Eo. unfold key_of. cbn. injection KO as KT _ _ _. rewrite KT. exact (FAM TD).
          -- apply (others_trans _ _ (s_obj s1)); [apply keeps_others; split; auto|]. now apply others_own.
        * apply (ires_lock _ rd o s (s_obj s)); auto; [|apply others_own; auto].
          apply finish_i; [|apply lockpost_ext].
          cbn [Rcsv_Proofs5.ires]. split; [exact M1|]. split; [exact I1|]. split; [exact K1|]. cbn. now right.
      + exact H.
      + exact Logic.I.
    - apply (ires_lock _ rd o s (s_obj s)); auto; [|apply others_own; auto].
      apply finish_i; [|apply lockpost_ext]. now apply rawlock_i.
    - destruct (o_type (s_obj s o)) eqn:TY.
      + cbn [cres target]. split; [auto|]. split; [apply others_own; auto|]. unfold cpost, asks, kind. rewrite TY. auto.
      + apply (ires_lock _ true o s (s_obj s)); auto; [|apply others_own; auto|unfold asks, kind; rewrite TY; reflexivity].
        apply finish_i; [|apply lockpost_ext]. now apply (rawlock_i o true).
      + apply (ires_lock _ false o s (s_obj s)); auto; [|apply others_own; auto|unfold asks, kind; rewrite TY; reflexivity].
        apply finish_i; [|apply lockpost_ext]. now apply (rawlock_i o false).
    - apply (ires_lock _ true o s (s_obj s)); auto; [|apply others_own; auto].
      apply finish_i; [|apply lockpost_ext]. now apply (rawlock_i o true).
    - apply (ires_lock _ false o s (s_obj s)); auto; [|apply others_own; auto].
      apply finish_i; [|apply lockpost_ext]. now apply (rawlock_i o false).
    - pose proof (finish_i o (s_obj s) _ _ (rawunlock_i tidy F o false s M I)
        (fun b s1 s2 E E' => fun Q => conj (unlockpost_ext o b s1 s2 E E' (proj1 Q)) (eq_trans (f_equal (fun g => o_type (g o)) E) (proj2 Q)))) as H.
      destruct (finish (RawUnlock o false s)) as [b L s1|c L s1|s1]; [|exact H|exact Logic.I].
      destruct H as (M1 & I1 & K1 & Q1 & _). cbn [cres target]. split; [auto|]. split; [now apply keeps_others|].
      unfold cpost. cbn. split; [auto|]. split; [|auto]. destruct b; [unfold locked; cbn in Q1; congruence|exact Q1].
  Qed.
End Run.

(** *** Reachable states *)
Lemma Inv_init : forall tidy F, Inv tidy F (s_obj init_s) (s_stack init_s) (s_log init_s).
Proof.
  intros tidy F. split.
  - constructor; cbn; try (intros; contradiction); try (intros; discriminate); intros; try constructor; auto.
  - intros TD. split.
    + constructor; cbn; try (intros; contradiction); try (intros; discriminate).
      intros y (_ & X & _). discriminate X.
    + intros R. split; cbn; auto.
Qed.

Lemma reach_G : forall s, reach clean_destruction s -> G (s_obj s) (s_stack s).
Proof.
  intros s H. assert (I : Inv False (fun _ => True) (s_obj s) (s_stack s) (s_log s)); [|apply I].
  induction H as [|s p answers b L s' H IH A E O]; [apply Inv_init|].
  pose proof (call_i False (fun _ => True) (fun X => match X with end) p (set_ans s answers) (reach_mtx _ _ H) IH A
    (fun X => match X with end)) as C.
  rewrite E in C. destruct C as [C _]. apply C. exact O.
Qed.

Lemma family_any : forall F s p b s' b1 s1, in_family F s p b s' -> in_family F s p b1 s1.
Proof. intros F s p b s' b1 s1 H. exact H. Qed.
Lemma family_ans : forall F s l p b s', in_family F s p b s' -> in_family F (set_ans s l) p b s'.
Proof. intros F s l p b s' H. exact H. Qed.

(** where held locks can be released destruction is clean *)
Lemma reach_T : forall F s, separate F -> reach (in_family F) s -> honest (s_log s) ->
  Inv True F (s_obj s) (s_stack s) (s_log s).
Proof.
  intros F s SEP H. induction H as [|s p answers b L s' H IH A E O]; intros R; [apply Inv_init|].
  pose proof (call_l p (set_ans s answers)) as GR. rewrite E in GR. cbn in GR.
  specialize (IH (honest_grow _ _ GR R)).
  pose proof (call_i True F (fun _ => SEP) p (set_ans s answers) (reach_mtx _ _ H) IH A (fun _ => O)) as C.
  rewrite E in C. destruct C as (C & _ & Q). apply C.
  destruct p; cbn; auto. destruct Q as (_ & _ & Q). destruct b; [reflexivity|]. elim (proj2 (Q eq_refl) Logic.I R).
Qed.
(** the structure alone does not need that *)
Lemma reach_TG : forall F s, separate F ->
  reach (fun s p b s' => in_family F s p b s' /\ clean_destruction s p b s') s ->
  Inv True F (s_obj s) (s_stack s) (s_log s).
Proof.
  intros F s SEP H. induction H as [|s p answers b L s' H IH A E O]; [apply Inv_init|].
  pose proof (call_i True F (fun _ => SEP) p (set_ans s answers) (reach_mtx _ _ H) IH A (fun _ => proj1 O)) as C.
  rewrite E in C. destruct C as (C & _ & Q). apply C. apply O.
Qed.
