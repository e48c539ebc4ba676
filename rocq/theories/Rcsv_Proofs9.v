(** Locking a range that is locked already does not reach the shared lock layer. *)
From Verif Require Import Base Rcsv_Model Rcsv_Spec Rcsv_Proofs Rcsv_Proofs3 Rcsv_Proofs4 Rcsv_Proofs5 Rcsv_Proofs6 Rcsv_Proofs7 Rcsv_Proofs8.
From Coq Require Import ZArith List Bool Lia Permutation.
Import ListNotations.
Open Scope Z_scope.

(** the calls return, and without a call to the shared lock layer *)
Definition quiet {A} (l : list (scall * Z)) (r : res A) : Prop :=
  match r with Ret _ _ s => s_log s = l | _ => False end.
Definition quiet_ok (l : list (scall * Z)) (r : res bool) : Prop :=
  match r with Ret b _ s => b = true /\ s_log s = l | _ => False end.

Section Nest.
  Variables (F : key -> Prop).
  Hypothesis SEP : separate F.

  (** the root of the range of a locked object *)
  Lemma root_of : forall f k x, G f k -> T F [] f k -> o_locked (f x) = true ->
    exists r, In r k /\ root f r /\ key_of (f r) = key_of (f x) /\ (o_type (f x) = WR -> o_type (f r) = WR).
  Proof.
    intros f k x HG HT L. destruct (g_lo _ _ HG x L) as [R|(r & C & I)].
    - exists x. destruct (t_in _ _ _ _ HT x R) as [X|[]]. auto.
    - destruct (g_pe _ _ HG r x I) as [R _]. exists r. destruct (t_in _ _ _ _ HT r R) as [X|[]].
      split; [exact X|]. split; [exact R|]. split; [symmetry; now apply (t_pe _ _ _ _ HT)|now apply (g_wr _ _ HG)].
  Qed.

  Lemma unlock_quiet : forall o x L s, s_mtx s = L -> G (s_obj s) (s_stack s) -> T F [] (s_obj s) (s_stack s) ->
    x <> o -> o_locked (s_obj s x) = true -> key_of (s_obj s o) = key_of (s_obj s x) ->
    quiet_ok (s_log s) (RawUnlock o L s).
  Proof.
    intros o x L s M HG HT N LX KE. unfold RawUnlock. cbv zeta.
    destruct (is_unl (o_type (s_obj s o)) || negb (o_locked (s_obj s o))) eqn:U; [cbn; auto|].
    apply orb_false_iff in U as [U1 U2]. apply negb_false_iff in U2.
    destruct (stack_lock_ok L s M) as (s1 & -> & M1 & E1 & E2 & _ & E3 & _). cbn [bind].
    destruct (o_master (s_obj s o)) as [m|] eqn:MS; [cbn; auto|].
    destruct (o_pend (s_obj s o)) as [|y r] eqn:PE.
    - exfalso. destruct (root_of _ _ _ HG HT LX) as (r & IR & RR & KR & _).
      destruct (root_of _ _ _ HG HT U2) as (r' & IR' & RR' & KR' & _).
      assert (RO : root (s_obj s) o).
      { destruct (g_lo _ _ HG o U2) as [R|(q & (_ & _ & _ & X & _) & _)]; [exact R|congruence]. }
      assert (IO : In o (s_stack s)) by (destruct (t_in _ _ _ _ HT o RO) as [X|[]]; exact X).
      assert (r = o) by (apply (t_one _ _ _ _ HT); auto; congruence). subst r.
      destruct (g_lo _ _ HG x LX) as [R|(q & C & I)].
      + assert (x = o); [|contradiction]. apply (t_one _ _ _ _ HT); auto.
        destruct (t_in _ _ _ _ HT x R) as [X|[]]; exact X.
      + destruct (g_pe _ _ HG q x I) as [Rq _].
        assert (q = o).
        { apply (t_one _ _ _ _ HT); auto.
          - destruct (t_in _ _ _ _ HT q Rq) as [X|[]]; exact X.
          - rewrite <- (t_pe _ _ _ _ HT q x I). congruence. }
        subst q. rewrite PE in I. destruct I.
    - cbn [quiet_ok on set_obj s_log]. rewrite pass_log. cbn. auto.
  Qed.

  Variables (o x : Z).
  Hypothesis NX : x <> o.

  Definition held_by (s : st) : Prop :=
    Inv True F (s_obj s) (s_stack s) (s_log s) /\ o_alive (s_obj s o) = true /\
    o_locked (s_obj s x) = true /\ key_of (s_obj s o) = key_of (s_obj s x).

  (** after the type change *)
  Lemma held_key : forall s, held_by s -> F (key_of (s_obj s o)).
  Proof.
    intros s ((HG & HT) & A & L & K). destruct (HT Logic.I) as [T1 _]. rewrite K. now apply (t_fam _ _ _ _ T1).
  Qed.

  Lemma unlock_if_quiet : forall c L s, s_mtx s = L -> held_by s -> (c = false -> o_locked (s_obj s o) = false) ->
    exists L' s', unlock_if c o L s = Ret true L' s' /\ s_mtx s' = L' /\ held_by s' /\ s_log s' = s_log s /\
      o_locked (s_obj s' o) = false /\ (o_type (s_obj s x) = WR -> o_type (s_obj s' x) = WR).
  Proof.
    intros [|] L s M H C; cbn [unlock_if].
    - destruct H as (I & A & LX & K).
      pose proof (rawunlock_i True F o L s M I) as R.
      pose proof (unlock_quiet o x L s M) as Q.
      destruct I as [HG HT]. destruct (HT Logic.I) as [T1 H1]. specialize (Q HG T1 NX LX K).
      destruct (RawUnlock o L s) as [b L' s'|c L' s'|s']; try (destruct Q; fail).
      destruct Q as [-> LG]. destruct R as (M' & I' & (ID & KP) & Q' & _). exists L', s'.
      destruct (ID o) as [AO KO]. destruct (ID x) as [AX KX]. destruct (KP x NX) as [LX' WX'].
      split; [reflexivity|]. split; [exact M'|]. split; [|split; [exact LG|split; [exact Q'|auto]]].
      split; [exact I'|]. split; [congruence|]. split; [congruence|]. congruence.
    - exists L, s. split; [reflexivity|]. split; [exact M|]. split; [exact H|]. split; [reflexivity|]. split; auto.
  Qed.

  Lemma held_retype : forall s t, held_by s -> o_locked (s_obj s o) = false -> held_by (on s o (fun b => w_type b t)).
  Proof.
    intros s t (I & A & LX & K) LO. set (s1 := on s o _).
    assert (Eo : s_obj s1 o = w_type (s_obj s o) t) by (unfold s1, on, set_obj; cbn [s_obj]; apply upd_eq).
    assert (Ez : forall z, z <> o -> s_obj s1 z = s_obj s z) by (intros z N; unfold s1, on, set_obj; cbn [s_obj]; now apply upd_neq).
    assert (F1 : free (s_obj s) o) by (apply (free_of _ (s_stack s)); [apply I|exact LO]).
    split; [|split; [rewrite Eo; exact A|split; [rewrite Ez by auto; exact LX|rewrite Eo, Ez by auto; exact K]]].
    apply (Inv_other True F (s_obj s) _ _ _ o I F1); [|exact Ez]. unfold free. rewrite Eo. exact F1.
  Qed.

  Lemma match_root : forall s, held_by s -> exists r, In r (s_stack s) /\ root (s_obj s) r /\
    cmp (s_obj s o) (s_obj s r) = true /\ key_of (s_obj s r) = key_of (s_obj s o) /\
    (o_type (s_obj s x) = WR -> o_type (s_obj s r) = WR).
  Proof.
    intros s H. pose proof (held_key s H) as FO. destruct H as ((HG & HT) & A & LX & K).
    destruct (HT Logic.I) as [T1 _]. destruct (root_of _ _ _ HG T1 LX) as (r & I & R & KR & W).
    exists r. split; [exact I|]. split; [exact R|]. split; [|split; [congruence|exact W]].
    apply (cmp_family F); auto; [|congruence]. apply (t_fam _ _ _ _ T1). apply R.
  Qed.

  Lemma read_quiet : forall L s, s_mtx s = L -> held_by s -> quiet_ok (s_log s) (RawReadLock o L s).
  Proof.
    intros L s M H. unfold RawReadLock. cbv zeta.
    destruct (o_locked (s_obj s o) && is_rd (o_type (s_obj s o))) eqn:C1; [cbn; auto|].
    destruct (o_locked (s_obj s o) && is_wr (o_type (s_obj s o)) && _); [cbn; auto|].
    destruct (stack_lock_ok L s M) as (s1 & -> & M1 & E1 & E2 & _ & E3 & _). cbn [bind].
    assert (H1 : held_by s1) by (unfold held_by; rewrite E1, E2, E3; exact H).
    destruct (unlock_if_quiet (is_wr (o_type (s_obj s o)) && o_locked (s_obj s o)) true s1 M1 H1) as (L2 & s2 & -> & M2 & H2 & LG & LO & _).
    { rewrite E1. intros X. destruct (o_locked (s_obj s o)) eqn:LK; [|reflexivity]. exfalso.
      destruct H as ((HG & _) & _). pose proof (locked_type _ _ o HG LK) as TY.
      destruct (o_type (s_obj s o)); [congruence|discriminate C1|discriminate X]. }
    cbn [bind negb].
    pose proof (held_retype s2 RD H2 LO) as H3. destruct (match_root _ H3) as (r & IR & _ & CR & _).
    set (s3 := on s2 o (fun b => w_type b RD)) in *.
    pose proof (first_match_spec (set_stack s3 (s_stack s3)) (s_obj (set_stack s3 (s_stack s3)) o) (s_stack (set_stack s3 (s_stack s3)))) as FM.
    destruct (first_match _ _ _) as [i|].
    - cbn [quiet_ok on set_obj s_log]. split; [reflexivity|]. cbn. rewrite <- E3. exact LG.
    - specialize (FM r IR). cbn in FM. cbn in CR. congruence.
  Qed.

  Lemma write_quiet : forall L s, s_mtx s = L -> held_by s -> o_type (s_obj s x) = WR ->
    quiet_ok (s_log s) (RawWriteLock o L s).
  Proof.
    intros L s M H WX. unfold RawWriteLock. cbv zeta.
    destruct (o_locked (s_obj s o) && is_wr (o_type (s_obj s o))) eqn:C1; [cbn; auto|].
    destruct (o_locked (s_obj s o) && is_rd (o_type (s_obj s o)) && _); [cbn; auto|].
    destruct (stack_lock_ok L s M) as (s1 & -> & M1 & E1 & E2 & _ & E3 & _). cbn [bind].
    assert (H1 : held_by s1) by (unfold held_by; rewrite E1, E2, E3; exact H).
    destruct (unlock_if_quiet (is_rd (o_type (s_obj s o)) && o_locked (s_obj s o)) true s1 M1 H1) as (L2 & s2 & -> & M2 & H2 & LG & LO & WX2).
    { rewrite E1. intros X. destruct (o_locked (s_obj s o)) eqn:LK; [|reflexivity]. exfalso.
      destruct H as ((HG & _) & _). pose proof (locked_type _ _ o HG LK) as TY.
      destruct (o_type (s_obj s o)); [congruence|discriminate X|discriminate C1]. }
    cbn [bind negb]. rewrite E1 in WX2. specialize (WX2 WX).
    pose proof (held_retype s2 WR H2 LO) as H3. destruct (match_root _ H3) as (r & IR & RR & CR & KR & WR').
    set (s3 := on s2 o (fun b => w_type b WR)) in *.
    assert (WX3 : o_type (s_obj s3 x) = WR) by (unfold s3, on, set_obj; cbn [s_obj]; rewrite upd_neq by auto; exact WX2).
    specialize (WR' WX3).
    destruct (scan s3 (s_obj s3 o) (s_stack s3)) as [[rs ks] w] eqn:SC.
    apply scan_spec in SC as (PM & RS & WS).
    destruct w as [i|].
    - cbn [quiet_ok on set_obj s_log set_stack]. split; [reflexivity|]. rewrite <- E3. exact LG.
    - exfalso. apply (Permutation_in _ PM) in IR. apply in_app_iff in IR as [IR|IR].
      + destruct (WS r IR) as [X|X]; congruence.
      + destruct (RS r IR) as [_ X]. congruence.
  Qed.
End Nest.

Lemma finish_quiet : forall l r, quiet_ok l r -> quiet_ok l (finish r).
Proof.
  intros l [b L s|c L s|s] H; cbn [finish bind quiet_ok] in *; try (destruct H; fail).
  unfold stack_unlock. destruct L; exact H.
Qed.
