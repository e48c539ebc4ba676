(** Forward simulation: the machine of RwApi_Model shows only histories of the atomic lock table. *)
From Coq Require Import ZArith List Bool Lia Permutation.
From Verif Require Import Base Range_Model Range_Props RwWord_Model RwApi_Model RwApi_Spec RwApi_Proofs RwApi_Proofs2 RwApi_Proofs3
  RwApi_Proofs4 RwApi_Proofs5 RwApi_Proofs6 RwApi_Proofs7 RwApi_Proofs8 RwApi_Proofs9 RwLin_Spec.
Import ListNotations.
Open Scope Z_scope.

Definition lock_call (a : rargs) : rcall := CLock (a_kind a) (a_fd a) (a_off a) (a_len a) (a_wait a).
(** what the lock table has done for a thread at a program point *)
Fixpoint op_of (p : rpc) : op_state :=
  match p with
  | RIdle => OIdle
  | RWait q | RDrop q => op_of q
  | RRet e => ODone e
  | A2 a | A3 a _ | A4 a _ _ | AT a _ _ _ | AD0 a _ _ _ | AD a _ _ _ _ => OWaits (lock_call a) (a_dev a)
  | AS _ _ _ _ => ODone OK
  | F1 _ _ _ e | F2 _ _ e | F3 _ e => ODone e
  | B2 a => OWaits (CUnlockRw (a_fd a) (a_off a) (a_len a)) (a_dev a)
  | B3 _ _ _ _ _ | B4 _ _ _ _ _ | B5 _ _ _ | B6 _ _ => ODone OK
  | Q2 a => OWaits (CIsLocked (a_fd a) (a_off a) (a_len a)) (a_dev a)
  | P0 priv | PP priv _ _ _ => OWaits (CPass priv) 0
  end.

(** locks that have taken effect: granted, or acquired by a call about to return *)
Definition lt (s : rstate) (l : Z) (g : grant) : Prop :=
  holds s l g \/ exists u x f o, alive s u = true /\ r_pc s u = AS x f o l /\ g = grant_of u x.

Record sim (s : rstate) (a : table) : Prop := {
  sm_held : forall l g, tb_held a l = Some g <-> lt s l g;
  sm_talive : tb_talive a = r_talive s;
  sm_palive : tb_palive a = r_palive s;
  sm_fd : forall p fd, tb_fd a p fd = r_fd s p fd;
  sm_op : forall t, alive s t = true -> tb_op a t = op_of (r_pc s t)
}.

Inductive tb_steps : table -> list event -> table -> Prop :=
| tbs_nil : forall a, tb_steps a [] a
| tbs_cons : forall a e1 a1 e2 a2, tb_step a e1 a1 -> tb_steps a1 e2 a2 -> tb_steps a (e1 ++ e2) a2.
Lemma tb_history_steps : forall fds a e a', tb_steps a e a' -> forall h, tb_history fds a h -> tb_history fds a' (h ++ e).
Proof.
  intros fds a e a' S. induction S as [|a e1 a1 e2 a2 S1 S2 IH]; intros h H; [rewrite app_nil_r; auto|].
  rewrite app_assoc. apply IH. econstructor; eauto.
Qed.
Lemma tbs_one : forall a e a', tb_step a e a' -> tb_steps a e a'.
Proof. intros. rewrite <- (app_nil_r e). econstructor; eauto. constructor. Qed.

(** unlock calls use ranges of the family; dead-lock checks belong to blocking calls *)
Fixpoint extra (fam : Z -> Z -> Z -> Prop) (p : rpc) : Prop :=
  match p with
  | RWait q => extra fam q
  | B2 a => fam (a_dev a) (a_off a) (a_len a)
  | AD0 a _ _ _ | AD a _ _ _ _ => a_wait a = WBlock
  | _ => True
  end.
Lemma extra_run : forall fam s t race gu, extra fam (r_pc s t) ->
  match r_pc s t with RDrop q => droppable q | _ => True end -> extra fam (r_pc (r_run s t race gu) t).
Proof.
  intros fam s t race gu E W. unfold r_run, pass_step, after_f1, after_f2. destruct (r_pc s t) as [ |p|p|e|x|x f|x f o|x f o l|x f o l|x f o l|x f o l ls|x f o e|x f e|x e|x|x f o k l|x f o k l|x f o|x f|x|priv|priv fs os ls] eqn:Ep; simpl in *;
    repeat match goal with |- context [match ?x with _ => _ end] => destruct x eqn:? end; simpl; rewrite ?upd_eq, ?Ep; simpl; auto.
  destruct p; simpl in *; auto; try contradiction. destruct p; simpl in *; auto; contradiction.
Qed.

Section Sim.
Variables UF UO UL : list Z.
Hypothesis UF_nd : NoDup UF.
Hypothesis UO_nd : NoDup UO.
Hypothesis UL_nd : NoDup UL.
Notation HI := (HI UF UO UL).
Notation SI := (SI UF UO UL).
Variable fam : Z -> Z -> Z -> Prop.
Hypothesis EOD : equal_or_disjoint fam.
Notation DI := (DI fam).

Lemma AS_acq : forall s u x f o l, SI s -> alive s u = true -> r_pc s u = AS x f o l -> h_st (r_h s) l = LAcq.
Proof. intros s u x f o l H A E. pose proof (si_pc _ _ _ s H u A) as P. rewrite E in P. apply P. Qed.

(** one entry is one lock *)
Lemma lt_fun : forall s l g1 g2, SI s -> lt s l g1 -> lt s l g2 -> g1 = g2.
Proof.
  intros s l g1 g2 H [L1|(u1 & x1 & f1 & o1 & A1 & E1 & G1)] [L2|(u2 & x2 & f2 & o2 & A2 & E2 & G2)]; unfold holds in *.
  - congruence.
  - pose proof (AS_acq _ _ _ _ _ _ H A2 E2). congruence.
  - pose proof (AS_acq _ _ _ _ _ _ H A1 E1). congruence.
  - pose proof (si_pc _ _ _ s H u1 A1) as P1. pose proof (si_pc _ _ _ s H u2 A2) as P2. rewrite E1 in P1. rewrite E2 in P2.
    destruct P1 as (_ & _ & P1 & _). destruct P2 as (_ & _ & P2 & _). rewrite P1 in P2. inversion P2. subst u2.
    rewrite E1 in E2. inversion E2. subst. auto.
Qed.

(** a lock that has taken effect is a granted lock after a step that changes nothing else *)
Lemma lt_settle : forall s l g, SI s -> DI s -> lt s l g ->
  exists s1, SI s1 /\ DI s1 /\ holds s1 l g /\ (forall l' g', holds s l' g' -> holds s1 l' g') /\ (forall l' g', lt s l' g' -> lt s1 l' g').
Proof.
  intros s l g H D [L|(u & x & f & o & A & E & ->)].
  - exists s. auto.
  - exists (r_step s (LRun u false false)).
    assert (RR : r_step s (LRun u false false) = r_run s u false false) by (simpl; rewrite A; auto).
    assert (C : careful s (LRun u false false)) by exact I.
    assert (HO : holds (r_run s u false false) l (grant_of u x)).
    { unfold holds, r_run. rewrite E. simpl. apply upd_eq. }
    assert (KH : forall l' g', holds s l' g' -> holds (r_run s u false false) l' g').
    { intros l' g' L. destruct (Z.eq_dec l' l) as [->|N].
      * exfalso. pose proof (AS_acq _ _ _ _ _ _ H A E). unfold holds in L. congruence.
      * unfold holds, r_run in *. rewrite E. simpl. rewrite upd_neq by auto. auto. }
    split; [apply SI_step; auto|]. split; [apply (DI_step UF UO UL UF_nd fam); auto; exact I|]. rewrite RR. split; auto. split; auto.
    intros l' g' [L|(v & y & f' & o' & A' & E' & ->)].
    + left. auto.
    + destruct (Z.eq_dec v u) as [->|N].
      * rewrite E in E'. inversion E'. subst. left. auto.
      * right. exists v, y, f', o'. destruct (run_other s u false false v N) as [-> _].
        destruct (run_env s u false false) as (TA & PA & _). unfold alive in *. rewrite TA, PA. auto.
Qed.
Lemma lt_excl : forall s l1 g1 l2 g2, SI s -> DI s -> lt s l1 g1 -> lt s l2 g2 -> l1 <> l2 -> ~ conflict g1 g2.
Proof.
  intros s l1 g1 l2 g2 H D L1 L2 N.
  destruct (lt_settle s l1 g1 H D L1) as (s1 & H1 & D1 & X1 & _ & M1).
  destruct (lt_settle s1 l2 g2 H1 D1 (M1 _ _ L2)) as (s2 & H2 & D2 & X2 & K2 & _).
  exact (exclusion UF UO UL fam EOD s2 l1 g1 l2 g2 H2 D2 (K2 _ _ X1) X2 N).
Qed.
(** a conflicting lock seen by an attempt has taken effect *)
Lemma taken_lt : forall s g, SI s -> taken s g -> exists l, lt s l g.
Proof.
  intros s g H (l & [L|(u & GU & A & NH & L)]); exists l; [left; auto|].
  simpl in L. rewrite A in L.
  destruct (run_holds UF UO UL s u false false H A) as [E|a f o l0 Ep _ _ _ E|a f o l0 g0 _ _ _ _ _ _ _ _ _ E|l0 g0 priv _ _ _ _ E]; apply E in L.
  - contradiction.
  - destruct L as [L|[-> ->]]; [contradiction|]. right. exists u, a, f, o. auto.
  - tauto.
  - tauto.
Qed.

Lemma eta : forall a, a = mkT (tb_held a) (tb_talive a) (tb_palive a) (tb_fd a) (tb_op a).
Proof. intros []. auto. Qed.

Section Run.
Variables (s : rstate) (t : Z) (race gu : bool) (a : table).
Hypothesis H : SI s.
Hypothesis D : DI s.
Hypothesis AL : alive s t = true.
Hypothesis SM : sim s a.
Let s' := r_run s t race gu.
Definition no_AS (p : rpc) : Prop := match p with AS _ _ _ _ => False | _ => True end.

Lemma alive' : forall u, alive s' u = alive s u.
Proof. intro u. unfold alive, s'. destruct (run_env s t race gu) as (-> & -> & _). auto. Qed.
Lemma al_a : tb_alive a t = true.
Proof. unfold tb_alive. rewrite (sm_talive _ _ SM), (sm_palive _ _ SM). exact AL. Qed.
Lemma present_a : forall g, tb_present a g -> present s g.
Proof.
  intros g [P Q]. unfold tb_alive, tb_dev in *. rewrite (sm_talive _ _ SM), (sm_palive _ _ SM) in P.
  split; [exact P|]. unfold file_of. destruct (gr_fd g <? 0); auto. rewrite <- (sm_fd _ _ SM). auto.
Qed.
Lemma op_t : tb_op a t = op_of (r_pc s t).
Proof. apply (sm_op _ _ SM t AL). Qed.

Lemma frame : forall held' op', (forall l g, held' l = Some g <-> lt s' l g) ->
  (forall u, u <> t -> op' u = tb_op a u) -> op' t = op_of (r_pc s' t) ->
  sim s' (mkT held' (tb_talive a) (tb_palive a) (tb_fd a) op').
Proof.
  intros held' op' HE OO OT. destruct (run_env s t race gu) as (E1 & E2 & E3 & _). fold s' in E1, E2, E3.
  constructor; simpl; auto.
  - rewrite E1. apply (sm_talive _ _ SM).
  - rewrite E2. apply (sm_palive _ _ SM).
  - intros. rewrite E3. apply (sm_fd _ _ SM).
  - intros u AU. rewrite alive' in AU. destruct (Z.eq_dec u t) as [->|N]; auto.
    rewrite OO by auto. rewrite (sm_op _ _ SM u AU). destruct (run_other s t race gu u N) as [E _]. unfold s'. rewrite E. auto.
Qed.

Lemma acq_same : no_AS (r_pc s t) -> no_AS (r_pc s' t) -> forall l g,
  (exists u x f o, alive s' u = true /\ r_pc s' u = AS x f o l /\ g = grant_of u x) <->
  (exists u x f o, alive s u = true /\ r_pc s u = AS x f o l /\ g = grant_of u x).
Proof.
  intros N1 N2 l g. split; intros (u & x & f & o & A & E & G); exists u, x, f, o.
  - rewrite alive' in A. destruct (Z.eq_dec u t) as [->|N]; [rewrite E in N2; destruct N2|].
    destruct (run_other s t race gu u N) as [Q _]. unfold s' in E. rewrite Q in E. auto.
  - rewrite alive'. destruct (Z.eq_dec u t) as [->|N]; [rewrite E in N1; destruct N1|].
    destruct (run_other s t race gu u N) as [Q _]. unfold s'. rewrite Q. auto.
Qed.
Lemma lt_same : no_AS (r_pc s t) -> no_AS (r_pc s' t) -> (forall l g, holds s' l g <-> holds s l g) ->
  forall l g, tb_held a l = Some g <-> lt s' l g.
Proof. intros N1 N2 E l g. rewrite (sm_held _ _ SM). unfold lt. rewrite (acq_same N1 N2), E. tauto. Qed.
Lemma lt_less : no_AS (r_pc s t) -> no_AS (r_pc s' t) -> forall l0 g0, holds s l0 g0 ->
  (forall l g, holds s' l g <-> holds s l g /\ l <> l0) ->
  forall l g, upd (tb_held a) l0 None l = Some g <-> lt s' l g.
Proof.
  intros N1 N2 l0 g0 H0 E l g. unfold lt. rewrite (acq_same N1 N2), E.
  destruct (Z.eq_dec l l0) as [->|N].
  - rewrite upd_eq. split; [discriminate|]. intros [[_ X]|(u & x & f & o & A & Q & _)]; [contradiction|].
    pose proof (AS_acq _ _ _ _ _ _ H A Q). unfold holds in H0. congruence.
  - rewrite upd_neq by auto. rewrite (sm_held _ _ SM). unfold lt. tauto.
Qed.
Lemma upd_id : forall (A : Type) (f : Z -> A) x v, f x = v -> forall y, upd f x v y = f y.
Proof. intros A f x v E y. destruct (Z.eq_dec y x) as [->|N]; [rewrite upd_eq | rewrite upd_neq]; auto. Qed.

Notation goal := (exists a', tb_steps a (r_events s (LRun t race gu)) a' /\ sim s' a').

Lemma ev_none : r_pc s' t <> RIdle \/ r_pc s t = RIdle -> r_events s (LRun t race gu) = [].
Proof.
  intros E. unfold r_events. rewrite AL. fold s'. destruct (r_pc s t); destruct E as [E|E]; try discriminate; auto;
    destruct (r_pc s' t); auto; exfalso; apply E; auto.
Qed.
Lemma ev_ret : forall r, r_pc s t <> RIdle -> r_pc s' t = RIdle -> r_res s' t = Some r -> r_events s (LRun t race gu) = [ERet t r].
Proof.
  intros r E1 E2 E3. unfold r_events. rewrite AL. fold s'. rewrite E2, E3. destruct (r_pc s t); auto. contradiction.
Qed.

Lemma by_stutter : no_AS (r_pc s t) -> no_AS (r_pc s' t) -> (forall l g, holds s' l g <-> holds s l g) ->
  op_of (r_pc s' t) = op_of (r_pc s t) -> r_pc s' t <> RIdle \/ r_pc s t = RIdle -> goal.
Proof.
  intros N1 N2 HO OP NI. rewrite (ev_none NI). exists a. split; [constructor|].
  rewrite (eta a). apply frame; auto; [apply lt_same; auto | rewrite OP; apply op_t].
Qed.
Lemma by_effect : forall c d held' r, op_of (r_pc s t) = OWaits c d -> effect (tb_held a) t d c held' r ->
  op_of (r_pc s' t) = ODone r -> r_pc s' t <> RIdle -> (forall l g, held' l = Some g <-> lt s' l g) -> goal.
Proof.
  intros c d held' r O EF O' NI HE. rewrite (ev_none (or_introl NI)).
  exists (mkT held' (tb_talive a) (tb_palive a) (tb_fd a) (upd (tb_op a) t (ODone r))). split.
  - apply tbs_one. apply (ts_effect a t c d held' r); auto using al_a. rewrite op_t. auto.
  - apply frame; auto; intros; rewrite ?upd_eq, ?upd_neq by auto; auto.
Qed.
Lemma by_effect_same : forall c d r, no_AS (r_pc s t) -> no_AS (r_pc s' t) -> (forall l g, holds s' l g <-> holds s l g) ->
  op_of (r_pc s t) = OWaits c d -> effect (tb_held a) t d c (tb_held a) r ->
  op_of (r_pc s' t) = ODone r -> r_pc s' t <> RIdle -> goal.
Proof. intros c d r N1 N2 HO O EF O' NI. apply (by_effect c d (tb_held a) r); auto. apply lt_same; auto. Qed.
Lemma by_ret : forall r, op_of (r_pc s t) = ODone r -> r_pc s t <> RIdle -> r_pc s' t = RIdle -> r_res s' t = Some r ->
  (forall l g, tb_held a l = Some g <-> lt s' l g) -> goal.
Proof.
  intros r O N E R HE. rewrite (ev_ret r N E R).
  exists (mkT (tb_held a) (tb_talive a) (tb_palive a) (tb_fd a) (upd (tb_op a) t OIdle)). split.
  - apply tbs_one. apply ts_ret; auto using al_a. rewrite op_t. auto.
  - apply frame; auto; [intros; rewrite upd_neq by auto; auto | rewrite upd_eq, E; auto].
Qed.
Lemma by_reap : forall c d l0 g0, no_AS (r_pc s t) -> no_AS (r_pc s' t) -> op_of (r_pc s t) = OWaits c d -> reaps c -> op_of (r_pc s' t) = OWaits c d ->
  r_pc s' t <> RIdle -> holds s l0 g0 -> ~ present s g0 -> (forall l g, holds s' l g <-> holds s l g /\ l <> l0) -> goal.
Proof.
  intros c d l0 g0 N1 N2 O RP O' NI H0 NP HE. rewrite (ev_none (or_introl NI)).
  exists (mkT (upd (tb_held a) l0 None) (tb_talive a) (tb_palive a) (tb_fd a) (tb_op a)). split.
  - apply tbs_one. apply (ts_reap a t c d l0 g0); auto using al_a.
    + rewrite op_t. auto.
    + apply (sm_held _ _ SM). left. auto.
    + intro P. apply NP, present_a, P.
  - apply frame; auto; [eapply lt_less; eauto | rewrite op_t, O, O'; auto].
Qed.

Lemma same_holds : (match r_pc s t with AS _ _ _ _ | B2 _ | AD _ _ _ _ _ | PP _ _ _ _ => False | _ => True end) ->
  forall l g, holds s' l g <-> holds s l g.
Proof.
  intros Q. destruct (run_holds UF UO UL s t race gu H AL) as [E|x f o l Ep|x f o l g Ep|l g priv _ _ Ep]; auto; exfalso.
  - rewrite Ep in Q. auto.
  - rewrite Ep in Q. auto.
  - destruct (r_pc s t); auto.
Qed.

(** the successful attempt *)
Lemma by_lock : forall x f o l, r_pc s t = AT x f o l -> r_pc s' t = AS x f o l -> goal.
Proof.
  intros x f o l E E'.
  assert (H' : SI s') by (apply SI_run; auto).
  assert (D' : DI s').
  { pose proof (DI_step UF UO UL UF_nd fam s (LRun t race gu) H D I) as X. simpl in X. rewrite AL in X. exact X. }
  assert (HO : forall l g, holds s' l g <-> holds s l g) by (apply same_holds; rewrite E; exact I).
  pose proof (si_pc _ _ _ s H t AL) as P. rewrite E in P. destruct P as (_ & _ & _ & _ & ST).
  assert (NEW : lt s' l (grant_of t x)).
  { right. exists t, x, f, o. rewrite alive'. auto. }
  assert (KEEP : forall j g, lt s j g -> lt s' j g).
  { intros j g [L|(u & y & f' & o' & A & Q & ->)]; [left; apply HO; auto|]. right. exists u, y, f', o'. rewrite alive'.
    assert (u <> t) by (intros ->; rewrite E in Q; discriminate).
    destruct (run_other s t race gu u) as [R _]; auto. unfold s'. rewrite R. auto. }
  assert (FREE : forall g, ~ lt s l g).
  { intros g [L|(u & y & f' & o' & A & Q & _)]; [unfold holds in L; congruence|].
    pose proof (AS_acq _ _ _ _ _ _ H A Q). congruence. }
  apply (by_effect (lock_call x) (a_dev x) (upd (tb_held a) l (Some (grant_of t x))) OK).
  - rewrite E. auto.
  - apply ef_lock.
    + destruct (tb_held a l) as [g|] eqn:X; auto. exfalso. apply (FREE g), (sm_held _ _ SM), X.
    + intros j g X. apply (sm_held _ _ SM) in X. apply (lt_excl s' l _ j g H' D' NEW); auto. intros ->. apply (FREE g X).
  - rewrite E'. auto.
  - rewrite E'. discriminate.
  - intros j g. destruct (Z.eq_dec j l) as [->|N].
    + rewrite upd_eq. split.
      * intro X. inversion X. subst. auto.
      * intro X. f_equal. eapply lt_fun; eauto.
    + rewrite upd_neq by auto. rewrite (sm_held _ _ SM). split; auto.
      intros [L|(u & y & f' & o' & A & Q & ->)]; [left; apply HO; auto|]. right. exists u, y, f', o'. rewrite alive' in A.
      assert (u <> t) by (intros ->; congruence).
      destruct (run_other s t race gu u) as [R _]; auto. unfold s' in Q. rewrite R in Q. auto.
Qed.

(** a refused attempt *)
Lemma refused_held : forall x f o l, r_pc s t = AT x f o l -> word_permits (a_kind x) (o_val (h_o (r_h s) o)) = false ->
  exists j g, tb_held a j = Some g /\ conflict (mkG t (a_fd x) (a_dev x) (a_off x) (a_len x) (a_kind x)) g.
Proof.
  intros x f o l E W. destruct (obstructed_at UF UO UL fam EOD s t x f o l H D AL E W) as (g & T & C).
  destruct (taken_lt s g H T) as (j & L). exists j, g. split; auto. apply (sm_held _ _ SM). auto.
Qed.

(** lock acquired, flag written *)
Lemma by_granted : forall x f o l, r_pc s t = AS x f o l -> goal.
Proof.
  intros x f o l E. assert (H' : SI s') by (apply SI_run; auto).
  destruct (run_holds UF UO UL s t race gu H AL) as [HO|x' f' o' l' E' _ ID RS HO|x' f' o' l' g' E'|l' g' priv _ _ E']; [|clear HO| |]; [|rewrite E in E'; inversion E'; subst; clear E'|congruence|rewrite E in E'; contradiction].
  - exfalso. assert (X : holds s' l (grant_of t x)) by (unfold holds, s', r_run; rewrite E; simpl; apply upd_eq).
    apply HO in X. pose proof (AS_acq _ _ _ _ _ _ H AL E). unfold holds in X. congruence.
  - apply (by_ret OK); auto; [rewrite E; auto | rewrite E; discriminate |].
    intros j g. rewrite (sm_held _ _ SM).
    assert (ST : forall y, h_st (r_h s') y = upd (h_st (r_h s)) l' (LHeld (grant_of t x')) y) by (intro; unfold s', r_run; rewrite E; auto).
    destruct (Z.eq_dec j l') as [->|N].
    + assert (X : lt s l' (grant_of t x')) by (right; exists t, x', f', o'; auto).
      assert (Y : lt s' l' (grant_of t x')) by (left; unfold holds; rewrite ST; apply upd_eq).
      split; intro Q; [rewrite (lt_fun s l' g _ H Q X) | rewrite (lt_fun s' l' g _ H' Q Y)]; auto.
    + unfold lt. unfold holds. rewrite ST, upd_neq by auto.
      split; (intros [L|(u & y & f2 & o2 & A & Q & ->)]; [left; auto | right; exists u, y, f2, o2]).
      * rewrite alive'. assert (u <> t) by (intros ->; congruence). destruct (run_other s t race gu u) as [R _]; auto. unfold s'. rewrite R. auto.
      * rewrite alive' in A. assert (u <> t) by (intros ->; unfold idle in ID; unfold s' in Q; rewrite ID in Q; discriminate).
        destruct (run_other s t race gu u) as [R _]; auto. unfold s' in Q. rewrite R in Q. auto.
Qed.

Lemma held_of : forall j g, tb_held a j = Some g -> lt s j g.
Proof. intros j g X. apply (sm_held _ _ SM). auto. Qed.

(** unlock *)
Lemma by_unlock : forall x, r_pc s t = B2 x -> fam (a_dev x) (a_off x) (a_len x) -> goal.
Proof.
  intros x E FA. assert (Hh := si_h _ _ _ s H).
  assert (NA : no_AS (r_pc s t)) by (rewrite E; exact I).
  assert (PC : r_pc s' t = RDrop (RRet EINVAL) \/ exists f o k l, r_pc s' t = B3 x f o k l).
  { unfold s', r_run. rewrite E. destruct (find_file (r_h s) (a_dev x)) as [f|]; [|left; simpl; apply upd_eq].
    destruct (find_off (r_h s) f (a_off x) (a_len x)) as [o|]; [|left; simpl; apply upd_eq].
    destruct (find_locker (r_h s) (o_wr (h_o (r_h s) o)) t (a_fd x) true) as [l|]; [right; exists f, o, Wr, l; simpl; apply upd_eq|].
    destruct (find_locker (r_h s) (o_rd (h_o (r_h s) o)) t (a_fd x) true) as [l|]; [right; exists f, o, Rd, l; simpl; apply upd_eq|].
    left. simpl. apply upd_eq. }
  assert (NI : r_pc s' t <> RIdle) by (destruct PC as [->|(f & o & k & l & ->)]; discriminate).
  assert (NA' : no_AS (r_pc s' t)) by (destruct PC as [->|(f & o & k & l & ->)]; exact I).
  pose proof (unl_pre_own UF UO UL s t x race gu H AL (or_intror E)) as U. cbv zeta in U. fold s' in U.
  destruct U as [[[Q|Q] _]|[(FI & _ & HO)|(f & o & l & g & MI & _ & HL & G1 & G2 & G3 & FF & FO & AT & HO)]];
    try (destruct PC as [PC|(f & o & k & l & PC)]; congruence).
  - assert (PE : r_pc s' t = RDrop (RRet EINVAL)).
    { destruct PC as [PC|(f & o & k & l & PC)]; auto. exfalso. unfold fin, idle in FI. rewrite PC in FI.
      destruct FI as [Q|[Q|[Q _]]]; discriminate Q. }
    apply (by_effect_same (CUnlockRw (a_fd x) (a_off x) (a_len x)) (a_dev x) EINVAL); auto.
    + rewrite E. auto.
    + apply ef_inval. intros j k X. apply held_of in X. destruct X as [X|(u & y & f & o & A & Q & G)].
      * assert (GA : g_args (mkG t (a_fd x) (a_dev x) (a_off x) (a_len x) k) x) by (repeat split; auto).
        pose proof (unlock_found UF UO UL fam EOD s j _ x race gu H D X AL GA E) as M. simpl in M.
        unfold unl_mid in M. fold s' in M. rewrite PE in M. exact M.
      * inversion G. subst u. congruence.
    + rewrite PE. auto.
  - destruct (held_equal_range UF UO UL fam EOD s l g f o H D HL AT) as (EF & E1 & E2).
    destruct (find_off_some _ _ _ _ _ FO) as [IO RM].
    assert (FG : fam (a_dev x) (o_off (h_o (r_h s) o)) (o_len (h_o (r_h s) o))).
    { destruct (find_file_some _ _ _ FF) as [IF DF]. rewrite <- DF. apply (di_off _ s D); auto. }
    apply (fam_match fam EOD _ _ _ _ _ FG FA) in RM as [R1 R2].
    assert (GE : g = mkG t (a_fd x) (a_dev x) (a_off x) (a_len x) (gr_kind g)) by (destruct g; simpl in *; congruence).
    apply (by_effect (CUnlockRw (a_fd x) (a_off x) (a_len x)) (a_dev x) (upd (tb_held a) l None) OK); auto.
    + rewrite E. auto.
    + eapply ef_unlock. apply (sm_held _ _ SM). left. rewrite GE in HL. exact HL.
    + destruct PC as [PC|(f' & o' & k' & l' & PC)]; [|rewrite PC; auto].
      exfalso. unfold unl_mid in MI. rewrite PC in MI. exact MI.
    + eapply lt_less; eauto.
Qed.

(** is it locked? *)
Lemma lt_file_locked : forall j g, lt s j g -> exists f, find_file (r_h s) (gr_dev g) = Some f /\ file_locked (r_h s) f = true.
Proof.
  intros j g L. destruct (lt_settle s j g H D L) as (s1 & _). clear s1.
  destruct L as [L|(u & y & f & o & A & Q & ->)]; [eapply held_file_locked; eauto|].
  assert (Hh := si_h _ _ _ s H). pose proof (si_pc _ _ _ s H u A) as P. rewrite Q in P. destruct P as (AT & DV & _).
  assert (FF : exists f', find_file (r_h s) (a_dev y) = Some f').
  { apply (find_some_in _ _ _ f); [apply AT|]. apply Z.eqb_eq. congruence. }
  destruct FF as [f' FF]. destruct (find_file_some _ _ _ FF) as [IF DF].
  assert (f' = f) by (apply (hi_dev _ _ _ _ Hh); [auto | apply AT | congruence]). subst f'.
  exists f. split; auto. destruct (file_locked (r_h s) f) eqn:E; auto. exfalso.
  destruct AT as (A1 & A2 & A3). rewrite (unlocked_lists _ _ E o _ A2) in A3. destruct A3.
Qed.
Lemma by_islocked : forall x, r_pc s t = Q2 x -> goal.
Proof.
  intros x E.
  assert (HO : forall l g, holds s' l g <-> holds s l g) by (apply same_holds; rewrite E; exact I).
  assert (PC : exists r, r_pc s' t = RDrop (RRet r) /\ (r = 1 \/ (r = 0 /\ forall f, find_file (r_h s) (a_dev x) = Some f -> file_locked (r_h s) f = false))).
  { unfold s', r_run. rewrite E. destruct (find_file (r_h s) (a_dev x)) as [f|].
    - destruct (file_locked (r_h s) f) eqn:FL; [exists 1 | exists 0]; (split; [simpl; apply upd_eq|]); auto.
      right. split; auto. intros f' X. inversion X. subst. auto.
    - exists 0. split; [simpl; apply upd_eq|]. right. split; auto. discriminate. }
  destruct PC as (r & PC & RR).
  apply (by_effect_same (CIsLocked (a_fd x) (a_off x) (a_len x)) (a_dev x) r); auto; rewrite ?E, ?PC; try exact I; try discriminate; auto.
  destruct RR as [->|[-> RR]]; [apply ef_locked|]. apply ef_free. intros j g X GD.
  destruct (lt_file_locked j g (held_of j g X)) as (f & F1 & F2). rewrite GD in F1. rewrite (RR f F1) in F2. discriminate.
Qed.

(** steps of a check for dead lockers *)
Lemma by_check : forall c d, op_of (r_pc s t) = OWaits c d -> reaps c -> no_AS (r_pc s t) -> no_AS (r_pc s' t) ->
  op_of (r_pc s' t) = OWaits c d -> r_pc s' t <> RIdle ->
  (match r_pc s t with AD _ _ _ _ _ | PP _ _ _ _ => True | _ => False end) -> goal.
Proof.
  intros c d O RP NA NA' O' NI Q.
  destruct (run_holds UF UO UL s t race gu H AL) as [HO|x' f' o' l' E'|x' f o l g E'|l0 g0 priv HL PD _ _ HO];
    try (rewrite E' in Q; contradiction).
  - apply by_stutter; auto. congruence.
  - apply (by_reap c d l0 g0); auto. intro P. rewrite (present_not_dead s g0 priv P) in PD. discriminate.
Qed.

Lemma sim_run : extra fam (r_pc s t) -> no_spurious_refusal s (LRun t race gu) -> goal.
Proof.
  intros EX NS. pose proof (si_pc _ _ _ s H t AL) as PI. simpl in NS.
  assert (K : forall G : Prop, (goal -> G) -> G); [|apply K; intro X; exact X]. intros G KG.
  assert (ST : (match r_pc s t with AS _ _ _ _ | B2 _ | AD _ _ _ _ _ | PP _ _ _ _ => False | _ => True end) -> no_AS (r_pc s' t) ->
    op_of (r_pc s' t) = op_of (r_pc s t) -> r_pc s' t <> RIdle \/ r_pc s t = RIdle -> G).
  { intros Q1 Q2 Q3 Q4. refine (KG (by_stutter _ Q2 (same_holds Q1) Q3 Q4)). destruct (r_pc s t); auto; exact I. }
  assert (EF : forall c d r, (match r_pc s t with AS _ _ _ _ | B2 _ | AD _ _ _ _ _ | PP _ _ _ _ => False | _ => True end) -> no_AS (r_pc s' t) ->
    op_of (r_pc s t) = OWaits c d -> effect (tb_held a) t d c (tb_held a) r -> op_of (r_pc s' t) = ODone r -> r_pc s' t <> RIdle -> G).
  { intros c d r Q1 Q2 Q3 Q4 Q5 Q6. refine (KG (by_effect_same c d r _ Q2 (same_holds Q1) Q3 Q4 Q5 Q6)). destruct (r_pc s t); auto; exact I. }
  assert (AF1 : forall x f e, no_AS (after_f1 s t x f e) /\ op_of (after_f1 s t x f e) = ODone e).
  { intros. unfold after_f1. destruct (my_free_off s t), (my_free_fd s t); simpl; auto. }
  assert (AF2 : forall x e, no_AS (after_f2 s t x e) /\ op_of (after_f2 s t x e) = ODone e).
  { intros. unfold after_f2. destruct (my_free_fd s t); simpl; auto. }
  destruct (r_pc s t) as [ |p|p|e|x|x f|x f o|x f o l|x f o l|x f o l|x f o l ls|x f o e|x f e|x e|x|x f o k l|x f o k l|x f o|x f|x|priv|priv fs os ls] eqn:Ep;
    simpl in EX, PI.
  - apply ST; unfold s', r_run; rewrite ?Ep; simpl; auto.
  - destruct PI as [_ WP]. apply ST; unfold s', r_run; rewrite ?Ep; auto;
      destruct (r_guard s) as [u|]; [destruct (alive s u)| |destruct (alive s u)| |destruct (alive s u)|]; simpl; rewrite ?upd_eq, ?Ep; auto; try (left; discriminate);
      destruct p; simpl in WP; try contradiction; simpl; auto; left; discriminate.
  - destruct PI as [_ WP]. apply ST; unfold s', r_run; rewrite ?Ep; simpl; rewrite ?upd_eq; auto;
      destruct p; simpl in WP; try contradiction; simpl; auto; left; discriminate.
  - apply KG, (by_ret e); unfold s', r_run; rewrite ?Ep; simpl; rewrite ?upd_eq; auto; try discriminate.
    assert (EE : s' = ret s t e) by (unfold s', r_run; rewrite Ep; auto). rewrite <- EE. apply lt_same; auto.
    + rewrite Ep; exact I.
    + rewrite EE. simpl. rewrite upd_eq. exact I.
    + intros. rewrite EE. unfold holds. simpl. tauto.
  - unfold s', r_run in ST, EF. rewrite Ep in ST, EF.
    destruct (find_file (r_h s) (a_dev x)) as [f|]; [apply ST; simpl; rewrite ?upd_eq; simpl; auto; left; discriminate|].
    destruct (h_ffree (r_h s)) as [|f ff]; [|apply ST; simpl; rewrite ?upd_eq; simpl; auto; left; discriminate].
    apply (EF (lock_call x) (a_dev x) ENOLCK); simpl; rewrite ?upd_eq; simpl; auto; [apply ef_nolck | discriminate].
  - unfold s', r_run in ST, EF. rewrite Ep in ST, EF.
    destruct (find_off (r_h s) f (a_off x) (a_len x)) as [o|]; [apply ST; simpl; rewrite ?upd_eq; simpl; auto; left; discriminate|].
    destruct (h_ofree (r_h s)) as [|o rest]; [|apply ST; simpl; rewrite ?upd_eq; simpl; auto; left; discriminate].
    apply (EF (lock_call x) (a_dev x) ENOLCK); simpl; rewrite ?upd_eq; simpl; auto; [apply ef_nolck | apply AF2 | discriminate].
  - unfold s', r_run in ST, EF. rewrite Ep in ST, EF.
    destruct (h_lfree (r_h s)) as [|l rest]; [|apply ST; simpl; rewrite ?upd_eq; simpl; auto; left; discriminate].
    apply (EF (lock_call x) (a_dev x) ENOLCK); simpl; rewrite ?upd_eq; simpl; auto; [apply ef_nolck | apply AF1 | discriminate].
  - destruct (word_permits (a_kind x) (o_val (h_o (r_h s) o)) && negb (match a_kind x with Rd => race | Wr => false end)) eqn:W.
    + apply KG, (by_lock x f o l); auto. unfold s', r_run. rewrite Ep, W. simpl. apply upd_eq.
    + pose proof (refused_held x f o l Ep) as RH.
      unfold s', r_run in ST, EF. rewrite Ep, W in ST, EF.
      assert (WP : word_permits (a_kind x) (o_val (h_o (r_h s) o)) = false \/ race = true).
      { destruct (word_permits (a_kind x) (o_val (h_o (r_h s) o))); auto. simpl in W. destruct (a_kind x); [destruct race; auto; discriminate | discriminate]. }
      destruct (a_wait x) eqn:EW.
      * destruct WP as [WP| ->]; [|destruct NS as [NS|[NS _]]; discriminate].
        destruct (RH WP) as (j & g & X & C). apply (EF (lock_call x) (a_dev x) EBUSY); simpl; rewrite ?upd_eq; simpl; auto; [|discriminate].
        unfold lock_call. rewrite EW. eapply ef_busy; eauto.
      * destruct gu; apply ST; simpl; rewrite ?upd_eq, ?Ep; simpl; auto; left; discriminate.
      * destruct gu.
        -- destruct WP as [WP| ->]; [|destruct NS as [NS|[_ NS]]; discriminate].
           destruct (RH WP) as (j & g & X & C). apply (EF (lock_call x) (a_dev x) ETIMEDOUT); simpl; rewrite ?upd_eq; simpl; auto; [|discriminate].
           unfold lock_call. rewrite EW. eapply ef_timeout; eauto.
        -- apply ST; rewrite ?Ep; simpl; auto. left. discriminate.
  - apply KG, (by_granted x f o l Ep).
  - unfold s', r_run in ST. rewrite Ep in ST. apply ST; simpl; rewrite ?upd_eq; simpl; auto. left. discriminate.
  - apply KG, (by_check (lock_call x) (a_dev x)); unfold s', r_run; rewrite ?Ep; simpl; auto;
      try (unfold lock_call; rewrite EX; exact I); destruct ls as [|[k y] ls]; simpl; rewrite ?upd_eq; simpl; auto; discriminate.
  - unfold s', r_run in ST. rewrite Ep in ST.
    destruct (find_locker (r_h s) (o_list (h_o (r_h s) o) (a_kind x)) t (a_fd x) false); apply ST; simpl; rewrite ?upd_eq; simpl; auto; try apply AF1; left; discriminate.
  - unfold s', r_run in ST. rewrite Ep in ST.
    destruct (find_off (r_h s) f (a_off x) (a_len x)) as [o|]; apply ST; simpl; rewrite ?upd_eq; simpl; auto; try apply AF2; left; discriminate.
  - unfold s', r_run in ST. rewrite Ep in ST.
    destruct (find_file (r_h s) (a_dev x)) as [f|]; apply ST; simpl; rewrite ?upd_eq; simpl; auto; left; discriminate.
  - apply KG, (by_unlock x Ep EX).
  - unfold s', r_run in ST. rewrite Ep in ST. apply ST; simpl; rewrite ?upd_eq; simpl; auto; left; discriminate.
  - unfold s', r_run in ST. rewrite Ep in ST. apply ST; simpl; rewrite ?upd_eq; simpl; auto; left; discriminate.
  - unfold s', r_run in ST. rewrite Ep in ST. apply ST; simpl; rewrite ?upd_eq; simpl; auto; left; discriminate.
  - unfold s', r_run in ST. rewrite Ep in ST. apply ST; simpl; rewrite ?upd_eq; simpl; auto; left; discriminate.
  - apply KG, (by_islocked x Ep).
  - unfold s', r_run in ST. rewrite Ep in ST. apply ST; simpl; rewrite ?upd_eq; simpl; auto; left; discriminate.
  - destruct fs as [|f fs].
    + apply KG, (by_effect_same (CPass priv) 0 OK); unfold s', r_run, pass_step; rewrite ?Ep; simpl; rewrite ?upd_eq; simpl; auto; try apply ef_pass; try discriminate.
      intros. unfold holds. simpl. tauto.
    + apply KG, (by_check (CPass priv) 0); unfold s', r_run, pass_step; rewrite ?Ep; simpl; auto;
        destruct os as [[|o os]|]; [| destruct ls as [[|[k l] ls]|] | | | destruct ls as [[|[k l] ls]|] | | | destruct ls as [[|[k l] ls]|] | ]; simpl; rewrite ?upd_eq; simpl; auto; discriminate.
Qed.
End Run.

Record inv (s : rstate) (a : table) : Prop := {
  in_si : SI s; in_di : DI s; in_extra : forall t, alive s t = true -> extra fam (r_pc s t); in_sim : sim s a }.

Lemma proper_in_family : forall s x, proper_calls fam s x -> in_family fam s x.
Proof.
  intros s [t [k fd off len w| | |]| | | | |]; simpl; auto. intros (d & E & F) d' E'. rewrite E in E'. inversion E'. subst. auto.
Qed.

Lemma lt_env : forall s s', r_h s' = r_h s -> r_pc s' = r_pc s ->
  (forall u, no_AS (r_pc s u) \/ alive s' u = alive s u) -> forall l g, lt s l g <-> lt s' l g.
Proof.
  intros s s' E1 E2 A l g. unfold lt, holds. rewrite E1, E2.
  split; (intros [L|(u & x & f & o & B & Q & G)]; [left; auto | right; exists u, x, f, o]);
    destruct (A u) as [N|N]; try (rewrite Q in N; destruct N); repeat split; congruence.
Qed.

Lemma inv_step : forall s a x, inv s a -> regular fam s x -> exists a', tb_steps a (r_events s x) a' /\ inv (r_step s x) a'.
Proof.
  intros s a x [H D EX SM] (CF & PR & NS).
  assert (H' : SI (r_step s x)) by (apply SI_step; auto).
  assert (D' : DI (r_step s x)) by (apply (DI_step UF UO UL UF_nd fam); auto using proper_in_family).
  assert (EX' : forall t, alive (r_step s x) t = true -> extra fam (r_pc (r_step s x) t)).
  { intros t A. pose proof (step_alive _ _ _ A) as A0. destruct x as [u c|u race gu|p fd d|p m|u|p]; simpl in *; auto.
    - destruct (alive s u) eqn:AU; [|apply EX; auto]. destruct (r_pc s u) eqn:Eu; try (apply EX; auto; fail).
      destruct (Z.eq_dec t u) as [->|N]; [|destruct (call_other s u c t N) as [-> _]; apply EX; auto].
      unfold r_call. destruct c as [k fd off len w|fd off len|fd off len|priv]; simpl.
      + destruct (dev_of s u fd); simpl; rewrite upd_eq; exact I.
      + destruct PR as (d & PR & F). change (dev_of s u fd = Some d) in PR. rewrite PR. simpl. rewrite upd_eq. exact F.
      + destruct (dev_of s u fd); simpl; rewrite upd_eq; exact I.
      + rewrite upd_eq. exact I.
    - destruct (alive s u) eqn:AU; [|apply EX; auto].
      destruct (Z.eq_dec t u) as [->|N]; [|destruct (run_other s u race gu t N) as [-> _]; apply EX; auto].
      apply extra_run; [apply EX; auto|]. pose proof (si_pc _ _ _ s H u AU) as P. destruct (r_pc s u); auto. apply P. }
  assert (K : (exists a', tb_steps a (r_events s x) a' /\ sim (r_step s x) a') -> exists a', tb_steps a (r_events s x) a' /\ inv (r_step s x) a').
  { intros (a' & S & Q). exists a'. split; auto. constructor; auto. }
  apply K. clear K.
  destruct x as [u c|u race gu|p fd d|p m|u|p].
  - simpl. destruct (alive s u) eqn:AU; [|exists a; split; [constructor | exact SM]].
    destruct (r_pc s u) eqn:Eu; try (exists a; split; [constructor | exact SM]; fail).
    assert (TA : tb_alive a u = true) by (unfold tb_alive; rewrite (sm_talive _ _ SM), (sm_palive _ _ SM); exact AU).
    assert (TO : tb_op a u = OIdle) by (rewrite (sm_op _ _ SM u AU), Eu; auto).
    assert (TD : forall fd, tb_dev a u fd = dev_of s u fd) by (intro; unfold tb_dev, dev_of; rewrite (sm_fd _ _ SM); auto).
    assert (Q : exists d p, call_dev a u c = Some d /\ r_call s u c = goto s u (RWait p) /\ op_of p = OWaits c d).
    { simpl in PR. unfold r_call, call_dev. destruct c as [k fd off len w|fd off len|fd off len|priv]; rewrite ?TD.
      - destruct PR as (d & PR & _). change (dev_of s u fd = Some d) in PR. rewrite PR. exists d, (A2 (mkA k fd off len w d)). auto.
      - destruct PR as (d & PR & _). change (dev_of s u fd = Some d) in PR. rewrite PR. exists d, (B2 (mkA Rd fd off len WBlock d)). auto.
      - destruct PR as (d & PR). change (dev_of s u fd = Some d) in PR. rewrite PR. exists d, (Q2 (mkA Rd fd off len WBlock d)). auto.
      - exists 0, (P0 priv). auto. }
    destruct Q as (d & p & CD & RC & OP). rewrite RC.
    exists (mkT (tb_held a) (tb_talive a) (tb_palive a) (tb_fd a) (upd (tb_op a) u (OWaits c d))). split; [apply tbs_one, ts_call; auto|].
    constructor; simpl; try apply SM.
    + intros l g. rewrite (sm_held _ _ SM). unfold lt, holds. simpl.
      split; (intros [L|(v & x & f & o & B & Q & G)]; [left; auto | right; exists v, x, f, o]).
      * split; [exact B|]. rewrite upd_neq by (intros ->; congruence). auto.
      * destruct (Z.eq_dec v u) as [->|N]; [rewrite upd_eq in Q; discriminate|]. rewrite upd_neq in Q by auto. auto.
    + intros v AV. destruct (Z.eq_dec v u) as [->|N]; [rewrite !upd_eq; auto|]. rewrite !upd_neq by auto. apply (sm_op _ _ SM). exact AV.
  - destruct (alive s u) eqn:AU.
    + pose proof (sim_run s u race gu a H D AU SM (EX u AU) NS) as Q. unfold r_step. rewrite AU. exact Q.
    + simpl. rewrite AU. exists a. split; [constructor | exact SM].
  - simpl. eexists. split; [apply tbs_one, ts_fd|]. constructor; simpl; try apply SM.
    intros p' fd'. rewrite (sm_fd _ _ SM). auto.
  - simpl. exists a. split; [constructor|]. constructor; simpl; apply SM.
  - simpl. eexists. split; [apply tbs_one, ts_die|]. simpl in CF. constructor; simpl; try apply SM.
    + intros l g. rewrite (sm_held _ _ SM). apply lt_env; auto. intro v. destruct (Z.eq_dec v u) as [->|N].
      * left. destruct (r_pc s u); simpl; auto.
      * right. unfold alive. simpl. rewrite upd_neq by auto. auto.
    + rewrite (sm_talive _ _ SM). auto.
    + intros v AV. apply (sm_op _ _ SM). unfold alive in *. simpl in AV. apply andb_true_iff in AV as [A1 A2]. rewrite A1.
      destruct (Z.eq_dec v u) as [->|N]; [rewrite upd_eq in A2; discriminate | rewrite upd_neq in A2 by auto; auto].
  - simpl. eexists. split; [apply tbs_one, ts_die_proc|]. simpl in CF. constructor; simpl; try apply SM.
    + intros l g. rewrite (sm_held _ _ SM). apply lt_env; auto. intro v. unfold alive. simpl.
      destruct (Z.eq_dec (proc_of_thread v) p) as [E|N].
      * destruct (r_palive s (proc_of_thread v) && r_talive s v) eqn:AV.
        -- left. pose proof (CF v E AV) as NW. destruct (r_pc s v); simpl; auto.
        -- right. rewrite E, upd_eq. auto.
      * right. rewrite upd_neq by auto. auto.
    + rewrite (sm_palive _ _ SM). auto.
    + intros v AV. apply (sm_op _ _ SM). unfold alive in *. simpl in AV. apply andb_true_iff in AV as [A1 A2]. rewrite A2.
      destruct (Z.eq_dec (proc_of_thread v) p) as [E|N]; [rewrite E, upd_eq in A1; discriminate | rewrite upd_neq in A1 by auto; rewrite A1; auto].
Qed.

Lemma inv_init : forall fds mode allow, inv (r_init UF UO UL fds mode allow) (tb_init fds).
Proof.
  intros. constructor; simpl; auto.
  - apply SI_init; auto.
  - apply DI_init.
  - constructor; simpl; auto. intros l g. split; [discriminate|]. intros [X|(u & x & f & o & _ & X & _)]; [unfold holds in X; simpl in X; discriminate | discriminate].
Qed.

Theorem simulation : forall fds mode allow s h, r_history (r_init UF UO UL fds mode allow) (regular fam) s h ->
  exists a, tb_history fds a h /\ inv s a.
Proof.
  intros fds mode allow s h R. induction R as [|s x h R (a & T & I) O].
  - exists (tb_init fds). split; [constructor | apply inv_init].
  - destruct (inv_step s a x I O) as (a' & S & I'). exists a'. split; auto. eapply tb_history_steps; eauto.
Qed.
End Sim.

(** ** Reading histories of the lock table *)
Section Told.
Variable fds : Z -> Z -> option Z.
Variable g : grant.
Notation t := (gr_t g).
Notation c w := (CLock (gr_kind g) (gr_fd g) (gr_off g) (gr_len g) w).

Definition called (h : list event) : Prop :=
  exists h1 w h2, h = h1 ++ ECall t (c w) :: h2 /\ (forall c, ~ In (ECall t c) h2) /\ (forall r, ~ In (ERet t r) h2) /\
    dev_after fds h1 t (gr_fd g) = Some (gr_dev g) /\ stays t (gr_fd g) h2.

Definition is_unlock (o : op_state) : Prop := match o with OWaits (CUnlockRw _ _ _) _ => True | _ => False end.
Record told (a : table) (h : list event) : Prop := {
  td_fd : forall p fd, tb_fd a p fd = fd_after p fd h (fds p fd);
  td_called : called h -> tb_present a g /\
     ((exists w, tb_op a t = OWaits (c w) (gr_dev g)) \/ (exists r, tb_op a t = ODone r /\ (r = OK -> exists i, tb_held a i = Some g)));
  td_has : has_lock fds h g -> tb_present a g /\ (exists i, tb_held a i = Some g) /\ ~ is_unlock (tb_op a t)
}.

Lemma fd_after_app : forall h p fd h' acc, fd_after p fd (h ++ h') acc = fd_after p fd h' (fd_after p fd h acc).
Proof. induction h as [|e h IH]; intros; simpl; auto. destruct e; simpl; auto. Qed.
Lemma snoc_inv : forall (A : Type) (l : list A) x h1 y h2, l ++ [x] = h1 ++ y :: h2 ->
  (h2 = [] /\ l = h1 /\ x = y) \/ exists h2', h2 = h2' ++ [x] /\ l = h1 ++ y :: h2'.
Proof.
  intros A l x h1 y h2 E. destruct h2 as [|z h2] using rev_ind.
  - left. apply app_inj_tail in E as [-> ->]. auto.
  - right. exists h2. change (h1 ++ y :: h2 ++ [z]) with (h1 ++ (y :: h2) ++ [z]) in E. rewrite app_assoc in E.
    apply app_inj_tail in E as [-> ->]. auto.
Qed.
Lemma stays_app : forall t fd h1 h2, stays t fd (h1 ++ h2) <-> stays t fd h1 /\ stays t fd h2.
Proof.
  intros u fd h1 h2. unfold stays. split.
  - intros (A & B & C). repeat split; intros; intro X; try (apply A; apply in_or_app; tauto); try (apply B; apply in_or_app; tauto);
      eapply C; eauto; apply in_or_app; eauto.
  - intros ((A & B & C) & (A' & B' & C')). repeat split; intros; intro X; apply in_app_or in X as [X|X]; auto; try (eapply C; eauto; fail); eapply C'; eauto.
Qed.

Lemma called_snoc : forall h e, called (h ++ [e]) ->
  (exists w, e = ECall t (c w) /\ dev_after fds h t (gr_fd g) = Some (gr_dev g)) \/
  (called h /\ stays t (gr_fd g) [e] /\ (forall c, e <> ECall t c) /\ (forall r, e <> ERet t r)).
Proof.
  intros h e (h1 & w & h2 & E & NC & NR & DV & ST). apply snoc_inv in E as [(-> & -> & ->)|(h2' & -> & ->)].
  - left. exists w. auto.
  - right. apply stays_app in ST as [S1 S2]. split; [|split; auto; split; intros x ->; [apply (NC x) | apply (NR x)]; apply in_or_app; right; left; auto].
    exists h1, w, h2'. repeat split; auto; try apply S1; intros x X; [apply (NC x) | apply (NR x)]; apply in_or_app; auto.
Qed.
Lemma has_snoc : forall h e, has_lock fds (h ++ [e]) g ->
  (e = ERet t OK /\ called h) \/
  (has_lock fds h g /\ stays t (gr_fd g) [e] /\ forall fd off len, e <> ECall t (CUnlockRw fd off len)).
Proof.
  intros h e (h1 & w & h2 & h3 & E & NC & NR & DV & ST & NU).
  change (h1 ++ ECall t (c w) :: h2 ++ ERet t OK :: h3) with (h1 ++ (ECall t (c w) :: h2) ++ ERet t OK :: h3) in E.
  rewrite app_assoc in E. apply snoc_inv in E as [(-> & -> & ->)|(h3' & -> & ->)].
  - left. split; auto. rewrite app_nil_r in ST. exists h1, w, h2. auto.
  - right. rewrite app_assoc in ST. apply stays_app in ST as [S1 S2]. split; [|split; auto].
    + exists h1, w, h2, h3'. rewrite <- app_assoc. repeat split; auto; try apply S1. intros fd off len X. apply (NU fd off len), in_or_app; auto.
    + intros fd off len ->. apply (NU fd off len), in_or_app. right. left. auto.
Qed.
Lemma called_not_ret : forall h r, called h -> forall e, e = ERet t r -> ~ called (h ++ [e]).
Proof.
  intros h r _ e -> Q. apply called_snoc in Q as [(w & Q & _)|(_ & _ & _ & Q)]; [discriminate | apply (Q r); auto].
Qed.

Lemma told_init : told (tb_init fds) [].
Proof.
  constructor; simpl; auto.
  - intros (h1 & w & h2 & E & _). destruct h1; discriminate.
  - intros (h1 & w & h2 & h3 & E & _). destruct h1; discriminate.
Qed.

Lemma no_fd_same : forall a p fd d u fd', (0 <= fd' -> ~ (proc_of_thread u = p /\ fd' = fd)) ->
  tb_dev (mkT (tb_held a) (tb_talive a) (tb_palive a) (fun p' fd' => if (p' =? p) && (fd' =? fd) then d else tb_fd a p' fd') (tb_op a)) u fd' = tb_dev a u fd'.
Proof.
  intros a p fd d u fd' N. unfold tb_dev. simpl. destruct (Z.ltb_spec fd' 0); auto.
  destruct (Z.eqb_spec (proc_of_thread u) p); auto. destruct (Z.eqb_spec fd' fd); auto. exfalso. apply N; auto.
Qed.

Lemma told_step : forall a h e a', told a h -> tb_step a e a' -> told a' (h ++ e).
Proof.
  intros a h e a' [TF TC TH] S.
  destruct S as [a u c0 d AU OI CD|a u c0 d held' r AU OW EF|a u r AU OD|a u c0 d i g0 AU OW RP HI NP|a p fd d|a u|a p].
  - (* call *)
    constructor; simpl.
    + intros. rewrite fd_after_app. apply TF.
    + intros Q. apply called_snoc in Q as [(w & Q & DV)|(Q & _ & NC & _)].
      * inversion Q. subst u c0. simpl in CD.
        assert (DE : tb_dev a t (gr_fd g) = Some (gr_dev g)).
        { rewrite <- DV. unfold tb_dev, dev_after. rewrite TF. auto. }
        split; [split; auto|]. left. exists w. rewrite upd_eq. congruence.
      * destruct (TC Q) as [P O]. split; auto. rewrite upd_neq by (intros X; apply (NC c0); rewrite X; auto). auto.
    + intros Q. apply has_snoc in Q as [[Q _]|(Q & _ & NU)]; [discriminate|].
      destruct (TH Q) as (P & HE & O). repeat split; try apply P; auto.
      destruct (Z.eq_dec t u) as [<-|N]; [|rewrite upd_neq by auto; auto]. rewrite upd_eq. simpl. destruct c0; auto.
      exfalso. apply (NU fd off len). auto.
  - (* effect *)
    rewrite app_nil_r.
    assert (KP : (u = t -> ~ is_unlock (tb_op a t)) -> forall i, tb_held a i = Some g -> held' i = Some g).
    { intros NU i HE. destruct EF as [k fd off len w j FR _|k fd off len j gg _ _|k fd off len j gg _ _|k fd off len w|fd off len j k HJ|fd off len _|fd off len _|fd off len|priv]; auto.
      - rewrite upd_neq; auto. intros ->. congruence.
      - destruct (Z.eq_dec i j) as [->|N]; [|rewrite upd_neq by auto; auto]. exfalso. rewrite HE in HJ. inversion HJ as [GE].
        assert (TU : u = t) by (rewrite GE; auto). apply (NU TU). rewrite <- TU, OW. exact I. }
    constructor; simpl; auto.
    + intros Q. destruct (TC Q) as [P O]. split; auto. destruct (Z.eq_dec t u) as [<-|N].
      * rewrite upd_eq. right. exists r. split; auto. intros ->. destruct O as [(w & O)|(r & O & _)]; rewrite OW in O; [|discriminate].
        inversion O. subst c0 d. inversion EF; subst; try discriminate. exists i. rewrite upd_eq. destruct g; auto.
      * rewrite upd_neq by auto. destruct O as [O|(r' & O & HE)]; auto. right. exists r'. split; auto. intro R.
        destruct (HE R) as [i HI]. exists i. apply KP; auto; intros ->; contradiction.
    + intros Q. destruct (TH Q) as (P & [i HE] & O). split; auto. split; [exists i; apply KP; auto|].
      destruct (Z.eq_dec t u) as [<-|N]; [rewrite upd_eq; auto | rewrite upd_neq by auto; auto].
  - (* return *)
    constructor; simpl.
    + intros. rewrite fd_after_app. apply TF.
    + intros Q. apply called_snoc in Q as [(w & Q & _)|(Q & _ & _ & NR)]; [discriminate|]. destruct (TC Q) as [P O]. split; auto.
      rewrite upd_neq by (intros X; apply (NR r); rewrite X; auto). auto.
    + intros Q. apply has_snoc in Q as [[Q C]|(Q & _ & _)].
      * inversion Q. subst u r. destruct (TC C) as [P [(w & O)|(r & O & HE)]]; rewrite OD in O; [discriminate|]. inversion O. subst r.
        split; auto. split; auto. rewrite upd_eq. auto.
      * destruct (TH Q) as (P & HE & O). split; auto. split; auto.
        destruct (Z.eq_dec t u) as [<-|N]; [rewrite upd_eq; auto | rewrite upd_neq by auto; auto].
  - (* reap *)
    rewrite app_nil_r. assert (KP : tb_present a g -> forall j, tb_held a j = Some g -> upd (tb_held a) i None j = Some g).
    { intros P j HE. destruct (Z.eq_dec j i) as [->|N]; [|rewrite upd_neq by auto; auto]. exfalso. rewrite HI in HE. inversion HE. subst. auto. }
    constructor; simpl; auto.
    + intros Q. destruct (TC Q) as [P O]. split; auto. destruct O as [O|(r' & O & HE)]; auto. right. exists r'. split; auto. intro R.
      destruct (HE R) as [j HJ]. exists j. auto.
    + intros Q. destruct (TH Q) as (P & [j HE] & O). split; auto. split; [exists j; auto | auto].
  - (* descriptor *)
    assert (KP : stays t (gr_fd g) [EFd p fd d] -> tb_present a g -> tb_present (mkT (tb_held a) (tb_talive a) (tb_palive a)
      (fun p' fd' => if (p' =? p) && (fd' =? fd) then d else tb_fd a p' fd') (tb_op a)) g).
    { intros (_ & _ & ST) [P1 P2]. split; auto. rewrite no_fd_same; auto. intros NF [E1 E2]. apply (ST NF d). left. rewrite E1, E2. auto. }
    constructor; simpl.
    + intros. rewrite fd_after_app. simpl. rewrite <- TF. auto.
    + intros Q. apply called_snoc in Q as [(w & Q & _)|(Q & ST & _)]; [discriminate|]. destruct (TC Q) as [P O]. split; [apply KP; auto | auto].
    + intros Q. apply has_snoc in Q as [[Q _]|(Q & ST & _)]; [discriminate|]. destruct (TH Q) as (P & HE & O). split; [apply KP; auto | auto].
  - (* death *)
    assert (KP : stays t (gr_fd g) [EDie u] -> tb_present a g -> tb_present (mkT (tb_held a) (upd (tb_talive a) u false) (tb_palive a) (tb_fd a) (tb_op a)) g).
    { intros (ST & _) [P1 P2]. split; auto. unfold tb_alive in *. simpl. rewrite upd_neq; auto. intros <-. apply ST. left. auto. }
    constructor; simpl.
    + intros. rewrite fd_after_app. apply TF.
    + intros Q. apply called_snoc in Q as [(w & Q & _)|(Q & ST & _)]; [discriminate|]. destruct (TC Q) as [P O]. split; [apply KP; auto | auto].
    + intros Q. apply has_snoc in Q as [[Q _]|(Q & ST & _)]; [discriminate|]. destruct (TH Q) as (P & HE & O). split; [apply KP; auto | auto].
  - assert (KP : stays t (gr_fd g) [EDieProc p] -> tb_present a g -> tb_present (mkT (tb_held a) (tb_talive a) (upd (tb_palive a) p false) (tb_fd a) (tb_op a)) g).
    { intros (_ & ST & _) [P1 P2]. split; auto. unfold tb_alive in *. simpl. rewrite upd_neq; auto. intros <-. apply ST. left. auto. }
    constructor; simpl.
    + intros. rewrite fd_after_app. apply TF.
    + intros Q. apply called_snoc in Q as [(w & Q & _)|(Q & ST & _)]; [discriminate|]. destruct (TC Q) as [P O]. split; [apply KP; auto | auto].
    + intros Q. apply has_snoc in Q as [[Q _]|(Q & ST & _)]; [discriminate|]. destruct (TH Q) as (P & HE & O). split; [apply KP; auto | auto].
Qed.
Theorem told_history : forall a h, tb_history fds a h -> told a h.
Proof. intros a h T. induction T; [apply told_init | eapply told_step; eauto]. Qed.
End Told.

(** locks of the table never conflict *)
Lemma table_excl : forall fds a h, tb_history fds a h -> forall i j g1 g2, tb_held a i = Some g1 -> tb_held a j = Some g2 -> i <> j -> ~ conflict g1 g2.
Proof.
  assert (SY : forall g1 g2, conflict g1 g2 -> conflict g2 g1).
  { intros g1 g2 (A & (x & B & C) & [K|K]); (split; [auto|]; split; [exists x; auto | auto]). }
  intros fds a h T. induction T as [|a h e a' T IH S]; [simpl; discriminate|].
  destruct S as [a u c0 d AU OI CD|a u c0 d held' r AU OW EF|a u r AU OD|a u c0 d i0 g0 AU OW RP HI NP|a p fd d|a u|a p]; simpl in *; auto.
  - destruct EF as [k fd off len w m FR NC|k fd off len j gg _ _|k fd off len j gg _ _|k fd off len w|fd off len m k HJ|fd off len _|fd off len _|fd off len|priv]; auto.
    + intros i j g1 g2 H1 H2 N.
      destruct (Z.eq_dec i m) as [->|N1]; [rewrite upd_eq in H1; inversion H1; subst g1; rewrite upd_neq in H2 by auto; eauto|].
      rewrite upd_neq in H1 by auto.
      destruct (Z.eq_dec j m) as [->|N2]; [rewrite upd_eq in H2; inversion H2; subst g2; intro C; apply (NC _ _ H1); auto|].
      rewrite upd_neq in H2 by auto. eauto.
    + intros i j g1 g2 H1 H2 N.
      destruct (Z.eq_dec i m) as [->|N1]; [rewrite upd_eq in H1; discriminate|]. rewrite upd_neq in H1 by auto.
      destruct (Z.eq_dec j m) as [->|N2]; [rewrite upd_eq in H2; discriminate|]. rewrite upd_neq in H2 by auto. eauto.
  - intros i j g1 g2 H1 H2 N.
    destruct (Z.eq_dec i i0) as [->|N1]; [rewrite upd_eq in H1; discriminate|]. rewrite upd_neq in H1 by auto.
    destruct (Z.eq_dec j i0) as [->|N2]; [rewrite upd_eq in H2; discriminate|]. rewrite upd_neq in H2 by auto. eauto.
Qed.
