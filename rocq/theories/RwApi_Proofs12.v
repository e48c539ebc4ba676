(** A recovery pass clears what ended processes have left behind: lockers of running threads, protection flags, the pass. *)
From Coq Require Import ZArith List Bool Lia Permutation.
From Verif Require Import Base Range_Model RwWord_Model RwApi_Model RwApi_Spec RwApi_Proofs RwApi_Proofs2 RwApi_Proofs3 RwApi_Proofs4
  RwApi_Proofs5 RwApi_Proofs6 RwApi_Proofs7 RwApi_Proofs8 RwApi_Proofs9.
Import ListNotations.
Open Scope Z_scope.

Section Clear.
Variables UF UO UL : list Z.
Hypothesis UF_nd : NoDup UF.
Hypothesis UO_nd : NoDup UO.
Hypothesis UL_nd : NoDup UL.
Notation SI := (SI UF UO UL).
Notation HI := (HI UF UO UL).

(** ** Lockers of running threads: granted, or of the call the thread is in *)
Definition tid (h : heap) (y : Z) : Z := l_tid (h_l h y).
Record WI (s : rstate) : Prop := mkWI {
  wi_l : forall o y, In o UO -> In y (lks (h_o (r_h s) o)) -> alive s (tid (r_h s) y) = true ->
           (exists g, h_st (r_h s) y = LHeld g) \/ mine (h_st (r_h s) y) (r_pc s (tid (r_h s) y)) y;
  wi_u : forall o1 y1 o2 y2, In o1 UO -> In o2 UO -> In y1 (lks (h_o (r_h s) o1)) -> In y2 (lks (h_o (r_h s) o2)) -> alive s (tid (r_h s) y1) = true ->
           h_st (r_h s) y1 = LWait -> h_st (r_h s) y2 = LWait -> tid (r_h s) y1 = tid (r_h s) y2 -> y1 = y2 }.

Lemma WI_keep : forall s s' t, WI s -> (forall u, u <> t -> r_pc s' u = r_pc s u) -> (forall u, alive s' u = alive s u) ->
  (forall o y, In o UO -> In y (lks (h_o (r_h s') o)) ->
     (tid (r_h s') y = t /\ h_st (r_h s') y <> LWait /\ ((exists g, h_st (r_h s') y = LHeld g) \/ mine (h_st (r_h s') y) (r_pc s' t) y)) \/
     (In y (lks (h_o (r_h s) o)) /\ tid (r_h s') y = tid (r_h s) y /\ h_st (r_h s') y = h_st (r_h s) y /\
      (tid (r_h s) y = t -> mine (h_st (r_h s) y) (r_pc s t) y -> mine (h_st (r_h s) y) (r_pc s' t) y))) -> WI s'.
Proof.
  intros s s' t W EP EA F. constructor.
  - intros o y O Y A. destruct (F o y O Y) as [(T & _ & C)|(Y0 & T & ST & M)]; [rewrite T; auto|].
    rewrite T, EA in A. destruct (wi_l s W o y O Y0 A) as [[g G]|C]; [left; exists g; congruence|]. right. rewrite ST, T.
    destruct (Z.eq_dec (tid (r_h s) y) t) as [E|N]; [rewrite E in *; auto | rewrite EP by auto; auto].
  - intros o1 y1 o2 y2 O1 O2 Y1 Y2 A L1 L2 E. destruct (F o1 y1 O1 Y1) as [(_ & T & _)|(J1 & T1 & S1 & _)]; [congruence|].
    destruct (F o2 y2 O2 Y2) as [(_ & T & _)|(J2 & T2 & S2 & _)]; [congruence|].
    apply (wi_u s W o1 y1 o2 y2); auto; congruence.
Qed.
(** nothing new in the lists *)
Lemma WI_sub : forall s s' t, WI s -> (forall u, u <> t -> r_pc s' u = r_pc s u) -> (forall u, alive s' u = alive s u) ->
  (forall o y, In y (lks (h_o (r_h s') o)) -> In y (lks (h_o (r_h s) o))) -> h_l (r_h s') = h_l (r_h s) ->
  (forall o y, In o UO -> In y (lks (h_o (r_h s') o)) -> h_st (r_h s') y = h_st (r_h s) y /\ (tid (r_h s) y = t -> mine (h_st (r_h s) y) (r_pc s t) y -> mine (h_st (r_h s) y) (r_pc s' t) y)) -> WI s'.
Proof.
  intros s s' t W EP EA F EL M. apply (WI_keep s s' t W EP EA). intros o y O Y. right. destruct (M o y O Y) as [M1 M2].
  split; [auto|]. split; [unfold tid; rewrite EL; auto|]. split; auto.
Qed.

Definition check_facts (h h' : heap) : Prop :=
  (forall x y, In y (lks (h_o h' x)) -> In y (lks (h_o h x))) /\ h_l h' = h_l h /\ (forall y, ~ In y (h_lfree h') -> h_st h' y = h_st h y) /\
  h_flist h' = h_flist h /\ h_f h' = h_f h /\ (forall x, o_prot (h_o h' x) = o_prot (h_o h x)).
Lemma lks_sub_del : forall r k l y, In y (lks (o_set_list r k (del l (o_list r k)))) -> In y (lks r).
Proof. intros r k l y. unfold lks. rewrite !in_app_iff. destruct k; cbn [o_set_list o_list o_rd o_wr]; rewrite in_del; tauto. Qed.
Lemma drop_facts : forall h o k l v, check_facts h (set_st (drop_locker h o k l) l v).
Proof.
  intros h o k l v. repeat split.
  - intros x y. cbn. destruct (Z.eq_dec x o) as [->|N]; [rewrite upd_eq; apply lks_sub_del | rewrite upd_neq by auto; auto].
  - intros y N. cbn in *. rewrite upd_neq; auto.
  - intro x. cbn. destruct (Z.eq_dec x o) as [->|N]; [rewrite upd_eq; destruct k; auto | rewrite upd_neq by auto; auto].
Qed.
Lemma facts_trans : forall h1 h2 h3, check_facts h1 h2 -> check_facts h2 h3 -> h_st h2 = h_st h1 -> check_facts h1 h3.
Proof.
  intros h1 h2 h3 (A1 & A2 & A3 & A4 & A5 & A6) (B1 & B2 & B3 & B4 & B5 & B6) E. repeat split; try congruence; auto.
  - intros y N. rewrite B3 by auto. congruence.
Qed.
Lemma val_facts : forall h o v, check_facts h (set_o h o (o_set_val (h_o h o) v)).
Proof.
  intros h o v. repeat split; cbn.
  - intros x y. destruct (Z.eq_dec x o) as [->|N]; [rewrite upd_eq | rewrite upd_neq by auto]; auto.
  - intro x. destruct (Z.eq_dec x o) as [->|N]; [rewrite upd_eq | rewrite upd_neq by auto]; auto.
Qed.
Lemma refl_facts : forall h, check_facts h h.
Proof. intro h. repeat split; auto. Qed.
Lemma check_has_facts : forall s priv exc dev o k l, check_facts (r_h s) (check_locker s priv exc dev o k l).
Proof.
  intros s priv exc dev o k l. unfold check_locker. cbv zeta. destruct (match exc with Some (t, fd) => _ | None => false end); [apply refl_facts|].
  destruct (_ && _); [|apply refl_facts]. destruct (l_locked (h_l (r_h s) l)); [|apply drop_facts].
  eapply facts_trans; [apply val_facts | apply drop_facts | reflexivity].
Qed.
Lemma free_sub : forall h f x y, In y (lks (h_o (free_offs h f) x)) -> In y (lks (h_o h x)).
Proof.
  intros h f x y. unfold free_offs. cbv zeta. set (os := f_offs (h_f h f)). clearbody os. cbn.
  revert h. induction os as [|o os IH]; intros h; cbn; auto. intro J. apply IH in J. cbn in J.
  destruct (Z.eq_dec x o) as [->|N]; [rewrite upd_eq in J; destruct J | rewrite upd_neq in J by auto; auto].
Qed.
Lemma free_same : forall h f, h_l (free_offs h f) = h_l h /\ h_st (free_offs h f) = h_st h.
Proof.
  intros h f. unfold free_offs. cbv zeta. set (os := f_offs (h_f h f)). clearbody os. cbn.
  revert h. induction os as [|o os IH]; intros h; cbn; auto. destruct (IH (set_ofree (free_lockers h o) (o :: h_ofree h))) as [A B]. auto.
Qed.

Lemma run_WI : forall s t race gu, SI s -> SI (r_run s t race gu) -> WI s -> alive s t = true -> WI (r_run s t race gu).
Proof.
  intros s t race gu S S' W AL. pose proof (si_pc _ _ _ s S t AL) as P. pose proof (si_h _ _ _ s S) as H. pose proof (si_h _ _ _ _ S') as H'.
  assert (NF : forall o y, In o UO -> In y (lks (h_o (r_h (r_run s t race gu)) o)) -> ~ In y (h_lfree (r_h (r_run s t race gu)))) by (intros o y O Y; apply (hi_lk_used _ _ _ _ H' o y O Y)).
  assert (EA : forall u, alive (r_run s t race gu) u = alive s u) by (intro u; destruct (run_env s t race gu) as (E1 & E2 & _); unfold alive; congruence).
  assert (EP : forall u, u <> t -> r_pc (r_run s t race gu) u = r_pc s u) by (intros u N; apply run_other; auto).
  clear S' H'. revert NF EA EP. unfold r_run. destruct (r_pc s t) eqn:Ep; cbv zeta; cbn [pinv] in P; intros NF EA EP; auto.
  (* RWait *)
  - destruct (r_guard s) as [u|]; [destruct (alive s u); auto|].
    + apply (WI_sub s _ t W EP EA); auto. intros o y O Y. split; auto. cbn. rewrite upd_eq, Ep. auto.
    + apply (WI_sub s _ t W EP EA); auto. intros o y O Y. split; auto. cbn. rewrite upd_eq, Ep. auto.
  (* RDrop *)
  - apply (WI_sub s _ t W EP EA); auto. intros o y O Y. split; auto. cbn. rewrite upd_eq, Ep. auto.
  (* RRet *)
  - apply (WI_sub s _ t W EP EA); auto. intros o y O Y. split; auto. rewrite Ep. intros _ [].
  (* A2 *)
  - destruct (find_file _ _) as [f|]; [|destruct (h_ffree (r_h s)) as [|f ff]]; (apply (WI_sub s _ t W EP EA); auto; intros o y O Y; split; auto; rewrite Ep; intros _ []).
  (* A3 *)
  - destruct (find_off _ _ _ _) as [o|]; [|destruct (h_ofree (r_h s)) as [|o rest] eqn:EO].
    + apply (WI_sub s _ t W EP EA); [|reflexivity|intros o' y O Y; split; [reflexivity|]; rewrite Ep; intros _ []].
      intros x y. cbn. destruct (Z.eq_dec x o) as [->|N]; [rewrite upd_eq | rewrite upd_neq by auto]; auto.
    + apply (WI_sub s _ t W EP EA); auto. intros o' y O Y. split; auto. rewrite Ep. intros _ [].
    + apply (WI_sub s _ t W EP EA); [|reflexivity|intros o' y O Y; split; [reflexivity|]; rewrite Ep; intros _ []].
      intros x y. cbn. destruct (Z.eq_dec x o) as [->|N]; [rewrite upd_eq; intros [] | rewrite upd_neq by auto; auto].
  (* A4 *)
  - destruct (h_lfree (r_h s)) as [|l rest] eqn:EL; [apply (WI_sub s _ t W EP EA); auto; intros o' y O Y; split; auto; rewrite Ep; intros _ []|].
    assert (FRESH : forall o' y, In o' UO -> In y (lks (h_o (r_h s) o')) -> y <> l).
    { intros o' y O Y ->. destruct (hi_lk_used _ _ _ _ H o' l O Y) as [_ Q]. apply Q. rewrite EL. left. auto. }
    assert (LST : forall o' y, In o' UO -> In y (lks (h_o (r_h (goto (set_h s (set_o (set_o (set_st (set_lfree (set_l (r_h s) l (mkL t (a_fd a) false)) rest) l LWait) o
        (o_set_list (h_o (r_h s) o) (a_kind a) (l :: o_list (h_o (r_h s) o) (a_kind a)))) o (o_set_prot (h_o (set_o (set_st (set_lfree (set_l (r_h s) l (mkL t (a_fd a) false)) rest) l LWait) o
        (o_set_list (h_o (r_h s) o) (a_kind a) (l :: o_list (h_o (r_h s) o) (a_kind a)))) o) false))) t (RDrop (AT a f o l)))) o')) -> y = l \/ (In y (lks (h_o (r_h s) o')) /\ y <> l)).
    { intros o' y O Y. cbn in Y. destruct (Z.eq_dec o' o) as [->|N].
      - rewrite !upd_eq in Y. destruct (Z.eq_dec y l) as [->|NY]; auto. right. split; auto. unfold lks in *. rewrite in_app_iff in *. destruct (a_kind a); cbn in Y; intuition congruence.
      - rewrite !upd_neq in Y by auto. right. split; auto. eapply FRESH; eauto. }
    constructor.
    + intros o' y O Y A. destruct (LST o' y O Y) as [->|[J N]].
      * right. unfold tid. cbn. rewrite !upd_eq. cbn. auto.
      * unfold tid in *. cbn in A |- *. rewrite (upd_neq _ (h_l (r_h s))) in * by auto. rewrite (upd_neq _ (h_st (r_h s))) by auto.
        change (alive s (tid (r_h s) y) = true) in A. destruct (wi_l s W o' y O J A) as [G|M]; auto.
        unfold tid in M. destruct (Z.eq_dec (l_tid (h_l (r_h s) y)) t) as [E|NE]; [rewrite E, Ep in M; destruct M | rewrite upd_neq by auto; auto].
    + assert (OLD : forall o' y, In o' UO -> In y (lks (h_o (r_h s) o')) -> tid (r_h s) y = t -> h_st (r_h s) y <> LWait).
      { intros o' y O Y T Q. assert (A : alive s (tid (r_h s) y) = true) by congruence. destruct (wi_l s W o' y O Y A) as [[g G]|M]; [congruence|]. rewrite T, Ep in M. destruct M. }
      intros o1 y1 o2 y2 O1 O2 Y1 Y2 A L1 L2 E. destruct (LST o1 y1 O1 Y1) as [->|[J1 N1]]; destruct (LST o2 y2 O2 Y2) as [->|[J2 N2]]; auto.
      * exfalso. unfold tid in E. cbn in E, L2. rewrite upd_eq, upd_neq in E by auto. rewrite upd_neq in L2 by auto. apply (OLD o2 y2 O2 J2); auto.
      * exfalso. unfold tid in E. cbn in E, L1. rewrite upd_eq, upd_neq in E by auto. rewrite upd_neq in L1 by auto. apply (OLD o1 y1 O1 J1); auto.
      * unfold tid in E. cbn in E, L1, L2. rewrite !upd_neq in E by auto. rewrite upd_neq in L1 by auto. rewrite upd_neq in L2 by auto.
        apply (wi_u s W o1 y1 o2 y2); auto. unfold tid in A. cbn in A. rewrite (upd_neq _ (h_l (r_h s))) in A by auto. exact A.
  (* AT *)
  - destruct P as (AT0 & _ & HL & _ & ST). destruct (_ && _).
    + apply (WI_keep s _ t W EP EA). intros o' y O Y. destruct (Z.eq_dec y l) as [->|N].
      * left. unfold tid. cbn. rewrite !upd_eq, HL. cbn. split; auto. split; [discriminate|auto].
      * right. unfold tid. cbn in Y |- *. rewrite upd_neq by auto. rewrite upd_eq, Ep. repeat split; auto.
        destruct (Z.eq_dec o' o) as [->|N']; [rewrite upd_eq in Y | rewrite upd_neq in Y by auto]; auto.
    + assert (M1 : forall y e, mine (h_st (r_h s) y) (AT a f o l) y -> mine (h_st (r_h s) y) (RWait (F1 a f o e)) y) by (intros y e E; cbn in *; congruence).
      destruct (a_wait a); [|destruct gu; auto|destruct gu; auto]; (apply (WI_sub s _ t W EP EA); auto; intros o' y O Y; split; auto; cbn [r_pc goto]; rewrite upd_eq, Ep; auto).
  (* AS *)
  - destruct P as (AT0 & _ & HL & _ & ST). apply (WI_keep s _ t W EP EA). intros o' y O Y. destruct (Z.eq_dec y l) as [->|N].
    + left. unfold tid. cbn. rewrite !upd_eq. cbn. rewrite HL. split; auto. split; [discriminate|left; eauto].
    + right. unfold tid. cbn in Y |- *. rewrite !upd_neq by auto. rewrite upd_eq, Ep. repeat split; auto. intros _ M. cbn in M. congruence.
  (* AD0 *)
  - apply (WI_sub s _ t W EP EA); auto.
    + intros x y. cbn. destruct (Z.eq_dec x o) as [->|N]; [rewrite upd_eq | rewrite upd_neq by auto]; auto.
    + intros o' y O Y. split; auto. cbn. rewrite upd_eq, Ep. auto.
  (* AD *)
  - destruct ls as [|[k x] ls].
    + apply (WI_sub s _ t W EP EA); auto.
      * intros x y. cbn. destruct (Z.eq_dec x o) as [->|N]; [rewrite upd_eq | rewrite upd_neq by auto]; auto.
      * intros o' y O Y. split; auto. cbn. rewrite upd_eq, Ep. auto.
    + destruct (check_has_facts s gu (Some (t, a_fd a)) (a_dev a) o k x) as (Q1 & Q2 & Q3 & _). apply (WI_sub s _ t W EP EA); auto.
      intros o' y O Y. split; [exact (Q3 y (NF o' y O Y))|]. cbn. rewrite upd_eq, Ep. auto.
  (* F1 *)
  - destruct P as [l0 ((F & O & L) & _ & HL & _ & ST)]. assert (OU : In o UO) by (apply (hi_offs_used _ _ _ _ H f o (flist_UF _ _ _ _ f H F) O)).
    destruct (find_locker _ _ _ _ _) as [l|] eqn:EF.
    + destruct (find_locker_some _ _ _ _ _ _ EF) as [IL LL]. destruct (drop_facts (r_h s) o (a_kind a) l LDone) as (Q1 & Q2 & Q3 & _).
      assert (J : In l (lks (h_o (r_h s) o))) by (apply lks_in; eauto).
      assert (SL : h_st (r_h s) l = LWait).
      { assert (A : alive s (tid (r_h s) l) = true) by (unfold tid; rewrite LL; exact AL). destruct (wi_l s W o l OU J A) as [[g G]|M].
        - destruct (hi_lk _ _ _ _ H o (a_kind a) l OU IL) as [Q _]. rewrite LL, G in Q. discriminate Q.
        - unfold tid in M. rewrite LL in M. cbn in M. rewrite Ep in M. exact M. }
      apply (WI_sub s _ t W EP EA); auto. intros o' y O' Y. split; [exact (Q3 y (NF o' y O' Y))|]. rewrite Ep. intros T M. exfalso. cbn [mine] in M.
      apply (NF o' y O' Y). left. apply (wi_u s W o l o' y); auto; [unfold tid; rewrite LL; auto | unfold tid at 1; rewrite LL; auto].
    + exfalso. apply find_none with (x := l0) in EF; auto. rewrite HL in EF. cbn in EF. rewrite !Z.eqb_refl in EF. discriminate EF.
  (* F2 *)
  - destruct (find_off _ _ _ _) as [o|]; [destruct (off_locked _ _)|]; (apply (WI_sub s _ t W EP EA); auto; intros o' y O Y; split; auto; rewrite Ep; intros _ []).
  (* F3 *)
  - destruct (find_file _ _) as [f|]; [destruct (file_locked _ _)|]; try (apply (WI_sub s _ t W EP EA); auto; intros o' y O Y; split; auto; rewrite Ep; intros _ []).
    destruct (free_same (r_h s) f) as [Q1 Q2]. apply (WI_sub s _ t W EP EA); auto.
    + intros x y. apply (free_sub (r_h s) f x y).
    + intros o' y O Y. split; [cbn [r_h goto set_h drop_file set_files h_st]; rewrite Q2; auto|]. rewrite Ep. intros _ [].
  (* B2 *)
  - assert (Q : forall e, WI (goto s t (RDrop (RRet e)))).
    { intro e. apply (WI_sub s _ t W); auto; [intros u N; cbn; rewrite upd_neq by auto; auto|]. intros o' y O Y. split; auto. rewrite Ep. intros _ []. }
    destruct (find_file _ _) as [f|]; auto. destruct (find_off _ _ _ _) as [o|]; auto.
    destruct (match find_locker _ _ _ _ _ with Some l => _ | None => _ end) as [[k l]|] eqn:EF; auto.
    assert (LL : l_tid (h_l (r_h s) l) = t).
    { destruct (find_locker (r_h s) (o_wr (h_o (r_h s) o)) t (a_fd a) true) as [l1|] eqn:E1; [inversion EF; subst; apply find_locker_some in E1 as [_ E1]; rewrite E1; auto|].
      destruct (find_locker (r_h s) (o_rd (h_o (r_h s) o)) t (a_fd a) true) as [l1|] eqn:E2; [inversion EF; subst; apply find_locker_some in E2 as [_ E2]; rewrite E2; auto|discriminate]. }
    apply (WI_keep s _ t W EP EA). intros o' y O Y. destruct (Z.eq_dec y l) as [->|N].
    + left. unfold tid. cbn. rewrite !upd_eq. split; auto. split; [discriminate|right; reflexivity].
    + right. unfold tid. cbn in Y |- *. rewrite upd_neq by auto. rewrite upd_eq, Ep. repeat split; auto; [|intros _ []].
      destruct (Z.eq_dec o' o) as [->|N']; [rewrite upd_eq in Y | rewrite upd_neq in Y by auto]; auto.
  (* B3 *)
  - destruct P as (AT0 & HL & ST). apply (WI_keep s _ t W EP EA). intros o' y O Y. destruct (Z.eq_dec y l) as [->|N].
    + left. unfold tid. cbn. rewrite !upd_eq. cbn. rewrite HL. split; auto. split; [discriminate|right; reflexivity].
    + right. unfold tid. cbn in Y |- *. rewrite !upd_neq by auto. rewrite upd_eq, Ep. repeat split; auto.
  (* B4 *)
  - destruct (drop_facts (r_h s) o k l LDone) as (Q1 & _). apply (WI_sub s _ t W EP EA); auto. intros o' y O' Y. split; auto. rewrite Ep. intros _ M. cbn in M. subst y.
    exfalso. apply (NF o' l O' Y). left. auto.
  (* B5 *)
  - destruct (_ && _); (apply (WI_sub s _ t W EP EA); auto; intros o' y O Y; split; auto; rewrite Ep; intros _ []).
  (* B6 *)
  - destruct (_ && _); (apply (WI_sub s _ t W EP EA); auto; intros o' y O Y; split; auto; rewrite Ep; intros _ []).
  (* Q2 *)
  - destruct (find_file _ _) as [f|]; (apply (WI_sub s _ t W EP EA); auto; intros o' y O Y; split; auto; rewrite Ep; intros _ []).
  (* P0 *)
  - apply (WI_sub s _ t W EP EA); auto. intros o' y O Y. split; auto. rewrite Ep. intros _ [].
  (* PP *)
  - revert NF EA EP. unfold pass_step. destruct fs as [|f fs]; cbv zeta; intros NF EA EP; [|destruct os as [[|o os]|]; [destruct (file_locked _ _)|destruct ls as [[|[k l] ls]|]; [destruct (off_locked _ _)| |]|]];
      try (apply (WI_sub s _ t W EP EA); auto; intros o' y O Y; split; auto; rewrite Ep; intros _ []).
    destruct (check_has_facts s priv None (f_dev (h_f (r_h s) f)) o k l) as (Q1 & Q2 & Q3 & _). apply (WI_sub s _ t W EP EA); auto.
    intros o' y O Y. split; [exact (Q3 y (NF o' y O Y))|]. rewrite Ep. intros _ [].
Qed.

(** ** Protection flags: set only by the thread inside the guard *)
Record NP (s : rstate) : Prop := mkNP {
  np_f : forall f, In f (h_flist (r_h s)) -> f_prot (h_f (r_h s) f) = true -> exists u, alive s u = true /\ pf (r_pc s u) = Some f;
  np_o : forall f o, In f (h_flist (r_h s)) -> In o (offs (r_h s) f) -> o_prot (h_o (r_h s) o) = true -> exists u, alive s u = true /\ po (r_pc s u) = Some o }.
Record NPL (h : heap) (p : rpc) : Prop := mkNPL {
  npl_f : forall f, In f (h_flist h) -> f_prot (h_f h f) = true -> pf p = Some f;
  npl_o : forall f o, In f (h_flist h) -> In o (offs h f) -> o_prot (h_o h o) = true -> po p = Some o }.
Lemma pf_crit : forall p f, pf p = Some f -> crit p = true.
Proof. intros p f. destruct p; cbn; congruence. Qed.
Lemma po_crit : forall p f, po p = Some f -> crit p = true.
Proof. intros p f. destruct p; cbn; congruence. Qed.

Lemma NPL_sub : forall h h' p p', NPL h p -> pf p' = pf p -> po p' = po p -> (forall f, In f (h_flist h') -> In f (h_flist h)) ->
  (forall f, In f (h_flist h') -> f_prot (h_f h' f) = f_prot (h_f h f)) -> (forall f o, In f (h_flist h') -> In o (offs h' f) -> In o (offs h f)) ->
  (forall o, o_prot (h_o h' o) = o_prot (h_o h o)) -> NPL h' p'.
Proof.
  intros h h' p p' [A B] E1 E2 F1 F2 F3 F4. constructor.
  - intros f F Q. rewrite E1. apply A; auto. rewrite <- F2; auto.
  - intros f o F O Q. rewrite E2. apply (B f o); auto. rewrite <- F4. auto.
Qed.
Lemma free_more : forall h f, h_flist (free_offs h f) = h_flist h /\ (forall g, g <> f -> h_f (free_offs h f) g = h_f h g) /\ (forall o, o_prot (h_o (free_offs h f) o) = o_prot (h_o h o)).
Proof.
  intros h f. unfold free_offs. cbv zeta. set (os := f_offs (h_f h f)). clearbody os.
  set (fo := fun (h : heap) (o : Z) => set_ofree (free_lockers h o) (o :: h_ofree (free_lockers h o))).
  assert (Q : forall h, h_flist (fold_left fo os h) = h_flist h /\ h_f (fold_left fo os h) = h_f h /\ (forall o, o_prot (h_o (fold_left fo os h) o) = o_prot (h_o h o))).
  { induction os as [|o os IH]; intro h0; cbn [fold_left]; auto. destruct (IH (fo h0 o)) as (A & B & C). rewrite A, B. repeat split; auto.
    intro x. rewrite C. cbn. destruct (Z.eq_dec x o) as [->|N]; [rewrite upd_eq | rewrite upd_neq by auto]; auto. }
  destruct (Q h) as (A & B & C). split; [exact A|]. split; [|exact C]. intros g N. cbn. rewrite upd_neq by auto. change (h_f (fold_left fo os h) g = h_f h g). rewrite B. auto.
Qed.
Lemma run_NPL : forall s t race gu, SI s -> alive s t = true -> crit (r_pc s t) = true -> pools_suffice s (LRun t race gu) -> NPL (r_h s) (r_pc s t) ->
  NPL (r_h (r_run s t race gu)) (r_pc (r_run s t race gu) t).
Proof.
  intros s t race gu S AL CR PS N. pose proof (si_pc _ _ _ s S t AL) as P. pose proof (si_h _ _ _ s S) as H.
  assert (PCE : forall p, upd (r_pc s) t p t = p) by (intro; apply upd_eq).
  unfold r_run. unfold pools_suffice in PS. destruct (r_pc s t) eqn:Ep; try discriminate CR; cbv zeta; cbn [pinv] in P.
  (* RDrop *)
  - cbn. rewrite PCE. destruct P as [_ D]. apply (NPL_sub (r_h s) _ _ _ N); auto; destruct r; try destruct D; cbn; auto.
  (* A2 *)
  - destruct N as [NA NB]. cbn in NA, NB. destruct (find_file _ _) as [f|] eqn:EF; [|destruct (h_ffree (r_h s)) as [|f ff] eqn:FF].
    + cbn. rewrite PCE. constructor; cbn.
      * intros g G. destruct (Z.eq_dec g f) as [->|NE]; auto. rewrite upd_neq by auto. intro Q. specialize (NA g G Q). discriminate.
      * intros g o G O Q. unfold offs in O. cbn in O. assert (O2 : In o (offs (r_h s) g)).
        { unfold offs. destruct (Z.eq_dec g f) as [->|NE]; [rewrite upd_eq in O | rewrite upd_neq in O by auto]; auto. }
        specialize (NB g o G O2 Q). discriminate.
    + cbn. rewrite PCE. constructor; auto.
    + cbn. rewrite PCE. constructor; cbn.
      * intros g G Q. destruct (Z.eq_dec g f) as [->|NE]; auto. rewrite upd_neq in Q by auto. destruct G as [G|G]; [congruence|]. specialize (NA g G Q). discriminate.
      * intros g o G O Q. unfold offs in O. cbn in O. destruct (Z.eq_dec g f) as [->|NE]; [rewrite upd_eq in O; destruct O|]. rewrite upd_neq in O by auto.
        destruct G as [G|G]; [congruence|]. specialize (NB g o G O Q). discriminate.
  (* A3 *)
  - destruct P as [IF DV]. destruct N as [NA NB]. cbn in NA, NB. destruct (find_off _ _ _ _) as [o|] eqn:EO; [|destruct (h_ofree (r_h s)) as [|o rest] eqn:OF; [exfalso; apply PS; auto|]].
    + cbn. rewrite PCE. constructor; cbn.
      * intros g G Q. exfalso. destruct (Z.eq_dec g f) as [->|NE]; [rewrite upd_eq in Q; discriminate Q|]. rewrite upd_neq in Q by auto. specialize (NA g G Q). congruence.
      * intros g x G X Q. destruct (Z.eq_dec x o) as [->|NE]; auto. rewrite upd_neq in Q by auto. exfalso. assert (O2 : In x (offs (r_h s) g)).
        { unfold offs in *. cbn in X. destruct (Z.eq_dec g f) as [->|NG]; [rewrite upd_eq in X | rewrite upd_neq in X by auto]; auto. }
        specialize (NB g x G O2 Q). discriminate.
    + cbn. rewrite PCE. constructor; cbn.
      * intros g G Q. exfalso. destruct (Z.eq_dec g f) as [->|NE]; [rewrite upd_eq in Q; discriminate Q|]. rewrite !upd_neq in Q by auto. specialize (NA g G Q). congruence.
      * intros g x G X Q. destruct (Z.eq_dec x o) as [->|NE]; auto. rewrite upd_neq in Q by auto. exfalso. assert (O2 : In x (offs (r_h s) g)).
        { unfold offs in *. cbn in X. destruct (Z.eq_dec g f) as [->|NG]; [rewrite !upd_eq in X; cbn in X; destruct X as [X|X]; [congruence|auto] | rewrite !upd_neq in X by auto; auto]. }
        specialize (NB g x G O2 Q). discriminate.
  (* A4 *)
  - destruct N as [NA NB]. cbn in NA, NB. destruct (h_lfree (r_h s)) as [|l rest]; [exfalso; apply PS; auto|]. cbn. rewrite PCE. constructor; cbn.
    + intros g G Q. specialize (NA g G Q). discriminate.
    + intros g x G X Q. exfalso. destruct (Z.eq_dec x o) as [->|NE]; [rewrite upd_eq in Q; discriminate Q|]. rewrite !upd_neq in Q by auto. specialize (NB g x G X Q). congruence.
  (* AD0 *)
  - destruct N as [NA NB]. cbn in NA, NB. cbn. rewrite PCE. constructor; cbn.
    + intros g G Q. specialize (NA g G Q). discriminate.
    + intros g x G X Q. destruct (Z.eq_dec x o) as [->|NE]; auto. rewrite upd_neq in Q by auto. specialize (NB g x G X Q). discriminate.
  (* AD *)
  - destruct N as [NA NB]. cbn in NA, NB. destruct ls as [|[k x] ls].
    + cbn. rewrite PCE. constructor; cbn.
      * intros g G Q. specialize (NA g G Q). discriminate.
      * intros g x G X Q. exfalso. destruct (Z.eq_dec x o) as [->|NE]; [rewrite upd_eq in Q; discriminate Q|]. rewrite !upd_neq in Q by auto. specialize (NB g x G X Q). congruence.
    + destruct (check_has_facts s gu (Some (t, a_fd a)) (a_dev a) o k x) as (_ & _ & _ & Q4 & Q5 & Q6).
      apply (NPL_sub (r_h s) _ (AD a f o l ((k, x) :: ls))); [constructor; auto|..]; cbn [r_pc goto set_h r_h]; rewrite ?PCE; auto.
      * intros g. rewrite Q4. auto.
      * intros g _. rewrite Q5. auto.
      * intros g y _. unfold offs. rewrite Q5. auto.
  (* F1 *)
  - assert (A : forall p, pf (RDrop p) = None /\ po (RDrop p) = None) by (intro; auto).
    destruct (find_locker _ _ _ _ _) as [l|]; cbn; rewrite PCE.
    + destruct (drop_facts (r_h s) o (a_kind a) l LDone) as (_ & _ & _ & Q4 & Q5 & Q6). apply (NPL_sub (r_h s) _ _ _ N); auto.
    + apply (NPL_sub (r_h s) _ _ _ N); auto.
  (* F2 *)
  - destruct (find_off _ _ _ _) as [o|]; [destruct (off_locked _ _)|]; cbn; rewrite PCE; apply (NPL_sub (r_h s) _ _ _ N); auto; cbn.
    + intros g G. destruct (Z.eq_dec g f) as [->|NE]; [rewrite upd_eq | rewrite upd_neq by auto]; auto.
    + intros g x G. unfold offs. cbn. destruct (Z.eq_dec g f) as [->|NE]; [rewrite upd_eq; cbn; rewrite in_del; tauto | rewrite upd_neq by auto; auto].
  (* F3 *)
  - destruct (find_file _ _) as [f|] eqn:EF; [destruct (file_locked _ _)|]; cbn [r_h goto set_h r_pc]; rewrite PCE; try (apply (NPL_sub (r_h s) _ _ _ N); solve [auto]).
    destruct (free_more (r_h s) f) as (Q1 & Q2 & Q3). apply (NPL_sub (r_h s) _ _ _ N); auto; cbn [drop_file set_files h_flist h_f h_o].
    + intro g. rewrite in_del, Q1. tauto.
    + intros g G. rewrite in_del in G. rewrite Q2 by tauto. auto.
    + intros g x G. rewrite in_del in G. unfold offs, drop_file, set_files. cbn [h_f]. rewrite Q2 by tauto. auto.
  (* B2 *)
  - assert (Q : NPL (r_h s) (RDrop (RRet EINVAL))) by (apply (NPL_sub (r_h s) _ _ _ N); auto).
    destruct (find_file _ _) as [f|]; [|cbn; rewrite PCE; auto]. destruct (find_off _ _ _ _) as [o|]; [|cbn; rewrite PCE; auto].
    destruct (match find_locker _ _ _ _ _ with Some l => _ | None => _ end) as [[k l]|]; [|cbn; rewrite PCE; auto].
    cbn. rewrite PCE. apply (NPL_sub (r_h s) _ _ _ N); auto. intro x. cbn. destruct (Z.eq_dec x o) as [->|NE]; [rewrite upd_eq | rewrite upd_neq by auto]; auto.
  (* B3 *)
  - cbn. rewrite PCE. apply (NPL_sub (r_h s) _ _ _ N); auto.
  (* B4 *)
  - cbn. rewrite PCE. destruct (drop_facts (r_h s) o k l LDone) as (_ & _ & _ & Q4 & Q5 & Q6). apply (NPL_sub (r_h s) _ _ _ N); auto.
  (* B5 *)
  - destruct (_ && _); cbn; rewrite PCE; apply (NPL_sub (r_h s) _ _ _ N); auto; cbn.
    + intros g G. destruct (Z.eq_dec g f) as [->|NE]; [rewrite upd_eq | rewrite upd_neq by auto]; auto.
    + intros g x G. unfold offs. cbn. destruct (Z.eq_dec g f) as [->|NE]; [rewrite upd_eq; cbn; rewrite in_del; tauto | rewrite upd_neq by auto; auto].
  (* B6 *)
  - destruct (_ && _); cbn; rewrite PCE; apply (NPL_sub (r_h s) _ _ _ N); auto. unfold drop_file. cbn [set_files h_flist]. intro g. rewrite in_del. tauto.
  (* Q2 *)
  - destruct (find_file _ _) as [f|]; cbn; rewrite PCE; apply (NPL_sub (r_h s) _ _ _ N); auto.
  (* P0 *)
  - cbn. rewrite PCE. apply (NPL_sub (r_h s) _ _ _ N); auto.
  (* PP *)
  - unfold pass_step. destruct fs as [|f fs]; [|destruct os as [[|o os]|]; [destruct (file_locked _ _)|destruct ls as [[|[k l] ls]|]; [destruct (off_locked _ _)| |]|]];
      cbn [r_h goto set_h r_pc]; rewrite PCE; apply (NPL_sub (r_h s) _ _ _ N); auto.
    + unfold drop_file. cbn [set_files h_flist]. intro g. rewrite in_del. tauto.
    + intros g G. cbn. destruct (Z.eq_dec g f) as [->|NE]; [rewrite upd_eq | rewrite upd_neq by auto]; auto.
    + intros g x G. unfold offs. cbn. destruct (Z.eq_dec g f) as [->|NE]; [rewrite upd_eq; cbn; rewrite in_del; tauto | rewrite upd_neq by auto; auto].
    + destruct (check_has_facts s priv None (f_dev (h_f (r_h s) f)) o k l) as (_ & _ & _ & Q4 & Q5 & Q6). intros g. rewrite Q4. auto.
    + destruct (check_has_facts s priv None (f_dev (h_f (r_h s) f)) o k l) as (_ & _ & _ & Q4 & Q5 & Q6). intros g _. rewrite Q5. auto.
    + destruct (check_has_facts s priv None (f_dev (h_f (r_h s) f)) o k l) as (_ & _ & _ & Q4 & Q5 & Q6). intros g y _. unfold offs. rewrite Q5. auto.
    + destruct (check_has_facts s priv None (f_dev (h_f (r_h s) f)) o k l) as (_ & _ & _ & Q4 & Q5 & Q6). auto.
Qed.
Lemma run_outside_np : forall s t race gu, crit (r_pc s t) = false -> let h' := r_h (r_run s t race gu) in
  h_flist h' = h_flist (r_h s) /\ h_f h' = h_f (r_h s) /\ (forall o, o_prot (h_o h' o) = o_prot (h_o (r_h s) o)).
Proof.
  intros s t race gu C. cbv zeta. unfold r_run. destruct (r_pc s t) eqn:Ep; try discriminate C; cbv zeta; auto.
  - destruct (r_guard s) as [u|]; [destruct (alive s u)|]; auto.
  - destruct (_ && _); [|destruct (a_wait a); auto; destruct gu; auto]. repeat split. intro x. cbn. destruct (Z.eq_dec x o) as [->|NE]; [rewrite upd_eq | rewrite upd_neq by auto]; auto.
Qed.
Lemma run_NP : forall s t race gu, SI s -> alive s t = true -> pools_suffice s (LRun t race gu) -> NP s -> NP (r_run s t race gu).
Proof.
  intros s t race gu S AL PS N. assert (EA : forall u, alive (r_run s t race gu) u = alive s u) by (intro u; destruct (run_env s t race gu) as (E1 & E2 & _); unfold alive; congruence).
  destruct (crit (r_pc s t)) eqn:CR.
  - assert (ONLY : forall u, alive s u = true -> crit (r_pc s u) = true -> u = t).
    { intros u AU CU. pose proof (si_guard _ _ _ s S t AL CR). pose proof (si_guard _ _ _ s S u AU CU). congruence. }
    assert (L : NPL (r_h s) (r_pc s t)).
    { constructor.
      - intros f F Q. destruct (np_f s N f F Q) as (u & AU & E). rewrite <- (ONLY u AU (pf_crit _ _ E)). exact E.
      - intros f o F O Q. destruct (np_o s N f o F O Q) as (u & AU & E). rewrite <- (ONLY u AU (po_crit _ _ E)). exact E. }
    pose proof (run_NPL s t race gu S AL CR PS L) as [A B]. constructor.
    + intros f F Q. exists t. rewrite EA. auto.
    + intros f o F O Q. exists t. rewrite EA. split; auto. apply (B f o); auto.
  - destruct (run_outside_np s t race gu CR) as (Q1 & Q2 & Q3).
    assert (OTH : forall u, crit (r_pc s u) = true -> r_pc (r_run s t race gu) u = r_pc s u) by (intros u CU; apply run_other; congruence).
    constructor.
    + intros f. rewrite Q1, Q2. intros F Q. destruct (np_f s N f F Q) as (u & AU & E). exists u. rewrite EA, OTH by (apply (pf_crit _ _ E)). auto.
    + intros f o. unfold offs. rewrite Q1, Q2, Q3. intros F O Q. destruct (np_o s N f o F O Q) as (u & AU & E). exists u. rewrite EA, OTH by (apply (po_crit _ _ E)). auto.
Qed.

(** no thread ends while it holds the guard of the file list *)
Definition dies_outside (s : rstate) (x : rlabel) : Prop :=
  match x with LDieThread t => r_guard s <> Some t | LDieProc p => forall t, r_guard s = Some t -> proc_of_thread t <> p | _ => True end.
Definition tidy (s : rstate) (x : rlabel) : Prop := careful s x /\ pools_suffice s x /\ dies_outside s x.

Lemma tidy_reach : forall fds mode allow s, r_reach (r_init UF UO UL fds mode allow) tidy s -> SI s /\ WI s /\ NP s.
Proof.
  intros fds mode allow s R. assert (SS : SI s) by (apply (SI_reach UF UO UL UF_nd UO_nd UL_nd fds mode allow tidy s); auto; intros ? ? [A _]; exact A). split; auto. clear SS.
  induction R as [|s x R [W N] (CF & PS & DO)].
  - split; constructor; cbn; try contradiction.
  - assert (S : SI s) by (apply (SI_reach UF UO UL UF_nd UO_nd UL_nd fds mode allow tidy s); auto; intros ? ? [A _]; exact A).
    assert (S' : SI (r_step s x)) by (apply SI_step; auto).
    destruct x as [t c|t race gu|p fd d|p m|t|p]; cbn [r_step] in *.
    + destruct (alive s t) eqn:AL; auto. destruct (r_pc s t) eqn:Ep; auto.
      assert (Q : r_h (r_call s t c) = r_h s /\ (forall u, alive (r_call s t c) u = alive s u) /\ (forall u, u <> t -> r_pc (r_call s t c) u = r_pc s u)).
      { unfold r_call. destruct c; try destruct (dev_of s t fd); cbn; repeat split; auto; intros u NE; apply upd_neq; auto. }
      destruct Q as (Q1 & Q2 & Q3). split.
      * apply (WI_sub s _ t W Q3 Q2); rewrite Q1; auto. intros o y O Y. split; auto. rewrite Ep. intros _ [].
      * constructor; rewrite Q1.
        -- intros f F Q. destruct (np_f s N f F Q) as (u & AU & E). exists u. rewrite Q2. split; auto. rewrite Q3; auto. intros ->. rewrite Ep in E. discriminate.
        -- intros f o F O Q. destruct (np_o s N f o F O Q) as (u & AU & E). exists u. rewrite Q2. split; auto. rewrite Q3; auto. intros ->. rewrite Ep in E. discriminate.
    + destruct (alive s t) eqn:AL; auto. split; [apply run_WI; auto | apply run_NP; auto].
    + split; [destruct W as [A B] | destruct N as [A B]]; constructor; auto.
    + split; [destruct W as [A B] | destruct N as [A B]]; constructor; auto.
    + split.
      * destruct W as [A B]. constructor; cbn.
        -- intros o y O Y AL. apply (A o y O Y). apply (step_alive s (LDieThread t)). exact AL.
        -- intros o1 y1 o2 y2 O1 O2 Y1 Y2 AL. apply (B o1 y1 o2 y2 O1 O2 Y1 Y2). apply (step_alive s (LDieThread t)). exact AL.
      * assert (K : forall u, alive s u = true -> crit (r_pc s u) = true -> alive (r_step s (LDieThread t)) u = true).
        { intros u AU CU. pose proof (si_guard _ _ _ s S u AU CU) as G. unfold alive in *. cbn. rewrite upd_neq; auto. intros ->. exact (DO G). }
        destruct N as [A B]. constructor.
        -- intros f F Q. destruct (A f F Q) as (u & AU & E). exists u. split; auto. apply K; auto. apply (pf_crit _ _ E).
        -- intros f o F O Q. destruct (B f o F O Q) as (u & AU & E). exists u. split; auto. apply K; auto. apply (po_crit _ _ E).
    + split.
      * destruct W as [A B]. constructor; cbn.
        -- intros o y O Y AL. apply (A o y O Y). apply (step_alive s (LDieProc p)). exact AL.
        -- intros o1 y1 o2 y2 O1 O2 Y1 Y2 AL. apply (B o1 y1 o2 y2 O1 O2 Y1 Y2). apply (step_alive s (LDieProc p)). exact AL.
      * assert (K : forall u, alive s u = true -> crit (r_pc s u) = true -> alive (r_step s (LDieProc p)) u = true).
        { intros u AU CU. pose proof (si_guard _ _ _ s S u AU CU) as G. unfold alive in *. cbn. rewrite upd_neq; auto. }
        destruct N as [A B]. constructor.
        -- intros f F Q. destruct (A f F Q) as (u & AU & E). exists u. split; auto. apply K; auto. apply (pf_crit _ _ E).
        -- intros f o F O Q. destruct (B f o F O Q) as (u & AU & E). exists u. split; auto. apply K; auto. apply (po_crit _ _ E).
Qed.

(** ** The pass *)
Section Pass.
Variable t : Z.
Variable d : Z.
Variable priv : bool.
(** what is left of the file: everything not yet visited *)
Definition left_over (h : heap) (fs : list Z) (os : option (list Z)) (ls : option (list (rwmode * Z))) : Prop :=
  (forall f, In f (h_flist h) -> f_dev (h_f h f) = d -> In f fs) /\
  (forall f fs' os', fs = f :: fs' -> f_dev (h_f h f) = d -> os = Some os' -> forall o, In o (offs h f) -> In o os') /\
  (forall f fs' o os' ls', fs = f :: fs' -> f_dev (h_f h f) = d -> os = Some (o :: os') -> ls = Some ls' -> forall k l, In l (o_list (h_o h o) k) -> In (k, l) ls').
Record PI (s : rstate) : Prop := mkPI {
  pi_np : forall f, In f (h_flist (r_h s)) -> f_prot (h_f (r_h s) f) = false /\ forall o, In o (offs (r_h s) f) -> o_prot (h_o (r_h s) o) = false;
  pi_dead : forall f o y, In f (h_flist (r_h s)) -> f_dev (h_f (r_h s) f) = d -> In o (offs (r_h s) f) -> In y (lks (h_o (r_h s) o)) -> r_palive s (proc_of_thread (tid (r_h s) y)) = false;
  pi_pc : match r_pc s t with
          | RWait (P0 _) | P0 _ => True
          | PP _ fs os ls => left_over (r_h s) fs os ls
          | RDrop (RRet _) | RRet _ | RIdle => forall f, In f (h_flist (r_h s)) -> f_dev (h_f (r_h s) f) <> d
          | _ => False
          end }.
Lemma probe_ended : forall s p y fd dev, r_palive s (proc_of_thread y) = false -> probe_dead s p y fd dev = true.
Proof. intros s p y fd dev E. unfold probe_dead, alive. rewrite E. destruct (is_no_fd fd); auto. destruct p; auto. Qed.

Lemma pass_PI : forall s race gu, SI s -> alive s t = true -> PI s -> PI (r_run s t race gu).
Proof.
  intros s race gu S AL [NPs DE PC]. pose proof (si_pc _ _ _ s S t AL) as P. pose proof (si_h _ _ _ s S) as H.
  assert (PCE : forall p, upd (r_pc s) t p t = p) by (intro; apply upd_eq).
  unfold r_run. destruct (r_pc s t) eqn:Ep; try contradiction; cbv zeta; cbn [pinv] in P.
  - constructor; auto. rewrite Ep. auto.
  - destruct r; try contradiction. destruct (r_guard s) as [u|]; [destruct (alive s u)|]; constructor; auto; cbn; rewrite ?PCE, ?Ep; auto.
  - destruct r; try contradiction. constructor; auto. cbn. rewrite PCE. auto.
  - constructor; auto. cbn. rewrite PCE. auto.
  - constructor; auto. cbn. rewrite PCE. split; [auto|]. split; [|intros; discriminate]. intros; discriminate.
  - destruct PC as (L1 & L2 & L3). unfold pass_step. destruct fs as [|f fs].
    + constructor; auto. cbn. rewrite PCE. intros f F E. exact (L1 f F E).
    + destruct P as (ND & IN & P). assert (IF : In f (h_flist (r_h s))) by (apply IN; left; auto).
      destruct os as [[|o os]|].
      * (* the file entry *)
        destruct (file_locked (r_h s) f) eqn:FL.
        -- constructor; auto. cbn. rewrite PCE. split; [|split; [intros; discriminate|intros; discriminate]]. intros g G E. destruct (L1 g G E) as [<-|Q]; auto. exfalso.
           unfold file_locked in FL. destruct (NPs f IF) as [Q1 Q2]. rewrite Q1 in FL. cbn in FL. apply existsb_exists in FL as (o & O & _).
           exact (L2 f fs [] eq_refl E eq_refl o O).
        -- constructor; cbn [r_h goto set_h drop_file set_files h_flist h_f h_o h_l r_palive r_pc].
           ++ intros g G. apply in_del in G as [G _]. apply NPs; auto.
           ++ intros g o y G. apply in_del in G as [G _]. apply (DE g o y G).
           ++ rewrite PCE. split; [|split; [intros; discriminate|intros; discriminate]]. intros g G E. apply in_del in G as [G NE]. destruct (L1 g G E) as [<-|Q]; [congruence|auto].
      * destruct P as [NDo INo]. assert (IO : In o (offs (r_h s) f)) by (apply INo; left; auto).
        destruct ls as [[|[k l] ls]|].
        -- (* the range entry *)
           destruct (off_locked (r_h s) o) eqn:OL.
           ++ constructor; auto. cbn. rewrite PCE. split; [auto|]. split; [|intros; discriminate]. intros g fs' os' E1 E2 E3 x X. inversion E1; subst g fs'. inversion E3; subst os'.
              destruct (L2 f fs (o :: os) eq_refl E2 eq_refl x X) as [<-|Q]; auto. exfalso.
              destruct (NPs f IF) as [_ Q2]. unfold off_locked in OL. rewrite (Q2 o IO) in OL. cbn in OL. pose proof (L3 f fs o os [] eq_refl E2 eq_refl eq_refl) as L4.
              destruct (o_rd (h_o (r_h s) o)) as [|r rr] eqn:ER; [|apply (L4 Rd r); cbn; rewrite ER; left; auto].
              destruct (o_wr (h_o (r_h s) o)) as [|r rr] eqn:EW; [discriminate OL|apply (L4 Wr r); cbn; rewrite EW; left; auto].
           ++ assert (OFF : forall g x, In x (offs (drop_off (r_h s) f o) g) -> In x (offs (r_h s) g) /\ (g = f -> x <> o)).
              { intros g x. unfold offs. cbn. destruct (Z.eq_dec g f) as [->|NE]; [rewrite upd_eq; cbn; rewrite in_del; tauto | rewrite upd_neq by auto; tauto]. }
              assert (DEV : forall g, f_dev (h_f (drop_off (r_h s) f o) g) = f_dev (h_f (r_h s) g) /\ f_prot (h_f (drop_off (r_h s) f o) g) = f_prot (h_f (r_h s) g)).
              { intro g. cbn. destruct (Z.eq_dec g f) as [->|NE]; [rewrite upd_eq; auto | rewrite upd_neq by auto; auto]. }
              constructor; cbn [r_h goto set_h r_palive r_pc].
              ** intros g G. destruct (DEV g) as [_ ->]. destruct (NPs g G) as [Q1 Q2]. split; auto. intros x X. apply OFF in X as [X _]. exact (Q2 x X).
              ** intros g x y G. destruct (DEV g) as [-> _]. intros E X. apply OFF in X as [X _]. exact (DE g x y G E X).
              ** rewrite PCE. split; [|split; [|intros; discriminate]].
                 --- intros g G. destruct (DEV g) as [-> _]. apply L1. exact G.
                 --- intros g fs' os' E1. destruct (DEV g) as [-> _]. inversion E1; subst g fs'. intros E2 E3 x X. inversion E3; subst os'. apply OFF in X as [X NX].
                     destruct (L2 f fs (o :: os) eq_refl E2 eq_refl x X) as [<-|Q]; auto. exfalso. apply NX; auto.
        -- (* one locker *)
           destruct (check_has_facts s priv0 None (f_dev (h_f (r_h s) f)) o k l) as (Q1 & Q2 & _ & Q4 & Q5 & Q6).
           set (h' := check_locker s priv0 None (f_dev (h_f (r_h s) f)) o k l) in *.
           assert (SUBL : forall kk y, In y (o_list (h_o h' o) kk) -> In y (o_list (h_o (r_h s) o) kk) /\ (f_dev (h_f (r_h s) f) = d -> (kk, y) <> (k, l))).
           { intros kk y. unfold h', check_locker. cbv zeta. cbn [andb].
             destruct (mem l (o_list (h_o (r_h s) o) k)) eqn:MM.
             - destruct (probe_dead s priv0 (l_tid (h_l (r_h s) l)) (l_fd (h_l (r_h s) l)) (f_dev (h_f (r_h s) f))) eqn:PD; cbn [andb].
               + assert (OL : forall hh, o_list (h_o hh o) k = o_list (h_o (r_h s) o) k -> (forall k2, o_list (h_o hh o) k2 = o_list (h_o (r_h s) o) k2) ->
                   In y (o_list (h_o (set_st (drop_locker hh o k l) l LDone) o) kk) -> In y (o_list (h_o (r_h s) o) kk) /\ (f_dev (h_f (r_h s) f) = d -> (kk, y) <> (k, l))).
                 { intros hh _ E. cbn. rewrite upd_eq. rewrite E. destruct kk, k; cbn [o_set_list o_list o_rd o_wr]; rewrite ?in_del; intros X; pose proof (E Rd) as E1; pose proof (E Wr) as E2; cbn in E1, E2; rewrite ?E1, ?E2 in X; intuition congruence. }
                 destruct (l_locked _); apply OL; auto; intros; cbn; rewrite upd_eq; destruct k2 || destruct k; auto.
               + intro X. split; auto. intros E2 Q. inversion Q; subst kk y. rewrite probe_ended in PD; [discriminate|]. apply (DE f o l IF E2 IO). apply lks_in. eauto.
             - rewrite andb_false_r. intro X. split; auto. intros E2 Q. inversion Q; subst kk y. assert (mem l (o_list (h_o (r_h s) o) k) = true) by (apply mem_in; auto). congruence. }
           constructor; cbn [r_h goto set_h r_palive r_pc].
           ++ intros g. rewrite Q4, Q5. unfold offs. rewrite Q5. intro G. destruct (NPs g G) as [A B]. split; auto. intros x X. rewrite Q6. auto.
           ++ intros g x y. unfold offs, tid. rewrite Q4, Q5, Q2. intros G E X Y. exact (DE g x y G E X (Q1 x y Y)).
           ++ rewrite PCE. split; [|split].
              ** intros g. rewrite Q4, Q5. auto.
              ** intros g fs' os' E1. unfold offs. rewrite Q5. intros E2 E3. exact (L2 g fs' os' E1 E2 E3).
              ** intros g fs' o' os' ls' E1 E2 E3 E4 kk y Y. inversion E1; subst g fs'. inversion E3; subst o' os'. inversion E4; subst ls'. rewrite Q5 in E2.
                 destruct (SUBL kk y Y) as [Y0 NE]. destruct (L3 f fs o os ((k, l) :: ls) eq_refl E2 eq_refl eq_refl kk y Y0) as [Q|Q]; auto. exfalso. apply (NE E2). auto.
        -- constructor; auto. cbn. rewrite PCE. split; [auto|]. split; [auto|]. intros g fs' o' os' ls' E1 E2 E3 E4 kk y Y. inversion E1; subst g fs'. inversion E3; subst o' os'.
           inversion E4; subst ls'. unfold off_lockers. apply in_app_iff. destruct kk; [left|right]; apply in_map; exact Y.
      * constructor; auto. cbn. rewrite PCE. split; [auto|]. split; [|intros; discriminate]. intros g fs' os' E1 E2 E3 o O. inversion E1; subst g fs'. inversion E3; subst os'. exact O.
Qed.
End Pass.
End Clear.
