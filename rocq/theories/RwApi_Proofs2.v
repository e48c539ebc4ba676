(** Invariants of the read/write lock API machine, part 2: all reachable states. *)
From Coq Require Import ZArith List Bool Lia Permutation.
From Verif Require Import Base Range_Model RwWord_Model RwApi_Model RwApi_Spec RwApi_Proofs.
Import ListNotations.
Open Scope Z_scope.

Definition crit (p : rpc) : bool :=
  match p with RIdle | RWait _ | RRet _ | AT _ _ _ _ | AS _ _ _ _ => false | _ => true end.

Section Global.
Variables UF UO UL : list Z.
Hypothesis UF_nd : NoDup UF.
Hypothesis UO_nd : NoDup UO.
Hypothesis UL_nd : NoDup UL.

Notation HI := (HI UF UO UL).

(** the locker entry of a running lock call of thread [t] *)
Definition lkf (h : heap) (t : Z) (a : rargs) (f o l : Z) (v : lstat) : Prop :=
  at_ h f o (a_kind a) l /\ f_dev (h_f h f) = a_dev a /\ h_l h l = mkL t (a_fd a) false /\
  range_match (o_off (h_o h o)) (o_len (h_o h o)) (a_off a) (a_len a) = true /\ h_st h l = v.

Definition waitable (p : rpc) : Prop :=
  match p with A2 _ | B2 _ | Q2 _ | P0 _ | AD0 _ _ _ _ | F1 _ _ _ _ | F2 _ _ _ | F3 _ _ => True | _ => False end.
Definition droppable (p : rpc) : Prop :=
  match p with AT _ _ _ _ | RRet _ => True | RWait (F2 _ _ _) | RWait (F3 _ _) => True | _ => False end.

Fixpoint pinv (h : heap) (t : Z) (p : rpc) : Prop :=
  match p with
  | RIdle | RRet _ | A2 _ | B2 _ | Q2 _ | P0 _ | F3 _ _ => True
  | RWait p => pinv h t p /\ waitable p
  | RDrop p => pinv h t p /\ droppable p
  | A3 a f => In f (h_flist h) /\ f_dev (h_f h f) = a_dev a
  | A4 a f o => In f (h_flist h) /\ In o (offs h f) /\ f_dev (h_f h f) = a_dev a /\
                range_match (o_off (h_o h o)) (o_len (h_o h o)) (a_off a) (a_len a) = true
  | AT a f o l => lkf h t a f o l LWait
  | AS a f o l => lkf h t a f o l LAcq
  | AD0 a f o l => lkf h t a f o l LWait
  | AD a f o l _ => lkf h t a f o l LWait
  | F1 a f o _ => exists l, lkf h t a f o l LWait
  | F2 _ f _ => In f UF
  | B3 a f o k l => at_ h f o k l /\ h_l h l = mkL t (a_fd a) true /\ h_st h l = LRel
  | B4 a f o k l => at_ h f o k l /\ h_l h l = mkL t (a_fd a) false /\ h_st h l = LDone
  | B5 _ f o => In f (h_flist h) /\ In o (offs h f)
  | B6 _ f => In f (h_flist h)
  | PP _ fs os _ => NoDup fs /\ incl fs (h_flist h) /\
                    match fs, os with f :: _, Some os => NoDup os /\ incl os (offs h f) | _, _ => True end
  end.

Record SI (s : rstate) : Prop := {
  si_h : HI (r_h s);
  si_pc : forall t, alive s t = true -> pinv (r_h s) t (r_pc s t);
  si_guard : forall t, alive s t = true -> crit (r_pc s t) = true -> r_guard s = Some t;
  si_acq : forall l, h_st (r_h s) l = LAcq -> exists t a f o, alive s t = true /\ r_pc s t = AS a f o l;
  si_rel : forall l, h_st (r_h s) l = LRel -> exists t a f o k, alive s t = true /\ r_pc s t = B3 a f o k l;
  si_fd : forall t fd dev, alive s t = true -> lock_fd (r_pc s t) = Some (fd, dev) -> dev_of s t fd = Some dev
}.

Lemma lkf_ext : forall X h h' t a f o l v, ext X h h' -> lkf h t a f o l v -> ~ X l -> lkf h' t a f o l v.
Proof.
  intros X h h' t a f o l v E (A & B & C & D & F) N.
  destruct (E f o (a_kind a) l A N) as (A' & B' & O1 & O2 & L' & S').
  unfold lkf. rewrite B', O1, O2, L', S'. auto.
Qed.

(** facts about a thread outside the guarded sections survive changes elsewhere *)
Lemma pinv_ext : forall X h h' t p, crit p = false -> pinv h t p -> ext X h h' ->
  (forall a f o l v, lkf h t a f o l v -> lock_fd p = Some (a_fd a, a_dev a) -> ~ X l) -> pinv h' t p.
Proof.
  intros X h h' t p C P E N. destruct p; simpl in C; try discriminate; simpl in *; auto.
  - destruct P as [P W]. split; auto. destruct p; simpl in *; auto; try contradiction.
    + eapply lkf_ext; eauto.
    + destruct P as [l P]. exists l. eapply lkf_ext; eauto.
  - eapply lkf_ext; eauto.
  - eapply lkf_ext; eauto.
Qed.

(** facts about any thread survive a change of flags of somebody else's locker *)
Definition same_but (l : Z) (h h' : heap) : Prop :=
  h_f h' = h_f h /\ h_flist h' = h_flist h /\
  (forall x k', o_list (h_o h' x) k' = o_list (h_o h x) k') /\
  (forall x, o_off (h_o h' x) = o_off (h_o h x) /\ o_len (h_o h' x) = o_len (h_o h x)) /\
  (forall x, x <> l -> h_l h' x = h_l h x) /\ (forall x, x <> l -> h_st h' x = h_st h x).

Lemma lkf_same : forall l h h' t a f o x v, same_but l h h' -> lkf h t a f o x v -> x <> l -> lkf h' t a f o x v.
Proof.
  intros l h h' t a f o x v (E1 & E2 & E3 & E4 & E5 & E6) (A & B & C & D & F) N.
  unfold lkf, at_, offs in *. rewrite E1, E2, E3, E5, E6 by auto. destruct (E4 o) as (-> & ->). auto.
Qed.

Lemma pinv_same : forall l h h' t p, same_but l h h' -> pinv h t p -> l_tid (h_l h l) <> t -> pinv h' t p.
Proof.
  intros l h h' t p S. assert (SS := S). destruct S as (E1 & E2 & E3 & E4 & E5 & E6).
  induction p; simpl; intros P N; auto.
  - destruct P; split; auto.
  - destruct P; split; auto.
  - rewrite E1, E2. auto.
  - unfold offs in *. rewrite E1, E2. destruct (E4 o) as (-> & ->). auto.
  - eapply lkf_same; eauto. intros ->. apply N. destruct P as (_ & _ & -> & _). auto.
  - eapply lkf_same; eauto. intros ->. apply N. destruct P as (_ & _ & -> & _). auto.
  - eapply lkf_same; eauto. intros ->. apply N. destruct P as (_ & _ & -> & _). auto.
  - eapply lkf_same; eauto. intros ->. apply N. destruct P as (_ & _ & -> & _). auto.
  - destruct P as [x P]. exists x. eapply lkf_same; eauto. intros ->. apply N. destruct P as (_ & _ & -> & _). auto.
  - destruct P as (A & B & C). assert (l0 <> l) by (intros ->; apply N; rewrite B; auto).
    unfold at_, offs in *. rewrite E1, E2, E3, E5, E6 by auto. auto.
  - destruct P as (A & B & C). assert (l0 <> l) by (intros ->; apply N; rewrite B; auto).
    unfold at_, offs in *. rewrite E1, E2, E3, E5, E6 by auto. auto.
  - unfold offs in *. rewrite E1, E2. auto.
  - rewrite E2. auto.
  - unfold offs in *. rewrite E1, E2. auto.
Qed.

Lemma alive_goto : forall s t p u, alive (goto s t p) u = alive s u.
Proof. reflexivity. Qed.

(** a step of the thread that has the guard *)
Lemma SI_crit : forall s t h' p' X, SI s -> alive s t = true -> crit (r_pc s t) = true ->
  HI h' -> ext X (r_h s) h' ->
  (forall u a f o l v, u <> t -> alive s u = true -> lkf (r_h s) u a f o l v ->
     dev_of s u (a_fd a) = Some (a_dev a) -> ~ X l) ->
  pinv h' t p' -> crit p' = true ->
  (forall l, h_st h' l = LAcq -> h_st (r_h s) l = LAcq) ->
  (forall l, h_st h' l = LRel -> (h_st (r_h s) l = LRel /\ forall a f o k, r_pc s t <> B3 a f o k l) \/
                                 exists a f o k, p' = B3 a f o k l) ->
  (lock_fd p' = None \/ lock_fd p' = lock_fd (r_pc s t)) ->
  SI (goto (set_h s h') t p').
Proof.
  intros s t h' p' X H AL C Hh E XN P C' AQ RL FD. constructor; simpl; auto.
  - intros u Au. change (alive s u = true) in Au.
    destruct (Z.eq_dec u t) as [->|N]; [rewrite upd_eq; auto | rewrite upd_neq by auto].
    destruct (crit (r_pc s u)) eqn:Cu.
    + exfalso. apply N. pose proof (si_guard s H u Au Cu). pose proof (si_guard s H t AL C). congruence.
    + eapply pinv_ext; eauto. apply (si_pc s H); auto.
      intros a f o l v L F. eapply XN; eauto. eapply (si_fd s H); eauto.
  - intros u Au. change (alive s u = true) in Au.
    destruct (Z.eq_dec u t) as [->|N]; [rewrite upd_eq; intros _; apply (si_guard s H); auto | rewrite upd_neq by auto].
    apply (si_guard s H); auto.
  - intros l S. apply AQ in S. destruct (si_acq s H l S) as (u & a & f & o & Au & Pu).
    exists u, a, f, o. split; auto. rewrite upd_neq; auto. intros ->. rewrite Pu in C. discriminate.
  - intros l S. apply RL in S. destruct S as [[S NB]|(a & f & o & k & ->)].
    + destruct (si_rel s H l S) as (u & a & f & o & k & Au & Pu).
      exists u, a, f, o, k. split; auto. rewrite upd_neq; auto. intros ->. eapply NB; eauto.
    + exists t, a, f, o, k. split; auto. apply upd_eq.
  - intros u fd dev Au. change (alive s u = true) in Au. change (lock_fd (upd (r_pc s) t p' u) = Some (fd, dev) -> dev_of s u fd = Some dev).
    destruct (Z.eq_dec u t) as [->|N]; [rewrite upd_eq | rewrite upd_neq by auto].
    + destruct FD as [->| ->]; [discriminate|]. apply (si_fd s H); auto.
    + apply (si_fd s H); auto.
Qed.

Lemma goto_set_h_same : forall s t p, goto s t p = goto (set_h s (r_h s)) t p.
Proof. destruct s; reflexivity. Qed.

(** same, without a change of memory *)
Lemma SI_crit0 : forall s t p', SI s -> alive s t = true -> crit (r_pc s t) = true ->
  pinv (r_h s) t p' -> crit p' = true -> (forall a f o k l, r_pc s t <> B3 a f o k l) ->
  (lock_fd p' = None \/ lock_fd p' = lock_fd (r_pc s t)) -> SI (goto s t p').
Proof.
  intros. rewrite goto_set_h_same. eapply SI_crit with (X := none); eauto.
  - apply (si_h s H).
  - apply ext_refl.
Qed.

(** steps that do not change the memory, outside or at the border of guarded sections *)
Lemma SI_move : forall s t g p', SI s -> alive s t = true ->
  pinv (r_h s) t p' ->
  (forall a f o l, r_pc s t <> AS a f o l) -> (forall a f o k l, r_pc s t <> B3 a f o k l) ->
  (lock_fd p' = None \/ lock_fd p' = lock_fd (r_pc s t) \/ (exists fd d, lock_fd p' = Some (fd, d) /\ dev_of s t fd = Some d)) ->
  (forall u, alive s u = true -> u <> t -> crit (r_pc s u) = true -> g = Some u) ->
  (crit p' = true -> g = Some t) ->
  forall res,
  SI (mkR (r_h s) g (upd (r_pc s) t p') res (r_talive s) (r_palive s) (r_fd s) (r_mode s) (r_allow s)).
Proof.
  intros s t g p' H AL P NA NB FD G1 G2 res. constructor; simpl.
  - apply H.
  - intros u Au. change (alive s u = true) in Au.
    destruct (Z.eq_dec u t) as [->|N]; [rewrite upd_eq; auto | rewrite upd_neq by auto]. apply (si_pc s H); auto.
  - intros u Au. change (alive s u = true) in Au.
    destruct (Z.eq_dec u t) as [->|N]; [rewrite upd_eq; auto | rewrite upd_neq by auto]. auto.
  - intros l S. destruct (si_acq s H l S) as (u & a & f & o & Au & Pu).
    exists u, a, f, o. split; auto. rewrite upd_neq; auto. intros ->. eapply NA; eauto.
  - intros l S. destruct (si_rel s H l S) as (u & a & f & o & k & Au & Pu).
    exists u, a, f, o, k. split; auto. rewrite upd_neq; auto. intros ->. eapply NB; eauto.
  - intros u fd dev Au. change (alive s u = true) in Au. change (lock_fd (upd (r_pc s) t p' u) = Some (fd, dev) -> dev_of s u fd = Some dev).
    destruct (Z.eq_dec u t) as [->|N]; [rewrite upd_eq | rewrite upd_neq by auto].
    + destruct FD as [->|[->|(fd' & d & -> & D)]]; [discriminate| |].
      * apply (si_fd s H); auto.
      * intro X; inversion X; subst; auto.
    + apply (si_fd s H); auto.
Qed.

(** ** The locker check of recovery *)
Lemma live_not_dead : forall s priv t fd dev, alive s t = true -> dev_of s t fd = Some dev ->
  probe_dead s priv t fd dev = false.
Proof.
  intros s priv t fd dev A D. unfold probe_dead, dev_of in *. destruct (is_no_fd fd).
  - rewrite A. auto.
  - destruct priv; [|rewrite A; auto]. assert (P : r_palive s (proc_of_thread t) = true).
    { unfold alive in A. apply andb_true_iff in A. tauto. }
    rewrite P, D, Z.eqb_refl. apply andb_false_r.
Qed.

(** what the check does to one locker: nothing, or removal of a locker found dead *)
Lemma check_locker_cases : forall s t priv exc f o k l, SI s -> alive s t = true -> crit (r_pc s t) = true ->
  (forall a f o k l, r_pc s t <> B3 a f o k l) ->
  In f (h_flist (r_h s)) -> In o (offs (r_h s) f) ->
  let h := r_h s in
  let h' := check_locker s priv exc (f_dev (h_f h f)) o k l in
  (h' = h) \/
  (at_ h f o k l /\ probe_dead s priv (l_tid (h_l h l)) (l_fd (h_l h l)) (f_dev (h_f h f)) = true /\
   HI h' /\ ext (just l) h h' /\ h_f h' = h_f h /\ h_flist h' = h_flist h /\
   (forall x, x <> l -> h_st h' x = h_st h x) /\ h_st h' l = LDone /\
   (forall x k', In x UO -> forall y, In y (o_list (h_o h' x) k') <-> In y (o_list (h_o h x) k') /\ y <> l) /\
   h_lfree h' = l :: h_lfree h).
Proof.
  intros s t priv exc f o k l H AL C NB IF IO h h'. unfold h', check_locker. fold h.
  destruct (match exc with Some (t0, fd) => (l_tid (h_l h l) =? t0) && (l_fd (h_l h l) =? fd) | None => false end); auto.
  destruct (probe_dead s priv (l_tid (h_l h l)) (l_fd (h_l h l)) (f_dev (h_f h f))) eqn:PD; simpl; auto.
  destruct (mem l (o_list (h_o h o) k)) eqn:M; simpl; auto.
  apply mem_in in M. right.
  assert (A : at_ h f o k l) by (repeat split; auto).
  assert (Hh := si_h s H). fold h in Hh.
  assert (U : In o UO) by (eapply at_UO; eauto).
  destruct (hi_lk _ _ _ h Hh o k l U M) as (LK & f' & _ & _ & GG).
  assert (NACQ : h_st h l <> LAcq).
  { intro S. destruct (si_acq s H l S) as (u & a & f2 & o2 & Au & Pu).
    pose proof (si_pc s H u Au) as Q. rewrite Pu in Q. simpl in Q. destruct Q as (QA & QD & QL & _ & _).
    destruct (at_unique _ _ _ _ _ _ _ _ _ _ _ Hh QA A) as (EQf & _ & _). rewrite EQf in QD.
    fold h in QL, QD. rewrite QL in PD. simpl in PD. rewrite QD in PD.
    rewrite live_not_dead in PD; auto; [discriminate|].
    eapply (si_fd s H); eauto. rewrite Pu. reflexivity. }
  assert (NREL : h_st h l <> LRel).
  { intro S. destruct (si_rel s H l S) as (u & a & f2 & o2 & k2 & Au & Pu).
    assert (u = t).
    { assert (Cu : crit (r_pc s u) = true) by (rewrite Pu; auto).
      pose proof (si_guard s H u Au Cu). pose proof (si_guard s H t AL C). congruence. }
    subst u. eapply NB; eauto. }
  split; [exact A|]. split; [reflexivity|].
  assert (EQS : forall h2, (forall x k', In x UO -> o_list (h_o h2 x) k' = o_list (h_o h x) k') -> at_ h2 f o k l -> HI h2 ->
     forall x k', In x UO -> forall y, In y (o_list (h_o (set_st (drop_locker h2 o k l) l LDone) x) k') <-> In y (o_list (h_o h x) k') /\ y <> l).
  { intros h2 EL A2 H2 x k' Ux y. simpl. destruct (Z.eq_dec x o) as [->|N].
    - rewrite upd_eq.
      assert (Q : o_list (o_set_list (h_o h2 o) k (del l (o_list (h_o h2 o) k))) k' =
                  if match k, k' with Rd, Rd => true | Wr, Wr => true | _, _ => false end then del l (o_list (h_o h2 o) k')
                  else o_list (h_o h2 o) k') by (destruct k, k'; reflexivity).
      rewrite Q, EL by auto.
      destruct k, k'; try apply in_del; (split; [intro I; split; auto; intros -> | tauto]).
      + assert (A3 : at_ h2 f o Wr l). { destruct A2 as (? & ? & _). repeat split; auto. rewrite EL; auto. }
        destruct (at_unique _ _ _ _ _ _ _ _ _ _ _ H2 A3 A2) as (_ & _ & ?); discriminate.
      + assert (A3 : at_ h2 f o Rd l). { destruct A2 as (? & ? & _). repeat split; auto. rewrite EL; auto. }
        destruct (at_unique _ _ _ _ _ _ _ _ _ _ _ H2 A3 A2) as (_ & _ & ?); discriminate.
    - rewrite upd_neq by auto. rewrite EL by auto. split; [intro I; split; auto; intros -> | tauto].
      apply N. eapply (hi_lk_uniq _ _ _ h Hh x o l); auto; apply lks_in; eauto. }
  destruct (l_locked (h_l h l)) eqn:EL.
  - (* locked: granted *)
    assert (OW : owning h l = true).
    { unfold owning. destruct (h_st h l) eqn:S; simpl in LK; try congruence; auto. }
    destruct (HI_release UF UO UL h f o k l Hh A OW EL) as (H1 & E1 & A1).
    set (h1 := set_o h o (o_set_val (h_o h o) (unlock_word (o_val (h_o h o))))).
    change (HI (set_st h1 l LRel)) in H1. change (ext (just l) h (set_st h1 l LRel)) in E1.
    change (at_ (set_st h1 l LRel) f o k l) in A1.
    assert (OW1 : owning (set_st h1 l LRel) l = false) by (unfold owning; simpl; rewrite upd_eq; auto).
    destruct (HI_drop_locker UF UO UL (set_st h1 l LRel) f o k l LDone H1 A1 OW1) as (H2 & E2 & _ & _); [discriminate|].
    (* the two writes to the ghost state are one *)
    assert (ST : forall x, h_st (set_st (drop_locker h1 o k l) l LDone) x = h_st (set_st (drop_locker (set_st h1 l LRel) o k l) l LDone) x).
    { intro x. simpl. destruct (Z.eq_dec x l) as [->|N]; [rewrite !upd_eq | rewrite !upd_neq]; auto. }
    assert (ELL : forall x k', In x UO -> o_list (h_o (set_st h1 l LRel) x) k' = o_list (h_o h x) k').
    { intros x k' _. unfold h1; simpl. destruct (Z.eq_dec x o) as [->|N]; [rewrite upd_eq; destruct k'; auto | rewrite upd_neq; auto]. }
    pose proof (EQS (set_st h1 l LRel) ELL A1 H1) as EQ2.
    assert (TR : forall h2 h3, h_f h3 = h_f h2 -> h_o h3 = h_o h2 -> h_l h3 = h_l h2 -> h_flist h3 = h_flist h2 ->
       h_ffree h3 = h_ffree h2 -> h_ofree h3 = h_ofree h2 -> h_lfree h3 = h_lfree h2 ->
       (forall x, h_st h3 x = h_st h2 x) -> HI h2 -> HI h3).
    { intros h2 h3 R0 R1 R2 R3 R4 R5 R6 R7 Q. 
      assert (OWE : forall M0, filter (owning h3) M0 = filter (owning h2) M0).
      { intro M0. apply filter_ext. intro x. unfold owning. rewrite R7. auto. }
      constructor; unfold word_ok, lk_ok, offs in *; rewrite ?R0, ?R1, ?R2, ?R3, ?R4, ?R5, ?R6; try apply Q.
      - intros x Ux. rewrite !OWE. apply Q; auto.
      - intros x k' y Ux I. rewrite R7. apply Q; auto.
      - intros y g. rewrite R7. apply Q. }
    split; [|split; [|split; [|split; [|split; [|split; [|split]]]]]].
    + eapply TR; [..|exact H2]; try reflexivity. exact ST.
    + intros x y k' z Az Nz. destruct (ext_trans _ _ _ _ _ E1 E2 x y k' z Az) as (Q1 & Q2 & Q3 & Q4 & Q5 & Q6); [unfold just in *; tauto|].
      split; [exact Q1|]. split; [exact Q2|]. split; [exact Q3|]. split; [exact Q4|]. split; [exact Q5|].
      rewrite ST. exact Q6.
    + reflexivity.
    + reflexivity.
    + intros x N. simpl. rewrite upd_neq; auto.
    + simpl. rewrite upd_eq; auto.
    + exact EQ2.
    + reflexivity.
  - assert (OW : owning h l = false).
    { unfold owning. destruct (h_st h l) eqn:S; simpl in LK |- *; try congruence; auto. }
    destruct (HI_drop_locker UF UO UL h f o k l LDone Hh A OW) as (H2 & E2 & _ & _); [discriminate|].
    split; [|split; [|split; [|split; [|split; [|split; [|split]]]]]]; auto.
    + intros x N. simpl. rewrite upd_neq; auto.
    + simpl. rewrite upd_eq; auto.
    + apply EQS; auto.
Qed.

(** ** Freeing all ranges of an unlocked file *)
Lemma free_offs_view : forall os h, (forall o k, In o os -> o_list (h_o h o) k = []) ->
  let h1 := fold_left (fun h o => let h' := free_lockers h o in set_ofree h' (o :: h_ofree h')) os h in
  (forall x, h_o h1 x = h_o h x) /\ h_f h1 = h_f h /\ h_l h1 = h_l h /\ h_st h1 = h_st h /\ h_flist h1 = h_flist h /\
  h_ffree h1 = h_ffree h /\ h_lfree h1 = h_lfree h /\ h_ofree h1 = rev os ++ h_ofree h.
Proof.
  induction os as [|o os IH]; intros h N h1; [repeat split; auto|].
  set (h2 := let h' := free_lockers h o in set_ofree h' (o :: h_ofree h')).
  assert (E : forall x, h_o h2 x = h_o h x).
  { intro x. unfold h2, free_lockers; simpl. destruct (Z.eq_dec x o) as [->|NE]; [rewrite upd_eq | rewrite upd_neq; auto].
    pose proof (N o Rd (or_introl eq_refl)) as A. pose proof (N o Wr (or_introl eq_refl)) as B. simpl in A, B.
    destruct (h_o h o); simpl in *; subst; auto. }
  assert (LF : h_lfree h2 = h_lfree h).
  { unfold h2, free_lockers; simpl.
    pose proof (N o Rd (or_introl eq_refl)) as A. pose proof (N o Wr (or_introl eq_refl)) as B. simpl in A, B.
    rewrite A, B. reflexivity. }
  destruct (IH h2) as (P0 & P1 & P2 & P3 & P4 & P5 & P6 & P7).
  { intros x k I. rewrite E. apply N. right; auto. }
  change h1 with (fold_left (fun h o => let h' := free_lockers h o in set_ofree h' (o :: h_ofree h')) os h2).
  repeat split.
  - intro x. rewrite P0. apply E.
  - rewrite P1. reflexivity.
  - rewrite P2. reflexivity.
  - rewrite P3. reflexivity.
  - rewrite P4. reflexivity.
  - rewrite P5. reflexivity.
  - rewrite P6. exact LF.
  - rewrite P7. simpl. rewrite <- app_assoc. reflexivity.
Qed.

Lemma HI_free_offs : forall h f, HI h -> In f (h_flist h) -> (forall o k, In o (offs h f) -> o_list (h_o h o) k = []) ->
  let h' := free_offs h f in
  HI h' /\ ext none h h' /\ offs h' f = [] /\ h_flist h' = h_flist h /\ h_st h' = h_st h /\
  h_ofree h' = rev (offs h f) ++ h_ofree h /\ h_lfree h' = h_lfree h /\ (forall x, h_o h' x = h_o h x) /\
  (forall x, x <> f -> h_f h' x = h_f h x).
Proof.
  intros h f H IF NL h'.
  destruct (free_offs_view (offs h f) h NL) as (P0 & P1 & P2 & P3 & P4 & P5 & P6 & P7).
  set (h1 := fold_left (fun h o => let h' := free_lockers h o in set_ofree h' (o :: h_ofree h')) (offs h f) h) in *.
  assert (E : h' = set_f h1 f (f_set_offs (h_f h1 f) [])) by reflexivity.
  assert (IU : In f UF) by (eapply flist_UF; eauto).
  assert (E1 : offs h' f = []) by (rewrite E; unfold offs; simpl; rewrite upd_eq; reflexivity).
  assert (E2 : forall x, x <> f -> h_f h' x = h_f h x) by (intros; rewrite E; simpl; rewrite upd_neq, P1; auto).
  assert (D : forall x, f_dev (h_f h' x) = f_dev (h_f h x)).
  { intro x. rewrite E. simpl. rewrite P1. destruct (Z.eq_dec x f) as [->|N]; [rewrite upd_eq | rewrite upd_neq]; auto. }
  assert (R : (forall x, h_o h' x = h_o h x) /\ h_l h' = h_l h /\ h_st h' = h_st h /\ h_flist h' = h_flist h /\
              h_ffree h' = h_ffree h /\ h_ofree h' = rev (offs h f) ++ h_ofree h /\ h_lfree h' = h_lfree h).
  { rewrite E. repeat split; auto. }
  clearbody h'. clear E h1 P0 P1 P2 P3 P4 P5 P6 P7. destruct R as (R1 & R2 & R3 & R4 & R5 & R6 & R7).
  assert (EI : forall x y, In y (offs h' x) -> x <> f /\ In y (offs h x)).
  { intros x y I. destruct (Z.eq_dec x f) as [->|N]; [rewrite E1 in I; destruct I|].
    unfold offs in *. rewrite E2 in I by auto. auto. }
  assert (NF : forall x o k l, In o (offs h x) -> In l (o_list (h_o h o) k) -> x <> f).
  { intros x o k l I J ->. rewrite NL in J by auto. destruct J. }
  assert (LE : forall o, lks (h_o h' o) = lks (h_o h o)) by (intro; rewrite R1; auto).
  split; [|split; [|repeat split; auto]].
  - constructor; rewrite ?R2, ?R3, ?R4, ?R5, ?R6, ?R7; try apply H.
    + intros x U. destruct (Z.eq_dec x f) as [->|N]; [rewrite E1; constructor|].
      unfold offs. rewrite E2 by auto. apply (hi_offs_nd _ _ _ h H); auto.
    + intros f1 f2 y U1 U2 I1 I2. apply EI in I1 as [_ I1]. apply EI in I2 as [_ I2]. apply (hi_offs_uniq _ _ _ h H f1 f2 y); auto.
    + intros x y U I. apply EI in I as [N I]. destruct (hi_offs_used _ _ _ h H x y U I) as [Q1 Q2]. split; auto.
      intro J. apply in_app_iff in J as [J|J]; auto. apply in_rev in J. apply N.
      apply (hi_offs_uniq _ _ _ h H x f y); auto.
    + destruct (hi_ofree _ _ _ h H) as [Q1 Q2]. split.
      * apply nodup_app_iff. repeat split; auto.
        -- apply NoDup_rev. apply (hi_offs_nd _ _ _ h H); auto.
        -- intros x I J. apply in_rev in I. destruct (hi_offs_used _ _ _ h H f x IU I); auto.
      * intros x I. apply in_app_iff in I as [I|I]; auto. apply in_rev in I.
        destruct (hi_offs_used _ _ _ h H f x IU I); auto.
    + intros o U. rewrite LE. apply (hi_lk_nd _ _ _ h H); auto.
    + intros o1 o2 l. rewrite !LE. apply (hi_lk_uniq _ _ _ h H).
    + intros o l. rewrite !LE. apply (hi_lk_used _ _ _ h H).
    + intros f1 f2. rewrite !D. apply (hi_dev _ _ _ h H).
    + intros o U. unfold word_ok, owning. rewrite R1, R3. apply (hi_word _ _ _ h H); auto.
    + intros o k l U. rewrite R1. intro I. destruct (hi_lk _ _ _ h H o k l U I) as (Q1 & z & Q2 & Q3 & Q4).
      unfold lk_ok. rewrite R1, R2, R3, R4. split; auto. exists z. rewrite D. split; auto. split; auto.
      unfold offs. rewrite E2; auto. eapply NF; eauto.
    + intros l g S. destruct (hi_held _ _ _ h H l g S) as (o & U & I). exists o. rewrite R1. auto.
  - intros x y k l (A & B & C) _. unfold at_. rewrite D, R1, R2, R3, R4. repeat split; auto.
    unfold offs. rewrite E2; auto. eapply NF; eauto.
Qed.

(** ** Steps of one thread *)
Lemma find_file_some : forall h dev f, find_file h dev = Some f -> In f (h_flist h) /\ f_dev (h_f h f) = dev.
Proof. intros h dev f E. apply find_some in E as [A B]. apply Z.eqb_eq in B. auto. Qed.

Lemma find_off_some : forall h f off len o, find_off h f off len = Some o ->
  In o (offs h f) /\ range_match (o_off (h_o h o)) (o_len (h_o h o)) off len = true.
Proof. intros h f off len o E. apply find_some in E as [A B]. auto. Qed.

Lemma find_locker_some : forall h ls t fd b l, find_locker h ls t fd b = Some l ->
  In l ls /\ h_l h l = mkL t fd b.
Proof.
  intros h ls t fd b l E. apply find_some in E as [A B]. split; auto.
  apply andb_true_iff in B as [B C]. apply andb_true_iff in B as [B D].
  apply Z.eqb_eq in B. apply Z.eqb_eq in D. apply eqb_prop in C.
  destruct (h_l h l); simpl in *; congruence.
Qed.

Lemma unlocked_lists : forall h f, file_locked h f = false -> forall o k, In o (offs h f) -> o_list (h_o h o) k = [].
Proof. intros h f E o k I. apply file_unlocked in E as [_ E]. apply off_unlocked_empty; auto. Qed.

Lemma none_ok : forall s t, forall u a f o l v, u <> t -> alive s u = true -> lkf (r_h s) u a f o l v ->
     dev_of s u (a_fd a) = Some (a_dev a) -> ~ none l.
Proof. intros; unfold none; tauto. Qed.

Lemma just_ok : forall s t x, l_tid (h_l (r_h s) x) = t ->
  forall u a f o l v, u <> t -> alive s u = true -> lkf (r_h s) u a f o l v ->
     dev_of s u (a_fd a) = Some (a_dev a) -> ~ just x l.
Proof. intros s t x E u a f o l v N _ (_ & _ & L & _) _ ->. rewrite L in E. simpl in E. auto. Qed.

Lemma SI_none : forall s t h' p', SI s -> alive s t = true -> crit (r_pc s t) = true ->
  HI h' -> ext none (r_h s) h' -> pinv h' t p' -> crit p' = true ->
  (forall x, h_st h' x = h_st (r_h s) x) -> (forall a f o k l, r_pc s t <> B3 a f o k l) ->
  (lock_fd p' = None \/ lock_fd p' = lock_fd (r_pc s t)) -> SI (goto (set_h s h') t p').
Proof.
  intros s t h' p' H AL C HH E P C' ES NB FD. apply (SI_crit s t h' p' none); auto.
  - intros l. rewrite ES. auto.
  - intros l. rewrite ES. auto.
Qed.

Ltac scrit s t Ep := apply SI_none; auto; try (rewrite Ep; auto; fail); try (intros; rewrite Ep; discriminate).
Ltac crit0 s t Ep := apply SI_crit0; auto; try (rewrite Ep; auto; fail); try (intros; rewrite Ep; discriminate).

Lemma pinv_after_f1 : forall s t a f e h, In f UF -> pinv h t (after_f1 s t a f e) /\ droppable (after_f1 s t a f e) /\
  lock_fd (after_f1 s t a f e) = None.
Proof. intros. unfold after_f1. destruct (my_free_off s t); simpl; auto. destruct (my_free_fd s t); simpl; auto. Qed.

Lemma pinv_after_f2 : forall s t a e h, pinv h t (after_f2 s t a e) /\ droppable (after_f2 s t a e) /\
  lock_fd (after_f2 s t a e) = None.
Proof. intros. unfold after_f2. destruct (my_free_fd s t); simpl; auto. Qed.

Lemma SI_check : forall s t priv exc f o k l p', SI s -> alive s t = true -> crit (r_pc s t) = true ->
  (forall a f o k l, r_pc s t <> B3 a f o k l) ->
  In f (h_flist (r_h s)) -> In o (offs (r_h s) f) ->
  crit p' = true -> (lock_fd p' = None \/ lock_fd p' = lock_fd (r_pc s t)) ->
  (forall h', h' = r_h s \/ (h_f h' = h_f (r_h s) /\ h_flist h' = h_flist (r_h s) /\ HI h' /\ 
       exists x, ext (just x) (r_h s) h' /\ probe_dead s priv (l_tid (h_l (r_h s) x)) (l_fd (h_l (r_h s) x)) (f_dev (h_f (r_h s) f)) = true) ->
      pinv (r_h s) t (r_pc s t) -> pinv h' t p') ->
  SI (goto (set_h s (check_locker s priv exc (f_dev (h_f (r_h s) f)) o k l)) t p').
Proof.
  intros s t priv exc f o k l p' H AL C NB IF IO C' FD PI.
  destruct (check_locker_cases s t priv exc f o k l H AL C NB IF IO) as [->|Q].
  - rewrite <- goto_set_h_same. apply SI_crit0; auto. apply PI; auto. apply (si_pc s H); auto.
  - destruct Q as (A & PD & HH & E & EF & EFL & ES & EL & _).
    set (h' := check_locker s priv exc (f_dev (h_f (r_h s) f)) o k l) in *.
    eapply SI_crit with (X := just l); eauto.
    + intros u a f2 o2 x v N Au L D ->. 
      assert (Hh := si_h s H).
      destruct L as (LA & LD & LL & _ & _).
      destruct (at_unique _ _ _ _ _ _ _ _ _ _ _ Hh LA A) as (EQf & _ & _).
      rewrite LL in PD. simpl in PD. rewrite <- EQf, LD in PD.
      rewrite live_not_dead in PD; auto. discriminate.
    + apply PI; [|apply (si_pc s H); auto]. right. split; [exact EF|]. split; [exact EFL|]. split; [exact HH|]. exists l. auto.
    + intros x S. destruct (Z.eq_dec x l) as [->|N]; [congruence | rewrite <- ES; auto].
    + intros x S. left. destruct (Z.eq_dec x l) as [->|N]; [congruence|]. rewrite <- ES; auto.
Qed.

Lemma SI_pass : forall s t priv fs os ls, SI s -> alive s t = true -> r_pc s t = PP priv fs os ls ->
  SI (pass_step s t priv fs os ls).
Proof.
  intros s t priv fs os ls H AL Ep.
  assert (C : crit (r_pc s t) = true) by (rewrite Ep; auto).
  assert (NB : forall a f o k l, r_pc s t <> B3 a f o k l) by (intros; rewrite Ep; discriminate).
  assert (LF : lock_fd (r_pc s t) = None) by (rewrite Ep; auto).
  pose proof (si_pc s H t AL) as P. rewrite Ep in P. simpl in P. destruct P as (N1 & I1 & P).
  assert (Hh := si_h s H).
  unfold pass_step. destruct fs as [|f fs].
  - apply SI_crit0; simpl; auto.
  - assert (IF : In f (h_flist (r_h s))) by (apply I1; left; auto).
    inversion N1; subst.
    destruct os as [[|o os]|].
    + destruct (file_locked (r_h s) f) eqn:FL.
      * apply SI_crit0; simpl; auto. split; auto. split; [|destruct fs; auto]. intros x J. apply I1; right; auto.
      * destruct (HI_drop_file UF UO UL UF_nd (r_h s) f Hh IF (unlocked_lists _ _ FL)) as [HH E].
        scrit s t Ep.
        simpl. split; auto. split; [|destruct fs; auto].
        intros x J. apply in_del. split; [apply I1; right; auto|]. intros ->; auto.
    + destruct P as [N2 I2]. inversion N2; subst.
      assert (IO : In o (offs (r_h s) f)) by (apply I2; left; auto).
      destruct ls as [[|[k l] ls]|].
      * destruct (off_locked (r_h s) o) eqn:OL.
        -- apply SI_crit0; simpl; auto. repeat split; auto. intros x J. apply I2; right; auto.
        -- destruct (HI_drop_off UF UO UL (r_h s) f o Hh (flist_UF _ _ _ _ _ Hh IF) IO (off_unlocked_empty _ _ OL)) as (HH & E & EO).
           scrit s t Ep.
           simpl. repeat split; auto.
           intros x J. apply EO; [eapply flist_UF; eauto|]. split; [apply I2; right; auto|]. intros ->; auto.
      * apply SI_check; auto. intros h' EQ _. simpl.
        destruct EQ as [->|(E1 & E2 & _)]; [repeat split; auto|].
        rewrite E2. unfold offs. rewrite E1. repeat split; auto.
      * apply SI_crit0; simpl; auto.
    + apply SI_crit0; simpl; auto. repeat split; auto. 2: apply incl_refl.
      apply (hi_offs_nd _ _ _ _ Hh). eapply flist_UF; eauto.
Qed.

Lemma SI_run : forall s t race gu, SI s -> alive s t = true -> SI (r_run s t race gu).
Proof.
  intros s t race gu H AL. unfold r_run.
  pose proof (si_pc s H t AL) as P. assert (Hh := si_h s H).
  pose proof (si_guard s H t AL) as G.
  destruct (r_pc s t) as [ |p|p|e|a|a f|a f o|a f o l|a f o l|a f o l|a f o l ls|a f o e|a f e|a e|a|a f o k l|a f o k l|a f o|a f|a|priv|priv fs os ls] eqn:Ep; simpl in P.
  - auto.
  - (* RWait *)
    assert (Q : (forall u, alive s u = true -> u <> t -> crit (r_pc s u) = true -> False) ->
                SI (goto (set_guard s (Some t)) t p)).
    { intro NG. apply (SI_move s t (Some t) p); simpl; auto; try (intros; rewrite Ep; discriminate); try tauto.
      - rewrite Ep. auto.
      - intros u Au N Cu. exfalso. eauto. }
    destruct (r_guard s) as [u|] eqn:EG.
    + destruct (alive s u) eqn:Au; auto. apply Q. intros v Av N Cv.
      pose proof (si_guard s H v Av Cv). congruence.
    + apply Q. intros v Av N Cv. pose proof (si_guard s H v Av Cv). congruence.
  - (* RDrop *)
    destruct P as [P D].
    apply (SI_move s t None p); simpl; auto; try (intros; rewrite Ep; discriminate).
    + rewrite Ep. auto.
    + intros u Au N Cu. exfalso. apply N. pose proof (si_guard s H u Au Cu). rewrite (G eq_refl) in H0. congruence.
    + destruct p; simpl in D; try contradiction; simpl; discriminate.
  - (* RRet *)
    apply (SI_move s t (r_guard s) RIdle); simpl; auto; try (intros; rewrite Ep; discriminate); try discriminate.
    intros u Au N Cu. apply (si_guard s H); auto.
  - (* A2 *)
    destruct (find_file (r_h s) (a_dev a)) as [f|] eqn:EF.
    + apply find_file_some in EF as [IF DF].
      destruct (HI_fprot UF UO UL (r_h s) f true Hh) as (HH & E & EO & ED).
      scrit s t Ep.
      simpl. split; auto. rewrite upd_eq. simpl. auto.
    + destruct (h_ffree (r_h s)) as [|f ff] eqn:EFF.
      * crit0 s t Ep; simpl; auto.
      * destruct (HI_alloc_file UF UO UL UF_nd (r_h s) (a_dev a) f ff Hh EFF) as (HH & E & IF & ED & EO).
        { intros x I E. eapply find_none in EF; [|exact I]. simpl in EF. apply Z.eqb_neq in EF. auto. }
        scrit s t Ep.
        simpl. split; [left; auto|]. rewrite upd_eq. auto.
  - (* A3 *)
    destruct P as [IF DF].
    destruct (find_off (r_h s) f (a_off a) (a_len a)) as [o|] eqn:EO.
    + apply find_off_some in EO as [IO RM].
      destruct (HI_oprot UF UO UL (r_h s) o true Hh) as (HH1 & E1 & _).
      set (h1 := set_o (r_h s) o (o_set_prot (h_o (r_h s) o) true)) in *.
      destruct (HI_fprot UF UO UL h1 f false HH1) as (HH & E & EO & ED).
      scrit s t Ep.
      * eapply ext_weaken; [|eapply ext_trans; eauto]. unfold none; tauto.
      * simpl. unfold offs; simpl. rewrite !upd_eq. simpl. auto.
    + destruct (h_ofree (r_h s)) as [|o rest] eqn:EFO.
      * destruct (pinv_after_f2 s t a ENOLCK (r_h s)) as (Q1 & Q2 & Q3). crit0 s t Ep; simpl; auto.
      * destruct (HI_alloc_off UF UO UL (r_h s) f o rest (a_off a) (a_len a) false Hh EFO IF) as (HH & E & E1 & E2).
        scrit s t Ep.
        simpl. unfold offs; simpl. rewrite !upd_eq. simpl. repeat split; auto.
        unfold range_match, compare_range. rewrite Z.ltb_irrefl. auto.
  - (* A4 *)
    destruct P as (IF & IO & DF & RM).
    assert (IU : In f UF) by (eapply flist_UF; eauto).
    destruct (h_lfree (r_h s)) as [|l rest] eqn:EFL.
    + destruct (pinv_after_f1 s t a f ENOLCK (r_h s) IU) as (Q1 & Q2 & Q3). crit0 s t Ep; simpl; auto.
    + destruct (HI_alloc_locker UF UO UL (r_h s) f o (a_kind a) l rest t (a_fd a) false Hh EFL IF IO) as (HH & E & A & EL & ES).
      set (h' := set_o (set_o (set_st (set_lfree (set_l (r_h s) l (mkL t (a_fd a) false)) rest) l LWait) o _) o _) in *.
      assert (R : h_f h' = h_f (r_h s) /\ o_off (h_o h' o) = o_off (h_o (r_h s) o) /\ o_len (h_o h' o) = o_len (h_o (r_h s) o)).
      { unfold h'; simpl. rewrite !upd_eq. destruct (a_kind a); auto. }
      assert (EST : forall x, x <> l -> h_st h' x = h_st (r_h s) x) by (intros; unfold h'; simpl; apply upd_neq; auto).
      clearbody h'. destruct R as (R1 & R2 & R3).
      apply (SI_crit s t h' (RDrop (AT a f o l)) none); auto; try (rewrite Ep; auto; fail).
      * simpl. split; auto. unfold lkf. rewrite R1, R2, R3. auto.
      * intros x S. destruct (Z.eq_dec x l) as [->|N]; [congruence | rewrite <- EST; auto].
      * intros x S. left. destruct (Z.eq_dec x l) as [->|N]; [congruence|]. rewrite <- EST by auto.
        split; auto. intros; rewrite Ep; discriminate.
  - (* AT *)
    set (raced := match a_kind a with Rd => race | Wr => false end).
    destruct (word_permits (a_kind a) (o_val (h_o (r_h s) o)) && negb raced) eqn:W.
    + apply andb_true_iff in W as [W _].
      destruct P as (A & DF & EL & RM & ES).
      destruct (HI_acquire UF UO UL (r_h s) f o (a_kind a) l Hh A ES W) as (HH & E & A').
      set (h' := set_st (set_o (r_h s) o (o_set_val (h_o (r_h s) o) (lock_word (a_kind a) (o_val (h_o (r_h s) o))))) l LAcq) in *.
      assert (SB : same_but l (r_h s) h').
      { unfold same_but, h'; simpl. repeat split; auto.
        - intros x k'. destruct (Z.eq_dec x o) as [->|N]; [rewrite upd_eq; destruct k'; auto | rewrite upd_neq; auto].
        - destruct (Z.eq_dec x o) as [->|N]; [rewrite upd_eq; auto | rewrite upd_neq; auto].
        - destruct (Z.eq_dec x o) as [->|N]; [rewrite upd_eq; auto | rewrite upd_neq; auto].
        - intros. rewrite upd_neq; auto. }
      assert (EST : h_st h' l = LAcq) by (unfold h'; simpl; apply upd_eq).
      assert (EL' : h_l h' = h_l (r_h s)) by reflexivity.
      clearbody h'.
      constructor; simpl; auto.
      * intros u Au. change (alive s u = true) in Au.
        destruct (Z.eq_dec u t) as [->|N]; [rewrite upd_eq | rewrite upd_neq by auto].
        -- simpl. unfold lkf. destruct SB as (B1 & B2 & B3 & B4 & B5 & B6). rewrite B1, EL', EST.
           destruct (B4 o) as (-> & ->). auto.
        -- eapply pinv_same; eauto. apply (si_pc s H); auto. rewrite EL. simpl. auto.
      * intros u Au. change (alive s u = true) in Au.
        destruct (Z.eq_dec u t) as [->|N]; [rewrite upd_eq; discriminate | rewrite upd_neq by auto]. apply (si_guard s H); auto.
      * intros x S. destruct (Z.eq_dec x l) as [->|N].
        -- exists t, a, f, o. split; auto. apply upd_eq.
        -- destruct SB as (_ & _ & _ & _ & _ & B6). rewrite B6 in S by auto.
           destruct (si_acq s H x S) as (u & a' & f' & o' & Au & Pu). exists u, a', f', o'. split; auto.
           rewrite upd_neq; auto. intros ->. congruence.
      * intros x S. assert (x <> l) by congruence. destruct SB as (_ & _ & _ & _ & _ & B6). rewrite B6 in S by auto.
        destruct (si_rel s H x S) as (u & a' & f' & o' & k' & Au & Pu). exists u, a', f', o', k'. split; auto.
        rewrite upd_neq; auto. intros ->. congruence.
      * intros u fd dev Au. change (alive s u = true) in Au. change (lock_fd (upd (r_pc s) t (AS a f o l) u) = Some (fd, dev) -> dev_of s u fd = Some dev).
        destruct (Z.eq_dec u t) as [->|N]; [rewrite upd_eq | rewrite upd_neq by auto].
        -- intro X. apply (si_fd s H); auto. rewrite Ep. exact X.
        -- apply (si_fd s H); auto.
    + assert (Q : forall p', (p' = F1 a f o EBUSY \/ p' = F1 a f o ETIMEDOUT \/ p' = AD0 a f o l) -> SI (goto s t (RWait p'))).
      { intros p' Q. apply (SI_move s t (r_guard s) (RWait p')); auto; try (intros; rewrite Ep; discriminate).
        - destruct Q as [->|[->| ->]]; simpl; eauto.
        - right; left. rewrite Ep. destruct Q as [->|[->| ->]]; reflexivity.
        - intros u Au N Cu. apply (si_guard s H); auto.
      }
      destruct (a_wait a); auto; destruct gu; auto.
  - (* AS *)
    destruct P as (A & DF & EL & RM & ES).
    set (g := mkG t (a_fd a) (a_dev a) (a_off a) (a_len a) (a_kind a)).
    destruct (HI_set_lock UF UO UL (r_h s) f o (a_kind a) l g Hh A ES) as (HH & E); auto; try (rewrite EL; auto; fail).
    set (h' := set_st (set_l (r_h s) l (l_set_locked (h_l (r_h s) l) true)) l (LHeld g)) in *.
    assert (SB : same_but l (r_h s) h').
    { unfold same_but, h'; simpl. repeat split; auto; intros; apply upd_neq; auto. }
    assert (EST : h_st h' l = LHeld g) by (unfold h'; simpl; apply upd_eq).
    clearbody h'. assert (SB' := SB). destruct SB as (_ & _ & _ & _ & B5 & B6).
    constructor; simpl; auto.
    + intros u Au. change (alive s u = true) in Au.
      destruct (Z.eq_dec u t) as [->|N]; [rewrite upd_eq; simpl; auto | rewrite upd_neq by auto].
      apply (pinv_same l (r_h s)); auto. apply (si_pc s H); auto. rewrite EL. simpl. auto.
    + intros u Au. change (alive s u = true) in Au.
      destruct (Z.eq_dec u t) as [->|N]; [rewrite upd_eq; discriminate | rewrite upd_neq by auto]. apply (si_guard s H); auto.
    + intros x S. assert (x <> l) by congruence. rewrite B6 in S by auto.
      destruct (si_acq s H x S) as (u & a' & f' & o' & Au & Pu). exists u, a', f', o'. split; auto.
      rewrite upd_neq; auto. intros ->. congruence.
    + intros x S. assert (x <> l) by congruence. rewrite B6 in S by auto.
      destruct (si_rel s H x S) as (u & a' & f' & o' & k' & Au & Pu). exists u, a', f', o', k'. split; auto.
      rewrite upd_neq; auto. intros ->. congruence.
    + intros u fd dev Au. change (alive s u = true) in Au. change (lock_fd (upd (r_pc s) t RIdle u) = Some (fd, dev) -> dev_of s u fd = Some dev).
      destruct (Z.eq_dec u t) as [->|N]; [rewrite upd_eq; discriminate | rewrite upd_neq by auto]. apply (si_fd s H); auto.
  - (* AD0 *)
    destruct (HI_oprot UF UO UL (r_h s) o true Hh) as (HH1 & E1 & _).
    scrit s t Ep.
    simpl. eapply lkf_ext; eauto.
  - (* AD *)
    destruct ls as [|[k x] ls].
    + destruct (HI_oprot UF UO UL (r_h s) o false Hh) as (HH1 & E1 & _).
      scrit s t Ep.
      simpl. split; auto. eapply lkf_ext; eauto.
    + assert (PP := P). destruct P as (A & DF & EL & RM & ES). rewrite <- DF. apply SI_check; auto; try (rewrite Ep; auto; fail).
      * intros; rewrite Ep; discriminate.
      * apply A.
      * apply A.
      * intros h' EQ _. simpl. destruct EQ as [->|(E1 & E2 & HH & y & E & PD)]; auto.
        eapply lkf_ext; eauto. intros ->. rewrite EL in PD. simpl in PD.
        rewrite live_not_dead in PD; auto; [discriminate|]. rewrite DF. eapply (si_fd s H); auto. rewrite Ep. reflexivity.
  - (* F1 *)
    destruct P as [l0 P].
    destruct (find_locker (r_h s) (o_list (h_o (r_h s) o) (a_kind a)) t (a_fd a) false) as [l|] eqn:EF.
    + apply find_locker_some in EF as [I EL].
      assert (A : at_ (r_h s) f o (a_kind a) l) by (destruct P as ((? & ? & _) & _); repeat split; auto).
      assert (U : In o UO) by (eapply at_UO; eauto).
      assert (OW : owning (r_h s) l = false).
      { destruct (hi_lk _ _ _ _ Hh o (a_kind a) l U I) as (LK & _). rewrite EL in LK. simpl in LK.
        unfold owning. destruct (h_st (r_h s) l) eqn:S; auto; try discriminate.
        destruct (si_acq s H l S) as (u & a' & f' & o' & Au & Pu).
        pose proof (si_pc s H u Au) as Q. rewrite Pu in Q. destruct Q as (_ & _ & Q & _). rewrite EL in Q. inversion Q; subst. congruence. }
      destruct (HI_drop_locker UF UO UL (r_h s) f o (a_kind a) l LDone Hh A OW) as (HH & E & EO & EFL); [discriminate|].
      assert (IU : In f UF) by (eapply flist_UF; eauto; apply A).
      destruct (pinv_after_f1 s t a f e (set_st (drop_locker (r_h s) o (a_kind a) l) l LDone) IU) as (Q1 & Q2 & Q3).
      eapply SI_crit with (X := just l); eauto; try (rewrite Ep; auto; fail); try (simpl; auto; fail).
      * apply just_ok. rewrite EL. auto.
      * simpl. intros x. destruct (Z.eq_dec x l) as [->|N]; [rewrite upd_eq; discriminate | rewrite upd_neq; auto].
      * simpl. intros x S. left. split; [|intros; rewrite Ep; discriminate]. revert S.
        destruct (Z.eq_dec x l) as [->|N]; [rewrite upd_eq; discriminate | rewrite upd_neq; auto].
    + assert (IU : In f UF) by (eapply flist_UF; eauto; apply P).
      destruct (pinv_after_f1 s t a f e (r_h s) IU) as (Q1 & Q2 & Q3). crit0 s t Ep; simpl; auto.
  - (* F2 *)
    destruct (find_off (r_h s) f (a_off a) (a_len a)) as [o|] eqn:EO.
    + apply find_off_some in EO as [IO RM].
      destruct (off_locked (r_h s) o) eqn:OL.
      * destruct (pinv_after_f2 s t a e (r_h s)) as (Q1 & Q2 & Q3). crit0 s t Ep; simpl; auto.
      * destruct (HI_drop_off UF UO UL (r_h s) f o Hh P IO (off_unlocked_empty _ _ OL)) as (HH & E & EOO).
        destruct (pinv_after_f2 s t a e (drop_off (r_h s) f o)) as (Q1 & Q2 & Q3).
        scrit s t Ep; simpl; auto.
    + destruct (pinv_after_f2 s t a e (r_h s)) as (Q1 & Q2 & Q3). crit0 s t Ep; simpl; auto.
  - (* F3 *)
    destruct (find_file (r_h s) (a_dev a)) as [f|] eqn:EF.
    + apply find_file_some in EF as [IF DF].
      destruct (file_locked (r_h s) f) eqn:FL.
      * crit0 s t Ep; simpl; auto.
      * destruct (HI_free_offs (r_h s) f Hh IF (unlocked_lists _ _ FL)) as (HH & E & EO & EFL & ES & EOF & ELF & EOO & EFF).
        destruct (HI_drop_file UF UO UL UF_nd (free_offs (r_h s) f) f HH) as (HH2 & E2).
        { rewrite EFL; auto. }
        { rewrite EO. intros ? ? []. }
        scrit s t Ep; try (simpl; auto; fail).
        -- eapply ext_weaken; [|eapply ext_trans; eauto]. unfold none; tauto.
        -- intros x. change (h_st (free_offs (r_h s) f) x = h_st (r_h s) x). rewrite ES. auto.
    + crit0 s t Ep; simpl; auto.
  - (* B2 *)
    destruct (find_file (r_h s) (a_dev a)) as [f|] eqn:EF; [|crit0 s t Ep; simpl; auto].
    apply find_file_some in EF as [IF DF].
    destruct (find_off (r_h s) f (a_off a) (a_len a)) as [o|] eqn:EO; [|crit0 s t Ep; simpl; auto].
    apply find_off_some in EO as [IO RM].
    assert (Q : forall k l, In l (o_list (h_o (r_h s) o) k) -> h_l (r_h s) l = mkL t (a_fd a) true ->
       SI (goto (set_h s (set_st (set_o (r_h s) o (o_set_val (h_o (r_h s) o) (unlock_word (o_val (h_o (r_h s) o))))) l LRel)) t (B3 a f o k l))).
    { intros k l I EL.
      assert (A : at_ (r_h s) f o k l) by (repeat split; auto).
      assert (U : In o UO) by (eapply at_UO; eauto).
      assert (OW : owning (r_h s) l = true).
      { destruct (hi_lk _ _ _ _ Hh o k l U I) as (LK & _). rewrite EL in LK. simpl in LK.
        unfold owning. destruct (h_st (r_h s) l) eqn:S; auto; try discriminate.
        destruct (si_rel s H l S) as (u & a' & f' & o' & k' & Au & Pu).
        pose proof (si_pc s H u Au) as Q. rewrite Pu in Q. destruct Q as (_ & Q & _). rewrite EL in Q. inversion Q; subst. congruence. }
      destruct (HI_release UF UO UL (r_h s) f o k l Hh A OW) as (HH & E & A'); [rewrite EL; auto|].
      eapply SI_crit with (X := just l); eauto; try (rewrite Ep; auto; fail); try (simpl; auto; fail).
      - apply just_ok. rewrite EL. auto.
      - simpl. split; auto. rewrite upd_eq. auto.
      - simpl. intros x. destruct (Z.eq_dec x l) as [->|N]; [rewrite upd_eq; discriminate | rewrite upd_neq; auto].
      - simpl. intros x S. destruct (Z.eq_dec x l) as [->|N]; [right; eauto|]. left. rewrite upd_neq in S by auto.
        split; auto. intros; rewrite Ep; discriminate. }
    destruct (find_locker (r_h s) (o_wr (h_o (r_h s) o)) t (a_fd a) true) as [l|] eqn:EL.
    + apply find_locker_some in EL as [I EL]. apply (Q Wr l I EL).
    + destruct (find_locker (r_h s) (o_rd (h_o (r_h s) o)) t (a_fd a) true) as [l|] eqn:EL2.
      * apply find_locker_some in EL2 as [I EL2]. apply (Q Rd l I EL2).
      * crit0 s t Ep; simpl; auto.
  - (* B3 *)
    destruct P as (A & EL & ES).
    destruct (HI_set_unlock UF UO UL (r_h s) f o k l Hh A ES) as (HH & E).
    eapply SI_crit with (X := just l); eauto; try (rewrite Ep; auto; fail); try (simpl; auto; fail).
    + apply just_ok. rewrite EL. auto.
    + simpl. split; [exact A|]. rewrite !upd_eq, EL. auto.
    + simpl. intros x. destruct (Z.eq_dec x l) as [->|N]; [rewrite upd_eq; discriminate | rewrite upd_neq; auto].
    + simpl. intros x S. destruct (Z.eq_dec x l) as [->|N]; [rewrite upd_eq in S; discriminate|]. left. rewrite upd_neq in S by auto.
      split; auto. intros; rewrite Ep. intro X; inversion X; congruence.
  - (* B4 *)
    destruct P as (A & EL & ES).
    assert (OW : owning (r_h s) l = false) by (unfold owning; rewrite ES; auto).
    destruct (HI_drop_locker UF UO UL (r_h s) f o k l LDone Hh A OW) as (HH & E & EO & EFL); [discriminate|].
    assert (ST : forall x, upd (h_st (r_h s)) l LDone x = h_st (r_h s) x).
    { intro x. destruct (Z.eq_dec x l) as [->|N]; [rewrite upd_eq | rewrite upd_neq]; auto. }
    assert (TR : HI (drop_locker (r_h s) o k l)).
    { set (h2 := set_st (drop_locker (r_h s) o k l) l LDone) in *. set (h3 := drop_locker (r_h s) o k l).
      assert (R7 : forall x, h_st h3 x = h_st h2 x) by (intro x; unfold h2; simpl; rewrite ST; auto).
      assert (OWE : forall M0, filter (owning h3) M0 = filter (owning h2) M0).
      { intro M0. apply filter_ext. intro x. unfold owning. rewrite R7. auto. }
      destruct HH as [X1 X2 X3 X4 X5 X6 X7 X8 X9 X10 X11 X12 X13].
      constructor; auto.
      - intros x Ux. unfold word_ok. rewrite !OWE. apply X11; auto.
      - intros x k' y Ux I. destruct (X12 x k' y Ux I) as (Y1 & z & Y2). unfold lk_ok. rewrite R7. split; auto. exists z. auto.
      - intros y g. rewrite R7. apply X13. }
    eapply SI_crit with (X := just l); eauto; try (rewrite Ep; auto; fail); try (simpl; auto; fail).
    + intros x y k' z Az Nz. destruct (E x y k' z Az Nz) as (Q1 & Q2 & Q3 & Q4 & Q5 & Q6). repeat split; auto; apply Q1.
    + apply just_ok. rewrite EL. auto.
    + simpl. split; [apply A|]. exact (proj1 (proj2 A)).
    + simpl. intros x S. left. split; auto. intros; rewrite Ep; discriminate.
  - (* B5 *)
    destruct P as (IF & IO).
    destruct (my_free_off s t && negb (off_locked (r_h s) o)) eqn:C.
    + apply andb_true_iff in C as [_ C]. apply negb_true_iff in C.
      destruct (HI_drop_off UF UO UL (r_h s) f o Hh (flist_UF _ _ _ _ _ Hh IF) IO (off_unlocked_empty _ _ C)) as (HH & E & EOO).
      scrit s t Ep; simpl; auto.
    + crit0 s t Ep.
  - (* B6 *)
    destruct (my_free_fd s t && negb (file_locked (r_h s) f)) eqn:C.
    + apply andb_true_iff in C as [_ C]. apply negb_true_iff in C.
      destruct (HI_drop_file UF UO UL UF_nd (r_h s) f Hh P (unlocked_lists _ _ C)) as (HH & E).
      scrit s t Ep; simpl; auto.
    + crit0 s t Ep; simpl; auto.
  - (* Q2 *)
    destruct (find_file (r_h s) (a_dev a)) as [f|] eqn:EF; crit0 s t Ep; simpl; auto.
  - (* P0 *)
    crit0 s t Ep. simpl. split; [|split; [apply incl_refl | destruct (h_flist (r_h s)); auto]].
    pose proof (files_nd UF UO UL UF_nd (r_h s) Hh) as ND. apply nodup_app_iff in ND. apply ND.
  - (* PP *)
    apply SI_pass; auto.
Qed.

Lemma SI_step : forall s x, SI s -> careful s x -> SI (r_step s x).
Proof.
  intros s x H CF. destruct x as [t c|t race gu|p fd d|p m|t|p]; simpl.
  - destruct (alive s t) eqn:AL; auto. destruct (r_pc s t) eqn:Ep; auto.
    assert (Q : forall p', pinv (r_h s) t p' -> crit p' = false ->
      (lock_fd p' = None \/ exists fd d, lock_fd p' = Some (fd, d) /\ dev_of s t fd = Some d) -> forall res,
      SI (mkR (r_h s) (r_guard s) (upd (r_pc s) t p') res (r_talive s) (r_palive s) (r_fd s) (r_mode s) (r_allow s))).
    { intros p' P C FD res. apply (SI_move s t (r_guard s) p'); auto; try (intros; rewrite Ep; discriminate).
      - tauto.
      - intros u Au N Cu. apply (si_guard s H); auto.
      - congruence. }
    unfold r_call. destruct c.
    + destruct (dev_of s t fd) as [d|] eqn:D; apply Q; simpl; auto. right. exists fd, d. auto.
    + destruct (dev_of s t fd) as [d|] eqn:D; apply Q; simpl; auto.
    + destruct (dev_of s t fd) as [d|] eqn:D; apply Q; simpl; auto.
    + apply Q; simpl; auto.
  - destruct (alive s t) eqn:AL; auto. apply SI_run; auto.
  - (* descriptor table *)
    simpl in CF. destruct H. constructor; simpl; auto.
    intros t fd' dev Au L. change (alive s t = true) in Au.
    pose proof (si_fd0 t fd' dev Au L) as D. unfold dev_of in *; simpl. destruct (is_no_fd fd'); auto.
    destruct (Z.eqb_spec (proc_of_thread t) p); simpl; auto.
    destruct (Z.eqb_spec fd' fd); auto. subst. exfalso. eapply CF; eauto.
  - destruct H. constructor; simpl; auto.
  - (* thread death *)
    simpl in CF. 
    set (s' := mkR (r_h s) (r_guard s) (r_pc s) (r_res s) (upd (r_talive s) t false) (r_palive s) (r_fd s) (r_mode s) (r_allow s)).
    assert (AL : forall u, alive s' u = true -> alive s u = true /\ u <> t).
    { intros u A. unfold alive in *; simpl in A. apply andb_true_iff in A as [A1 A2].
      destruct (Z.eq_dec u t) as [->|N]; [rewrite upd_eq in A2; discriminate|]. rewrite upd_neq in A2 by auto.
      rewrite A1, A2. auto. }
    assert (AL2 : forall u, alive s u = true -> u <> t -> alive s' u = true).
    { intros u A N. unfold alive in *; simpl. rewrite upd_neq by auto. auto. }
    constructor; simpl; try apply H.
    + intros u A. apply (si_pc s H). apply AL; auto.
    + intros u A. apply (si_guard s H). apply AL; auto.
    + intros l S. destruct (si_acq s H l S) as (u & a & f & o & Au & Pu). exists u, a, f, o. split; auto.
      apply AL2; auto. intros ->. apply CF. rewrite Pu. simpl. auto.
    + intros l S. destruct (si_rel s H l S) as (u & a & f & o & k & Au & Pu). exists u, a, f, o, k. split; auto.
      apply AL2; auto. intros ->. apply CF. rewrite Pu. simpl. auto.
    + intros u fd dev A. apply (si_fd s H). apply AL; auto.
  - simpl in CF.
    set (s' := mkR (r_h s) (r_guard s) (r_pc s) (r_res s) (r_talive s) (upd (r_palive s) p false) (r_fd s) (r_mode s) (r_allow s)).
    assert (AL : forall u, alive s' u = true -> alive s u = true /\ proc_of_thread u <> p).
    { intros u A. unfold alive in *; simpl in A. apply andb_true_iff in A as [A1 A2].
      destruct (Z.eq_dec (proc_of_thread u) p) as [E|N]; [rewrite E, upd_eq in A1; discriminate|]. rewrite upd_neq in A1 by auto.
      rewrite A1, A2. auto. }
    assert (AL2 : forall u, alive s u = true -> proc_of_thread u <> p -> alive s' u = true).
    { intros u A N. unfold alive in *; simpl. rewrite upd_neq by auto. auto. }
    constructor; simpl; try apply H.
    + intros u A. apply (si_pc s H). apply AL; auto.
    + intros u A. apply (si_guard s H). apply AL; auto.
    + intros l S. destruct (si_acq s H l S) as (u & a & f & o & Au & Pu). exists u, a, f, o. split; auto.
      apply AL2; auto. intro E. eapply CF; eauto. rewrite Pu. simpl. auto.
    + intros l S. destruct (si_rel s H l S) as (u & a & f & o & k & Au & Pu). exists u, a, f, o, k. split; auto.
      apply AL2; auto. intro E. eapply CF; eauto. rewrite Pu. simpl. auto.
    + intros u fd dev A. apply (si_fd s H). apply AL; auto.
Qed.

Lemma HI_init : HI (heap_init UF UO UL).
Proof.
  constructor; unfold offs; simpl; auto; try tauto; try (intros; contradiction).
  - intros; constructor.
  - split; auto. apply incl_refl.
  - intros; constructor.
  - split; auto. apply incl_refl.
  - intros o U. left. auto.
  - intros o [|] l U []. 
  - discriminate.
Qed.

Lemma SI_init : forall fds mode allow, SI (r_init UF UO UL fds mode allow).
Proof.
  intros. constructor; simpl; auto; try discriminate. apply HI_init.
Qed.

Theorem SI_reach : forall fds mode allow (ok : rstate -> rlabel -> Prop) s, (forall s x, ok s x -> careful s x) ->
  r_reach (r_init UF UO UL fds mode allow) ok s -> SI s.
Proof. intros fds mode allow ok s OK R. induction R; [apply SI_init | apply SI_step; auto]. Qed.

End Global.
