(** The read/write lock API machine when the ranges used on a file are equal or disjoint. *)
From Coq Require Import ZArith List Bool Lia Permutation.
From Verif Require Import Base Range_Model Range_Props RwWord_Model RwApi_Model RwApi_Spec RwApi_Proofs RwApi_Proofs2 RwApi_Proofs3.
Import ListNotations.
Open Scope Z_scope.

(** ** Steps that add no file or range entry *)
Definition shr (h h' : heap) : Prop :=
  forall f, In f (h_flist h') -> In f (h_flist h) /\ f_dev (h_f h' f) = f_dev (h_f h f) /\
    forall o, In o (offs h' f) -> In o (offs h f) /\ o_off (h_o h' o) = o_off (h_o h o) /\ o_len (h_o h' o) = o_len (h_o h o).

Lemma shr_refl : forall h, shr h h.
Proof. intros h f I. auto. Qed.
Lemma shr_trans : forall h1 h2 h3, shr h1 h2 -> shr h2 h3 -> shr h1 h3.
Proof.
  intros h1 h2 h3 A B f I. destruct (B f I) as (I2 & D2 & O2). destruct (A f I2) as (I1 & D1 & O1).
  split; auto. split; [congruence|]. intros o J. destruct (O2 o J) as (J2 & P2 & Q2). destruct (O1 o J2) as (J1 & P1 & Q1).
  repeat split; congruence.
Qed.
Lemma shr_set_o : forall h o r, o_off r = o_off (h_o h o) -> o_len r = o_len (h_o h o) -> shr h (set_o h o r).
Proof.
  intros h o r A B f I. simpl in *. split; auto. split; auto. intros x J. split; auto.
  destruct (Z.eq_dec x o) as [->|N]; [rewrite upd_eq | rewrite upd_neq]; auto.
Qed.
Lemma shr_set_f : forall h f r, f_dev r = f_dev (h_f h f) -> incl (f_offs r) (offs h f) -> shr h (set_f h f r).
Proof.
  intros h f r A B x I. simpl in *. unfold offs in *; simpl. split; auto.
  destruct (Z.eq_dec x f) as [->|N]; [rewrite upd_eq | rewrite upd_neq by auto]; auto.
Qed.
Lemma shr_files : forall h fl ff, incl fl (h_flist h) -> shr h (set_files h fl ff).
Proof. intros h fl ff A x I. simpl in *. split; auto. Qed.
Lemma shr_same : forall h h', h_flist h' = h_flist h -> (forall f, h_f h' f = h_f h f) -> (forall o, h_o h' o = h_o h o) -> shr h h'.
Proof. intros h h' A B C f I. unfold offs. rewrite A in I. rewrite !B. split; auto. split; auto. intros. rewrite C. auto. Qed.

Lemma shr_val : forall h h' o r, h_flist h' = h_flist h -> h_f h' = h_f h -> h_o h' = upd (h_o h) o r ->
  o_off r = o_off (h_o h o) -> o_len r = o_len (h_o h o) -> shr h h'.
Proof.
  intros h h' o r A B C D E f I. unfold offs. rewrite A in I. rewrite B. split; auto. split; auto. intros x J. split; auto.
  rewrite C. destruct (Z.eq_dec x o) as [->|N]; [rewrite upd_eq | rewrite upd_neq]; auto.
Qed.

Lemma o_list_off : forall r k x, o_off (o_set_list r k x) = o_off r /\ o_len (o_set_list r k x) = o_len r.
Proof. intros r [|] x; auto. Qed.

Lemma incl_del : forall x l, incl (del x l) l.
Proof. intros x l y I. apply in_del in I. tauto. Qed.

Lemma shr_drop_locker : forall h o k l, shr h (drop_locker h o k l).
Proof.
  intros. unfold drop_locker. eapply shr_trans; [apply shr_set_o | apply shr_same; reflexivity]; apply o_list_off.
Qed.
Lemma shr_drop_off : forall h f o, shr h (drop_off h f o).
Proof. intros. unfold drop_off. eapply shr_trans; [apply shr_set_f | apply shr_same; reflexivity]; auto. apply incl_del. Qed.
Lemma shr_drop_file : forall h f, shr h (drop_file h f).
Proof. intros. apply shr_files. apply incl_del. Qed.

Lemma shr_check : forall s priv exc dev o k l, shr (r_h s) (check_locker s priv exc dev o k l).
Proof.
  intros. unfold check_locker.
  destruct (match exc with Some (t, fd) => _ | None => false end); [apply shr_refl|].
  destruct (probe_dead _ _ _ _ _ && _); [|apply shr_refl].
  eapply shr_trans; [|apply shr_same; reflexivity].
  eapply shr_trans; [|apply shr_drop_locker].
  destruct (l_locked _); [apply shr_set_o; reflexivity | apply shr_refl].
Qed.

Section Family.
Variables UF UO UL : list Z.
Hypothesis UF_nd : NoDup UF.
Hypothesis UO_nd : NoDup UO.
Hypothesis UL_nd : NoDup UL.
Notation HI := (HI UF UO UL).
Notation SI := (SI UF UO UL).

Inductive seffect (s : rstate) (t : Z) (s' : rstate) : Prop :=
| se_shr : shr (r_h s) (r_h s') -> seffect s t s'
| se_file : forall a f ff, r_pc s t = A2 a -> h_ffree (r_h s) = f :: ff -> find_file (r_h s) (a_dev a) = None ->
    r_h s' = set_files (set_f (r_h s) f (mkF (a_dev a) true [])) (f :: h_flist (r_h s)) ff -> seffect s t s'
| se_off : forall a f o rest, r_pc s t = A3 a f -> h_ofree (r_h s) = o :: rest ->
    find_off (r_h s) f (a_off a) (a_len a) = None ->
    In f (h_flist (r_h s)) -> f_dev (h_f (r_h s) f) = a_dev a ->
    r_h s' = (let h := r_h s in
              let h1 := set_ofree (set_o h o (mkO (a_off a) (a_len a) RW_UNLOCK true [] [])) rest in
              let h2 := set_f h1 f (f_set_offs (h_f h1 f) (o :: f_offs (h_f h1 f))) in
              set_f h2 f (f_set_prot (h_f h2 f) false)) -> seffect s t s'.

Lemma run_shr : forall s t race gu, SI s -> alive s t = true -> seffect s t (r_run s t race gu).
Proof.
  intros s t race gu H AL. assert (Hh := si_h _ _ _ s H). pose proof (si_pc _ _ _ s H t AL) as P.
  unfold r_run.
  destruct (r_pc s t) as [ |p|p|e|a|a f|a f o|a f o l|a f o l|a f o l|a f o l ls|a f o e|a f e|a e|a|a f o k l|a f o k l|a f o|a f|a|priv|priv fs os ls] eqn:Ep; simpl in P.
  - apply se_shr, shr_refl.
  - apply se_shr. destruct (r_guard s); [destruct (alive s z)|]; apply shr_refl.
  - apply se_shr, shr_refl.
  - apply se_shr, shr_refl.
  - destruct (find_file (r_h s) (a_dev a)) as [f|] eqn:EF.
    + apply se_shr. apply shr_set_f; auto. apply incl_refl.
    + destruct (h_ffree (r_h s)) as [|f ff] eqn:EFF; [apply se_shr, shr_refl|].
      eapply se_file; eauto.
  - destruct P as [IF DF]. destruct (find_off (r_h s) f (a_off a) (a_len a)) as [o|] eqn:EO.
    + apply se_shr. eapply shr_trans; [apply (shr_set_o (r_h s) o) | apply shr_set_f]; auto. apply incl_refl.
    + destruct (h_ofree (r_h s)) as [|o rest] eqn:EFO; [apply se_shr, shr_refl|].
      eapply se_off; eauto.
  - apply se_shr. destruct (h_lfree (r_h s)) as [|l rest]; [apply shr_refl|].
    eapply shr_trans; [|apply shr_set_o; reflexivity].
    eapply shr_trans; [|apply shr_set_o; apply o_list_off]. apply shr_same; reflexivity.
  - apply se_shr. destruct (word_permits _ _ && _).
    + eapply shr_val; reflexivity.
    + destruct (a_wait a); try destruct gu; apply shr_refl.
  - apply se_shr. apply shr_same; reflexivity.
  - apply se_shr. apply shr_set_o; reflexivity.
  - apply se_shr. destruct ls as [|[k x] ls]; [apply shr_set_o; reflexivity | apply shr_check].
  - apply se_shr. destruct (find_locker _ _ _ _ _); [|apply shr_refl].
    eapply shr_trans; [apply shr_drop_locker | apply shr_same; reflexivity].
  - apply se_shr. destruct (find_off _ _ _ _); [|apply shr_refl]. destruct (off_locked _ _); [apply shr_refl | apply shr_drop_off].
  - apply se_shr. destruct (find_file (r_h s) (a_dev a)) as [f|] eqn:EF; [|apply shr_refl].
    apply find_file_some in EF as [IF DF].
    destruct (file_locked (r_h s) f) eqn:FL; [apply shr_refl|].
    destruct (HI_free_offs UF UO UL (r_h s) f Hh IF (unlocked_lists _ _ FL)) as (_ & _ & EO & EFL & ES & _ & _ & EOO & EFF).
    intros x I. change (In x (del f (h_flist (free_offs (r_h s) f)))) in I. apply in_del in I as [I N]. rewrite EFL in I.
    change (In x (h_flist (r_h s)) /\ f_dev (h_f (free_offs (r_h s) f) x) = f_dev (h_f (r_h s) x) /\
      (forall o, In o (offs (free_offs (r_h s) f) x) -> In o (offs (r_h s) x) /\ o_off (h_o (free_offs (r_h s) f) o) = o_off (h_o (r_h s) o) /\ o_len (h_o (free_offs (r_h s) f) o) = o_len (h_o (r_h s) o))).
    split; auto. unfold offs. rewrite EFF by auto. split; auto. intros o J. rewrite EOO. auto.
  - apply se_shr.
    repeat match goal with |- context [match ?x with _ => _ end] => destruct x end; try apply shr_refl;
      (eapply shr_val; reflexivity).
  - apply se_shr. apply shr_same; reflexivity.
  - apply se_shr. apply shr_drop_locker.
  - apply se_shr. destruct (my_free_off s t && _); [apply shr_drop_off | apply shr_refl].
  - apply se_shr. destruct (my_free_fd s t && _); [apply shr_drop_file | apply shr_refl].
  - apply se_shr. destruct (find_file _ _); apply shr_refl.
  - apply se_shr, shr_refl.
  - apply se_shr. unfold pass_step.
    repeat match goal with |- context [match ?x with _ => _ end] => destruct x end; try apply shr_refl.
    + apply shr_drop_file.
    + apply shr_drop_off.
    + apply shr_check.
Qed.

Lemma step_shr : forall s x, SI s -> shr (r_h s) (r_h (r_step s x)) \/
  (exists t race gu, x = LRun t race gu /\ alive s t = true /\ seffect s t (r_step s x)).
Proof.
  intros s x H. destruct x; simpl; try (left; apply shr_refl).
  - left. destruct (alive s t); [|apply shr_refl]. destruct (r_pc s t); try apply shr_refl. rewrite call_heap. apply shr_refl.
  - destruct (alive s t) eqn:AL; [|left; apply shr_refl]. right. exists t, race, give_up. repeat split; auto. apply run_shr; auto.
Qed.

(** ** Arguments of running lock calls *)
Fixpoint pc_args (p : rpc) : option rargs :=
  match p with
  | RWait q => pc_args q
  | RDrop q => pc_args q
  | A2 a | A3 a _ | A4 a _ _ | AT a _ _ _ | AS a _ _ _ | AD0 a _ _ _ | AD a _ _ _ _ | F1 a _ _ _ | F2 a _ _ | F3 a _ => Some a
  | _ => None
  end.

Lemma run_args : forall s t race gu a, pc_args (r_pc (r_run s t race gu) t) = Some a -> pc_args (r_pc s t) = Some a.
Proof.
  intros s t race gu a. unfold r_run.
  destruct (r_pc s t) eqn:Ep; unfold after_f1, after_f2, pass_step;
  repeat match goal with |- context [match ?x with _ => _ end] => destruct x end; simpl; rewrite ?upd_eq, ?Ep; simpl; auto; try discriminate.
Qed.

Variable fam : Z -> Z -> Z -> Prop.
Hypothesis EOD : equal_or_disjoint fam.

Lemma fam_match : forall d o1 l1 o2 l2, fam d o1 l1 -> fam d o2 l2 ->
  (range_match o1 l1 o2 l2 = true <-> o1 = o2 /\ l1 = l2).
Proof.
  intros d o1 l1 o2 l2 F1 F2. destruct EOD as [PR DJ].
  destruct (PR _ _ _ F1) as (A1 & B1 & C1). destruct (PR _ _ _ F2) as (A2 & B2 & C2).
  rewrite (C16_match_iff_intersect o1 l1 o2 l2) by (unfold api_range, no_wrap in *; lia).
  destruct (DJ _ _ _ _ _ F1 F2) as [[-> ->]|N].
  - split; auto. intros _. exists o2. unfold in_range. lia.
  - split.
    + intros (x & I1 & I2). exfalso. apply (N x); auto.
    + intros [-> ->]. exfalso. apply (N o2); unfold byte_in; lia.
Qed.

Record DI (s : rstate) : Prop := {
  di_pc : forall t a, pc_args (r_pc s t) = Some a -> fam (a_dev a) (a_off a) (a_len a);
  di_off : forall f o, In f (h_flist (r_h s)) -> In o (offs (r_h s) f) ->
             fam (f_dev (h_f (r_h s) f)) (o_off (h_o (r_h s) o)) (o_len (h_o (r_h s) o));
  di_sep : forall f o1 o2, In f (h_flist (r_h s)) -> In o1 (offs (r_h s) f) -> In o2 (offs (r_h s) f) ->
             o_off (h_o (r_h s) o1) = o_off (h_o (r_h s) o2) -> o_len (h_o (r_h s) o1) = o_len (h_o (r_h s) o2) -> o1 = o2;
  di_g : forall l g, holds s l g -> fam (gr_dev g) (gr_off g) (gr_len g)
}.

Lemma DI_step : forall s x, SI s -> DI s -> in_family fam s x -> DI (r_step s x).
Proof.
  intros s x H D FM.
  assert (PC : forall t a, pc_args (r_pc (r_step s x) t) = Some a -> fam (a_dev a) (a_off a) (a_len a)).
  { intros t a E. destruct x; simpl in *; try (eapply (di_pc s D); eauto; fail).
    - destruct (alive s t0); [|eapply (di_pc s D); eauto].
      destruct (Z.eq_dec t t0) as [->|N].
      + destruct (r_pc s t0) eqn:Ep; [|exact (di_pc s D t0 a E)..].
        unfold r_call in E. destruct c; try destruct (dev_of s t0 fd) eqn:DV; simpl in E; rewrite upd_eq in E; simpl in E; try discriminate.
        inversion E; subst; simpl. auto.
      + destruct (r_pc s t0); try (eapply (di_pc s D); eauto; fail).
        destruct (call_other s t0 c t N) as [EQ _]. rewrite EQ in E. eapply (di_pc s D); eauto.
    - destruct (alive s t0); [|eapply (di_pc s D); eauto].
      destruct (Z.eq_dec t t0) as [->|N].
      + apply run_args in E. eapply (di_pc s D); eauto.
      + destruct (run_other s t0 race give_up t N) as [EQ _]. rewrite EQ in E. eapply (di_pc s D); eauto. }
  assert (G : forall l g, holds (r_step s x) l g -> fam (gr_dev g) (gr_off g) (gr_len g)).
  { intros l g HL. destruct (step_holds UF UO UL s x H) as [Q|(t & race & gu & -> & AL & E)].
    - apply Q in HL. eapply (di_g s D); eauto.
    - destruct E as [Q|a f o l0 Ep S _ _ Q|a f o l0 g0 _ _ _ _ _ _ _ _ _ Q|l0 g0 priv _ _ _ _ Q]; apply Q in HL.
      + eapply (di_g s D); eauto.
      + destruct HL as [HL|[_ ->]]; [eapply (di_g s D); eauto|]. simpl. apply (di_pc s D t). rewrite Ep. auto.
      + destruct HL. eapply (di_g s D); eauto.
      + destruct HL. eapply (di_g s D); eauto. }
  assert (SH : shr (r_h s) (r_h (r_step s x)) -> DI (r_step s x)).
  { intro SH. constructor; auto.
    - intros f o I J. destruct (SH f I) as (I' & -> & O). destruct (O o J) as (J' & -> & ->). apply (di_off s D); auto.
    - intros f o1 o2 I J1 J2. destruct (SH f I) as (I' & _ & O). destruct (O o1 J1) as (J1' & -> & ->). destruct (O o2 J2) as (J2' & -> & ->).
      apply (di_sep s D f); auto. }
  destruct (step_shr s x H) as [Q|(t & race & gu & -> & AL & E)]; auto.
  assert (Hh := si_h _ _ _ s H).
  destruct E as [Q|a f ff Ep EFF EF EH|a f o rest Ep EFO EO IF DF EH]; auto.
  - assert (NF : ~ In f (h_flist (r_h s))).
    { intro I. apply (flist_not_free UF UO UL UF_nd (r_h s) f Hh I). rewrite EFF; left; auto. }
    constructor; auto; rewrite EH; simpl; unfold offs; simpl.
    + intros x o [<-|I]; [rewrite upd_eq; intros [] | rewrite upd_neq by congruence]. apply (di_off s D x o I).
    + intros x o1 o2 [<-|I]; [rewrite upd_eq; intros [] | rewrite upd_neq by congruence]. apply (di_sep s D x o1 o2 I).
  - assert (UFf : In f UF) by (eapply flist_UF; eauto).
    assert (NO : forall x, In x (h_flist (r_h s)) -> ~ In o (offs (r_h s) x)).
    { intros x I J. destruct (hi_offs_used _ _ _ _ Hh x o (flist_UF _ _ _ _ _ Hh I) J) as [_ Q]. apply Q. rewrite EFO. left; auto. }
    assert (FA : fam (a_dev a) (a_off a) (a_len a)) by (apply (di_pc s D t); rewrite Ep; auto).
    set (h' := r_h (r_step s (LRun t race gu))) in *.
    assert (E1 : offs h' f = o :: offs (r_h s) f) by (rewrite EH; unfold offs; simpl; rewrite !upd_eq; reflexivity).
    assert (E2 : forall x, x <> f -> offs h' x = offs (r_h s) x) by (intros; rewrite EH; unfold offs; simpl; rewrite !upd_neq by auto; reflexivity).
    assert (E3 : forall x, f_dev (h_f h' x) = f_dev (h_f (r_h s) x)).
    { intro x. rewrite EH. simpl. destruct (Z.eq_dec x f) as [->|N]; [rewrite !upd_eq | rewrite !upd_neq by auto]; reflexivity. }
    assert (E4 : h_o h' o = mkO (a_off a) (a_len a) RW_UNLOCK true [] []) by (rewrite EH; simpl; apply upd_eq).
    assert (E5 : forall x, x <> o -> h_o h' x = h_o (r_h s) x) by (intros; rewrite EH; simpl; apply upd_neq; auto).
    assert (E6 : h_flist h' = h_flist (r_h s)) by (rewrite EH; reflexivity).
    assert (EI : forall x y, In x (h_flist (r_h s)) -> In y (offs h' x) -> (y <> o /\ In y (offs (r_h s) x)) \/ (x = f /\ y = o)).
    { intros x y I J. destruct (Z.eq_dec x f) as [->|N].
      - rewrite E1 in J. destruct J as [<-|J]; auto. left. split; auto. intros ->. eapply NO; eauto.
      - rewrite E2 in J by auto. left. split; auto. intros ->. eapply NO; eauto. }
    assert (NM : forall y, In y (offs (r_h s) f) -> o_off (h_o (r_h s) y) = a_off a -> o_len (h_o (r_h s) y) = a_len a -> False).
    { intros y J P Q. eapply find_none in EO; [|exact J]. simpl in EO. rewrite P, Q in EO.
      rewrite (C16_match_reflexive (a_off a) (a_len a)) in EO. discriminate. }
    clear EH. constructor; auto; fold h'; rewrite ?E6.
    + intros x y I J. rewrite E3. destruct (EI x y I J) as [[N J']|[-> ->]].
      * rewrite E5 by auto. apply (di_off s D); auto.
      * rewrite E4, DF. exact FA.
    + intros x y1 y2 I J1 J2. destruct (EI x y1 I J1) as [[N1 J1']|[EX1 ->]], (EI x y2 I J2) as [[N2 J2']|[EX2 ->]].
      * rewrite !E5 by auto. apply (di_sep s D x); auto.
      * subst x. rewrite E4, E5 by auto. simpl. intros P Q. exfalso. eauto.
      * subst x. rewrite E4, E5 by auto. simpl. intros P Q. exfalso. eauto.
      * auto.
Qed.

Lemma DI_init : forall fds mode allow, DI (r_init UF UO UL fds mode allow).
Proof. intros. constructor; simpl; try discriminate; try contradiction. Qed.

Lemma DI_reach : forall fds mode allow (ok : rstate -> rlabel -> Prop) s, (forall s x, ok s x -> careful s x /\ in_family fam s x) ->
  r_reach (r_init UF UO UL fds mode allow) ok s -> SI s /\ DI s.
Proof.
  intros fds mode allow ok s OK R. induction R as [|s x R [IH1 IH2] O].
  - split; [apply SI_init; auto | apply DI_init].
  - destruct (OK s x O). split; [apply SI_step; auto | apply DI_step; auto].
Qed.

(** ** Exclusion *)
Lemma held_equal_range : forall s l g f o, SI s -> DI s -> holds s l g -> at_ (r_h s) f o (gr_kind g) l ->
  f_dev (h_f (r_h s) f) = gr_dev g /\ o_off (h_o (r_h s) o) = gr_off g /\ o_len (h_o (r_h s) o) = gr_len g.
Proof.
  intros s l g f o H D HL A. assert (Hh := si_h _ _ _ s H).
  destruct (held_at UF UO UL _ _ _ Hh HL) as (f' & o' & A' & _ & DV & R).
  destruct (at_unique _ _ _ _ _ _ _ _ _ _ _ Hh A A') as (-> & -> & _). split; auto.
  apply (fam_match (gr_dev g)) in R; auto.
  - rewrite <- DV. apply (di_off s D); apply A'.
  - eapply (di_g s D); eauto.
Qed.

Lemma same_entry : forall s l1 g1 l2 g2 f1 o1 f2 o2, SI s -> DI s -> holds s l1 g1 -> holds s l2 g2 ->
  at_ (r_h s) f1 o1 (gr_kind g1) l1 -> at_ (r_h s) f2 o2 (gr_kind g2) l2 ->
  gr_dev g1 = gr_dev g2 -> gr_off g1 = gr_off g2 -> gr_len g1 = gr_len g2 -> f1 = f2 /\ o1 = o2.
Proof.
  intros s l1 g1 l2 g2 f1 o1 f2 o2 H D H1 H2 A1 A2 E1 E2 E3. assert (Hh := si_h _ _ _ s H).
  destruct (held_equal_range s l1 g1 f1 o1 H D H1 A1) as (P1 & Q1 & R1).
  destruct (held_equal_range s l2 g2 f2 o2 H D H2 A2) as (P2 & Q2 & R2).
  assert (f1 = f2) by (apply (hi_dev _ _ _ _ Hh); [apply A1 | apply A2 | congruence]). subst.
  split; auto. apply (di_sep s D f2); try congruence; [apply A1 | apply A1 | apply A2].
Qed.

Lemma word_excl : forall h o l1 k1 l2, HI h -> In o UO -> In l1 (o_list (h_o h o) k1) -> In l2 (o_list (h_o h o) Wr) ->
  owning h l1 = true -> owning h l2 = true -> l1 = l2.
Proof.
  intros h o l1 k1 l2 H U I1 I2 O1 O2.
  destruct (hi_word _ _ _ h H o U) as [[_ E]|(_ & E1 & E2)].
  - exfalso. assert (J : In l2 (filter (owning h) (o_wr (h_o h o)))) by (apply filter_In; auto). rewrite E in J. destruct J.
  - destruct k1.
    + exfalso. assert (J : In l1 (filter (owning h) (o_rd (h_o h o)))) by (apply filter_In; auto). rewrite E1 in J. destruct J.
    + assert (J1 : In l1 (filter (owning h) (o_wr (h_o h o)))) by (apply filter_In; auto).
      assert (J2 : In l2 (filter (owning h) (o_wr (h_o h o)))) by (apply filter_In; auto).
      destruct (filter (owning h) (o_wr (h_o h o))) as [|x [|y r]]; simpl in E2; try discriminate.
      destruct J1 as [<-|[]], J2 as [<-|[]]. auto.
Qed.

Lemma exclusion : forall s l1 g1 l2 g2, SI s -> DI s -> holds s l1 g1 -> holds s l2 g2 -> l1 <> l2 -> ~ conflict g1 g2.
Proof.
  intros s l1 g1 l2 g2 H D H1 H2 N (ED & (x & B1 & B2) & W). assert (Hh := si_h _ _ _ s H).
  destruct (held_at UF UO UL _ _ _ Hh H1) as (f1 & o1 & A1 & _).
  destruct (held_at UF UO UL _ _ _ Hh H2) as (f2 & o2 & A2 & _).
  destruct EOD as [_ DJ]. pose proof (di_g s D l1 g1 H1) as F1. pose proof (di_g s D l2 g2 H2) as F2. rewrite ED in F1.
  destruct (DJ _ _ _ _ _ F1 F2) as [[E1 E2]|NI]; [|eapply NI; eauto].
  destruct (same_entry s l1 g1 l2 g2 f1 o1 f2 o2 H D H1 H2 A1 A2 ED E1 E2) as [-> ->].
  assert (U : In o2 UO) by (eapply at_UO; eauto).
  assert (O1 : owning (r_h s) l1 = true) by (unfold owning; rewrite H1; auto).
  assert (O2 : owning (r_h s) l2 = true) by (unfold owning; rewrite H2; auto).
  destruct W as [W|W].
  - apply N. symmetry. apply (word_excl (r_h s) o2 l2 (gr_kind g2) l1); auto; [apply A2 | rewrite <- W; apply A1].
  - apply N. apply (word_excl (r_h s) o2 l1 (gr_kind g1) l2); auto; [apply A1 | rewrite <- W; apply A2].
Qed.

End Family.
