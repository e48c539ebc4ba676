(** Invariants of the read/write lock API machine, part 1: the shared structure. *)
From Coq Require Import ZArith List Bool Lia Permutation.
From Verif Require Import Base Range_Model RwWord_Model RwApi_Model.
Import ListNotations.
Open Scope Z_scope.

(** ** Lists *)
Lemma in_del : forall x y l, In y (del x l) <-> In y l /\ y <> x.
Proof.
  intros. unfold del. rewrite filter_In.
  split; intros [A B]; split; auto.
  - apply negb_true_iff in B. apply Z.eqb_neq in B. auto.
  - apply negb_true_iff. apply Z.eqb_neq. auto.
Qed.

Lemma nodup_del : forall x l, NoDup l -> NoDup (del x l).
Proof. intros. unfold del. now apply NoDup_filter. Qed.

Lemma del_notin : forall x l, ~ In x l -> del x l = l.
Proof.
  induction l; simpl; intros; auto. unfold del in *; simpl.
  destruct (Z.eqb_spec a x).
  - exfalso; apply H; auto.
  - simpl. f_equal. apply IHl. intro; apply H; auto.
Qed.

Lemma perm_del : forall x l, NoDup l -> In x l -> Permutation (x :: del x l) l.
Proof.
  induction l; intros ND I; [destruct I|]. inversion ND; subst.
  unfold del; simpl. destruct (Z.eqb_spec a x).
  - subst. simpl. fold (del x l). rewrite del_notin; auto.
  - simpl. fold (del x l). rewrite perm_swap. constructor. apply IHl; auto.
    destruct I; [congruence | auto].
Qed.

Lemma mem_in : forall x l, mem x l = true <-> In x l.
Proof.
  intros. unfold mem. rewrite existsb_exists. split.
  - intros (y & A & B). apply Z.eqb_eq in B. now subst.
  - intro. exists x. now rewrite Z.eqb_refl.
Qed.

Lemma nodup_app_iff : forall (A : Type) (l1 l2 : list A),
  NoDup (l1 ++ l2) <-> NoDup l1 /\ NoDup l2 /\ (forall x, In x l1 -> In x l2 -> False).
Proof.
  induction l1; simpl; intros.
  - split; [intro; repeat split; auto using NoDup_nil | tauto].
  - split.
    + intro H. inversion H; subst. apply IHl1 in H3 as (P & Q & R). repeat split; auto.
      * constructor; auto. intro. apply H2. apply in_app_iff; auto.
      * intros x [->|I] J; [apply H2; apply in_app_iff; auto | eauto].
    + intros (P & Q & R). inversion P; subst. constructor.
      * intro I. apply in_app_iff in I as [I|I]; [auto | eapply R; eauto].
      * apply IHl1. repeat split; auto. intros; eapply R; eauto.
Qed.

Lemma filter_del : forall p x l, filter p (del x l) = del x (filter p l).
Proof.
  intros. unfold del. induction l; simpl; auto.
  destruct (p a) eqn:E; destruct (negb (a =? x)) eqn:F; simpl; rewrite ?E, ?F; simpl; rewrite IHl; auto.
Qed.

Lemma del_length : forall x l, NoDup l -> In x l -> length l = S (length (del x l)).
Proof. intros. apply (perm_del x l H) in H0. apply Permutation_length in H0. simpl in H0. lia. Qed.

Lemma del_filter_notin : forall p x l, p x = false -> filter p (del x l) = filter p l.
Proof. intros. rewrite filter_del. apply del_notin. rewrite filter_In. intros [_ B]. congruence. Qed.

(** ** Vocabulary *)
Definition lks (r : orec) : list Z := o_rd r ++ o_wr r.
Definition offs (h : heap) (f : Z) : list Z := f_offs (h_f h f).

Lemma lks_in : forall r l, In l (lks r) <-> exists k, In l (o_list r k).
Proof.
  intros. unfold lks. rewrite in_app_iff. split.
  - intros [H|H]; [exists Rd | exists Wr]; auto.
  - intros [[|] H]; auto.
Qed.

(** does a locker in this state account for the lock word *)
Definition st_own (x : lstat) : bool := match x with LAcq | LHeld _ => true | _ => false end.
Definition st_locked (x : lstat) : bool := match x with LHeld _ | LRel => true | _ => false end.
Definition owning (h : heap) (l : Z) : bool := st_own (h_st h l).

Definition word_ok (h : heap) (o : Z) : Prop :=
  let r := h_o h o in
  (o_val r = Z.of_nat (length (filter (owning h) (o_rd r))) /\ filter (owning h) (o_wr r) = []) \/
  (o_val r = -1 /\ filter (owning h) (o_rd r) = [] /\ length (filter (owning h) (o_wr r)) = 1%nat).

Definition lk_ok (h : heap) (o : Z) (k : rwmode) (l : Z) : Prop :=
  l_locked (h_l h l) = st_locked (h_st h l) /\
  exists f, In f (h_flist h) /\ In o (offs h f) /\
    (forall g, h_st h l = LHeld g ->
       gr_kind g = k /\ l_tid (h_l h l) = gr_t g /\ l_fd (h_l h l) = gr_fd g /\ f_dev (h_f h f) = gr_dev g /\
       range_match (o_off (h_o h o)) (o_len (h_o h o)) (gr_off g) (gr_len g) = true).

Section Structure.
Variables UF UO UL : list Z.
Hypothesis UF_nd : NoDup UF.
Hypothesis UO_nd : NoDup UO.
Hypothesis UL_nd : NoDup UL.

Record HI (h : heap) : Prop := {
  hi_files : Permutation (h_flist h ++ h_ffree h) UF;
  hi_offs_nd : forall f, In f UF -> NoDup (offs h f);
  hi_offs_uniq : forall f1 f2 o, In f1 UF -> In f2 UF -> In o (offs h f1) -> In o (offs h f2) -> f1 = f2;
  hi_offs_used : forall f o, In f UF -> In o (offs h f) -> In o UO /\ ~ In o (h_ofree h);
  hi_ofree : NoDup (h_ofree h) /\ incl (h_ofree h) UO;
  hi_lk_nd : forall o, In o UO -> NoDup (lks (h_o h o));
  hi_lk_uniq : forall o1 o2 l, In o1 UO -> In o2 UO -> In l (lks (h_o h o1)) -> In l (lks (h_o h o2)) -> o1 = o2;
  hi_lk_used : forall o l, In o UO -> In l (lks (h_o h o)) -> In l UL /\ ~ In l (h_lfree h);
  hi_lfree : NoDup (h_lfree h) /\ incl (h_lfree h) UL;
  hi_dev : forall f1 f2, In f1 (h_flist h) -> In f2 (h_flist h) -> f_dev (h_f h f1) = f_dev (h_f h f2) -> f1 = f2;
  hi_word : forall o, In o UO -> word_ok h o;
  hi_lk : forall o k l, In o UO -> In l (o_list (h_o h o) k) -> lk_ok h o k l;
  hi_held : forall l g, h_st h l = LHeld g -> exists o, In o UO /\ In l (o_list (h_o h o) (gr_kind g))
}.

(** a locker [l] of kind [k] sits in range entry [o] of listed file [f] *)
Definition at_ (h : heap) (f o : Z) (k : rwmode) (l : Z) : Prop :=
  In f (h_flist h) /\ In o (offs h f) /\ In l (o_list (h_o h o) k).

(** everything that concerns a locker outside [X] is kept *)
Definition ext (X : Z -> Prop) (h h' : heap) : Prop :=
  forall f o k l, at_ h f o k l -> ~ X l ->
    at_ h' f o k l /\ f_dev (h_f h' f) = f_dev (h_f h f) /\
    o_off (h_o h' o) = o_off (h_o h o) /\ o_len (h_o h' o) = o_len (h_o h o) /\
    h_l h' l = h_l h l /\ h_st h' l = h_st h l.

Lemma ext_refl : forall X h, ext X h h.
Proof. unfold ext; intros; repeat split; auto; apply H. Qed.

Lemma ext_trans : forall X Y h1 h2 h3, ext X h1 h2 -> ext Y h2 h3 -> ext (fun l => X l \/ Y l) h1 h3.
Proof.
  unfold ext; intros X Y h1 h2 h3 E1 E2 f o k l A N.
  destruct (E1 f o k l A) as (A2 & D2 & O2 & L2 & R2 & S2); [tauto|].
  destruct (E2 f o k l A2) as (A3 & D3 & O3 & L3 & R3 & S3); [tauto|].
  split; auto. repeat split; congruence.
Qed.

Lemma ext_weaken : forall (X Y : Z -> Prop) h h', (forall l, X l -> Y l) -> ext X h h' -> ext Y h h'.
Proof. unfold ext; intros X Y h h' S E f o k l A N. apply E; auto. Qed.

Definition none : Z -> Prop := fun _ => False.
Definition just (x : Z) : Z -> Prop := fun l => l = x.

Lemma flist_UF : forall h f, HI h -> In f (h_flist h) -> In f UF.
Proof. intros h f H I. eapply Permutation_in; [apply (hi_files h H)|]. apply in_app_iff; auto. Qed.

Lemma ffree_UF : forall h f, HI h -> In f (h_ffree h) -> In f UF.
Proof. intros h f H I. eapply Permutation_in; [apply (hi_files h H)|]. apply in_app_iff; auto. Qed.

Lemma files_nd : forall h, HI h -> NoDup (h_flist h ++ h_ffree h).
Proof. intros h H. eapply Permutation_NoDup; [symmetry; apply (hi_files h H) | exact UF_nd]. Qed.

Lemma flist_not_free : forall h f, HI h -> In f (h_flist h) -> In f (h_ffree h) -> False.
Proof. intros h f H I J. apply files_nd in H. apply nodup_app_iff in H as (_ & _ & R). eauto. Qed.

Lemma at_UO : forall h f o k l, HI h -> at_ h f o k l -> In o UO.
Proof.
  intros h f o k l H (A & B & C).
  destruct (hi_offs_used h H f o (flist_UF h f H A) B); auto.
Qed.

Lemma lk_at : forall h o k l, HI h -> In o UO -> In l (o_list (h_o h o) k) -> exists f, at_ h f o k l.
Proof.
  intros h o k l H U I. destruct (hi_lk h H o k l U I) as (_ & f & A & B & _). exists f. repeat split; auto.
Qed.

(** an entry in the pool of range entries has no lockers *)
Lemma ofree_no_lockers : forall h o k l, HI h -> In o (h_ofree h) -> In l (o_list (h_o h o) k) -> False.
Proof.
  intros h o k l H F I.
  assert (U : In o UO) by (apply (proj2 (hi_ofree h H)); auto).
  destruct (lk_at h o k l H U I) as (f & A & B & C).
  apply (hi_offs_used h H f o (flist_UF h f H A) B); auto.
Qed.

(** positions are unique *)
Lemma at_unique : forall h f1 o1 k1 f2 o2 k2 l, HI h -> at_ h f1 o1 k1 l -> at_ h f2 o2 k2 l ->
  f1 = f2 /\ o1 = o2 /\ k1 = k2.
Proof.
  intros h f1 o1 k1 f2 o2 k2 l H A1 A2.
  assert (U1 := at_UO _ _ _ _ _ H A1). assert (U2 := at_UO _ _ _ _ _ H A2).
  destruct A1 as (P1 & Q1 & R1), A2 as (P2 & Q2 & R2).
  assert (E : o1 = o2).
  { apply (hi_lk_uniq h H o1 o2 l); auto; apply lks_in; eauto. }
  subst. split; [|split; auto].
  - apply (hi_offs_uniq h H f1 f2 o2); eauto using flist_UF.
  - pose proof (hi_lk_nd h H o2 U1) as ND. unfold lks in ND. apply nodup_app_iff in ND as (_ & _ & D).
    destruct k1, k2; auto; exfalso; simpl in *; eauto.
Qed.

(** ** Operations that only change flags of file entries *)
Lemma HI_fprot : forall h f b, HI h ->
  let h' := set_f h f (f_set_prot (h_f h f) b) in
  HI h' /\ ext none h h' /\ (forall x, offs h' x = offs h x) /\ (forall x, f_dev (h_f h' x) = f_dev (h_f h x)).
Proof.
  intros h f b H h'.
  assert (E : forall x, offs h' x = offs h x).
  { intro x. unfold offs, h', set_f; simpl. destruct (upd_cases _ (h_f h) f (f_set_prot (h_f h f) b) x) as [[-> ->]|[_ ->]]; auto. }
  assert (D : forall x, f_dev (h_f h' x) = f_dev (h_f h x)).
  { intro x. unfold h', set_f; simpl. destruct (upd_cases _ (h_f h) f (f_set_prot (h_f h f) b) x) as [[-> ->]|[_ ->]]; auto. }
  assert (R : h_o h' = h_o h /\ h_l h' = h_l h /\ h_st h' = h_st h /\ h_flist h' = h_flist h /\
              h_ffree h' = h_ffree h /\ h_ofree h' = h_ofree h /\ h_lfree h' = h_lfree h) by (repeat split; reflexivity).
  clearbody h'. destruct R as (R1 & R2 & R3 & R4 & R5 & R6 & R7).
  split; [|split; [|auto]].
  - destruct H. constructor; intros; unfold word_ok, lk_ok, owning in *; rewrite ?R1, ?R2, ?R3, ?R4, ?R5, ?R6, ?R7, ?E, ?D in *; eauto.
    destruct (hi_lk0 _ _ _ H H0) as (A & g & B & C & G). split; auto.
    exists g. rewrite E, D. auto.
  - intros x o k l (A & B & C) _. unfold at_. rewrite E, D, R1, R2, R3, R4. repeat split; auto.
Qed.

(** ** Operations on one range entry that keep its lists *)
Lemma HI_oprot : forall h o b, HI h ->
  let h' := set_o h o (o_set_prot (h_o h o) b) in
  HI h' /\ ext none h h' /\ (forall x k, o_list (h_o h' x) k = o_list (h_o h x) k).
Proof.
  intros h o b H h'.
  assert (E : forall x, o_off (h_o h' x) = o_off (h_o h x) /\ o_len (h_o h' x) = o_len (h_o h x) /\
                        o_rd (h_o h' x) = o_rd (h_o h x) /\ o_wr (h_o h' x) = o_wr (h_o h x) /\
                        o_val (h_o h' x) = o_val (h_o h x)).
  { intro x. unfold h', set_o; simpl.
    destruct (upd_cases _ (h_o h) o (o_set_prot (h_o h o) b) x) as [[-> ->]|[_ ->]]; simpl; auto. }
  assert (EL : forall x k, o_list (h_o h' x) k = o_list (h_o h x) k).
  { intros x k. destruct (E x) as (_ & _ & P & Q & _). destruct k; simpl; auto. }
  assert (EK : forall x, lks (h_o h' x) = lks (h_o h x)).
  { intros x. destruct (E x) as (_ & _ & P & Q & _). unfold lks. congruence. }
  assert (R : h_f h' = h_f h /\ h_l h' = h_l h /\ h_st h' = h_st h /\ h_flist h' = h_flist h /\
              h_ffree h' = h_ffree h /\ h_ofree h' = h_ofree h /\ h_lfree h' = h_lfree h) by (repeat split; reflexivity).
  clearbody h'. destruct R as (R1 & R2 & R3 & R4 & R5 & R6 & R7).
  split; [|split; [|auto]].
  - destruct H. constructor; intros; unfold offs in *; rewrite ?R1, ?R2, ?R3, ?R4, ?R5, ?R6, ?R7, ?EL, ?EK in *; eauto.
    + specialize (hi_word0 _ H). unfold word_ok, owning in *. destruct (E o0) as (_ & _ & -> & -> & ->). rewrite R3. exact hi_word0.
    + destruct (hi_lk0 _ _ _ H H0) as (A & g & B & C & G). unfold lk_ok, offs. rewrite R1, R2, R3, R4.
      destruct (E o0) as (-> & -> & _). split; auto. exists g. auto.
    + destruct (hi_held0 _ _ H) as (x & P & Q). exists x. rewrite EL. auto.
  - intros x y k l (A & B & C) _. unfold at_, offs. rewrite EL, R1, R2, R3, R4. destruct (E y) as (-> & -> & _). repeat split; auto.
Qed.

(** ** Taking a file entry from the pool *)
Lemma HI_alloc_file : forall h dev f ff, HI h -> h_ffree h = f :: ff ->
  (forall x, In x (h_flist h) -> f_dev (h_f h x) <> dev) ->
  let h' := set_files (set_f h f (mkF dev true [])) (f :: h_flist h) ff in
  HI h' /\ ext none h h' /\ In f (h_flist h') /\ f_dev (h_f h' f) = dev /\ offs h' f = [].
Proof.
  intros h dev f ff H EF ND h'.
  assert (NF : ~ In f (h_flist h)).
  { intro I. eapply flist_not_free; eauto. rewrite EF; left; auto. }
  assert (UFf : In f UF) by (apply (ffree_UF h); auto; rewrite EF; left; auto).
  assert (E : forall x, x <> f -> h_f h' x = h_f h x).
  { intros. unfold h'; simpl. apply upd_neq; auto. }
  assert (Ef : h_f h' f = mkF dev true []) by (unfold h'; simpl; apply upd_eq).
  assert (OE : forall x o, In o (offs h' x) -> x <> f /\ In o (offs h x)).
  { intros x o I. destruct (Z.eq_dec x f) as [->|N].
    - unfold offs in I. rewrite Ef in I. destruct I.
    - unfold offs in *. rewrite E in I by auto. auto. }
  assert (R : h_o h' = h_o h /\ h_l h' = h_l h /\ h_st h' = h_st h /\ h_flist h' = f :: h_flist h /\
              h_ffree h' = ff /\ h_ofree h' = h_ofree h /\ h_lfree h' = h_lfree h) by (repeat split; reflexivity).
  clearbody h'. destruct R as (R1 & R2 & R3 & R4 & R5 & R6 & R7).
  assert (HH := H). destruct H. split; [|split; [|split; [|split]]].
  - constructor; rewrite ?R1, ?R2, ?R3, ?R4, ?R5, ?R6, ?R7; auto.
    + rewrite EF in hi_files0. rewrite <- hi_files0. simpl. apply Permutation_middle.
    + intros x U. destruct (Z.eq_dec x f) as [->|N].
      * unfold offs. rewrite Ef. simpl. constructor.
      * unfold offs. rewrite E by auto. apply hi_offs_nd0; auto.
    + intros f1 f2 o U1 U2 I1 I2. apply OE in I1 as [_ I1]. apply OE in I2 as [_ I2]. eauto.
    + intros x o U I. apply OE in I as [_ I]. eauto.
    + intros f1 f2 [<-|I1] [<-|I2]; auto.
      * rewrite Ef, (E f2) by congruence. simpl. intro X. exfalso. eapply ND; eauto.
      * rewrite Ef, (E f1) by congruence. simpl. intro X. exfalso. eapply ND; eauto.
      * rewrite (E f1), (E f2) by congruence. apply hi_dev0; auto.
    + intros o U. unfold word_ok, owning. rewrite R1, R3. apply hi_word0; auto.
    + intros o k l U I. destruct (hi_lk0 o k l U I) as (A & x & B & C & G).
      unfold lk_ok. rewrite R1, R2, R3, R4.
      split; auto. exists x. assert (x <> f) by congruence.
      unfold offs. rewrite E by auto. split; [right; auto|auto].
  - intros x o k l (A & B & C) _. assert (x <> f) by congruence.
    unfold at_, offs. rewrite E, R1, R2, R3, R4 by auto. repeat split; auto. right; auto.
  - rewrite R4. left; auto.
  - rewrite Ef. auto.
  - unfold offs. rewrite Ef. auto.
Qed.

(** ** Taking a range entry from the pool *)
Lemma HI_alloc_off : forall h f o rest off len b, HI h -> h_ofree h = o :: rest -> In f (h_flist h) ->
  let h1 := set_ofree (set_o h o (mkO off len RW_UNLOCK true [] [])) rest in
  let h2 := set_f h1 f (f_set_offs (h_f h1 f) (o :: f_offs (h_f h1 f))) in
  let h' := set_f h2 f (f_set_prot (h_f h2 f) b) in
  HI h' /\ ext none h h' /\ offs h' f = o :: offs h f /\ f_dev (h_f h' f) = f_dev (h_f h f).
Proof.
  intros h f o rest off len b H EO IF h1 h2 h'.
  assert (UFf : In f UF) by (eapply flist_UF; eauto).
  assert (OF : In o (h_ofree h)) by (rewrite EO; left; auto).
  assert (UOo : In o UO) by (apply (proj2 (hi_ofree h H)); auto).
  assert (NL : forall k l, In l (o_list (h_o h o) k) -> False) by (intros; eapply ofree_no_lockers; eauto).
  assert (NO : forall x, In x UF -> ~ In o (offs h x)).
  { intros x U I. destruct (hi_offs_used h H x o U I); auto. }
  assert (E1 : offs h' f = o :: offs h f).
  { unfold offs, h', h2, h1; simpl. rewrite !upd_eq. reflexivity. }
  assert (E2 : forall x, x <> f -> h_f h' x = h_f h x).
  { intros. unfold h', h2, h1; simpl. rewrite !upd_neq by auto. auto. }
  assert (E3 : f_dev (h_f h' f) = f_dev (h_f h f)).
  { unfold h', h2, h1; simpl. rewrite !upd_eq. reflexivity. }
  assert (E4 : h_o h' = upd (h_o h) o (mkO off len RW_UNLOCK true [] [])) by reflexivity.
  assert (E5 : forall x, f_dev (h_f h' x) = f_dev (h_f h x)).
  { intro x. destruct (Z.eq_dec x f) as [->|N]; auto. rewrite E2; auto. }
  assert (E6 : forall x y, In y (offs h' x) <-> In y (offs h x) \/ (x = f /\ y = o)).
  { intros x y. destruct (Z.eq_dec x f) as [->|N].
    - rewrite E1. simpl. intuition.
    - unfold offs. rewrite E2 by auto. intuition. }
  assert (E7 : h_flist h' = h_flist h) by reflexivity.
  assert (E8 : h_ofree h' = rest) by reflexivity.
  assert (E9 : forall x l, In l (lks (h_o h' x)) <-> x <> o /\ In l (lks (h_o h x))).
  { intros x l. rewrite E4. destruct (Z.eq_dec x o) as [->|N].
    - rewrite upd_eq. simpl. tauto.
    - rewrite upd_neq by auto. tauto. }
  assert (E10 : forall x k l, In l (o_list (h_o h' x) k) <-> x <> o /\ In l (o_list (h_o h x) k)).
  { intros x k l. rewrite E4. destruct (Z.eq_dec x o) as [->|N].
    - rewrite upd_eq. destruct k; simpl; tauto.
    - rewrite upd_neq by auto. tauto. }
  assert (E11 : h_l h' = h_l h) by reflexivity.
  assert (E12 : h_st h' = h_st h) by reflexivity.
  assert (E13 : h_lfree h' = h_lfree h) by reflexivity.
  assert (E14 : h_ffree h' = h_ffree h) by reflexivity.
  assert (E15 : forall x, x <> o -> h_o h' x = h_o h x) by (intros; rewrite E4; apply upd_neq; auto).
  clearbody h'. clear h1 h2.
  assert (EXT : ext none h h').
  { intros x y k l (A & B & C) _. assert (y <> o) by (intros ->; eapply NL; eauto).
    unfold at_. rewrite E6, E10, E5, E7, E11, E12, E15 by auto. repeat split; auto. }
  split; [|auto].
  constructor; rewrite ?E7, ?E8, ?E13, ?E14; try apply H.
  - intros x U. destruct (Z.eq_dec x f) as [->|N].
    + rewrite E1. constructor; [apply NO; auto | apply H; auto].
    + unfold offs. rewrite E2 by auto. apply (hi_offs_nd h H); auto.
  - intros f1 f2 y U1 U2 I1 I2. apply E6 in I1, I2.
    destruct I1 as [I1|[-> ->]], I2 as [I2|[-> Q]]; auto.
    + apply (hi_offs_uniq h H f1 f2 y); auto.
    + subst. exfalso. eapply NO; [|eauto]; auto.
    + exfalso. eapply NO; [|eauto]; auto.
  - intros x y U I. apply E6 in I as [I|[-> ->]].
    + destruct (hi_offs_used h H x y U I) as [P Q]. split; auto. intro J. apply Q. rewrite EO. right; auto.
    + split; auto. destruct (hi_ofree h H) as [N _]. rewrite EO in N. inversion N; auto.
  - destruct (hi_ofree h H) as [N P]. rewrite EO in N. inversion N; subst. split; auto.
    intros x I. apply P. rewrite EO. right; auto.
  - intros x U. rewrite E4. destruct (upd_cases _ (h_o h) o (mkO off len RW_UNLOCK true [] []) x) as [[-> ->]|[_ ->]].
    + constructor.
    + apply (hi_lk_nd h H); auto.
  - intros o1 o2 l U1 U2 I1 I2. apply E9 in I1 as [_ I1]. apply E9 in I2 as [_ I2]. apply (hi_lk_uniq h H o1 o2 l); auto.
  - intros x l U I. apply E9 in I as [_ I]. apply (hi_lk_used h H x l); auto.
  - intros f1 f2. rewrite !E5. apply (hi_dev h H).
  - intros x U. unfold word_ok. rewrite E4. unfold owning. rewrite E12.
    destruct (upd_cases _ (h_o h) o (mkO off len RW_UNLOCK true [] []) x) as [[-> ->]|[_ ->]].
    + left. simpl. auto.
    + apply (hi_word h H); auto.
  - intros x k l U I. apply E10 in I as [N I]. destruct (hi_lk h H x k l U I) as (P & z & A & B & G).
    unfold lk_ok. rewrite E11, E12. split; auto.
    exists z. rewrite E7, E6, E5, E15 by auto. split; auto.
  - intros l g. rewrite E12. intro S. destruct (hi_held h H l g S) as (x & U & I). exists x. split; auto.
    apply E10. split; auto. intros ->. eapply NL; eauto.
Qed.

(** ** Changing flags, lock word and state of one listed locker *)
Lemma HI_relabel : forall h h' f o k l, HI h -> at_ h f o k l ->
  h_f h' = h_f h -> h_flist h' = h_flist h -> h_ffree h' = h_ffree h -> h_ofree h' = h_ofree h ->
  h_lfree h' = h_lfree h -> (forall x k', o_list (h_o h' x) k' = o_list (h_o h x) k') ->
  (forall x, o_off (h_o h' x) = o_off (h_o h x) /\ o_len (h_o h' x) = o_len (h_o h x)) ->
  (forall x, x <> o -> o_val (h_o h' x) = o_val (h_o h x)) ->
  (forall x, x <> l -> h_l h' x = h_l h x) -> (forall x, x <> l -> h_st h' x = h_st h x) ->
  word_ok h' o -> l_locked (h_l h' l) = st_locked (h_st h' l) ->
  (forall g, h_st h' l = LHeld g -> gr_kind g = k /\ l_tid (h_l h' l) = gr_t g /\ l_fd (h_l h' l) = gr_fd g /\
       f_dev (h_f h f) = gr_dev g /\ range_match (o_off (h_o h o)) (o_len (h_o h o)) (gr_off g) (gr_len g) = true) ->
  HI h' /\ ext (just l) h h'.
Proof.
  intros h h' f o k l H A R1 R4 R5 R6 R7 EL ER EV EQL EQS W LK G.
  assert (UOo := at_UO _ _ _ _ _ H A).
  assert (EK : forall x, lks (h_o h' x) = lks (h_o h x)).
  { intros x. unfold lks. pose proof (EL x Rd) as P. pose proof (EL x Wr) as Q. simpl in *. congruence. }
  split.
  - constructor; intros; unfold offs in *; rewrite ?R1, ?R4, ?R5, ?R6, ?R7, ?EL, ?EK in *.
    + apply H.
    + apply (hi_offs_nd h H); auto.
    + apply (hi_offs_uniq h H f1 f2 o0); auto.
    + apply (hi_offs_used h H f0 o0); auto.
    + apply H.
    + apply (hi_lk_nd h H); auto.
    + apply (hi_lk_uniq h H o1 o2 l0); auto.
    + apply (hi_lk_used h H o0 l0); auto.
    + apply H.
    + apply (hi_dev h H); auto.
    + destruct (Z.eq_dec o0 o) as [->|N]; auto.
      pose proof (hi_word h H o0 H0) as X. unfold word_ok in *. rewrite EV by auto.
      pose proof (EL o0 Rd) as P. pose proof (EL o0 Wr) as Q. simpl in P, Q. rewrite P, Q.
      assert (K : forall k', filter (owning h') (o_list (h_o h o0) k') = filter (owning h) (o_list (h_o h o0) k')).
      { intro k'. apply filter_ext_in. intros x I. unfold owning. rewrite EQS; auto. intros ->.
        apply N. apply (hi_lk_uniq h H o0 o l); auto; apply lks_in; eauto. exists k; apply A. }
      pose proof (K Rd) as K1. pose proof (K Wr) as K2. simpl in K1, K2. rewrite K1, K2. exact X.
    + destruct (Z.eq_dec l0 l) as [->|N].
      * destruct (lk_at h o0 k0 l H H0 H1) as (f0 & A0).
        destruct (at_unique _ _ _ _ _ _ _ _ H A0 A) as (-> & -> & ->).
        split; auto. exists f. unfold offs. rewrite R1, R4. split; [apply A|split; [apply A|]].
        intros g Hg. destruct (ER o) as (-> & ->). apply G; auto.
      * destruct (hi_lk h H o0 k0 l0 H0 H1) as (P & x & B & C & GG).
        unfold lk_ok, offs. rewrite R1, R4, EQL, EQS by auto. split; auto. exists x.
        destruct (ER o0) as (-> & ->). auto.
    + destruct (Z.eq_dec l0 l) as [->|N].
      * exists o. split; auto. rewrite EL. destruct (G g H0) as (-> & _). apply A.
      * rewrite EQS in H0 by auto. destruct (hi_held h H l0 g H0) as (x & P & Q). exists x. rewrite EL. auto.
  - intros x y k' l' (P & Q & R) NX. unfold just in NX. unfold at_, offs.
    rewrite EL, R1, R4, EQL, EQS by auto. destruct (ER y) as (-> & ->). repeat split; auto.
Qed.

(** counting owners when the state of one locker changes *)
Lemma count_same : forall h h' l L, (forall x, x <> l -> h_st h' x = h_st h x) ->
  ~ In l L -> filter (owning h') L = filter (owning h) L.
Proof.
  intros h h' l L E N. apply filter_ext_in. intros x I. unfold owning. rewrite E; auto. congruence.
Qed.

Lemma count_up : forall h h' l L, (forall x, x <> l -> h_st h' x = h_st h x) -> NoDup L -> In l L ->
  owning h l = false -> owning h' l = true ->
  length (filter (owning h') L) = S (length (filter (owning h) L)).
Proof.
  induction L; intros E ND I O1 O2; [destruct I|]. inversion ND; subst. simpl.
  destruct (Z.eq_dec a l) as [->|N].
  - rewrite O1, O2. simpl. rewrite (count_same h h' l L); auto.
  - destruct I as [I|I]; [congruence|]. specialize (IHL E H2 I O1 O2).
    assert (X : owning h' a = owning h a) by (unfold owning; rewrite E; auto). rewrite X.
    destruct (owning h a); simpl; lia.
Qed.

Lemma count_keep : forall h h' l L, (forall x, x <> l -> h_st h' x = h_st h x) -> owning h' l = owning h l ->
  filter (owning h') L = filter (owning h) L.
Proof.
  intros h h' l L E O. apply filter_ext_in. intros x I. destruct (Z.eq_dec x l) as [->|N]; auto.
  unfold owning. rewrite E; auto.
Qed.

Lemma rd_wr_split : forall h o l k, HI h -> In o UO -> In l (o_list (h_o h o) k) ->
  NoDup (o_rd (h_o h o)) /\ NoDup (o_wr (h_o h o)) /\
  match k with Rd => ~ In l (o_wr (h_o h o)) | Wr => ~ In l (o_rd (h_o h o)) end.
Proof.
  intros h o l k H U I. pose proof (hi_lk_nd h H o U) as ND. unfold lks in ND.
  apply nodup_app_iff in ND as (P & Q & D). repeat split; auto.
  destruct k; simpl in I; intro; eauto.
Qed.

(** a successful attempt on the lock word *)
Lemma HI_acquire : forall h f o k l, HI h -> at_ h f o k l -> h_st h l = LWait ->
  word_permits k (o_val (h_o h o)) = true ->
  let h' := set_st (set_o h o (o_set_val (h_o h o) (lock_word k (o_val (h_o h o))))) l LAcq in
  HI h' /\ ext (just l) h h' /\ at_ h' f o k l.
Proof.
  intros h f o k l H A S P h'.
  assert (UOo := at_UO _ _ _ _ _ H A).
  destruct (rd_wr_split h o l k H UOo) as (N1 & N2 & N3); [apply A|].
  assert (ES : forall x, x <> l -> h_st h' x = h_st h x) by (intros; unfold h'; simpl; apply upd_neq; auto).
  assert (O2 : owning h' l = true) by (unfold owning, h'; simpl; rewrite upd_eq; auto).
  assert (O1 : owning h l = false) by (unfold owning; rewrite S; auto).
  assert (EO : h_o h' o = o_set_val (h_o h o) (lock_word k (o_val (h_o h o)))) by (unfold h'; simpl; apply upd_eq).
  assert (EO' : forall x, x <> o -> h_o h' x = h_o h x) by (intros; unfold h'; simpl; apply upd_neq; auto).
  assert (EL : forall x k', o_list (h_o h' x) k' = o_list (h_o h x) k').
  { intros x k'. destruct (Z.eq_dec x o) as [->|N]; [rewrite EO; destruct k'; auto | rewrite EO'; auto]. }
  assert (X : HI h' /\ ext (just l) h h').
  { apply (HI_relabel h h' f o k l); auto.
    - intro x. destruct (Z.eq_dec x o) as [->|N]; [rewrite EO; auto | rewrite EO'; auto].
    - intros. rewrite EO'; auto.
    - unfold word_ok. rewrite EO. simpl. pose proof (hi_word h H o UOo) as W. unfold word_ok in W.
      destruct A as (_ & _ & A). destruct k; simpl in A, N3, P; unfold lock_word, RW_WLOCK, RW_UNLOCK in *.
      + left. apply Z.leb_le in P. destruct W as [[W1 W2]|[W1 _]]; [|lia].
        rewrite (count_up h h' l (o_rd (h_o h o))), (count_same h h' l (o_wr (h_o h o))) by auto. split; auto. lia.
      + right. apply Z.eqb_eq in P. destruct W as [[W1 W2]|[W1 _]]; [|lia].
        rewrite (count_up h h' l (o_wr (h_o h o))), (count_same h h' l (o_rd (h_o h o))) by auto.
        rewrite W2. split; auto. split; auto.
        destruct (filter (owning h) (o_rd (h_o h o))); auto. simpl in W1. lia.
    - destruct (hi_lk h H o k l UOo) as (Q & _); [apply A|]. unfold h'; simpl. rewrite upd_eq, Q, S. auto.
    - unfold h'; simpl. rewrite upd_eq. discriminate. }
  destruct X as [X Y]. split; [auto|split; [auto|]].
  split; [apply A|split; [apply A|rewrite EL; apply A]].
Qed.

(** lib/flcklistofflock.cc:164 *)
Lemma HI_set_lock : forall h f o k l g, HI h -> at_ h f o k l -> h_st h l = LAcq ->
  gr_kind g = k -> l_tid (h_l h l) = gr_t g -> l_fd (h_l h l) = gr_fd g -> f_dev (h_f h f) = gr_dev g ->
  range_match (o_off (h_o h o)) (o_len (h_o h o)) (gr_off g) (gr_len g) = true ->
  let h' := set_st (set_l h l (l_set_locked (h_l h l) true)) l (LHeld g) in
  HI h' /\ ext (just l) h h'.
Proof.
  intros h f o k l g H A S G1 G2 G3 G4 G5 h'.
  assert (UOo := at_UO _ _ _ _ _ H A).
  assert (ES : forall x, x <> l -> h_st h' x = h_st h x) by (intros; unfold h'; simpl; apply upd_neq; auto).
  assert (O2 : owning h' l = owning h l) by (unfold owning, h'; simpl; rewrite upd_eq, S; auto).
  apply (HI_relabel h h' f o k l); auto.
  - intros. unfold h'; simpl. apply upd_neq; auto.
  - unfold word_ok. change (h_o h' o) with (h_o h o). rewrite !(count_keep h h' l) by auto. apply (hi_word h H); auto.
  - unfold h'; simpl. rewrite !upd_eq. auto.
  - intros g'. unfold h'; simpl. rewrite !upd_eq. simpl. intro X; inversion X; subst g'. repeat split; auto.
Qed.

(** releasing the lock word for a granted locker *)
Lemma HI_release : forall h f o k l, HI h -> at_ h f o k l -> owning h l = true -> l_locked (h_l h l) = true ->
  let h' := set_st (set_o h o (o_set_val (h_o h o) (unlock_word (o_val (h_o h o))))) l LRel in
  HI h' /\ ext (just l) h h' /\ at_ h' f o k l.
Proof.
  intros h f o k l H A O LK h'.
  assert (UOo := at_UO _ _ _ _ _ H A).
  destruct (rd_wr_split h o l k H UOo) as (N1 & N2 & N3); [apply A|].
  assert (ES : forall x, x <> l -> h_st h' x = h_st h x) by (intros; unfold h'; simpl; apply upd_neq; auto).
  assert (O2 : owning h' l = false) by (unfold owning, h'; simpl; rewrite upd_eq; auto).
  assert (EO : h_o h' o = o_set_val (h_o h o) (unlock_word (o_val (h_o h o)))) by (unfold h'; simpl; apply upd_eq).
  assert (EO' : forall x, x <> o -> h_o h' x = h_o h x) by (intros; unfold h'; simpl; apply upd_neq; auto).
  assert (EL : forall x k', o_list (h_o h' x) k' = o_list (h_o h x) k').
  { intros x k'. destruct (Z.eq_dec x o) as [->|N]; [rewrite EO; destruct k'; auto | rewrite EO'; auto]. }
  assert (ES' : forall x, x <> l -> h_st h x = h_st h' x) by (intros; symmetry; auto).
  assert (X : HI h' /\ ext (just l) h h').
  { apply (HI_relabel h h' f o k l); auto.
    - intro x. destruct (Z.eq_dec x o) as [->|N]; [rewrite EO; auto | rewrite EO'; auto].
    - intros. rewrite EO'; auto.
    - unfold word_ok. rewrite EO. simpl. pose proof (hi_word h H o UOo) as W. unfold word_ok in W.
      destruct A as (_ & _ & A). left. unfold unlock_word, RW_UNLOCK, RW_WLOCK.
      destruct k; simpl in A, N3.
      + pose proof (count_up h' h l (o_rd (h_o h o)) ES' N1 A O2 O) as C.
        rewrite (count_same h h' l (o_wr (h_o h o))) by auto.
        destruct W as [[W1 W2]|[W1 [W2 W3]]].
        * rewrite C in W1. split; auto.
          destruct (Z.eqb_spec (o_val (h_o h o)) 0); [lia|]. destruct (Z.leb_spec (o_val (h_o h o)) (-1)); lia.
        * rewrite W2 in C. discriminate.
      + pose proof (count_up h' h l (o_wr (h_o h o)) ES' N2 A O2 O) as C.
        rewrite (count_same h h' l (o_rd (h_o h o))) by auto.
        destruct W as [[W1 W2]|[W1 [W2 W3]]].
        * rewrite W2 in C. discriminate.
        * rewrite W1, W2. simpl. split; auto. rewrite W3 in C. inversion C.
          destruct (filter (owning h') (o_wr (h_o h o))); auto. discriminate.
    - unfold h'; simpl. rewrite upd_eq, LK. auto.
    - unfold h'; simpl. rewrite upd_eq. discriminate. }
  destruct X as [X Y]. split; [auto|split; [auto|]].
  split; [apply A|split; [apply A|rewrite EL; apply A]].
Qed.

(** lib/flcklistofflock.cc:103 *)
Lemma HI_set_unlock : forall h f o k l, HI h -> at_ h f o k l -> h_st h l = LRel ->
  let h' := set_st (set_l h l (l_set_locked (h_l h l) false)) l LDone in
  HI h' /\ ext (just l) h h'.
Proof.
  intros h f o k l H A S h'.
  assert (UOo := at_UO _ _ _ _ _ H A).
  assert (ES : forall x, x <> l -> h_st h' x = h_st h x) by (intros; unfold h'; simpl; apply upd_neq; auto).
  assert (O2 : owning h' l = owning h l) by (unfold owning, h'; simpl; rewrite upd_eq, S; auto).
  apply (HI_relabel h h' f o k l); auto.
  - intros. unfold h'; simpl. apply upd_neq; auto.
  - unfold word_ok. change (h_o h' o) with (h_o h o). rewrite !(count_keep h h' l) by auto. apply (hi_word h H); auto.
  - unfold h'; simpl. rewrite !upd_eq. auto.
  - intros g'. unfold h'; simpl. rewrite !upd_eq. discriminate.
Qed.

(** ** Taking a locker entry from the pool and inserting it *)
Lemma HI_alloc_locker : forall h f o k l rest t fd b, HI h -> h_lfree h = l :: rest -> In f (h_flist h) -> In o (offs h f) ->
  let h1 := set_st (set_lfree (set_l h l (mkL t fd false)) rest) l LWait in
  let h2 := set_o h1 o (o_set_list (h_o h1 o) k (l :: o_list (h_o h1 o) k)) in
  let h' := set_o h2 o (o_set_prot (h_o h2 o) b) in
  HI h' /\ ext none h h' /\ at_ h' f o k l /\ h_l h' l = mkL t fd false /\ h_st h' l = LWait.
Proof.
  intros h f o k l rest t fd b H EF IF IO h1 h2 h'.
  assert (UOo : In o UO) by (eapply hi_offs_used; eauto using flist_UF).
  assert (LF : In l (h_lfree h)) by (rewrite EF; left; auto).
  assert (NL : forall x k', In x UO -> ~ In l (o_list (h_o h x) k')).
  { intros x k' U I. apply (hi_lk_used h H x l U); auto. apply lks_in; eauto. }
  assert (E1 : forall x, x <> o -> h_o h' x = h_o h x).
  { intros. unfold h', h2, h1; simpl. rewrite !upd_neq; auto. }
  assert (E2 : forall k', o_list (h_o h' o) k' = if match k, k' with Rd, Rd => true | Wr, Wr => true | _, _ => false end
                                     then l :: o_list (h_o h o) k' else o_list (h_o h o) k').
  { intros. unfold h', h2, h1; simpl. rewrite !upd_eq. destruct k, k'; reflexivity. }
  assert (E3 : o_off (h_o h' o) = o_off (h_o h o) /\ o_len (h_o h' o) = o_len (h_o h o) /\ o_val (h_o h' o) = o_val (h_o h o)).
  { unfold h', h2, h1; simpl. rewrite !upd_eq. destruct k; auto. }
  assert (R : h_f h' = h_f h /\ h_flist h' = h_flist h /\ h_ffree h' = h_ffree h /\ h_ofree h' = h_ofree h /\ h_lfree h' = rest)
    by (repeat split; reflexivity).
  assert (E4 : h_l h' l = mkL t fd false /\ h_st h' l = LWait) by (unfold h', h2, h1; simpl; rewrite !upd_eq; auto).
  assert (E5 : forall x, x <> l -> h_l h' x = h_l h x /\ h_st h' x = h_st h x).
  { intros. unfold h', h2, h1; simpl. rewrite !upd_neq; auto. }
  clearbody h'. clear h1 h2. destruct R as (R1 & R2 & R3 & R4 & R5). destruct E4 as [E4 E4'].
  assert (EI : forall x k' y, In y (o_list (h_o h' x) k') <-> (x = o /\ k' = k /\ y = l) \/ In y (o_list (h_o h x) k')).
  { intros x k' y. destruct (Z.eq_dec x o) as [->|N].
    - rewrite E2. destruct k, k'; simpl; intuition congruence.
    - rewrite E1 by auto. intuition. }
  assert (EK : forall x y, In y (lks (h_o h' x)) <-> (x = o /\ y = l) \/ In y (lks (h_o h x))).
  { intros x y. rewrite !lks_in. split.
    - intros [k' I]. apply EI in I. destruct I as [(A & B & C)|I]; auto. right; eauto.
    - intros [[-> ->]|[k' I]]; [exists k | exists k']; apply EI; auto. }
  assert (EW : owning h' l = false) by (unfold owning; rewrite E4'; auto).
  assert (EXT : ext none h h').
  { intros x y k' z (A & B & C) _. assert (z <> l).
    { intros ->. eapply NL; [|exact C]. eapply at_UO; eauto. repeat split; eauto. }
    destruct (E5 z H0) as [-> ->]. unfold at_, offs. rewrite R1, R2. repeat split; auto.
    - apply EI; auto.
    - destruct (Z.eq_dec y o) as [->|N]; [apply E3 | rewrite E1; auto].
    - destruct (Z.eq_dec y o) as [->|N]; [apply E3 | rewrite E1; auto]. }
  assert (AT_ : at_ h' f o k l).
  { unfold at_, offs. rewrite R1, R2. repeat split; auto. apply EI; auto. }
  split; [|auto].
  constructor; unfold offs; rewrite ?R1, ?R2, ?R3, ?R4, ?R5; try apply H.
  - intros x U. destruct (Z.eq_dec x o) as [->|N].
    + pose proof (hi_lk_nd h H o U) as ND. unfold lks in *. pose proof (E2 Rd) as Q1. pose proof (E2 Wr) as Q2.
      simpl in Q1, Q2. rewrite Q1, Q2. pose proof (NL o Rd U) as L1. pose proof (NL o Wr U) as L2. simpl in L1, L2.
      destruct k; simpl.
      * constructor; auto. rewrite in_app_iff. tauto.
      * apply nodup_app_iff in ND as (P & Q & D). apply nodup_app_iff. repeat split; auto.
        -- constructor; auto.
        -- intros y I [<-|J]; eauto.
    + unfold lks. rewrite E1 by auto. apply (hi_lk_nd h H); auto.
  - intros o1 o2 y U1 U2 I1 I2. apply EK in I1, I2.
    destruct I1 as [[-> ->]|I1], I2 as [[-> Q]|I2]; auto.
    + exfalso. apply lks_in in I2 as [k' I2]. exact (NL o2 k' U2 I2).
    + rewrite Q in I1. exfalso. apply lks_in in I1 as [k' I1]. exact (NL o1 k' U1 I1).
    + apply (hi_lk_uniq h H o1 o2 y); auto.
  - intros x y U I. apply EK in I as [[-> ->]|I].
    + split; [apply (hi_lfree h H); auto|]. destruct (hi_lfree h H) as [N _]. rewrite EF in N. inversion N; auto.
    + destruct (hi_lk_used h H x y U I) as [P Q]. split; auto. intro J. apply Q. rewrite EF. right; auto.
  - destruct (hi_lfree h H) as [N P]. rewrite EF in N. inversion N; subst. split; auto.
    intros y J. apply P. rewrite EF. right; auto.
  - intros x U. pose proof (hi_word h H x U) as W. destruct (Z.eq_dec x o) as [->|N].
    + assert (K : forall k', filter (owning h') (o_list (h_o h' o) k') = filter (owning h) (o_list (h_o h o) k')).
      { intro k'. assert (Q : filter (owning h') (o_list (h_o h o) k') = filter (owning h) (o_list (h_o h o) k')).
        { apply (count_same h h' l); auto. intros; apply E5; auto. }
        rewrite E2. destruct k, k'; simpl; rewrite ?EW; auto. }
      pose proof (K Rd) as K1. pose proof (K Wr) as K2. simpl in K1, K2.
      unfold word_ok in *. rewrite K1, K2. destruct E3 as (_ & _ & ->). exact W.
    + assert (K : forall k', filter (owning h') (o_list (h_o h x) k') = filter (owning h) (o_list (h_o h x) k')).
      { intro k'. apply (count_same h h' l); auto. intros; apply E5; auto. }
      pose proof (K Rd) as K1. pose proof (K Wr) as K2. simpl in K1, K2.
      unfold word_ok in *. rewrite E1 by auto. rewrite K1, K2. exact W.
  - intros x k' y U I. apply EI in I as [(-> & -> & ->)|I].
    + unfold lk_ok, offs. rewrite E4, E4', R1, R2. split; auto. exists f. split; [auto|split; auto]. discriminate.
    + assert (y <> l) by (intros ->; eapply NL; eauto). destruct (E5 y H0) as [P Q].
      destruct (hi_lk h H x k' y U I) as (P1 & z & P2 & P3 & P4).
      unfold lk_ok, offs. rewrite P, Q, R1, R2. split; auto. exists z.
      destruct (Z.eq_dec x o) as [->|N]; [destruct E3 as (-> & -> & _) | rewrite E1 by auto]; auto.
  - intros y g S. destruct (Z.eq_dec y l) as [->|N]; [congruence|]. destruct (E5 y N) as [_ Q]. rewrite Q in S.
    destruct (hi_held h H y g S) as (x & U & I). exists x. split; auto. apply EI; auto.
Qed.

(** ** Returning a locker entry to the pool *)
Lemma HI_drop_locker : forall h f o k l v, HI h -> at_ h f o k l -> owning h l = false ->
  (forall g, v <> LHeld g) ->
  let h' := set_st (drop_locker h o k l) l v in
  HI h' /\ ext (just l) h h' /\ offs h' f = offs h f /\ h_flist h' = h_flist h.
Proof.
  intros h f o k l v H A O V h'.
  assert (UOo := at_UO _ _ _ _ _ H A).
  assert (LI : In l (o_list (h_o h o) k)) by apply A.
  assert (NL : forall x k', In x UO -> In l (o_list (h_o h x) k') -> x = o /\ k' = k).
  { intros x k' U I. destruct (lk_at h x k' l H U I) as (f0 & A0).
    destruct (at_unique _ _ _ _ _ _ _ _ H A0 A) as (_ & -> & ->); auto. }
  assert (E1 : forall x, x <> o -> h_o h' x = h_o h x).
  { intros. unfold h', drop_locker; simpl. rewrite !upd_neq; auto. }
  assert (E2 : forall k', o_list (h_o h' o) k' = if match k, k' with Rd, Rd => true | Wr, Wr => true | _, _ => false end
                                     then del l (o_list (h_o h o) k') else o_list (h_o h o) k').
  { intros. unfold h', drop_locker; simpl. rewrite !upd_eq. destruct k, k'; reflexivity. }
  assert (E3 : o_off (h_o h' o) = o_off (h_o h o) /\ o_len (h_o h' o) = o_len (h_o h o) /\ o_val (h_o h' o) = o_val (h_o h o)).
  { unfold h', drop_locker; simpl. rewrite !upd_eq. destruct k; auto. }
  assert (R : h_f h' = h_f h /\ h_flist h' = h_flist h /\ h_ffree h' = h_ffree h /\ h_ofree h' = h_ofree h /\
              h_lfree h' = l :: h_lfree h /\ h_l h' = h_l h)
    by (repeat split; reflexivity).
  assert (E4' : h_st h' l = v) by (unfold h', drop_locker; simpl; rewrite !upd_eq; auto).
  assert (E5 : forall x, x <> l -> h_st h' x = h_st h x).
  { intros. unfold h', drop_locker; simpl. rewrite !upd_neq; auto. }
  clearbody h'. destruct R as (R1 & R2 & R3 & R4 & R5 & R6).
  assert (EI : forall x k' y, In x UO -> In y (o_list (h_o h' x) k') <-> y <> l /\ In y (o_list (h_o h x) k')).
  { intros x k' y U. destruct (Z.eq_dec x o) as [->|N].
    - rewrite E2. destruct k, k'; try rewrite in_del; intuition; subst;
        match goal with I : In l (o_list (h_o h o) ?kk) |- _ =>
          try (destruct (NL o kk U I); discriminate) end.
    - rewrite E1 by auto. intuition. subst. apply N. eapply NL; eauto. }
  assert (EK : forall x y, In x UO -> In y (lks (h_o h' x)) <-> y <> l /\ In y (lks (h_o h x))).
  { intros x y U. rewrite !lks_in. split.
    - intros [k' I]. apply EI in I; auto. destruct I; split; eauto.
    - intros [N [k' I]]. exists k'. apply EI; auto. }
  assert (EXT : ext (just l) h h').
  { intros x y k' z A1 N. unfold just in N. assert (U := at_UO _ _ _ _ _ H A1). destruct A1 as (P & Q & S).
    unfold at_, offs. rewrite R1, R2, R6, E5 by auto. repeat split; auto.
    - apply EI; auto.
    - destruct (Z.eq_dec y o) as [->|N']; [apply E3 | rewrite E1; auto].
    - destruct (Z.eq_dec y o) as [->|N']; [apply E3 | rewrite E1; auto]. }
  split; [|split; [auto|split; [unfold offs; rewrite R1; auto|auto]]].
  constructor; unfold offs; rewrite ?R1, ?R2, ?R3, ?R4, ?R5, ?R6; try apply H.
  - intros x U. destruct (Z.eq_dec x o) as [->|N].
    + pose proof (hi_lk_nd h H o U) as ND. unfold lks in *. pose proof (E2 Rd) as Q1. pose proof (E2 Wr) as Q2.
      simpl in Q1, Q2. rewrite Q1, Q2. apply nodup_app_iff in ND as (P & Q & D). apply nodup_app_iff.
      destruct k; repeat split; auto using nodup_del; intros y I J; rewrite in_del in *; eapply D; intuition eauto.
    + unfold lks. rewrite E1 by auto. apply (hi_lk_nd h H); auto.
  - intros o1 o2 y U1 U2 I1 I2. apply EK in I1, I2; auto. apply (hi_lk_uniq h H o1 o2 y); tauto.
  - intros x y U I. apply EK in I as [N I]; auto. destruct (hi_lk_used h H x y U I) as [P Q]. split; auto.
    intros [->|J]; auto.
  - destruct (hi_lfree h H) as [N P]. destruct (hi_lk_used h H o l UOo) as [Q1 Q2]; [apply lks_in; eauto|].
    split; [constructor; auto|]. intros y [<-|J]; auto.
  - intros x U. pose proof (hi_word h H x U) as W.
    assert (K : forall k', filter (owning h') (o_list (h_o h' x) k') = filter (owning h) (o_list (h_o h x) k')).
    { intro k'.
      assert (Q0 : forall M, filter (owning h') (del l M) = filter (owning h) (del l M)).
      { intro M. apply (count_same h h' l); auto. rewrite in_del; tauto. }
      destruct (Z.eq_dec x o) as [->|N].
      - rewrite E2. destruct k, k'; rewrite ?Q0, ?(del_filter_notin _ _ _ O); auto;
          (apply (count_same h h' l); auto; intro I; destruct (NL o _ U I); discriminate).
      - rewrite E1 by auto. apply (count_same h h' l); auto. intro I. apply N. eapply NL; eauto. }
    pose proof (K Rd) as K1. pose proof (K Wr) as K2. simpl in K1, K2.
    unfold word_ok in *. rewrite K1, K2.
    destruct (Z.eq_dec x o) as [->|N]; [destruct E3 as (_ & _ & ->) | rewrite E1 by auto]; exact W.
  - intros x k' y U I. apply EI in I as [N I]; auto.
    destruct (hi_lk h H x k' y U I) as (P1 & z & P2 & P3 & P4).
    unfold lk_ok, offs. rewrite R1, R2, R6, E5 by auto. split; auto. exists z.
    destruct (Z.eq_dec x o) as [->|N']; [destruct E3 as (-> & -> & _) | rewrite E1 by auto]; auto.
  - intros y g S. destruct (Z.eq_dec y l) as [->|N]; [rewrite E4' in S; exfalso; eapply V; eauto|].
    rewrite E5 in S by auto.
    destruct (hi_held h H y g S) as (x & U & I). exists x. split; auto. apply EI; auto.
Qed.

Lemma off_unlocked_empty : forall h o, off_locked h o = false -> forall k, o_list (h_o h o) k = [].
Proof.
  intros h o E k. unfold off_locked in E. apply orb_false_iff in E as [E1 E3]. apply orb_false_iff in E1 as [E1 E2].
  destruct k; simpl; [destruct (o_rd (h_o h o)) | destruct (o_wr (h_o h o))]; auto; discriminate.
Qed.

(** ** Returning a range entry to the pool *)
Lemma HI_drop_off : forall h f o, HI h -> In f UF -> In o (offs h f) -> (forall k, o_list (h_o h o) k = []) ->
  let h' := drop_off h f o in
  HI h' /\ ext none h h' /\ (forall x y, In x UF -> In y (offs h' x) <-> In y (offs h x) /\ y <> o).
Proof.
  intros h f o H IF IO NL h'.
  destruct (hi_offs_used h H f o IF IO) as [UOo NF].
  assert (E1 : offs h' f = del o (offs h f)) by (unfold h', drop_off, offs; simpl; rewrite upd_eq; reflexivity).
  assert (E2 : forall x, x <> f -> offs h' x = offs h x) by (intros; unfold h', drop_off, offs; simpl; rewrite upd_neq; auto).
  assert (D : forall x, f_dev (h_f h' x) = f_dev (h_f h x)).
  { intro x. unfold h', drop_off; simpl. destruct (Z.eq_dec x f) as [->|N]; [rewrite upd_eq | rewrite upd_neq]; auto. }
  assert (R : h_o h' = h_o h /\ h_l h' = h_l h /\ h_st h' = h_st h /\ h_flist h' = h_flist h /\
              h_ffree h' = h_ffree h /\ h_ofree h' = o :: h_ofree h /\ h_lfree h' = h_lfree h) by (repeat split; reflexivity).
  clearbody h'. destruct R as (R1 & R2 & R3 & R4 & R5 & R6 & R7).
  assert (EI : forall x y, In x UF -> In y (offs h' x) <-> In y (offs h x) /\ y <> o).
  { intros x y U. destruct (Z.eq_dec x f) as [->|N].
    - rewrite E1. apply in_del.
    - rewrite E2 by auto. intuition. subst. apply N. eapply hi_offs_uniq; eauto. }
  assert (NO : forall x k l, In l (o_list (h_o h x) k) -> x <> o) by (intros x k l I ->; rewrite NL in I; destruct I).
  split; [|split; [|auto]].
  - constructor; unfold word_ok, owning; rewrite ?R1, ?R2, ?R3, ?R4, ?R5, ?R6, ?R7; try apply H.
    + intros x U. destruct (Z.eq_dec x f) as [->|N]; [rewrite E1; apply nodup_del | rewrite E2; auto]; apply H; auto.
    + intros f1 f2 y U1 U2 I1 I2. apply EI in I1, I2; auto. apply (hi_offs_uniq h H f1 f2 y); tauto.
    + intros x y U I. apply EI in I as [I N]; auto. destruct (hi_offs_used h H x y U I). split; auto.
      intros [<-|J]; auto.
    + destruct (hi_ofree h H). split; [constructor; auto|]. intros x [<-|J]; auto.
    + intros f1 f2. rewrite !D. apply H.
    + intros x k l U I. destruct (hi_lk h H x k l U I) as (P1 & z & P2 & P3 & P4).
      unfold lk_ok. rewrite R1, R2, R3, R4. split; auto. exists z. rewrite D. split; auto. split; auto.
      apply EI; eauto using flist_UF.
  - intros x y k l (A & B & C) _. unfold at_. rewrite D, R1, R2, R3, R4. repeat split; auto.
    apply EI; eauto using flist_UF.
Qed.

(** ** Returning a file entry to the pool *)
Lemma HI_drop_file : forall h f, HI h -> In f (h_flist h) ->
  (forall o k, In o (offs h f) -> o_list (h_o h o) k = []) ->
  let h' := drop_file h f in HI h' /\ ext none h h'.
Proof.
  intros h f H IF NL h'.
  assert (ND := files_nd h H). apply nodup_app_iff in ND as (ND1 & ND2 & ND3).
  assert (R : h_f h' = h_f h /\ h_o h' = h_o h /\ h_l h' = h_l h /\ h_st h' = h_st h /\ h_flist h' = del f (h_flist h) /\
              h_ffree h' = f :: h_ffree h /\ h_ofree h' = h_ofree h /\ h_lfree h' = h_lfree h) by (repeat split; reflexivity).
  clearbody h'. destruct R as (R0 & R1 & R2 & R3 & R4 & R5 & R6 & R7).
  assert (NF : forall x o k l, In o (offs h x) -> In l (o_list (h_o h o) k) -> x <> f).
  { intros x o k l I J ->. rewrite NL in J by auto. destruct J. }
  split.
  - constructor; unfold word_ok, owning, offs; rewrite ?R0, ?R1, ?R2, ?R3, ?R4, ?R5, ?R6, ?R7; try apply H.
    + rewrite <- Permutation_middle. change (Permutation ((f :: del f (h_flist h)) ++ h_ffree h) UF).
      rewrite perm_del by auto. apply H.
    + intros f1 f2 I1 I2. apply in_del in I1, I2. apply H; tauto.
    + intros x k l U I. destruct (hi_lk h H x k l U I) as (P1 & z & P2 & P3 & P4).
      unfold lk_ok, offs. rewrite R0, R1, R2, R3, R4. split; auto. exists z. split; auto.
      apply in_del. split; eauto.
  - intros x y k l (A & B & C) _. unfold at_, offs. rewrite R0, R1, R2, R3, R4. repeat split; auto.
    apply in_del. split; eauto.
Qed.

Lemma file_unlocked : forall h f, file_locked h f = false ->
  f_prot (h_f h f) = false /\ (forall o, In o (offs h f) -> off_locked h o = false).
Proof.
  intros h f E. unfold file_locked in E. apply orb_false_iff in E as [E1 E2]. split; auto.
  intros o I. destruct (off_locked h o) eqn:F; auto. exfalso.
  assert (existsb (off_locked h) (f_offs (h_f h f)) = true) by (apply existsb_exists; exists o; auto). congruence.
Qed.

End Structure.
