(** Conservation of pool entries. *)
From Coq Require Import ZArith List Bool Lia Permutation.
From Verif Require Import Base Range_Model Range_Props RwWord_Model RwApi_Model RwApi_Spec RwApi_Proofs RwApi_Proofs2 RwApi_Proofs3 RwApi_Proofs4.
Import ListNotations.
Open Scope Z_scope.

(** entries that the thread inside the guarded section is working on: a file that may have no range [ef],
    a protected file [pf], a range that may have no locker [eo], a protected range [po] *)
Definition ef (p : rpc) : option Z :=
  match p with A3 _ f => Some f | B6 _ f => Some f | PP _ (f :: _) (Some _) _ => Some f | _ => None end.
Definition pf (p : rpc) : option Z := match p with A3 _ f => Some f | _ => None end.
Definition eo (p : rpc) : option Z :=
  match p with A4 _ _ o => Some o | B5 _ _ o => Some o | PP _ (_ :: _) (Some (o :: _)) (Some _) => Some o | _ => None end.
Definition po (p : rpc) : option Z := match p with A4 _ _ o => Some o | AD _ _ o _ _ => Some o | _ => None end.

Fixpoint mine (st : lstat) (p : rpc) (l : Z) : Prop :=
  match p with
  | RWait q => mine st q l | RDrop q => mine st q l
  | AT _ _ _ x | AS _ _ _ x | AD0 _ _ _ x | AD _ _ _ x _ => x = l
  | F1 _ _ _ _ => st = LWait
  | B3 _ _ _ _ x | B4 _ _ _ _ x => x = l
  | _ => False
  end.

Section Conserve.
Variables UF UO UL : list Z.
Hypothesis UF_nd : NoDup UF.
Hypothesis UO_nd : NoDup UO.
Hypothesis UL_nd : NoDup UL.
Notation HI := (HI UF UO UL).
Notation SI := (SI UF UO UL).

Record CH (h : heap) (vef vpf veo vpo : option Z) : Prop := {
  ch_off : forall o, In o UO -> In o (h_ofree h) \/ exists f, In f (h_flist h) /\ In o (offs h f);
  ch_ffree : forall f, In f (h_ffree h) -> offs h f = [];
  ch_loc : forall l, In l UL -> In l (h_lfree h) \/ exists o, In o UO /\ In l (lks (h_o h o));
  ch_f : forall f, In f (h_flist h) -> (Some f <> vef -> offs h f <> []) /\ (Some f <> vpf -> f_prot (h_f h f) = false);
  ch_o : forall f o, In f (h_flist h) -> In o (offs h f) ->
           (Some o <> veo -> lks (h_o h o) <> []) /\ (Some o <> vpo -> o_prot (h_o h o) = false)
}.

Record CI (s : rstate) : Prop := {
  ci_alive : forall t, alive s t = true;
  ci_mode : forall p, r_mode s p = FREE_FD;
  ci_crit : forall t, crit (r_pc s t) = true -> CH (r_h s) (ef (r_pc s t)) (pf (r_pc s t)) (eo (r_pc s t)) (po (r_pc s t));
  ci_none : (forall t, crit (r_pc s t) = false) -> CH (r_h s) None None None None;
  ci_l : forall o l, In o UO -> In l (lks (h_o (r_h s) o)) ->
           (exists g, h_st (r_h s) l = LHeld g) \/ mine (h_st (r_h s) l) (r_pc s (l_tid (h_l (r_h s) l))) l;
  ci_u : forall o1 l1 o2 l2, In o1 UO -> In o2 UO -> In l1 (lks (h_o (r_h s) o1)) -> In l2 (lks (h_o (r_h s) o2)) ->
           h_st (r_h s) l1 = LWait -> h_st (r_h s) l2 = LWait -> l_tid (h_l (r_h s) l1) = l_tid (h_l (r_h s) l2) -> l1 = l2
}.

(** a heap that looks the same to [CH] *)
Lemma CH_same : forall h h' a b c d, CH h a b c d ->
  h_flist h' = h_flist h -> h_ffree h' = h_ffree h -> h_ofree h' = h_ofree h -> h_lfree h' = h_lfree h ->
  (forall f, h_f h' f = h_f h f) ->
  (forall o, o_rd (h_o h' o) = o_rd (h_o h o) /\ o_wr (h_o h' o) = o_wr (h_o h o) /\ o_prot (h_o h' o) = o_prot (h_o h o)) ->
  CH h' a b c d.
Proof.
  intros h h' a b c d [C1 C2 C3 C4 C5] E1 E2 E3 E4 E5 E6.
  assert (L : forall o, lks (h_o h' o) = lks (h_o h o)) by (intro o; unfold lks; destruct (E6 o) as (-> & -> & _); auto).
  constructor.
  - intros o U. rewrite E3. destruct (C1 o U) as [|(f & I & J)]; auto. right. exists f. unfold offs in *. rewrite E1, E5. auto.
  - intros f. unfold offs in *. rewrite E2, E5. auto.
  - intros l U. rewrite E4. destruct (C3 l U) as [|(o & I & J)]; auto. right. exists o. rewrite L. auto.
  - intros f. unfold offs in *. rewrite E1, E5. auto.
  - intros f o. unfold offs in *. rewrite E1, E5, L. destruct (E6 o) as (_ & _ & ->). apply C5.
Qed.

Lemma CH_weaken : forall h a b c d a' b' c' d', CH h a b c d ->
  (a = None \/ a = a') -> (b = None \/ b = b') -> (c = None \/ c = c') -> (d = None \/ d = d') -> CH h a' b' c' d'.
Proof.
  intros h a b c d a' b' c' d' [C1 C2 C3 C4 C5] A B C D. constructor; auto.
  - intros f I. destruct (C4 f I) as [P Q]. split; intro N; [apply P | apply Q]; [destruct A as [->| ->] | destruct B as [->| ->]]; congruence.
  - intros f o I J. destruct (C5 f o I J) as [P Q]. split; intro N; [apply P | apply Q]; [destruct C as [->| ->] | destruct D as [->| ->]]; congruence.
Qed.

(** leaving an exception *)
Lemma CH_leave_f : forall h f b c d, CH h (Some f) b c d -> (In f (h_flist h) -> offs h f <> []) -> CH h None b c d.
Proof.
  intros h f b c d [C1 C2 C3 C4 C5] N. constructor; auto. intros x I. destruct (C4 x I) as [P Q]. split; auto.
  intros _. destruct (Z.eq_dec x f) as [->|NE]; auto. apply P. congruence.
Qed.
Lemma CH_leave_o : forall h o a b d, CH h a b (Some o) d -> lks (h_o h o) <> [] -> CH h a b None d.
Proof.
  intros h o a b d [C1 C2 C3 C4 C5] N. constructor; auto. intros f x I J. destruct (C5 f x I J) as [P Q]. split; auto.
  intros _. destruct (Z.eq_dec x o) as [->|NE]; auto. apply P. congruence.
Qed.

Lemma CH_fprot : forall h f b v c d, CH h v None c d -> CH (set_f h f (f_set_prot (h_f h f) b)) v (Some f) c d.
Proof.
  intros h f b v c d [C1 C2 C3 C4 C5].
  assert (OF : forall x, offs (set_f h f (f_set_prot (h_f h f) b)) x = offs h x).
  { intro x. unfold offs. simpl. destruct (Z.eq_dec x f) as [->|N]; [rewrite upd_eq | rewrite upd_neq by auto]; auto. }
  constructor; simpl; auto.
  - intros o U. destruct (C1 o U) as [|(x & I & J)]; auto. right. exists x. rewrite OF. auto.
  - intros x I. rewrite OF. auto.
  - intros x I. rewrite OF. destruct (C4 x I) as [P Q]. split; auto. intros N. rewrite upd_neq by congruence. apply Q. discriminate.
  - intros x o I J. rewrite OF in J. apply (C5 x o I J).
Qed.
Lemma CH_funprot : forall h f v c d, CH h v (Some f) c d -> CH (set_f h f (f_set_prot (h_f h f) false)) v None c d.
Proof.
  intros h f v c d [C1 C2 C3 C4 C5].
  assert (OF : forall x, offs (set_f h f (f_set_prot (h_f h f) false)) x = offs h x).
  { intro x. unfold offs. simpl. destruct (Z.eq_dec x f) as [->|N]; [rewrite upd_eq | rewrite upd_neq by auto]; auto. }
  constructor; simpl; auto.
  - intros o U. destruct (C1 o U) as [|(x & I & J)]; auto. right. exists x. rewrite OF. auto.
  - intros x I. rewrite OF. auto.
  - intros x I. rewrite OF. destruct (C4 x I) as [P Q]. split; auto. intros _.
    destruct (Z.eq_dec x f) as [->|N]; [rewrite upd_eq; auto | rewrite upd_neq by auto]. apply Q. congruence.
  - intros x o I J. rewrite OF in J. apply (C5 x o I J).
Qed.
Lemma CH_oprot : forall h o b v w c, CH h v w c None -> CH (set_o h o (o_set_prot (h_o h o) b)) v w c (Some o).
Proof.
  intros h o b v w c [C1 C2 C3 C4 C5].
  assert (LK : forall x, lks (h_o (set_o h o (o_set_prot (h_o h o) b)) x) = lks (h_o h x)).
  { intro x. simpl. destruct (Z.eq_dec x o) as [->|N]; [rewrite upd_eq | rewrite upd_neq by auto]; auto. }
  constructor; auto.
  - intros l U. destruct (C3 l U) as [|(x & I & J)]; auto. right. exists x. rewrite LK. auto.
  - intros f x I J. rewrite LK. destruct (C5 f x I J) as [P Q]. split; auto. intros N. simpl. rewrite upd_neq by congruence. apply Q. discriminate.
Qed.
Lemma CH_ounprot : forall h o v w c, CH h v w c (Some o) -> CH (set_o h o (o_set_prot (h_o h o) false)) v w c None.
Proof.
  intros h o v w c [C1 C2 C3 C4 C5].
  assert (LK : forall x, lks (h_o (set_o h o (o_set_prot (h_o h o) false)) x) = lks (h_o h x)).
  { intro x. simpl. destruct (Z.eq_dec x o) as [->|N]; [rewrite upd_eq | rewrite upd_neq by auto]; auto. }
  constructor; auto.
  - intros l U. destruct (C3 l U) as [|(x & I & J)]; auto. right. exists x. rewrite LK. auto.
  - intros f x I J. rewrite LK. destruct (C5 f x I J) as [P Q]. split; auto. intros _. simpl.
    destruct (Z.eq_dec x o) as [->|N]; [rewrite upd_eq; auto | rewrite upd_neq by auto]. apply Q. congruence.
Qed.

Lemma CH_alloc_file : forall h f ff dev, HI h -> CH h None None None None -> h_ffree h = f :: ff ->
  CH (set_files (set_f h f (mkF dev true [])) (f :: h_flist h) ff) (Some f) (Some f) None None.
Proof.
  intros h f ff dev H [C1 C2 C3 C4 C5] EF.
  assert (NF : ~ In f (h_flist h)).
  { intro I. apply (flist_not_free UF UO UL UF_nd h f H I). rewrite EF. left; auto. }
  assert (NFF : ~ In f ff).
  { pose proof (files_nd UF UO UL UF_nd h H) as ND. rewrite EF in ND. apply nodup_app_iff in ND as (_ & ND & _). inversion ND; auto. }
  constructor; simpl; unfold offs in *; simpl; auto.
  - intros o U. destruct (C1 o U) as [|(x & I & J)]; auto. right. exists x. split; auto. rewrite upd_neq; auto. intros ->; auto.
  - intros x I. rewrite upd_neq by (intros ->; auto). apply C2. rewrite EF. right; auto.
  - intros x [<-|I]; [split; congruence|]. assert (x <> f) by (intros ->; auto). rewrite upd_neq by auto. destruct (C4 x I) as [P Q].
    split; intros _; [apply P | apply Q]; discriminate.
  - intros x o [<-|I]; [rewrite upd_eq; intros []|]. assert (x <> f) by (intros ->; auto). rewrite upd_neq by auto. apply C5; auto.
Qed.

Lemma CH_alloc_off : forall h f o rest off len, HI h -> CH h (Some f) (Some f) None None -> h_ofree h = o :: rest -> In f (h_flist h) ->
  let h1 := set_ofree (set_o h o (mkO off len RW_UNLOCK true [] [])) rest in
  let h2 := set_f h1 f (f_set_offs (h_f h1 f) (o :: f_offs (h_f h1 f))) in
  CH (set_f h2 f (f_set_prot (h_f h2 f) false)) None None (Some o) (Some o).
Proof.
  intros h f o rest off len H [C1 C2 C3 C4 C5] EF IF h1 h2.
  assert (FO : In o (h_ofree h)) by (rewrite EF; left; auto).
  assert (NL : forall l, ~ In l (lks (h_o h o))).
  { intros l I. apply lks_in in I as [k I]. eapply (ofree_no_lockers UF UO UL); eauto. }
  assert (NI : forall x, In x UF -> ~ In o (offs h x)).
  { intros x U I. destruct (hi_offs_used _ _ _ _ H x o U I). auto. }
  set (h' := set_f h2 f (f_set_prot (h_f h2 f) false)).
  assert (O1 : offs h' f = o :: offs h f) by (unfold h', h2, h1, offs; simpl; rewrite !upd_eq; auto).
  assert (O2 : forall x, x <> f -> offs h' x = offs h x) by (intros; unfold h', h2, h1, offs; simpl; rewrite !upd_neq by auto; auto).
  assert (P1 : f_prot (h_f h' f) = false) by (unfold h'; simpl; rewrite upd_eq; auto).
  assert (P2 : forall x, x <> f -> f_prot (h_f h' x) = f_prot (h_f h x)) by (intros; unfold h', h2, h1; simpl; rewrite !upd_neq by auto; auto).
  assert (Q : forall x, x <> o -> h_o h' x = h_o h x) by (intros; unfold h', h2, h1; simpl; rewrite !upd_neq by auto; auto).
  assert (R : h_flist h' = h_flist h /\ h_ffree h' = h_ffree h /\ h_ofree h' = rest /\ h_lfree h' = h_lfree h) by (repeat split).
  fold h'. clearbody h'. destruct R as (R1 & R2 & R3 & R4).
  assert (NFF : ~ In f (h_ffree h)) by (intro I; eapply (flist_not_free UF UO UL); eauto).
  constructor; rewrite ?R1, ?R2, ?R3, ?R4.
  - intros x U. destruct (Z.eq_dec x o) as [->|N].
    + right. exists f. rewrite O1. split; auto. left; auto.
    + destruct (C1 x U) as [I|(y & I & J)].
      * left. rewrite EF in I. destruct I; [congruence | auto].
      * right. exists y. split; auto. destruct (Z.eq_dec y f) as [->|NY]; [rewrite O1; right; auto | rewrite O2; auto].
  - intros x I. assert (x <> f) by (intros ->; auto). rewrite O2 by auto. auto.
  - intros l U. destruct (C3 l U) as [|(x & I & J)]; auto. right. exists x. split; auto. rewrite Q; auto. intros ->. eapply NL; eauto.
  - intros x I. destruct (Z.eq_dec x f) as [->|N].
    + rewrite O1, P1. split; [discriminate | auto].
    + rewrite O2, P2 by auto. destruct (C4 x I) as [A B]. split; intros _; [apply A | apply B]; congruence.
  - intros x y I J. destruct (Z.eq_dec y o) as [->|N]; [split; congruence|]. rewrite Q by auto.
    assert (J' : In y (offs h x)).
    { destruct (Z.eq_dec x f) as [->|NX]; [rewrite O1 in J; destruct J; [congruence | auto] | rewrite O2 in J; auto]. }
    destruct (C5 x y I J') as [A B]. split; intros _; [apply A | apply B]; discriminate.
Qed.

Lemma CH_alloc_locker : forall h o k l rest r, CH h None None (Some o) (Some o) -> h_lfree h = l :: rest -> In o UO ->
  let h1 := set_st (set_lfree (set_l h l r) rest) l LWait in
  let h2 := set_o h1 o (o_set_list (h_o h1 o) k (l :: o_list (h_o h1 o) k)) in
  CH (set_o h2 o (o_set_prot (h_o h2 o) false)) None None None None.
Proof.
  intros h o k l rest r [C1 C2 C3 C4 C5] EF U h1 h2. set (h' := set_o h2 o (o_set_prot (h_o h2 o) false)).
  assert (E1 : forall x, In x (lks (h_o h' o)) <-> x = l \/ In x (lks (h_o h o))).
  { intro x. unfold h', h2, h1, lks. simpl. rewrite !upd_eq. destruct k; simpl; rewrite !in_app_iff; simpl; intuition. }
  assert (E2 : forall x, x <> o -> h_o h' x = h_o h x) by (intros; unfold h', h2, h1; simpl; rewrite !upd_neq by auto; auto).
  assert (E3 : o_prot (h_o h' o) = false) by (unfold h'; simpl; rewrite upd_eq; auto).
  assert (R : h_flist h' = h_flist h /\ h_ffree h' = h_ffree h /\ h_ofree h' = h_ofree h /\ h_lfree h' = rest /\ h_f h' = h_f h) by (repeat split).
  fold h'. clearbody h'. destruct R as (R1 & R2 & R3 & R4 & R5).
  constructor; unfold offs in *; rewrite ?R1, ?R2, ?R3, ?R4, ?R5; auto.
  - intros x Ux. destruct (C3 x Ux) as [I|(y & I & J)].
    + rewrite EF in I. destruct I as [<-|I]; auto. right. exists o. split; auto. apply E1. auto.
    + right. exists y. split; auto. destruct (Z.eq_dec y o) as [->|N]; [apply E1; auto | rewrite E2; auto].
  - intros f x I J. destruct (C5 f x I J) as [A B]. destruct (Z.eq_dec x o) as [->|N].
    + split; auto. intros _ Z. assert (In l []) by (rewrite <- Z; apply E1; auto). auto.
    + rewrite E2 by auto. split; intros _; [apply A | apply B]; congruence.
Qed.

(** removing a locker from the list of [o] *)
Lemma CH_drop_locker : forall h o k l a b d, CH h a b (Some o) d -> In o UO -> In l UL ->
  CH (drop_locker h o k l) a b (Some o) d.
Proof.
  intros h o k l a b d [C1 C2 C3 C4 C5] U UL_l. set (h' := drop_locker h o k l).
  assert (E1 : forall x, x <> l -> In x (lks (h_o h o)) -> In x (lks (h_o h' o))).
  { intros x N I. unfold h', drop_locker, lks in *. simpl. rewrite upd_eq. destruct k; simpl; rewrite !in_app_iff in *; rewrite in_del; intuition. }
  assert (E2 : forall x, x <> o -> h_o h' x = h_o h x) by (intros; unfold h', drop_locker; simpl; rewrite !upd_neq by auto; auto).
  assert (E3 : o_prot (h_o h' o) = o_prot (h_o h o)) by (unfold h'; simpl; rewrite upd_eq; destruct k; auto).
  assert (R : h_flist h' = h_flist h /\ h_ffree h' = h_ffree h /\ h_ofree h' = h_ofree h /\ h_lfree h' = l :: h_lfree h /\ h_f h' = h_f h) by (repeat split).
  fold h'. clearbody h'. destruct R as (R1 & R2 & R3 & R4 & R5).
  constructor; unfold offs in *; rewrite ?R1, ?R2, ?R3, ?R4, ?R5; auto.
  - intros x Ux. destruct (Z.eq_dec x l) as [->|N]; [left; left; auto|]. destruct (C3 x Ux) as [I|(y & I & J)].
    + left; right; auto.
    + right. exists y. split; auto. destruct (Z.eq_dec y o) as [->|NY]; [apply E1; auto | rewrite E2; auto].
  - intros f x I J. destruct (C5 f x I J) as [A B]. destruct (Z.eq_dec x o) as [->|N].
    + split; [congruence|]. rewrite E3. auto.
    + rewrite E2 by auto. auto.
Qed.

Lemma CH_drop_off : forall h f o b d, HI h -> CH h (Some f) b (Some o) d -> In f (h_flist h) -> In o (offs h f) -> lks (h_o h o) = [] ->
  CH (drop_off h f o) (Some f) b None d.
Proof.
  intros h f o b d H [C1 C2 C3 C4 C5] IF IO NL. set (h' := drop_off h f o).
  assert (IU : In f UF) by (eapply flist_UF; eauto).
  assert (NFF : ~ In f (h_ffree h)) by (intro I; eapply (flist_not_free UF UO UL); eauto).
  assert (O1 : offs h' f = del o (offs h f)) by (unfold h', drop_off, offs; simpl; rewrite upd_eq; auto).
  assert (O2 : forall x, x <> f -> offs h' x = offs h x) by (intros; unfold h', drop_off, offs; simpl; rewrite upd_neq by auto; auto).
  assert (P : forall x, f_prot (h_f h' x) = f_prot (h_f h x)).
  { intro x. unfold h', drop_off; simpl. destruct (Z.eq_dec x f) as [->|N]; [rewrite upd_eq | rewrite upd_neq by auto]; auto. }
  assert (R : h_flist h' = h_flist h /\ h_ffree h' = h_ffree h /\ h_ofree h' = o :: h_ofree h /\ h_lfree h' = h_lfree h /\ h_o h' = h_o h) by (repeat split).
  fold h'. clearbody h'. destruct R as (R1 & R2 & R3 & R4 & R5).
  constructor; rewrite ?R1, ?R2, ?R3, ?R4, ?R5; auto.
  - intros x U. destruct (Z.eq_dec x o) as [->|N]; [left; left; auto|]. destruct (C1 x U) as [I|(y & I & J)]; [left; right; auto|].
    right. exists y. split; auto. destruct (Z.eq_dec y f) as [->|NY]; [rewrite O1; apply in_del; auto | rewrite O2; auto].
  - intros x I. rewrite O2 by (intros ->; auto). auto.
  - intros x I. rewrite P. destruct (C4 x I) as [A B]. split; auto. intro N. rewrite O2 by congruence. apply A. congruence.
  - intros x y I J.
    assert (N : y <> o /\ In y (offs h x)).
    { destruct (Z.eq_dec x f) as [->|NX].
      - rewrite O1 in J. apply in_del in J. tauto.
      - rewrite O2 in J by auto. split; auto. intros ->. apply NX. eapply (hi_offs_uniq _ _ _ _ H x f o); eauto. eapply flist_UF; eauto. }
    destruct N as [N J']. destruct (C5 x y I J') as [A B]. split; auto. intros _. apply A. congruence.
Qed.

Lemma CH_drop_file : forall h f c d, HI h -> CH h (Some f) None c d -> In f (h_flist h) -> offs h f = [] ->
  CH (drop_file h f) None None c d.
Proof.
  intros h f c d H [C1 C2 C3 C4 C5] IF NO. constructor; simpl; auto.
  - intros o U. destruct (C1 o U) as [|(x & I & J)]; auto. right. exists x. split; auto. apply in_del. split; auto.
    intros ->. unfold offs in J, NO. rewrite NO in J. destruct J.
  - intros x [<-|I]; auto. apply C2; auto.
  - intros x I. apply in_del in I as [I N]. destruct (C4 x I) as [A B]. split; auto. intros _. apply A. congruence.
  - intros x o I J. apply in_del in I as [I N]. apply C5 with (f := x); auto.
Qed.

(** ** Steps *)
Lemma CI_crit_step : forall s t h' p', SI s -> CI s -> crit (r_pc s t) = true ->
  CH h' (ef p') (pf p') (eo p') (po p') ->
  (forall o l, In o UO -> In l (lks (h_o h' o)) ->
     (exists g, h_st h' l = LHeld g) \/ mine (h_st h' l) (upd (r_pc s) t p' (l_tid (h_l h' l))) l) ->
  (forall o1 l1 o2 l2, In o1 UO -> In o2 UO -> In l1 (lks (h_o h' o1)) -> In l2 (lks (h_o h' o2)) ->
     h_st h' l1 = LWait -> h_st h' l2 = LWait -> l_tid (h_l h' l1) = l_tid (h_l h' l2) -> l1 = l2) ->
  CI (goto (set_h s h') t p').
Proof.
  intros s t h' p' H C CR CHH L U.
  assert (UN : forall u, crit (r_pc s u) = true -> u = t).
  { intros u Cu. pose proof (si_guard _ _ _ s H u (ci_alive s C u) Cu). pose proof (si_guard _ _ _ s H t (ci_alive s C t) CR). congruence. }
  assert (NC : crit p' = false -> ef p' = None /\ pf p' = None /\ eo p' = None /\ po p' = None).
  { destruct p'; simpl; try discriminate; auto. }
  constructor; simpl; auto.
  - apply (ci_alive s C).
  - apply (ci_mode s C).
  - intros u. destruct (Z.eq_dec u t) as [->|N]; [rewrite upd_eq; auto | rewrite upd_neq by auto]. intro Cu. exfalso. auto.
  - intros A. specialize (A t). rewrite upd_eq in A. destruct (NC A) as (E1 & E2 & E3 & E4). rewrite E1, E2, E3, E4 in CHH. auto.
Qed.

(** a step in the guarded section that leaves all lockers as they are *)
Lemma CI_crit_keep : forall s t h' p', SI s -> CI s -> crit (r_pc s t) = true ->
  CH h' (ef p') (pf p') (eo p') (po p') ->
  (forall x y, In x UO -> In y (lks (h_o h' x)) -> In y (lks (h_o (r_h s) x)) /\ h_st h' y = h_st (r_h s) y /\ h_l h' y = h_l (r_h s) y /\
       (l_tid (h_l (r_h s) y) = t -> mine (h_st (r_h s) y) (r_pc s t) y -> mine (h_st (r_h s) y) p' y)) ->
  CI (goto (set_h s h') t p').
Proof.
  intros s t h' p' H C CR CHH K. apply CI_crit_step; auto.
  - intros o l U I. destruct (K o l U I) as (I' & E1 & E2 & M). rewrite E1, E2. destruct (ci_l s C o l U I') as [G|G]; auto. right.
    destruct (Z.eq_dec (l_tid (h_l (r_h s) l)) t) as [E|N].
    + rewrite E in *. rewrite upd_eq. auto.
    + rewrite upd_neq by auto. auto.
  - intros o1 l1 o2 l2 U1 U2 I1 I2. destruct (K o1 l1 U1 I1) as (I1' & E1 & E2 & _). destruct (K o2 l2 U2 I2) as (I2' & E3 & E4 & _).
    rewrite E1, E2, E3, E4. apply (ci_u s C o1 l1 o2 l2); auto.
Qed.

Lemma CI_crit_same : forall s t p', SI s -> CI s -> crit (r_pc s t) = true ->
  CH (r_h s) (ef p') (pf p') (eo p') (po p') ->
  (forall y, mine (h_st (r_h s) y) (r_pc s t) y -> mine (h_st (r_h s) y) p' y) ->
  CI (goto s t p').
Proof.
  intros s t p' H C CR CHH M. rewrite goto_set_h_same. apply CI_crit_keep; auto. 
Qed.

Lemma lks_val : forall h o v x, lks (h_o (set_o h o (o_set_val (h_o h o) v)) x) = lks (h_o h x).
Proof. intros. simpl. destruct (Z.eq_dec x o) as [->|N]; [rewrite upd_eq | rewrite upd_neq by auto]; auto. Qed.

Lemma CH_val : forall h o v a b c d, CH h a b c d -> CH (set_o h o (o_set_val (h_o h o) v)) a b c d.
Proof.
  intros. eapply CH_same; eauto. intro x. simpl. destruct (Z.eq_dec x o) as [->|N]; [rewrite upd_eq | rewrite upd_neq by auto]; auto.
Qed.
Lemma CH_st : forall h l v a b c d, CH h a b c d -> CH (set_st h l v) a b c d.
Proof. intros. eapply CH_same; eauto. Qed.

(** the check of one locker *)
Lemma lks_drop : forall h o k l x y, In y (lks (h_o (drop_locker h o k l) x)) -> In y (lks (h_o h x)).
Proof.
  intros h o k l x y. simpl. destruct (Z.eq_dec x o) as [->|N]; [rewrite upd_eq | rewrite upd_neq by auto; auto].
  unfold lks. destruct k; simpl; rewrite !in_app_iff, in_del; tauto.
Qed.

Lemma CI_check : forall s t priv exc dev o k l p', SI s -> CI s -> crit (r_pc s t) = true ->
  In o UO -> (In l (o_list (h_o (r_h s) o) k) -> In l UL) ->
  (forall h', CH h' (ef (r_pc s t)) (pf (r_pc s t)) (Some o) (po (r_pc s t)) -> 
      (h' = r_h s \/ h' = check_locker s priv exc dev o k l) -> CH h' (ef p') (pf p') (eo p') (po p')) ->
  eo (r_pc s t) = None \/ eo (r_pc s t) = Some o ->
  (forall y, mine (h_st (r_h s) y) (r_pc s t) y -> mine (h_st (r_h s) y) p' y) ->
  CI (goto (set_h s (check_locker s priv exc dev o k l)) t p').
Proof.
  intros s t priv exc dev o k l p' H C CR U UL_l CHH EO M.
  assert (Hh := si_h _ _ _ s H).
  pose proof (ci_crit s C t CR) as CH0.
  assert (CH1 : CH (r_h s) (ef (r_pc s t)) (pf (r_pc s t)) (Some o) (po (r_pc s t))) by (eapply CH_weaken; eauto).
  assert (Q : check_locker s priv exc dev o k l = r_h s \/
     (In l (o_list (h_o (r_h s) o) k) /\ exists v, (v = r_h s \/ v = set_o (r_h s) o (o_set_val (h_o (r_h s) o) (unlock_word (o_val (h_o (r_h s) o))))) /\
        check_locker s priv exc dev o k l = set_st (drop_locker v o k l) l LDone)).
  { unfold check_locker. destruct (match exc with Some (t0, fd) => _ | None => _ end); auto.
    destruct (probe_dead _ _ _ _ _); simpl; auto. destruct (mem l (o_list (h_o (r_h s) o) k)) eqn:MM; auto. right.
    apply mem_in in MM. split; auto. destruct (l_locked (h_l (r_h s) l)); eauto. }
  destruct Q as [E|(I & v & V & E)].
  - rewrite E. rewrite <- goto_set_h_same. apply CI_crit_same; auto.
  - assert (LV : forall x, lks (h_o v x) = lks (h_o (r_h s) x)) by (intro x; destruct V as [->| ->]; auto; apply lks_val).
    assert (SV : h_st v = h_st (r_h s) /\ h_l v = h_l (r_h s)) by (destruct V as [->| ->]; auto).
    apply CI_crit_keep; auto.
    + apply CHH; auto. rewrite E. apply CH_st. apply CH_drop_locker; auto. destruct V as [->| ->]; auto. apply CH_val; auto.
    + rewrite E. intros x y Ux J. simpl in J.
      assert (J1 : In y (lks (h_o v x))) by (apply (lks_drop v o k l); auto).
      rewrite LV in J1. split; auto. simpl. destruct SV as [-> ->].
      assert (NE : y <> l).
      { intros ->.
        assert (XU : x = o).
        { destruct (Z.eq_dec x o); auto. exfalso. simpl in J. rewrite upd_neq in J by auto. 
          apply n. apply (hi_lk_uniq _ _ _ _ Hh x o l); auto. apply lks_in. eauto. }
        subst x. revert J. simpl. rewrite upd_eq. unfold lks. assert (ND := hi_lk_nd _ _ _ _ Hh o U). rewrite <- LV in ND. unfold lks in ND.
        apply nodup_app_iff in ND as (_ & _ & ND).
        assert (I' : In l (o_list (h_o v o) k)).
        { destruct V as [->| ->]; auto. simpl. rewrite upd_eq. destruct k; auto. }
        destruct k; simpl in *; rewrite in_app_iff, in_del; intros [J|J]; try tauto; eapply ND; eauto. }
      rewrite upd_neq by auto. auto.
Qed.

Lemma lks_nil : forall r, (forall k, o_list r k = []) -> lks r = [].
Proof. intros r E. unfold lks. pose proof (E Rd) as A. pose proof (E Wr) as B. simpl in A, B. rewrite A, B. auto. Qed.

Lemma off_locked_true : forall h o, lks (h_o h o) <> [] -> off_locked h o = true.
Proof.
  intros h o N. destruct (off_locked h o) eqn:E; auto. exfalso. apply N. apply lks_nil. apply off_unlocked_empty; auto.
Qed.
Lemma off_locked_lks : forall h o, off_locked h o = true -> o_prot (h_o h o) = false -> lks (h_o h o) <> [].
Proof.
  intros h o E P N. unfold off_locked in E. rewrite P in E. simpl in E. unfold lks in N. apply app_eq_nil in N as [A B]. rewrite A, B in E. discriminate.
Qed.

(** the end of the work on file [f]: it is dropped exactly when it has no range left *)
Lemma CH_file_end : forall h f, HI h -> CH h (Some f) None None None -> In f (h_flist h) ->
  CH (if file_locked h f then h else drop_file h f) None None None None.
Proof.
  intros h f H C IF. destruct (file_locked h f) eqn:E.
  - apply (CH_leave_f h f); auto. intros _ N. unfold file_locked in E.
    destruct (ch_f _ _ _ _ _ C f IF) as [_ P]. rewrite P in E by discriminate. simpl in E. unfold offs in N. rewrite N in E. discriminate.
  - apply CH_drop_file; auto. destruct (offs h f) as [|o os] eqn:EO; auto. exfalso.
    assert (IO : In o (offs h f)) by (rewrite EO; left; auto).
    destruct (ch_o _ _ _ _ _ C f o IF IO) as [A _]. apply A; [discriminate|]. apply lks_nil. intro k. eapply unlocked_lists; eauto.
Qed.
(** the end of the work on range [o] of file [f] *)
Lemma CH_off_end : forall h f o, HI h -> CH h (Some f) None (Some o) None -> In f (h_flist h) -> In o (offs h f) ->
  CH (if off_locked h o then h else drop_off h f o) (Some f) None None None.
Proof.
  intros h f o H C IF IO. destruct (off_locked h o) eqn:E.
  - apply (CH_leave_o h o); auto. apply off_locked_lks; auto. destruct (ch_o _ _ _ _ _ C f o IF IO) as [_ P]. apply P. discriminate.
  - apply CH_drop_off; auto. apply lks_nil. apply off_unlocked_empty; auto.
Qed.

Lemma if_set_h : forall (b : bool) s h' t p, goto (if b then s else set_h s h') t p = goto (set_h s (if b then r_h s else h')) t p.
Proof. intros [] s h' t p; auto. Qed.

Lemma lks_drop_off : forall h f o x, lks (h_o (drop_off h f o) x) = lks (h_o h x).
Proof. reflexivity. Qed.

Lemma CI_pass : forall s t priv fs os ls, SI s -> CI s -> r_pc s t = PP priv fs os ls -> CI (pass_step s t priv fs os ls).
Proof.
  intros s t priv fs os ls H C Ep. assert (Hh := si_h _ _ _ s H). pose proof (si_pc _ _ _ s H t (ci_alive s C t)) as P. rewrite Ep in P.
  assert (CR : crit (r_pc s t) = true) by (rewrite Ep; auto). pose proof (ci_crit s C t CR) as CC.
  assert (CC' := CC). rewrite Ep in CC'. simpl in P. destruct P as (ND & IN & IO).
  unfold pass_step. destruct fs as [|f fs].
  { apply CI_crit_same; auto. rewrite Ep. simpl. auto. }
  assert (IF : In f (h_flist (r_h s))) by (apply IN; left; auto).
  destruct os as [[|o os]|].
  - rewrite if_set_h. apply CI_crit_keep; auto.
    + simpl in CC'. simpl. replace (match fs with [] | _ => None end) with (@None Z) by (destruct fs; auto). apply CH_file_end; auto.
    + intros x y Ux. destruct (file_locked (r_h s) f); simpl; intro I; repeat split; auto; rewrite Ep; simpl; tauto.
  - destruct IO as [NDo IO]. assert (IOo : In o (offs (r_h s) f)) by (apply IO; left; auto).
    assert (Uo : In o UO) by (eapply (hi_offs_used _ _ _ _ Hh f o); eauto; eapply flist_UF; eauto).
    destruct ls as [[|[k l] ls]|].
    + rewrite if_set_h. apply CI_crit_keep; auto.
      * simpl in CC'. simpl. replace (match os with [] | _ => None end) with (@None Z) by (destruct os; auto). apply CH_off_end; auto.
      * intros x y Ux. destruct (off_locked (r_h s) o); simpl; intro I; repeat split; auto; rewrite Ep; simpl; tauto.
    + apply CI_check; auto.
      * intro I. apply (hi_lk_used _ _ _ _ Hh o l); auto. apply lks_in. eauto.
      * intros h' CHh _. rewrite Ep in CHh. simpl in CHh. simpl. auto.
      * rewrite Ep. simpl. auto.
      * rewrite Ep. simpl. auto.
    + apply CI_crit_same; auto.
      * simpl in CC'. simpl. eapply CH_weaken; eauto.
      * rewrite Ep. simpl. auto.
  - apply CI_crit_same; auto.
    + simpl in CC'. simpl. eapply CH_weaken; eauto.
    + rewrite Ep. simpl. auto.
Qed.

(** steps outside the guarded section *)
Lemma CI_move : forall s t g p' , CI s ->
  (crit (r_pc s t) = crit p' /\ crit p' = false \/ (forall u, u <> t -> crit (r_pc s u) = false)) ->
  (crit p' = true -> (ef p' = None /\ pf p' = None /\ eo p' = None /\ po p' = None) /\ crit (r_pc s t) = false) ->
  (crit p' = false -> crit (r_pc s t) = true -> ef (r_pc s t) = None /\ pf (r_pc s t) = None /\ eo (r_pc s t) = None /\ po (r_pc s t) = None) ->
  (forall y, mine (h_st (r_h s) y) (r_pc s t) y -> mine (h_st (r_h s) y) p' y) ->
  CI (goto (set_guard s g) t p').
Proof.
  intros s t g p' C A B D M. constructor; simpl.
  - apply (ci_alive s C).
  - apply (ci_mode s C).
  - intro u. destruct (Z.eq_dec u t) as [->|N]; [rewrite upd_eq | rewrite upd_neq by auto].
    + intro CR. destruct (B CR) as ((E1 & E2 & E3 & E4) & CN). rewrite E1, E2, E3, E4. apply (ci_none s C). intro v.
      destruct (Z.eq_dec v t) as [->|NV]; auto. destruct A as [[_ A]|A]; [congruence | auto].
    + intro CR. apply (ci_crit s C); auto.
  - intro NC. pose proof (NC t) as NT. rewrite upd_eq in NT.
    destruct (crit (r_pc s t)) eqn:CT.
    + destruct (D NT eq_refl) as (E1 & E2 & E3 & E4). pose proof (ci_crit s C t CT) as Q. rewrite E1, E2, E3, E4 in Q. auto.
    + apply (ci_none s C). intro v. destruct (Z.eq_dec v t) as [->|NV]; auto. specialize (NC v). rewrite upd_neq in NC; auto.
  - intros o l U I. destruct (ci_l s C o l U I) as [G|G]; auto. right.
    destruct (Z.eq_dec (l_tid (h_l (r_h s) l)) t) as [E|N]; [rewrite E in *; rewrite upd_eq; auto | rewrite upd_neq by auto; auto].
  - apply (ci_u s C).
Qed.

Lemma no_nil : forall (l : list Z) x, In x l -> l <> [].
Proof. intros l x I ->. destruct I. Qed.

Lemma CI_run : forall s t race gu, SI s -> CI s -> pools_suffice s (LRun t race gu) -> busy_cleanup s (LRun t race gu) ->
  CI (r_run s t race gu).
Proof.
  intros s t race gu H C PS BC. unfold r_run. unfold pools_suffice in PS. unfold busy_cleanup in BC.
  assert (AL := ci_alive s C t). assert (Hh := si_h _ _ _ s H). pose proof (si_pc _ _ _ s H t AL) as P.
  assert (UN : crit (r_pc s t) = true -> forall u, u <> t -> crit (r_pc s u) = false).
  { intros Ct u N. destruct (crit (r_pc s u)) eqn:Cu; auto. exfalso. apply N.
    pose proof (si_guard _ _ _ s H u (ci_alive s C u) Cu). pose proof (si_guard _ _ _ s H t AL Ct). congruence. }
  pose proof (ci_crit s C t) as CC.
  assert (RR : forall e, CI (goto s t (RRet e)) -> True) by auto. clear RR.
  assert (AF2 : forall a e, after_f2 s t a e = RWait (F3 a e)).
  { intros. unfold after_f2, my_free_fd. rewrite (ci_mode s C). auto. }
  assert (AF1 : forall a f e, after_f1 s t a f e = RWait (F2 a f e)).
  { intros. unfold after_f1, my_free_off. rewrite (ci_mode s C). auto. }
  assert (MF : my_free_fd s t = true) by (unfold my_free_fd; rewrite (ci_mode s C); auto).
  assert (MO : my_free_off s t = true) by (unfold my_free_off; rewrite (ci_mode s C); auto).
  destruct (r_pc s t) as [ |p|p|e|a|a f|a f o|a f o l|a f o l|a f o l|a f o l ls|a f o e|a f e|a e|a|a f o k l|a f o k l|a f o|a f|a|priv|priv fs os ls] eqn:Ep; simpl in P;
    try (assert (CR : crit (r_pc s t) = true) by (rewrite Ep; reflexivity); specialize (CC eq_refl); simpl in CC).
  - auto.
  - (* RWait *)
    destruct P as [P W].
    assert (Q : (forall u, u <> t -> crit (r_pc s u) = false) -> CI (goto (set_guard s (Some t)) t p)).
    { intro NG. apply CI_move; auto.
      - intros _. rewrite Ep. split; auto. destruct p; simpl in W; try contradiction; auto.
      - rewrite Ep. discriminate.
      - rewrite Ep. simpl. auto. }
    destruct (r_guard s) as [u|] eqn:EG.
    + rewrite (ci_alive s C u). auto.
    + apply Q. intros v N. destruct (crit (r_pc s v)) eqn:Cv; auto. pose proof (si_guard _ _ _ s H v (ci_alive s C v) Cv). congruence.
  - (* RDrop *)
    destruct P as [P D].
    assert (CP : crit p = false) by (destruct p; simpl in D; try contradiction; auto).
    apply CI_move; auto.
    + rewrite CP. discriminate.
    + intros _ _. rewrite Ep. auto.
    + rewrite Ep. simpl. auto.
  - (* RRet *)
    assert (Q : CI (goto (set_guard s (r_guard s)) t RIdle)).
    { apply CI_move; auto; simpl; rewrite ?Ep; auto; try discriminate. }
    destruct Q as [Q1 Q2 Q3 Q4 Q5 Q6]. constructor; auto.
  - (* A2 *)
    destruct (find_file (r_h s) (a_dev a)) as [f|] eqn:EF.
    + apply CI_crit_keep; auto.
      * simpl. eapply CH_weaken; [apply CH_fprot; exact CC| | | |]; auto.
      * intros x y Ux I. simpl in *. rewrite Ep. simpl. tauto.
    + destruct (h_ffree (r_h s)) as [|f ff] eqn:EFF.
      * apply CI_crit_same; auto. rewrite Ep. simpl. auto.
      * apply CI_crit_keep; auto.
        -- simpl. apply CH_alloc_file; auto.
        -- intros x y Ux I. simpl in *. rewrite Ep. simpl. tauto.
  - (* A3 *)
    destruct P as [IF DF].
    destruct (find_off (r_h s) f (a_off a) (a_len a)) as [o|] eqn:EO.
    + apply find_off_some in EO as [IO RM]. apply CI_crit_keep; auto.
      * simpl. apply (CH_leave_f _ f).
        -- apply (CH_funprot (set_o (r_h s) o (o_set_prot (h_o (r_h s) o) true)) f). eapply CH_weaken; [apply CH_oprot; exact CC| | | |]; auto.
        -- intros _. apply (no_nil _ o). unfold offs. simpl. rewrite upd_eq. auto.
      * intros x y Ux I. simpl in *. rewrite Ep. simpl. split; [|tauto]. revert I.
        destruct (Z.eq_dec x o) as [->|N]; [rewrite upd_eq | rewrite upd_neq by auto]; auto.
    + destruct (h_ofree (r_h s)) as [|o rest] eqn:EFO; [exfalso; apply (PS eq_refl); auto|].
      apply CI_crit_keep; auto.
      * simpl. apply CH_alloc_off; auto.
      * intros x y Ux I. simpl in *. rewrite Ep. simpl. split; [|tauto]. revert I.
        destruct (Z.eq_dec x o) as [->|N]; [rewrite upd_eq; intros [] | rewrite upd_neq by auto]; auto.
  - (* A4 *)
    destruct P as (IF & IO & DF & RM).
    destruct (h_lfree (r_h s)) as [|l rest] eqn:EFL; [exfalso; apply PS; auto|].
    assert (Uo : In o UO) by (eapply (hi_offs_used _ _ _ _ Hh f o); eauto; eapply flist_UF; eauto).
    assert (FL : In l (h_lfree (r_h s))) by (rewrite EFL; left; auto).
    match goal with |- CI (goto (set_h s ?x) _ _) => set (h' := x) end.
    assert (CH' : CH h' None None None None) by (apply CH_alloc_locker; auto).
    assert (L1 : forall x y, In x UO -> In y (lks (h_o h' x)) -> (y = l) \/ y <> l /\ In y (lks (h_o (r_h s) x))).
    { intros x y Ux I. destruct (Z.eq_dec y l) as [|N]; auto. right. split; auto. revert I. unfold h'. simpl.
      destruct (Z.eq_dec x o) as [->|NX]; [rewrite !upd_eq | rewrite !upd_neq by auto; auto].
      destruct (a_kind a); unfold lks; simpl; rewrite !in_app_iff; simpl; intuition; congruence. }
    assert (E1 : forall y, y <> l -> h_l h' y = h_l (r_h s) y /\ h_st h' y = h_st (r_h s) y).
    { intros y N. unfold h'. simpl. rewrite !upd_neq by auto. auto. }
    assert (E2 : h_l h' l = mkL t (a_fd a) false /\ h_st h' l = LWait) by (unfold h'; simpl; rewrite !upd_eq; auto).
    clearbody h'. destruct E2 as [E2 E3].
    assert (NW : forall x y, In x UO -> In y (lks (h_o (r_h s) x)) -> h_st (r_h s) y = LWait -> l_tid (h_l (r_h s) y) = t -> False).
    { intros x y Ux I S T. destruct (ci_l s C x y Ux I) as [[g G]|G]; [congruence|]. rewrite T, Ep in G. auto. }
    apply CI_crit_step; auto.
    + intros x y Ux I. destruct (L1 x y Ux I) as [->|[N I']].
      * right. rewrite E2, E3. simpl. rewrite upd_eq. simpl. auto.
      * destruct (E1 y N) as [-> ->]. destruct (ci_l s C x y Ux I') as [G|G]; auto. right.
        destruct (Z.eq_dec (l_tid (h_l (r_h s) y)) t) as [E|NE]; [rewrite E, Ep in G; destruct G | rewrite upd_neq; auto].
    + intros o1 l1 o2 l2 U1 U2 I1 I2 S1 S2 T.
      destruct (L1 _ _ U1 I1) as [->|[N1 I1']]; destruct (L1 _ _ U2 I2) as [->|[N2 I2']]; auto.
      * exfalso. destruct (E1 l2 N2) as [Q1 Q2]. rewrite E2, Q1 in T. simpl in T. rewrite Q2 in S2. apply (NW o2 l2); auto.
      * exfalso. destruct (E1 l1 N1) as [Q1 Q2]. rewrite E2, Q1 in T. simpl in T. rewrite Q2 in S1. apply (NW o1 l1); auto.
      * destruct (E1 l1 N1) as [Q1 Q2]. destruct (E1 l2 N2) as [Q3 Q4]. rewrite Q1, Q3 in T. rewrite Q2 in S1. rewrite Q4 in S2.
        apply (ci_u s C o1 l1 o2 l2); auto.
  - (* AT *)
    destruct P as (A & DF & EL & RM & ES).
    destruct (word_permits _ _ && _).
    + match goal with |- CI (goto (set_h s ?x) _ _) => set (h' := x) end.
      assert (LK : forall x, lks (h_o h' x) = lks (h_o (r_h s) x)) by (intro x; unfold h'; apply lks_val).
      assert (CHk : forall a b c d, CH (r_h s) a b c d -> CH h' a b c d) by (intros; apply CH_st; apply CH_val; auto).
      assert (E1 : h_l h' = h_l (r_h s)) by reflexivity.
      assert (E2 : forall x, x <> l -> h_st h' x = h_st (r_h s) x) by (intros; unfold h'; simpl; apply upd_neq; auto).
      assert (E3 : h_st h' l = LAcq) by (unfold h'; simpl; apply upd_eq). clearbody h'.
      constructor; simpl.
      * apply (ci_alive s C).
      * apply (ci_mode s C).
      * intro u. destruct (Z.eq_dec u t) as [->|N]; [rewrite upd_eq; discriminate | rewrite upd_neq by auto]. intro. apply CHk. apply (ci_crit s C); auto.
      * intro NC. apply CHk. apply (ci_none s C). intro v. destruct (Z.eq_dec v t) as [->|NV]; [rewrite Ep; auto|]. specialize (NC v). rewrite upd_neq in NC; auto.
      * intros x y Ux. rewrite LK, E1. intro I. destruct (Z.eq_dec y l) as [->|N].
        -- right. rewrite EL. simpl. rewrite upd_eq. simpl. auto.
        -- rewrite E2 by auto. destruct (ci_l s C x y Ux I) as [G|G]; auto. right.
           destruct (Z.eq_dec (l_tid (h_l (r_h s) y)) t) as [E|NE]; [|rewrite upd_neq; auto]. rewrite E, Ep in G. simpl in G. congruence.
      * intros o1 l1 o2 l2. rewrite !LK, E1. intros U1 U2 I1 I2 S1 S2. assert (l1 <> l) by congruence. assert (l2 <> l) by congruence.
        rewrite E2 in S1, S2 by auto. apply (ci_u s C o1 l1 o2 l2); auto.
    + assert (Q : forall p', (p' = F1 a f o EBUSY \/ p' = F1 a f o ETIMEDOUT \/ p' = AD0 a f o l) -> CI (goto s t (RWait p'))).
      { intros p' Q. change (CI (goto (set_guard s (r_guard s)) t (RWait p'))). apply CI_move; auto.
        - left. rewrite Ep. auto.
        - discriminate.
        - rewrite Ep. discriminate.
        - intros y M. rewrite Ep in M. simpl in M. subst y. destruct Q as [->|[->| ->]]; simpl; auto. }
      destruct (a_wait a); auto; destruct gu; auto.
  - (* AS *)
    destruct P as (A & DF & EL & RM & ES).
    match goal with |- CI (ret (set_h s ?x) _ _) => set (h' := x) end.
    assert (LK : forall x, lks (h_o h' x) = lks (h_o (r_h s) x)) by reflexivity.
    assert (CHk : forall a b c d, CH (r_h s) a b c d -> CH h' a b c d) by (intros; eapply CH_same; eauto; reflexivity).
    assert (E1 : forall x, x <> l -> h_l h' x = h_l (r_h s) x) by (intros; unfold h'; simpl; apply upd_neq; auto).
    assert (E2 : forall x, x <> l -> h_st h' x = h_st (r_h s) x) by (intros; unfold h'; simpl; apply upd_neq; auto).
    assert (E3 : exists g, h_st h' l = LHeld g) by (eexists; unfold h'; simpl; apply upd_eq). clearbody h'.
    constructor; simpl.
    + apply (ci_alive s C).
    + apply (ci_mode s C).
    + intro u. destruct (Z.eq_dec u t) as [->|N]; [rewrite upd_eq; discriminate | rewrite upd_neq by auto]. intro. apply CHk. apply (ci_crit s C); auto.
    + intro NC. apply CHk. apply (ci_none s C). intro v. destruct (Z.eq_dec v t) as [->|NV]; [rewrite Ep; auto|]. specialize (NC v). rewrite upd_neq in NC; auto.
    + intros x y Ux. rewrite LK. intro I. destruct (Z.eq_dec y l) as [->|N]; auto.
      rewrite E1, E2 by auto. destruct (ci_l s C x y Ux I) as [G|G]; auto. right.
      destruct (Z.eq_dec (l_tid (h_l (r_h s) y)) t) as [E|NE]; [|rewrite upd_neq; auto]. rewrite E, Ep in G. simpl in G. congruence.
    + intros o1 l1 o2 l2. rewrite !LK. intros U1 U2 I1 I2 S1 S2. destruct E3 as [g E3]. assert (l1 <> l) by congruence. assert (l2 <> l) by congruence.
      rewrite E2 in S1, S2 by auto. rewrite !E1 by auto. apply (ci_u s C o1 l1 o2 l2); auto.
  - (* AD0 *)
    apply CI_crit_keep; auto.
    + simpl. apply CH_oprot; auto.
    + intros x y Ux I. rewrite Ep. simpl in *. split; [|tauto]. revert I. destruct (Z.eq_dec x o) as [->|N]; [rewrite upd_eq | rewrite upd_neq by auto]; auto.
  - (* AD *)
    destruct ls as [|[k x] ls].
    + apply CI_crit_keep; auto.
      * simpl. apply CH_ounprot; auto.
      * intros x y Ux I. rewrite Ep. simpl in *. split; [|tauto]. revert I. destruct (Z.eq_dec x o) as [->|N]; [rewrite upd_eq | rewrite upd_neq by auto]; auto.
    + assert (S' : SI (r_run s t race gu)) by (apply SI_run; auto).
      unfold r_run in S'. rewrite Ep in S'.
      pose proof (si_pc _ _ _ _ S' t) as P'. simpl in P'. rewrite upd_eq in P'. specialize (P' AL). simpl in P'.
      assert (Uo : In o UO) by (eapply at_UO; eauto; apply P).
      apply CI_check; auto.
      * intro I. apply (hi_lk_used _ _ _ _ Hh o x); auto. apply lks_in. eauto.
      * intros h' CHh EQ. rewrite Ep in CHh. simpl in CHh. simpl. apply (CH_leave_o h' o); auto.
        destruct EQ as [->| ->]; apply (no_nil _ l); apply lks_in; exists (a_kind a); [apply P | apply P'].
      * rewrite Ep. auto.
      * rewrite Ep. simpl. auto.
  - (* F1 *)
    destruct P as [l0 P].
    destruct (find_locker (r_h s) (o_list (h_o (r_h s) o) (a_kind a)) t (a_fd a) false) as [l|] eqn:EF.
    + apply find_locker_some in EF as [I EL]. rewrite AF1.
      assert (Uo : In o UO) by (eapply at_UO; eauto; apply P).
      assert (Il : In l (lks (h_o (r_h s) o))) by (apply lks_in; eauto).
      assert (OWs : h_st (r_h s) l = LWait).
      { destruct (ci_l s C o l Uo Il) as [[g G]|G].
        - destruct (hi_lk _ _ _ _ Hh o _ l Uo I) as (LK & _). rewrite EL, G in LK. simpl in LK. discriminate.
        - rewrite EL in G. simpl in G. rewrite Ep in G. auto. }
      apply CI_crit_keep; auto.
      * simpl. apply (CH_leave_o _ o).
        -- apply CH_st. apply CH_drop_locker; auto; [|eapply (hi_lk_used _ _ _ _ Hh o l); eauto]. eapply CH_weaken; eauto.
        -- intro N. simpl in N. rewrite upd_eq in N. revert BC N. unfold lks. intros BC N. apply app_eq_nil in N as [N1 N2].
           rewrite app_length in BC. assert (ND := hi_lk_nd _ _ _ _ Hh o Uo). unfold lks in ND. apply nodup_app_iff in ND as (ND1 & ND2 & _).
           destruct (a_kind a); simpl in N1, N2, I.
           ++ rewrite N2 in BC. rewrite (del_length l (o_rd (h_o (r_h s) o)) ND1 I), N1 in BC. simpl in BC. lia.
           ++ rewrite N1 in BC. rewrite (del_length l (o_wr (h_o (r_h s) o)) ND2 I), N2 in BC. simpl in BC. lia.
      * intros x y Ux J. assert (J0 := J). apply (lks_drop (r_h s) o (a_kind a) l) in J. split; auto.
        assert (NE : y <> l).
        { intros ->. assert (x = o) by (eapply (hi_lk_uniq _ _ _ _ Hh x o l); eauto). subst x. revert J0. simpl. rewrite upd_eq.
          assert (ND := hi_lk_nd _ _ _ _ Hh o Uo). unfold lks in ND. apply nodup_app_iff in ND as (_ & _ & ND).
          unfold lks. destruct (a_kind a); simpl in *; rewrite in_app_iff, in_del; intros [J0|J0]; try tauto; eapply ND; eauto. }
        simpl. rewrite upd_neq by auto. split; auto. split; auto. intros T M. rewrite Ep in M. simpl in M. exfalso.
        apply NE. apply (ci_u s C x y o l); auto. rewrite T, EL. auto.
    + exfalso. destruct P as ((_ & _ & A) & _ & EL & _). unfold find_locker in EF. eapply find_none in EF; [|exact A].
      simpl in EF. rewrite EL in EF. simpl in EF. rewrite !Z.eqb_refl in EF. discriminate.
  - (* F2 *)
    rewrite AF2.
    assert (Q : CI (goto s t (RDrop (RWait (F3 a e))))) by (apply CI_crit_same; auto; rewrite Ep; simpl; auto).
    destruct (find_off (r_h s) f (a_off a) (a_len a)) as [o|] eqn:EO; auto.
    apply find_off_some in EO as [IO RM].
    assert (IF : In f (h_flist (r_h s))).
    { assert (X : In f (h_flist (r_h s) ++ h_ffree (r_h s))) by (eapply Permutation_in; [apply Permutation_sym; apply (hi_files _ _ _ _ Hh) | auto]).
      apply in_app_iff in X as [X|X]; auto. rewrite (ch_ffree _ _ _ _ _ CC f X) in IO. destruct IO. }
    rewrite off_locked_true; auto. apply (ch_o _ _ _ _ _ CC f o IF IO). discriminate.
  - (* F3 *)
    assert (Q : CI (goto s t (RDrop (RRet e)))) by (apply CI_crit_same; auto; rewrite Ep; simpl; auto).
    destruct (find_file (r_h s) (a_dev a)) as [f|] eqn:EF; auto.
    apply find_file_some in EF as [IF DF].
    destruct (file_locked (r_h s) f) eqn:FL; auto. exfalso.
    destruct (ch_f _ _ _ _ _ CC f IF) as [A _]. specialize (A ltac:(discriminate)).
    destruct (offs (r_h s) f) as [|o os] eqn:EO; [auto|].
    assert (IO : In o (offs (r_h s) f)) by (rewrite EO; left; auto).
    destruct (ch_o _ _ _ _ _ CC f o IF IO) as [B _]. apply B; [discriminate|]. apply lks_nil. intro k. eapply unlocked_lists; eauto.
  - (* B2 *)
    assert (Q0 : forall e, CI (goto s t (RDrop (RRet e)))) by (intro e; apply CI_crit_same; auto; rewrite Ep; simpl; auto).
    destruct (find_file (r_h s) (a_dev a)) as [f|] eqn:EF; auto.
    apply find_file_some in EF as [IF DF].
    destruct (find_off (r_h s) f (a_off a) (a_len a)) as [o|] eqn:EO; auto.
    apply find_off_some in EO as [IO RM].
    assert (Q : forall k l, In l (o_list (h_o (r_h s) o) k) -> h_l (r_h s) l = mkL t (a_fd a) true ->
       CI (goto (set_h s (set_st (set_o (r_h s) o (o_set_val (h_o (r_h s) o) (unlock_word (o_val (h_o (r_h s) o))))) l LRel)) t (B3 a f o k l))).
    { intros k l I EL. apply CI_crit_step; auto.
      - simpl. apply CH_st. apply CH_val. auto.
      - intros x y Ux J. simpl in J. change (In y (lks (h_o (set_o (r_h s) o (o_set_val (h_o (r_h s) o) (unlock_word (o_val (h_o (r_h s) o))))) x))) in J.
        rewrite lks_val in J. simpl. destruct (Z.eq_dec y l) as [->|N].
        + right. rewrite EL. simpl. rewrite !upd_eq. simpl. auto.
        + rewrite upd_neq by auto. destruct (ci_l s C x y Ux J) as [G|G]; auto. right.
          destruct (Z.eq_dec (l_tid (h_l (r_h s) y)) t) as [E|NE]; [rewrite E, Ep in G; destruct G | rewrite upd_neq by auto; auto].
      - intros o1 l1 o2 l2 U1 U2 I1 I2 S1 S2 T. simpl in S1, S2.
        change (In l1 (lks (h_o (set_o (r_h s) o (o_set_val (h_o (r_h s) o) (unlock_word (o_val (h_o (r_h s) o))))) o1))) in I1.
        change (In l2 (lks (h_o (set_o (r_h s) o (o_set_val (h_o (r_h s) o) (unlock_word (o_val (h_o (r_h s) o))))) o2))) in I2.
        rewrite lks_val in I1, I2.
        assert (l1 <> l) by (intros ->; rewrite upd_eq in S1; discriminate). assert (l2 <> l) by (intros ->; rewrite upd_eq in S2; discriminate).
        rewrite upd_neq in S1, S2 by auto. apply (ci_u s C o1 l1 o2 l2); auto. }
    destruct (find_locker (r_h s) (o_wr (h_o (r_h s) o)) t (a_fd a) true) as [l|] eqn:EL.
    + apply find_locker_some in EL as [I EL]. apply (Q Wr l I EL).
    + destruct (find_locker (r_h s) (o_rd (h_o (r_h s) o)) t (a_fd a) true) as [l|] eqn:EL2; auto.
      apply find_locker_some in EL2 as [I EL2]. apply (Q Rd l I EL2).
  - (* B3 *)
    destruct P as (A & EL & ES). apply CI_crit_step; auto.
    + simpl. eapply CH_same; [exact CC|..]; auto.
    + intros x y Ux J. simpl in *. destruct (Z.eq_dec y l) as [->|N].
      * right. rewrite !upd_eq, EL. simpl. rewrite upd_eq. simpl. auto.
      * rewrite (upd_neq _ (h_l (r_h s)) l), (upd_neq _ (h_st (r_h s)) l) by auto. destruct (ci_l s C x y Ux J) as [G|G]; auto. right.
        destruct (Z.eq_dec (l_tid (h_l (r_h s) y)) t) as [E|NE]; [rewrite E, Ep in G; simpl in G; congruence | rewrite upd_neq by auto; auto].
    + intros o1 l1 o2 l2 U1 U2 I1 I2 S1 S2. simpl in *.
      assert (l1 <> l) by (intros ->; rewrite upd_eq in S1; discriminate). assert (l2 <> l) by (intros ->; rewrite upd_eq in S2; discriminate).
      rewrite upd_neq in S1, S2 by auto. rewrite !upd_neq by auto. apply (ci_u s C o1 l1 o2 l2); auto.
  - (* B4 *)
    destruct P as (A & EL & ES). assert (Uo : In o UO) by (eapply at_UO; eauto).
    assert (Il : In l (lks (h_o (r_h s) o))) by (apply lks_in; exists k; apply A).
    apply CI_crit_keep; auto.
    + simpl. apply CH_drop_locker; auto; [|eapply (hi_lk_used _ _ _ _ Hh o l); eauto]. eapply CH_weaken; eauto.
    + intros x y Ux J. assert (J0 := J). apply lks_drop in J. split; auto. split; auto. split; auto. intros T M.
      rewrite Ep in M. simpl in M. subst y. exfalso.
      assert (x = o) by (eapply (hi_lk_uniq _ _ _ _ Hh x o l); eauto). subst x. revert J0. simpl. rewrite upd_eq.
      assert (ND := hi_lk_nd _ _ _ _ Hh o Uo). unfold lks in ND. apply nodup_app_iff in ND as (_ & _ & ND).
      destruct A as (_ & _ & A). unfold lks. destruct k; simpl in *; rewrite in_app_iff, in_del; intros [J0|J0]; try tauto; eapply ND; eauto.
  - (* B5 *)
    destruct P as (IF & IO). rewrite MO. simpl.
    replace (if negb (off_locked (r_h s) o) then set_h s (drop_off (r_h s) f o) else s)
       with (if off_locked (r_h s) o then s else set_h s (drop_off (r_h s) f o)) by (destruct (off_locked (r_h s) o); auto).
    rewrite if_set_h. apply CI_crit_keep; auto.
    + simpl. apply CH_off_end; auto. eapply CH_weaken; eauto.
    + intros x y Ux. destruct (off_locked (r_h s) o); simpl; intro I; repeat split; auto; rewrite Ep; simpl; tauto.
  - (* B6 *)
    rewrite MF. simpl.
    replace (if negb (file_locked (r_h s) f) then set_h s (drop_file (r_h s) f) else s)
       with (if file_locked (r_h s) f then s else set_h s (drop_file (r_h s) f)) by (destruct (file_locked (r_h s) f); auto).
    rewrite if_set_h. apply CI_crit_keep; auto.
    + simpl. apply CH_file_end; auto.
    + intros x y Ux. destruct (file_locked (r_h s) f); simpl; intro I; repeat split; auto; rewrite Ep; simpl; tauto.
  - (* Q2 *)
    destruct (find_file (r_h s) (a_dev a)) as [f|] eqn:EF; apply CI_crit_same; auto; rewrite Ep; simpl; auto.
  - (* P0 *)
    apply CI_crit_same; auto.
    + simpl. destruct (h_flist (r_h s)); auto.
    + rewrite Ep. simpl. auto.
  - (* PP *)
    apply CI_pass; auto.
Qed.

Definition conserving (s : rstate) (x : rlabel) : Prop :=
  careful s x /\ no_deaths s x /\ no_mode_change s x /\ pools_suffice s x /\ busy_cleanup s x.

Lemma CI_step : forall s x, SI s -> CI s -> conserving s x -> CI (r_step s x).
Proof.
  intros s x H C (CF & ND & NM & PS & BC). destruct x as [t c|t race gu|p fd d|p m|t|p]; simpl; try contradiction.
  - destruct (alive s t); auto. destruct (r_pc s t) eqn:Ep; auto.
    assert (Q : forall p', crit p' = false -> CI (goto (set_guard s (r_guard s)) t p')).
    { intros p' N. apply CI_move; auto; rewrite ?Ep; simpl; auto; try tauto; try discriminate. rewrite N. discriminate. }
    assert (Q' : forall e, CI (ret s t e)).
    { intro e. destruct (Q RIdle eq_refl) as [Q1 Q2 Q3 Q4 Q5 Q6]. constructor; auto. }
    unfold r_call. destruct c; try destruct (dev_of s t _); auto; try (apply (Q (RWait _)); auto).
  - rewrite (ci_alive s C t). apply CI_run; auto.
  - destruct C as [C1 C2 C3 C4 C5 C6]. constructor; auto.
  - simpl in NM. subst m. destruct C as [C1 C2 C3 C4 C5 C6]. constructor; auto. intro q. simpl.
    unfold upd. destruct (q =? p); auto.
Qed.

Lemma CI_init : forall fds allow, CI (r_init UF UO UL fds (fun _ => FREE_FD) allow).
Proof.
  intros fds allow. constructor; simpl; auto; try discriminate.
  - intros _. constructor; simpl; auto; intros; contradiction.
Qed.

Lemma CI_reach : forall fds allow s, r_reach (r_init UF UO UL fds (fun _ => FREE_FD) allow) conserving s -> SI s /\ CI s.
Proof.
  intros fds allow s R. induction R as [|s x R [IH1 IH2] OK].
  - split; [apply SI_init; auto | apply CI_init].
  - split; [eapply SI_step; eauto; apply OK | apply CI_step; auto].
Qed.

(** with nobody in a call and nothing held, everything is back in the pools *)
Lemma quiet_pools : forall s, SI s -> CI s -> (forall t, r_pc s t = RIdle) -> (forall l g, h_st (r_h s) l <> LHeld g) ->
  h_flist (r_h s) = [] /\ Permutation (h_ffree (r_h s)) UF /\ Permutation (h_ofree (r_h s)) UO /\ Permutation (h_lfree (r_h s)) UL.
Proof.
  intros s H C ID NH. assert (Hh := si_h _ _ _ s H).
  assert (CC : CH (r_h s) None None None None) by (apply (ci_none s C); intro t; rewrite ID; auto).
  assert (NL : forall o, In o UO -> lks (h_o (r_h s) o) = []).
  { intros o U. destruct (lks (h_o (r_h s) o)) as [|l ls] eqn:E; auto. exfalso.
    destruct (ci_l s C o l U) as [[g G]|G]; [rewrite E; left; auto | eapply NH; eauto | rewrite ID in G; auto]. }
  assert (NF : h_flist (r_h s) = []).
  { destruct (h_flist (r_h s)) as [|f fs] eqn:E; auto. exfalso.
    assert (IF : In f (h_flist (r_h s))) by (rewrite E; left; auto).
    destruct (ch_f _ _ _ _ _ CC f IF) as [A _]. specialize (A ltac:(discriminate)).
    destruct (offs (r_h s) f) as [|o os] eqn:EO; [auto|].
    assert (IO : In o (offs (r_h s) f)) by (rewrite EO; left; auto).
    destruct (ch_o _ _ _ _ _ CC f o IF IO) as [B _]. apply B; [discriminate|]. apply NL.
    eapply (hi_offs_used _ _ _ _ Hh f o); eauto. eapply flist_UF; eauto. }
  split; auto. split; [|split].
  - pose proof (hi_files _ _ _ _ Hh) as P. rewrite NF in P. auto.
  - apply NoDup_Permutation; auto; [apply (hi_ofree _ _ _ _ Hh)|]. intro o. split; [apply (hi_ofree _ _ _ _ Hh)|].
    intro U. destruct (ch_off _ _ _ _ _ CC o U) as [|(f & I & _)]; auto. rewrite NF in I. destruct I.
  - apply NoDup_Permutation; auto; [apply (hi_lfree _ _ _ _ Hh)|]. intro l. split; [apply (hi_lfree _ _ _ _ Hh)|].
    intro U. destruct (ch_loc _ _ _ _ _ CC l U) as [|(o & I & J)]; auto. rewrite NL in J by auto. destruct J.
Qed.
End Conserve.
