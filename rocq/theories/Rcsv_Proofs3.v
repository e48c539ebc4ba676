(** The structure of stack, masters and pending objects, and its changes. *)
From Verif Require Import Base Rcsv_Model Rcsv_Spec.
From Coq Require Import ZArith List Bool Lia Permutation.
Import ListNotations.
Open Scope Z_scope.

(** holds a shared lock of its own *)
Definition root (f : Z -> obj) (x : Z) : Prop :=
  o_alive (f x) = true /\ o_locked (f x) = true /\ o_has (f x) = true /\ o_master (f x) = None /\ o_type (f x) <> UNL.
(** pending behind [x] *)
Definition child (f : Z -> obj) (x y : Z) : Prop :=
  o_alive (f y) = true /\ o_locked (f y) = true /\ o_has (f y) = false /\ o_master (f y) = Some x /\ o_type (f y) <> UNL.
Definition free (f : Z -> obj) (y : Z) : Prop :=
  o_locked (f y) = false /\ o_has (f y) = false /\ o_master (f y) = None /\ o_pend (f y) = [].

Record G (f : Z -> obj) (k : list Z) : Prop := mkG {
  g_nd : NoDup k;
  g_st : forall x, In x k -> root f x;
  g_pe : forall x y, In y (o_pend (f x)) -> root f x /\ child f x y;
  g_pn : forall x, NoDup (o_pend (f x));
  g_lo : forall y, o_locked (f y) = true -> root f y \/ exists x, child f x y /\ In y (o_pend (f x));
  g_un : forall y, o_locked (f y) = false -> free f y;
  g_wr : forall x y, In y (o_pend (f x)) -> o_type (f y) = WR -> o_type (f x) = WR }.

(** ranges are equal or apart; [rs]: objects just taken out of the stack *)
Record T (F : key -> Prop) (rs : list Z) (f : Z -> obj) (k : list Z) : Prop := mkT {
  t_in : forall y, root f y -> In y k \/ In y rs;
  t_one : forall x y, In x k -> In y k -> key_of (f x) = key_of (f y) -> x = y;
  t_pe : forall x y, In y (o_pend (f x)) -> key_of (f y) = key_of (f x);
  t_fam : forall y, o_locked (f y) = true -> F (key_of (f y)) }.

Lemma root_child : forall f x y, root f y -> child f x y -> False.
Proof. intros f x y (_ & _ & _ & A & _) (_ & _ & _ & B & _). congruence. Qed.
Lemma child_pend : forall f k x y, G f k -> child f x y -> o_pend (f y) = [].
Proof.
  intros f k x y H C. destruct (o_pend (f y)) as [|z r] eqn:E; auto. exfalso.
  destruct (g_pe _ _ H y z) as [R _]; [rewrite E; now left|]. exact (root_child _ _ _ R C).
Qed.
Lemma free_not_in : forall f k y, G f k -> o_locked (f y) = false -> ~ In y k.
Proof. intros f k y H E I. destruct (g_st _ _ H y I) as (_ & L & _). congruence. Qed.
Lemma free_not_pend : forall f k x y, G f k -> o_locked (f y) = false -> ~ In y (o_pend (f x)).
Proof. intros f k x y H E I. destruct (g_pe _ _ H x y I) as (_ & _ & L & _). congruence. Qed.
Lemma not_self : forall f k x, G f k -> ~ In x (o_pend (f x)).
Proof. intros f k x H I. destruct (g_pe _ _ H x x I) as [A B]. exact (root_child _ _ _ A B). Qed.

(** identity of the objects *)
Definition same_id (f f' : Z -> obj) : Prop :=
  forall z, o_alive (f' z) = o_alive (f z) /\ key_of (f' z) = key_of (f z).

(** *** Changes of an unlocked object that keep it unlocked *)
Lemma G_other : forall f f' k o, G f k -> free f o -> free f' o -> (forall z, z <> o -> f' z = f z) -> G f' k.
Proof.
  intros f f' k o H FR FR' E.
  assert (RE : forall x, root f x -> root f' x).
  { intros x R. unfold root in *. destruct (Z.eq_dec x o) as [->|N]; [destruct FR as [A _]; destruct R as (_ & B & _); congruence|].
    now rewrite (E x N). }
  assert (CE : forall x y, child f x y -> child f' x y).
  { intros x y R. unfold child in *. destruct (Z.eq_dec y o) as [->|N]; [destruct FR as [A _]; destruct R as (_ & B & _); congruence|].
    now rewrite (E y N). }
  destruct FR as (A1 & A2 & A3 & A4). pose proof FR' as (B1 & B2 & B3 & B4).
  constructor.
  - apply (g_nd _ _ H).
  - intros x I. apply RE. now apply (g_st _ _ H).
  - intros x y I. destruct (Z.eq_dec x o) as [->|N]; [rewrite B4 in I; destruct I|].
    rewrite (E x N) in I. destruct (g_pe _ _ H x y I). auto.
  - intros x. destruct (Z.eq_dec x o) as [->|N]; [rewrite B4; constructor|]. rewrite (E x N). apply (g_pn _ _ H).
  - intros y L. destruct (Z.eq_dec y o) as [->|N]; [congruence|]. rewrite (E y N) in L.
    destruct (g_lo _ _ H y L) as [R|(x & C & I)]; [left; auto|right]. exists x. split; auto.
    destruct (Z.eq_dec x o) as [->|N']; [rewrite A4 in I; destruct I|]. now rewrite (E x N').
  - intros y L. destruct (Z.eq_dec y o) as [->|N]; [exact FR'|]. unfold free. rewrite (E y N) in *.
    apply (g_un _ _ H y L).
  - intros x y I. destruct (Z.eq_dec x o) as [->|N]; [rewrite B4 in I; destruct I|].
    rewrite (E x N) in *. assert (y <> o) by (intros ->; exact (free_not_pend _ _ _ _ H A1 I)).
    rewrite (E y) by auto. now apply (g_wr _ _ H).
Qed.

Lemma T_other : forall F rs f f' k o, T F rs f k -> G f k -> free f o -> free f' o ->
  (forall z, z <> o -> f' z = f z) -> T F rs f' k.
Proof.
  intros F rs f f' k o H HG FR FR' E.
  destruct FR as (A1 & A2 & A3 & A4). pose proof FR' as (B1 & B2 & B3 & B4).
  assert (NI : ~ In o k) by (now apply (free_not_in f)).
  constructor.
  - intros y R. destruct (Z.eq_dec y o) as [->|N]; [destruct R as (_ & X & _); congruence|].
    apply (t_in _ _ _ _ H). unfold root in *. now rewrite (E y N) in R.
  - intros x y I J K. assert (x <> o) by (intros ->; auto). assert (y <> o) by (intros ->; auto).
    rewrite !E in K by auto. now apply (t_one _ _ _ _ H).
  - intros x y I. destruct (Z.eq_dec x o) as [->|N]; [rewrite B4 in I; destruct I|].
    rewrite (E x N) in *. assert (y <> o) by (intros ->; exact (free_not_pend _ _ _ _ HG A1 I)).
    rewrite (E y) by auto. now apply (t_pe _ _ _ _ H).
  - intros y L. destruct (Z.eq_dec y o) as [->|N]; [congruence|]. rewrite (E y N) in *. now apply (t_fam _ _ _ _ H).
Qed.

(** *** A pending object leaves *)
Lemma erase_in : forall o l x, In x (erase o l) -> In x l.
Proof.
  induction l as [|y r IH]; intros x I; cbn in *; auto.
  destruct (y =? o); [auto|]. destruct I as [->|I]; auto.
Qed.
Lemma erase_nd : forall o l, NoDup l -> NoDup (erase o l) /\ ~ In o (erase o l).
Proof.
  induction l as [|y r IH]; intros N; cbn; [split; [constructor|auto]|].
  inversion N as [|a b C D]; subst. destruct (Z.eqb_spec y o) as [->|X]; [auto|].
  destruct (IH D) as [A B]. split.
  - constructor; auto. intros I. apply C. exact (erase_in _ _ _ I).
  - intros [I|I]; auto.
Qed.
Lemma erase_other : forall o l x, In x l -> x <> o -> In x (erase o l).
Proof.
  induction l as [|y r IH]; intros x I N; cbn in *; auto.
  destruct (Z.eqb_spec y o) as [->|X].
  - destruct I as [->|I]; [congruence|auto].
  - destruct I as [->|I]; [now left|right; auto].
Qed.
Lemma erase_perm : forall o l, In o l -> Permutation l (o :: erase o l).
Proof.
  induction l as [|y r IH]; intros I; [destruct I|]. cbn. destruct (Z.eqb_spec y o) as [->|X]; [reflexivity|].
  destruct I as [->|I]; [congruence|]. rewrite perm_swap. apply perm_skip. auto.
Qed.
Lemma erase_none : forall o l, ~ In o l -> erase o l = l.
Proof.
  induction l as [|y r IH]; intros I; auto. cbn. destruct (Z.eqb_spec y o) as [->|X]; [elim I; now left|].
  f_equal. apply IH. intro; apply I; now right.
Qed.

Section Leave.
  Variables (f f' : Z -> obj) (k : list Z) (o m : Z).
  Hypothesis HG : G f k.
  Hypothesis HC : child f m o.
  Hypothesis HI : In o (o_pend (f m)).
  Hypothesis Eo : f' o = w_state (w_master (f o) None) false false.
  Hypothesis Em : f' m = w_pend (f m) (erase o (o_pend (f m))).
  Hypothesis Ez : forall z, z <> o -> z <> m -> f' z = f z.

  Lemma leave_neq : m <> o.
  Proof. intros X. rewrite X in HI. exact (not_self _ _ _ HG HI). Qed.

  Lemma leave_root : forall x, root f x -> root f' x.
  Proof.
    intros x R. destruct (Z.eq_dec x o) as [->|N]; [elim (root_child _ _ _ R HC)|].
    unfold root in *. destruct (Z.eq_dec x m) as [->|N']; [rewrite Em; exact R|]. now rewrite (Ez x N N').
  Qed.
  Lemma leave_child : forall x y, y <> o -> child f x y -> child f' x y.
  Proof.
    intros x y N C. unfold child in *. destruct (Z.eq_dec y m) as [->|N']; [rewrite Em; exact C|].
    now rewrite (Ez y N N').
  Qed.
  Lemma leave_pend : forall x y, In y (o_pend (f' x)) <-> In y (o_pend (f x)) /\ y <> o.
  Proof.
    intros x y. pose proof leave_neq as NQ. destruct (Z.eq_dec x o) as [->|N].
    - rewrite Eo. cbn. rewrite (child_pend _ _ _ _ HG HC). cbn. tauto.
    - destruct (Z.eq_dec x m) as [->|N'].
      + rewrite Em. cbn. destruct (erase_nd o _ (g_pn _ _ HG m)) as [_ B]. split.
        * intros I. split; [exact (erase_in _ _ _ I)|]. intros ->. auto.
        * intros [I J]. now apply erase_other.
      + rewrite (Ez x N N'). split; [|tauto]. intros I. split; auto. intros ->.
        destruct (g_pe _ _ HG x o I) as (_ & _ & _ & _ & X & _). destruct HC as (_ & _ & _ & Y & _). congruence.
  Qed.

  Lemma leave_key : forall z, key_of (f' z) = key_of (f z).
  Proof.
    intros z. destruct (Z.eq_dec z o) as [->|N]; [rewrite Eo; reflexivity|].
    destruct (Z.eq_dec z m) as [->|N']; [rewrite Em; reflexivity|]. now rewrite (Ez z N N').
  Qed.
  Lemma leave_type : forall z, o_type (f' z) = o_type (f z).
  Proof.
    intros z. destruct (Z.eq_dec z o) as [->|N]; [rewrite Eo; reflexivity|].
    destruct (Z.eq_dec z m) as [->|N']; [rewrite Em; reflexivity|]. now rewrite (Ez z N N').
  Qed.

  Lemma G_leave : G f' k.
  Proof.
    pose proof leave_neq as NQ. constructor.
    - apply (g_nd _ _ HG).
    - intros x I. apply leave_root. now apply (g_st _ _ HG).
    - intros x y I. apply leave_pend in I as [I N]. destruct (g_pe _ _ HG x y I) as [A B].
      split; [now apply leave_root|now apply leave_child].
    - intros x. destruct (Z.eq_dec x o) as [->|N]; [rewrite Eo; apply (g_pn _ _ HG)|].
      destruct (Z.eq_dec x m) as [->|N']; [rewrite Em; apply erase_nd; apply (g_pn _ _ HG)|].
      rewrite (Ez x N N'). apply (g_pn _ _ HG).
    - intros y L. destruct (Z.eq_dec y o) as [->|N]; [rewrite Eo in L; discriminate L|].
      assert (L' : o_locked (f y) = true).
      { destruct (Z.eq_dec y m) as [->|N']; [rewrite Em in L; exact L|]. now rewrite (Ez y N N') in L. }
      destruct (g_lo _ _ HG y L') as [R|(x & C & I)]; [left; now apply leave_root|right].
      exists x. split; [now apply leave_child|]. now apply leave_pend.
    - intros y L. destruct (Z.eq_dec y o) as [->|N].
      + unfold free. rewrite Eo. cbn. rewrite (child_pend _ _ _ _ HG HC). auto.
      + destruct (Z.eq_dec y m) as [->|N'].
        * rewrite Em in L. destruct (g_pe _ _ HG m o HI) as [(_ & X & _) _]. cbn in L. congruence.
        * unfold free. rewrite (Ez y N N') in *. now apply (g_un _ _ HG).
    - intros x y I. apply leave_pend in I as [I N]. rewrite !leave_type. now apply (g_wr _ _ HG).
  Qed.

  Lemma T_leave : forall F rs, T F rs f k -> T F rs f' k.
  Proof.
    intros F rs H. constructor.
    - intros y R. apply (t_in _ _ _ _ H). destruct (Z.eq_dec y o) as [->|N].
      + destruct R as (_ & X & _). rewrite Eo in X. discriminate X.
      + unfold root in *. destruct (Z.eq_dec y m) as [->|N']; [rewrite Em in R; exact R|]. now rewrite (Ez y N N') in R.
    - intros x y I J K. rewrite !leave_key in K. now apply (t_one _ _ _ _ H).
    - intros x y I. apply leave_pend in I as [I N]. rewrite !leave_key. now apply (t_pe _ _ _ _ H).
    - intros y L. rewrite leave_key. apply (t_fam _ _ _ _ H).
      destruct (Z.eq_dec y o) as [->|N]; [apply HC|].
      destruct (Z.eq_dec y m) as [->|N']; [rewrite Em in L; exact L|]. now rewrite (Ez y N N') in L.
  Qed.
End Leave.

(** *** The stack as a list of roots *)
Lemma G_stack : forall f k k', G f k -> NoDup k' -> (forall x, In x k' -> root f x) -> G f k'.
Proof.
  intros f k k' H N R. constructor; auto; apply H.
Qed.

(** *** A root without pending objects is released *)
Section Release.
  Variables (f f' : Z -> obj) (k : list Z) (o : Z).
  Hypothesis HG : G f k.
  Hypothesis HR : root f o.
  Hypothesis HP : o_pend (f o) = [].
  Hypothesis Eo : f' o = w_state (f o) false false.
  Hypothesis Ez : forall z, z <> o -> f' z = f z.

  Lemma G_release : G f' (erase o k).
  Proof.
    destruct (erase_nd o k (g_nd _ _ HG)) as [ND NI].
    assert (RE : forall x, x <> o -> root f x -> root f' x) by (intros x N R; unfold root in *; now rewrite (Ez x N)).
    assert (NC : forall x, ~ child f x o) by (intros x C; exact (root_child _ _ _ HR C)).
    assert (CE : forall x y, child f x y -> child f' x y).
    { intros x y C. unfold child in *. destruct (Z.eq_dec y o) as [->|N]; [elim (NC x C)|]. now rewrite (Ez y N). }
    assert (PE : forall x, o_pend (f' x) = o_pend (f x)).
    { intros x. destruct (Z.eq_dec x o) as [->|N]; [rewrite Eo; reflexivity|now rewrite (Ez x N)]. }
    constructor.
    - exact ND.
    - intros x I. apply RE; [intros ->; auto|]. apply (g_st _ _ HG). exact (erase_in _ _ _ I).
    - intros x y I. rewrite PE in I. destruct (g_pe _ _ HG x y I) as [A B]. split; [|now apply CE].
      apply RE; auto. intros ->. rewrite HP in I. destruct I.
    - intros x. rewrite PE. apply (g_pn _ _ HG).
    - intros y L. destruct (Z.eq_dec y o) as [->|N]; [rewrite Eo in L; discriminate L|]. rewrite (Ez y N) in L.
      destruct (g_lo _ _ HG y L) as [R|(x & C & I)]; [left; auto|right]. exists x. rewrite PE. auto.
    - intros y L. destruct (Z.eq_dec y o) as [->|N].
      + unfold free. rewrite Eo. cbn. destruct HR as (_ & _ & _ & M & _). auto.
      + unfold free. rewrite (Ez y N) in *. now apply (g_un _ _ HG).
    - assert (TE : forall z, o_type (f' z) = o_type (f z)).
      { intros z. destruct (Z.eq_dec z o) as [->|N]; [rewrite Eo; reflexivity|now rewrite (Ez z N)]. }
      intros x y I. rewrite PE in I. rewrite !TE. now apply (g_wr _ _ HG).
  Qed.

  Lemma T_release : forall F rs, T F rs f k -> T F rs f' (erase o k).
  Proof.
    intros F rs H.
    assert (KE : forall z, key_of (f' z) = key_of (f z)).
    { intros z. destruct (Z.eq_dec z o) as [->|N]; [rewrite Eo; reflexivity|now rewrite (Ez z N)]. }
    constructor.
    - intros y R. destruct (Z.eq_dec y o) as [->|N]; [destruct R as (_ & X & _); rewrite Eo in X; discriminate X|].
      unfold root in R. rewrite (Ez y N) in R. destruct (t_in _ _ _ _ H y R) as [I|I]; [left|now right].
      now apply erase_other.
    - intros x y I J K. rewrite !KE in K. apply (t_one _ _ _ _ H); auto; eapply erase_in; eauto.
    - intros x y I. rewrite !KE. destruct (Z.eq_dec x o) as [->|N].
      { rewrite Eo in I. cbn in I. rewrite HP in I. destruct I. }
      rewrite (Ez x N) in *. now apply (t_pe _ _ _ _ H).
    - intros y L. rewrite KE. apply (t_fam _ _ _ _ H).
      destruct (Z.eq_dec y o) as [->|N]; [apply HR|now rewrite (Ez y N) in L].
  Qed.
End Release.

(** *** A pending object becomes the root *)
Section Pass.
  Variables (f f' : Z -> obj) (k : list Z) (o n : Z) (rest : list Z) (t : ltype).
  Hypothesis HG : G f k.
  Hypothesis HR : root f o.
  Hypothesis HP : Permutation (o_pend (f o)) (n :: rest).
  Hypothesis HT : o_type (f o) = t.
  Hypothesis Eo : f' o = w_state (w_pend (f o) []) false false.
  Hypothesis En : f' n = w_master (w_type (w_state (w_pend (f n) rest) true true) t) None.
  Hypothesis Er : forall y, In y rest -> f' y = w_master (f y) (Some n).
  Hypothesis Ez : forall z, z <> o -> z <> n -> ~ In z rest -> f' z = f z.

  Lemma pass_in : forall y, In y (o_pend (f o)) <-> y = n \/ In y rest.
  Proof.
    intros y. split; intros I.
    - apply (Permutation_in _ HP) in I. destruct I as [<-|I]; auto.
    - apply (Permutation_in _ (Permutation_sym HP)). destruct I as [->|I]; [now left|now right].
  Qed.
  Lemma pass_nd : ~ In n rest /\ NoDup rest.
  Proof.
    pose proof (Permutation_NoDup HP (g_pn _ _ HG o)) as N. inversion N; auto.
  Qed.
  Lemma pass_child : forall y, y = n \/ In y rest -> child f o y.
  Proof. intros y I. apply pass_in in I. now apply (g_pe _ _ HG). Qed.
  Lemma pass_no : n <> o /\ ~ In o rest.
  Proof.
    split.
    - intros X. apply (not_self _ _ o HG). apply pass_in. auto.
    - intros X. apply (not_self _ _ o HG). apply pass_in. auto.
  Qed.

  Lemma pass_root : forall x, x <> o -> root f x -> root f' x.
  Proof.
    intros x N R.
    assert (N1 : x <> n) by (intros ->; exact (root_child _ _ _ R (pass_child n (or_introl eq_refl)))).
    assert (N2 : ~ In x rest) by (intros I; exact (root_child _ _ _ R (pass_child x (or_intror I)))).
    unfold root in *. now rewrite (Ez x N N1 N2).
  Qed.
  Lemma pass_new : root f' n.
  Proof.
    unfold root. rewrite En. cbn. destruct (pass_child n (or_introl eq_refl)) as (A & _).
    destruct HR as (_ & _ & _ & _ & B). rewrite <- HT. auto.
  Qed.

  Lemma pass_pend : forall x y, In y (o_pend (f' x)) ->
    x = n /\ In y rest \/ x <> n /\ x <> o /\ ~ In x rest /\ In y (o_pend (f x)).
  Proof.
    intros x y I. destruct pass_no as [NO NR].
    destruct (Z.eq_dec x o) as [->|N]; [rewrite Eo in I; destruct I|].
    destruct (Z.eq_dec x n) as [->|N1]; [rewrite En in I; cbn in I; auto|].
    destruct (in_dec Z.eq_dec x rest) as [N2|N2].
    - rewrite (Er x N2) in I. cbn in I. rewrite (child_pend _ _ _ _ HG (pass_child x (or_intror N2))) in I. destruct I.
    - rewrite (Ez x N N1 N2) in I. auto.
  Qed.

  Lemma pass_kids : forall x y, x <> o -> child f x y -> child f' x y.
  Proof.
    intros x y N C.
    assert (y <> o) by (intros ->; exact (root_child _ _ _ HR C)).
    assert (NC : ~ (y = n \/ In y rest)).
    { intros X. destruct (pass_child y X) as (_ & _ & _ & M & _). destruct C as (_ & _ & _ & M' & _). congruence. }
    unfold child in *. rewrite (Ez y); auto.
  Qed.

  Lemma G_pass : G f' (erase o k ++ [n]).
  Proof.
    destruct pass_no as [NO NR]. destruct pass_nd as [Nn Nr].
    destruct (erase_nd o k (g_nd _ _ HG)) as [ND NI].
    constructor.
    - apply (Permutation_NoDup (l := n :: erase o k)); [apply Permutation_cons_append|].
      constructor; auto. intros I. apply erase_in in I. apply (g_st _ _ HG) in I.
      exact (root_child _ _ _ I (pass_child n (or_introl eq_refl))).
    - intros x I. apply in_app_iff in I as [I|[<-|[]]]; [|exact pass_new].
      apply pass_root; [intros ->; auto|]. apply (g_st _ _ HG). exact (erase_in _ _ _ I).
    - intros x y I. destruct (pass_pend x y I) as [[-> J]|(N1 & N & N2 & J)].
      + split; [exact pass_new|]. unfold child. rewrite (Er y J). cbn.
        destruct (pass_child y (or_intror J)) as (A & B & C & _ & D). auto.
      + destruct (g_pe _ _ HG x y J) as [A B]. split; [now apply pass_root|now apply pass_kids].
    - intros x. destruct (Z.eq_dec x o) as [->|N]; [rewrite Eo; constructor|].
      destruct (Z.eq_dec x n) as [->|N1]; [rewrite En; exact Nr|].
      destruct (in_dec Z.eq_dec x rest) as [N2|N2].
      + rewrite (Er x N2). apply (g_pn _ _ HG).
      + rewrite (Ez x N N1 N2). apply (g_pn _ _ HG).
    - intros y L. destruct (Z.eq_dec y o) as [->|N]; [rewrite Eo in L; discriminate L|].
      destruct (Z.eq_dec y n) as [->|N1]; [left; exact pass_new|].
      destruct (in_dec Z.eq_dec y rest) as [N2|N2].
      + right. exists n. split.
        * unfold child. rewrite (Er y N2). cbn.
          destruct (pass_child y (or_intror N2)) as (A & B & C & _ & D). auto.
        * rewrite En. exact N2.
      + rewrite (Ez y N N1 N2) in L. destruct (g_lo _ _ HG y L) as [R|(x & C & I)]; [left; now apply pass_root|right].
        assert (x <> o) by (intros ->; apply pass_in in I; tauto).
        exists x. split; [now apply pass_kids|].
        assert (root f x) by (apply (g_pe _ _ HG x y I)).
        assert (x <> n) by (intros ->; exact (root_child _ _ _ H0 (pass_child n (or_introl eq_refl)))).
        assert (~ In x rest) by (intros Q; exact (root_child _ _ _ H0 (pass_child x (or_intror Q)))).
        rewrite (Ez x); auto.
    - intros y L. destruct (Z.eq_dec y o) as [->|N].
      + unfold free. rewrite Eo. cbn. destruct HR as (_ & _ & _ & M & _). auto.
      + destruct (Z.eq_dec y n) as [->|N1]; [rewrite En in L; discriminate L|].
        destruct (in_dec Z.eq_dec y rest) as [N2|N2].
        * rewrite (Er y N2) in L. destruct (pass_child y (or_intror N2)) as (_ & X & _). cbn in L. congruence.
        * unfold free. rewrite (Ez y N N1 N2) in *. now apply (g_un _ _ HG).
    - intros x y I. destruct (pass_pend x y I) as [[-> J]|(N1 & N & N2 & J)].
      + assert (Q : In y (o_pend (f o))) by (apply pass_in; auto).
        rewrite (Er y J), En. cbn. intros X. rewrite <- HT. exact (g_wr _ _ HG o y Q X).
      + rewrite (Ez x) by auto.
        assert (y <> o).
        { intros ->. destruct (g_pe _ _ HG x o J) as [_ C]. exact (root_child _ _ _ HR C). }
        assert (NC : ~ (y = n \/ In y rest)).
        { intros X. destruct (pass_child y X) as (_ & _ & _ & M & _).
          destruct (g_pe _ _ HG x y J) as (_ & _ & _ & _ & M' & _). congruence. }
        rewrite (Ez y) by auto. now apply (g_wr _ _ HG).
  Qed.

  Lemma pass_key : forall z, key_of (f' z) = key_of (f z).
  Proof.
    intros x. destruct (Z.eq_dec x o) as [->|N]; [rewrite Eo; reflexivity|].
    destruct (Z.eq_dec x n) as [->|N1]; [rewrite En; reflexivity|].
    destruct (in_dec Z.eq_dec x rest) as [N2|N2]; [now rewrite (Er x N2)|now rewrite (Ez x N N1 N2)].
  Qed.

  Lemma T_pass : forall F rs, T F rs f k -> In o k -> T F rs f' (erase o k ++ [n]).
  Proof.
    intros F rs H OK. destruct pass_no as [NO NR]. destruct pass_nd as [Nn Nr].
    destruct (erase_nd o k (g_nd _ _ HG)) as [ND NI].
    assert (KN : key_of (f n) = key_of (f o)) by (apply (t_pe _ _ _ _ H); apply pass_in; auto).
    constructor.
    - intros y R. destruct (Z.eq_dec y o) as [->|N]; [destruct R as (_ & X & _); rewrite Eo in X; discriminate X|].
      destruct (Z.eq_dec y n) as [->|N1]; [left; apply in_app_iff; right; now left|].
      destruct (in_dec Z.eq_dec y rest) as [N2|N2].
      { destruct R as (_ & _ & _ & X & _). rewrite (Er y N2) in X. discriminate X. }
      unfold root in R. rewrite (Ez y N N1 N2) in R. destruct (t_in _ _ _ _ H y R) as [I|I]; [left|now right].
      apply in_app_iff. left. now apply erase_other.
    - intros x y I J K. rewrite !pass_key in K.
      apply in_app_iff in I as [I|[<-|[]]]; apply in_app_iff in J as [J|[<-|[]]]; auto.
      + apply (t_one _ _ _ _ H); auto; eapply erase_in; eauto.
      + exfalso. assert (x = o) by (apply (t_one _ _ _ _ H); [eapply erase_in; eauto|auto|congruence]). congruence.
      + exfalso. assert (y = o) by (apply (t_one _ _ _ _ H); [eapply erase_in; eauto|auto|congruence]). congruence.
    - intros x y I. rewrite !pass_key. destruct (pass_pend x y I) as [[-> J]|(N1 & N & N2 & J)].
      + assert (Q : In y (o_pend (f o))) by (apply pass_in; auto).
        rewrite KN. now apply (t_pe _ _ _ _ H).
      + now apply (t_pe _ _ _ _ H).
    - intros y L. rewrite pass_key. destruct (Z.eq_dec y o) as [->|N]; [apply (t_fam _ _ _ _ H); apply HR|].
      destruct (Z.eq_dec y n) as [->|N1].
      + apply (t_fam _ _ _ _ H). apply (pass_child n). auto.
      + destruct (in_dec Z.eq_dec y rest) as [N2|N2].
        * apply (t_fam _ _ _ _ H). apply (pass_child y). auto.
        * rewrite (Ez y N N1 N2) in L. now apply (t_fam _ _ _ _ H).
  Qed.
End Pass.

(** *** An unlocked object joins a root *)
Section Join.
  Variables (f f' : Z -> obj) (k : list Z) (o i : Z).
  Hypothesis HG : G f k.
  Hypothesis HF : free f o.
  Hypothesis HA : o_alive (f o) = true.
  Hypothesis HT : o_type (f o) <> UNL.
  Hypothesis HI : root f i.
  Hypothesis HW : o_type (f o) = WR -> o_type (f i) = WR.
  Hypothesis Eo : f' o = w_master (w_state (f o) true false) (Some i).
  Hypothesis Ei : f' i = w_pend (f i) (o_pend (f i) ++ [o]).
  Hypothesis Ez : forall z, z <> o -> z <> i -> f' z = f z.

  Lemma join_neq : i <> o.
  Proof. intros X. destruct HF as (A & _). destruct HI as (_ & B & _). congruence. Qed.
  Lemma join_root : forall x, root f x -> root f' x.
  Proof.
    intros x R. destruct (Z.eq_dec x o) as [->|N]; [destruct R as (_ & X & _); destruct HF; congruence|].
    unfold root in *. destruct (Z.eq_dec x i) as [->|N']; [rewrite Ei; exact R|]. now rewrite (Ez x N N').
  Qed.
  Lemma join_child : forall x y, child f x y -> child f' x y.
  Proof.
    intros x y C. destruct (Z.eq_dec y o) as [->|N]; [destruct C as (_ & X & _); destruct HF; congruence|].
    unfold child in *. destruct (Z.eq_dec y i) as [->|N']; [rewrite Ei; exact C|]. now rewrite (Ez y N N').
  Qed.
  Lemma join_new : child f' i o.
  Proof. unfold child. rewrite Eo. cbn. auto. Qed.
  Lemma join_pend : forall x y, In y (o_pend (f' x)) <-> In y (o_pend (f x)) \/ x = i /\ y = o.
  Proof.
    intros x y. pose proof join_neq as NQ. destruct (Z.eq_dec x o) as [->|N].
    - rewrite Eo. cbn. split; [auto|]. intros [A|[A _]]; congruence.
    - destruct (Z.eq_dec x i) as [->|N'].
      + rewrite Ei. cbn. rewrite in_app_iff. cbn. split; intros [A|A]; auto; [destruct A as [<-|[]]; auto|destruct A; auto].
      + rewrite (Ez x N N'). split; [auto|]. intros [A|[A _]]; congruence.
  Qed.

  Lemma join_key : forall z, key_of (f' z) = key_of (f z).
  Proof.
    intros z. destruct (Z.eq_dec z o) as [->|N]; [rewrite Eo; reflexivity|].
    destruct (Z.eq_dec z i) as [->|N']; [rewrite Ei; reflexivity|]. now rewrite (Ez z N N').
  Qed.
  Lemma join_type : forall z, o_type (f' z) = o_type (f z).
  Proof.
    intros z. destruct (Z.eq_dec z o) as [->|N]; [rewrite Eo; reflexivity|].
    destruct (Z.eq_dec z i) as [->|N']; [rewrite Ei; reflexivity|]. now rewrite (Ez z N N').
  Qed.

  Lemma G_join : G f' k.
  Proof.
    pose proof join_neq as NQ. constructor.
    - apply (g_nd _ _ HG).
    - intros x I. apply join_root. now apply (g_st _ _ HG).
    - intros x y I. apply join_pend in I as [I|[-> ->]].
      + destruct (g_pe _ _ HG x y I). split; [now apply join_root|now apply join_child].
      + split; [now apply join_root|exact join_new].
    - intros x. destruct (Z.eq_dec x o) as [->|N]; [rewrite Eo; apply (g_pn _ _ HG)|].
      destruct (Z.eq_dec x i) as [->|N'].
      + rewrite Ei. cbn. apply (Permutation_NoDup (l := o :: o_pend (f i))); [apply Permutation_cons_append|].
        constructor; [|apply (g_pn _ _ HG)]. apply (free_not_pend _ _ _ _ HG). apply HF.
      + rewrite (Ez x N N'). apply (g_pn _ _ HG).
    - intros y L. destruct (Z.eq_dec y o) as [->|N].
      + right. exists i. split; [exact join_new|]. apply join_pend. auto.
      + assert (L' : o_locked (f y) = true).
        { destruct (Z.eq_dec y i) as [->|N']; [rewrite Ei in L; exact L|]. now rewrite (Ez y N N') in L. }
        destruct (g_lo _ _ HG y L') as [R|(x & C & I)]; [left; now apply join_root|right].
        exists x. split; [now apply join_child|]. apply join_pend. auto.
    - intros y L. destruct (Z.eq_dec y o) as [->|N]; [rewrite Eo in L; discriminate L|].
      destruct (Z.eq_dec y i) as [->|N']; [rewrite Ei in L; destruct HI as (_ & X & _); cbn in L; congruence|].
      unfold free. rewrite (Ez y N N') in *. now apply (g_un _ _ HG).
    - intros x y I. rewrite !join_type. apply join_pend in I as [I|[-> ->]]; auto. now apply (g_wr _ _ HG).
  Qed.

  Lemma T_join : forall F rs, T F rs f k -> key_of (f o) = key_of (f i) -> T F rs f' k.
  Proof.
    intros F rs H KE. constructor.
    - intros y R. apply (t_in _ _ _ _ H). destruct (Z.eq_dec y o) as [->|N].
      + destruct R as (_ & _ & _ & X & _). rewrite Eo in X. discriminate X.
      + unfold root in *. destruct (Z.eq_dec y i) as [->|N']; [rewrite Ei in R; exact R|]. now rewrite (Ez y N N') in R.
    - intros x y I J K. rewrite !join_key in K. now apply (t_one _ _ _ _ H).
    - intros x y I. rewrite !join_key. apply join_pend in I as [I|[-> ->]]; auto.
      now apply (t_pe _ _ _ _ H).
    - intros y L. rewrite join_key. destruct (Z.eq_dec y o) as [->|N].
      + rewrite KE. apply (t_fam _ _ _ _ H). apply HI.
      + apply (t_fam _ _ _ _ H).
        destruct (Z.eq_dec y i) as [->|N']; [rewrite Ei in L; exact L|]. now rewrite (Ez y N N') in L.
  Qed.
End Join.

(** *** An unlocked object becomes a root *)
Section Enter.
  Variables (f f' : Z -> obj) (k : list Z) (o : Z).
  Hypothesis HG : G f k.
  Hypothesis HF : free f o.
  Hypothesis HA : o_alive (f o) = true.
  Hypothesis HT : o_type (f o) <> UNL.
  Hypothesis Eo : f' o = w_state (f o) true true.
  Hypothesis Ez : forall z, z <> o -> f' z = f z.

  Lemma enter_root : forall x, root f x -> root f' x.
  Proof.
    intros x R. destruct (Z.eq_dec x o) as [->|N]; [destruct R as (_ & X & _); destruct HF; congruence|].
    unfold root in *. now rewrite (Ez x N).
  Qed.
  Lemma enter_child : forall x y, child f x y -> child f' x y.
  Proof.
    intros x y C. destruct (Z.eq_dec y o) as [->|N]; [destruct C as (_ & X & _); destruct HF; congruence|].
    unfold child in *. now rewrite (Ez y N).
  Qed.
  Lemma enter_new : root f' o.
  Proof. unfold root. rewrite Eo. cbn. destruct HF as (_ & _ & M & _). auto. Qed.
  Lemma enter_pend : forall x, o_pend (f' x) = o_pend (f x).
  Proof. intros x. destruct (Z.eq_dec x o) as [->|N]; [rewrite Eo; reflexivity|now rewrite (Ez x N)]. Qed.
  Lemma enter_key : forall x, key_of (f' x) = key_of (f x).
  Proof. intros x. destruct (Z.eq_dec x o) as [->|N]; [rewrite Eo; reflexivity|now rewrite (Ez x N)]. Qed.
  Lemma enter_type : forall x, o_type (f' x) = o_type (f x).
  Proof. intros x. destruct (Z.eq_dec x o) as [->|N]; [rewrite Eo; reflexivity|now rewrite (Ez x N)]. Qed.

  Lemma G_enter : G f' (k ++ [o]).
  Proof.
    constructor.
    - apply (Permutation_NoDup (l := o :: k)); [apply Permutation_cons_append|].
      constructor; [|apply (g_nd _ _ HG)]. apply (free_not_in _ _ _ HG). apply HF.
    - intros x I. apply in_app_iff in I as [I|[<-|[]]]; [|exact enter_new]. apply enter_root. now apply (g_st _ _ HG).
    - intros x y I. rewrite enter_pend in I. destruct (g_pe _ _ HG x y I). split; [now apply enter_root|now apply enter_child].
    - intros x. rewrite enter_pend. apply (g_pn _ _ HG).
    - intros y L. destruct (Z.eq_dec y o) as [->|N]; [left; exact enter_new|]. rewrite (Ez y N) in L.
      destruct (g_lo _ _ HG y L) as [R|(x & C & I)]; [left; now apply enter_root|right].
      exists x. rewrite enter_pend. split; [now apply enter_child|exact I].
    - intros y L. destruct (Z.eq_dec y o) as [->|N]; [rewrite Eo in L; discriminate L|].
      unfold free. rewrite (Ez y N) in *. now apply (g_un _ _ HG).
    - intros x y I. rewrite enter_pend in I. rewrite !enter_type. now apply (g_wr _ _ HG).
  Qed.

  Lemma T_enter : forall F rs, T F rs f k -> F (key_of (f o)) ->
    (forall x, In x k -> key_of (f x) <> key_of (f o)) -> T F rs f' (k ++ [o]).
  Proof.
    intros F rs H FO NK. constructor.
    - intros y R. destruct (Z.eq_dec y o) as [->|N]; [left; apply in_app_iff; right; now left|].
      unfold root in R. rewrite (Ez y N) in R. destruct (t_in _ _ _ _ H y R); [left; apply in_app_iff; now left|now right].
    - intros x y I J K. rewrite !enter_key in K.
      apply in_app_iff in I as [I|[<-|[]]]; apply in_app_iff in J as [J|[<-|[]]]; auto.
      + now apply (t_one _ _ _ _ H).
      + elim (NK x I K).
      + elim (NK y J). congruence.
    - intros x y I. rewrite enter_pend in I. rewrite !enter_key. now apply (t_pe _ _ _ _ H).
    - intros y L. rewrite enter_key. destruct (Z.eq_dec y o) as [->|N]; [exact FO|].
      rewrite (Ez y N) in L. now apply (t_fam _ _ _ _ H).
  Qed.
End Enter.

(** *** A root gives way to another root *)
Section Take.
  Variables (f f' : Z -> obj) (k : list Z) (o i : Z).
  Hypothesis HG : G f k.
  Hypothesis HO : root f o.
  Hypothesis HI : root f i.
  Hypothesis NQ : i <> o.
  Hypothesis NK : ~ In i k.
  Hypothesis HW : o_type (f o) = WR.
  Hypothesis Eo : f' o = w_pend (f o) (o_pend (f o) ++ i :: o_pend (f i)).
  Hypothesis Ei : f' i = w_pend (w_master (w_state (f i) true false) (Some o)) [].
  Hypothesis Er : forall y, In y (o_pend (f i)) -> f' y = w_master (f y) (Some o).
  Hypothesis Ez : forall z, z <> o -> z <> i -> ~ In z (o_pend (f i)) -> f' z = f z.

  Lemma take_no : ~ In o (o_pend (f i)) /\ ~ In i (o_pend (f i)) /\ ~ In i (o_pend (f o)) /\ ~ In o (o_pend (f o)).
  Proof.
    repeat split; intros I; destruct (g_pe _ _ HG _ _ I) as [_ C];
      first [exact (root_child _ _ _ HO C)|exact (root_child _ _ _ HI C)].
  Qed.
  Lemma take_root : forall x, x <> i -> root f x -> root f' x.
  Proof.
    intros x N R.
    assert (N2 : ~ In x (o_pend (f i))) by (intros I; destruct (g_pe _ _ HG _ _ I) as [_ C]; exact (root_child _ _ _ R C)).
    unfold root in *. destruct (Z.eq_dec x o) as [->|N']; [rewrite Eo; exact R|]. now rewrite (Ez x).
  Qed.
  Lemma take_kid : forall y, y = i \/ In y (o_pend (f i)) -> child f' o y.
  Proof.
    intros y [->|I]; unfold child.
    - rewrite Ei. cbn. destruct HI as (A & _ & _ & _ & B). auto.
    - rewrite (Er y I). cbn. destruct (g_pe _ _ HG _ _ I) as (_ & A & B & C & _ & D). auto.
  Qed.
  Lemma take_kids : forall x y, x <> i -> child f x y -> child f' x y.
  Proof.
    intros x y N C.
    assert (y <> o) by (intros ->; exact (root_child _ _ _ HO C)).
    assert (y <> i) by (intros ->; exact (root_child _ _ _ HI C)).
    assert (~ In y (o_pend (f i))).
    { intros I. destruct (g_pe _ _ HG _ _ I) as (_ & _ & _ & _ & M & _). destruct C as (_ & _ & _ & M' & _). congruence. }
    unfold child in *. now rewrite (Ez y).
  Qed.
  Lemma take_pend : forall x y, In y (o_pend (f' x)) ->
    x = o /\ (y = i \/ In y (o_pend (f i))) \/ x <> i /\ In y (o_pend (f x)).
  Proof.
    intros x y I. destruct take_no as (A & B & C & D). destruct (Z.eq_dec x o) as [->|N].
    - rewrite Eo in I. cbn in I. apply in_app_iff in I as [I|[<-|I]]; auto.
    - destruct (Z.eq_dec x i) as [->|N']; [rewrite Ei in I; destruct I|].
      right. split; auto. destruct (in_dec Z.eq_dec x (o_pend (f i))) as [J|J].
      + rewrite (Er x J) in I. exact I.
      + now rewrite (Ez x N N' J) in I.
  Qed.
  Lemma take_keep : forall x y, x <> i -> In y (o_pend (f x)) -> In y (o_pend (f' x)).
  Proof.
    intros x y N I. destruct (Z.eq_dec x o) as [->|N'].
    - rewrite Eo. cbn. apply in_app_iff. auto.
    - destruct (in_dec Z.eq_dec x (o_pend (f i))) as [J|J]; [rewrite (Er x J); exact I|now rewrite (Ez x N' N J)].
  Qed.

  Lemma take_key : forall z, key_of (f' z) = key_of (f z).
  Proof.
    intros x. destruct (Z.eq_dec x o) as [->|N]; [rewrite Eo; reflexivity|].
    destruct (Z.eq_dec x i) as [->|N1]; [rewrite Ei; reflexivity|].
    destruct (in_dec Z.eq_dec x (o_pend (f i))) as [N2|N2]; [now rewrite (Er x N2)|now rewrite (Ez x N N1 N2)].
  Qed.
  Lemma take_type : forall z, o_type (f' z) = o_type (f z).
  Proof.
    intros x. destruct (Z.eq_dec x o) as [->|N]; [rewrite Eo; reflexivity|].
    destruct (Z.eq_dec x i) as [->|N1]; [rewrite Ei; reflexivity|].
    destruct (in_dec Z.eq_dec x (o_pend (f i))) as [N2|N2]; [now rewrite (Er x N2)|now rewrite (Ez x N N1 N2)].
  Qed.
  Lemma take_alive : forall z, o_alive (f' z) = o_alive (f z).
  Proof.
    intros x. destruct (Z.eq_dec x o) as [->|N]; [rewrite Eo; reflexivity|].
    destruct (Z.eq_dec x i) as [->|N1]; [rewrite Ei; reflexivity|].
    destruct (in_dec Z.eq_dec x (o_pend (f i))) as [N2|N2]; [now rewrite (Er x N2)|now rewrite (Ez x N N1 N2)].
  Qed.

  Lemma G_take : G f' k.
  Proof.
    destruct take_no as (A & B & C & D). constructor.
    - apply (g_nd _ _ HG).
    - intros x I. apply take_root; [intros ->; auto|]. now apply (g_st _ _ HG).
    - intros x y I. destruct (take_pend x y I) as [[-> J]|[N J]].
      + split; [now apply take_root; auto|now apply take_kid].
      + destruct (g_pe _ _ HG x y J). split; [now apply take_root|now apply take_kids].
    - intros x. destruct (Z.eq_dec x o) as [->|N].
      + rewrite Eo. cbn. apply (Permutation_NoDup (l := i :: o_pend (f o) ++ o_pend (f i))).
        * apply Permutation_middle.
        * constructor; [rewrite in_app_iff; tauto|].
          assert (X : forall l1 l2 : list Z, NoDup l1 -> NoDup l2 -> (forall z, In z l1 -> ~ In z l2) -> NoDup (l1 ++ l2)).
          { induction l1 as [|a l1 IH]; intros l2 P1 P2 P3; auto. inversion P1; subst. cbn. constructor.
            - rewrite in_app_iff. intros [Q|Q]; auto. apply (P3 a); [now left|exact Q].
            - apply IH; auto. intros z Q. apply P3. now right. }
          apply X; try apply (g_pn _ _ HG). intros z I J.
          destruct (g_pe _ _ HG _ _ I) as (_ & _ & _ & _ & M & _).
          destruct (g_pe _ _ HG _ _ J) as (_ & _ & _ & _ & M' & _). congruence.
      + destruct (Z.eq_dec x i) as [->|N']; [rewrite Ei; constructor|].
        destruct (in_dec Z.eq_dec x (o_pend (f i))) as [J|J]; [rewrite (Er x J)|rewrite (Ez x N N' J)]; apply (g_pn _ _ HG).
    - intros y L. destruct (Z.eq_dec y i) as [->|N].
      { right. exists o. split; [apply take_kid; auto|]. rewrite Eo. cbn. apply in_app_iff. right. now left. }
      destruct (in_dec Z.eq_dec y (o_pend (f i))) as [J|J].
      { right. exists o. split; [apply take_kid; auto|]. rewrite Eo. cbn. apply in_app_iff. right. now right. }
      assert (L' : o_locked (f y) = true).
      { destruct (Z.eq_dec y o) as [->|N']; [rewrite Eo in L; exact L|now rewrite (Ez y N' N J) in L]. }
      destruct (g_lo _ _ HG y L') as [R|(x & K & I)]; [left; now apply take_root|right].
      assert (x <> i) by (intros ->; auto). exists x. split; [now apply take_kids|now apply take_keep].
    - intros y L. destruct (Z.eq_dec y i) as [->|N]; [rewrite Ei in L; discriminate L|].
      destruct (in_dec Z.eq_dec y (o_pend (f i))) as [J|J].
      { rewrite (Er y J) in L. destruct (g_pe _ _ HG _ _ J) as (_ & _ & X & _). cbn in L. congruence. }
      destruct (Z.eq_dec y o) as [->|N']; [rewrite Eo in L; destruct HO as (_ & X & _); cbn in L; congruence|].
      unfold free. rewrite (Ez y N' N J) in *. now apply (g_un _ _ HG).
    - intros x y I. rewrite !take_type. destruct (take_pend x y I) as [[-> J]|[N J]]; auto. now apply (g_wr _ _ HG).
  Qed.

  Lemma T_take : forall F rs, T F (i :: rs) f k -> key_of (f i) = key_of (f o) -> T F rs f' k.
  Proof.
    intros F rs H KE. destruct take_no as (A & B & C & D). constructor.
    - intros y R. destruct (Z.eq_dec y i) as [->|N].
      { destruct R as (_ & _ & _ & X & _). rewrite Ei in X. discriminate X. }
      destruct (in_dec Z.eq_dec y (o_pend (f i))) as [J|J].
      { destruct R as (_ & _ & _ & X & _). rewrite (Er y J) in X. discriminate X. }
      assert (R' : root f y).
      { unfold root in *. destruct (Z.eq_dec y o) as [->|N']; [rewrite Eo in R; exact R|now rewrite (Ez y N' N J) in R]. }
      destruct (t_in _ _ _ _ H y R') as [I|[I|I]]; auto. congruence.
    - intros x y I J K. rewrite !take_key in K. now apply (t_one _ _ _ _ H).
    - intros x y I. rewrite !take_key. destruct (take_pend x y I) as [[-> [->|J]]|[N J]].
      + auto.
      + rewrite <- KE. now apply (t_pe _ _ _ _ H).
      + now apply (t_pe _ _ _ _ H).
    - intros y L. rewrite take_key. apply (t_fam _ _ _ _ H).
      destruct (Z.eq_dec y i) as [->|N]; [apply HI|].
      destruct (in_dec Z.eq_dec y (o_pend (f i))) as [J|J]; [apply (g_pe _ _ HG _ _ J)|].
      destruct (Z.eq_dec y o) as [->|N']; [rewrite Eo in L; exact L|now rewrite (Ez y N' N J) in L].
  Qed.
End Take.

(** *** A pending object becomes a writer behind a writer *)
Lemma G_retype : forall f f' k o m, G f k -> child f m o -> o_type (f m) = WR ->
  f' o = w_type (f o) WR -> (forall z, z <> o -> f' z = f z) -> G f' k.
Proof.
  intros f f' k o m H C TM Eo E.
  assert (RE : forall x, root f x -> root f' x).
  { intros x R. unfold root in *. destruct (Z.eq_dec x o) as [->|N]; [|now rewrite (E x N)].
    rewrite Eo. cbn. destruct R as (A & B & D & K & _). repeat split; auto. intro X; discriminate X. }
  assert (CE : forall x y, child f x y -> child f' x y).
  { intros x y R. unfold child in *. destruct (Z.eq_dec y o) as [->|N]; [|now rewrite (E y N)].
    rewrite Eo. cbn. destruct R as (A & B & D & K & _). repeat split; auto. intro X; discriminate X. }
  assert (PE : forall x, o_pend (f' x) = o_pend (f x)).
  { intros z. destruct (Z.eq_dec z o) as [->|N]; [rewrite Eo; reflexivity|now rewrite (E z N)]. }
  assert (LE : forall x, o_locked (f' x) = o_locked (f x)).
  { intros z. destruct (Z.eq_dec z o) as [->|N]; [rewrite Eo; reflexivity|now rewrite (E z N)]. }
  constructor.
  - apply (g_nd _ _ H).
  - intros x I. apply RE. now apply (g_st _ _ H).
  - intros x y I. rewrite PE in I. destruct (g_pe _ _ H x y I). auto.
  - intros x. rewrite PE. apply (g_pn _ _ H).
  - intros y L. rewrite LE in L. destruct (g_lo _ _ H y L) as [R|(x & K & I)]; [left; auto|right].
    exists x. rewrite PE. auto.
  - intros y L. rewrite LE in L. destruct (Z.eq_dec y o) as [->|N].
    + destruct C as (_ & X & _). congruence.
    + unfold free. rewrite (E y N). now apply (g_un _ _ H).
  - intros x y I T. rewrite PE in I. destruct (Z.eq_dec x o) as [->|N]; [rewrite Eo; reflexivity|].
    rewrite (E x N). destruct (Z.eq_dec y o) as [->|N'].
    + destruct (g_pe _ _ H x o I) as (_ & _ & _ & _ & M & _). destruct C as (_ & _ & _ & M' & _).
      rewrite M in M'. injection M' as ->. exact TM.
    + rewrite (E y N') in T. exact (g_wr _ _ H x y I T).
Qed.

Lemma T_retype : forall F rs f f' k o m, T F rs f k -> child f m o ->
  f' o = w_type (f o) WR -> (forall z, z <> o -> f' z = f z) -> T F rs f' k.
Proof.
  intros F rs f f' k o m H C Eo E.
  assert (KE : forall x, key_of (f' x) = key_of (f x)).
  { intros z. destruct (Z.eq_dec z o) as [->|N]; [rewrite Eo; reflexivity|now rewrite (E z N)]. }
  constructor.
  - intros y R. apply (t_in _ _ _ _ H). unfold root in *. destruct (Z.eq_dec y o) as [->|N]; [|now rewrite (E y N) in R].
    rewrite Eo in R. cbn in R. destruct R as (_ & _ & _ & X & _). destruct C as (_ & _ & _ & Y & _). congruence.
  - intros x y I J K. rewrite !KE in K. now apply (t_one _ _ _ _ H).
  - intros x y I. rewrite !KE. apply (t_pe _ _ _ _ H).
    destruct (Z.eq_dec x o) as [->|N]; [rewrite Eo in I; exact I|now rewrite (E x N) in I].
  - intros y L. rewrite KE. apply (t_fam _ _ _ _ H).
    destruct (Z.eq_dec y o) as [->|N]; [rewrite Eo in L; exact L|now rewrite (E y N) in L].
Qed.

(** *** The stack in another order *)
Lemma T_perm : forall F rs f k k', Permutation k k' -> T F rs f k -> T F rs f k'.
Proof.
  intros F rs f k k' P H. constructor.
  - intros y R. destruct (t_in _ _ _ _ H y R); auto. left. now apply (Permutation_in _ P).
  - intros x y I J. apply (t_one _ _ _ _ H); now apply (Permutation_in _ (Permutation_sym P)).
  - apply (t_pe _ _ _ _ H).
  - apply (t_fam _ _ _ _ H).
Qed.
Lemma T_out : forall F rs rs' f k k', Permutation (k ++ rs) (k' ++ rs') -> incl k' k -> T F rs f k -> T F rs' f k'.
Proof.
  intros F rs rs' f k k' P I H. constructor.
  - intros y R. apply in_app_iff. apply (Permutation_in _ P). apply in_app_iff. now apply (t_in _ _ _ _ H).
  - intros x y A B. apply (t_one _ _ _ _ H); now apply I.
  - apply (t_pe _ _ _ _ H).
  - apply (t_fam _ _ _ _ H).
Qed.
