(** A blocking lock call that runs alone removes holders that are gone and then succeeds. *)
From Coq Require Import ZArith List Bool Lia Permutation.
From Verif Require Import Base Range_Model Range_Props RwWord_Model RwApi_Model RwApi_Spec RwApi_Proofs RwApi_Proofs2 RwApi_Proofs3
  RwApi_Proofs4 RwApi_Proofs5 RwApi_Proofs6 RwApi_Proofs7 RwApi_Proofs8 RwApi_Proofs9.
Import ListNotations.
Open Scope Z_scope.

(** how often the loop limit of the call was reached *)
Definition wants_check (x : rlabel) : bool := match x with LRun _ _ gu => gu | _ => false end.
Definition checks (ls : list rlabel) : nat := length (filter wants_check ls).

Section TakeOver.
Variables UF UO UL : list Z.
Hypothesis UF_nd : NoDup UF.
Hypothesis UO_nd : NoDup UO.
Hypothesis UL_nd : NoDup UL.
Notation HI := (HI UF UO UL).
Notation SI := (SI UF UO UL).
Variable fam : Z -> Z -> Z -> Prop.
Hypothesis EOD : equal_or_disjoint fam.
Notation DI := (DI fam).
Variable t : Z.
Variable a : rargs.
Hypothesis BL : a_wait a = WBlock.
Notation solo := (solo UF UO UL fam t a).
Notation K := (length UL).

Definition granted (s : rstate) : Prop := idle s t /\ r_res s t = Some OK /\ exists l, holds s l (grant_of t a).

(** points of the call before it has removed the holders that are gone; the number bounds what remains *)
Definition far (p : rpc) : option nat :=
  match p with
  | RWait (A2 _) => Some (16 + K)%nat
  | A2 _ => Some (15 + K)%nat | A3 _ _ => Some (14 + K)%nat | A4 _ _ _ => Some (13 + K)%nat
  | RDrop (AT _ _ _ _) => Some (12 + K)%nat | AT _ _ _ _ => Some (11 + K)%nat
  | RWait (AD0 _ _ _ _) => Some (10 + K)%nat | AD0 _ _ _ _ => Some (9 + K)%nat
  | AD _ _ _ _ ls => Some (5 + length ls)%nat
  | _ => None
  end.

Record trek (n : nat) (s : rstate) : Prop := {
  tk_si : SI s; tk_di : DI s; tk_al : alive s t = true;
  tk_other : forall u, u <> t -> alive s u = true -> idle s u;
  tk_want : want a (r_pc s t);
  tk_far : far (r_pc s t) = Some n;
  tk_guard : guarded s;
  tk_gone : forall l g, holds s l g -> conflict (grant_of t a) g -> forall priv, gone s priv g;
  tk_f : (15 + K <= n)%nat -> h_ffree (r_h s) <> [];
  tk_o : (14 + K <= n)%nat -> h_ofree (r_h s) <> [];
  tk_l : (13 + K <= n)%nat -> h_lfree (r_h s) <> [];
  tk_ls : forall f o x ls, r_pc s t = AD a f o x ls -> forall l g, holds s l g -> conflict (grant_of t a) g -> In (gr_kind g, l) ls;
  tk_len : forall f o x ls, r_pc s t = AD a f o x ls -> (length ls <= K)%nat
}.

Definition prog (m : nat) (s : rstate) : Prop :=
  granted s \/ (exists n, solo (S n) s /\ (S n <= m)%nat) \/ (exists n, trek n s /\ (n <= m)%nat).

Lemma prog_weaken : forall m m' s, (m <= m')%nat -> prog m s -> prog m' s.
Proof. intros m m' s L [G|[(n & S & N)|(n & S & N)]]; [left; auto | right; left; exists n; split; auto; lia | right; right; exists n; split; auto; lia]. Qed.

Lemma far_pos : forall p n, far p = Some n -> (5 <= n)%nat.
Proof. intros p n E. destruct p; simpl in E; try discriminate; try (destruct p; simpl in E; try discriminate); inversion E; lia. Qed.

(** a lock that conflicts with the call is registered at the range entry that the call uses *)
Lemma conflict_entry : forall s f o, SI s -> DI s -> In f (h_flist (r_h s)) -> In o (offs (r_h s) f) -> f_dev (h_f (r_h s) f) = a_dev a ->
  range_match (o_off (h_o (r_h s) o)) (o_len (h_o (r_h s) o)) (a_off a) (a_len a) = true -> fam (a_dev a) (a_off a) (a_len a) ->
  forall l g, holds s l g -> conflict (grant_of t a) g -> In l (o_list (h_o (r_h s) o) (gr_kind g)) /\ h_l (r_h s) l = mkL (gr_t g) (gr_fd g) true.
Proof.
  intros s f o H D IF IO DV RM FA l g HL (C1 & (x & B1 & B2) & _). simpl in C1, B1. assert (Hh := si_h _ _ _ s H).
  destruct (held_at UF UO UL _ _ _ Hh HL) as (f' & o' & A & LR & DV' & _).
  destruct (held_equal_range UF UO UL fam EOD s l g f' o' H D HL A) as (E1 & E2 & E3).
  assert (f' = f) by (apply (hi_dev _ _ _ _ Hh); [apply A | auto | congruence]). subst f'.
  assert (FO : fam (a_dev a) (o_off (h_o (r_h s) o)) (o_len (h_o (r_h s) o))) by (rewrite <- DV; apply (di_off _ s D); auto).
  apply (fam_match fam EOD _ _ _ _ _ FO FA) in RM as [EO EL].
  assert (FG : fam (a_dev a) (gr_off g) (gr_len g)) by (rewrite C1; apply (di_g _ s D l g HL)).
  destruct EOD as [_ ED]. destruct (ED _ _ _ _ _ FA FG) as [[Q1 Q2]|Q]; [|exfalso; eapply Q; eauto].
  assert (o' = o) by (apply (di_sep _ s D f); auto; try congruence; apply A). subst o'. split; [apply A | exact LR].
Qed.

Lemma lockers_bound : forall s o, SI s -> In o UO -> (length (off_lockers (h_o (r_h s) o)) <= K)%nat.
Proof.
  intros s o H U. assert (Hh := si_h _ _ _ s H). unfold off_lockers. rewrite app_length, !map_length, <- app_length.
  apply NoDup_incl_length; [apply (hi_lk_nd _ _ _ _ Hh o U)|]. intros l I. apply (hi_lk_used _ _ _ _ Hh o l U I).
Qed.

Lemma trek_step : forall n s (gu : bool), trek n s -> prog (if gu then n - 1 else n) (r_run s t false gu).
Proof.
  intros n s gu T. set (s' := r_run s t false gu). destruct T as [H D AL OT W ST G GN PF PO PL TL LB].
  assert (H' : SI s') by (unfold s'; rewrite <- run_step by auto; apply SI_step; auto; exact I).
  assert (D' : DI s') by (unfold s'; rewrite <- run_step by auto; apply (DI_step UF UO UL UF_nd fam); auto; exact I).
  destruct (run_env s t false gu) as (E1 & E2 & E3 & _). fold s' in E1, E2, E3.
  assert (AE : forall u, alive s' u = alive s u) by (intro u; unfold alive; rewrite E1, E2; auto).
  assert (OT' : forall u, u <> t -> alive s' u = true -> idle s' u).
  { intros u N AU. rewrite AE in AU. unfold idle. destruct (run_other s t false gu u N) as [Q _]. fold s' in Q. rewrite Q. apply OT; auto. }
  assert (GE : forall priv g, gone s priv g -> gone s' priv g).
  { intros priv g. unfold gone, alive. rewrite E1, E2, E3. auto. }
  pose proof (run_holds UF UO UL s t false gu H AL) as RH. fold s' in RH.
  assert (HS : forall l g, holds s' l g -> holds s l g).
  { destruct RH as [Q|a0 f o l Ep _ ID RS Q|a0 f o l g Ep|l g priv _ _ X _ Q]; intros l' g' HL.
    - apply Q; auto.
    - rewrite Ep in ST. discriminate.
    - rewrite Ep in ST. discriminate.
    - apply Q in HL. tauto. }
  assert (GN' : forall l g, holds s' l g -> conflict (grant_of t a) g -> forall priv, gone s' priv g) by (intros l g HL C priv; apply GE; eapply GN; eauto).
  assert (GD' : guarded s').
  { unfold s'; rewrite <- run_step by auto. apply (guarded_step UF UO UL s (LRun t false gu) H G). }
  assert (FREE : crit (r_pc s t) = false -> match r_guard s with None => True | Some u => alive s u = false end).
  { intro C. destruct (r_guard s) as [u|] eqn:EG; auto. destruct (alive s u) eqn:AU; auto. exfalso.
    pose proof (G u EG AU) as Cu. destruct (Z.eq_dec u t) as [->|N]; [congruence|]. rewrite (OT u N AU) in Cu. discriminate. }
  clear RH. destruct W as [PA PE].
  assert (MK : forall m, (if gu then S m <= n else m <= n)%nat -> want a (r_pc s' t) -> far (r_pc s' t) = Some m ->
    ((15 + K <= m)%nat -> h_ffree (r_h s') <> []) -> ((14 + K <= m)%nat -> h_ofree (r_h s') <> []) -> ((13 + K <= m)%nat -> h_lfree (r_h s') <> []) ->
    (forall f o x ls, r_pc s' t = AD a f o x ls -> forall l g, holds s' l g -> conflict (grant_of t a) g -> In (gr_kind g, l) ls) ->
    (forall f o x ls, r_pc s' t = AD a f o x ls -> (length ls <= K)%nat) ->
    prog (if gu then n - 1 else n) s').
  { intros m LM W' F' X1 X2 X3 X4 X5. right; right. exists m. split; [|destruct gu; lia]. constructor; auto. rewrite AE; auto. }
  destruct (r_pc s t) as [ |p|p|e0|a0|a0 f|a0 f o|a0 f o l|a0 f o l|a0 f o l|a0 f o l ls|a0 f o e0|a0 f e0|a0 e0|a0|a0 f o k l|a0 f o k l|a0 f o|a0 f|a0|priv|priv fs os ls] eqn:Ep;
    simpl in ST; try discriminate.
  - (* waiting for the guard *)
    destruct p; try discriminate; simpl in PA; inversion PA; subst; inversion ST; subst n.
    + assert (E : s' = goto (set_guard s (Some t)) t (A2 a)).
      { specialize (FREE eq_refl). unfold s', r_run. rewrite Ep. destruct (r_guard s) as [u|]; [rewrite FREE|]; auto. }
      rewrite E in MK |- *. apply (MK (15 + K)%nat); simpl; rewrite ?upd_eq; try (split; auto); auto; try lia; try discriminate; try (intros; apply PF; lia); try (intros; apply PO; lia); try (intros; apply PL; lia).
      destruct gu; lia.
    + assert (E : s' = goto (set_guard s (Some t)) t (AD0 a f o l)).
      { specialize (FREE eq_refl). unfold s', r_run. rewrite Ep. destruct (r_guard s) as [u|]; [rewrite FREE|]; auto. }
      rewrite E in MK |- *. apply (MK (9 + K)%nat); simpl; rewrite ?upd_eq; try (split; auto); auto; try lia; try discriminate.
      destruct gu; lia.
  - destruct p; try discriminate. simpl in PA. inversion PA; subst. inversion ST; subst n.
    assert (E : s' = goto (set_guard s None) t (AT a f o l)) by (unfold s', r_run; rewrite Ep; auto).
    rewrite E in MK |- *. apply (MK (11 + K)%nat); simpl; rewrite ?upd_eq; try (split; auto); auto; try lia; try discriminate.
    destruct gu; lia.
  - inversion PA; subst a0. inversion ST; subst n.
    specialize (PF ltac:(lia)). specialize (PO ltac:(lia)). specialize (PL ltac:(lia)).
    revert MK. unfold s', r_run. rewrite Ep. destruct (find_file _ _); [|destruct (h_ffree (r_h s)); [congruence|]];
      (intro MK; apply (MK (14 + K)%nat); simpl; rewrite ?upd_eq; try (split; auto); auto; try lia; try discriminate; destruct gu; lia).
  - inversion PA; subst a0. inversion ST; subst n.
    specialize (PO ltac:(lia)). specialize (PL ltac:(lia)).
    revert MK. unfold s', r_run. rewrite Ep. destruct (find_off _ _ _ _); [|destruct (h_ofree (r_h s)); [congruence|]];
      (intro MK; apply (MK (13 + K)%nat); simpl; rewrite ?upd_eq; try (split; auto); auto; try lia; try discriminate; destruct gu; lia).
  - inversion PA; subst a0. inversion ST; subst n. specialize (PL ltac:(lia)).
    revert MK. unfold s', r_run. rewrite Ep. destruct (h_lfree (r_h s)); [congruence|].
    intro MK; apply (MK (12 + K)%nat); simpl; rewrite ?upd_eq; try (split; auto); auto; try lia; try discriminate. destruct gu; lia.
  - (* attempt *)
    inversion PA; subst a0. inversion ST; subst n.
    destruct (word_permits (a_kind a) (o_val (h_o (r_h s) o))) eqn:WP.
    + right; left. exists 0%nat. split; [|destruct gu; lia].
      assert (E : r_pc s' t = AS a f o l).
      { unfold s', r_run. rewrite Ep, WP. replace (negb (match a_kind a with Rd => false | Wr => false end)) with true by (destruct (a_kind a); auto).
        simpl. rewrite upd_eq. auto. }
      constructor; auto; try lia.
      * rewrite AE; auto.
      * rewrite E. split; auto.
      * rewrite E. auto.
    + assert (E : s' = if gu then goto s t (RWait (AD0 a f o l)) else s).
      { unfold s', r_run. rewrite Ep, WP, BL. auto. }
      destruct gu.
      * rewrite E in MK |- *. apply (MK (10 + K)%nat); simpl; rewrite ?upd_eq; try (split; auto); auto; try lia; try discriminate.
      * rewrite E in MK |- *. apply (MK (11 + K)%nat); rewrite ?Ep; try (split; auto); auto; try lia; try discriminate.
  - (* start of the sweep *)
    inversion PA; subst a0. inversion ST; subst n.
    pose proof (si_pc _ _ _ s H t AL) as P. rewrite Ep in P. destruct P as (A & DV & _ & RM & _).
    assert (FA : fam (a_dev a) (a_off a) (a_len a)) by (apply (di_pc _ s D t); rewrite Ep; auto).
    assert (U : In o UO) by (eapply at_UO; eauto; apply (si_h _ _ _ s H)).
    pose proof (lockers_bound s o H U) as LBD.
    assert (E : r_pc s' t = AD a f o l (off_lockers (h_o (r_h s) o))) by (unfold s', r_run; rewrite Ep; simpl; apply upd_eq).
    apply (MK (5 + length (off_lockers (h_o (r_h s) o)))%nat); rewrite ?E; try (split; auto); auto; try lia.
    + destruct gu; lia.
    + intros f1 o1 x1 ls1 Q. inversion Q; subst f1 o1 x1 ls1. intros l' g' HL' C'.
      destruct (conflict_entry s f o H D (proj1 A) (proj1 (proj2 A)) DV RM FA l' g' (HS _ _ HL') C') as [IN _].
      unfold off_lockers. apply in_app_iff. destruct (gr_kind g'); [left | right]; apply in_map; auto.
    + intros f1 o1 x1 ls1 Q. inversion Q; subst f1 o1 x1 ls1. auto.
  - (* the sweep *)
    inversion PA; subst a0. inversion ST; subst n.
    pose proof (si_pc _ _ _ s H t AL) as P. rewrite Ep in P. destruct P as (A & DV & _ & RM & _).
    assert (FA : fam (a_dev a) (a_off a) (a_len a)) by (apply (di_pc _ s D t); rewrite Ep; auto).
    specialize (TL f o l ls eq_refl). specialize (LB f o l ls eq_refl).
    destruct ls as [|[k x] ls].
    + right; left. exists 2%nat. split; [|destruct gu; simpl; lia].
      assert (E : r_pc s' t = RDrop (AT a f o l)) by (unfold s', r_run; rewrite Ep; simpl; apply upd_eq).
      constructor; auto; try lia.
      * rewrite AE; auto.
      * rewrite E. split; auto.
      * rewrite E. auto.
      * intros _ l' g' HL' C'. destruct (TL l' g' (HS _ _ HL') C').
    + assert (E : r_pc s' t = AD a f o l ls) by (unfold s', r_run; rewrite Ep; simpl; apply upd_eq).
      apply (MK (5 + length ls)%nat); rewrite ?E; try (split; auto); auto; try (simpl in LB; lia).
      * simpl. destruct gu; lia.
      * intros f1 o1 x1 ls1 Q. inversion Q; subst f1 o1 x1 ls1. intros l' g' HL' C'.
        destruct (TL l' g' (HS _ _ HL') C') as [Q1|Q1]; auto. inversion Q1; subst k x. exfalso.
        destruct (conflict_entry s f o H D (proj1 A) (proj1 (proj2 A)) DV RM FA l' g' (HS _ _ HL') C') as [IN LR].
        assert (DG : gr_dev g' = a_dev a) by (destruct C' as (C1 & _); simpl in C1; congruence).
        assert (EX : (gr_t g' =? t) && (gr_fd g' =? a_fd a) = false).
        { destruct (gr_t g' =? t) eqn:X1; auto. destruct (gr_fd g' =? a_fd a) eqn:X2; auto. exfalso.
          apply Z.eqb_eq in X1. apply Z.eqb_eq in X2.
          apply (gone_not_present s true g' (GN l' g' (HS _ _ HL') C' true)). split; [rewrite X1; auto|].
          rewrite X1, X2, DG. apply (si_fd _ _ _ s H t); auto. rewrite Ep. auto. }
        pose proof (gone_dead s gu g' (GN l' g' (HS _ _ HL') C' gu)) as PD.
        revert HL'. unfold holds, s', r_run. rewrite Ep. simpl. unfold check_locker. rewrite LR. simpl. rewrite EX.
        rewrite <- DG, PD. simpl.
        assert (M : mem l' (o_list (h_o (r_h s) o) (gr_kind g')) = true) by (apply mem_in; auto).
        rewrite M. simpl. rewrite upd_eq. discriminate.
      * intros f1 o1 x1 ls1 Q. inversion Q; subst f1 o1 x1 ls1. simpl in LB. lia.
Qed.

Lemma prog_step : forall m s (gu : bool), alive s t = true -> prog m s -> prog (if gu then m - 1 else m) (r_run s t false gu).
Proof.
  intros m s gu AL [(ID & R & HL)|[(n & S & N)|(n & S & N)]].
  - left. rewrite idle_run by exact ID. split; auto.
  - pose proof (solo_step UF UO UL UF_nd fam EOD t a n s gu S) as X. cbv zeta in X. destruct n as [|n].
    + left. exact X.
    + right; left. exists n. split; auto. destruct gu; lia.
  - apply (prog_weaken (if gu then n - 1 else n)); [destruct gu; lia|]. apply trek_step; auto.
Qed.

Lemma prog_end : forall s, prog 0 s -> granted s.
Proof.
  intros s [G|[(n & _ & N)|(n & S & N)]]; auto; [lia|]. pose proof (far_pos _ _ (tk_far _ _ S)). lia.
Qed.

Lemma take_over_path : forall ls m s s', r_path (only t) s ls s' -> alive s t = true -> prog m s -> (m <= checks ls)%nat -> granted s'.
Proof.
  intros ls m s s' P. revert m. induction P as [s|s x ls s' O P IH]; intros m AL PR L.
  - unfold checks in L. simpl in L. apply prog_end. apply (prog_weaken m); auto.
  - destruct O as [gu ->]. rewrite run_step in * by auto.
    assert (AL' : alive (r_run s t false gu) t = true).
    { destruct (run_env s t false gu) as (E1 & E2 & _). unfold alive. rewrite E1, E2. exact AL. }
    apply (IH (if gu then m - 1 else m)%nat); auto.
    + apply prog_step; auto.
    + unfold checks in *. simpl in L. destruct gu; simpl in L; lia.
Qed.
End TakeOver.

(** A lock call that does not look for dead holders - timed, trying, or blocking with the loop limit never
    reached - leaves a conflicting lock alone, and never succeeds while it exists. *)
Section NoTakeOver.
Variables UF UO UL : list Z.
Hypothesis UF_nd : NoDup UF.
Notation HI := (HI UF UO UL).
Notation SI := (SI UF UO UL).
Variable fam : Z -> Z -> Z -> Prop.
Hypothesis EOD : equal_or_disjoint fam.
Notation DI := (DI fam).
Variable t : Z.
Variable a : rargs.

Definition before (p : rpc) : Prop :=
  match p with RWait (A2 _) | A2 _ | A3 _ _ | A4 _ _ _ | RDrop (AT _ _ _ _) | AT _ _ _ _ => True | _ => False end.
Record stuck (l : Z) (g : grant) (s : rstate) : Prop := {
  sk_si : SI s; sk_di : DI s; sk_al : alive s t = true; sk_holds : holds s l g;
  sk_pc : (want a (r_pc s t) /\ before (r_pc s t)) \/ failing s t
}.

Lemma owner_forbids : forall h o k l g, HI h -> In o UO -> h_st h l = LHeld g -> In l (o_list (h_o h o) (gr_kind g)) ->
  k = Wr \/ gr_kind g = Wr -> word_permits k (o_val (h_o h o)) = false.
Proof.
  intros h o k l g H U S IN K. assert (OW : owning h l = true) by (unfold owning; rewrite S; auto).
  assert (F : In l (filter (owning h) (o_list (h_o h o) (gr_kind g)))) by (apply filter_In; auto).
  destruct (hi_word _ _ _ h H o U) as [[E N]|(E & N & _)].
  - destruct (gr_kind g); simpl in F; [|rewrite N in F; destruct F]. destruct K as [->|K]; [|discriminate].
    destruct (filter (owning h) (o_rd (h_o h o))); [destruct F|]. simpl in E |- *. unfold RW_UNLOCK. apply Z.eqb_neq. lia.
  - rewrite E. destruct k; auto.
Qed.

Lemma stuck_step : forall l g s gu, conflict (grant_of t a) g -> (a_wait a = WBlock -> gu = false) -> stuck l g s -> stuck l g (r_run s t false gu).
Proof.
  intros l g s gu C NB [H D AL HL PC]. set (s' := r_run s t false gu).
  assert (H' : SI s') by (unfold s'; rewrite <- run_step by auto; apply SI_step; auto; exact I).
  assert (D' : DI s') by (unfold s'; rewrite <- run_step by auto; apply (DI_step UF UO UL UF_nd fam); auto; exact I).
  assert (AL' : alive s' t = true).
  { destruct (run_env s t false gu) as (E1 & E2 & _). fold s' in E1, E2. unfold alive. rewrite E1, E2. exact AL. }
  assert (HL' : holds s' l g).
  { destruct (run_holds UF UO UL s t false gu H AL) as [Q|a0 f o x Ep _ _ _ Q|a0 f o x g0 Ep|x g0 priv _ _ X].
    - apply Q; auto.
    - apply Q; auto.
    - exfalso. unfold failing, fin, idle in PC. rewrite Ep in PC.
      destruct PC as [[_ B]|(e & _ & [E|[E|[E|[E _]]]])]; try contradiction; discriminate.
    - exfalso. unfold failing, fin, idle in PC.
      destruct PC as [[_ B]|(e & _ & [E|[E|[E|[E _]]]])]; destruct (r_pc s t); try contradiction; discriminate. }
  constructor; auto. destruct PC as [[W B]|(e & NE & [E|E])].
  2:{ right. exists e. split; auto. unfold s'. apply run_err; auto. }
  2:{ right. exists e. split; auto. right. unfold s'. rewrite <- run_step by auto. apply fin_own; auto. }
  destruct (want_own s t false gu a W) as [W'|[F|(f & o & x & Ep & _)]]; auto; [|rewrite Ep in B; contradiction].
  left. split; [exact W'|]. destruct W as [PA PE].
  destruct (r_pc s t) as [ |p|p|e0|a0|a0 f|a0 f o|a0 f o x|a0 f o x|a0 f o x|a0 f o x ls|a0 f o e0|a0 f e0|a0 e0|a0|a0 f o k x|a0 f o k x|a0 f o|a0 f|a0|priv|priv fs os ls] eqn:Ep;
    try contradiction.
  - destruct p; try contradiction. unfold s', r_run. rewrite Ep. destruct (r_guard s) as [u|]; [destruct (alive s u)|]; simpl; rewrite ?upd_eq, ?Ep; exact I.
  - destruct p; try contradiction. unfold s', r_run. rewrite Ep. simpl. rewrite upd_eq. exact I.
  - destruct W' as [_ X]. revert X. unfold s', r_run. rewrite Ep. destruct (find_file _ _); [|destruct (h_ffree (r_h s))]; simpl; rewrite upd_eq; simpl; auto; discriminate.
  - destruct W' as [_ X]. revert X. unfold s', r_run. rewrite Ep. destruct (find_off _ _ _ _); [|destruct (h_ofree (r_h s))]; simpl; rewrite upd_eq; simpl; auto.
    unfold after_f2. destruct (my_free_fd s t); simpl; discriminate.
  - destruct W' as [_ X]. revert X. unfold s', r_run. rewrite Ep. destruct (h_lfree (r_h s)); simpl; rewrite upd_eq; simpl; auto.
    unfold after_f1. destruct (my_free_off s t), (my_free_fd s t); simpl; discriminate.
  - simpl in PA. inversion PA; subst a0.
    pose proof (si_pc _ _ _ s H t AL) as P. rewrite Ep in P. destruct P as (A & DV & _ & RM & _).
    assert (FA : fam (a_dev a) (a_off a) (a_len a)) by (apply (di_pc _ s D t); rewrite Ep; auto).
    destruct (conflict_entry UF UO UL fam EOD t a s f o H D (proj1 A) (proj1 (proj2 A)) DV RM FA l g HL C) as [IN _].
    assert (WP : word_permits (a_kind a) (o_val (h_o (r_h s) o)) = false).
    { apply (owner_forbids (r_h s) o (a_kind a) l g); auto; [apply (si_h _ _ _ s H) | eapply at_UO; eauto; apply (si_h _ _ _ s H) | apply C]. }
    destruct W' as [_ X]. revert X. unfold s', r_run. rewrite Ep, WP. simpl. destruct (a_wait a); simpl.
    + rewrite upd_eq. discriminate.
    + rewrite NB by auto. rewrite Ep. auto.
    + destruct gu; [simpl; rewrite upd_eq; discriminate | rewrite Ep; auto].
Qed.

Lemma stuck_path : forall l g ls s s', conflict (grant_of t a) g -> r_path (only t) s ls s' -> (a_wait a = WBlock -> checks ls = 0%nat) ->
  stuck l g s -> stuck l g s'.
Proof.
  intros l g ls s s' C P. induction P as [s|s x ls s' O P IH]; intros NB S; auto.
  destruct O as [gu ->]. rewrite run_step in * by apply S. apply IH.
  - intro B. specialize (NB B). unfold checks in *. simpl in NB. destruct gu; simpl in NB; [discriminate | exact NB].
  - apply stuck_step; auto. intro B. specialize (NB B). unfold checks in NB. simpl in NB. destruct gu; auto. discriminate.
Qed.
End NoTakeOver.
