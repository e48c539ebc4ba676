(** Whole calls of the read/write lock API machine. *)
From Coq Require Import ZArith List Bool Lia Permutation.
From Verif Require Import Base Range_Model Range_Props RwWord_Model RwApi_Model RwApi_Spec RwApi_Proofs RwApi_Proofs2 RwApi_Proofs3 RwApi_Proofs4.
Import ListNotations.
Open Scope Z_scope.

Section Calls.
Variables UF UO UL : list Z.
Hypothesis UF_nd : NoDup UF.
Hypothesis UO_nd : NoDup UO.
Hypothesis UL_nd : NoDup UL.
Notation HI := (HI UF UO UL).
Notation SI := (SI UF UO UL).
Variable ok : rstate -> rlabel -> Prop.
Hypothesis OKC : forall s x, ok s x -> careful s x.

Lemma SI_path : forall s ls s', r_path ok s ls s' -> SI s -> SI s'.
Proof. intros s ls s' P H. induction P; auto. apply IHP. apply SI_step; auto. Qed.

(** ** The end of a call *)
Definition fin (e : Z) (s : rstate) (t : Z) : Prop :=
  r_pc s t = RDrop (RRet e) \/ r_pc s t = RRet e \/ (idle s t /\ r_res s t = Some e).

Lemma fin_other : forall e s x t, actor x <> Some t -> fin e s t -> fin e (r_step s x) t.
Proof. intros e s x t N F. destruct (step_other s x t N) as [A B]. unfold fin, idle in *. rewrite A, B. auto. Qed.

Lemma fin_own : forall e s t race gu, alive s t = true -> fin e s t ->
  fin e (r_step s (LRun t race gu)) t /\ (forall l g, holds (r_step s (LRun t race gu)) l g <-> holds s l g).
Proof.
  intros e s t race gu AL F. unfold r_step. rewrite AL. unfold fin, idle, r_run.
  destruct F as [E|[E|[E R]]]; unfold idle in *; rewrite E; simpl; rewrite ?upd_eq; (split; [auto | intros; tauto]).
Qed.

Lemma fin_path : forall e ls s s' t, r_path ok s ls s' -> alive s' t = true -> one_call t ls -> idle s' t ->
  fin e s t -> own_effect t s ls [] /\ r_res s' t = Some e.
Proof.
  intros e ls s s' t P. induction P as [s|s x ls s' O P IH]; intros AL OC ID F.
  - split; [constructor|]. destruct F as [E|[E|[_ R]]]; auto; unfold idle in ID; congruence.
  - assert (A : alive s t = true) by (eapply step_alive, path_alive; eauto).
    assert (OC' : one_call t ls) by (intros c I; apply (OC c); right; auto).
    destruct (actor x) as [u|] eqn:EA; [destruct (Z.eq_dec u t) as [->|N]|].
    + destruct x as [t0 c|t0 race gu|p fd d|p m|t0|p]; simpl in EA; inversion EA; subst.
      * exfalso. apply (OC c). left; auto.
      * destruct (fin_own e s t race gu A F) as [F' HH]. destruct (IH AL OC' ID F') as [E R]. split; auto.
        apply oe_same; auto.
    + assert (actor x <> Some t) by congruence. destruct (IH AL OC' ID (fin_other e s x t H F)) as [E R].
      split; auto. apply oe_other; auto.
    + assert (actor x <> Some t) by congruence. destruct (IH AL OC' ID (fin_other e s x t H F)) as [E R].
      split; auto. apply oe_other; auto.
Qed.

(** ** Unlock calls *)
Definition unl_pre (a : rargs) (s : rstate) (t : Z) : Prop := r_pc s t = RWait (B2 a) \/ r_pc s t = B2 a.
Definition unl_mid (s : rstate) (t : Z) : Prop :=
  match r_pc s t with B3 _ _ _ _ _ | B4 _ _ _ _ _ | B5 _ _ _ | B6 _ _ => True | _ => False end.

Lemma unl_mid_own : forall s t race gu, alive s t = true -> unl_mid s t ->
  unl_mid (r_run s t race gu) t \/ fin OK (r_run s t race gu) t.
Proof.
  intros s t race gu AL M. unfold unl_mid, fin, r_run in *. destruct (r_pc s t); try contradiction; simpl; rewrite upd_eq; auto.
Qed.

Lemma unl_mid_same : forall s t race gu, SI s -> alive s t = true -> unl_mid s t ->
  forall l g, holds (r_run s t race gu) l g <-> holds s l g.
Proof.
  intros s t race gu H AL M. unfold unl_mid in M. pose proof (run_holds UF UO UL s t race gu H AL) as E.
  destruct E as [Q|a f o l0 Ep|a f o l0 g0 Ep|l0 g0 priv _ _ PC _ _]; auto; exfalso.
  - rewrite Ep in M; auto.
  - rewrite Ep in M; auto.
  - destruct (r_pc s t); auto.
Qed.

Lemma unl_mid_path : forall ls s s' t, r_path ok s ls s' -> SI s -> alive s' t = true -> one_call t ls -> idle s' t ->
  unl_mid s t -> own_effect t s ls [] /\ r_res s' t = Some OK.
Proof.
  intros ls s s' t P. induction P as [s|s x ls s' O P IH]; intros H AL OC ID M.
  - exfalso. unfold idle in ID. unfold unl_mid in M. rewrite ID in M. auto.
  - assert (A : alive s t = true) by (eapply step_alive, path_alive; eauto).
    assert (OC' : one_call t ls) by (intros c I; apply (OC c); right; auto).
    assert (H' : SI (r_step s x)) by (apply SI_step; auto).
    assert (OTH : actor x <> Some t -> own_effect t s (x :: ls) [] /\ r_res s' t = Some OK).
    { intro N. destruct (step_other s x t N) as [E1 _]. destruct IH as [E R]; auto. unfold unl_mid in *. rewrite E1; auto.
      split; auto. apply oe_other; auto. }
    destruct (actor x) as [u|] eqn:EA; [destruct (Z.eq_dec u t) as [->|N]|]; try (apply OTH; congruence).
    destruct x as [t0 c|t0 race gu|p fd d|p m|t0|p]; simpl in EA; inversion EA; subst.
    + exfalso. apply (OC c). left; auto.
    + pose proof (unl_mid_same s t race gu H A M) as HH.
      assert (RS : r_step s (LRun t race gu) = r_run s t race gu) by (simpl; rewrite A; auto).
      rewrite RS in *.
      destruct (unl_mid_own s t race gu A M) as [M'|F'].
      * destruct (IH H' AL OC' ID M') as [E R]. split; auto. apply oe_same; auto; rewrite RS; auto.
      * destruct (fin_path OK ls _ s' t P AL OC' ID F') as [E R]. split; auto. apply oe_same; auto; rewrite RS; auto.
Qed.

(** the step at which an unlock call decides *)
Lemma unl_pre_own : forall s t a race gu, SI s -> alive s t = true -> unl_pre a s t ->
  let s' := r_run s t race gu in
  (unl_pre a s' t /\ (forall l g, holds s' l g <-> holds s l g)) \/
  (fin EINVAL s' t /\ r_pc s t = B2 a /\ (forall l g, holds s' l g <-> holds s l g)) \/
  (exists f o l g, unl_mid s' t /\ r_pc s t = B2 a /\ holds s l g /\ gr_t g = t /\ gr_fd g = a_fd a /\ gr_dev g = a_dev a /\
     find_file (r_h s) (a_dev a) = Some f /\ find_off (r_h s) f (a_off a) (a_len a) = Some o /\ at_ (r_h s) f o (gr_kind g) l /\
     (forall l' g', holds s' l' g' <-> holds s l' g' /\ l' <> l)).
Proof.
  intros s t a race gu H AL P s'. pose proof (run_holds UF UO UL s t race gu H AL) as E. fold s' in E.
  assert (SAME : r_pc s t = RWait (B2 a) \/ fin EINVAL s' t -> forall l g, holds s' l g <-> holds s l g).
  { intro Q. destruct E as [Q'|a0 f o l0 Ep|a0 f o l0 g0 Ep Ep'|l0 g0 priv _ _ PC _ _]; auto.
    - destruct P as [P|P]; rewrite P in Ep; discriminate.
    - destruct Q as [Q|[Q|[Q|[Q _]]]]; unfold idle in *; rewrite ?Ep in Q; rewrite ?Ep' in Q; discriminate.
    - destruct P as [P|P]; rewrite P in PC; contradiction. }
  destruct P as [P|P].
  - left. split; [|auto]. unfold s', r_run, unl_pre. rewrite P.
    destruct (r_guard s) as [u|]; [destruct (alive s u)|]; simpl; rewrite ?upd_eq; auto.
  - assert (C : fin EINVAL s' t \/ unl_mid s' t).
    { unfold s', r_run, fin, unl_mid. rewrite P.
      destruct (find_file (r_h s) (a_dev a)) as [f|]; [|simpl; rewrite upd_eq; auto].
      destruct (find_off (r_h s) f (a_off a) (a_len a)) as [o|]; [|simpl; rewrite upd_eq; auto].
      destruct (find_locker (r_h s) (o_wr (h_o (r_h s) o)) t (a_fd a) true) as [l|]; [simpl; rewrite upd_eq; auto|].
      destruct (find_locker (r_h s) (o_rd (h_o (r_h s) o)) t (a_fd a) true) as [l|]; simpl; rewrite upd_eq; auto. }
    destruct C as [C|C]; [right; left; auto|].
    right; right. destruct E as [Q'|a0 f o l0 Ep|a0 f o l0 g0 Ep Ep' HL T1 T2 T3 FF FO AT Q|l0 g0 priv _ _ PC _ _].
    + exfalso. revert C Q'. unfold s', r_run, unl_mid. rewrite P.
      destruct (find_file (r_h s) (a_dev a)) as [f|] eqn:EF; [|simpl; rewrite upd_eq; auto].
      destruct (find_off (r_h s) f (a_off a) (a_len a)) as [o|] eqn:EO; [|simpl; rewrite upd_eq; auto].
      assert (Q : forall k l, In l (o_list (h_o (r_h s) o) k) -> h_l (r_h s) l = mkL t (a_fd a) true ->
        (forall l0 g, holds (goto (set_h s (set_st (set_o (r_h s) o (o_set_val (h_o (r_h s) o) (unlock_word (o_val (h_o (r_h s) o))))) l LRel)) t (B3 a f o k l)) l0 g
            <-> holds s l0 g) -> False).
      { intros k l I EL Q. destruct (find_file_some _ _ _ EF) as [IF DF]. destruct (find_off_some _ _ _ _ _ EO) as [IO RM].
        assert (A : at_ (r_h s) f o k l) by (repeat split; auto).
        assert (U : In o UO) by (eapply at_UO; eauto; apply (si_h _ _ _ s H)).
        destruct (hi_lk _ _ _ _ (si_h _ _ _ s H) o k l U I) as (LK & _). rewrite EL in LK. simpl in LK.
        destruct (h_st (r_h s) l) as [| |g| |] eqn:S; try discriminate.
        - apply Q in S. unfold holds in S. simpl in S. rewrite upd_eq in S. discriminate.
        - destruct (si_rel _ _ _ s H l S) as (u & a' & f' & o' & k' & Au & Pu).
          pose proof (si_pc _ _ _ s H u Au) as Q0. rewrite Pu in Q0. destruct Q0 as (_ & Q0 & _). rewrite EL in Q0.
          assert (u = t) by congruence. subst. congruence. }
      destruct (find_locker (r_h s) (o_wr (h_o (r_h s) o)) t (a_fd a) true) as [l|] eqn:EL.
      * apply find_locker_some in EL as [I EL]. intros _. apply (Q Wr l I EL).
      * destruct (find_locker (r_h s) (o_rd (h_o (r_h s) o)) t (a_fd a) true) as [l|] eqn:EL2; [|simpl; rewrite upd_eq; auto].
        apply find_locker_some in EL2 as [I EL2]. intros _. apply (Q Rd l I EL2).
    + congruence.
    + assert (a0 = a) by congruence. subst a0. exists f, o, l0, g0.
      exact (conj C (conj P (conj HL (conj T1 (conj T2 (conj T3 (conj FF (conj FO (conj AT Q))))))))).
    + exfalso. rewrite P in PC; auto.
Qed.

Theorem unlock_path : forall ls s s' t a, r_path ok s ls s' -> SI s -> alive s' t = true -> one_call t ls -> idle s' t ->
  unl_pre a s t ->
  exists rel, own_effect t s ls rel /\
    ((r_res s' t = Some EINVAL /\ rel = []) \/
     (r_res s' t = Some OK /\ exists l g, rel = [(l, g)] /\ gr_t g = t /\ gr_fd g = a_fd a /\ gr_dev g = a_dev a)).
Proof.
  intros ls s s' t a P. induction P as [s|s x ls s' O P IH]; intros H AL OC ID M.
  - exfalso. unfold idle in ID. destruct M; congruence.
  - assert (A : alive s t = true) by (eapply step_alive, path_alive; eauto).
    assert (OC' : one_call t ls) by (intros c I; apply (OC c); right; auto).
    assert (H' : SI (r_step s x)) by (apply SI_step; auto).
    assert (OTH : actor x <> Some t -> exists rel, own_effect t s (x :: ls) rel /\
       ((r_res s' t = Some EINVAL /\ rel = []) \/
        (r_res s' t = Some OK /\ exists l g, rel = [(l, g)] /\ gr_t g = t /\ gr_fd g = a_fd a /\ gr_dev g = a_dev a))).
    { intro N. destruct (step_other s x t N) as [E1 _]. destruct IH as (rel & E & R); auto. unfold unl_pre in *. rewrite E1; auto.
      exists rel. split; auto. apply oe_other; auto. }
    destruct (actor x) as [u|] eqn:EA; [destruct (Z.eq_dec u t) as [->|N]|]; try (apply OTH; congruence).
    destruct x as [t0 c|t0 race gu|p fd d|p m|t0|p]; simpl in EA; inversion EA; subst.
    + exfalso. apply (OC c). left; auto.
    + assert (RS : r_step s (LRun t race gu) = r_run s t race gu) by (simpl; rewrite A; auto).
      rewrite RS in *.
      destruct (unl_pre_own s t a race gu H A M) as [[M' HH]|[(F' & _ & HH)|(f & o & l & g & M' & _ & HL & T1 & T2 & T3 & _ & _ & _ & HH)]].
      * destruct (IH H' AL OC' ID M') as (rel & E & R). exists rel. split; auto. apply oe_same; auto; rewrite RS; auto.
      * destruct (fin_path EINVAL ls _ s' t P AL OC' ID F') as [E R]. exists []. split; auto. apply oe_same; auto; rewrite RS; auto.
      * destruct (unl_mid_path ls _ s' t P H' AL OC' ID M') as [E R]. exists [(l, g)]. split.
        -- apply oe_released; auto; rewrite RS; auto.
        -- right. split; auto. exists l, g. auto.
Qed.

(** ** Holders that are present keep their locks (C29) *)
Lemma present_not_dead : forall s g priv, present s g -> probe_dead s priv (gr_t g) (gr_fd g) (gr_dev g) = false.
Proof. intros s g priv [A B]. apply live_not_dead; auto. Qed.

Lemma held_kept : forall s x l g, SI s -> holds s l g -> present s g ->
  (actor x = Some (gr_t g) -> ~ in_unlock (r_pc s (gr_t g))) -> holds (r_step s x) l g.
Proof.
  intros s x l g H HL PR NU. destruct (step_holds UF UO UL s x H) as [Q|(t & race & gu & -> & AL & E)].
  - apply Q; auto.
  - destruct E as [Q|a f o l0 Ep S _ _ Q|a f o l0 g0 Ep _ HL0 T1 _ _ _ _ _ Q|l0 g0 priv HL0 PD _ _ Q]; apply Q; auto.
    + split; auto. intros ->. assert (g0 = g) by (unfold holds in *; congruence). subst g0.
      apply NU; simpl; [congruence|]. rewrite T1, Ep. simpl; auto.
    + split; auto. intros ->. assert (g0 = g) by (unfold holds in *; congruence). subst g0.
      rewrite present_not_dead in PD; auto. discriminate.
Qed.

(** no thread but [t] gets locks for [t] *)
Lemma no_new_other : forall s x l g, SI s -> actor x <> Some (gr_t g) -> holds (r_step s x) l g -> holds s l g.
Proof.
  intros s x l g H N HL. destruct (step_holds UF UO UL s x H) as [Q|(t & race & gu & -> & AL & E)].
  - apply Q; auto.
  - destruct E as [Q|a f o l0 Ep S _ _ Q|a f o l0 g0 Ep _ HL0 T1 _ _ _ _ _ Q|l0 g0 priv HL0 PD _ _ Q]; apply Q in HL; auto; try tauto.
    destruct HL as [HL|[_ ->]]; auto. exfalso. simpl in N. auto.
Qed.

Lemma no_new_effect : forall t s ls rel, own_effect t s ls rel -> forall s', r_path ok s ls s' -> SI s ->
  forall l g, gr_t g = t -> holds s' l g -> holds s l g /\ forall l0 g0, In (l0, g0) rel -> gr_t g0 = t -> (l0, g0) <> (l, g).
Proof.
  intros t s ls rel E. induction E as [s|s x ls rel N E IH|s x ls rel A Q E IH|s x ls rel l0 g0 A HL Q E IH]; intros s' P H l g T HG.
  - inversion P; subst. split; auto.
  - inversion P; subst. destruct (IH s' H5 (SI_step _ _ _ UF_nd _ _ H (OKC _ _ H3)) l g eq_refl HG) as [HX X].
    split; auto. eapply no_new_other; eauto.
  - inversion P; subst. destruct (IH s' H5 (SI_step _ _ _ UF_nd _ _ H (OKC _ _ H3)) l g eq_refl HG) as [HX X].
    split; auto. apply Q; auto.
  - inversion P; subst. destruct (IH s' H5 (SI_step _ _ _ UF_nd _ _ H (OKC _ _ H3)) l g eq_refl HG) as [HX X].
    apply Q in HX as [HX NE]. split; auto. intros l1 g1 [I|I] T1; [inversion I; subst; congruence | eauto].
Qed.

(** ** Failing try and timed calls *)
Fixpoint no_wait_check (p : rpc) : Prop :=
  match p with RWait q => no_wait_check q | RDrop q => no_wait_check q | AD0 _ _ _ _ | AD _ _ _ _ _ => False | _ => True end.
Definition lock_phase (s : rstate) (t : Z) : Prop :=
  no_wait_check (r_pc s t) /\ exists a, pc_args (r_pc s t) = Some a /\ a_wait a <> WBlock.

Lemma lock_phase_own : forall s t race gu, SI s -> alive s t = true -> lock_phase s t ->
  let s' := r_run s t race gu in
  (lock_phase s' t \/ exists e, fin e s' t) /\ ((forall l g, holds s' l g <-> holds s l g) \/ fin OK s' t).
Proof.
  intros s t race gu H AL (NC & a & PA & W) s'. split.
  - unfold s', r_run, lock_phase, fin, idle.
    destruct (r_pc s t) as [ |p|p|e|a0|a0 f|a0 f o|a0 f o l|a0 f o l|a0 f o l|a0 f o l ls|a0 f o e|a0 f e|a0 e|a0|a0 f o k l|a0 f o k l|a0 f o|a0 f|a0|priv|priv fs os ls] eqn:Ep;
      simpl in PA, NC; try discriminate; try contradiction; try (inversion PA; subst a0);
      unfold after_f1, after_f2;
      repeat match goal with |- context [match ?x with _ => _ end] => destruct x eqn:? end; simpl; rewrite ?upd_eq, ?Ep; simpl;
      try (left; split; auto; exists a; split; congruence); try (left; split; auto; exists a; auto; fail); try (right; eexists; eauto; fail); try congruence.
  - pose proof (run_holds UF UO UL s t race gu H AL) as E. fold s' in E.
    destruct E as [Q|a0 f o l0 Ep S ID RS Q|a0 f o l0 g0 Ep|l0 g0 priv _ _ PC _ _]; auto.
    + right. right. right. auto.
    + rewrite Ep in PA. discriminate.
    + exfalso. destruct (r_pc s t); simpl in *; auto; discriminate.
Qed.

Lemma failed_lock_path : forall ls s s' t e, r_path ok s ls s' -> SI s -> alive s' t = true -> one_call t ls -> idle s' t ->
  r_res s' t = Some e -> e <> OK -> lock_phase s t -> own_effect t s ls [].
Proof.
  intros ls s s' t e P. induction P as [s|s x ls s' O P IH]; intros H AL OC ID RS NE M.
  - constructor.
  - assert (A : alive s t = true) by (eapply step_alive, path_alive; eauto).
    assert (OC' : one_call t ls) by (intros c I; apply (OC c); right; auto).
    assert (H' : SI (r_step s x)) by (apply SI_step; auto).
    assert (OTH : actor x <> Some t -> own_effect t s (x :: ls) []).
    { intro N. destruct (step_other s x t N) as [E1 _]. apply oe_other; auto. apply IH; auto. unfold lock_phase in *. rewrite E1; auto. }
    destruct (actor x) as [u|] eqn:EA; [destruct (Z.eq_dec u t) as [->|N]|]; try (apply OTH; congruence).
    destruct x as [t0 c|t0 race gu|p fd d|p m|t0|p]; simpl in EA; inversion EA; subst.
    + exfalso. apply (OC c). left; auto.
    + assert (RR : r_step s (LRun t race gu) = r_run s t race gu) by (simpl; rewrite A; auto).
      rewrite RR in *.
      destruct (lock_phase_own s t race gu H A M) as [PH HH].
      assert (NOK : ~ fin OK (r_run s t race gu) t).
      { intro F. destruct (fin_path OK ls _ s' t P AL OC' ID F) as [_ R]. congruence. }
      destruct HH as [HH|HH]; [|contradiction].
      apply oe_same; auto; rewrite RR; auto.
      destruct PH as [PH|[e' F]]; auto.
      apply (fin_path e' ls _ s' t P AL OC' ID F).
Qed.

(** ** Recovery passes *)
Lemma fd_file : forall fd, 0 <= fd -> is_no_fd fd = false.
Proof. intros. apply Z.ltb_ge. auto. Qed.
Lemma fd_none : forall fd, fd < 0 -> is_no_fd fd = true.
Proof. intros. apply Z.ltb_lt. auto. Qed.
Lemma gone_dead : forall s priv g, gone s priv g -> probe_dead s priv (gr_t g) (gr_fd g) (gr_dev g) = true.
Proof.
  intros s priv g [P|[(A & -> & B)|([A|A] & B)]]; unfold probe_dead.
  - unfold alive. rewrite P. destruct (is_no_fd (gr_fd g)), priv; auto.
  - rewrite (fd_file _ A). destruct (r_palive s _); auto. destruct (r_fd s _ _) as [d|]; auto. destruct B as [B1 B2].
    apply andb_true_iff. split; apply negb_true_iff, Z.eqb_neq; auto.
  - rewrite (fd_none _ A), B. auto.
  - rewrite A, B. destruct (is_no_fd (gr_fd g)); auto.
Qed.

Lemma gone_not_present : forall s priv g, gone s priv g -> ~ present s g.
Proof. intros s priv g G P. apply gone_dead in G. rewrite present_not_dead in G; auto. discriminate. Qed.

(** no new lock for somebody who is gone *)
Lemma gone_no_new : forall s priv x l g, SI s -> gone s priv g -> holds (r_step s x) l g -> holds s l g.
Proof.
  intros s priv x l g H G HL. destruct (step_holds UF UO UL s x H) as [Q|(t & race & gu & -> & AL & E)].
  - apply Q; auto.
  - destruct E as [Q|a f o l0 Ep S _ _ Q|a f o l0 g0 Ep _ HL0 T1 _ _ _ _ _ Q|l0 g0 priv' HL0 PD _ _ Q]; apply Q in HL; auto; try tauto.
    destruct HL as [HL|[_ ->]]; auto. exfalso. apply (gone_not_present _ _ _ G). split; simpl; auto.
    eapply (si_fd _ _ _ s H); eauto. rewrite Ep. auto.
Qed.

(** while a thread is inside a guarded section, steps of others keep all entries in place *)
Lemma others_keep_places : forall s x t, SI s -> alive s t = true -> crit (r_pc s t) = true -> actor x <> Some t ->
  forall f o k l, at_ (r_h (r_step s x)) f o k l <-> at_ (r_h s) f o k l.
Proof.
  intros s x t H AL C N f o k l. assert (G := si_guard _ _ _ s H t AL C).
  destruct x as [u c|u race gu|p fd d|p m|u|p]; try tauto.
  - unfold r_step. destruct (alive s u); [|tauto]. destruct (r_pc s u); try tauto. rewrite call_heap. tauto.
  - unfold r_step. destruct (alive s u) eqn:Au; [|tauto].
    assert (u <> t) by (simpl in N; congruence).
    assert (Cu : crit (r_pc s u) = false).
    { destruct (crit (r_pc s u)) eqn:Cu; auto. pose proof (si_guard _ _ _ s H u Au Cu). congruence. }
    unfold r_run. destruct (r_pc s u) as [ |p|p|e|a|a f0|a f0 o0|a f0 o0 l0|a f0 o0 l0|a f0 o0 l0|a f0 o0 l0 ls|a f0 o0 e|a f0 e|a e|a|a f0 o0 k0 l0|a f0 o0 k0 l0|a f0 o0|a f0|a|priv|priv fs os ls]; simpl in Cu; try discriminate; try tauto.
    + rewrite G, AL. tauto.
    + destruct (word_permits _ _ && _).
      * unfold at_, offs; simpl. destruct (Z.eq_dec o o0) as [->|NO]; [rewrite upd_eq; destruct k; simpl; tauto | rewrite upd_neq by auto; tauto].
      * destruct (a_wait a); try destruct gu; tauto.
Qed.

(** what is left to do for the pass contains the place of the locker *)
Definition remaining (k : rwmode) (f o l : Z) (fs : list Z) (os : option (list Z)) (ls : option (list (rwmode * Z))) : Prop :=
  In f fs /\
  (forall fs' os', fs = f :: fs' -> os = Some os' ->
     In o os' /\ (forall os'' ls', os' = o :: os'' -> ls = Some ls' -> In (k, l) ls')).
Definition pass_pre (priv : bool) (s : rstate) (t : Z) : Prop := r_pc s t = RWait (P0 priv) \/ r_pc s t = P0 priv.
Definition pass_mid (priv : bool) (k : rwmode) (l : Z) (s : rstate) (t : Z) : Prop :=
  exists fs os ls f o, r_pc s t = PP priv fs os ls /\ at_ (r_h s) f o k l /\ remaining k f o l fs os ls.

Lemma pass_pre_own : forall s t priv race gu k f o l, alive s t = true -> pass_pre priv s t -> at_ (r_h s) f o k l ->
  pass_pre priv (r_run s t race gu) t \/ pass_mid priv k l (r_run s t race gu) t.
Proof.
  intros s t priv race gu k f o l AL [E|E] A; unfold r_run, pass_pre, pass_mid; rewrite E.
  - left. destruct (r_guard s) as [u|]; [destruct (alive s u)|]; simpl; rewrite ?upd_eq; auto.
  - right. exists (h_flist (r_h s)), None, None, f, o. simpl. rewrite upd_eq. repeat split; auto; try apply A; discriminate.
Qed.

Lemma pass_mid_own : forall s t priv race gu l g, SI s -> alive s t = true -> holds s l g -> gone s priv g ->
  pass_mid priv (gr_kind g) l s t ->
  holds (r_run s t race gu) l g -> pass_mid priv (gr_kind g) l (r_run s t race gu) t.
Proof.
  intros s t priv race gu l g H AL HL GN (fs & os & ls & f & o & Ep & A & IF & R) HL'.
  assert (Hh := si_h _ _ _ s H).
  assert (H' : SI (r_run s t race gu)).
  { pose proof (SI_step UF UO UL UF_nd s (LRun t race gu) H I) as Q. simpl in Q. rewrite AL in Q. exact Q. }
  pose proof (si_pc _ _ _ s H t AL) as P. rewrite Ep in P. simpl in P. destruct P as (N1 & I1 & P).
  assert (KEEP : at_ (r_h (r_run s t race gu)) f o (gr_kind g) l).
  { destruct (held_at UF UO UL _ _ _ (si_h _ _ _ _ H') HL') as (f' & o' & A' & _ & DV' & _).
    destruct (run_shr UF UO UL s t race gu H AL) as [SH|a f0 ff E|a f0 o0 rest E]; try congruence.
    assert (A2 : at_ (r_h s) f' o' (gr_kind g) l).
    { destruct A' as (X & Y & Z). destruct (SH f' X) as (X' & _ & O). destruct (O o' Y) as (Y' & _).
      repeat split; auto.
      (* lists of lockers only shrink in a pass *)
      revert Z. unfold r_run. rewrite Ep. unfold pass_step, check_locker, drop_locker, drop_off, drop_file.
      repeat match goal with |- context [match ?x with _ => _ end] => destruct x end; simpl; auto.
      all: destruct (Z.eq_dec o' z0) as [->|NN]; [rewrite ?upd_eq | rewrite ?upd_neq by auto; auto].
      all: try (destruct r, (gr_kind g); simpl; auto; intro J; apply in_del in J; tauto). }
    destruct (at_unique _ _ _ _ _ _ _ _ _ _ _ Hh A A2) as (-> & -> & _). auto. }
  revert HL' KEEP. unfold r_run, pass_mid. rewrite Ep. unfold pass_step. destruct fs as [|f0 fs]; [destruct IF|].
  destruct os as [[|o0 os]|]; [|destruct ls as [[|[k0 l0] ls]|]|]; intros HL' KEEP.
  - (* end of the ranges of f0 *)
    assert (f <> f0). { intros ->. destruct (R fs [] eq_refl eq_refl) as [[] _]. }
    exists fs, None, None, f, o. destruct (file_locked (r_h s) f0); simpl; rewrite upd_eq; repeat split; auto; try apply KEEP; try discriminate;
      destruct IF; congruence.
  - (* end of the lockers of o0 *)
    exists (f0 :: fs), (Some os), None, f, o.
    assert (Q : remaining (gr_kind g) f o l (f0 :: fs) (Some os) None).
    { split; auto. intros fs' os' E1 E2. inversion E1; subst. inversion E2; subst.
      destruct (R fs' (o0 :: os') eq_refl eq_refl) as [Q1 Q2].
      split; [|intros; discriminate]. destruct Q1 as [->|]; auto. destruct (Q2 os' [] eq_refl eq_refl). }
    destruct (off_locked (r_h s) o0); simpl; rewrite upd_eq; split; auto.
  - (* one locker *)
    exists (f0 :: fs), (Some (o0 :: os)), (Some ls), f, o. simpl. rewrite upd_eq. split; auto. split; [exact KEEP|].
    split; auto. intros fs' os' E1 E2. inversion E1; subst. inversion E2; subst.
    destruct (R fs' (o0 :: os) eq_refl eq_refl) as [Q1 Q2]. split; auto. intros os'' ls' E3 E4. inversion E3; subst. inversion E4; subst.
    destruct (Q2 os'' ((k0, l0) :: ls') eq_refl eq_refl) as [E|]; auto. inversion E; subst. exfalso.
    revert HL'. unfold holds. simpl. unfold check_locker.
    destruct (held_at UF UO UL _ _ _ Hh HL) as (f' & o' & A' & L & DV & _).
    destruct (at_unique _ _ _ _ _ _ _ _ _ _ _ Hh A A') as (-> & -> & _).
    rewrite L. simpl. rewrite DV, (gone_dead s priv g GN). simpl.
    assert (M : mem l (o_list (h_o (r_h s) o') (gr_kind g)) = true) by (apply mem_in; apply A').
    rewrite M. simpl. rewrite upd_eq. discriminate.
  - (* start of the lockers of o0 *)
    exists (f0 :: fs), (Some (o0 :: os)), (Some (off_lockers (h_o (r_h s) o0))), f, o. simpl. rewrite upd_eq. split; auto. split; auto.
    split; auto. intros fs' os' E1 E2. inversion E1; subst. inversion E2; subst.
    destruct (R fs' (o0 :: os) eq_refl eq_refl) as [Q1 Q2]. split; auto. intros os'' ls' E3 E4. inversion E3; subst. inversion E4; subst.
    destruct A as (_ & _ & A). unfold off_lockers. apply in_app_iff. destruct (gr_kind g); [left | right]; apply in_map; auto.
  - (* start of the ranges of f0 *)
    exists (f0 :: fs), (Some (f_offs (h_f (r_h s) f0))), None, f, o. simpl. rewrite upd_eq. split; auto. split; auto.
    split; auto. intros fs' os' E1 E2. inversion E1; subst. inversion E2; subst. split; [apply A | intros; discriminate].
Qed.

Lemma pass_path : forall priv ls s s' t l g, r_path (fun s x => ok s x /\ stays_gone priv g s x) s ls s' -> SI s ->
  alive s' t = true -> one_call t ls -> idle s' t ->
  (holds s l g -> pass_pre priv s t \/ pass_mid priv (gr_kind g) l s t) -> ~ holds s' l g.
Proof.
  intros priv ls s s' t l g P. induction P as [s|s x ls s' [O SG] P IH]; intros H AL OC ID M HL.
  - destruct (M HL) as [[E|E]|(fs & os & lk & f & o & E & _)]; unfold idle in ID; congruence.
  - assert (A : alive s t = true) by (eapply step_alive, path_alive; eauto).
    assert (OC' : one_call t ls) by (intros c I; apply (OC c); right; auto).
    assert (H' : SI (r_step s x)) by (apply SI_step; auto).
    destruct SG as [G1 G2].
    revert HL. apply IH; auto. intro HL'.
    assert (HL : holds s l g) by (eapply gone_no_new; eauto).
    destruct (held_at UF UO UL _ _ _ (si_h _ _ _ _ H) HL) as (f & o & AT & _).
    destruct (actor x) as [u|] eqn:EA; [destruct (Z.eq_dec u t) as [->|N]|].
    + destruct x as [t0 c|t0 race gu|p fd d|p m|t0|p]; simpl in EA; inversion EA; subst.
      * exfalso. apply (OC c). left; auto.
      * assert (RR : r_step s (LRun t race gu) = r_run s t race gu) by (simpl; rewrite A; auto).
        rewrite RR in *. destruct (M HL) as [Q|Q].
        -- eapply pass_pre_own; eauto.
        -- right. apply pass_mid_own; auto.
    + destruct (step_other s x t) as [E1 _]; [congruence|]. destruct (M HL) as [Q|Q].
      * left. unfold pass_pre in *. rewrite E1. auto.
      * right. destruct Q as (fs & os & lk & f1 & o1 & Ep & A1 & R). exists fs, os, lk, f1, o1. rewrite E1. split; auto. split; auto.
        apply (others_keep_places s x t H A); auto; [rewrite Ep; auto | congruence].
    + destruct (step_other s x t) as [E1 _]; [congruence|]. destruct (M HL) as [Q|Q].
      * left. unfold pass_pre in *. rewrite E1. auto.
      * right. destruct Q as (fs & os & lk & f1 & o1 & Ep & A1 & R). exists fs, os, lk, f1, o1. rewrite E1. split; auto. split; auto.
        apply (others_keep_places s x t H A); auto; [rewrite Ep; auto | congruence].
Qed.

End Calls.
