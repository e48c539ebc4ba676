(** Effects of single steps of the read/write lock API machine on holds, and of whole calls. *)
From Coq Require Import ZArith List Bool Lia Permutation.
From Verif Require Import Base Range_Model RwWord_Model RwApi_Model RwApi_Spec RwApi_Proofs RwApi_Proofs2.
Import ListNotations.
Open Scope Z_scope.

(** ** Steps of others *)
Lemma pass_other : forall s t priv fs os ls u, u <> t ->
  r_pc (pass_step s t priv fs os ls) u = r_pc s u /\ r_res (pass_step s t priv fs os ls) u = r_res s u.
Proof.
  intros. unfold pass_step.
  repeat match goal with |- context [match ?x with _ => _ end] => destruct x end; simpl; rewrite ?upd_neq by auto; auto.
Qed.

Lemma run_other : forall s t race gu u, u <> t ->
  r_pc (r_run s t race gu) u = r_pc s u /\ r_res (r_run s t race gu) u = r_res s u.
Proof.
  intros s t race gu u N. unfold r_run. destruct (r_pc s t) eqn:Ep; try (simpl; rewrite ?upd_neq by auto; auto; fail).
  all: try (apply pass_other; auto; fail).
  all: repeat match goal with |- context [match ?x with _ => _ end] => destruct x end; simpl; rewrite ?upd_neq by auto; auto.
Qed.

Lemma run_env : forall s t race gu, let s' := r_run s t race gu in
  r_talive s' = r_talive s /\ r_palive s' = r_palive s /\ r_fd s' = r_fd s /\ r_mode s' = r_mode s /\ r_allow s' = r_allow s.
Proof.
  intros s t race gu. unfold r_run, pass_step. destruct (r_pc s t) eqn:Ep; simpl; auto.
  all: repeat match goal with |- context [match ?x with _ => _ end] => destruct x end; simpl; auto.
Qed.

Lemma call_heap : forall s t c, r_h (r_call s t c) = r_h s.
Proof. intros. unfold r_call. destruct c; repeat match goal with |- context [match ?x with _ => _ end] => destruct x end; reflexivity. Qed.

Lemma call_other : forall s t c u, u <> t -> r_pc (r_call s t c) u = r_pc s u /\ r_res (r_call s t c) u = r_res s u.
Proof.
  intros. unfold r_call. destruct c; repeat match goal with |- context [match ?x with _ => _ end] => destruct x end; simpl; rewrite ?upd_neq by auto; auto.
Qed.

Lemma call_env : forall s t c, let s' := r_call s t c in
  r_talive s' = r_talive s /\ r_palive s' = r_palive s /\ r_fd s' = r_fd s /\ r_mode s' = r_mode s /\ r_allow s' = r_allow s.
Proof. intros. unfold s', r_call. destruct c; repeat match goal with |- context [match ?x with _ => _ end] => destruct x end; simpl; auto. Qed.

Lemma step_other : forall s x u, actor x <> Some u -> r_pc (r_step s x) u = r_pc s u /\ r_res (r_step s x) u = r_res s u.
Proof.
  intros s x u N. destruct x; simpl in *; auto.
  - destruct (alive s t); auto. destruct (r_pc s t); auto. apply call_other; congruence.
  - destruct (alive s t); auto. apply run_other; congruence.
Qed.

Lemma step_alive : forall s x u, alive (r_step s x) u = true -> alive s u = true.
Proof.
  intros s x u. destruct x; unfold r_step; auto.
  - destruct (alive s t); auto. destruct (r_pc s t); auto.
    unfold alive. destruct (call_env s t c) as (-> & -> & _); auto.
  - destruct (alive s t); auto. unfold alive. destruct (run_env s t race give_up) as (-> & -> & _); auto.
  - unfold alive; simpl. intro H. apply andb_true_iff in H as [-> H]. destruct (Z.eq_dec u t) as [->|N]; [rewrite upd_eq in H; discriminate | rewrite upd_neq in H; auto].
  - unfold alive; simpl. intro H. apply andb_true_iff in H as [H ->]. 
    destruct (Z.eq_dec (proc_of_thread u) p) as [E|N]; [rewrite E, upd_eq in H; discriminate | rewrite upd_neq in H; auto]. rewrite H. auto.
Qed.

Lemma path_alive : forall ok s ls s' u, r_path ok s ls s' -> alive s' u = true -> alive s u = true.
Proof. intros ok s ls s' u P. induction P; auto. intro A. eapply step_alive; eauto. Qed.

Lemma path_reach : forall s0 ok s ls s', r_reach s0 ok s -> r_path ok s ls s' -> r_reach s0 ok s'.
Proof. intros s0 ok s ls s' R P. induction P; auto. apply IHP. constructor; auto. Qed.

Lemma idle_run : forall s t race gu, idle s t -> r_run s t race gu = s.
Proof. intros. unfold r_run. rewrite H. reflexivity. Qed.

Section Effects.
Variables UF UO UL : list Z.
Hypothesis UF_nd : NoDup UF.
Hypothesis UO_nd : NoDup UO.
Hypothesis UL_nd : NoDup UL.
Notation HI := (HI UF UO UL).
Notation SI := (SI UF UO UL).

Lemma held_at : forall h l g, HI h -> h_st h l = LHeld g ->
  exists f o, at_ h f o (gr_kind g) l /\ h_l h l = mkL (gr_t g) (gr_fd g) true /\ f_dev (h_f h f) = gr_dev g /\
     range_match (o_off (h_o h o)) (o_len (h_o h o)) (gr_off g) (gr_len g) = true.
Proof.
  intros h l g H S. destruct (hi_held _ _ _ h H l g S) as (o & U & I).
  destruct (hi_lk _ _ _ h H o _ l U I) as (L & f & A & B & G). destruct (G g S) as (_ & G2 & G3 & G4 & G5).
  exists f, o. repeat split; auto. rewrite S in L. simpl in L. destruct (h_l h l); simpl in *; congruence.
Qed.

Lemma held_not_free : forall h l g, HI h -> h_st h l = LHeld g -> ~ In l (h_lfree h).
Proof.
  intros h l g H S. destruct (hi_held _ _ _ h H l g S) as (o & U & I).
  apply (hi_lk_used _ _ _ h H o l U). apply lks_in. eauto.
Qed.

(** the effect of one step of a live thread on the holds *)
Inductive heffect (s : rstate) (t : Z) (s' : rstate) : Prop :=
| he_same : (forall l g, holds s' l g <-> holds s l g) -> heffect s t s'
| he_grant : forall a f o l, r_pc s t = AS a f o l -> h_st (r_h s) l = LAcq -> idle s' t -> r_res s' t = Some OK ->
    (forall l' g', holds s' l' g' <-> holds s l' g' \/ (l' = l /\ g' = mkG t (a_fd a) (a_dev a) (a_off a) (a_len a) (a_kind a))) ->
    heffect s t s'
| he_release : forall a f o l g, r_pc s t = B2 a -> r_pc s' t = B3 a f o (gr_kind g) l -> holds s l g ->
    gr_t g = t -> gr_fd g = a_fd a -> gr_dev g = a_dev a ->
    find_file (r_h s) (a_dev a) = Some f -> find_off (r_h s) f (a_off a) (a_len a) = Some o ->
    at_ (r_h s) f o (gr_kind g) l ->
    (forall l' g', holds s' l' g' <-> holds s l' g' /\ l' <> l) -> heffect s t s'
| he_recover : forall l g priv, holds s l g -> probe_dead s priv (gr_t g) (gr_fd g) (gr_dev g) = true ->
    match r_pc s t with AD _ _ _ _ _ | PP _ _ _ _ => True | _ => False end ->
    In l (h_lfree (r_h s')) ->
    (forall l' g', holds s' l' g' <-> holds s l' g' /\ l' <> l) -> heffect s t s'.

Lemma he_st : forall s t s', (forall x, h_st (r_h s') x = h_st (r_h s) x) -> heffect s t s'.
Proof. intros. apply he_same. intros. unfold holds. rewrite H. tauto. Qed.

Lemma he_upd : forall s t s' l v, (forall g, h_st (r_h s) l <> LHeld g) -> (forall g, v <> LHeld g) ->
  (forall x, h_st (r_h s') x = upd (h_st (r_h s)) l v x) -> heffect s t s'.
Proof.
  intros s t s' l v A B E. apply he_same. intros x g. unfold holds. rewrite E.
  destruct (Z.eq_dec x l) as [->|N]; [rewrite upd_eq | rewrite upd_neq by auto; tauto].
  split; intro Q; exfalso; [eapply B | eapply A]; eauto.
Qed.

Lemma check_effect : forall s t priv exc f o k l p', SI s -> alive s t = true -> crit (r_pc s t) = true ->
  match r_pc s t with AD _ _ _ _ _ | PP _ _ _ _ => True | _ => False end ->
  In f (h_flist (r_h s)) -> In o (offs (r_h s) f) ->
  heffect s t (goto (set_h s (check_locker s priv exc (f_dev (h_f (r_h s) f)) o k l)) t p').
Proof.
  intros s t priv exc f o k l p' H AL C PC IF IO.
  assert (NB : forall a f o k l, r_pc s t <> B3 a f o k l) by (intros; intro X; rewrite X in PC; auto).
  destruct (check_locker_cases UF UO UL s t priv exc f o k l H AL C NB IF IO) as [E|(A & PD & HH & _ & _ & _ & ES & EL & _ & FR)].
  - apply he_st. intro x. simpl. rewrite E. auto.
  - destruct (h_st (r_h s) l) as [| |g| |] eqn:S.
    1,2,4,5: apply (he_upd s t _ l LDone); try (intros; rewrite S; discriminate); try discriminate;
             intro x; simpl; destruct (Z.eq_dec x l) as [->|N]; [rewrite upd_eq | rewrite upd_neq]; auto.
    destruct (held_at _ _ _ (si_h _ _ _ s H) S) as (f' & o' & A' & L & D & R).
    destruct (at_unique _ _ _ _ _ _ _ _ _ _ _ (si_h _ _ _ s H) A' A) as (-> & -> & _).
    apply (he_recover s t _ l g priv); auto.
    + rewrite L, D in PD. exact PD.
    + simpl. rewrite FR. left; auto.
    + intros x g'. unfold holds. simpl. destruct (Z.eq_dec x l) as [->|N].
      * rewrite EL. split; [discriminate | tauto].
      * rewrite ES by auto. tauto.
Qed.

Lemma run_holds : forall s t race gu, SI s -> alive s t = true -> heffect s t (r_run s t race gu).
Proof.
  intros s t race gu H AL. assert (Hh := si_h _ _ _ s H). pose proof (si_pc _ _ _ s H t AL) as P.
  unfold r_run.
  destruct (r_pc s t) as [ |p|p|e|a|a f|a f o|a f o l|a f o l|a f o l|a f o l ls|a f o e|a f e|a e|a|a f o k l|a f o k l|a f o|a f|a|priv|priv fs os ls] eqn:Ep; simpl in P;
    try (apply he_st; intro; repeat match goal with |- context [match ?x with _ => _ end] => destruct x end; reflexivity).
  - (* A4 *)
    destruct (h_lfree (r_h s)) as [|l rest] eqn:EFL; [apply he_st; reflexivity|].
    apply (he_upd s t _ l LWait); try discriminate; [|reflexivity].
    intros g S. apply (held_not_free _ _ _ Hh S). rewrite EFL. left; auto.
  - (* AT *)
    destruct P as (A & _ & _ & _ & S).
    repeat match goal with |- context [match ?x with _ => _ end] => destruct x end; try (apply he_st; reflexivity).
    all: apply (he_upd s t _ l LAcq); try discriminate; try reflexivity; rewrite S; discriminate.
  - (* AS *)
    destruct P as (A & _ & _ & _ & S).
    apply (he_grant s t _ a f o l); auto.
    + unfold idle; simpl. apply upd_eq.
    + simpl. apply upd_eq.
    + intros l' g'. unfold holds; simpl. destruct (Z.eq_dec l' l) as [->|N].
      * rewrite upd_eq, S. split; [intro X; inversion X; auto | intros [X|[_ ->]]; [discriminate | auto]].
      * rewrite upd_neq by auto. tauto.
  - (* AD *)
    destruct ls as [|[k x] ls]; [apply he_st; reflexivity|].
    destruct P as (A & DF & _ & _ & S). rewrite <- DF.
    apply check_effect; auto; try (rewrite Ep; auto; fail); apply A.
  - (* F1 *)
    destruct (find_locker (r_h s) (o_list (h_o (r_h s) o) (a_kind a)) t (a_fd a) false) as [l|] eqn:EF; [|apply he_st; reflexivity].
    apply find_locker_some in EF as [I EL].
    apply (he_upd s t _ l LDone); try discriminate; [|reflexivity].
    intros g S. destruct (held_at _ _ _ Hh S) as (f' & o' & _ & L & _). congruence.
  - (* F3 *)
    destruct (find_file (r_h s) (a_dev a)) as [f|] eqn:EF; [|apply he_st; reflexivity].
    apply find_file_some in EF as [IF DF].
    destruct (file_locked (r_h s) f) eqn:FL; [apply he_st; reflexivity|].
    destruct (HI_free_offs UF UO UL (r_h s) f Hh IF (unlocked_lists _ _ FL)) as (_ & _ & _ & _ & ES & _).
    apply he_st. intro x. change (h_st (free_offs (r_h s) f) x = h_st (r_h s) x). rewrite ES. auto.
  - (* B2 *)
    destruct (find_file (r_h s) (a_dev a)) as [f|] eqn:EF; [|apply he_st; reflexivity].
    destruct (find_off (r_h s) f (a_off a) (a_len a)) as [o|] eqn:EO; [|apply he_st; reflexivity].
    assert (Q : forall k l, In l (o_list (h_o (r_h s) o) k) -> h_l (r_h s) l = mkL t (a_fd a) true ->
       heffect s t (goto (set_h s (set_st (set_o (r_h s) o (o_set_val (h_o (r_h s) o) (unlock_word (o_val (h_o (r_h s) o))))) l LRel)) t (B3 a f o k l))).
    { intros k l I EL. destruct (find_file_some _ _ _ EF) as [IF DF]. destruct (find_off_some _ _ _ _ _ EO) as [IO RM].
      assert (A : at_ (r_h s) f o k l) by (repeat split; auto).
      assert (U : In o UO) by (eapply at_UO; eauto).
      destruct (hi_lk _ _ _ _ Hh o k l U I) as (LK & _). rewrite EL in LK. simpl in LK.
      destruct (h_st (r_h s) l) as [| |g| |] eqn:S; try discriminate.
      - destruct (held_at _ _ _ Hh S) as (f' & o' & A' & L & D & R).
        destruct (at_unique _ _ _ _ _ _ _ _ _ _ _ Hh A' A) as (-> & -> & KK).
        subst k. assert (L3 : gr_t g = t /\ gr_fd g = a_fd a) by (rewrite EL in L; split; congruence). destruct L3 as [L3 L4].
        apply (he_release s t _ a f o l g); auto.
        + simpl. apply upd_eq.
        + congruence.
        + intros l' g'. unfold holds; simpl. destruct (Z.eq_dec l' l) as [->|N].
          * rewrite upd_eq. split; [discriminate | tauto].
          * rewrite upd_neq by auto. tauto.
      - destruct (si_rel _ _ _ s H l S) as (u & a' & f' & o' & k' & Au & Pu).
        pose proof (si_pc _ _ _ s H u Au) as Q. rewrite Pu in Q. destruct Q as (_ & Q & _). rewrite EL in Q. inversion Q; subst. congruence. }
    destruct (find_locker (r_h s) (o_wr (h_o (r_h s) o)) t (a_fd a) true) as [l|] eqn:EL.
    + apply find_locker_some in EL as [I EL]. apply (Q Wr l I EL).
    + destruct (find_locker (r_h s) (o_rd (h_o (r_h s) o)) t (a_fd a) true) as [l|] eqn:EL2; [|apply he_st; reflexivity].
      apply find_locker_some in EL2 as [I EL2]. apply (Q Rd l I EL2).
  - (* B3 *)
    destruct P as (A & EL & S). apply (he_upd s t _ l LDone); try discriminate; try reflexivity; rewrite S; discriminate.
  - (* PP *)
    destruct P as (N1 & I1 & P). unfold pass_step. destruct fs as [|f fs]; [apply he_st; reflexivity|].
    destruct os as [[|o os]|]; [|destruct ls as [[|[k l] ls]|]|]; try (apply he_st; intro; repeat match goal with |- context [if ?x then _ else _] => destruct x end; reflexivity).
    apply check_effect; auto; try (rewrite Ep; auto; fail); [apply I1 | apply P]; left; auto.
Qed.

Lemma step_holds : forall s x, SI s ->
  (forall l g, holds (r_step s x) l g <-> holds s l g) \/
  (exists t race gu, x = LRun t race gu /\ alive s t = true /\ heffect s t (r_step s x)).
Proof.
  intros s x H. destruct x; simpl; try (left; tauto).
  - left. destruct (alive s t); [|tauto]. destruct (r_pc s t); try tauto. intros. unfold holds. rewrite call_heap. tauto.
  - destruct (alive s t) eqn:AL; [|left; tauto]. right. exists t, race, give_up. repeat split; auto. apply run_holds; auto.
Qed.

End Effects.
