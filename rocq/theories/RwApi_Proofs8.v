(** Successful lock calls, and islocked in quiet states. *)
From Coq Require Import ZArith List Bool Lia Permutation.
From Verif Require Import Base Range_Model RwWord_Model RwApi_Model RwApi_Spec RwApi_Proofs RwApi_Proofs2 RwApi_Proofs3
  RwApi_Proofs4 RwApi_Proofs5 RwApi_Proofs6 RwApi_Proofs7.
Import ListNotations.
Open Scope Z_scope.

Section More8.
Variables UF UO UL : list Z.
Hypothesis UF_nd : NoDup UF.
Notation SI := (SI UF UO UL).
Variable ok : rstate -> rlabel -> Prop.
Hypothesis OKC : forall s x, ok s x -> careful s x.

(** a lock call that has not decided on its result *)
Definition want (a : rargs) (p : rpc) : Prop := pc_args p = Some a /\ pc_err p = None.
Definition grant_of (t : Z) (a : rargs) : grant := mkG t (a_fd a) (a_dev a) (a_off a) (a_len a) (a_kind a).
Definition failing (s : rstate) (t : Z) : Prop := exists e, e <> OK /\ (pc_err (r_pc s t) = Some e \/ fin e s t).

Lemma want_own : forall s t race gu a, want a (r_pc s t) ->
  let s' := r_run s t race gu in
  want a (r_pc s' t) \/ failing s' t \/ exists f o l, r_pc s t = AS a f o l /\ h_st (r_h s') l = LHeld (grant_of t a).
Proof.
  intros s t race gu a [PA PE] s'. unfold s', r_run, want, failing, fin, idle.
  destruct (r_pc s t) as [ |p|p|e0|a0|a0 f|a0 f o|a0 f o l|a0 f o l|a0 f o l|a0 f o l ls|a0 f o e0|a0 f e0|a0 e0|a0|a0 f o k l|a0 f o k l|a0 f o|a0 f|a0|priv|priv fs os ls] eqn:Ep;
    simpl in PA, PE; try discriminate; try (inversion PA; subst a0).
  - left. destruct (r_guard s) as [u|]; [destruct (alive s u)|]; simpl; rewrite ?upd_eq, ?Ep; simpl; auto.
  - left. simpl. rewrite upd_eq. auto.
  - destruct (find_file _ _); [|destruct (h_ffree _)]; simpl; rewrite upd_eq; simpl; auto.
    right; left. exists ENOLCK. split; [discriminate|]. auto.
  - destruct (find_off _ _ _ _); [|destruct (h_ofree _)]; simpl; rewrite upd_eq; simpl; auto.
    right; left. exists ENOLCK. split; [discriminate|]. unfold after_f2. destruct (my_free_fd s t); simpl; auto.
  - destruct (h_lfree _); simpl; rewrite upd_eq; simpl; auto.
    right; left. exists ENOLCK. split; [discriminate|]. unfold after_f1. destruct (my_free_off s t), (my_free_fd s t); simpl; auto.
  - destruct (word_permits _ _ && _); [left; simpl; rewrite upd_eq; simpl; auto|].
    destruct (a_wait a); [right; left; exists EBUSY; split; [discriminate|]; simpl; rewrite upd_eq; auto| |];
      (destruct gu; [|left; rewrite Ep; simpl; auto]).
    + left. simpl. rewrite upd_eq. simpl. auto.
    + right; left; exists ETIMEDOUT; split; [discriminate|]; simpl; rewrite upd_eq; auto.
  - right; right. exists f, o, l. split; auto. simpl. rewrite upd_eq. auto.
  - left. simpl. rewrite upd_eq. auto.
  - left. destruct ls as [|[k x] ls]; simpl; rewrite upd_eq; auto.
Qed.

Lemma failing_path : forall ls s s' t, r_path ok s ls s' -> alive s' t = true -> one_call t ls -> idle s' t ->
  failing s t -> r_res s' t <> Some OK.
Proof.
  intros ls s s' t P. induction P as [s|s x ls s' O P IH]; intros AL OC ID (e & NE & F).
  - unfold idle in ID. destruct F as [F|[F|[F|[_ F]]]]; try congruence. rewrite ID in F. discriminate.
  - assert (A : alive s t = true) by (eapply step_alive, path_alive; eauto).
    assert (OC' : one_call t ls) by (intros c I; apply (OC c); right; auto).
    apply IH; auto. exists e. split; auto.
    destruct (actor x) as [u|] eqn:EA; [destruct (Z.eq_dec u t) as [->|N]|].
    + destruct x as [t0 c|t0 race gu|p fd d|p m|t0|p]; simpl in EA; inversion EA; subst.
      * exfalso. apply (OC c). left; auto.
      * destruct F as [F|F]; [|right; apply fin_own; auto]. simpl. rewrite A. destruct (run_err s t race gu e F); auto.
    + destruct F as [F|F]; [left | right; apply fin_other; auto; congruence]. destruct (step_other s x t) as [-> _]; [congruence | auto].
    + destruct F as [F|F]; [left | right; apply fin_other; auto; congruence]. destruct (step_other s x t) as [-> _]; [congruence | auto].
Qed.

Lemma granted_path : forall ls s s' t a, r_path ok s ls s' -> SI s -> alive s' t = true -> one_call t ls -> idle s' t ->
  r_res s' t = Some OK -> want a (r_pc s t) ->
  exists l ls1 x ls2 s1, ls = ls1 ++ x :: ls2 /\ r_path ok s ls1 s1 /\ r_path ok (r_step s1 x) ls2 s' /\
    ~ holds s1 l (grant_of t a) /\ holds (r_step s1 x) l (grant_of t a).
Proof.
  intros ls s s' t a P. induction P as [s|s x ls s' O P IH]; intros H AL OC ID RS W.
  - unfold idle in ID. rewrite ID in W. destruct W. discriminate.
  - assert (A : alive s t = true) by (eapply step_alive, path_alive; eauto).
    assert (OC' : one_call t ls) by (intros c I; apply (OC c); right; auto).
    assert (H' : SI (r_step s x)) by (apply SI_step; auto).
    assert (CONT : want a (r_pc (r_step s x) t) -> exists l ls1 x0 ls2 s1, x :: ls = ls1 ++ x0 :: ls2 /\ r_path ok s ls1 s1 /\
       r_path ok (r_step s1 x0) ls2 s' /\ ~ holds s1 l (grant_of t a) /\ holds (r_step s1 x0) l (grant_of t a)).
    { intro W'. destruct (IH H' AL OC' ID RS W') as (l & ls1 & x0 & ls2 & s1 & E & P1 & P2 & N & Y).
      exists l, (x :: ls1), x0, ls2, s1. split; [simpl; congruence|]. split; auto. constructor; auto. }
    destruct (actor x) as [u|] eqn:EA; [destruct (Z.eq_dec u t) as [->|N]|].
    + destruct x as [t0 c|t0 race gu|p fd d|p m|t0|p]; simpl in EA; inversion EA; subst.
      * exfalso. apply (OC c). left; auto.
      * assert (RR : r_step s (LRun t race gu) = r_run s t race gu) by (apply run_step; auto).
        destruct (want_own s t race gu a W) as [W'|[F|(f & o & l & Ep & HG)]].
        -- apply CONT. rewrite RR. auto.
        -- exfalso. rewrite <- RR in F. eapply failing_path; eauto.
        -- exists l, [], (LRun t race gu), ls, s. split; auto. split; [constructor|]. split; auto. unfold holds at 2. rewrite RR. split; auto.
           pose proof (si_pc _ _ _ s H t A) as Q. rewrite Ep in Q. destruct Q as (_ & _ & _ & _ & ST). unfold holds. rewrite ST. discriminate.
    + apply CONT. destruct (step_other s x t) as [-> _]; [congruence | auto].
    + apply CONT. destruct (step_other s x t) as [-> _]; [congruence | auto].
Qed.
End More8.

(** islocked run alone when no call is under way *)
Section Quiet.
Variables UF UO UL : list Z.
Hypothesis UF_nd : NoDup UF.
Notation SI := (SI UF UO UL).
Notation CI := (CI UO UL).

Lemma quiet_file : forall s d, SI s -> CI s -> (forall t, idle s t) ->
  (exists f, find_file (r_h s) d = Some f /\ file_locked (r_h s) f = true /\ exists l g, holds s l g /\ gr_dev g = d) \/
  (find_file (r_h s) d = None /\ forall l g, holds s l g -> gr_dev g <> d).
Proof.
  intros s d H C ID. assert (Hh := si_h _ _ _ s H).
  assert (CC : CH UO UL (r_h s) None None None None) by (apply (ci_none _ _ s C); intro t; rewrite ID; auto).
  destruct (find_file (r_h s) d) as [f|] eqn:EF.
  - left. exists f. split; auto. destruct (find_file_some _ _ _ EF) as [IF DF].
    destruct (ch_f _ _ _ _ _ _ _ CC f IF) as [A _]. specialize (A ltac:(discriminate)).
    destruct (offs (r_h s) f) as [|o os] eqn:EO; [congruence|].
    assert (IO : In o (offs (r_h s) f)) by (rewrite EO; left; auto).
    assert (Uf : In f UF) by (eapply flist_UF; eauto).
    destruct (hi_offs_used _ _ _ _ Hh f o Uf IO) as [U _].
    destruct (ch_o _ _ _ _ _ _ _ CC f o IF IO) as [B _]. specialize (B ltac:(discriminate)).
    destruct (lks (h_o (r_h s) o)) as [|l ls] eqn:EL; [congruence|].
    assert (IL : In l (lks (h_o (r_h s) o))) by (rewrite EL; left; auto).
    destruct (ci_l _ _ s C o l U IL) as [[g G]|M]; [|rewrite ID in M; destruct M].
    assert (DV : gr_dev g = d).
    { destruct (held_at UF UO UL _ _ _ Hh G) as (f' & o' & A' & _ & DV & _).
      apply lks_in in IL as [k IL]. assert (I' : at_ (r_h s) f o k l) by (repeat split; auto).
      destruct (at_unique _ _ _ _ _ _ _ _ _ _ _ Hh A' I') as (-> & _). congruence. }
    split; [|exists l, g; auto].
    destruct (held_file_locked UF UO UL s l g H G) as (f' & E1 & E2). rewrite DV in E1. congruence.
  - right. split; auto. intros l g HL E. destruct (held_file_locked UF UO UL s l g H HL) as (f' & E1 & _). congruence.
Qed.

Lemma isl_alone : forall ls s s' t a, r_path (only t) s ls s' -> alive s t = true -> idle s' t -> isl_pre a s t ->
  r_res s' t = Some (match find_file (r_h s) (a_dev a) with None => 0 | Some f => if file_locked (r_h s) f then 1 else 0 end).
Proof.
  intros ls s s' t a P. induction P as [s|s x ls s' O P IH]; intros AL ID M.
  - unfold idle in ID. destruct M; congruence.
  - pose proof O as [gu ->]. assert (AL' : alive (r_step s (LRun t false gu)) t = true).
    { assert (E : alive (r_step s (LRun t false gu)) t = alive s t) by (apply (only_alive t s [LRun t false gu]); repeat constructor; auto).
      rewrite E. auto. }
    assert (AE : alive s' t = true) by (rewrite (only_alive t _ ls s' t P); auto).
    rewrite run_step in * by auto.
    destruct M as [E|E].
    + assert (Q : r_h (r_run s t false gu) = r_h s /\ isl_pre a (r_run s t false gu) t).
      { unfold r_run, isl_pre. rewrite E. destruct (r_guard s) as [u|]; [destruct (alive s u)|]; simpl; rewrite ?upd_eq; auto. }
      destruct Q as [Q1 Q2]. rewrite <- Q1. apply IH; auto.
    + apply (fin_path (only t) _ ls _ s' t P AE (only_one_call _ _ _ _ P) ID). left. unfold r_run. rewrite E.
      destruct (find_file (r_h s) (a_dev a)); simpl; rewrite upd_eq; auto.
Qed.

Lemma quiet_islocked : forall ls s s' t d a, SI s -> CI s -> (forall t, idle s t) -> a_dev a = d ->
  r_path (only t) (goto s t (RWait (Q2 a))) ls s' -> idle s' t ->
  (r_res s' t = Some 1 /\ exists l g, holds s l g /\ gr_dev g = d) \/
  (r_res s' t = Some 0 /\ forall l g, holds s l g -> gr_dev g <> d).
Proof.
  intros ls s s' t d a H C ID DA P ID'.
  assert (AL : alive s t = true) by apply (ci_alive _ _ s C).
  pose proof (isl_alone ls _ s' t a P AL ID' ltac:(left; apply upd_eq)) as R. simpl in R. rewrite DA in R.
  destruct (quiet_file s d H C ID) as [(f & E1 & E2 & E3)|[E1 E2]]; rewrite E1 in R.
  - rewrite E2 in R. auto.
  - auto.
Qed.
End Quiet.
