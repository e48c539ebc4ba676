(** Refused lock calls, and lock calls that run alone. *)
From Coq Require Import ZArith List Bool Lia Permutation.
From Verif Require Import Base Range_Model Range_Props RwWord_Model RwApi_Model RwApi_Spec RwApi_Proofs RwApi_Proofs2 RwApi_Proofs3
  RwApi_Proofs4 RwApi_Proofs5 RwApi_Proofs6 RwApi_Proofs7 RwApi_Proofs8.
Import ListNotations.
Open Scope Z_scope.

Section Refused.
Variables UF UO UL : list Z.
Hypothesis UF_nd : NoDup UF.
Hypothesis UO_nd : NoDup UO.
Hypothesis UL_nd : NoDup UL.
Notation HI := (HI UF UO UL).
Notation SI := (SI UF UO UL).
Variable fam : Z -> Z -> Z -> Prop.
Hypothesis EOD : equal_or_disjoint fam.
Notation DI := (DI fam).

(** a lock word that does not permit an attempt has an owner of a conflicting kind *)
Lemma busy_owner : forall h o k, HI h -> In o UO -> word_permits k (o_val (h_o h o)) = false ->
  exists k' l, In l (o_list (h_o h o) k') /\ owning h l = true /\ (k = Wr \/ k' = Wr).
Proof.
  intros h o k H U W. destruct (hi_word _ _ _ h H o U) as [[E _]|(E & _ & L)].
  - destruct k; simpl in W; unfold RW_UNLOCK in W.
    + apply Z.leb_gt in W. lia.
    + apply Z.eqb_neq in W. destruct (filter (owning h) (o_rd (h_o h o))) as [|l r] eqn:F; [simpl in E; lia|].
      assert (I : In l (filter (owning h) (o_rd (h_o h o)))) by (rewrite F; left; auto). apply filter_In in I as [I O].
      exists Rd, l. auto.
  - destruct (filter (owning h) (o_wr (h_o h o))) as [|l r] eqn:F; [simpl in L; lia|].
    assert (I : In l (filter (owning h) (o_wr (h_o h o)))) by (rewrite F; left; auto). apply filter_In in I as [I O].
    exists Wr, l. auto.
Qed.

Lemma obstructed_at : forall s t a f o l, SI s -> DI s -> alive s t = true -> r_pc s t = AT a f o l ->
  word_permits (a_kind a) (o_val (h_o (r_h s) o)) = false -> obstructed s (grant_of t a).
Proof.
  intros s t a f o l H D AL Ep W. assert (Hh := si_h _ _ _ s H).
  pose proof (si_pc _ _ _ s H t AL) as P. rewrite Ep in P. destruct P as (A & DV & _ & RM & _).
  assert (FA : fam (a_dev a) (a_off a) (a_len a)) by (apply (di_pc _ s D t); rewrite Ep; auto).
  assert (FO : fam (a_dev a) (o_off (h_o (r_h s) o)) (o_len (h_o (r_h s) o))) by (rewrite <- DV; apply (di_off _ s D); apply A).
  apply (fam_match fam EOD _ _ _ _ _ FO FA) in RM as [EO EL].
  assert (U : In o UO) by (eapply at_UO; eauto).
  assert (BYTE : byte_in (a_off a) (a_len a) (a_off a)).
  { destruct EOD as [PR _]. destruct (PR _ _ _ FA) as (_ & Q & _). unfold byte_in. lia. }
  destruct (busy_owner _ _ _ Hh U W) as (k' & l' & I & OW & K).
  assert (A' : at_ (r_h s) f o k' l') by (destruct A as (A1 & A2 & _); repeat split; auto).
  unfold owning in OW. destruct (h_st (r_h s) l') as [| |g| |] eqn:S; simpl in OW; try discriminate.
  - destruct (si_acq _ _ _ s H l' S) as (u & a' & f' & o' & AU & Eu).
    pose proof (si_pc _ _ _ s H u AU) as P. rewrite Eu in P. destruct P as (B & DV' & _ & RM' & _).
    destruct (at_unique _ _ _ _ _ _ _ _ _ _ _ Hh A' B) as (-> & -> & ->).
    assert (FA' : fam (a_dev a') (a_off a') (a_len a')) by (apply (di_pc _ s D u); rewrite Eu; auto).
    assert (DD : a_dev a' = a_dev a) by congruence.
    assert (RM2 : o_off (h_o (r_h s) o') = a_off a' /\ o_len (h_o (r_h s) o') = a_len a').
    { apply (fam_match fam EOD (a_dev a)); auto. rewrite <- DD; auto. }
    destruct RM2 as [EO' EL'].
    exists (grant_of u a'). split.
    + exists l'. right. exists u. split; auto. split; auto. split; [unfold holds; rewrite S; discriminate|].
      unfold holds, r_step. rewrite AU. unfold r_run. rewrite Eu. simpl. apply upd_eq.
    + split; [simpl; congruence|]. split; [|simpl; auto]. exists (a_off a). split; [exact BYTE|]. simpl. rewrite <- EO', <- EL', EO, EL. exact BYTE.
  - assert (HG : holds s l' g) by exact S.
    destruct (held_at UF UO UL _ _ _ Hh HG) as (f2 & o2 & A2 & _).
    destruct (at_unique _ _ _ _ _ _ _ _ _ _ _ Hh A' A2) as (-> & -> & ->).
    destruct (held_equal_range UF UO UL fam EOD s l' g f2 o2 H D HG A2) as (E1 & E2 & E3).
    exists g. split; [exists l'; auto|]. split; [simpl; congruence|]. split; [|simpl; auto].
    exists (a_off a). split; [exact BYTE|]. rewrite <- E2, <- E3, EO, EL. exact BYTE.
Qed.

Variable ok : rstate -> rlabel -> Prop.
Hypothesis OKC : forall s x, ok s x -> careful s x.
Hypothesis OKF : forall s x, ok s x -> in_family fam s x.

Lemma err_result : forall ls s s' t e, r_path ok s ls s' -> alive s' t = true -> one_call t ls -> idle s' t ->
  pc_err (r_pc s t) = Some e \/ fin e s t -> r_res s' t = Some e.
Proof.
  intros ls s s' t e P. induction P as [s|s x ls s' O P IH]; intros AL OC ID F.
  - unfold idle in ID. destruct F as [F|[F|[F|[_ F]]]]; try congruence. rewrite ID in F. discriminate.
  - assert (A : alive s t = true) by (eapply step_alive, path_alive; eauto).
    assert (OC' : one_call t ls) by (intros c I; apply (OC c); right; auto).
    apply IH; auto.
    destruct (actor x) as [u|] eqn:EA; [destruct (Z.eq_dec u t) as [->|N]|].
    + destruct x as [t0 c|t0 race gu|p fd d|p m|t0|p]; simpl in EA; inversion EA; subst.
      * exfalso. apply (OC c). left; auto.
      * destruct F as [F|F]; [|right; apply fin_own; auto]. simpl. rewrite A. destruct (run_err s t race gu e F); auto.
    + destruct F as [F|F]; [left | right; apply fin_other; auto; congruence]. destruct (step_other s x t) as [-> _]; [congruence | auto].
    + destruct F as [F|F]; [left | right; apply fin_other; auto; congruence]. destruct (step_other s x t) as [-> _]; [congruence | auto].
Qed.

(** one own step of a call that has not decided yet *)
Lemma want_step : forall s t race gu a, want a (r_pc s t) ->
  let s' := r_run s t race gu in
  want a (r_pc s' t) \/ fin OK s' t \/ (pc_err (r_pc s' t) = Some ENOLCK \/ fin ENOLCK s' t) \/
  (exists f o l, r_pc s t = AT a f o l /\ word_permits (a_kind a) (o_val (h_o (r_h s) o)) = false) \/ race = true.
Proof.
  intros s t race gu a [PA PE] s'. unfold s', r_run, want, fin, idle.
  destruct (r_pc s t) as [ |p|p|e0|a0|a0 f|a0 f o|a0 f o l|a0 f o l|a0 f o l|a0 f o l ls|a0 f o e0|a0 f e0|a0 e0|a0|a0 f o k l|a0 f o k l|a0 f o|a0 f|a0|priv|priv fs os ls] eqn:Ep;
    simpl in PA, PE; try discriminate; try (inversion PA; subst a0).
  - left. destruct (r_guard s) as [u|]; [destruct (alive s u)|]; simpl; rewrite ?upd_eq, ?Ep; simpl; auto.
  - left. simpl. rewrite upd_eq. auto.
  - destruct (find_file _ _); [|destruct (h_ffree _)]; simpl; rewrite upd_eq; simpl; auto.
  - destruct (find_off _ _ _ _); [|destruct (h_ofree _)]; simpl; rewrite upd_eq; simpl; auto.
    right; right; left. unfold after_f2. destruct (my_free_fd s t); simpl; auto.
  - destruct (h_lfree _); simpl; rewrite upd_eq; simpl; auto.
    right; right; left. unfold after_f1. destruct (my_free_off s t), (my_free_fd s t); simpl; auto.
  - destruct (word_permits (a_kind a) (o_val (h_o (r_h s) o))) eqn:W; [|right; right; right; left; exists f, o, l; auto].
    destruct race; [auto|]. left. destruct (a_kind a); simpl; rewrite upd_eq; simpl; auto.
  - right; left. right; right. simpl. rewrite !upd_eq. auto.
  - left. simpl. rewrite upd_eq. auto.
  - left. destruct ls as [|[k x] ls]; simpl; rewrite upd_eq; auto.
Qed.

Lemma refused_path : forall ls s s' t a e, r_path (fun s x => ok s x /\ undisturbed t s x) s ls s' -> SI s -> DI s ->
  alive s' t = true -> one_call t ls -> idle s' t -> r_res s' t = Some e -> e <> OK -> e <> ENOLCK -> want a (r_pc s t) ->
  exists ls1 ls2 s1, ls = ls1 ++ ls2 /\ r_path ok s ls1 s1 /\ r_path ok s1 ls2 s' /\ obstructed s1 (grant_of t a).
Proof.
  intros ls s s' t a e P. induction P as [s|s x ls s' O P IH]; intros H D AL OC ID RS N1 N2 W.
  - unfold idle in ID. rewrite ID in W. destruct W. discriminate.
  - destruct O as [O UD]. assert (P' : r_path ok (r_step s x) ls s') by (eapply path_weaken; [|exact P]; simpl; intros ? ? [Q _]; exact Q).
    assert (A : alive s t = true) by (eapply step_alive, path_alive; eauto).
    assert (OC' : one_call t ls) by (intros c I; apply (OC c); right; auto).
    assert (H' : SI (r_step s x)) by (apply SI_step; auto).
    assert (D' : DI (r_step s x)) by (apply (DI_step UF UO UL UF_nd fam); auto).
    assert (CONT : want a (r_pc (r_step s x) t) -> exists ls1 ls2 s1, x :: ls = ls1 ++ ls2 /\ r_path ok s ls1 s1 /\
       r_path ok s1 ls2 s' /\ obstructed s1 (grant_of t a)).
    { intro W'. destruct (IH H' D' AL OC' ID RS N1 N2 W') as (ls1 & ls2 & s1 & E & P1 & P2 & Y).
      exists (x :: ls1), ls2, s1. split; [simpl; congruence|]. split; auto. constructor; auto. }
    destruct (actor x) as [u|] eqn:EA; [destruct (Z.eq_dec u t) as [->|N]|].
    + destruct x as [t0 c|t0 race gu|p fd d|p m|t0|p]; simpl in EA; inversion EA; subst.
      * exfalso. apply (OC c). left; auto.
      * assert (RR : r_step s (LRun t race gu) = r_run s t race gu) by (apply run_step; auto).
        destruct (want_step s t race gu a W) as [W'|[F|[F|[(f & o & l & Ep & WP)|F]]]].
        -- apply CONT. rewrite RR. auto.
        -- exfalso. rewrite <- RR in F. assert (r_res s' t = Some OK) by (eapply err_result; eauto). congruence.
        -- exfalso. rewrite <- RR in F. assert (r_res s' t = Some ENOLCK) by (eapply err_result; eauto). congruence.
        -- exists [], (LRun t race gu :: ls), s. split; auto. split; [constructor|]. split; [constructor; auto|].
           eapply obstructed_at; eauto.
        -- exfalso. apply (UD gu). rewrite F. auto.
    + apply CONT. destruct (step_other s x t) as [-> _]; [congruence | auto].
    + apply CONT. destruct (step_other s x t) as [-> _]; [congruence | auto].
Qed.
End Refused.

(** ** A call that runs alone *)
(** the list guard is only kept by threads that are inside *)
Definition guarded (s : rstate) : Prop := forall u, r_guard s = Some u -> alive s u = true -> crit (r_pc s u) = true.

Lemma guarded_run : forall s t race gu, guarded s -> (crit (r_pc s t) = true -> r_guard s = Some t) ->
  (forall p, r_pc s t = RWait p -> waitable p) -> guarded (r_run s t race gu).
Proof.
  intros s t race gu G C WT u E AU.
  destruct (run_env s t race gu) as (E1 & E2 & _).
  assert (AU' : alive s u = true) by (unfold alive in *; rewrite E1, E2 in AU; exact AU). clear AU.
  destruct (Z.eq_dec u t) as [->|N].
  - revert E. unfold r_run, pass_step.
    destruct (r_pc s t) as [ |p|p|e0|a0|a0 f|a0 f o|a0 f o l|a0 f o l|a0 f o l|a0 f o l ls|a0 f o e0|a0 f e0|a0 e0|a0|a0 f o k l|a0 f o k l|a0 f o|a0 f|a0|priv|priv fs os ls] eqn:Ep;
      try (intro E; specialize (G t E AU'); rewrite Ep in G; discriminate);
      try (specialize (WT p eq_refl); destruct p; try contradiction);
      repeat match goal with |- context [match ?x with _ => _ end] => destruct x eqn:? end; simpl;
      rewrite ?upd_eq; try (intro E; try discriminate E; auto; fail);
      intro E; try (specialize (G t E AU'); rewrite Ep in G; discriminate).
  - destruct (run_other s t race gu u N) as [-> _]. apply G; auto.
    revert E. unfold r_run, pass_step.
    destruct (r_pc s t) eqn:Ep;
      repeat match goal with |- context [match ?x with _ => _ end] => destruct x eqn:? end; simpl; try tauto; try congruence.
Qed.

Section Alone.
Variables UF UO UL : list Z.
Hypothesis UF_nd : NoDup UF.
Hypothesis UO_nd : NoDup UO.
Hypothesis UL_nd : NoDup UL.
Notation SI := (SI UF UO UL).
Variable fam : Z -> Z -> Z -> Prop.
Hypothesis EOD : equal_or_disjoint fam.
Notation DI := (DI fam).

Lemma guarded_step : forall s x, SI s -> guarded s -> guarded (r_step s x).
Proof.
  intros s x H G. destruct x as [t c|t race gu|p fd d|p m|t|p]; simpl; try exact G.
  - destruct (alive s t) eqn:AL; auto. destruct (r_pc s t) eqn:Ep; auto.
    intros u E AU. destruct (call_env s t c) as (E1 & E2 & _).
    assert (AU' : alive s u = true) by (unfold alive in *; rewrite E1, E2 in AU; exact AU).
    assert (E' : r_guard s = Some u) by (rewrite <- E; unfold r_call; destruct c; try destruct (dev_of s t fd); reflexivity).
    pose proof (G u E' AU') as C. destruct (Z.eq_dec u t) as [->|N]; [rewrite Ep in C; discriminate|].
    destruct (call_other s t c u N) as [-> _]. exact C.
  - destruct (alive s t) eqn:AL; auto. apply guarded_run; auto.
    + apply (si_guard _ _ _ s H t AL).
    + intros p E. pose proof (si_pc _ _ _ s H t AL) as P. rewrite E in P. apply P.
  - intros u E AU. apply G; auto. unfold alive in *. cbn [r_talive r_palive] in AU. destruct (Z.eq_dec u t) as [->|N].
    + rewrite upd_eq in AU. rewrite andb_false_r in AU. discriminate.
    + rewrite upd_neq in AU by auto. exact AU.
  - intros u E AU. apply G; auto. unfold alive in *. cbn [r_talive r_palive] in AU. destruct (Z.eq_dec (proc_of_thread u) p) as [E0|N].
    + rewrite E0, upd_eq in AU. discriminate.
    + rewrite upd_neq in AU by auto. exact AU.
Qed.

Lemma guarded_reach : forall fds mode allow (ok : rstate -> rlabel -> Prop) s, (forall s x, ok s x -> careful s x) ->
  r_reach (r_init UF UO UL fds mode allow) ok s -> guarded s.
Proof.
  intros fds mode allow ok s OK R. assert (SI s /\ guarded s) as [_ G]; auto.
  induction R as [|s x R [IH1 IH2] O].
  - split; [apply SI_init; auto | intros u E; discriminate].
  - split; [apply SI_step; auto | apply guarded_step; auto].
Qed.

Variable t : Z.
Variable a : rargs.

Definition stage (p : rpc) : option nat :=
  match p with
  | RWait (A2 _) => Some 7%nat
  | A2 _ => Some 6%nat | A3 _ _ => Some 5%nat | A4 _ _ _ => Some 4%nat
  | RDrop (AT _ _ _ _) => Some 3%nat | AT _ _ _ _ => Some 2%nat | AS _ _ _ _ => Some 1%nat
  | _ => None
  end.

Record solo (n : nat) (s : rstate) : Prop := {
  so_si : SI s; so_di : DI s; so_al : alive s t = true;
  so_other : forall u, u <> t -> alive s u = true -> idle s u;
  so_want : want a (r_pc s t);
  so_stage : stage (r_pc s t) = Some n;
  so_guard : n = 7%nat -> match r_guard s with None => True | Some u => alive s u = false end;
  so_holds : (2 <= n)%nat -> forall l g, holds s l g -> ~ conflict (grant_of t a) g;
  so_f : (6 <= n)%nat -> h_ffree (r_h s) <> [];
  so_o : (5 <= n)%nat -> h_ofree (r_h s) <> [];
  so_l : (4 <= n)%nat -> h_lfree (r_h s) <> []
}.

Lemma solo_step : forall n s gu, solo (S n) s ->
  let s' := r_run s t false gu in
  match n with
  | O => idle s' t /\ r_res s' t = Some OK /\ exists l, holds s' l (grant_of t a)
  | S _ => solo n s'
  end.
Proof.
  intros n s gu S s'. destruct S as [H D AL OT W ST G HL PF PO PL].
  assert (H' : SI s') by (unfold s'; rewrite <- run_step by auto; apply SI_step; auto; exact I).
  assert (D' : DI s') by (unfold s'; rewrite <- run_step by auto; apply (DI_step UF UO UL UF_nd fam); auto; exact I).
  destruct (run_env s t false gu) as (E1 & E2 & _). fold s' in E1, E2.
  assert (AE : forall u, alive s' u = alive s u) by (intro u; unfold alive; rewrite E1, E2; auto).
  assert (OT' : forall u, u <> t -> alive s' u = true -> idle s' u).
  { intros u N AU. rewrite AE in AU. unfold idle. destruct (run_other s t false gu u N) as [Q _]. fold s' in Q. rewrite Q. apply OT; auto. }
  pose proof (run_holds UF UO UL s t false gu H AL) as RH. fold s' in RH.
  destruct RH as [Q|a0 f o l Ep _ ID RS Q|a0 f o l g Ep|l g priv _ _ X].
  2:{ rewrite Ep in ST, W. simpl in ST. inversion ST; subst n. destruct W as [W _]. simpl in W. inversion W; subst a0.
      split; auto. split; auto. exists l. apply Q. right. auto. }
  2:{ rewrite Ep in ST. discriminate. }
  2:{ destruct (r_pc s t); try contradiction; discriminate. }
  assert (HOLD : (2 <= S n)%nat -> forall l g, holds s' l g -> ~ conflict (grant_of t a) g).
  { intros N l g X. apply Q in X. apply (HL N l); auto. }
  assert (MK : want a (r_pc s' t) -> stage (r_pc s' t) = Some n -> (n < 7)%nat ->
    ((6 <= n)%nat -> h_ffree (r_h s') <> []) -> ((5 <= n)%nat -> h_ofree (r_h s') <> []) -> ((4 <= n)%nat -> h_lfree (r_h s') <> []) -> solo n s').
  { intros. constructor; auto; try lia. rewrite AE; auto. intro. apply HOLD. lia. }
  destruct W as [PA PE].
  destruct (r_pc s t) as [ |p|p|e0|a0|a0 f|a0 f o|a0 f o l|a0 f o l|a0 f o l|a0 f o l ls|a0 f o e0|a0 f e0|a0 e0|a0|a0 f o k l|a0 f o k l|a0 f o|a0 f|a0|priv|priv fs os ls] eqn:Ep;
    simpl in ST; try discriminate.
  - destruct p; try discriminate. simpl in PA. inversion PA; subst a0. inversion ST; subst n. specialize (G eq_refl).
    assert (E : s' = goto (set_guard s (Some t)) t (A2 a)).
    { unfold s', r_run. rewrite Ep. destruct (r_guard s) as [u|]; [rewrite G|]; auto. }
    rewrite E in MK |- *. apply MK; simpl; rewrite ?upd_eq; try (split; auto); auto; try lia.
  - destruct p; try discriminate. simpl in PA. inversion PA; subst. inversion ST; subst n.
    assert (E : s' = goto (set_guard s None) t (AT a f o l)) by (unfold s', r_run; rewrite Ep; auto).
    rewrite E in MK |- *. apply MK; simpl; rewrite ?upd_eq; try (split; auto); auto; try lia.
  - inversion PA; subst a0. inversion ST; subst n.
    specialize (PF ltac:(lia)). specialize (PO ltac:(lia)). specialize (PL ltac:(lia)).
    revert MK. unfold s', r_run. rewrite Ep. destruct (find_file _ _); [|destruct (h_ffree (r_h s)); [congruence|]];
      (intro MK; apply MK; simpl; rewrite ?upd_eq; try (split; auto); auto; try lia).
  - inversion PA; subst a0. inversion ST; subst n.
    specialize (PO ltac:(lia)). specialize (PL ltac:(lia)).
    revert MK. unfold s', r_run. rewrite Ep. destruct (find_off _ _ _ _); [|destruct (h_ofree (r_h s)); [congruence|]];
      (intro MK; apply MK; simpl; rewrite ?upd_eq; try (split; auto); auto; try lia).
  - inversion PA; subst a0. inversion ST; subst n. specialize (PL ltac:(lia)).
    revert MK. unfold s', r_run. rewrite Ep. destruct (h_lfree (r_h s)); [congruence|].
    intro MK; apply MK; simpl; rewrite ?upd_eq; try (split; auto); auto; try lia.
  - inversion PA; subst a0. inversion ST; subst n.
    destruct (word_permits (a_kind a) (o_val (h_o (r_h s) o))) eqn:WP.
    + revert MK. unfold s', r_run. rewrite Ep, WP. replace (negb (match a_kind a with Rd => false | Wr => false end)) with true by (destruct (a_kind a); auto).
      simpl andb. cbv iota. intro MK; apply MK; simpl; rewrite ?upd_eq; try (split; auto); auto; try lia.
    + exfalso. destruct (obstructed_at UF UO UL fam EOD s t a f o l H D AL Ep WP) as (g & (x & [X|(u & _ & AU & NX & X)]) & CF).
      * apply (HL ltac:(lia) x g X CF).
      * destruct (Z.eq_dec u t) as [->|N].
        -- apply NX. revert X. unfold holds. rewrite run_step by auto. unfold r_run. rewrite Ep, WP. simpl andb. cbv iota.
           destruct (a_wait a); simpl; auto.
        -- apply NX. revert X. rewrite run_step by auto. rewrite idle_run; [auto | apply OT; auto].
  - exfalso. inversion ST; subst n. pose proof (si_pc _ _ _ s H t AL) as P. rewrite Ep in P. inversion PA; subst a0.
    destruct P as (_ & _ & _ & _ & S0).
    assert (X : holds s' l (grant_of t a)) by (unfold holds, s', r_run; rewrite Ep; simpl; apply upd_eq).
    apply Q in X. unfold holds in X. congruence.
Qed.

Lemma solo_path : forall n ls s s', r_path (only t) s ls s' -> solo (S n) s -> length ls = S n ->
  idle s' t /\ r_res s' t = Some OK /\ exists l, holds s' l (grant_of t a).
Proof.
  induction n as [|n IH]; intros ls s s' P S L.
  - inversion P as [|s1 x ls1 s2 O P1]; subst; simpl in L; [discriminate|]. destruct O as [gu ->].
    destruct ls1; [|discriminate]. inversion P1; subst. rewrite run_step by apply S. apply (solo_step 0 s gu S).
  - inversion P as [|s1 x ls1 s2 O P1]; subst; simpl in L; [discriminate|]. destruct O as [gu ->].
    apply (IH ls1 _ s' P1); [|lia]. rewrite run_step by apply S. apply (solo_step (Datatypes.S n) s gu S).
Qed.

Lemma idle_tail : forall ls s s', r_path (only t) s ls s' -> idle s t -> s' = s.
Proof.
  intros ls s s' P. induction P as [|s x ls s' O P IH]; intro ID; auto. destruct O as [gu ->].
  assert (E : r_step s (LRun t false gu) = s) by (simpl; destruct (alive s t); auto; apply idle_run; auto).
  rewrite E in *. auto.
Qed.

Lemma path_split : forall n (ok : rstate -> rlabel -> Prop) ls s s', r_path ok s ls s' -> (n <= length ls)%nat ->
  exists s1, r_path ok s (firstn n ls) s1 /\ r_path ok s1 (skipn n ls) s'.
Proof.
  induction n as [|n IH]; intros ok ls s s' P L; [exists s; split; [constructor | exact P]|].
  destruct ls as [|x ls]; [simpl in L; lia|]. inversion P; subst. simpl in L.
  destruct (IH ok ls _ s' H4 ltac:(lia)) as (s1 & P1 & P2). exists s1. split; auto. constructor; auto.
Qed.

Lemma alone_path : forall ls s s', r_path (only t) s ls s' -> solo 7 s -> (7 <= length ls)%nat ->
  idle s' t /\ r_res s' t = Some OK /\ exists l, holds s' l (grant_of t a).
Proof.
  intros ls s s' P S L. destruct (path_split 7 _ ls s s' P L) as (s1 & P1 & P2).
  assert (E := solo_path 6 _ s s1 P1 S ltac:(rewrite firstn_length; lia)).
  rewrite (idle_tail _ s1 s' P2 (proj1 E)). exact E.
Qed.
End Alone.
