(** Read/write lock properties (C18-C31, C64-C68, C109, C110). *)
From Coq Require Import ZArith List Bool Lia Permutation.
From Verif Require Import Base Range_Model RwWord_Model RwApi_Model RwApi_Spec RwApi_Proofs RwApi_Proofs2 RwApi_Proofs3
  RwApi_Proofs4 RwApi_Proofs5 RwApi_Proofs6 RwApi_Proofs7 RwApi_Proofs8 RwApi_Proofs9.
Import ListNotations.
Open Scope Z_scope.

(** ** Concrete executions *)
(** [runs t n]: [n] undisturbed steps of thread [t]; [expire t n]: the same with the timeout expired *)
Definition runs (t : Z) (n : nat) : list rlabel := repeat (LRun t false false) n.
Definition expire (t : Z) (n : nat) : list rlabel := repeat (LRun t false true) n.
Definition does (t : Z) (c : rcall) : list rlabel := LCall t c :: runs t 24.

(** decidable schedule conditions for executions in which only the threads [acts] act *)
Definition in_window_b (p : rpc) : bool := match p with AS _ _ _ _ => true | B3 _ _ _ _ _ => true | _ => false end.
Definition careful_b (acts : list Z) (s : rstate) (x : rlabel) : bool :=
  match x with
  | LDieThread t => negb (in_window_b (r_pc s t))
  | LDieProc _ => forallb (fun t => negb (in_window_b (r_pc s t))) acts
  | LSetFd _ _ _ => forallb (fun t => match lock_fd (r_pc s t) with None => true | _ => false end) acts
  | LCall t _ | LRun t _ _ => mem t acts
  | _ => true
  end.
Definition nodeath_b (s : rstate) (x : rlabel) : bool := match x with LDieThread _ | LDieProc _ => false | _ => true end.
Definition nomode_b (s : rstate) (x : rlabel) : bool :=
  match x with LSetMode _ FREE_FD => true | LSetMode _ _ => false | _ => true end.
Definition family_b (famb : Z -> Z -> Z -> bool) (s : rstate) (x : rlabel) : bool :=
  match x with
  | LCall t (CLock k fd off len w) => match file_of s t fd with Some d => famb d off len | None => true end
  | _ => true
  end.
Definition pools_b (s : rstate) (x : rlabel) : bool :=
  match x with
  | LRun t _ _ => match r_pc s t with
                  | A3 a f => match find_off (r_h s) f (a_off a) (a_len a) with None => nonempty (h_ofree (r_h s)) | _ => true end
                  | A4 _ _ _ => nonempty (h_lfree (r_h s))
                  | _ => true end
  | _ => true
  end.
Definition busy_b (s : rstate) (x : rlabel) : bool :=
  match x with
  | LRun t _ _ => match r_pc s t with
                  | F1 _ _ o _ => Nat.leb 2 (length (o_rd (h_o (r_h s) o) ++ o_wr (h_o (r_h s) o)))
                  | _ => true end
  | _ => true
  end.
Fixpoint check (b : rstate -> rlabel -> bool) (s : rstate) (ls : list rlabel) : bool :=
  match ls with [] => true | x :: r => b s x && check b (r_step s x) r end.

Lemma check_reach : forall (b : rstate -> rlabel -> bool) (ok : rstate -> rlabel -> Prop) (J : rstate -> Prop) s0,
  (forall s x, J s -> b s x = true -> ok s x /\ J (r_step s x)) ->
  forall ls s, J s -> r_reach s0 ok s -> check b s ls = true -> r_reach s0 ok (r_exec s ls) /\ J (r_exec s ls).
Proof.
  intros b ok J s0 HB ls. induction ls as [|x ls IH]; simpl; intros s HJ R C; auto.
  apply andb_true_iff in C as [C1 C2]. destruct (HB s x HJ C1). apply IH; auto. constructor; auto.
Qed.
Lemma check_path : forall (b : rstate -> rlabel -> bool) (ok : rstate -> rlabel -> Prop) (J : rstate -> Prop),
  (forall s x, J s -> b s x = true -> ok s x /\ J (r_step s x)) ->
  forall ls s, J s -> check b s ls = true -> r_path ok s ls (r_exec s ls).
Proof.
  intros b ok J HB ls. induction ls as [|x ls IH]; simpl; intros s HJ C; [constructor|].
  apply andb_true_iff in C as [C1 C2]. destruct (HB s x HJ C1). constructor; auto.
Qed.

Definition others_idle (acts : list Z) (s : rstate) : Prop := forall t, ~ In t acts -> r_pc s t = RIdle.
Lemma others_idle_step : forall acts s x, others_idle acts s -> careful_b acts s x = true -> others_idle acts (r_step s x).
Proof.
  intros acts s x H C t N. destruct (actor x) as [u|] eqn:EA.
  - assert (I : In u acts) by (destruct x; simpl in *; inversion EA; subst; apply mem_in; auto).
    destruct (step_other s x t) as [-> _]; [rewrite EA; intro E; inversion E; subst; auto|]. apply H; auto.
  - destruct (step_other s x t) as [-> _]; [congruence|]. apply H; auto.
Qed.
Lemma careful_b_ok : forall acts s x, others_idle acts s -> careful_b acts s x = true -> careful s x.
Proof.
  intros acts s x H C. destruct x as [t c|t race gu|p fd d|p m|t|p]; simpl in *; auto.
  - intros t dev _ _ E. rewrite forallb_forall in C. destruct (in_dec Z.eq_dec t acts) as [I|N].
    + specialize (C t I). rewrite E in C. discriminate.
    + rewrite (H t N) in E. discriminate.
  - intro W. destruct (r_pc s t); simpl in *; auto; discriminate.
  - intros t _ _ W. rewrite forallb_forall in C. destruct (in_dec Z.eq_dec t acts) as [I|N].
    + specialize (C t I). destruct (r_pc s t); simpl in *; auto; discriminate.
    + rewrite (H t N) in W. auto.
Qed.
Lemma others_idle_init : forall acts UF UO UL fds mode allow, others_idle acts (r_init UF UO UL fds mode allow).
Proof. intros; intro; reflexivity. Qed.

Definition all_b (acts : list Z) s x := careful_b acts s x && nodeath_b s x && nomode_b s x && pools_b s x.
Lemma nodeath_b_ok : forall s x, nodeath_b s x = true -> no_deaths s x.
Proof. intros s [] E; simpl in *; auto; discriminate. Qed.
Lemma nomode_b_ok : forall s x, nomode_b s x = true -> no_mode_change s x.
Proof. intros s [| | |p []| |] E; simpl in *; auto; discriminate. Qed.
Lemma pools_b_ok : forall s x, pools_b s x = true -> pools_suffice s x.
Proof.
  intros s x E. destruct x; simpl in *; auto. destruct (r_pc s t); auto.
  - intro N. rewrite N in E. intro Z. rewrite Z in E. discriminate.
  - intro Z. rewrite Z in E. discriminate.
Qed.
Lemma busy_b_ok : forall s x, busy_b s x = true -> busy_cleanup s x.
Proof. intros s x E. destruct x; simpl in *; auto. destruct (r_pc s t); auto. apply Nat.leb_le; auto. Qed.
Lemma family_b_ok : forall famb (fam : Z -> Z -> Z -> Prop) s x, (forall d off len, famb d off len = true -> fam d off len) ->
  family_b famb s x = true -> in_family fam s x.
Proof.
  intros famb fam s x H E. destruct x as [t c| | | | |]; simpl in *; auto. destruct c; auto. intros d D. rewrite D in E. auto.
Qed.

(** new holds appear only at the end of a lock call *)
Lemma step_new_hold : forall s x l g, holds (r_step s x) l g ->
  holds s l g \/ exists t race gu a f o, x = LRun t race gu /\ r_pc s t = AS a f o l.
Proof.
  intros s x l g. destruct x as [t c|t race gu|p fd d|p m|t|p]; unfold r_step; auto.
  - destruct (alive s t); auto. destruct (r_pc s t); auto. unfold r_call. destruct c; try destruct (dev_of s t fd); auto.
  - destruct (alive s t); auto. unfold r_run.
    assert (D : forall x v, (forall g', v <> LHeld g') -> upd (h_st (r_h s)) x v l = LHeld g -> h_st (r_h s) l = LHeld g).
    { intros x v N. unfold upd. destruct (l =? x); auto. intro Q. destruct (N g Q). }
    assert (CK : forall priv exc dev o k y, h_st (check_locker s priv exc dev o k y) l = LHeld g -> h_st (r_h s) l = LHeld g).
    { intros priv exc dev o k y. unfold check_locker. cbv zeta. destruct (match exc with Some _ => _ | None => _ end); auto.
      destruct (probe_dead _ _ _ _ _ && _); auto. destruct (l_locked (h_l (r_h s) y)); unfold drop_locker, set_o, set_lfree, set_st, holds; simpl; 
        unfold upd; destruct (l =? y); auto; discriminate. }
    destruct (r_pc s t) eqn:Ep; auto; unfold holds.
    all: try (destruct (r_guard s) as [u|]; [destruct (alive s u)|]; simpl; auto; fail).
    all: try (destruct (find_file _ _); [|destruct (h_ffree _)]; simpl; auto; fail).
    all: try (destruct (find_off _ _ _ _); [|destruct (h_ofree _)]; simpl; auto; fail).
    + destruct (h_lfree (r_h s)); simpl; auto. intro Q. left. revert Q. apply (D z LWait); discriminate.
    + destruct (word_permits _ _ && _).
      * simpl. intro Q. left. revert Q. apply (D l0 LAcq); discriminate.
      * destruct (a_wait a); try destruct gu; simpl; auto.
    + intro Q. simpl in Q. unfold upd in Q. destruct (l =? l0) eqn:E; auto. apply Z.eqb_eq in E. subst. right. repeat eexists; eauto.
    + destruct ls as [|[k y] ls]; simpl; auto. intro Q. left. eapply CK. exact Q.
    + destruct (find_locker _ _ _ _ _) as [y|]; simpl; auto. intro Q. left. revert Q. apply (D y LDone); discriminate.
    + destruct (find_off _ _ _ _); simpl; auto. destruct (off_locked _ _); auto.
    + destruct (find_file _ _) as [y|]; simpl; auto. destruct (file_locked _ _); simpl; auto.
      assert (FO : forall os h, h_st (fold_left (fun h o => set_ofree (free_lockers h o) (o :: h_ofree h)) os h) = h_st h)
        by (induction os as [|o os IH]; intro h; simpl; auto; rewrite IH; reflexivity).
      rewrite FO. auto.
    + destruct (find_file _ _); simpl; auto. destruct (find_off _ _ _ _); simpl; auto.
      destruct (find_locker _ _ _ _ _) as [y|]; [|destruct (find_locker _ _ _ _ _) as [y|]]; simpl; auto;
        intro Q; left; revert Q; apply (D y LRel); discriminate.
    + simpl. intro Q. left. revert Q. apply (D l0 LDone); discriminate.
    + destruct (my_free_off s t && _); auto.
    + destruct (my_free_fd s t && _); auto.
    + destruct (find_file _ _); auto.
    + unfold pass_step. destruct fs as [|f fs]; auto. destruct os as [[|o os]|]; auto.
      * destruct (file_locked _ _); auto.
      * destruct ls as [[|[k y] ls]|]; auto.
        -- destruct (off_locked _ _); auto.
        -- intro Q. left. eapply CK. exact Q.
Qed.
Definition st_b (L : list Z) (s : rstate) (x : rlabel) : bool :=
  match x with LRun t _ _ => match r_pc s t with AS _ _ _ l => mem l L | _ => true end | _ => true end.
Definition acts_b (acts : list Z) (x : rlabel) : bool := match x with LCall t _ | LRun t _ _ => mem t acts | _ => true end.
(** executions without any condition: only the threads [acts] act and only entries in [L] are ever held *)
Definition quiet_state (acts L : list Z) (s : rstate) : Prop := others_idle acts s /\ forall l g, holds s l g -> In l L.
Lemma quiet_exec : forall acts L ls s, quiet_state acts L s ->
  check (fun s x => acts_b acts x && st_b L s x) s ls = true -> quiet_state acts L (r_exec s ls).
Proof.
  intros acts L ls. induction ls as [|x ls IH]; simpl; intros s H C; auto.
  apply andb_true_iff in C as [C1 C2]. apply andb_true_iff in C1 as [A B]. apply IH; auto. destruct H as [H1 H2]. split.
  - intros t N. destruct (step_other s x t) as [-> _]; [|apply H1; auto]. destruct x; simpl in *; try discriminate;
      intro E; inversion E; subst; apply mem_in in A; auto.
  - intros l g HL. apply step_new_hold in HL as [HL|(t & race & gu & a & f & o & -> & E)]; [eapply H2; eauto|].
    simpl in B. rewrite E in B. apply mem_in; auto.
Qed.
Lemma quiet_init : forall acts L UF UO UL fds mode allow, quiet_state acts L (r_init UF UO UL fds mode allow).
Proof. intros. split; [intro; reflexivity|]. intros l g H. discriminate H. Qed.
Definition held_b (s : rstate) (l : Z) : bool := match h_st (r_h s) l with LHeld _ => true | _ => false end.
Definition idle_b (s : rstate) (t : Z) : bool := match r_pc s t with RIdle => true | _ => false end.
Lemma quiet_idle : forall acts L s, quiet_state acts L s -> forallb (idle_b s) acts = true -> forall t, idle s t.
Proof.
  intros acts L s [H _] C t. destruct (in_dec Z.eq_dec t acts) as [I|N]; [|apply H; auto].
  rewrite forallb_forall in C. specialize (C t I). unfold idle_b in C. unfold idle. destruct (r_pc s t); auto; discriminate.
Qed.
Lemma quiet_none : forall acts L s, quiet_state acts L s -> forallb (fun l => negb (held_b s l)) L = true -> forall l g, ~ holds s l g.
Proof.
  intros acts L s [_ H] C l g HL. rewrite forallb_forall in C. specialize (C l (H l g HL)). unfold held_b in C.
  unfold holds in HL. rewrite HL in C. discriminate.
Qed.
Lemma reach_exec : forall s0 (b : rstate -> rlabel -> bool) (ok : rstate -> rlabel -> Prop), (forall s x, b s x = true -> ok s x) ->
  forall ls s, r_reach s0 ok s -> check b s ls = true -> r_reach s0 ok (r_exec s ls).
Proof.
  intros s0 b ok H ls. induction ls as [|x ls IH]; simpl; intros s R C; auto. apply andb_true_iff in C as [C1 C2].
  apply IH; auto. constructor; auto.
Qed.
Lemma only_runs : forall t n s, r_path (only t) s (runs t n) (r_exec s (runs t n)).
Proof. intros t n. induction n; intro s; simpl; constructor; auto. exists false; auto. Qed.
Lemma runs_one_call : forall t n, one_call t (runs t n).
Proof. intros t n c I. apply repeat_spec in I. discriminate. Qed.
Lemma reach_careful : forall acts UF UO UL fds mode allow ls,
  let s0 := r_init UF UO UL fds mode allow in
  check (careful_b acts) s0 ls = true -> r_reach s0 careful (r_exec s0 ls).
Proof.
  intros acts UF UO UL fds mode allow ls s0 C. apply (check_reach (careful_b acts) careful (others_idle acts) s0); auto.
  - intros s x J B. split; [eapply careful_b_ok; eauto | apply others_idle_step; auto].
  - apply others_idle_init.
  - constructor.
Qed.
Lemma reach_family : forall acts famb (fam : Z -> Z -> Z -> Prop) UF UO UL fds mode allow ls,
  let s0 := r_init UF UO UL fds mode allow in
  (forall d off len, famb d off len = true -> fam d off len) ->
  check (fun s x => careful_b acts s x && family_b famb s x) s0 ls = true -> r_reach s0 (both careful (in_family fam)) (r_exec s0 ls).
Proof.
  intros acts famb fam UF UO UL fds mode allow ls s0 HF C.
  apply (check_reach (fun s x => careful_b acts s x && family_b famb s x) (both careful (in_family fam)) (others_idle acts) s0); auto.
  - intros s x J B. apply andb_true_iff in B as [B1 B2]. split; [split; [eapply careful_b_ok; eauto | eapply family_b_ok; eauto] | apply others_idle_step; auto].
  - apply others_idle_init.
  - constructor.
Qed.
(** nobody dies, default free mode, and the pools are large enough *)
Definition calm (s : rstate) (x : rlabel) : Prop := careful s x /\ no_deaths s x /\ no_mode_change s x /\ pools_suffice s x.
Lemma reach_calm : forall acts UF UO UL fds mode allow ls,
  let s0 := r_init UF UO UL fds mode allow in
  check (all_b acts) s0 ls = true -> r_reach s0 calm (r_exec s0 ls).
Proof.
  intros acts UF UO UL fds mode allow ls s0 C. apply (check_reach (all_b acts) calm (others_idle acts) s0); auto.
  - intros s x J B. unfold all_b in B. repeat rewrite andb_true_iff in B. destruct B as (((B1 & B2) & B3) & B4).
    split; [|apply others_idle_step; auto]. repeat split; [eapply careful_b_ok; eauto | apply nodeath_b_ok; auto | apply nomode_b_ok; auto | apply pools_b_ok; auto].
  - apply others_idle_init.
  - constructor.
Qed.
Lemma reach_conserving : forall acts UF UO UL fds mode allow ls,
  let s0 := r_init UF UO UL fds mode allow in
  check (fun s x => all_b acts s x && busy_b s x) s0 ls = true -> r_reach s0 conserving (r_exec s0 ls).
Proof.
  intros acts UF UO UL fds mode allow ls s0 C.
  apply (check_reach (fun s x => all_b acts s x && busy_b s x) conserving (others_idle acts) s0); auto.
  - intros s x J B. unfold all_b in B. repeat rewrite andb_true_iff in B. destruct B as ((((B1 & B2) & B3) & B4) & B5).
    split; [|apply others_idle_step; auto].
    repeat split; [eapply careful_b_ok; eauto | apply nodeath_b_ok; auto | apply nomode_b_ok; auto | apply pools_b_ok; auto | apply busy_b_ok; auto].
  - apply others_idle_init.
  - constructor.
Qed.

(** threads of four processes; descriptor 3 is file 103, 4 is file 104, ... in every process *)
Definition th (p k : Z) : Z := p * two32 + k.
Definition T1 := th 1 11.
Definition T2 := th 2 21.
Definition T3 := th 3 31.
Definition T4 := th 4 41.
Definition everyone := [T1; T2; T3; T4].
Definition ex_fds (p fd : Z) : option Z := if fd <? 100 then Some (100 + fd) else None.
Definition s0 : rstate := r_init [1;2;3] [11;12;13;14] [21;22;23;24;25] ex_fds (fun _ => FREE_FD) (fun _ => true).
Definition lock_w (fd off len : Z) := CLock Wr fd off len WTry.
Definition lock_r (fd off len : Z) := CLock Rd fd off len WTry.

(** the ranges [0,10) and [10,30) of every file *)
Definition ex_famb (d off len : Z) : bool := ((off =? 0) && (len =? 10)) || ((off =? 10) && (len =? 20)).
Definition ex_fam (d off len : Z) : Prop := ex_famb d off len = true.
Lemma ex_fam_ok : equal_or_disjoint ex_fam.
Proof.
  unfold ex_fam, ex_famb, equal_or_disjoint, byte_in. split.
  - intros d off len E. unfold two63, two64. apply orb_true_iff in E as [E|E]; apply andb_true_iff in E as [E1 E2]; apply Z.eqb_eq in E1, E2; lia.
  - intros d o1 l1 o2 l2 E F. apply orb_true_iff in E as [E|E]; apply orb_true_iff in F as [F|F];
      apply andb_true_iff in E as [E1 E2]; apply andb_true_iff in F as [F1 F2]; apply Z.eqb_eq in E1, E2, F1, F2; subst; auto; right; intros; lia.
Qed.

Section RwProps.
Variables UF UO UL : list Z.
Hypothesis UF_nd : NoDup UF.
Hypothesis UO_nd : NoDup UO.
Hypothesis UL_nd : NoDup UL.
Variable fds : Z -> Z -> option Z.
Variable mode : Z -> fmode.
Variable allow : Z -> bool.
Notation init := (r_init UF UO UL fds mode allow).

(** ** C18: exclusion for equal-or-disjoint ranges *)
Theorem C18_exclusion_equal_or_disjoint : forall fam s l1 g1 l2 g2, equal_or_disjoint fam ->
  r_reach init (both careful (in_family fam)) s ->
  holds s l1 g1 -> holds s l2 g2 -> l1 <> l2 -> ~ conflict g1 g2.
Proof.
  intros fam s l1 g1 l2 g2 E R H1 H2 N.
  destruct (DI_reach UF UO UL UF_nd UO_nd UL_nd fam fds mode allow (both careful (in_family fam)) s) as [S D]; auto.
  eapply (exclusion UF UO UL); eauto.
Qed.

(** ** C20: unlock releases only the caller's own hold *)
Theorem C20_unlock_releases_own_hold : forall s t fd off len d ls s',
  r_reach init careful s -> idle s t -> file_of s t fd = Some d ->
  r_path careful (r_step s (LCall t (CUnlockRw fd off len))) ls s' ->
  one_call t ls -> alive s' t = true -> idle s' t ->
  exists rel, own_effect t (r_step s (LCall t (CUnlockRw fd off len))) ls rel /\
    ((r_res s' t = Some EINVAL /\ rel = []) \/
     (r_res s' t = Some OK /\ exists l g, rel = [(l, g)] /\ gr_t g = t /\ gr_fd g = fd /\ gr_dev g = d)).
Proof.
  intros s t fd off len d ls s' R ID DV P OC AL ID'.
  assert (H : SI UF UO UL s) by (eapply SI_reach; eauto).
  assert (AL0 : alive s t = true) by (eapply step_alive, path_alive; eauto).
  apply (unlock_path UF UO UL UF_nd careful (fun _ _ C => C) ls _ s' t (mkA Rd fd off len WBlock d)); auto.
  - apply SI_step; auto. exact I.
  - left. simpl. rewrite AL0, ID. simpl. rewrite (DV : dev_of _ _ _ = _). simpl. apply upd_eq.
Qed.

(** ** C21: what was granted can be released with the same arguments *)
Theorem C21_granted_can_be_released : forall fam s l g ls s', equal_or_disjoint fam ->
  r_reach init (both careful (in_family fam)) s -> holds s l g -> present s g -> idle s (gr_t g) ->
  let sc := r_step s (LCall (gr_t g) (CUnlockRw (gr_fd g) (gr_off g) (gr_len g))) in
  r_path (both (both careful (in_family fam)) (keeps_fd (gr_t g) (gr_fd g))) sc ls s' ->
  one_call (gr_t g) ls -> alive s' (gr_t g) = true -> idle s' (gr_t g) ->
  r_res s' (gr_t g) = Some OK /\
  exists l' g', same_args g' g /\ own_effect (gr_t g) sc ls [(l', g')] /\ holds s l' g' /\ ~ holds s' l' g'.
Proof.
  intros fam s l g ls s' E R HL PR ID sc P OC AL ID'. set (t := gr_t g) in *.
  destruct (DI_reach UF UO UL UF_nd UO_nd UL_nd fam fds mode allow (both careful (in_family fam)) s) as [S D]; auto.
  assert (AL0 : alive s t = true) by (eapply step_alive, path_alive; eauto).
  assert (DV : file_of s t (gr_fd g) = Some (gr_dev g)) by apply PR.
  assert (EQ : sc = goto s t (RWait (B2 (mkA Rd (gr_fd g) (gr_off g) (gr_len g) WBlock (gr_dev g))))).
  { unfold sc, r_step. rewrite AL0, ID. unfold r_call. rewrite (DV : dev_of _ _ _ = _). auto. }
  assert (S' : SI UF UO UL sc) by (apply SI_step; auto; exact I).
  assert (D' : DI fam sc) by (apply (DI_step UF UO UL UF_nd fam); auto; split; exact I).
  assert (HE : forall x y, holds sc x y <-> holds s x y) by (intros; rewrite EQ; unfold holds; simpl; tauto).
  assert (OKC : forall s x, both careful (in_family fam) s x -> careful s x /\ in_family fam s x) by (unfold both; auto).
  destruct (granted_unlock_path UF UO UL UF_nd fam E _ OKC ls sc s' l g (mkA Rd (gr_fd g) (gr_off g) (gr_len g) WBlock (gr_dev g)))
    as (l' & g' & SA & OE & RS); auto.
  - apply HE; auto.
  - rewrite EQ. exact PR.
  - repeat split.
  - left. rewrite EQ. simpl. apply upd_eq.
  - split; auto. exists l', g'. split; [|split; [|split]]; auto.
    + apply HE.
      assert (T' : gr_t g' = t) by apply SA.
      clear -OE T' P S' UF_nd. remember [(l', g')] as rel. revert s' P. induction OE as [s0|s0 x ls0 rel NA OE IH|s0 x ls0 rel A Q OE IH|s0 x ls0 rel l0 g0 A H0 Q OE IH]; intros s' P; try discriminate.
      * inversion P; subst. apply (no_new_other UF UO UL s0 x l' g'); auto.
        -- rewrite T'; auto.
        -- eapply IH; eauto. apply SI_step; auto. apply H2.
      * inversion P; subst. apply Q. eapply IH; eauto. apply SI_step; auto. apply H2.
      * inversion Heqrel; subst. auto.
    + intro HF.
      destruct (no_new_effect UF UO UL UF_nd (both (both careful (in_family fam)) (keeps_fd (gr_t g) (gr_fd g)))
         (fun s x (C : both (both careful (in_family fam)) (keeps_fd (gr_t g) (gr_fd g)) s x) => proj1 (proj1 C)) t sc ls _ OE s' P S' l' g') as [_ NX]; auto.
      * apply SA.
      * apply (NX l' g'); auto; [left; auto | apply SA].
Qed.


(** ** C22: islocked answers for the given range - false as stated (see below), true for the whole file *)
(** while somebody keeps a lock on the file, every islocked call on the file answers 1 *)
Theorem C22_islocked_whole_file_partial : forall s l g t fd off len ls s',
  r_reach init careful s -> holds s l g -> idle s t -> file_of s t fd = Some (gr_dev g) ->
  r_path (both careful (keeps g)) (r_step s (LCall t (CIsLocked fd off len))) ls s' ->
  one_call t ls -> alive s' t = true -> idle s' t ->
  r_res s' t = Some 1.
Proof.
  intros s l g t fd off len ls s' R HL ID DV P OC AL ID'.
  assert (H : SI UF UO UL s) by (eapply SI_reach; eauto).
  assert (AL0 : alive s t = true) by (eapply step_alive, path_alive; eauto).
  assert (EQ : r_step s (LCall t (CIsLocked fd off len)) = goto s t (RWait (Q2 (mkA Rd fd off len WBlock (gr_dev g))))).
  { unfold r_step. rewrite AL0, ID. unfold r_call. rewrite (DV : dev_of _ _ _ = _). auto. }
  apply (islocked_path UF UO UL UF_nd careful (fun _ _ C => C) ls (r_step s (LCall t (CIsLocked fd off len))) s' t (mkA Rd fd off len WBlock (gr_dev g)) l g); auto.
  - apply SI_step; auto. exact I.
  - rewrite EQ. exact HL.
  - left. rewrite EQ. simpl. apply upd_eq.
Qed.

(** ** C23: a failed try or timed lock call leaves no trace *)
(** the steps of the call change nobody's holds, in every interleaving *)
Theorem C23_failed_lock_keeps_holds : forall s t k fd off len w ls s' e,
  r_reach init careful s -> idle s t -> w <> WBlock ->
  r_path careful (r_step s (LCall t (CLock k fd off len w))) ls s' ->
  one_call t ls -> alive s' t = true -> idle s' t -> r_res s' t = Some e -> e <> OK ->
  own_effect t (r_step s (LCall t (CLock k fd off len w))) ls [].
Proof.
  intros s t k fd off len w ls s' e R ID W P OC AL ID' RS NE.
  assert (H : SI UF UO UL s) by (eapply SI_reach; eauto).
  assert (AL0 : alive s t = true) by (eapply step_alive, path_alive; eauto).
  assert (H1 : SI UF UO UL (r_step s (LCall t (CLock k fd off len w)))) by (apply SI_step; auto; exact I).
  destruct (dev_of s t fd) as [d|] eqn:DV.
  - apply (failed_lock_path UF UO UL UF_nd careful (fun _ _ C => C) ls _ s' t e); auto.
    unfold r_step. rewrite AL0, ID. unfold r_call. rewrite (DV : dev_of _ _ _ = _). unfold lock_phase. simpl. rewrite upd_eq. simpl. split; auto.
    eexists. split; [reflexivity|]. auto.
  - eapply (fin_path careful) with (e := if r_allow s (proc_of_thread t) then OK else ENOLCK); eauto.
    right; right. unfold r_step. rewrite AL0, ID. unfold r_call. rewrite (DV : dev_of _ _ _ = _). unfold idle. simpl. rewrite !upd_eq. auto.
Qed.
(** run without interference it leaves lists, lock words, registered lockers and pools as they were *)
Theorem C23_failed_lock_leaves_no_trace : forall s t k fd off len w d ls s' e,
  r_reach init careful s -> idle s t -> alive s t = true -> file_of s t fd = Some d -> w <> WBlock ->
  r_path (only t) (r_step s (LCall t (CLock k fd off len w))) ls s' ->
  idle s' t -> r_res s' t = Some e -> (e = EBUSY \/ e = ETIMEDOUT) ->
  same_resources (r_h s) (r_h s').
Proof.
  intros s t k fd off len w d ls s' e R ID AL0 DV W P ID' RS EE.
  assert (H : SI UF UO UL s) by (eapply SI_reach; eauto).
  assert (EQ : r_step s (LCall t (CLock k fd off len w)) = goto s t (RWait (A2 (mkA k fd off len w d)))).
  { unfold r_step. rewrite AL0, ID. unfold r_call. rewrite (DV : dev_of _ _ _ = _). auto. }
  apply (quiet_path UF UO UL UF_nd t (mkA k fd off len w d) (r_h s) W ls (r_step s (LCall t (CLock k fd off len w))) s' e); auto.
  - apply SI_step; auto. exact I.
  - rewrite (only_alive t _ ls s' t P), EQ. exact AL0.
  - destruct EE; subst; discriminate.
  - destruct EE; subst; discriminate.
  - left. rewrite EQ. simpl. rewrite upd_eq. simpl. split; auto. split; auto. apply sr_refl.
Qed.

(** ** C24: false as stated (see below); holds of others are not changed *)
Theorem C24_no_resources_keeps_holds_partial : forall s t k fd off len w ls s',
  r_reach init careful s -> idle s t -> w <> WBlock ->
  r_path careful (r_step s (LCall t (CLock k fd off len w))) ls s' ->
  one_call t ls -> alive s' t = true -> idle s' t -> r_res s' t = Some ENOLCK ->
  own_effect t (r_step s (LCall t (CLock k fd off len w))) ls [].
Proof. intros. eapply C23_failed_lock_keeps_holds; eauto. discriminate. Qed.

(** ** C25: pool conservation *)
(** every entry is in at most one place, in every careful execution, deaths included *)
Definition in_one_place (h : heap) : Prop :=
  (Permutation (h_flist h ++ h_ffree h) UF) /\
  (NoDup (h_ofree h) /\ forall o, In o (h_ofree h) -> forall f, In f UF -> ~ In o (f_offs (h_f h f))) /\
  (forall f1 f2 o, In f1 UF -> In f2 UF -> In o (f_offs (h_f h f1)) -> In o (f_offs (h_f h f2)) -> f1 = f2) /\
  (forall f, In f UF -> NoDup (f_offs (h_f h f))) /\
  (NoDup (h_lfree h) /\ forall l, In l (h_lfree h) -> forall o, In o UO -> ~ In l (o_rd (h_o h o) ++ o_wr (h_o h o))) /\
  (forall o1 o2 l, In o1 UO -> In o2 UO -> In l (o_rd (h_o h o1) ++ o_wr (h_o h o1)) -> In l (o_rd (h_o h o2) ++ o_wr (h_o h o2)) -> o1 = o2) /\
  (forall o, In o UO -> NoDup (o_rd (h_o h o) ++ o_wr (h_o h o))).
Theorem C25_no_entry_twice : forall s, r_reach init careful s -> in_one_place (r_h s).
Proof.
  intros s R. assert (H : SI UF UO UL s) by (eapply SI_reach; eauto).
  destruct (si_h _ _ _ s H) as [X1 X2 X3 X4 X5 X6 X7 X8 X9 X10 X11 X12 X13].
  split; auto. split; [|split; [|split; [|split; [|split]]]]; auto.
  - split; [apply X5|]. intros o I f U J. apply (X4 f o U J). auto.
  - split; [apply X9|]. intros l I o U J. apply (X8 o l U J). auto.
Qed.
(** with the default free mode no entry is lost: it is in its pool, or attached to a file or range that is in use *)
Theorem C25_nothing_lost : mode = (fun _ => FREE_FD) -> forall s, r_reach init conserving s ->
  (forall o, In o UO -> In o (h_ofree (r_h s)) \/ exists f, In f (h_flist (r_h s)) /\ In o (f_offs (h_f (r_h s) f))) /\
  (forall l, In l UL -> In l (h_lfree (r_h s)) \/ exists o, In o UO /\ In l (o_rd (h_o (r_h s) o) ++ o_wr (h_o (r_h s) o))).
Proof.
  intros -> s R. destruct (CI_reach UF UO UL UF_nd UO_nd UL_nd fds allow s R) as [S C].
  assert (H : exists a b c d, CH UO UL (r_h s) a b c d).
  { destruct (r_guard s) as [u|] eqn:EG; [destruct (crit (r_pc s u)) eqn:EC; [do 4 eexists; exact (ci_crit _ _ s C u EC)|]|];
      (do 4 eexists; apply (ci_none _ _ s C); intro t; destruct (crit (r_pc s t)) eqn:ET; auto;
       pose proof (si_guard _ _ _ s S t (ci_alive _ _ s C t) ET); congruence). }
  destruct H as (a & b & c & d & H). split; [apply (ch_off _ _ _ _ _ _ _ H) | apply (ch_loc _ _ _ _ _ _ _ H)].
Qed.
(** with the default free mode everything is back in the pools when nobody holds a lock or is inside a call *)
Theorem C25_everything_returned : mode = (fun _ => FREE_FD) -> forall s,
  r_reach init conserving s -> (forall t, idle s t) -> (forall l g, ~ holds s l g) ->
  h_flist (r_h s) = [] /\ Permutation (h_ffree (r_h s)) UF /\ Permutation (h_ofree (r_h s)) UO /\ Permutation (h_lfree (r_h s)) UL.
Proof.
  intros -> s R ID NH. destruct (CI_reach UF UO UL UF_nd UO_nd UL_nd fds allow s R) as [S C].
  apply (quiet_pools UF UO UL UO_nd UL_nd s S C); auto.
Qed.
(** and islocked then says exactly whether somebody holds a lock on the file *)
Theorem C22_islocked_quiet_partial : mode = (fun _ => FREE_FD) -> forall s t fd off len d ls s',
  r_reach init conserving s -> (forall t, idle s t) -> file_of s t fd = Some d ->
  r_path (only t) (r_step s (LCall t (CIsLocked fd off len))) ls s' -> idle s' t ->
  (r_res s' t = Some 1 /\ exists l g, holds s l g /\ gr_dev g = d) \/
  (r_res s' t = Some 0 /\ forall l g, holds s l g -> gr_dev g <> d).
Proof.
  intros -> s t fd off len d ls s' R ID DV P ID'. destruct (CI_reach UF UO UL UF_nd UO_nd UL_nd fds allow s R) as [S C].
  apply (quiet_islocked UF UO UL ls s s' t d (mkA Rd fd off len WBlock d)); auto.
  assert (EQ : r_step s (LCall t (CIsLocked fd off len)) = goto s t (RWait (Q2 (mkA Rd fd off len WBlock d)))).
  { unfold r_step. rewrite (ci_alive _ _ s C t), ID. unfold r_call. rewrite (DV : dev_of _ _ _ = _). auto. }
  rewrite <- EQ. auto.
Qed.

(** ** C27: locks of holders that are gone are released by a recovery pass *)
Theorem C27_pass_releases : forall priv s t ls s' l g,
  r_reach init careful s -> idle s t ->
  r_path (both careful (stays_gone priv g)) s (LCall t (CPass priv) :: ls) s' ->
  one_call t ls -> alive s' t = true -> idle s' t -> ~ holds s' l g.
Proof.
  intros priv s t ls s' l g R ID P OC AL ID'. inversion P as [|? ? ? ? O P1]; subst.
  assert (H : SI UF UO UL s) by (eapply SI_reach; eauto).
  assert (AL0 : alive s t = true) by (eapply step_alive, path_alive; eauto).
  apply (pass_path UF UO UL UF_nd careful (fun _ _ C => C) priv ls (r_step s (LCall t (CPass priv))) s' t l g); auto.
  - apply SI_step; auto. exact I.
  - intros _. left. left. unfold r_step. rewrite AL0, ID. simpl. apply upd_eq.
Qed.
(** whenever a lock is taken away by somebody else, its entry is in the pool at once *)
Theorem C27_entry_returned : forall s x l g, r_reach init careful s ->
  holds s l g -> ~ holds (r_step s x) l g -> actor x <> Some (gr_t g) -> In l (h_lfree (r_h (r_step s x))).
Proof.
  intros s x l g R HL N A. assert (H : SI UF UO UL s) by (eapply SI_reach; eauto).
  destruct (step_holds UF UO UL s x H) as [Q|(t & race & gu & -> & AL & E)].
  - exfalso. apply N. apply Q. auto.
  - destruct E as [Q|a f o l0 Ep S _ _ Q|a f o l0 g0 Ep _ HL0 T1 _ _ _ _ _ Q|l0 g0 priv HL0 PD _ IL Q].
    + exfalso. apply N. apply Q. auto.
    + exfalso. apply N. apply Q. auto.
    + assert (NE : l = l0). { destruct (Z.eq_dec l l0); auto. exfalso. apply N. apply Q. auto. }
      subst l0. unfold holds in *. assert (g0 = g) by congruence. subst. simpl in A. congruence.
    + assert (NE : l = l0). { destruct (Z.eq_dec l l0); auto. exfalso. apply N. apply Q. auto. }
      subst l0. auto.
Qed.

(** ** C28: false as stated (see below); true for descriptor-less locks and for an observer that may not look
    into /proc/<pid>/fd *)
Theorem C28_dead_thread_partial : forall priv s t ls s' l g,
  r_reach init careful s -> idle s t -> alive s (gr_t g) = false -> (gr_fd g < 0 \/ priv = false) ->
  r_path careful s (LCall t (CPass priv) :: ls) s' ->
  one_call t ls -> alive s' t = true -> idle s' t -> ~ holds s' l g.
Proof.
  intros priv s t ls s' l g R ID D NF P OC AL ID'. apply (C27_pass_releases priv s t ls s' l g); auto.
  assert (DD : forall sx, alive sx (gr_t g) = false -> gone sx priv g) by (intros; right; right; auto).
  clear -P D DD. revert D. induction P as [sx|sx x ls0 sy O P IH]; intro D; constructor.
  - assert (D' : alive (r_step sx x) (gr_t g) = false).
    { destruct (alive (r_step sx x) (gr_t g)) eqn:E; auto. apply step_alive in E. congruence. }
    split; auto. split; auto.
  - apply IH. destruct (alive (r_step sx x) (gr_t g)) eqn:E; auto. apply step_alive in E. congruence.
Qed.

(** ** C29: recovery never releases locks of holders that are there *)
Theorem C29_present_holder_keeps_lock : forall s ls s' l g,
  r_reach init careful s -> holds s l g -> r_path (both careful (keeps g)) s ls s' -> holds s' l g.
Proof.
  intros s ls s' l g R HL P. assert (H : SI UF UO UL s) by (eapply SI_reach; eauto). clear R.
  induction P as [sx|sx x ls0 sy [O (K1 & K2 & K3)] P IH]; auto.
  apply IH; [apply (held_kept UF UO UL sx x l g); auto | apply SI_step; auto].
Qed.
(** a waiting call stays registered: there is an entry of the file, with a range entry that overlaps the wanted
    range, with a locker of this thread and descriptor *)
Definition registered_in (h : heap) (t fd dev off len : Z) (k : rwmode) : Prop :=
  exists f o l, In f (h_flist h) /\ f_dev (h_f h f) = dev /\ In o (f_offs (h_f h f)) /\
    range_match (o_off (h_o h o)) (o_len (h_o h o)) off len = true /\
    In l (match k with Rd => o_rd (h_o h o) | Wr => o_wr (h_o h o) end) /\ h_l h l = mkL t fd false.
Theorem C29_waiting_call_stays_registered : forall s t a f o l,
  r_reach init careful s -> alive s t = true -> r_pc s t = AT a f o l ->
  registered_in (r_h s) t (a_fd a) (a_dev a) (a_off a) (a_len a) (a_kind a).
Proof.
  intros s t a f o l R AL Ep. assert (H : SI UF UO UL s) by (eapply SI_reach; eauto).
  pose proof (si_pc _ _ _ s H t AL) as Q. rewrite Ep in Q. destruct Q as ((A1 & A2 & A3) & DV & EL & RM & _).
  exists f, o, l. split; [|split; [|split; [|split; [|split]]]]; auto.
Qed.

(** ** C30: false as stated (see below); recovery restores the lock unless the death was in one of two windows *)
Theorem C30_recovery_restores_partial : forall s ls1 s1 ls2 s2 t k fd off len w d e,
  r_reach init careful s -> (forall u, alive s u = true -> idle s u) ->
  (forall l g, holds s l g -> gr_dev g = d -> gone s true g) ->
  file_of s t fd = Some d -> w <> WBlock ->
  r_path (only t) (r_step s (LCall t (CPass true))) ls1 s1 -> idle s1 t ->
  r_path (only t) (r_step s1 (LCall t (CLock k fd off len w))) ls2 s2 -> idle s2 t -> alive s2 t = true ->
  r_res s2 t = Some e -> e = OK \/ e = ENOLCK.
Proof.
  intros s ls1 s1 ls2 s2 t k fd off len w d e R. intros. assert (H' : SI UF UO UL s) by (eapply SI_reach; eauto).
  eapply (recover_path UF UO UL UF_nd s); eauto.
Qed.

(** ** C65: a lock call that returns 0 has granted a lock - true for open descriptors *)
Theorem C65_success_grants_partial : forall s t k fd off len w d ls s',
  r_reach init careful s -> idle s t -> file_of s t fd = Some d ->
  let sc := r_step s (LCall t (CLock k fd off len w)) in
  r_path careful sc ls s' -> one_call t ls -> alive s' t = true -> idle s' t -> r_res s' t = Some OK ->
  exists l ls1 x ls2 s1, ls = ls1 ++ x :: ls2 /\ r_path careful sc ls1 s1 /\ r_path careful (r_step s1 x) ls2 s' /\
    ~ holds s1 l (mkG t fd d off len k) /\ holds (r_step s1 x) l (mkG t fd d off len k).
Proof.
  intros s t k fd off len w d ls s' R ID DV sc P OC AL ID' RS.
  assert (H : SI UF UO UL s) by (eapply SI_reach; eauto).
  assert (AL0 : alive s t = true) by (eapply step_alive, path_alive; eauto).
  assert (EQ : sc = goto s t (RWait (A2 (mkA k fd off len w d)))).
  { unfold sc, r_step. rewrite AL0, ID. unfold r_call. rewrite (DV : dev_of _ _ _ = _). auto. }
  apply (granted_path UF UO UL UF_nd careful (fun _ _ C => C) ls sc s' t (mkA k fd off len w d)); auto.
  - unfold sc. apply SI_step; auto. exact I.
  - rewrite EQ. simpl. rewrite upd_eq. split; auto.
Qed.

(** ** C109: a refused lock call met a conflicting lock - true for equal-or-disjoint ranges *)
Theorem C109_refusal_explained_partial : forall fam s t k fd off len w d ls s' e, equal_or_disjoint fam ->
  r_reach init (both careful (in_family fam)) s -> idle s t -> file_of s t fd = Some d -> fam d off len ->
  let sc := r_step s (LCall t (CLock k fd off len w)) in
  r_path (both (both careful (in_family fam)) (undisturbed t)) sc ls s' ->
  one_call t ls -> alive s' t = true -> idle s' t -> r_res s' t = Some e -> e <> OK -> e <> ENOLCK ->
  exists ls1 ls2 s1, ls = ls1 ++ ls2 /\ r_path (both careful (in_family fam)) sc ls1 s1 /\
    r_path (both careful (in_family fam)) s1 ls2 s' /\ obstructed s1 (mkG t fd d off len k).
Proof.
  intros fam s t k fd off len w d ls s' e E R ID DV FM sc P OC AL ID' RS N1 N2.
  destruct (DI_reach UF UO UL UF_nd UO_nd UL_nd fam fds mode allow (both careful (in_family fam)) s) as [S D]; auto.
  assert (AL0 : alive s t = true) by (eapply step_alive, path_alive; eauto).
  assert (IF : in_family fam s (LCall t (CLock k fd off len w))) by (simpl; intros d' Q; rewrite DV in Q; inversion Q; subst; auto).
  assert (EQ : sc = goto s t (RWait (A2 (mkA k fd off len w d)))).
  { unfold sc, r_step. rewrite AL0, ID. unfold r_call. rewrite (DV : dev_of _ _ _ = _). auto. }
  apply (refused_path UF UO UL UF_nd fam E (both careful (in_family fam)) (fun _ _ C => proj1 C) (fun _ _ C => proj2 C) ls sc s' t (mkA k fd off len w d) e); auto.
  - unfold sc. apply SI_step; auto. exact I.
  - unfold sc. apply (DI_step UF UO UL UF_nd fam); auto.
  - rewrite EQ. simpl. rewrite upd_eq. split; auto.
Qed.

(** ** C110: without a conflicting lock and with entries in the pools a lock call that runs alone succeeds at once *)
Theorem C110_free_lock_granted : forall fam s t k fd off len w d ls s', equal_or_disjoint fam ->
  r_reach init (both careful (in_family fam)) s -> alive s t = true -> (forall u, alive s u = true -> idle s u) ->
  file_of s t fd = Some d -> fam d off len ->
  (forall l g, holds s l g -> ~ conflict (mkG t fd d off len k) g) ->
  h_ffree (r_h s) <> [] -> h_ofree (r_h s) <> [] -> h_lfree (r_h s) <> [] ->
  r_path (only t) (r_step s (LCall t (CLock k fd off len w))) ls s' -> (7 <= length ls)%nat ->
  idle s' t /\ r_res s' t = Some OK /\ exists l, holds s' l (mkG t fd d off len k).
Proof.
  intros fam s t k fd off len w d ls s' E R AL ID DV FM NC PF PO PL P L.
  destruct (DI_reach UF UO UL UF_nd UO_nd UL_nd fam fds mode allow (both careful (in_family fam)) s) as [S D]; auto.
  assert (GD : guarded s) by (apply (guarded_reach UF UO UL UF_nd UO_nd UL_nd fds mode allow (both careful (in_family fam)) s (fun _ _ C => proj1 C) R)).
  assert (IF : in_family fam s (LCall t (CLock k fd off len w))) by (simpl; intros d' Q; rewrite DV in Q; inversion Q; subst; auto).
  assert (EQ : r_step s (LCall t (CLock k fd off len w)) = goto s t (RWait (A2 (mkA k fd off len w d)))).
  { unfold r_step. rewrite AL, (ID t AL). unfold r_call. rewrite (DV : dev_of _ _ _ = _). auto. }
  apply (alone_path UF UO UL UF_nd fam E t (mkA k fd off len w d) ls _ s' P); auto. constructor.
  - apply SI_step; auto. exact I.
  - apply (DI_step UF UO UL UF_nd fam); auto.
  - rewrite EQ. exact AL.
  - rewrite EQ. intros u N AU. unfold idle. simpl. rewrite upd_neq by auto. apply (ID u). exact AU.
  - rewrite EQ. simpl. rewrite upd_eq. split; auto.
  - rewrite EQ. simpl. rewrite upd_eq. auto.
  - rewrite EQ. intros _. simpl. destruct (r_guard s) as [u|] eqn:EG; auto. destruct (alive s u) eqn:AU; auto.
    pose proof (GD u EG AU) as C. rewrite (ID u AU) in C. discriminate.
  - rewrite EQ. intros _ l g HL. apply (NC l g HL).
  - rewrite EQ. intros _. exact PF.
  - rewrite EQ. intros _. exact PO.
  - rewrite EQ. intros _. exact PL.
Qed.
End RwProps.

(** * Concrete cases and refutations *)
Ltac comp := lazymatch goal with
  | |- _ = _ => vm_compute; reflexivity | |- holds _ _ _ => vm_compute; reflexivity | |- idle _ _ => vm_compute; reflexivity end.
Lemma nd1 : NoDup [1;2;3]. Proof. repeat constructor; simpl; lia. Qed.
Lemma nd2 : NoDup [11;12;13;14]. Proof. repeat constructor; simpl; lia. Qed.
Lemma nd3 : NoDup [21;22;23;24;25]. Proof. repeat constructor; simpl; lia. Qed.
Definition G (t fd off len : Z) (k : rwmode) : grant := mkG t fd (100 + fd) off len k.

(** C18: two writers in neighbouring ranges and a refused third one *)
Definition ex18 := r_exec s0 (does T1 (lock_w 3 0 10) ++ does T2 (lock_w 3 10 20) ++ does T3 (lock_r 3 0 10)).
Example C18_example : r_reach s0 (both careful (in_family ex_fam)) ex18 /\ equal_or_disjoint ex_fam /\
  holds ex18 21 (G T1 3 0 10 Wr) /\ holds ex18 22 (G T2 3 10 20 Wr) /\ r_res ex18 T3 = Some EBUSY.
Proof.
  split; [|split; [exact ex_fam_ok|split; [|split]]]; try comp.
  apply (reach_family everyone ex_famb); [auto|vm_compute; reflexivity].
Qed.

(** ** C19: exclusion for arbitrary ranges *)
Definition C19_statement : Prop := forall UF UO UL fds allow s l1 g1 l2 g2, NoDup UF -> NoDup UO -> NoDup UL ->
  r_reach (r_init UF UO UL fds (fun _ => FREE_FD) allow) calm s ->
  holds s l1 g1 -> holds s l2 g2 -> l1 <> l2 -> ~ conflict g1 g2.
(** a writer on [0,10), a reader on [20,30); a reader asks for [5,25), finds the entry [20,30) first and gets in *)
Definition ex19 := r_exec s0 (does T1 (lock_w 3 0 10) ++ does T2 (lock_r 3 20 10) ++ does T3 (lock_r 3 5 20)).
Theorem C19_exclusion_any_ranges_refuted : ~ C19_statement.
Proof.
  intro H. apply (H _ _ _ ex_fds (fun _ => true) ex19 21 (G T1 3 0 10 Wr) 23 (G T3 3 5 20 Rd) nd1 nd2 nd3).
  - apply (reach_calm everyone). vm_compute. reflexivity.
  - vm_compute. reflexivity.
  - vm_compute. reflexivity.
  - lia.
  - split; [reflexivity|]. split; [|left; reflexivity]. exists 7. unfold byte_in, G; simpl. lia.
Qed.
(** even two writers on the same range [5,25): the first one lands on an entry [20,30), the second on a newer entry [4,6);
    both entries belong to calls that have registered and not yet been granted *)
Definition C19_same_range_statement : Prop := forall UF UO UL fds allow s l1 g1 l2 g2, NoDup UF -> NoDup UO -> NoDup UL ->
  r_reach (r_init UF UO UL fds (fun _ => FREE_FD) allow) calm s ->
  holds s l1 g1 -> holds s l2 g2 -> l1 <> l2 -> gr_off g1 = gr_off g2 -> gr_len g1 = gr_len g2 -> ~ conflict g1 g2.
Definition ex19b := r_exec s0 (LCall T4 (lock_r 3 20 10) :: runs T4 5 ++ does T1 (lock_w 3 5 20) ++
                               LCall T2 (lock_r 3 4 2) :: runs T2 5 ++ does T3 (lock_w 3 5 20)).
Theorem C19_same_range_refuted : ~ C19_same_range_statement.
Proof.
  intro H. apply (H _ _ _ ex_fds (fun _ => true) ex19b 22 (G T1 3 5 20 Wr) 24 (G T3 3 5 20 Wr) nd1 nd2 nd3); auto.
  - apply (reach_calm everyone). vm_compute. reflexivity.
  - vm_compute. reflexivity.
  - vm_compute. reflexivity.
  - lia.
  - split; [reflexivity|]. split; [|left; reflexivity]. exists 7. unfold byte_in, G; simpl. lia.
Qed.

(** C20, C21: a grant is released by its owner, a stranger's unlock is refused *)
Definition ex20 := r_exec s0 (does T1 (lock_w 3 0 10)).
Example C20_example : r_reach s0 careful ex20 /\ idle ex20 T1 /\ idle ex20 T2 /\ file_of ex20 T1 3 = Some 103 /\
  r_res (r_exec ex20 (does T2 (CUnlockRw 3 0 10))) T2 = Some EINVAL /\
  r_res (r_exec ex20 (does T1 (CUnlockRw 3 0 10))) T1 = Some OK.
Proof.
  split; [apply (reach_careful everyone); vm_compute; reflexivity|]. repeat split; vm_compute; reflexivity.
Qed.
Example C21_example : r_reach s0 (both careful (in_family ex_fam)) ex20 /\ holds ex20 21 (G T1 3 0 10 Wr) /\
  present ex20 (G T1 3 0 10 Wr) /\ ~ holds (r_exec ex20 (does T1 (CUnlockRw 3 0 10))) 21 (G T1 3 0 10 Wr).
Proof.
  split; [apply (reach_family everyone ex_famb); [auto|vm_compute; reflexivity]|]. repeat split; try comp.
  vm_compute. discriminate.
Qed.

(** ** C22 *)
Definition C22_statement : Prop := forall UF UO UL fds allow s t fd off len d s', NoDup UF -> NoDup UO -> NoDup UL ->
  r_reach (r_init UF UO UL fds (fun _ => FREE_FD) allow) calm s -> (forall u, idle s u) -> file_of s t fd = Some d ->
  s' = r_exec s (does t (CIsLocked fd off len)) -> r_res s' t = Some 1 ->
  exists l g x, holds s l g /\ gr_dev g = d /\ byte_in (gr_off g) (gr_len g) x /\ byte_in off len x.
Theorem C22_islocked_range_refuted : ~ C22_statement.
Proof.
  intro H. destruct (H _ _ _ ex_fds (fun _ => true) ex20 T2 3 50 10 103 (r_exec ex20 (does T2 (CIsLocked 3 50 10))) nd1 nd2 nd3)
    as (l & g & x & HL & _ & B1 & B2); try comp.
  - apply (reach_calm everyone). vm_compute. reflexivity.
  - apply (quiet_idle everyone [21;22;23;24;25]); [|vm_compute; reflexivity]. apply quiet_exec; [apply quiet_init|vm_compute; reflexivity].
  - assert (Q : quiet_state everyone [21] ex20) by (apply quiet_exec; [apply quiet_init|vm_compute; reflexivity]).
    destruct Q as [_ Q]. destruct (Q l g HL) as [<-|[]]. vm_compute in HL. inversion HL; subst. unfold byte_in in *; simpl in *. lia.
Qed.
Example C22_example : r_reach s0 conserving ex20 /\ (forall u, idle ex20 u) /\ holds ex20 21 (G T1 3 0 10 Wr) /\
  r_res (r_exec ex20 (does T2 (CIsLocked 3 50 10))) T2 = Some 1 /\ r_res (r_exec ex20 (does T2 (CIsLocked 4 0 10))) T2 = Some 0.
Proof.
  split; [apply (reach_conserving everyone); vm_compute; reflexivity|].
  split; [apply (quiet_idle everyone [21;22;23;24;25]); [apply quiet_exec; [apply quiet_init|]|]; vm_compute; reflexivity|].
  repeat split; vm_compute; reflexivity.
Qed.

(** C23: a refused reader leaves everything as it was *)
Example C23_example : r_reach s0 careful ex20 /\ idle ex20 T2 /\ alive ex20 T2 = true /\ file_of ex20 T2 3 = Some 103 /\
  r_path (only T2) (r_step ex20 (LCall T2 (lock_r 3 0 10))) (runs T2 24) (r_exec (r_step ex20 (LCall T2 (lock_r 3 0 10))) (runs T2 24)) /\
  r_res (r_exec (r_step ex20 (LCall T2 (lock_r 3 0 10))) (runs T2 24)) T2 = Some EBUSY.
Proof.
  split; [apply (reach_careful everyone); vm_compute; reflexivity|]. split; [vm_compute; reflexivity|]. split; [vm_compute; reflexivity|].
  split; [vm_compute; reflexivity|]. split; [apply only_runs|vm_compute; reflexivity].
Qed.

(** ** C24: a call that fails for lack of entries leaves the file marked as in use *)
Definition C24_statement : Prop := forall UF UO UL fds allow s t fd off len d s', NoDup UF -> NoDup UO -> NoDup UL ->
  r_reach (r_init UF UO UL fds (fun _ => FREE_FD) allow) (both careful (both no_deaths no_mode_change)) s ->
  (forall u, idle s u) -> file_of s t fd = Some d -> (forall l g, ~ holds s l g) ->
  s' = r_exec s (does t (CIsLocked fd off len)) -> r_res s' t = Some 0.
Definition s0_small := r_init [1;2;3] [11] [21;22;23;24;25] ex_fds (fun _ => FREE_FD) (fun _ => true).
Definition ex24 := r_exec s0_small (does T1 (lock_w 3 0 10) ++ does T2 (lock_w 4 0 10) ++ does T1 (CUnlockRw 3 0 10)).
Definition calm3_b s x := careful_b everyone s x && nodeath_b s x && nomode_b s x.
Theorem C24_no_resources_no_trace_refuted : ~ C24_statement.
Proof.
  intro H. enough (E : r_res (r_exec ex24 (does T3 (CIsLocked 4 0 10))) T3 = Some 0) by (vm_compute in E; discriminate).
  assert (Q : quiet_state everyone [21;22] ex24) by (apply quiet_exec; [apply quiet_init|vm_compute; reflexivity]).
  apply (H [1;2;3] [11] [21;22;23;24;25] ex_fds (fun _ => true) ex24 T3 4 0 10 104); auto.
  - exact nd1.
  - repeat constructor; simpl; lia.
  - exact nd3.
  - apply (check_reach calm3_b (both careful (both no_deaths no_mode_change)) (others_idle everyone)).
    + intros s x J B. unfold calm3_b in B. repeat rewrite andb_true_iff in B. destruct B as ((B1 & B2) & B3).
      split; [|apply others_idle_step; auto]. split; [eapply careful_b_ok; eauto|]. split; [apply nodeath_b_ok; auto | apply nomode_b_ok; auto].
    + apply others_idle_init.
    + constructor.
    + vm_compute. reflexivity.
  - apply (quiet_idle _ _ _ Q). vm_compute. reflexivity.
  - apply (quiet_none _ _ _ Q). vm_compute. reflexivity.
Qed.
Example C24_example : r_res (r_exec s0_small (does T1 (lock_w 3 0 10) ++ does T2 (lock_w 4 0 10))) T2 = Some ENOLCK.
Proof. vm_compute. reflexivity. Qed.

(** C25: four locks by four threads, one refused call, and everything unlocked *)
Definition ex25 := r_exec s0 (does T1 (lock_w 3 0 10) ++ does T2 (lock_r 3 20 10) ++ does T3 (lock_r 3 20 10) ++ does T4 (lock_w 4 0 1) ++
  does T4 (lock_w 3 0 10) ++ does T2 (CUnlockRw 3 20 10) ++ does T4 (CUnlockRw 4 0 1) ++ does T1 (CUnlockRw 3 0 10) ++ does T3 (CUnlockRw 3 20 10)).
Example C25_example : r_reach s0 conserving ex25 /\ (forall t, idle ex25 t) /\ (forall l g, ~ holds ex25 l g) /\
  h_ofree (r_h ex25) <> [11;12;13;14].
Proof.
  assert (Q : quiet_state everyone [21;22;23;24] ex25) by (apply quiet_exec; [apply quiet_init|vm_compute; reflexivity]).
  split; [apply (reach_conserving everyone); vm_compute; reflexivity|]. split; [apply (quiet_idle _ _ _ Q); vm_compute; reflexivity|].
  split; [apply (quiet_none _ _ _ Q); vm_compute; reflexivity|]. vm_compute; discriminate.
Qed.

(** ** C26: changing the free mode.  An entry is lost when it is neither in its pool nor in a list. *)
Definition off_lost (s : rstate) (o : Z) : Prop :=
  ~ In o (h_ofree (r_h s)) /\ forall f, In f (h_flist (r_h s)) -> ~ In o (f_offs (h_f (r_h s) f)).
Lemma off_lost_b : forall s o, negb (mem o (h_ofree (r_h s))) && forallb (fun f => negb (mem o (f_offs (h_f (r_h s) f)))) (h_flist (r_h s)) = true ->
  off_lost s o.
Proof.
  intros s o E. apply andb_true_iff in E as [E1 E2]. rewrite forallb_forall in E2. split.
  - intro I. apply mem_in in I. rewrite I in E1. discriminate.
  - intros f F I. specialize (E2 f F). apply mem_in in I. rewrite I in E2. discriminate.
Qed.
Definition C26_statement : Prop := forall UF UO UL fds mode allow s o, NoDup UF -> NoDup UO -> NoDup UL ->
  r_reach (r_init UF UO UL fds mode allow) (both careful (both no_deaths (both pools_suffice busy_cleanup))) s ->
  In o UO -> ~ off_lost s o.
Definition ex26 := r_exec s0 (LSetMode 1 FREE_NO :: does T1 (lock_w 3 0 10) ++ does T1 (CUnlockRw 3 0 10) ++ LSetMode 1 FREE_FD ::
  does T1 (lock_w 3 20 10) ++ does T1 (CUnlockRw 3 20 10) ++ does T1 (lock_w 4 0 10) ++ does T1 (CUnlockRw 4 0 10)).
Definition c26_b s x := careful_b everyone s x && nodeath_b s x && pools_b s x && busy_b s x.
Theorem C26_mode_change_loses_nothing_refuted : ~ C26_statement.
Proof.
  intro H. apply (H [1;2;3] [11;12;13;14] [21;22;23;24;25] ex_fds (fun _ => FREE_FD) (fun _ => true) ex26 11 nd1 nd2 nd3).
  - apply (check_reach c26_b (both careful (both no_deaths (both pools_suffice busy_cleanup))) (others_idle everyone)).
    + intros s x J B. unfold c26_b in B. repeat rewrite andb_true_iff in B. destruct B as (((B1 & B2) & B3) & B4).
      split; [|apply others_idle_step; auto]. split; [eapply careful_b_ok; eauto|]. split; [apply nodeath_b_ok; auto|].
      split; [apply pools_b_ok; auto | apply busy_b_ok; auto].
    + apply others_idle_init.
    + constructor.
    + vm_compute. reflexivity.
  - simpl; auto.
  - apply off_lost_b. vm_compute. reflexivity.
Qed.

(** C27: a dead writer's lock, and one whose descriptor was closed, are released by a pass of another process *)
Definition ex27 := r_exec s0 (does T1 (lock_w 3 0 10) ++ does T2 (lock_w 3 20 10) ++ [LDieProc 1; LSetFd 2 3 None]).
Definition gone_b (s : rstate) (priv : bool) (g : grant) : bool :=
  negb (r_palive s (proc_of_thread (gr_t g))) ||
  (negb (gr_fd g <? 0) && priv &&
     match r_fd s (proc_of_thread (gr_t g)) (gr_fd g) with Some d => negb (d =? gr_dev g) && negb (d =? -1) | None => true end) ||
  (((gr_fd g <? 0) || negb priv) && negb (alive s (gr_t g))).
Lemma gone_b_ok : forall s priv g, gone_b s priv g = true -> gone s priv g.
Proof.
  intros s priv g E. unfold gone_b in E. apply orb_true_iff in E as [E|E]; [apply orb_true_iff in E as [E|E]|].
  - left. destruct (r_palive s (proc_of_thread (gr_t g))); auto; discriminate.
  - right; left. apply andb_true_iff in E as [E E3]. apply andb_true_iff in E as [E1 E2]. split; [|split]; auto.
    + apply negb_true_iff in E1. apply Z.ltb_ge. auto.
    + destruct (r_fd s (proc_of_thread (gr_t g)) (gr_fd g)); auto. apply andb_true_iff in E3 as [F1 F2].
      split; intro Q; subst; rewrite Z.eqb_refl in *; discriminate.
  - right; right. apply andb_true_iff in E as [E1 E2]. split; [|destruct (alive s (gr_t g)); auto; discriminate].
    apply orb_true_iff in E1 as [E1|E1]; [left; apply Z.ltb_lt; auto|]. destruct priv; auto; discriminate.
Qed.
Lemma gone_path : forall priv g ls s, others_idle everyone s ->
  check (fun s x => careful_b everyone s x && gone_b s priv g && gone_b (r_step s x) priv g) s ls = true ->
  r_path (both careful (stays_gone priv g)) s ls (r_exec s ls).
Proof.
  intros priv g ls s J C. eapply (check_path _ (both careful (stays_gone priv g)) (others_idle everyone)); eauto.
  intros sx x JX B. repeat rewrite andb_true_iff in B. destruct B as ((B1 & B2) & B3).
  split; [|apply others_idle_step; auto]. split; [eapply careful_b_ok; eauto|]. split; apply gone_b_ok; auto.
Qed.
Definition pass_of (t : Z) (priv : bool) (n : nat) := LCall t (CPass priv) :: runs t n.
Example C27_example : r_reach s0 careful ex27 /\ holds ex27 21 (G T1 3 0 10 Wr) /\ holds ex27 22 (G T2 3 20 10 Wr) /\
  r_path (both careful (stays_gone true (G T1 3 0 10 Wr))) ex27 (pass_of T3 true 24) (r_exec ex27 (pass_of T3 true 24)) /\
  r_path (both careful (stays_gone true (G T2 3 20 10 Wr))) ex27 (pass_of T3 true 24) (r_exec ex27 (pass_of T3 true 24)) /\
  idle (r_exec ex27 (pass_of T3 true 24)) T3 /\
  ~ holds (r_exec ex27 (pass_of T3 true 24)) 21 (G T1 3 0 10 Wr) /\ ~ holds (r_exec ex27 (pass_of T3 true 24)) 22 (G T2 3 20 10 Wr).
Proof.
  assert (Q : quiet_state everyone [21;22] ex27) by (apply quiet_exec; [apply quiet_init|vm_compute; reflexivity]).
  split; [apply (reach_careful everyone); vm_compute; reflexivity|]. split; [vm_compute; reflexivity|]. split; [vm_compute; reflexivity|].
  split; [apply gone_path; [apply Q|vm_compute; reflexivity]|]. split; [apply gone_path; [apply Q|vm_compute; reflexivity]|].
  split; [vm_compute; reflexivity|]. split; vm_compute; discriminate.
Qed.

(** ** C28: the death of a thread alone, with an ordinary descriptor, is not noticed by a privileged observer *)
Definition C28_statement : Prop := forall UF UO UL fds mode allow s t priv n s' l g, NoDup UF -> NoDup UO -> NoDup UL ->
  r_reach (r_init UF UO UL fds mode allow) careful s -> (forall u, alive s u = true -> idle s u) -> alive s t = true ->
  alive s (gr_t g) = false -> s' = r_exec s (pass_of t priv n) -> idle s' t -> ~ holds s' l g.
Definition ex28 := r_exec s0 (does T1 (lock_w 3 0 10) ++ [LDieThread T1]).
Theorem C28_dead_thread_refuted : ~ C28_statement.
Proof.
  intro H. apply (H [1;2;3] [11;12;13;14] [21;22;23;24;25] ex_fds (fun _ => FREE_FD) (fun _ => true) ex28 T2 true 24%nat
    (r_exec ex28 (pass_of T2 true 24)) 21 (G T1 3 0 10 Wr) nd1 nd2 nd3); try comp.
  - apply (reach_careful everyone). vm_compute. reflexivity.
  - intros u _. apply (quiet_idle everyone [21]); [apply quiet_exec; [apply quiet_init|]|]; vm_compute; reflexivity.
Qed.
(** with a descriptor-less lock the same death is noticed *)
Definition NOFD0 := -2147483648.
Definition s0n := r_init [1;2;3] [11;12;13;14] [21;22;23;24;25] ex_fds (fun _ => FREE_FD) (fun _ => true).
Definition ex28n := r_exec s0n (does T1 (lock_w NOFD0 0 10) ++ [LDieThread T1]).
Example C28_example : r_reach s0n careful ex28n /\ holds ex28n 21 (mkG T1 NOFD0 (-1) 0 10 Wr) /\ alive ex28n T1 = false /\ r_palive ex28n 1 = true /\
  ~ holds (r_exec ex28n (pass_of T2 true 24)) 21 (mkG T1 NOFD0 (-1) 0 10 Wr) /\ idle (r_exec ex28n (pass_of T2 true 24)) T2.
Proof.
  split; [apply (reach_careful everyone); vm_compute; reflexivity|]. repeat split; try comp. vm_compute; discriminate.
Qed.

(** C29: a pass while the holder is there, and a waiting writer *)
Definition keeps_b (g : grant) (s : rstate) (x : rlabel) : bool :=
  let pr s := alive s (gr_t g) && match file_of s (gr_t g) (gr_fd g) with Some d => d =? gr_dev g | None => false end in
  pr s && pr (r_step s x) && match actor x with Some u => negb (u =? gr_t g) | None => true end.
Lemma keeps_b_ok : forall g s x, keeps_b g s x = true -> keeps g s x.
Proof.
  intros g s x E. unfold keeps_b in E. cbv zeta in E. repeat rewrite andb_true_iff in E. destruct E as (((A1 & A2) & B1 & B2) & C).
  split; [|split].
  - split; auto. destruct (file_of s (gr_t g) (gr_fd g)); [|discriminate]. apply Z.eqb_eq in A2. subst; auto.
  - split; auto. destruct (file_of (r_step s x) (gr_t g) (gr_fd g)); [|discriminate]. apply Z.eqb_eq in B2. subst; auto.
  - intro A. rewrite A in C. rewrite Z.eqb_refl in C. discriminate.
Qed.
Lemma keeps_path : forall g ls s, others_idle everyone s ->
  check (fun s x => careful_b everyone s x && keeps_b g s x) s ls = true -> r_path (both careful (keeps g)) s ls (r_exec s ls).
Proof.
  intros g ls s J C. eapply (check_path _ (both careful (keeps g)) (others_idle everyone)); eauto.
  intros sx x JX B. repeat rewrite andb_true_iff in B. destruct B as (B1 & B2).
  split; [|apply others_idle_step; auto]. split; [eapply careful_b_ok; eauto|apply keeps_b_ok; auto].
Qed.
Definition ex29 := r_exec s0 (does T1 (lock_w 3 0 10) ++ LCall T2 (CLock Wr 3 0 10 WBlock) :: runs T2 9).
Example C29_example : r_reach s0 careful ex29 /\ holds ex29 21 (G T1 3 0 10 Wr) /\
  r_path (both careful (keeps (G T1 3 0 10 Wr))) ex29 (pass_of T3 true 24 ++ expire T2 24) (r_exec ex29 (pass_of T3 true 24 ++ expire T2 24)) /\
  (exists a f o l, r_pc ex29 T2 = AT a f o l).
Proof.
  assert (Q : quiet_state everyone [21;22] ex29) by (apply quiet_exec; [apply quiet_init|vm_compute; reflexivity]).
  split; [apply (reach_careful everyone); vm_compute; reflexivity|]. split; [vm_compute; reflexivity|].
  split; [apply keeps_path; [apply Q|vm_compute; reflexivity]|].
  exists (mkA Wr 3 0 10 WBlock 103), 1, 11, 22. vm_compute. reflexivity.
Qed.

(** ** C30: deaths at any point *)
(** after a pass, when every holder has ended, a lock call is not refused; other threads may be waiting for the lock *)
Definition C30_progress_statement : Prop := forall UF UO UL fds mode allow s t k fd off len d, NoDup UF -> NoDup UO -> NoDup UL ->
  r_reach (r_init UF UO UL fds mode allow) any_schedule s ->
  (forall u, alive s u = true -> idle s u \/ exists a f o l, r_pc s u = AT a f o l) ->
  (forall l g, holds s l g -> gone s true g) -> alive s t = true -> file_of s t fd = Some d ->
  let s1 := r_exec s (pass_of t true 24) in let s2 := r_exec s1 (does t (CLock k fd off len WTry)) in
  idle s1 t -> idle s2 t -> r_res s2 t = Some OK \/ r_res s2 t = Some ENOLCK.
(** T1's process ends between the compare-and-swap on the lock word and the mark in its own entry; T3 waits for the same range, so that
    the range entry is never freed *)
Definition ex30 := r_exec s0 (LCall T3 (CLock Wr 3 0 10 WBlock) :: runs T3 5 ++ LCall T1 (lock_w 3 0 10) :: runs T1 6 ++ LDieProc 1 :: runs T3 3).
Lemma any_reach : forall s0 ls, r_reach s0 any_schedule (r_exec s0 ls).
Proof.
  intros. apply (reach_exec s1 (fun _ _ => true)); [intros; exact I|constructor|]. generalize s1. induction ls; simpl; auto.
Qed.
Theorem C30_recovery_progress_refuted : ~ C30_progress_statement.
Proof.
  intro H. assert (Q : quiet_state everyone [] ex30) by (apply quiet_exec; [apply quiet_init|vm_compute; reflexivity]).
  pose proof (H [1;2;3] [11;12;13;14] [21;22;23;24;25] ex_fds (fun _ => FREE_FD) (fun _ => true) ex30 T2 Wr 3 0 10 103 nd1 nd2 nd3) as HH.
  cbv zeta in HH. destruct HH as [E|E]; try comp.
  - apply any_reach.
  - intros u A. destruct (Z.eq_dec u T1) as [->|N]; [vm_compute in A; discriminate|].
    destruct (in_dec Z.eq_dec u everyone) as [J|J]; [|left; apply Q; auto].
    destruct J as [<-|[<-|[<-|[<-|[]]]]]; [congruence|left; comp| |left; comp].
    right. exists (mkA Wr 3 0 10 WBlock 103), 1, 11, 21. vm_compute. reflexivity.
  - intros l g HL. destruct Q as [_ Q]. destruct (Q l g HL).
  - vm_compute in E. discriminate.
  - vm_compute in E. discriminate.
Qed.
(** live holders exclude each other *)
Definition C30_exclusion_statement : Prop := forall fam UF UO UL fds mode allow s l1 g1 l2 g2, NoDup UF -> NoDup UO -> NoDup UL ->
  equal_or_disjoint fam -> r_reach (r_init UF UO UL fds mode allow) (in_family fam) s ->
  holds s l1 g1 -> holds s l2 g2 -> l1 <> l2 -> present s g1 -> present s g2 -> ~ conflict g1 g2.
(** T1's process ends between releasing the lock word and clearing the mark in its own entry; the pass releases the word again *)
Definition ex30x := r_exec s0 (does T1 (lock_r 3 0 10) ++ does T2 (lock_r 3 0 10) ++ LCall T1 (CUnlockRw 3 0 10) :: runs T1 2 ++
  LDieProc 1 :: pass_of T3 true 24 ++ does T4 (lock_w 3 0 10)).
Theorem C30_recovery_exclusion_refuted : ~ C30_exclusion_statement.
Proof.
  intro H. apply (H ex_fam [1;2;3] [11;12;13;14] [21;22;23;24;25] ex_fds (fun _ => FREE_FD) (fun _ => true) ex30x
     22 (G T2 3 0 10 Rd) 21 (G T4 3 0 10 Wr) nd1 nd2 nd3); try comp.
  - exact ex_fam_ok.
  - apply (reach_exec _ (family_b ex_famb)); [intros; eapply family_b_ok; eauto|constructor|vm_compute; reflexivity].
  - lia.
  - split; vm_compute; reflexivity.
  - split; vm_compute; reflexivity.
  - split; [reflexivity|]. split; [|right; reflexivity]. exists 7. unfold byte_in, G; simpl. lia.
Qed.
(** death of a holder outside the windows: the pass restores the lock *)
Definition ex30e := r_exec s0 (does T1 (lock_w 3 0 10) ++ [LDieProc 1]).
Example C30_example : r_reach s0 careful ex30e /\ (forall u, idle ex30e u) /\ (forall l g, holds ex30e l g -> gr_dev g = 103 -> gone ex30e true g) /\
  r_res (r_exec ex30e (does T2 (lock_w 3 0 10))) T2 = Some EBUSY /\
  r_res (r_exec ex30e (pass_of T2 true 24 ++ does T2 (lock_w 3 0 10))) T2 = Some OK.
Proof.
  assert (Q : quiet_state everyone [21] ex30e) by (apply quiet_exec; [apply quiet_init|vm_compute; reflexivity]).
  split; [apply (reach_careful everyone); vm_compute; reflexivity|]. split; [apply (quiet_idle _ _ _ Q); vm_compute; reflexivity|].
  split; [|split; vm_compute; reflexivity]. intros l g HL _. destruct Q as [_ Q]. destruct (Q l g HL) as [<-|[]].
  vm_compute in HL. inversion HL; subst. left. vm_compute. reflexivity.
Qed.

(** ** C31: locks without a descriptor *)
Definition C31_statement : Prop := forall UF UO UL fds allow s l g k fd off len, NoDup UF -> NoDup UO -> NoDup UL ->
  r_reach (r_init UF UO UL fds (fun _ => FREE_FD) allow) calm s -> (forall u, idle s u) ->
  holds s l g -> (forall l' g', holds s l' g' -> l' = l) ->
  gr_fd g < 0 -> fd < 0 -> fd <> gr_fd g ->
  forall t, r_res (r_exec s (does t (CLock k fd off len WTry))) t <> Some EBUSY.
Definition ex31 := r_exec s0 (does T1 (lock_w NOFD0 0 10)).
Theorem C31_no_fd_independent_refuted : ~ C31_statement.
Proof.
  intro H. assert (Q : quiet_state everyone [21] ex31) by (apply quiet_exec; [apply quiet_init|vm_compute; reflexivity]).
  apply (H [1;2;3] [11;12;13;14] [21;22;23;24;25] ex_fds (fun _ => true) ex31 21 (mkG T1 NOFD0 (-1) 0 10 Wr) Wr (NOFD0 + 1) 0 10 nd1 nd2 nd3) with (t := T2);
    try comp.
  - apply (reach_calm everyone). vm_compute. reflexivity.
  - apply (quiet_idle _ _ _ Q). vm_compute. reflexivity.
  - intros l' g' HL. destruct Q as [_ Q]. destruct (Q l' g' HL) as [<-|[]]. auto.
  - reflexivity.
  - reflexivity.
  - discriminate.
Qed.

(** ** C64: failing calls lose no entries *)
Definition C64_statement : Prop := forall UF UO UL fds allow s o, NoDup UF -> NoDup UO -> NoDup UL ->
  r_reach (r_init UF UO UL fds (fun _ => FREE_FD) allow) calm s -> In o UO -> ~ off_lost s o.
(** T2's refused call has removed its locker entry, the holder T3 has unlocked in between; T1's unlock frees the file entry before T2
    gets to the range entry, and T4 takes the file entry for another file *)
Definition ex64 := r_exec s0 (does T3 (lock_w 3 0 10) ++ does T1 (lock_w 3 20 10) ++ LCall T2 (lock_w 3 0 10) :: runs T2 6 ++
  does T3 (CUnlockRw 3 0 10) ++ runs T2 3 ++ does T1 (CUnlockRw 3 20 10) ++ does T4 (lock_w 4 50 10) ++ runs T2 24 ++ does T4 (CUnlockRw 4 50 10)).
Theorem C64_failing_calls_lose_nothing_refuted : ~ C64_statement.
Proof.
  intro H. apply (H [1;2;3] [11;12;13;14] [21;22;23;24;25] ex_fds (fun _ => true) ex64 11 nd1 nd2 nd3).
  - apply (reach_calm everyone). vm_compute. reflexivity.
  - simpl; auto.
  - apply off_lost_b. vm_compute. reflexivity.
Qed.
Example C64_all_idle : forall t, idle ex64 t.
Proof. apply (quiet_idle everyone [21;22;23;24;25]); [apply quiet_exec; [apply quiet_init|]|]; vm_compute; reflexivity. Qed.

(** ** C65: a lock call on a bad descriptor returns 0 *)
Definition C65_statement : Prop := forall UF UO UL fds mode s t k fd off len, NoDup UF -> NoDup UO -> NoDup UL ->
  r_reach (r_init UF UO UL fds mode (fun _ => true)) careful s -> idle s t -> alive s t = true ->
  let s' := r_exec s (does t (CLock k fd off len WTry)) in
  r_res s' t = Some OK -> exists l g, holds s' l g /\ gr_t g = t.
Theorem C65_success_grants_refuted : ~ C65_statement.
Proof.
  intro H. assert (Q : quiet_state everyone [] (r_exec s0 (does T1 (lock_w 200 0 10)))) by (apply quiet_exec; [apply quiet_init|vm_compute; reflexivity]).
  pose proof (H [1;2;3] [11;12;13;14] [21;22;23;24;25] ex_fds (fun _ => FREE_FD) s0 T1 Wr 200 0 10 nd1 nd2 nd3) as HH.
  cbv zeta in HH. destruct HH as (l & g & HL & _); try comp.
  - constructor.
  - destruct Q as [_ Q]. destruct (Q l g HL).
Qed.
Example C65_example : r_reach s0 careful s0 /\ file_of s0 T1 3 = Some 103 /\ r_res (r_exec s0 (does T1 (lock_w 3 0 10))) T1 = Some OK /\
  holds (r_exec s0 (does T1 (lock_w 3 0 10))) 21 (mkG T1 3 103 0 10 Wr).
Proof. split; [constructor|]. repeat split; vm_compute; reflexivity. Qed.

(** ** C66: closing the descriptor during a lock call *)
Definition C66_statement : Prop := forall fam UF UO UL fds allow s l1 g1 l2 g2, NoDup UF -> NoDup UO -> NoDup UL ->
  equal_or_disjoint fam -> r_reach (r_init UF UO UL fds (fun _ => FREE_FD) allow) (both no_deaths (in_family fam)) s ->
  holds s l1 g1 -> holds s l2 g2 -> l1 <> l2 -> ~ conflict g1 g2.
Definition ex66 := r_exec s0 (does T4 (lock_w 3 10 20) ++ LCall T1 (lock_w 3 0 10) :: runs T1 5 ++ LSetFd 1 3 None :: pass_of T2 true 24 ++
  does T4 (CUnlockRw 3 10 20) ++ runs T1 2 ++ does T2 (lock_w 3 0 10)).
Theorem C66_descriptor_closed_during_call_refuted : ~ C66_statement.
Proof.
  intro H. apply (H ex_fam [1;2;3] [11;12;13;14] [21;22;23;24;25] ex_fds (fun _ => true) ex66
     22 (G T1 3 0 10 Wr) 21 (G T2 3 0 10 Wr) nd1 nd2 nd3); try comp.
  - exact ex_fam_ok.
  - apply (reach_exec _ (fun s x => nodeath_b s x && family_b ex_famb s x)); [|constructor|vm_compute; reflexivity].
    intros s x B. apply andb_true_iff in B as [B1 B2]. split; [apply nodeath_b_ok; auto | eapply family_b_ok; eauto].
  - lia.
  - split; [reflexivity|]. split; [|left; reflexivity]. exists 7. unfold byte_in, G; simpl. lia.
Qed.
Example C66_both_returned : r_res ex66 T1 = Some OK /\ r_res ex66 T2 = Some OK.
Proof. split; vm_compute; reflexivity. Qed.

(** ** C67: a recovery pass and islocked *)
Definition C67_statement : Prop := forall UF UO UL fds allow s t fd off len d, NoDup UF -> NoDup UO -> NoDup UL ->
  r_reach (r_init UF UO UL fds (fun _ => FREE_FD) allow) careful s -> (forall u, alive s u = true -> idle s u) ->
  (forall l g, ~ holds s l g) -> alive s t = true -> file_of s t fd = Some d ->
  let s1 := r_exec s (pass_of t true 24) in idle s1 t ->
  r_res (r_exec s1 (does t (CIsLocked fd off len))) t = Some 0.
(** T1's process ends after it has found or created the file entry *)
Definition ex67 := r_exec s0 (LCall T1 (lock_w 3 0 10) :: runs T1 2 ++ [LDieProc 1]).
Theorem C67_pass_clears_islocked_refuted : ~ C67_statement.
Proof.
  intro H. assert (Q : quiet_state everyone [] ex67) by (apply quiet_exec; [apply quiet_init|vm_compute; reflexivity]).
  assert (E : r_res (r_exec (r_exec ex67 (pass_of T2 true 24)) (does T2 (CIsLocked 3 0 10))) T2 = Some 0); [|vm_compute in E; discriminate].
  apply (H [1;2;3] [11;12;13;14] [21;22;23;24;25] ex_fds (fun _ => true) ex67 T2 3 0 10 103 nd1 nd2 nd3); try comp.
  - apply (reach_careful everyone). vm_compute. reflexivity.
  - intros u A. destruct (Z.eq_dec u T1) as [->|N]; [vm_compute in A; discriminate|].
    destruct (in_dec Z.eq_dec u everyone) as [J|J]; [|apply Q; auto].
    destruct J as [<-|[<-|[<-|[<-|[]]]]]; try comp. congruence.
  - intros l g HL. destruct Q as [_ Q]. destruct (Q l g HL).
Qed.

(** ** C68: deaths and pool entries *)
Definition C68_statement : Prop := forall UF UO UL fds allow s o, NoDup UF -> NoDup UO -> NoDup UL ->
  r_reach (r_init UF UO UL fds (fun _ => FREE_FD) allow) (both careful (both pools_suffice busy_cleanup)) s -> In o UO -> ~ off_lost s o.
(** T1's process ends in its unlock after its locker entry is back in the pool; T2's unlock frees the file entry *)
Definition ex68 := r_exec s0 (does T1 (lock_w 3 0 10) ++ does T2 (lock_w 3 20 10) ++ LCall T1 (CUnlockRw 3 0 10) :: runs T1 4 ++
  LDieProc 1 :: does T2 (CUnlockRw 3 20 10)).
Definition c68_b s x := careful_b everyone s x && pools_b s x && busy_b s x.
Theorem C68_death_loses_nothing_refuted : ~ C68_statement.
Proof.
  intro H. apply (H [1;2;3] [11;12;13;14] [21;22;23;24;25] ex_fds (fun _ => true) ex68 11 nd1 nd2 nd3).
  - apply (check_reach c68_b (both careful (both pools_suffice busy_cleanup)) (others_idle everyone)).
    + intros s x J B. unfold c68_b in B. repeat rewrite andb_true_iff in B. destruct B as ((B1 & B2) & B3).
      split; [|apply others_idle_step; auto]. split; [eapply careful_b_ok; eauto|].
      split; [apply pools_b_ok; auto | apply busy_b_ok; auto].
    + apply others_idle_init.
    + constructor.
    + vm_compute. reflexivity.
  - simpl; auto.
  - apply off_lost_b. vm_compute. reflexivity.
Qed.

(** ** C109: with other ranges a call is refused because of a lock that does not conflict *)
Definition C109_statement : Prop := forall UF UO UL fds mode s t k fd off len w d ls s' e, NoDup UF -> NoDup UO -> NoDup UL ->
  r_reach (r_init UF UO UL fds mode (fun _ => true)) calm s -> idle s t -> file_of s t fd = Some d ->
  0 <= off -> 0 < len -> off + len < two63 ->
  let sc := r_step s (LCall t (CLock k fd off len w)) in
  r_path (both calm (undisturbed t)) sc ls s' -> one_call t ls -> alive s' t = true -> idle s' t ->
  r_res s' t = Some e -> e <> OK -> e <> ENOLCK ->
  exists ls1 ls2 s1, ls = ls1 ++ ls2 /\ r_path calm sc ls1 s1 /\ r_path calm s1 ls2 s' /\ obstructed s1 (mkG t fd d off len k).
(** T1 locks [0,30), T2 reads [20,30) and shares the entry, T1 unlocks; the entry keeps the range [0,30) *)
Definition ex109 := r_exec s0 (does T1 (lock_r 3 0 30) ++ does T2 (lock_r 3 20 10) ++ does T1 (CUnlockRw 3 0 30)).
Definition ex109c := r_step ex109 (LCall T3 (lock_w 3 0 10)).
Lemma runs_prefix : forall t n ls1 ls2, runs t n = ls1 ++ ls2 -> ls1 = runs t (length ls1) /\ (length ls1 <= n)%nat.
Proof.
  intros t n ls1 ls2 E. split.
  - assert (F : Forall (fun x => x = LRun t false false) ls1).
    { apply Forall_forall. intros x I. apply (repeat_spec n). fold (runs t n). rewrite E. apply in_or_app. auto. }
    clear E. induction F as [|x ls1 -> F IH]; auto. simpl. unfold runs in IH at 1. rewrite IH at 1. reflexivity.
  - apply (f_equal (@length rlabel)) in E. rewrite app_length in E. unfold runs in E. rewrite repeat_length in E. lia.
Qed.
Lemma r_path_exec : forall ok s ls s', r_path ok s ls s' -> s' = r_exec s ls.
Proof. intros ok s ls s' P. induction P; auto. Qed.
Definition not_as (p : rpc) : bool := match p with AS _ _ _ _ => false | _ => true end.
Definition far_b (s : rstate) (l : Z) : bool := match h_st (r_h s) l with LHeld g => 10 <=? gr_off g | _ => true end.
Lemma not_obstructed : forall s, quiet_state everyone [21;22] s -> forallb (fun t => not_as (r_pc s t)) everyone = true ->
  forallb (far_b s) [21;22] = true -> ~ obstructed s (G T3 3 0 10 Wr).
Proof.
  intros s [Q1 Q2] NA FB (g & (l & HL) & (_ & (x & B1 & B2) & _)).
  assert (HL' : holds s l g).
  { destruct HL as [HL|(u & _ & _ & _ & HL)]; auto. destruct (step_new_hold _ _ _ _ HL) as [|(t & race & gu & a & f & o & EX & EP)]; auto.
    inversion EX; subst. exfalso. destruct (in_dec Z.eq_dec t everyone) as [I|N].
    - rewrite forallb_forall in NA. specialize (NA t I). rewrite EP in NA. discriminate.
    - rewrite (Q1 t N) in EP. discriminate. }
  rewrite forallb_forall in FB. specialize (FB l (Q2 l g HL')). unfold far_b in FB. unfold holds in HL'. rewrite HL' in FB.
  apply Z.leb_le in FB. unfold byte_in, G in *. simpl in *. lia.
Qed.
Definition good_b (s : rstate) : bool := forallb (fun t => not_as (r_pc s t)) everyone && forallb (far_b s) [21;22].
Lemma quiet_prefixes : forall s n, quiet_state everyone [21;22] s ->
  forallb (fun k => good_b (r_exec s (runs T3 k)) && check (fun s x => acts_b everyone x && st_b [21;22] s x) s (runs T3 k)) (seq 0 (S n)) = true ->
  forall k, (k <= n)%nat -> ~ obstructed (r_exec s (runs T3 k)) (G T3 3 0 10 Wr).
Proof.
  intros s n Q X k LE. rewrite forallb_forall in X. specialize (X k). rewrite in_seq in X. specialize (X ltac:(lia)).
  apply andb_true_iff in X as [X X3]. apply andb_true_iff in X as [X1 X2].
  apply not_obstructed; [|exact X1|exact X2]. apply quiet_exec; [exact Q|exact X3].
Qed.
Lemma calm_runs : forall n s, others_idle everyone s -> check (all_b everyone) s (runs T3 n) = true ->
  r_path (both calm (undisturbed T3)) s (runs T3 n) (r_exec s (runs T3 n)).
Proof.
  induction n as [|n IH]; intros s J C; simpl in *; [constructor|].
  apply andb_true_iff in C as [C1 C2]. pose proof C1 as C3. unfold all_b in C1. repeat rewrite andb_true_iff in C1. destruct C1 as (((B1 & B2) & B3) & B4).
  constructor; [|apply IH; [exact (others_idle_step everyone s (LRun T3 false false) J B1)|exact C2]].
  split; [|intros gu E; inversion E].
  split; [exact I|]. split; [exact I|]. split; [exact I|]. apply pools_b_ok. exact B4.
Qed.
Theorem C109_refusal_explained_refuted : ~ C109_statement.
Proof.
  intro H.
  assert (Q : quiet_state everyone [21;22] ex109) by (apply quiet_exec; [apply quiet_init|vm_compute; reflexivity]).
  assert (QC : quiet_state everyone [21;22] ex109c).
  { apply (quiet_exec everyone [21;22] [LCall T3 (lock_w 3 0 10)] ex109 Q). vm_compute. reflexivity. }
  assert (NO : forall k, (k <= 24)%nat -> ~ obstructed (r_exec ex109c (runs T3 k)) (G T3 3 0 10 Wr)).
  { apply quiet_prefixes; [exact QC|]. vm_compute. reflexivity. }
  pose proof (calm_runs 24 ex109c (proj1 QC)) as P.
  assert (X : check (all_b everyone) ex109c (runs T3 24) = true) by (vm_compute; reflexivity). specialize (P X). clear X.
  pose proof (H [1;2;3] [11;12;13;14] [21;22;23;24;25] ex_fds (fun _ => FREE_FD) ex109 T3 Wr 3 0 10 WTry 103 (runs T3 24)
    (r_exec ex109c (runs T3 24)) EBUSY nd1 nd2 nd3) as HH. cbv zeta in HH.
  destruct HH as (ls1 & ls2 & s1 & E & P1 & _ & OB); try comp.
  - apply (reach_calm everyone). vm_compute. reflexivity.
  - vm_compute. intro Y. discriminate Y.
  - vm_compute. reflexivity.
  - vm_compute. reflexivity.
  - exact P.
  - apply runs_one_call.
  - intro Y. discriminate Y.
  - intro Y. discriminate Y.
  - destruct (runs_prefix _ _ _ _ E) as [E1 LE]. rewrite (r_path_exec _ _ _ _ P1) in OB. rewrite E1 in OB.
    exact (NO _ LE OB).
Qed.
(** T2 is refused [0,10) while T1 writes there; the lock of T1 is the obstacle *)
Definition ex109b := r_exec s0 (does T1 (lock_w 3 0 10)).
Example C109_case : r_reach s0 (both careful (in_family ex_fam)) ex109b /\ idle ex109b T2 /\ file_of ex109b T2 3 = Some 103 /\
  ex_fam 103 0 10 /\ r_res (r_exec ex109b (does T2 (lock_r 3 0 10))) T2 = Some EBUSY /\
  idle (r_exec ex109b (does T2 (lock_r 3 0 10))) T2 /\ obstructed ex109b (G T2 3 0 10 Rd).
Proof.
  repeat split; try comp.
  - apply (reach_family everyone ex_famb); auto.
  - exists (G T1 3 0 10 Wr). split.
    + exists 21. left. vm_compute. reflexivity.
    + unfold conflict, G, byte_in. simpl. repeat split; auto. exists 5. lia.
Qed.
(** with [0,10) written by T1, T2 gets [10,30) in seven steps *)
Example C110_case : r_reach s0 (both careful (in_family ex_fam)) ex109b /\ (forall u, alive ex109b u = true -> idle ex109b u) /\
  (forall l g, holds ex109b l g -> ~ conflict (G T2 3 10 20 Wr) g) /\ (exists l, holds ex109b l (G T1 3 0 10 Wr)) /\
  r_res (r_exec ex109b (LCall T2 (lock_w 3 10 20) :: runs T2 7)) T2 = Some OK /\
  ~ idle (r_exec ex109b (LCall T2 (lock_w 3 10 20) :: runs T2 6)) T2.
Proof.
  assert (Q : quiet_state everyone [21] ex109b) by (apply quiet_exec; [apply quiet_init|vm_compute; reflexivity]).
  split; [|split; [|split; [|split; [|split]]]].
  - apply (reach_family everyone ex_famb); auto.
  - intros u _. apply (quiet_idle everyone [21] ex109b Q). vm_compute. reflexivity.
  - intros l g HL (_ & (x & B1 & B2) & _). destruct (proj2 Q l g HL) as [<-|[]].
    assert (E : h_st (r_h ex109b) 21 = LHeld (G T1 3 0 10 Wr)) by (vm_compute; reflexivity).
    unfold holds in HL. rewrite E in HL. clear E Q. inversion HL; subst g. clear HL. unfold byte_in, G in B1, B2. simpl in B1, B2. lia.
  - exists 21. vm_compute. reflexivity.
  - vm_compute. reflexivity.
  - intro X. assert (Y : idle_b (r_exec ex109b (LCall T2 (lock_w 3 10 20) :: runs T2 6)) T2 = false) by (vm_compute; reflexivity).
    unfold idle in X. unfold idle_b in Y. rewrite X in Y. discriminate.
Qed.

Print Assumptions C18_exclusion_equal_or_disjoint.
Print Assumptions C109_refusal_explained_partial.
Print Assumptions C109_refusal_explained_refuted.
Print Assumptions C110_free_lock_granted.
Print Assumptions C20_unlock_releases_own_hold.
Print Assumptions C21_granted_can_be_released.
Print Assumptions C22_islocked_whole_file_partial.
Print Assumptions C23_failed_lock_keeps_holds.
Print Assumptions C23_failed_lock_leaves_no_trace.
Print Assumptions C24_no_resources_keeps_holds_partial.
Print Assumptions C25_no_entry_twice.
Print Assumptions C25_nothing_lost.
Print Assumptions C25_everything_returned.
Print Assumptions C22_islocked_quiet_partial.
Print Assumptions C27_pass_releases.
Print Assumptions C27_entry_returned.
Print Assumptions C28_dead_thread_partial.
Print Assumptions C29_present_holder_keeps_lock.
Print Assumptions C29_waiting_call_stays_registered.
Print Assumptions C30_recovery_restores_partial.
Print Assumptions C65_success_grants_partial.
Print Assumptions C19_exclusion_any_ranges_refuted.
Print Assumptions C19_same_range_refuted.
Print Assumptions C22_islocked_range_refuted.
Print Assumptions C24_no_resources_no_trace_refuted.
Print Assumptions C26_mode_change_loses_nothing_refuted.
Print Assumptions C28_dead_thread_refuted.
Print Assumptions C30_recovery_progress_refuted.
Print Assumptions C30_recovery_exclusion_refuted.
Print Assumptions C31_no_fd_independent_refuted.
Print Assumptions C64_failing_calls_lose_nothing_refuted.
Print Assumptions C65_success_grants_refuted.
Print Assumptions C66_descriptor_closed_during_call_refuted.
Print Assumptions C67_pass_clears_islocked_refuted.
Print Assumptions C68_death_loses_nothing_refuted.
