(** Which entries of the pools are never lost: with deaths, failing calls and changes of the free mode. *)
From Coq Require Import ZArith List Bool Lia Permutation.
From Verif Require Import Base Range_Model RwWord_Model RwApi_Model RwApi_Spec RwApi_Proofs RwApi_Proofs2 RwApi_Proofs3.
Import ListNotations.
Open Scope Z_scope.

Section Kept.
Variables UF UO UL : list Z.
Hypothesis UF_nd : NoDup UF.
Hypothesis UO_nd : NoDup UO.
Hypothesis UL_nd : NoDup UL.
Notation SI := (SI UF UO UL).

Definition kept_o (h : heap) : Prop := forall o, In o UO -> In o (h_ofree h) \/ exists f, In f (h_flist h) /\ In o (offs h f).
Definition kept_l (h : heap) : Prop := forall l, In l UL -> In l (h_lfree h) \/ exists o, In o UO /\ In l (lks (h_o h o)).

Lemma kept_l_eq : forall h h', h_lfree h' = h_lfree h -> (forall o, lks (h_o h' o) = lks (h_o h o)) -> kept_l h -> kept_l h'.
Proof. intros h h' E1 E2 K l L. rewrite E1. destruct (K l L) as [A|(o & O & A)]; auto. right. exists o. rewrite E2. auto. Qed.
Lemma lks_set : forall h o r x, lks r = lks (h_o h o) -> lks (h_o (set_o h o r) x) = lks (h_o h x).
Proof. intros h o r x E. cbn. destruct (Z.eq_dec x o) as [->|N]; [rewrite upd_eq | rewrite upd_neq by auto]; auto. Qed.
Lemma lks_drop : forall r k l x, In x (lks r) -> x <> l -> In x (lks (o_set_list r k (del l (o_list r k)))).
Proof. intros r k l x I N. unfold lks in *. apply in_app_iff in I. apply in_app_iff. destruct k; cbn [o_set_list o_list o_rd o_wr]; rewrite in_del; tauto. Qed.
Lemma kept_l_drop : forall h o k l, kept_l h -> kept_l (drop_locker h o k l).
Proof.
  intros h o k l K x X. cbn. destruct (Z.eq_dec x l) as [->|N]; auto. destruct (K x X) as [A|(o' & O & A)]; auto. right. exists o'. split; auto.
  destruct (Z.eq_dec o' o) as [->|N']; [rewrite upd_eq; apply lks_drop; auto | rewrite upd_neq by auto; auto].
Qed.
Lemma kept_l_check : forall s priv exc dev o k l, kept_l (r_h s) -> kept_l (check_locker s priv exc dev o k l).
Proof.
  intros s priv exc dev o k l K. unfold check_locker. cbv zeta. destruct (match exc with Some (t, fd) => _ | None => false end); auto. destruct (_ && _); auto.
  assert (K2 : kept_l (drop_locker (if l_locked (h_l (r_h s) l) then set_o (r_h s) o (o_set_val (h_o (r_h s) o) (unlock_word (o_val (h_o (r_h s) o)))) else r_h s) o k l)); [|exact K2].
  apply kept_l_drop. destruct (l_locked (h_l (r_h s) l)); auto. apply (kept_l_eq (r_h s)); auto. intro x. apply lks_set. auto.
Qed.
Lemma kept_l_free : forall h f, kept_l h -> kept_l (free_offs h f).
Proof.
  intros h f K. unfold free_offs. cbv zeta. set (os := f_offs (h_f h f)). clearbody os.
  cut (kept_l (fold_left (fun h o => let h' := free_lockers h o in set_ofree h' (o :: h_ofree h')) os h)); [auto|].
  revert h K. induction os as [|o os IH]; intros h K; cbn; auto. apply IH. intros l L. destruct (K l L) as [A|(o' & O & A)]; cbn.
  - left. rewrite !in_app_iff. auto.
  - destruct (Z.eq_dec o' o) as [->|N]; [left | right; exists o'; split; auto; rewrite upd_neq by auto; auto].
    unfold lks in A. rewrite !in_app_iff, <- !in_rev. apply in_app_iff in A. tauto.
Qed.
Lemma free_empty : forall h o, HI UF UO UL h -> In o (h_ofree h) -> lks (h_o h o) = [].
Proof.
  intros h o H I. destruct (lks (h_o h o)) as [|l r] eqn:E; auto. exfalso. assert (J : In l (lks (h_o h o))) by (rewrite E; left; auto).
  assert (O : In o UO) by (apply (hi_ofree _ _ _ h H); auto). unfold lks in J. apply in_app_iff in J.
  assert (Q : exists k, In l (o_list (h_o h o) k)) by (destruct J; [exists Rd | exists Wr]; auto). destruct Q as [k Q].
  destruct (lk_at UF UO UL h o k l H O Q) as [f (A & B & _)]. destruct (hi_offs_used _ _ _ h H f o (flist_UF _ _ _ h f H A) B). auto.
Qed.

Lemma run_kept_l : forall s t race gu, SI s -> alive s t = true -> kept_l (r_h s) -> kept_l (r_h (r_run s t race gu)).
Proof.
  intros s t race gu S AL K. pose proof (si_pc _ _ _ s S t AL) as P. pose proof (si_h _ _ _ s S) as H.
  assert (PR : forall o b, kept_l (set_o (r_h s) o (o_set_prot (h_o (r_h s) o) b))) by (intros; apply (kept_l_eq (r_h s)); auto; intro; apply lks_set; auto).
  assert (VL : forall o v, kept_l (set_o (r_h s) o (o_set_val (h_o (r_h s) o) v))) by (intros; apply (kept_l_eq (r_h s)); auto; intro; apply lks_set; auto).
  unfold r_run. destruct (r_pc s t) eqn:Ep; cbv zeta; auto; cbn [pinv] in P.
  - destruct (r_guard s); [destruct (alive s z)|]; auto.
  - destruct (find_file _ _); [auto|]. destruct (h_ffree (r_h s)); auto.
  - destruct (find_off _ _ _ _) as [o|]; [apply PR|]. destruct (h_ofree (r_h s)) as [|o rest] eqn:EO; auto.
    apply (kept_l_eq (r_h s)); auto. intro x. cbn. destruct (Z.eq_dec x o) as [->|N]; [rewrite upd_eq | rewrite upd_neq by auto; auto].
    rewrite (free_empty (r_h s) o H) by (rewrite EO; left; auto). auto.
  - destruct P as (F & O & _). destruct (h_lfree (r_h s)) as [|l rest] eqn:EL; auto. assert (OU : In o UO) by (apply (hi_offs_used _ _ _ _ H f o (flist_UF _ _ _ _ f H F) O)).
    intros x X. cbn. rewrite !upd_eq. destruct (Z.eq_dec x l) as [->|N].
    + right. exists o. split; auto. rewrite upd_eq. unfold lks. apply in_app_iff. destruct (a_kind a); cbn; auto.
    + destruct (K x X) as [A|(o' & O' & A)]; [rewrite EL in A; destruct A as [A|A]; [congruence|auto]|]. right. exists o'. split; auto.
      destruct (Z.eq_dec o' o) as [->|N']; [rewrite upd_eq | rewrite !upd_neq by auto; auto]. unfold lks in *. apply in_app_iff in A. apply in_app_iff. destruct (a_kind a); cbn; tauto.
  - destruct (_ && _); [exact (VL o _)|]. destruct (a_wait a); auto; destruct gu; auto.
  - apply PR.
  - destruct ls as [|[k x] ls]; [apply PR|]. apply kept_l_check; auto.
  - destruct (find_locker _ _ _ _ _) as [l|]; auto. apply (kept_l_drop (r_h s)); auto.
  - destruct (find_off _ _ _ _) as [o|]; auto. destruct (off_locked _ _); auto.
  - destruct (find_file _ _) as [f|]; auto. destruct (file_locked _ _); auto. apply (kept_l_free (r_h s) f K).
  - destruct (find_file _ _) as [f|]; auto. destruct (find_off _ _ _ _) as [o|]; auto. destruct (match find_locker _ _ _ _ _ with Some l => _ | None => _ end) as [[k l]|]; auto. exact (VL o _).
  - apply (kept_l_drop (r_h s)); auto.
  - destruct (_ && _); auto.
  - destruct (_ && _); auto.
  - destruct (find_file _ _) as [f|]; auto.
  - unfold pass_step. destruct fs as [|f fs]; auto. destruct os as [[|o os]|]; auto.
    + destruct (file_locked _ _); auto.
    + destruct ls as [[|[k l] ls]|]; auto; [destruct (off_locked _ _); auto | apply kept_l_check; auto].
Qed.
Theorem kept_l_reach : forall fds mode allow s, r_reach (r_init UF UO UL fds mode allow) careful s -> kept_l (r_h s).
Proof.
  intros fds mode allow s R. induction R as [|s x R IH OK]; [intros l L; left; exact L|].
  assert (S : SI s) by (eapply SI_reach; eauto). destruct x as [t c|t race gu|p fd d|p m|t|p]; cbn [r_step]; auto.
  - destruct (alive s t); auto. destruct (r_pc s t); auto. unfold r_call. destruct c; try destruct (dev_of s t fd); auto.
  - destruct (alive s t) eqn:AL; auto. apply run_kept_l; auto.
Qed.

(** ** Range entries, while no process frees file entries *)
Lemma kept_o_eq : forall h h', h_ofree h' = h_ofree h -> h_flist h' = h_flist h -> (forall f, offs h' f = offs h f) -> kept_o h -> kept_o h'.
Proof. intros h h' E1 E2 E3 K o O. rewrite E1, E2. destruct (K o O) as [A|(f & F & A)]; auto. right. exists f. rewrite E3. auto. Qed.
Lemma offs_set : forall h f r x, f_offs r = offs h f -> offs (set_f h f r) x = offs h x.
Proof. intros h f r x E. unfold offs. cbn. destruct (Z.eq_dec x f) as [->|N]; [rewrite upd_eq | rewrite upd_neq by auto]; auto. Qed.
Lemma kept_o_drop : forall h f o, kept_o h -> kept_o (drop_off h f o).
Proof.
  intros h f o K x X. cbn. destruct (Z.eq_dec x o) as [->|N]; auto. destruct (K x X) as [A|(f' & F & A)]; auto. right. exists f'. split; auto. unfold offs in *. cbn.
  destruct (Z.eq_dec f' f) as [->|N']; [rewrite upd_eq; cbn [f_offs f_set_offs]; apply in_del; auto | rewrite upd_neq by auto; auto].
Qed.
Lemma kept_o_drop_file : forall h f, offs h f = [] -> kept_o h -> kept_o (drop_file h f).
Proof.
  intros h f E K o O. unfold drop_file. cbn [set_files h_ofree h_flist]. destruct (K o O) as [A|(f' & F & A)]; auto. right. exists f'. split; auto. apply in_del. split; auto. intros ->. rewrite E in A. destruct A.
Qed.
Lemma check_same_o : forall s priv exc dev o k l, let h' := check_locker s priv exc dev o k l in h_ofree h' = h_ofree (r_h s) /\ h_flist h' = h_flist (r_h s) /\ h_f h' = h_f (r_h s) /\
  forall x, x <> o -> h_o h' x = h_o (r_h s) x.
Proof.
  intros s priv exc dev o k l. cbv zeta. unfold check_locker. cbv zeta. destruct (match exc with Some (t, fd) => _ | None => false end); auto. destruct (_ && _); auto.
  destruct (l_locked _); cbn; repeat split; auto; intros x N; rewrite !upd_neq by auto; auto.
Qed.

(** the ranges of the file under the pass are still to be visited or in use *)
Definition pp_ok (h : heap) (p : rpc) : Prop :=
  match p with PP _ (f :: _) (Some os) _ => forall o, In o (offs h f) -> In o os \/ off_locked h o = true | _ => True end.
Definition no_free_fd (s : rstate) : Prop := forall p, r_mode s p <> FREE_FD.
(** the call does not lead to the place where a failed call frees the file entry *)
Fixpoint no_f3 (p : rpc) : bool := match p with F3 _ _ => false | RWait p | RDrop p => no_f3 p | _ => true end.
Record OI (s : rstate) : Prop := mkOI {
  oi_kept : kept_o (r_h s);
  oi_pp : forall t, alive s t = true -> pp_ok (r_h s) (r_pc s t);
  oi_f3 : forall t, no_f3 (r_pc s t) = true;
  oi_mode : no_free_fd s }.

Lemma pp_noncrit : forall h p, crit p = false -> pp_ok h p.
Proof. intros h p C. destruct p; cbn in *; auto. discriminate C. Qed.
Lemma run_f3 : forall s t race gu, my_free_fd s t = false -> no_f3 (r_pc s t) = true -> no_f3 (r_pc (r_run s t race gu) t) = true.
Proof.
  intros s t race gu FF N. unfold r_run. destruct (r_pc s t) eqn:Ep; cbn in N; try discriminate N; cbv zeta; unfold after_f1, after_f2, pass_step, ret, goto, set_h, set_guard; rewrite ?FF;
    repeat match goal with |- context [match ?x with _ => _ end] => destruct x end; cbn [r_pc]; rewrite ?upd_eq, ?Ep; auto.
Qed.
Lemma locked_val : forall h o v x, off_locked (set_o h o (o_set_val (h_o h o) v)) x = off_locked h x.
Proof. intros h o v x. unfold off_locked. cbn. destruct (Z.eq_dec x o) as [->|N]; [rewrite upd_eq | rewrite upd_neq by auto]; auto. Qed.

Lemma run_kept_o : forall s t race gu, SI s -> OI s -> alive s t = true -> kept_o (r_h (r_run s t race gu)).
Proof.
  intros s t race gu S O AL. pose proof (si_pc _ _ _ s S t AL) as P. pose proof (si_h _ _ _ s S) as H. pose proof (oi_kept s O) as K.
  assert (FF : my_free_fd s t = false) by (unfold my_free_fd; pose proof (oi_mode s O (proc_of_thread t)); destruct (r_mode s (proc_of_thread t)); auto; congruence).
  pose proof (oi_pp s O t AL) as PP0. pose proof (oi_f3 s O t) as N3.
  unfold r_run. destruct (r_pc s t) eqn:Ep; cbv zeta; auto; cbn [pinv] in P.
  - destruct (r_guard s); [destruct (alive s z)|]; auto.
  - destruct (find_file _ _) as [f|]; [apply (kept_o_eq (r_h s)); auto; intro; apply offs_set; auto|]. destruct (h_ffree (r_h s)) as [|f ff] eqn:EF; auto.
    intros o OU. cbn. destruct (K o OU) as [A|(f' & F & A)]; auto. right. exists f'. split; auto. unfold offs in *. cbn.
    rewrite upd_neq; auto. intros ->. apply (flist_not_free UF UO UL UF_nd (r_h s) f H F). rewrite EF. left. auto.
  - destruct P as [F _]. destruct (find_off _ _ _ _) as [o|]; [apply (kept_o_eq (r_h s)); auto; intro; unfold offs; cbn; destruct (Z.eq_dec f0 f) as [->|N]; [rewrite upd_eq | rewrite upd_neq by auto]; auto|].
    destruct (h_ofree (r_h s)) as [|o rest] eqn:EO; auto. intros x X. cbn. destruct (Z.eq_dec x o) as [->|N].
    + right. exists f. split; auto. unfold offs. cbn. rewrite !upd_eq. cbn. auto.
    + destruct (K x X) as [A|(f' & F' & A)]; [rewrite EO in A; destruct A as [A|A]; [congruence|auto]|]. right. exists f'. split; auto. unfold offs in *. cbn.
      destruct (Z.eq_dec f' f) as [->|N']; [rewrite !upd_eq; cbn; auto | rewrite !upd_neq by auto; auto].
  - destruct (h_lfree (r_h s)); auto.
  - destruct (_ && _); auto. destruct (a_wait a); auto; destruct gu; auto.
  - destruct ls as [|[k x] ls]; auto. destruct (check_same_o s gu (Some (t, a_fd a)) (a_dev a) o k x) as (Q1 & Q2 & Q3 & _).
    apply (kept_o_eq (r_h s)); auto. intro. unfold offs. cbn [goto set_h r_h]. rewrite Q3. auto.
  - destruct (find_locker _ _ _ _ _); auto.
  - destruct (find_off _ _ _ _) as [o|]; auto. destruct (off_locked _ _); auto. apply (kept_o_drop (r_h s)); auto.
  - discriminate N3.
  - destruct (find_file _ _) as [f|]; auto. destruct (find_off _ _ _ _) as [o|]; auto. destruct (match find_locker _ _ _ _ _ with Some l => _ | None => _ end) as [[k l]|]; auto.
  - destruct (_ && _); auto. apply (kept_o_drop (r_h s)); auto.
  - rewrite FF. auto.
  - destruct (find_file _ _) as [f|]; auto.
  - unfold pass_step. destruct fs as [|f fs]; auto. destruct os as [[|o os]|]; auto.
    + destruct (file_locked _ _) eqn:FL; auto. apply (kept_o_drop_file (r_h s)); auto. cbn in PP0. apply file_unlocked in FL as [_ FL].
      destruct (offs (r_h s) f) as [|o r] eqn:E; auto. destruct (PP0 o (or_introl eq_refl)) as [[]|Q]. rewrite FL in Q; [discriminate Q|]. left. auto.
    + destruct ls as [[|[k l] ls]|]; auto.
      * destruct (off_locked _ _); auto. apply (kept_o_drop (r_h s)); auto.
      * destruct (check_same_o s priv None (f_dev (h_f (r_h s) f)) o k l) as (Q1 & Q2 & Q3 & _).
        apply (kept_o_eq (r_h s)); auto. intro. unfold offs. cbn [goto set_h r_h]. rewrite Q3. auto.
Qed.
(** the thread that acts *)
Lemma run_pp : forall s t race gu, SI s -> alive s t = true -> pp_ok (r_h s) (r_pc s t) -> pp_ok (r_h (r_run s t race gu)) (r_pc (r_run s t race gu) t).
Proof.
  intros s t race gu S AL PP0. pose proof (si_pc _ _ _ s S t AL) as P.
  destruct (r_pc s t) eqn:Ep; try (unfold r_run; rewrite Ep; cbv zeta; unfold after_f1, after_f2, ret, goto, set_h, set_guard;
    repeat match goal with |- context [match ?x with _ => _ end] => destruct x end; cbn [r_pc r_h]; rewrite ?upd_eq, ?Ep; exact I).
  - unfold r_run. rewrite Ep. cbn [pinv] in P. destruct P as [_ W].
    assert (Q : pp_ok (r_h s) r) by (destruct r; try destruct W; exact I).
    destruct (r_guard s) as [u|]; [destruct (alive s u)|]; cbn; rewrite ?Ep, ?upd_eq; auto.
  - unfold r_run. rewrite Ep. cbn [pinv] in P. destruct P as [_ W]. cbn. rewrite upd_eq. destruct r; try destruct W; exact I.
  - unfold r_run. rewrite Ep. cbn. rewrite upd_eq. cbn. destruct (h_flist (r_h s)); exact I.
  - unfold r_run. rewrite Ep. unfold pass_step. cbn [pinv] in P. destruct P as (N1 & I1 & P). destruct fs as [|f fs]; [cbn; rewrite upd_eq; exact I|]. destruct os as [[|o os]|].
    + cbn [r_pc goto]. rewrite upd_eq. cbn. destruct fs; exact I.
    + destruct P as [N2 I2]. inversion N2; subst. assert (IO : In o (offs (r_h s) f)) by (apply I2; left; auto). cbn [pp_ok] in PP0. destruct ls as [[|[k l] ls]|].
      * cbn [r_pc goto]. rewrite upd_eq. cbn [pp_ok]. destruct (off_locked (r_h s) o) eqn:OL.
        -- cbn [r_h goto]. intros x X. destruct (PP0 x X) as [[<-|J]|J]; auto.
        -- intros x X. cbn [r_h goto set_h] in *. unfold drop_off, offs in X. cbn in X. rewrite upd_eq in X. cbn [f_offs f_set_offs] in X. apply in_del in X as [X NX].
           destruct (PP0 x X) as [[E|J]|J]; auto; congruence.
      * cbn [r_pc goto]. rewrite upd_eq. cbn [pp_ok r_h goto set_h]. destruct (check_same_o s priv None (f_dev (h_f (r_h s) f)) o k l) as (Q1 & Q2 & Q3 & Q4).
        intros x X. unfold offs in X. rewrite Q3 in X. destruct (Z.eq_dec x o) as [->|NX]; [left; left; auto|]. unfold off_locked. rewrite (Q4 x NX). exact (PP0 x X).
      * cbn. rewrite upd_eq. cbn. exact PP0.
    + cbn. rewrite upd_eq. cbn. auto.
Qed.
(** steps outside the guard leave files, ranges and their lists alone *)
Lemma run_outside : forall s t race gu, crit (r_pc s t) = false -> let h' := r_h (r_run s t race gu) in
  (forall f, offs h' f = offs (r_h s) f) /\ (forall o, off_locked h' o = off_locked (r_h s) o).
Proof.
  intros s t race gu C. cbv zeta. unfold r_run. destruct (r_pc s t) eqn:Ep; try discriminate C; cbv zeta; auto.
  - destruct (r_guard s) as [u|]; [destruct (alive s u)|]; auto.
  - destruct (_ && _); [|destruct (a_wait a); auto; destruct gu; auto]. split; auto. intro x. apply (locked_val (r_h s)).
Qed.
Lemma run_OI : forall s t race gu, SI s -> OI s -> alive s t = true -> OI (r_run s t race gu).
Proof.
  intros s t race gu S O AL. destruct (run_env s t race gu) as (E1 & E2 & E3 & E4 & E5).
  assert (FF : my_free_fd s t = false) by (unfold my_free_fd; pose proof (oi_mode s O (proc_of_thread t)); destruct (r_mode s (proc_of_thread t)); auto; congruence).
  assert (EA : forall u, alive (r_run s t race gu) u = alive s u) by (intro u; unfold alive; congruence).
  constructor.
  - apply run_kept_o; auto.
  - intros u AU. rewrite EA in AU. destruct (Z.eq_dec u t) as [->|N]; [apply run_pp; auto; apply (oi_pp s O); auto|].
    destruct (run_other s t race gu u N) as [-> _]. destruct (crit (r_pc s u)) eqn:CU; [|apply pp_noncrit; auto].
    destruct (crit (r_pc s t)) eqn:CT.
    + pose proof (si_guard _ _ _ s S t AL CT). pose proof (si_guard _ _ _ s S u AU CU). congruence.
    + destruct (run_outside s t race gu CT) as [Q1 Q2]. pose proof (oi_pp s O u AU) as PU. destruct (r_pc s u); cbn in *; auto. destruct fs; auto. destruct os; auto.
      intros o. rewrite Q1, Q2. apply PU.
  - intro u. destruct (Z.eq_dec u t) as [->|N]; [apply run_f3; auto; apply (oi_f3 s O)|]. destruct (run_other s t race gu u N) as [-> _]. apply (oi_f3 s O).
  - intro p. rewrite E4. apply (oi_mode s O).
Qed.

(** no process frees file entries *)
Definition no_free_fd_set (s : rstate) (x : rlabel) : Prop := match x with LSetMode _ m => m <> FREE_FD | _ => True end.
Theorem OI_reach : forall fds mode allow s, (forall p, mode p <> FREE_FD) -> r_reach (r_init UF UO UL fds mode allow) (both careful no_free_fd_set) s -> OI s.
Proof.
  intros fds mode allow s M R. induction R as [|s x R IH [CF NS]].
  - constructor; cbn; auto. intros o O. left. exact O.
  - assert (S : SI s) by (apply (SI_reach UF UO UL UF_nd UO_nd UL_nd fds mode allow (both careful no_free_fd_set) s); auto; intros ? ? [A _]; exact A).
    destruct x as [t c|t race gu|p fd d|p m|t|p]; cbn [r_step].
    + destruct (alive s t) eqn:AL; auto. destruct (r_pc s t) eqn:Ep; auto. destruct IH as [K P F D].
      assert (Q : r_h (r_call s t c) = r_h s /\ r_mode (r_call s t c) = r_mode s /\ (forall u, alive (r_call s t c) u = alive s u) /\ (forall u, u <> t -> r_pc (r_call s t c) u = r_pc s u) /\
                  no_f3 (r_pc (r_call s t c) t) = true /\ crit (r_pc (r_call s t c) t) = false).
      { unfold r_call. destruct c; try destruct (dev_of s t fd); cbn; rewrite ?upd_eq; repeat split; auto; intros u N; apply upd_neq; auto. }
      destruct Q as (Q1 & Q2 & Q3 & Q4 & Q5 & Q6). constructor; rewrite ?Q1; auto.
      * intros u AU. rewrite Q3 in AU. destruct (Z.eq_dec u t) as [->|N]; [apply pp_noncrit; auto | rewrite Q4 by auto; auto].
      * intro u. destruct (Z.eq_dec u t) as [->|N]; [auto | rewrite Q4 by auto; auto].
      * intro p. rewrite Q2. apply D.
    + destruct (alive s t) eqn:AL; auto. apply run_OI; auto.
    + destruct IH as [K P F D]. constructor; auto.
    + destruct IH as [K P F D]. constructor; auto. intro q. cbn. destruct (Z.eq_dec q p) as [->|N]; [rewrite upd_eq; auto | rewrite upd_neq by auto; auto].
    + destruct IH as [K P F D]. constructor; auto. intros u AU. apply P. apply (step_alive s (LDieThread t)). exact AU.
    + destruct IH as [K P F D]. constructor; auto. intros u AU. apply P. apply (step_alive s (LDieProc p)). exact AU.
Qed.
End Kept.
