(** More on whole calls: unlocking what was granted, islocked, failed attempts, recovery after crashes. *)
From Coq Require Import ZArith List Bool Lia Permutation.
From Verif Require Import Base Range_Model Range_Props RwWord_Model RwApi_Model RwApi_Spec RwApi_Proofs RwApi_Proofs2 RwApi_Proofs3 RwApi_Proofs4 RwApi_Proofs5.
Import ListNotations.
Open Scope Z_scope.

Section More.
Variables UF UO UL : list Z.
Hypothesis UF_nd : NoDup UF.
Hypothesis UO_nd : NoDup UO.
Hypothesis UL_nd : NoDup UL.
Notation HI := (HI UF UO UL).
Notation SI := (SI UF UO UL).

Lemma find_some_in : forall (A : Type) (p : A -> bool) l x, In x l -> p x = true -> exists y, find p l = Some y.
Proof. intros A p l x I P. destruct (find p l) eqn:E; eauto. eapply find_none in E; eauto. congruence. Qed.

Lemma path_weaken : forall (ok1 ok2 : rstate -> rlabel -> Prop), (forall s x, ok1 s x -> ok2 s x) ->
  forall s ls s', r_path ok1 s ls s' -> r_path ok2 s ls s'.
Proof. intros ok1 ok2 W s ls s' P. induction P; constructor; auto. Qed.

Lemma run_step : forall s t race gu, alive s t = true -> r_step s (LRun t race gu) = r_run s t race gu.
Proof. intros. simpl. rewrite H. auto. Qed.

(** ** Releasing what was granted *)
Section Granted.
Variable fam : Z -> Z -> Z -> Prop.
Hypothesis EOD : equal_or_disjoint fam.
Variable ok : rstate -> rlabel -> Prop.
Hypothesis OKC : forall s x, ok s x -> careful s x /\ in_family fam s x.
Notation DI := (DI fam).

Definition g_args (g : grant) (a : rargs) : Prop :=
  a_fd a = gr_fd g /\ a_dev a = gr_dev g /\ a_off a = gr_off g /\ a_len a = gr_len g.

(** the entry found by an unlock with the arguments of a grant is that of the grant *)
Lemma granted_lookup : forall s l g a, SI s -> DI s -> holds s l g -> g_args g a ->
  exists f o, find_file (r_h s) (a_dev a) = Some f /\ find_off (r_h s) f (a_off a) (a_len a) = Some o /\ at_ (r_h s) f o (gr_kind g) l.
Proof.
  intros s l g a H D HL (E1 & E2 & E3 & E4). assert (Hh := si_h _ _ _ s H).
  destruct (held_at UF UO UL _ _ _ Hh HL) as (f & o & A & L & DV & RM).
  destruct (held_equal_range UF UO UL fam EOD s l g f o H D HL A) as (_ & Q1 & Q2).
  assert (FF : exists f', find_file (r_h s) (a_dev a) = Some f').
  { apply (find_some_in _ _ _ f); [apply A|]. apply Z.eqb_eq. congruence. }
  destruct FF as [f' FF]. destruct (find_file_some _ _ _ FF) as [IF DF].
  assert (f' = f) by (apply (hi_dev _ _ _ _ Hh); [auto | apply A | congruence]). subst f'.
  assert (FO : exists o', find_off (r_h s) f (a_off a) (a_len a) = Some o').
  { apply (find_some_in _ _ _ o); [apply A|]. rewrite E3, E4. auto. }
  destruct FO as [o' FO]. destruct (find_off_some _ _ _ _ _ FO) as [IO RO].
  assert (o' = o).
  { apply (fam_match fam EOD (gr_dev g)) in RO.
    - destruct RO. apply (di_sep fam s D f); auto; try apply A; congruence.
    - rewrite <- DV. apply (di_off fam s D); auto. 
    - rewrite E3, E4. eapply (di_g fam s D); eauto. }
  subst o'. exists f, o. auto.
Qed.

Lemma unlock_found : forall s l g a race gu, SI s -> DI s -> holds s l g -> alive s (gr_t g) = true ->
  g_args g a -> r_pc s (gr_t g) = B2 a -> unl_mid (r_run s (gr_t g) race gu) (gr_t g).
Proof.
  intros s l g a race gu H D HL AL GA P. assert (Hh := si_h _ _ _ s H).
  destruct (granted_lookup s l g a H D HL GA) as (f & o & FF & FO & A).
  unfold unl_mid, r_run. rewrite P, FF, FO.
  destruct (held_at UF UO UL _ _ _ Hh HL) as (f' & o' & A' & L & DV & RM).
  assert (M : (l_tid (h_l (r_h s) l) =? gr_t g) && (l_fd (h_l (r_h s) l) =? a_fd a) && Bool.eqb (l_locked (h_l (r_h s) l)) true = true).
  { rewrite L. simpl. destruct GA as (-> & _). rewrite !Z.eqb_refl. auto. }
  destruct (find_locker (r_h s) (o_wr (h_o (r_h s) o)) (gr_t g) (a_fd a) true) as [x|] eqn:EW; [simpl; rewrite upd_eq; exact I|].
  destruct (find_locker (r_h s) (o_rd (h_o (r_h s) o)) (gr_t g) (a_fd a) true) as [x|] eqn:ER; [simpl; rewrite upd_eq; exact I|].
  exfalso. destruct A as (_ & _ & A). destruct (gr_kind g); simpl in A; unfold find_locker in *;
    [eapply find_none in ER | eapply find_none in EW]; eauto; simpl in *; congruence.
Qed.

Lemma granted_unlock_path : forall ls s s' l g a,
  r_path (both ok (keeps_fd (gr_t g) (gr_fd g))) s ls s' -> SI s -> DI s -> holds s l g -> present s g ->
  alive s' (gr_t g) = true -> one_call (gr_t g) ls -> idle s' (gr_t g) ->
  g_args g a -> unl_pre a s (gr_t g) ->
  exists l' g', same_args g' g /\ own_effect (gr_t g) s ls [(l', g')] /\ r_res s' (gr_t g) = Some OK.
Proof.
  intros ls s s' l g a P. induction P as [s|s x ls s' [O KF] P IH]; intros H D HL PR AL OC ID GA M.
  - exfalso. unfold idle in ID. destruct M; congruence.
  - set (t := gr_t g) in *.
    assert (A : alive s t = true) by (eapply step_alive, path_alive; eauto).
    assert (A1 : alive (r_step s x) t = true) by (eapply path_alive; eauto).
    assert (OC' : one_call t ls) by (intros c I; apply (OC c); right; auto).
    destruct (OKC _ _ O) as [CF FM].
    assert (H' : SI (r_step s x)) by (apply SI_step; auto).
    assert (D' : DI (r_step s x)) by (apply (DI_step UF UO UL UF_nd fam); auto).
    assert (PR' : present (r_step s x) g).
    { split; [exact A1|]. destruct PR as [_ PR]. fold t in PR. fold t.
      destruct x as [u c|u race gu|p fd d|p m|u|p]; try exact PR.
      - unfold r_step. destruct (alive s u); auto. destruct (r_pc s u); auto. unfold file_of in *.
        destruct (call_env s u c) as (_ & _ & E & _). rewrite E. auto.
      - unfold r_step. destruct (alive s u); auto. unfold file_of in *. destruct (run_env s u race gu) as (_ & _ & E & _). rewrite E. auto.
      - unfold file_of in *. simpl. destruct (gr_fd g <? 0); auto.
        change (t / two32) with (proc_of_thread t). destruct ((proc_of_thread t =? p) && (gr_fd g =? fd)) eqn:EQ; auto. exfalso. simpl in KF.
        apply andb_true_iff in EQ as [Q1 Q2]. apply Z.eqb_eq in Q1, Q2. apply KF; auto. }
    assert (OTH : actor x <> Some t -> exists l' g', same_args g' g /\ own_effect t s (x :: ls) [(l', g')] /\ r_res s' t = Some OK).
    { intro N. destruct (step_other s x t N) as [E1 _]. destruct IH as (l' & g' & S' & E & R); auto.
      - apply (held_kept UF UO UL s x l g); auto.
      - unfold unl_pre in *. rewrite E1; auto.
      - exists l', g'. repeat split; try apply S'; auto. apply oe_other; auto. }
    destruct (actor x) as [u|] eqn:EA; [destruct (Z.eq_dec u t) as [->|N]|]; try (apply OTH; congruence).
    destruct x as [t0 c|t0 race gu|p fd d|p m|t0|p]; simpl in EA; inversion EA; subst t0.
    + exfalso. apply (OC c). left; auto.
    + rewrite run_step in * by auto.
      assert (P2 : r_path ok (r_run s t race gu) ls s').
      { eapply path_weaken; [|exact P]. intros ? ? [? _]; auto. }
      destruct (unl_pre_own UF UO UL s t a race gu H A M) as [[M' HH]|[(F' & E2 & HH)|(f & o & l' & g' & M' & E2 & HL' & T1 & T2 & T3 & FF & FO & AT & HH)]].
      * destruct IH as (l' & g' & S' & E & R); auto. { apply HH; auto. }
        exists l', g'. repeat split; try apply S'; auto. apply oe_same; auto; rewrite run_step; auto.
      * exfalso. pose proof (unlock_found s l g a race gu H D HL A GA E2) as UM. unfold unl_mid in UM. fold t in UM.
        destruct F' as [F'|[F'|[F' _]]]; unfold idle in *; rewrite F' in UM; auto.
      * destruct (unl_mid_path UF UO UL UF_nd ok (fun s x O => proj1 (OKC s x O)) ls _ s' t P2 H' AL OC' ID M') as [E R].
        exists l', g'.
        destruct (granted_lookup s l g a H D HL GA) as (f1 & o1 & FF1 & FO1 & AT1).
        assert (f1 = f) by congruence. subst f1. assert (o1 = o) by congruence. subst o1.
        destruct (held_equal_range UF UO UL fam EOD s l g f o H D HL AT1) as (X1 & X2 & X3).
        destruct (held_equal_range UF UO UL fam EOD s l' g' f o H D HL' AT) as (Y1 & Y2 & Y3).
        destruct GA as (G1 & G2 & G3 & G4).
        repeat split; auto; try congruence. apply oe_released; auto; rewrite run_step; auto.
Qed.
End Granted.

(** ** islocked *)
Section IsLocked.
Variable ok : rstate -> rlabel -> Prop.
Hypothesis OKC : forall s x, ok s x -> careful s x.

Definition isl_pre (a : rargs) (s : rstate) (t : Z) : Prop := r_pc s t = RWait (Q2 a) \/ r_pc s t = Q2 a.

Lemma held_file_locked : forall s l g, SI s -> holds s l g ->
  exists f, find_file (r_h s) (gr_dev g) = Some f /\ file_locked (r_h s) f = true.
Proof.
  intros s l g H HL. assert (Hh := si_h _ _ _ s H).
  destruct (held_at UF UO UL _ _ _ Hh HL) as (f & o & A & L & DV & RM).
  assert (FF : exists f', find_file (r_h s) (gr_dev g) = Some f').
  { apply (find_some_in _ _ _ f); [apply A|]. apply Z.eqb_eq. congruence. }
  destruct FF as [f' FF]. destruct (find_file_some _ _ _ FF) as [IF DF].
  assert (f' = f) by (apply (hi_dev _ _ _ _ Hh); [auto | apply A | congruence]). subst f'.
  exists f. split; auto. destruct (file_locked (r_h s) f) eqn:E; auto. exfalso.
  destruct A as (A1 & A2 & A3). rewrite (unlocked_lists _ _ E o _ A2) in A3. destruct A3.
Qed.

Lemma islocked_path : forall ls s s' t a l g,
  r_path (both ok (keeps g)) s ls s' -> SI s -> holds s l g -> a_dev a = gr_dev g ->
  alive s' t = true -> one_call t ls -> idle s' t ->
  isl_pre a s t -> r_res s' t = Some 1.
Proof.
  intros ls s s' t a l g P. induction P as [s|s x ls s' [O KP] P IH]; intros H HL DV AL OC ID M.
  - exfalso. unfold idle in ID. destruct M; congruence.
  - assert (A : alive s t = true) by (eapply step_alive, path_alive; eauto).
    assert (OC' : one_call t ls) by (intros c I; apply (OC c); right; auto).
    assert (H' : SI (r_step s x)) by (apply SI_step; auto).
    assert (HL' : holds (r_step s x) l g).
    { destruct KP as (K1 & K2 & K3). apply (held_kept UF UO UL s x l g); auto. }
    assert (OTH : actor x <> Some t -> r_res s' t = Some 1).
    { intro N. destruct (step_other s x t N) as [E1 _]. apply IH; auto. unfold isl_pre in *. rewrite E1; auto. }
    destruct (actor x) as [u|] eqn:EA; [destruct (Z.eq_dec u t) as [->|N]|]; try (apply OTH; congruence).
    destruct x as [t0 c|t0 race gu|p fd d|p m|t0|p]; simpl in EA; inversion EA; subst t0.
    + exfalso. apply (OC c). left; auto.
    + rewrite run_step in * by auto.
      assert (P2 : r_path ok (r_run s t race gu) ls s').
      { eapply path_weaken; [|exact P]. intros ? ? [? _]; auto. }
      destruct M as [M|M].
      * apply IH; auto. unfold isl_pre, r_run. rewrite M. destruct (r_guard s) as [u|]; [destruct (alive s u)|]; simpl; rewrite ?upd_eq; auto.
      * destruct (held_file_locked s l g H HL) as (f & FF & FL).
        apply (fin_path ok 1 ls _ s' t P2 AL OC' ID). unfold fin, r_run. rewrite M, DV, FF, FL. simpl. rewrite upd_eq. auto.
Qed.
End IsLocked.

(** ** Calls that run alone *)
Lemma only_careful : forall t s x, only t s x -> careful s x.
Proof. intros t s x [gu ->]. exact I. Qed.

Lemma only_env : forall t s ls s', r_path (only t) s ls s' ->
  r_talive s' = r_talive s /\ r_palive s' = r_palive s /\ r_fd s' = r_fd s /\ (forall u, u <> t -> r_pc s' u = r_pc s u).
Proof.
  intros t s ls s' P. induction P as [|s x ls s' [gu ->] P (E1 & E2 & E3 & E4)]; auto.
  rewrite E1, E2, E3. unfold r_step. destruct (alive s t) eqn:A.
  - destruct (run_env s t false gu) as (Q1 & Q2 & Q3 & _). rewrite Q1, Q2, Q3. repeat split; auto.
    intros u N. rewrite E4 by auto. unfold r_step. rewrite A. apply (run_other s t false gu u N).
  - repeat split; auto. intros u N. rewrite E4 by auto. unfold r_step. rewrite A. auto.
Qed.

Lemma only_one_call : forall t s ls s', r_path (only t) s ls s' -> one_call t ls.
Proof. intros t s ls s' P c. induction P as [|s x ls s' [gu ->] P IH]; intros I; [destruct I|]. destruct I as [I|I]; [discriminate | auto]. Qed.

Lemma only_alive : forall t s ls s' u, r_path (only t) s ls s' -> alive s' u = alive s u.
Proof. intros t s ls s' u P. destruct (only_env t s ls s' P) as (E1 & E2 & _). unfold alive. rewrite E1, E2. auto. Qed.

(** the error a failing lock call will return *)
Fixpoint pc_err (p : rpc) : option Z :=
  match p with
  | RWait q => pc_err q | RDrop q => pc_err q
  | F1 _ _ _ e | F2 _ _ e | F3 _ e | RRet e => Some e
  | _ => None
  end.

Lemma run_err : forall s t race gu e, pc_err (r_pc s t) = Some e ->
  pc_err (r_pc (r_run s t race gu) t) = Some e \/ fin e (r_run s t race gu) t.
Proof.
  intros s t race gu e E. unfold r_run, fin, idle.
  destruct (r_pc s t) as [ |p|p|e0|a|a f|a f o|a f o l|a f o l|a f o l|a f o l ls|a f o e0|a f e0|a e0|a|a f o k l|a f o k l|a f o|a f|a|priv|priv fs os ls] eqn:Ep;
    simpl in E; try discriminate.
  - destruct (r_guard s) as [u|]; [destruct (alive s u)|]; simpl; rewrite ?upd_eq, ?Ep; auto.
  - simpl. rewrite upd_eq. auto.
  - inversion E; subst. simpl. rewrite !upd_eq. auto.
  - inversion E; subst. unfold after_f1. left.
    destruct (find_locker _ _ _ _ _); destruct (my_free_off s t), (my_free_fd s t); simpl; rewrite upd_eq; auto.
  - inversion E; subst. unfold after_f2. left.
    destruct (find_off _ _ _ _); [destruct (off_locked _ _)|]; destruct (my_free_fd s t); simpl; rewrite upd_eq; auto.
  - inversion E; subst. left. destruct (find_file _ _); [destruct (file_locked _ _)|]; simpl; rewrite upd_eq; auto.
Qed.

Lemma err_path : forall ls s s' t e, r_path (only t) s ls s' -> alive s' t = true -> idle s' t ->
  pc_err (r_pc s t) = Some e -> r_res s' t = Some e.
Proof.
  intros ls s s' t e P. induction P as [s|s x ls s' O P IH]; intros AL ID E.
  - unfold idle in ID. rewrite ID in E. discriminate.
  - pose proof O as [gu ->]. assert (A : alive s t = true) by (eapply step_alive, path_alive; eauto).
    rewrite run_step in * by auto.
    destruct (run_err s t false gu e E) as [E'|F]; auto.
    apply (fin_path (only t) e ls _ s' t P AL (only_one_call _ _ _ _ P) ID F).
Qed.

Lemma sr_refl : forall h, same_resources h h.
Proof. intro h. unfold same_resources. repeat split; auto. Qed.
Lemma sr_trans : forall h1 h2 h3, same_resources h1 h2 -> same_resources h2 h3 -> same_resources h1 h3.
Proof.
  intros h1 h2 h3 (A1 & A2 & A3 & A4 & A5 & A6 & A7) (B1 & B2 & B3 & B4 & B5 & B6 & B7). unfold same_resources.
  split; [congruence|]. split; [congruence|]. split; [congruence|]. split; [congruence|]. split; [|split].
  - intro f. destruct (A5 f), (B5 f). split; congruence.
  - intro o. destruct (A6 o) as (?&?&?&?&?), (B6 o) as (?&?&?&?&?). repeat split; congruence.
  - intros l N. destruct (A7 l N). destruct (B7 l). { rewrite A4. auto. } split; congruence.
Qed.
Lemma sr_fprot : forall h f b, same_resources h (set_f h f (f_set_prot (h_f h f) b)).
Proof.
  intros h f b. unfold same_resources. simpl. repeat split; auto; destruct (Z.eq_dec f0 f) as [->|N];
    [rewrite upd_eq | rewrite upd_neq by auto | rewrite upd_eq | rewrite upd_neq by auto]; auto.
Qed.
Lemma sr_oprot : forall h o b, same_resources h (set_o h o (o_set_prot (h_o h o) b)).
Proof.
  intros h o b. unfold same_resources. simpl. repeat split; auto; (destruct (Z.eq_dec o0 o) as [->|N];
    [rewrite upd_eq | rewrite upd_neq by auto]; auto).
Qed.
Lemma sr_find_file : forall h h' d, same_resources h h' -> find_file h' d = find_file h d.
Proof.
  intros h h' d (A1 & _ & _ & _ & A5 & _). unfold find_file. rewrite A1. clear A1. induction (h_flist h); simpl; auto.
  destruct (A5 a) as [-> _]. rewrite IHl. auto.
Qed.
Lemma sr_find_off : forall h h' f off len, same_resources h h' -> find_off h' f off len = find_off h f off len.
Proof.
  intros h h' f off len (A1 & _ & _ & _ & A5 & A6 & _). unfold find_off. destruct (A5 f) as [_ ->]. clear A5. induction (f_offs (h_f h f)); simpl; auto.
  destruct (A6 a) as (-> & -> & _). rewrite IHl. auto.
Qed.

(** the heap after registering locker [l] (step A4 of the model) *)
Definition registered (h : heap) (t : Z) (a : rargs) (o l : Z) (rest : list Z) : heap :=
  let h1 := set_st (set_lfree (set_l h l (mkL t (a_fd a) false)) rest) l LWait in
  let h2 := set_o h1 o (o_set_list (h_o h1 o) (a_kind a) (l :: o_list (h_o h1 o) (a_kind a))) in
  set_o h2 o (o_set_prot (h_o h2 o) false).

Definition has_lockers (h : heap) (o : Z) : Prop := o_rd (h_o h o) <> [] \/ o_wr (h_o h o) <> [].

Lemma has_lockers_locked : forall h o, has_lockers h o -> off_locked h o = true.
Proof.
  intros h o [N|N]; unfold off_locked; [destruct (o_rd (h_o h o)) | destruct (o_wr (h_o h o))]; try congruence; simpl;
    rewrite ?orb_true_r; auto.
Qed.
Lemma has_lockers_file : forall h f o, In o (f_offs (h_f h f)) -> has_lockers h o -> file_locked h f = true.
Proof.
  intros h f o I L. unfold file_locked. apply orb_true_iff. right. apply existsb_exists. exists o. split; auto. apply has_lockers_locked; auto.
Qed.

Lemma unregister : forall h t a o l rest, h_lfree h = l :: rest -> ~ In l (o_list (h_o h o) (a_kind a)) ->
  let h' := registered h t a o l rest in
  find_locker h' (o_list (h_o h' o) (a_kind a)) t (a_fd a) false = Some l /\
  same_resources h (set_st (drop_locker h' o (a_kind a) l) l LDone).
Proof.
  intros h t a o l rest EF NI h'.
  assert (EO : h_o h' o = o_set_prot (o_set_list (h_o h o) (a_kind a) (l :: o_list (h_o h o) (a_kind a))) false).
  { unfold h', registered. simpl. rewrite !upd_eq. reflexivity. }
  assert (EL : o_list (h_o h' o) (a_kind a) = l :: o_list (h_o h o) (a_kind a)).
  { rewrite EO. destruct (a_kind a); reflexivity. }
  split.
  - rewrite EL. unfold find_locker. simpl. unfold h', registered. simpl. rewrite !upd_eq. simpl. rewrite !Z.eqb_refl. reflexivity.
  - assert (DL : del l (l :: o_list (h_o h o) (a_kind a)) = o_list (h_o h o) (a_kind a)).
    { unfold del. simpl. rewrite Z.eqb_refl. simpl. apply (del_notin l); auto. }
    unfold same_resources. unfold drop_locker. rewrite EL, DL, EO.
    unfold h', registered. simpl. repeat split; auto.
    1-5: destruct (Z.eq_dec o0 o) as [->|N]; [rewrite !upd_eq; destruct (a_kind a); reflexivity | rewrite !upd_neq by auto; reflexivity].
    + rewrite upd_neq; auto. intros ->. apply H. rewrite EF. left; auto.
    + rewrite !upd_neq; auto; intros ->; apply H; rewrite EF; left; auto.
Qed.

Section Alone.
Variable t : Z.
Variable a : rargs.
Variable h0 : heap.
Hypothesis NB : a_wait a <> WBlock.

Definition found (h : heap) (f o : Z) : Prop :=
  find_file h (a_dev a) = Some f /\ find_off h f (a_off a) (a_len a) = Some o.

(** phases of a try or timed lock call that runs alone *)
Fixpoint quiet_pc (h : heap) (p : rpc) : Prop :=
  match p with
  | A2 b => b = a /\ same_resources h0 h
  | A3 b f => b = a /\ ((same_resources h0 h /\ find_file h (a_dev a) = Some f) \/ f_offs (h_f h f) = [])
  | A4 b f o => b = a /\ ((same_resources h0 h /\ found h f o) \/ (o_val (h_o h o) = 0 /\ True))
  | AT b f o l => b = a /\ ((exists h1 rest, same_resources h0 h1 /\ found h1 f o /\ h_lfree h1 = l :: rest /\ h = registered h1 t a o l rest)
                          \/ o_val (h_o h o) = 0)
  | AS b f o l => True
  | F1 b f o e => b = a /\ exists h1 l rest, same_resources h0 h1 /\ found h1 f o /\ h_lfree h1 = l :: rest /\ h = registered h1 t a o l rest
                          /\ has_lockers h1 o
  | F2 b f e => b = a /\ same_resources h0 h /\ exists o, found h f o /\ has_lockers h o
  | F3 b e => b = a /\ same_resources h0 h /\ exists f o, found h f o /\ has_lockers h o
  | RRet e => same_resources h0 h
  | RWait q => match q with A2 _ | F1 _ _ _ _ | F2 _ _ _ | F3 _ _ => True | _ => False end /\ quiet_pc h q
  | RDrop q => quiet_pc h q
  | _ => False
  end.

Definition ended (s : rstate) : Prop := exists e, (pc_err (r_pc s t) = Some e \/ fin e s t) /\ (e = OK \/ e = ENOLCK).

Lemma sr_lockers : forall h h' o, same_resources h h' -> has_lockers h o -> has_lockers h' o.
Proof. intros h h' o (_ & _ & _ & _ & _ & A & _) L. destruct (A o) as (_ & _ & _ & E1 & E2). unfold has_lockers in *. rewrite E1, E2. auto. Qed.
Lemma sr_found : forall h h' f o, same_resources h h' -> found h f o -> found h' f o.
Proof. intros h h' f o S [A B]. split; [rewrite (sr_find_file h) | rewrite (sr_find_off h)]; auto. Qed.

Lemma quiet_own : forall s gu, SI s -> alive s t = true ->
  (quiet_pc (r_h s) (r_pc s t) \/ (idle s t /\ same_resources h0 (r_h s))) ->
  let s' := r_run s t false gu in
  (quiet_pc (r_h s') (r_pc s' t) \/ (idle s' t /\ same_resources h0 (r_h s'))) \/ ended s'.
Proof.
  intros s gu H AL [Q|[ID S]] s'.
  2: { left; right. unfold s'. rewrite idle_run by auto. auto. }
  assert (Hh := si_h _ _ _ s H). pose proof (si_pc _ _ _ s H t AL) as P.
  unfold s', r_run, ended, fin, idle.
  destruct (r_pc s t) as [ |p|p|e0|b|b f|b f o|b f o l|b f o l|b f o l|b f o l ls|b f o e0|b f e0|b e0|b|b f o k l|b f o k l|b f o|b f|b|priv|priv fs os ls] eqn:Ep;
    simpl in Q; try contradiction.
  - left; left. destruct Q as [_ Q]. destruct (r_guard s) as [u|]; [destruct (alive s u)|]; simpl; rewrite ?upd_eq; auto.
    rewrite Ep. simpl. split; auto. simpl in P. destruct P as [_ P]. destruct p; simpl in *; auto; contradiction.
  - left; left. simpl. rewrite upd_eq. auto.
  - left; right. simpl. rewrite upd_eq. auto.
  - (* A2 *)
    destruct Q as [-> S]. destruct (find_file (r_h s) (a_dev a)) as [f|] eqn:EF.
    + left; left. simpl. rewrite upd_eq. simpl. split; auto. left. split.
      * eapply sr_trans; [exact S|]. apply sr_fprot.
      * erewrite sr_find_file; [exact EF | apply sr_fprot].
    + destruct (h_ffree (r_h s)) as [|f ff] eqn:EFF.
      * right. exists ENOLCK. simpl. rewrite upd_eq. simpl. auto.
      * left; left. simpl. rewrite upd_eq. simpl. split; auto. right. rewrite upd_eq. auto.
  - (* A3 *)
    destruct Q as [-> Q]. destruct (find_off (r_h s) f (a_off a) (a_len a)) as [o|] eqn:EO.
    + left; left. simpl. rewrite upd_eq. simpl. split; auto.
      destruct Q as [[S EF]|Q].
      2: { unfold find_off in EO. rewrite Q in EO. discriminate. }
      left. assert (S' : same_resources (r_h s) (set_f (set_o (r_h s) o (o_set_prot (h_o (r_h s) o) true)) f
                    (f_set_prot (h_f (set_o (r_h s) o (o_set_prot (h_o (r_h s) o) true)) f) false))).
      { eapply sr_trans; [apply sr_oprot | apply sr_fprot]. }
      split; [eapply sr_trans; eauto | eapply sr_found; eauto; split; auto].
    + destruct (h_ofree (r_h s)) as [|o rest] eqn:EFO.
      * right. exists ENOLCK. simpl. rewrite upd_eq. unfold after_f2. destruct (my_free_fd s t); simpl; auto.
      * left; left. simpl. rewrite !upd_eq. simpl. split; auto. right. rewrite !upd_eq. auto.
  - (* A4 *)
    destruct Q as [-> Q]. destruct (h_lfree (r_h s)) as [|l rest] eqn:EL.
    + right. exists ENOLCK. simpl. rewrite upd_eq. unfold after_f1. destruct (my_free_off s t), (my_free_fd s t); simpl; auto.
    + left; left. simpl. rewrite !upd_eq. simpl. split; auto. destruct Q as [[S F]|[Q _]].
      * left. exists (r_h s), rest. split; auto. split; auto. split; auto. unfold registered. simpl. rewrite !upd_eq. reflexivity.
      * right. rewrite ?upd_eq. destruct (a_kind a); simpl; auto.
  - (* AT *)
    destruct Q as [-> Q]. simpl in P.
    assert (RC : negb match a_kind a with Rd => false | Wr => false end = true) by (destruct (a_kind a); auto). rewrite RC, andb_true_r.
    destruct (word_permits (a_kind a) (o_val (h_o (r_h s) o))) eqn:WP.
    + left; left. simpl. rewrite upd_eq. simpl. auto.
    + destruct Q as [(h1 & rest & S & F & EL & EH)|Q].
      2: { rewrite Q in WP. destruct (a_kind a); discriminate. }
      assert (HLK : has_lockers h1 o).
      { assert (U : In o UO) by (destruct P as (P & _); eapply at_UO; eauto).
        assert (WL : forall k, incl (filter (owning (r_h s)) (o_list (h_o (r_h s) o) k)) (o_list (h_o h1 o) k)).
        { intros k x I. apply filter_In in I as [I OW]. rewrite EH in I, OW. unfold registered in I, OW. unfold owning in OW. simpl in I, OW.
          destruct (Z.eq_dec x l) as [->|NX]; [rewrite upd_eq in OW; discriminate|].
          rewrite !upd_eq in I. destruct (a_kind a), k; simpl in I; auto; destruct I; auto; congruence. }
        destruct (hi_word _ _ _ _ Hh o U) as [[E1 E2]|(E1 & E2 & E3)].
        - destruct (filter (owning (r_h s)) (o_rd (h_o (r_h s) o))) as [|x r] eqn:ER.
          + exfalso. simpl in E1. unfold word_permits in WP. rewrite E1 in WP. destruct (a_kind a); discriminate.
          + left. intro N. assert (I : In x (o_list (h_o h1 o) Rd)) by (apply WL; simpl; rewrite ER; left; auto). simpl in I. rewrite N in I. destruct I.
        - destruct (filter (owning (r_h s)) (o_wr (h_o (r_h s) o))) as [|x r] eqn:ER; [discriminate|].
          right. intro N. assert (I : In x (o_list (h_o h1 o) Wr)) by (apply WL; simpl; rewrite ER; left; auto). simpl in I. rewrite N in I. destruct I. }
      left; left. destruct (a_wait a) eqn:EW; try congruence.
      * simpl. rewrite upd_eq. simpl. repeat split; auto. exists h1, l, rest. auto.
      * destruct gu; simpl; rewrite ?upd_eq, ?Ep; simpl; repeat split; auto.
        -- exists h1, l, rest. auto.
        -- left. exists h1, rest. auto.
  - (* AS *) right. exists OK. simpl. rewrite !upd_eq. split; auto 6.
  - (* F1 *)
    destruct Q as (-> & h1 & l & rest & S & F & EL & EH & HLK).
    assert (NI : ~ In l (o_list (h_o h1 o) (a_kind a))).
    { intro I. assert (J : In l (lks (h_o (r_h s) o))).
      { apply lks_in. exists (a_kind a). rewrite EH. unfold registered. simpl. rewrite !upd_eq. destruct (a_kind a); simpl; auto. }
      simpl in P. assert (U : In o UO) by (destruct P as (x & P & _); eapply at_UO; eauto).
      (* the list would contain l twice *)
      pose proof (hi_lk_nd _ _ _ _ Hh o U) as ND. rewrite EH in ND. unfold registered, lks in ND. simpl in ND. rewrite !upd_eq in ND.
      destruct (a_kind a); simpl in *.
      - inversion ND; subst. apply H2. apply in_app_iff. auto.
      - apply nodup_app_iff in ND as (_ & ND & _). inversion ND; subst. auto. }
    destruct (unregister h1 t a o l rest EL NI) as [FL SR]. rewrite <- EH in FL, SR. rewrite FL.
    left; left. simpl. rewrite upd_eq.
    assert (S' : same_resources h0 (set_st (drop_locker (r_h s) o (a_kind a) l) l LDone)) by (eapply sr_trans; eauto).
    unfold after_f1. destruct (my_free_off s t); [|destruct (my_free_fd s t)]; simpl; [| |exact S'].
    all: split; auto; split; auto; split; auto.
    + exists o. split; [exact (sr_found h1 _ f o SR F) | exact (sr_lockers h1 _ o SR HLK)].
    + exists f, o. split; [exact (sr_found h1 _ f o SR F) | exact (sr_lockers h1 _ o SR HLK)].
  - (* F2 *)
    destruct Q as (-> & S & o & F & HLK). pose proof F as [FF FO]. rewrite FO, (has_lockers_locked _ _ HLK).
    left; left. simpl. rewrite upd_eq. unfold after_f2. destruct (my_free_fd s t); simpl; [|exact S]. split; auto. split; auto. split; auto. exists f, o. auto.
  - (* F3 *)
    destruct Q as (-> & S & f & o & F & HLK). destruct F as [FF FO]. rewrite FF.
    rewrite (has_lockers_file _ f o); auto. 2: { apply find_off_some in FO. apply FO. }
    left; left. simpl. rewrite upd_eq. simpl. auto.
Qed.

Lemma quiet_path : forall ls s s' e, r_path (only t) s ls s' -> SI s -> alive s' t = true -> idle s' t ->
  r_res s' t = Some e -> e <> OK -> e <> ENOLCK ->
  (quiet_pc (r_h s) (r_pc s t) \/ (idle s t /\ same_resources h0 (r_h s))) -> same_resources h0 (r_h s').
Proof.
  intros ls s s' e P. induction P as [s|s x ls s' O P IH]; intros H AL ID RS N1 N2 Q.
  - destruct Q as [Q|[_ Q]]; auto. unfold idle in ID. rewrite ID in Q. destruct Q.
  - pose proof O as [gu ->]. assert (A : alive s t = true) by (eapply step_alive, path_alive; eauto).
    assert (H' : SI (r_step s (LRun t false gu))) by (apply SI_step; auto; exact I).
    rewrite run_step in * by auto.
    destruct (quiet_own s gu H A Q) as [Q'|(e' & [E|E] & EE)]; auto.
    + pose proof (err_path ls _ s' t e' P AL ID E). assert (e' = e) by congruence. subst. destruct EE; contradiction.
    + destruct (fin_path (only t) e' ls _ s' t P AL (only_one_call _ _ _ _ P) ID E) as [_ R]. assert (e' = e) by congruence. subst. destruct EE; contradiction.
Qed.
End Alone.

(** ** After a recovery pass *)
Definition words_free (h : heap) (d : Z) : Prop :=
  forall f o, In f (h_flist h) -> f_dev (h_f h f) = d -> In o (f_offs (h_f h f)) -> o_val (h_o h o) = 0.

(** phases of a try-lock call on a file all of whose lock words are free, run alone *)
Fixpoint easy_pc (a : rargs) (h : heap) (p : rpc) : Prop :=
  match p with
  | A2 b => b = a /\ words_free h (a_dev a)
  | A3 b f => b = a /\ forall o, In o (f_offs (h_f h f)) -> o_val (h_o h o) = 0
  | A4 b f o => b = a /\ o_val (h_o h o) = 0
  | AT b f o l => b = a /\ o_val (h_o h o) = 0
  | AS b f o l => True
  | RWait q => match q with A2 _ => True | _ => False end /\ easy_pc a h q
  | RDrop q => match q with AT _ _ _ _ => True | _ => False end /\ easy_pc a h q
  | _ => False
  end.

Lemma easy_own : forall s t a gu, SI s -> alive s t = true -> easy_pc a (r_h s) (r_pc s t) ->
  let s' := r_run s t false gu in easy_pc a (r_h s') (r_pc s' t) \/ ended t s'.
Proof.
  intros s t a gu H AL Q s'. unfold s', r_run, ended, fin, idle.
  destruct (r_pc s t) as [ |p|p|e0|b|b f|b f o|b f o l|b f o l|b f o l|b f o l ls|b f o e0|b f e0|b e0|b|b f o k l|b f o k l|b f o|b f|b|priv|priv fs os ls] eqn:Ep;
    simpl in Q; try contradiction.
  - left. destruct p; try (destruct Q as [Q0 _]; contradiction). destruct Q as [_ Q]. simpl in Q.
    destruct (r_guard s) as [u|]; [destruct (alive s u)|]; simpl; rewrite ?upd_eq, ?Ep; simpl; auto.
  - left. destruct p; try (destruct Q as [Q0 _]; contradiction). simpl. rewrite upd_eq. apply Q.
  - destruct Q as [-> W]. destruct (find_file (r_h s) (a_dev a)) as [f|] eqn:EF.
    + left. simpl. rewrite upd_eq. simpl. split; auto. intro o. rewrite upd_eq. simpl. destruct (find_file_some _ _ _ EF). apply W; auto.
    + destruct (h_ffree (r_h s)) as [|f ff].
      * right. exists ENOLCK. simpl. rewrite upd_eq. simpl. auto.
      * left. simpl. rewrite upd_eq. simpl. split; auto. intro o. rewrite upd_eq. simpl. intros [].
  - destruct Q as [-> W]. destruct (find_off (r_h s) f (a_off a) (a_len a)) as [o|] eqn:EO.
    + left. simpl. rewrite upd_eq. simpl. split; auto. rewrite upd_eq. simpl. apply W. apply find_off_some in EO. apply EO.
    + destruct (h_ofree (r_h s)) as [|o rest].
      * right. exists ENOLCK. simpl. rewrite upd_eq. unfold after_f2. destruct (my_free_fd s t); simpl; auto.
      * left. simpl. rewrite !upd_eq. simpl. split; auto. rewrite !upd_eq. auto.
  - destruct Q as [-> W]. destruct (h_lfree (r_h s)) as [|l rest].
    + right. exists ENOLCK. simpl. rewrite upd_eq. unfold after_f1. destruct (my_free_off s t), (my_free_fd s t); simpl; auto.
    + left. simpl. rewrite !upd_eq. simpl. repeat split; auto. rewrite ?upd_eq. destruct (a_kind a); simpl; auto.
  - destruct Q as [-> W]. left. rewrite W.
    assert (WP : word_permits (a_kind a) 0 && negb match a_kind a with Rd => false | Wr => false end = true) by (destruct (a_kind a); auto).
    rewrite WP. simpl. rewrite upd_eq. simpl. auto.
  - right. exists OK. simpl. rewrite !upd_eq. split; auto 6.
Qed.

Lemma easy_path : forall ls s s' t a e, r_path (only t) s ls s' -> SI s -> alive s' t = true -> idle s' t ->
  r_res s' t = Some e -> easy_pc a (r_h s) (r_pc s t) -> e = OK \/ e = ENOLCK.
Proof.
  intros ls s s' t a e P. induction P as [s|s x ls s' O P IH]; intros H AL ID RS Q.
  - unfold idle in ID. rewrite ID in Q. destruct Q.
  - pose proof O as [gu ->]. assert (A : alive s t = true) by (eapply step_alive, path_alive; eauto).
    assert (H' : SI (r_step s (LRun t false gu))) by (apply SI_step; auto; exact I).
    rewrite run_step in * by auto.
    destruct (easy_own s t a gu H A Q) as [Q'|(e' & [E|E] & EE)]; auto.
    + pose proof (err_path ls _ s' t e' P AL ID E). assert (e' = e) by congruence. subst. auto.
    + destruct (fin_path (only t) e' ls _ s' t P AL (only_one_call _ _ _ _ P) ID E) as [_ R]. assert (e' = e) by congruence. subst. auto.
Qed.

Lemma no_owner_free : forall s d, SI s -> (forall u, alive s u = true -> idle s u) ->
  (forall l g, holds s l g -> gr_dev g <> d) -> words_free (r_h s) d.
Proof.
  intros s d H IDL NH f o IF DF IO. assert (Hh := si_h _ _ _ s H).
  assert (UFf : In f UF) by (eapply flist_UF; eauto).
  destruct (hi_offs_used _ _ _ _ Hh f o UFf IO) as [U _].
  assert (NO : forall k l, In l (o_list (h_o (r_h s) o) k) -> owning (r_h s) l = false).
  { intros k l I. destruct (owning (r_h s) l) eqn:OW; auto. exfalso. unfold owning in OW.
    destruct (h_st (r_h s) l) as [| |g| |] eqn:S; try discriminate.
    - destruct (si_acq _ _ _ s H l S) as (u & a & f' & o' & Au & Pu). specialize (IDL u Au). unfold idle in IDL. congruence.
    - apply (NH l g S). destruct (held_at UF UO UL _ _ _ Hh S) as (f' & o' & A & _ & DV & _).
      assert (I' : at_ (r_h s) f o k l) by (repeat split; auto).
      destruct (at_unique _ _ _ _ _ _ _ _ _ _ _ Hh A I') as (-> & _). congruence. }
  assert (FE : forall k, filter (owning (r_h s)) (o_list (h_o (r_h s) o) k) = []).
  { intro k. destruct (filter (owning (r_h s)) (o_list (h_o (r_h s) o) k)) as [|x r] eqn:E; auto.
    assert (I : In x (filter (owning (r_h s)) (o_list (h_o (r_h s) o) k))) by (rewrite E; left; auto).
    apply filter_In in I as [I OW]. rewrite (NO k x I) in OW. discriminate. }
  destruct (hi_word _ _ _ _ Hh o U) as [[E1 _]|(_ & _ & E3)].
  - pose proof (FE Rd) as Q. simpl in Q. rewrite Q in E1. exact E1.
  - pose proof (FE Wr) as Q. simpl in Q. rewrite Q in E3. discriminate.
Qed.

(** a lock file emptied by a pass can be locked again *)
Lemma recover_path : forall s ls1 s1 ls2 s2 t k fd off len w d e, SI s ->
  (forall u, alive s u = true -> idle s u) ->
  (forall l g, holds s l g -> gr_dev g = d -> gone s true g) ->
  dev_of s t fd = Some d -> w <> WBlock ->
  r_path (only t) (r_step s (LCall t (CPass true))) ls1 s1 -> idle s1 t ->
  r_path (only t) (r_step s1 (LCall t (CLock k fd off len w))) ls2 s2 -> idle s2 t -> alive s2 t = true ->
  r_res s2 t = Some e -> e = OK \/ e = ENOLCK.
Proof.
  intros s ls1 s1 ls2 s2 t k fd off len w d e H IDL GN DV NB P1 I1 P2 I2 AL RS.
  set (sa := r_step s (LCall t (CPass true))) in *. set (sb := r_step s1 (LCall t (CLock k fd off len w))) in *.
  destruct (only_env _ _ _ _ P1) as (E1 & E2 & E3 & E4).
  assert (AL1 : alive s1 t = true) by (eapply step_alive, path_alive; eauto).
  assert (AL0 : alive s t = true) by (eapply step_alive, path_alive; eauto).
  assert (Ea : sa = goto s t (RWait (P0 true))).
  { unfold sa, r_step. rewrite AL0. rewrite (IDL t AL0). reflexivity. }
  assert (Ha : SI sa) by (apply SI_step; auto; exact I).
  assert (H1 : SI s1) by (apply (SI_path UF UO UL UF_nd (only t) (only_careful t) sa ls1 s1); auto).
  assert (ENV : forall g, gone s1 true g <-> gone s true g).
  { intro g. unfold gone, alive. rewrite E1, E2, E3, Ea. simpl. tauto. }
  assert (NEW : forall l g, holds s1 l g -> gr_dev g = d -> holds s l g).
  { intros l g HL DG. assert (SUB : forall ls sx, r_path (only t) sx ls s1 -> SI sx -> r_pc sx t <> RIdle \/ True -> 
       (forall a f o x, r_pc sx t <> AS a f o x) -> (match r_pc sx t with RWait (P0 _) | P0 _ | PP _ _ _ _ | RDrop (RRet _) | RRet _ | RIdle => True | _ => False end) ->
       holds s1 l g -> holds sx l g).
    { clear - UF_nd AL1. intros ls sx P. induction P as [sx|sx x ls s' O P IH]; intros Hx _ NA PH HL; auto.
      pose proof O as [gu ->]. assert (A : alive sx t = true) by (eapply step_alive, path_alive; eauto).
      assert (Hx' : SI (r_step sx (LRun t false gu))) by (apply SI_step; auto; exact I).
      rewrite run_step in * by auto.
      assert (PH' : match r_pc (r_run sx t false gu) t with RWait (P0 _) | P0 _ | PP _ _ _ _ | RDrop (RRet _) | RRet _ | RIdle => True | _ => False end).
      { unfold r_run. destruct (r_pc sx t) eqn:Ep; try contradiction; simpl; rewrite ?upd_eq; auto.
        - rewrite Ep; auto.
        - destruct r; try contradiction. destruct (r_guard sx) as [u|]; [destruct (alive sx u)|]; simpl; rewrite ?upd_eq, ?Ep; auto.
        - destruct r; try contradiction. auto.
        - unfold pass_step. destruct fs; [|destruct os as [[|]|]; [|destruct ls0 as [[|[]]|]|]]; simpl; rewrite ?upd_eq; auto. }
      assert (HL' : holds (r_run sx t false gu) l g).
      { apply IH; auto. intros a f o y E. rewrite E in PH'. auto. }
      pose proof (run_holds UF UO UL sx t false gu Hx A) as E.
      destruct E as [Q|a f o l0 Ep _ _ _ _|a f o l0 g0 _ _ _ _ _ _ _ _ _ Q|l0 g0 priv _ _ _ _ Q]; try (apply Q in HL'; tauto).
      exfalso. eapply NA; eauto. }
    apply (SUB ls1 sa P1 Ha) in HL; auto.
    - rewrite Ea in HL. auto.
    - intros. rewrite Ea. simpl. rewrite upd_eq. discriminate.
    - rewrite Ea. simpl. rewrite upd_eq. auto. }
  assert (NH : forall l g, holds s1 l g -> gr_dev g <> d).
  { intros l g HL DG. pose proof (NEW l g HL DG) as HL0. pose proof (GN l g HL0 DG) as G. revert HL.
    apply (pass_path UF UO UL UF_nd (only t) (only_careful t) true ls1 sa s1 t l g); auto.
    - assert (Gs : gone sa true g) by (rewrite Ea; exact G). clear - P1 Gs UF_nd. induction P1 as [|sx x ls s' O P IH]; constructor.
      + split; auto. split; auto. destruct O as [gu ->]. unfold r_step. destruct (alive sx t); auto.
        destruct (run_env sx t false gu) as (Q1 & Q2 & Q3 & _). unfold gone, alive in *. rewrite Q1, Q2, Q3. auto.
      + apply IH. destruct O as [gu ->]. unfold r_step. destruct (alive sx t); auto.
        destruct (run_env sx t false gu) as (Q1 & Q2 & Q3 & _). unfold gone, alive in *. rewrite Q1, Q2, Q3. auto.
    - eapply only_one_call; eauto.
    - intros _. left. left. rewrite Ea. simpl. rewrite upd_eq. auto. }
  assert (W1 : words_free (r_h s1) d).
  { apply no_owner_free; auto. intros u Au. destruct (Z.eq_dec u t) as [->|N]; auto.
    unfold idle. rewrite E4 by auto. rewrite Ea. simpl. rewrite upd_neq by auto. apply IDL.
    rewrite <- Au. rewrite (only_alive _ _ _ _ u P1), Ea. auto. }
  assert (DV1 : dev_of s1 t fd = Some d).
  { unfold dev_of in *. rewrite E3, Ea. auto. }
  assert (Eb : sb = goto s1 t (RWait (A2 (mkA k fd off len w d)))).
  { unfold sb, r_step. rewrite AL1, I1. unfold r_call. rewrite DV1. auto. }
  assert (Hb : SI sb) by (apply SI_step; auto; exact I).
  apply (easy_path ls2 sb s2 t (mkA k fd off len w d) e P2 Hb AL I2 RS).
  rewrite Eb. simpl. rewrite upd_eq. simpl. auto.
Qed.

End More.
