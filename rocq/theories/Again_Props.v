(** A thread locks a range again that it has locked already (C154). *)
From Coq Require Import ZArith List Bool Lia.
From Verif Require Import Base Range_Model RwWord_Model RwApi_Model RwApi_Spec RwApi_Proofs RwApi_Proofs2 RwApi_Proofs3
  RwApi_Proofs4 RwApi_Proofs5 RwApi_Proofs6 RwApi_Proofs9 RwApi_Props.
Import ListNotations.
Open Scope Z_scope.

(** a blocking lock call: where it can be, and with which errors it gives up *)
Fixpoint blocking (p : rpc) : Prop :=
  match p with
  | RWait q | RDrop q => blocking q
  | A2 a | A3 a _ | A4 a _ _ | AT a _ _ _ | AS a _ _ _ | AD0 a _ _ _ | AD a _ _ _ _ => a_wait a = WBlock
  | F1 _ _ _ e | F2 _ _ e | F3 _ e | RRet e => e = ENOLCK
  | _ => False
  end.
Lemma blocking_own : forall s t race gu, blocking (r_pc s t) -> let s' := r_run s t race gu in
  blocking (r_pc s' t) \/ (r_pc s' t = RIdle /\ (r_res s' t = Some OK \/ r_res s' t = Some ENOLCK)).
Proof.
  intros s t race gu B s'. unfold s', r_run.
  destruct (r_pc s t) as [ |p|p|e|a0|a0 f|a0 f o|a0 f o l|a0 f o l|a0 f o l|a0 f o l ls|a0 f o e|a0 f e|a0 e|a0|a0 f o k l|a0 f o k l|a0 f o|a0 f|a0|priv|priv fs os ls] eqn:Ep;
    simpl in B; try contradiction; unfold after_f1, after_f2; try rewrite B;
    repeat match goal with |- context [match ?x with _ => _ end] => destruct x eqn:? end; simpl; rewrite ?upd_eq, ?Ep; simpl; auto.
Qed.
Lemma blocking_path : forall (ok : rstate -> rlabel -> Prop) ls s s' t, r_path ok s ls s' -> alive s' t = true -> one_call t ls -> idle s' t ->
  blocking (r_pc s t) \/ (idle s t /\ (r_res s t = Some OK \/ r_res s t = Some ENOLCK)) -> r_res s' t = Some OK \/ r_res s' t = Some ENOLCK.
Proof.
  intros ok ls s s' t P. induction P as [s|s x ls s' O P IH]; intros AL OC ID B.
  - destruct B as [B|[_ B]]; auto. unfold idle in ID. rewrite ID in B. destruct B.
  - assert (A : alive s t = true) by (eapply step_alive, path_alive; eauto).
    apply IH; auto; [intros c I; apply (OC c); right; auto|].
    destruct (actor x) as [u|] eqn:EA; [destruct (Z.eq_dec u t) as [->|N]|]; try (destruct (step_other s x t) as [E1 E2]; [congruence|]; unfold idle; rewrite E1, E2; exact B).
    destruct x as [t0 c|t0 race gu|p fd d|p m|t0|p]; simpl in EA; inversion EA; subst; [exfalso; apply (OC c); left; auto|].
    simpl. rewrite A. destruct B as [B|[B1 B2]]; [destruct (blocking_own s t race gu B) as [Q|Q]; auto|].
    right. unfold r_run, idle in *. rewrite B1. auto.
Qed.

Lemma path_weak : forall (ok ok' : rstate -> rlabel -> Prop), (forall s x, ok s x -> ok' s x) -> forall ls s s', r_path ok s ls s' -> r_path ok' s ls s'.
Proof. intros ok ok' H ls s s' P. induction P; constructor; auto. Qed.
Section Again.
Variables UF UO UL : list Z.
Hypothesis UF_nd : NoDup UF.
Hypothesis UO_nd : NoDup UO.
Hypothesis UL_nd : NoDup UL.
Variables (fds : Z -> Z -> option Z) (mode : Z -> fmode) (allow : Z -> bool).
Notation init := (r_init UF UO UL fds mode allow).

(** While a thread has a lock and asks for one that conflicts with it, its call never succeeds, whatever the others do; a blocking
    call then never returns, unless the shared memory has no room for the request. *)
Theorem C154_waits_for_itself : forall fam s l g k fd off len w d ls s', equal_or_disjoint fam ->
  let t := gr_t g in
  let call := LCall t (CLock k fd off len w) in
  r_reach init (both careful (in_family fam)) s -> idle s t -> holds s l g -> present s g ->
  file_of s t fd = Some d -> fam d off len -> conflict (mkG t fd d off len k) g ->
  r_path (both (both careful (in_family fam)) (keeps g)) (r_step s call) ls s' ->
  one_call t ls -> alive s' t = true -> idle s' t ->
  r_res s' t <> Some OK /\ (w = WBlock -> r_res s' t = Some ENOLCK).
Proof.
  intros fam s l g k fd off len w d ls s' ED t call R ID HL PR DV FM CF P OC AL ID'.
  assert (AL0 : alive s t = true) by (eapply step_alive, path_alive; eauto).
  assert (IF : in_family fam s call) by (simpl; intros d' Q; rewrite DV in Q; inversion Q; subst; auto).
  assert (EQ : r_step s call = goto s t (RWait (A2 (mkA k fd off len w d)))).
  { unfold call, r_step. rewrite AL0, ID. unfold r_call. rewrite (DV : dev_of _ _ _ = _). auto. }
  assert (R1 : r_reach init (both careful (in_family fam)) (r_step s call)) by (apply rr_step; auto; split; auto; exact I).
  assert (RC : forall s0, r_reach init (both careful (in_family fam)) s0 -> r_reach init careful s0).
  { intros s0 Q. induction Q as [|q x Q IH [C _]]; [constructor | apply rr_step; auto]. }
  assert (HL1 : holds (r_step s call) l g) by (rewrite EQ; exact HL).
  assert (NOK : r_res s' t <> Some OK).
  { intro RS.
    destruct (C65_success_grants_partial UF UO UL UF_nd UO_nd UL_nd fds mode allow s t k fd off len w d ls s') as (l' & ls1 & x & ls2 & s1 & EL & P1 & P2 & NH & HN); auto.
    { refine (path_weak _ _ _ _ _ _ P). intros q y [[C _] _]. exact C. }
    subst ls. set (new := mkG t fd d off len k) in *.
    assert (SP : forall ls1 a, r_path (both (both careful (in_family fam)) (keeps g)) a (ls1 ++ x :: ls2) s' ->
               r_path (both (both careful (in_family fam)) (keeps g)) a (ls1 ++ [x]) (r_step (r_exec a ls1) x)).
    { induction ls0 as [|y r IH]; intros a Q; inversion Q; subst; cbn; constructor; auto; [constructor | apply IH; auto]. }
    specialize (SP ls1 _ P). pose proof (r_path_exec _ _ _ _ P1) as E1. fold call in E1. rewrite <- E1 in SP.
    assert (K1 : forall ls1 a b, r_path (both (both careful (in_family fam)) (keeps g)) a (ls1 ++ [x]) b ->
               r_path (both (both careful (in_family fam)) (keeps g)) a ls1 (r_exec a ls1)).
    { induction ls0 as [|y r IH]; intros a b Q; inversion Q; subst; cbn; [constructor|]. constructor; auto. eapply IH; eauto. }
    specialize (K1 ls1 _ _ SP). rewrite <- E1 in K1.
    assert (KEEP : forall a ls b, r_reach init (both careful (in_family fam)) a -> holds a l g ->
               r_path (both (both careful (in_family fam)) (keeps g)) a ls b -> r_reach init (both careful (in_family fam)) b /\ holds b l g).
    { intros a lsx b Ra Ha Q. split.
      - apply (path_reach init (both careful (in_family fam)) a lsx b); auto. refine (path_weak _ _ _ _ _ _ Q). intros q y [C _]. exact C.
      - apply (C29_present_holder_keeps_lock UF UO UL UF_nd UO_nd UL_nd fds mode allow a lsx b l g); auto.
        refine (path_weak _ _ _ _ _ _ Q). intros q y [[C _] Y]. split; auto. }
    destruct (KEEP _ _ _ R1 HL1 K1) as [Rs1 Hs1]. destruct (KEEP _ _ _ R1 HL1 SP) as [Rs2 Hs2].
    destruct (Z.eq_dec l l') as [->|N].
    - assert (EG : g = new) by (unfold holds in *; congruence). apply NH. rewrite <- EG. exact Hs1.
    - apply (C18_exclusion_equal_or_disjoint UF UO UL UF_nd UO_nd UL_nd fds mode allow fam (r_step s1 x) l' new l g); auto. }
  split; auto. intros ->. destruct (blocking_path _ ls _ s' t P AL OC ID') as [Q|Q]; auto; [|contradiction].
  left. rewrite EQ. simpl. rewrite upd_eq. reflexivity.
Qed.

(** What is right about the claim: reading again what one reads is granted at once, unless somebody else writes. *)
Theorem C154_reads_again_partial : forall fam s t fd off len w d ls s', equal_or_disjoint fam ->
  r_reach init (both careful (in_family fam)) s -> alive s t = true -> (forall u, alive s u = true -> idle s u) ->
  file_of s t fd = Some d -> fam d off len ->
  (forall l g, holds s l g -> conflict (mkG t fd d off len Wr) g -> gr_kind g = Rd) ->
  h_ffree (r_h s) <> [] -> h_ofree (r_h s) <> [] -> h_lfree (r_h s) <> [] ->
  r_path (only t) (r_step s (LCall t (CLock Rd fd off len w))) ls s' -> (7 <= length ls)%nat ->
  idle s' t /\ r_res s' t = Some OK /\ exists l, holds s' l (mkG t fd d off len Rd).
Proof.
  intros fam s t fd off len w d ls s' ED R AL ID DV FM RD PF PO PL P L.
  apply (C110_free_lock_granted UF UO UL UF_nd UO_nd UL_nd fds mode allow fam s t Rd fd off len w d ls s'); auto.
  intros l g HL (C1 & C2 & [C3|C3]); [discriminate|]. assert (Q : gr_kind g = Rd) by (apply (RD l g HL); split; [exact C1 | split; [exact C2 | auto]]). congruence.
Qed.
End Again.

(** ** The documented claim: locking again does not wait for the thread itself (docs/fullock.3, README.md "Not dead lock by same
    thread locking").  If nobody else is in the way, the call can return with the lock. *)
Definition C154_statement : Prop := forall UF UO UL fds allow s l g k, NoDup UF -> NoDup UO -> NoDup UL ->
  r_reach (r_init UF UO UL fds (fun _ => FREE_FD) allow) calm s -> (forall u, alive s u = true -> idle s u) ->
  holds s l g -> present s g -> (forall l' g', holds s l' g' -> gr_t g' = gr_t g) ->
  h_ffree (r_h s) <> [] -> h_ofree (r_h s) <> [] -> h_lfree (r_h s) <> [] ->
  exists ls s', r_path (only (gr_t g)) (r_step s (LCall (gr_t g) (CLock k (gr_fd g) (gr_off g) (gr_len g) WBlock))) ls s' /\
    idle s' (gr_t g) /\ r_res s' (gr_t g) = Some OK.
Definition ex154 := r_exec s0 (does T1 (lock_w 3 0 10)).
Lemma ex154_quiet : quiet_state everyone [21] ex154.
Proof. apply quiet_exec; [apply quiet_init|vm_compute; reflexivity]. Qed.
Lemma ex154_holds : holds ex154 21 (G T1 3 0 10 Wr).
Proof. vm_compute. reflexivity. Qed.
Lemma ex154_reach : r_reach s0 (both careful (in_family ex_fam)) ex154.
Proof. apply (reach_family everyone ex_famb); [auto|vm_compute; reflexivity]. Qed.

(** steps of the thread inside its lock call keep the lock *)
Lemma only_keeps : forall (fam : Z -> Z -> Z -> Prop) g ls s s', present s g -> ~ in_unlock (r_pc s (gr_t g)) -> r_path (only (gr_t g)) s ls s' ->
  (forall ls1 ls2 s1, ls = ls1 ++ ls2 -> r_path (only (gr_t g)) s ls1 s1 -> ~ in_unlock (r_pc s1 (gr_t g))) ->
  r_path (both (both careful (in_family fam)) (keeps g)) s ls s'.
Proof.
  intros fam g ls s s' PR NU P. induction P as [s|s x ls s' [gu ->] P IH]; intros H; [constructor|].
  assert (PR' : present (r_step s (LRun (gr_t g) false gu)) g).
  { destruct PR as [A F]. unfold present, r_step. rewrite A. unfold alive, file_of in *. destruct (run_env s (gr_t g) false gu) as (-> & -> & -> & _). split; auto. }
  assert (NU' : ~ in_unlock (r_pc (r_step s (LRun (gr_t g) false gu)) (gr_t g))).
  { apply (H [LRun (gr_t g) false gu] ls); auto. apply rp_cons; [exists gu; auto | constructor]. }
  constructor.
  - split; [split; exact I|]. split; [exact PR|]. split; [exact PR' | intros _; exact NU].
  - apply IH; auto. intros ls1 ls2 s1 E Q. apply (H (LRun (gr_t g) false gu :: ls1) ls2); [cbn; congruence|]. apply rp_cons; auto. exists gu; auto.
Qed.
Lemma blocking_not_unlock : forall p, blocking p -> ~ in_unlock p.
Proof. induction p; simpl; auto. Qed.
Lemma blocking_only : forall ls s s' t, r_path (only t) s ls s' -> alive s t = true -> blocking (r_pc s t) \/ idle s t -> blocking (r_pc s' t) \/ idle s' t.
Proof.
  intros ls s s' t P. induction P as [s|s x ls s' [gu ->] P IH]; intros A B; auto. apply IH.
  - unfold r_step. rewrite A. unfold alive in *. destruct (run_env s t false gu) as (-> & -> & _). exact A.
  - unfold r_step. rewrite A. destruct B as [B|B]; [destruct (blocking_own s t false gu B) as [Q|[Q _]]; auto|]. right. unfold idle, r_run in *. rewrite B. exact B.
Qed.
Lemma not_unlock : forall p, blocking p \/ p = RIdle -> ~ in_unlock p.
Proof. intros p [X|X]; [apply blocking_not_unlock; auto | subst p; simpl; auto]. Qed.
Theorem C154_lock_again_refuted : ~ C154_statement.
Proof.
  intro H. pose proof ex154_quiet as Q. pose proof ex154_holds as HL.
  destruct (H [1;2;3] [11;12;13;14] [21;22;23;24;25] ex_fds (fun _ => true) ex154 21 (G T1 3 0 10 Wr) Wr nd1 nd2 nd3) as (ls & s' & P & ID & RS).
  - apply (reach_calm everyone). vm_compute. reflexivity.
  - intros u _. apply (quiet_idle everyone [21] ex154 Q). vm_compute. reflexivity.
  - exact HL.
  - split; vm_compute; reflexivity.
  - intros l' g' HL'. destruct (proj2 Q l' g' HL') as [<-|[]]. unfold holds in *. congruence.
  - vm_compute. discriminate.
  - vm_compute. discriminate.
  - vm_compute. discriminate.
  - assert (B : blocking (r_pc (r_step ex154 (LCall T1 (CLock Wr 3 0 10 WBlock))) T1)) by (vm_compute; reflexivity).
    assert (A : alive (r_step ex154 (LCall T1 (CLock Wr 3 0 10 WBlock))) T1 = true) by (vm_compute; reflexivity).
    pose proof not_unlock as NU.
    assert (IDL : idle ex154 T1) by (vm_compute; reflexivity).
    assert (PR : present ex154 (G T1 3 0 10 Wr)) by (split; vm_compute; reflexivity).
    assert (PR2 : present (r_step ex154 (LCall T1 (CLock Wr 3 0 10 WBlock))) (G T1 3 0 10 Wr)) by (split; vm_compute; reflexivity).
    assert (DV : file_of ex154 T1 3 = Some 103) by (vm_compute; reflexivity).
    change (gr_t (G T1 3 0 10 Wr)) with T1 in *. change (gr_fd (G T1 3 0 10 Wr)) with 3 in *. change (gr_off (G T1 3 0 10 Wr)) with 0 in *. change (gr_len (G T1 3 0 10 Wr)) with 10 in *.
    pose proof ex154_reach as R. generalize dependent ex154. intros e Q HL P B A IDL PR PR2 DV R.
    destruct (C154_waits_for_itself [1;2;3] [11;12;13;14] [21;22;23;24;25] nd1 nd2 nd3 ex_fds (fun _ => FREE_FD) (fun _ => true)
      ex_fam e 21 (G T1 3 0 10 Wr) Wr 3 0 10 WBlock 103 ls s' ex_fam_ok) as [N _]; auto.
    + reflexivity.
    + split; [reflexivity|]. split; [|left; reflexivity]. exists 5. unfold byte_in, G; simpl. lia.
    + apply only_keeps; auto. intros ls1 ls2 s1 _ P1. apply NU. exact (blocking_only ls1 _ s1 T1 P1 A (or_introl B)).
    + apply (only_one_call T1 _ ls s' P).
    + refine (eq_trans (only_alive T1 _ ls s' T1 P) _). exact A.
Qed.

(** T1 writes [0,10) and asks for it again: still waiting after many steps, also for reading *)
Example C154_case :
  let s := r_exec ex154 (LCall T1 (CLock Rd 3 0 10 WBlock) :: runs T1 50) in
  exists a f o l, r_pc s T1 = AT a f o l /\ a_wait a = WBlock.
Proof. do 4 eexists. split; [vm_compute; reflexivity | reflexivity]. Qed.
(** T1 reads [0,10) and reads it again *)
Example C154_reads_case : let s := r_exec s0 (does T1 (lock_r 3 0 10)) in
  holds s 21 (G T1 3 0 10 Rd) /\ r_res (r_exec s (LCall T1 (CLock Rd 3 0 10 WBlock) :: runs T1 7)) T1 = Some OK.
Proof. split; vm_compute; reflexivity. Qed.

Print Assumptions C154_waits_for_itself.
Print Assumptions C154_reads_again_partial.
Print Assumptions C154_lock_again_refuted.
