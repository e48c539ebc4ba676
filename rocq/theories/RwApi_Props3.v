(** C26, C31, C64, C68: what is true of them. *)
From Coq Require Import ZArith List Bool Lia Permutation.
From Verif Require Import Base Range_Model RwWord_Model RwApi_Model RwApi_Spec RwApi_Proofs RwApi_Proofs2 RwApi_Proofs3
  RwApi_Proofs4 RwApi_Proofs5 RwApi_Proofs6 RwApi_Proofs7 RwApi_Proofs8 RwApi_Proofs9 RwApi_Proofs10 RwApi_Proofs11 RwApi_Props.
Import ListNotations.
Open Scope Z_scope.

(** [off_lost] is in RwApi_Props: the entry is neither in its pool nor in a list *)
Definition file_lost (s : rstate) (f : Z) : Prop := ~ In f (h_ffree (r_h s)) /\ ~ In f (h_flist (r_h s)).
Definition locker_lost (UO : list Z) (s : rstate) (l : Z) : Prop :=
  ~ In l (h_lfree (r_h s)) /\ forall o, In o UO -> ~ In l (o_rd (h_o (r_h s) o)) /\ ~ In l (o_wr (h_o (r_h s) o)).

Section Kept3.
Variables UF UO UL : list Z.
Hypothesis UF_nd : NoDup UF.
Hypothesis UO_nd : NoDup UO.
Hypothesis UL_nd : NoDup UL.
Variable fds : Z -> Z -> option Z.
Variable mode : Z -> fmode.
Variable allow : Z -> bool.
Notation init := (r_init UF UO UL fds mode allow).

Lemma rest_kept : forall s, r_reach init careful s -> (forall f, In f UF -> ~ file_lost s f) /\ (forall l, In l UL -> ~ locker_lost UO s l).
Proof.
  intros s R. assert (H : SI UF UO UL s) by (eapply SI_reach; eauto). split.
  - intros f U [A B]. assert (J : In f (h_flist (r_h s) ++ h_ffree (r_h s))) by (apply (Permutation_in _ (Permutation_sym (hi_files _ _ _ _ (si_h _ _ _ s H)))); auto).
    apply in_app_iff in J. tauto.
  - intros l U [A B]. destruct (kept_l_reach UF UO UL UF_nd UO_nd UL_nd fds mode allow s R l U) as [J|(o & O & J)]; auto.
    apply in_app_iff in J. destruct (B o O). tauto.
Qed.

(** ** C26: while no process frees file entries nothing is lost, whatever the modes, the failing calls and the deaths *)
Theorem C26_no_file_freed_partial : forall s o, (forall p, mode p <> FREE_FD) -> r_reach init (both careful no_free_fd_set) s -> In o UO -> ~ off_lost s o.
Proof.
  intros s o M R O [A B]. pose proof (OI_reach UF UO UL UF_nd UO_nd UL_nd fds mode allow s M R) as I.
  destruct (oi_kept _ s I o O) as [J|(f & F & J)]; auto. apply (B f F J).
Qed.
(** file entries and locker entries are never lost, in all modes *)
Theorem C26_others_kept_partial : forall s, r_reach init careful s -> (forall f, In f UF -> ~ file_lost s f) /\ (forall l, In l UL -> ~ locker_lost UO s l).
Proof. exact rest_kept. Qed.

(** ** C31: descriptor-less locks through different ids, and locks with descriptors, do not meet where they share no byte *)
Theorem C31_disjoint_partial : forall fam s t k fd off len w ls s', equal_or_disjoint fam ->
  r_reach init (both careful (in_family fam)) s -> alive s t = true -> (forall u, alive s u = true -> idle s u) ->
  fd < 0 -> fam (-1) off len ->
  (forall l g, holds s l g -> gr_dev g <> -1 \/ (forall x, byte_in off len x -> ~ byte_in (gr_off g) (gr_len g) x) \/ (k = Rd /\ gr_kind g = Rd)) ->
  h_ffree (r_h s) <> [] -> h_ofree (r_h s) <> [] -> h_lfree (r_h s) <> [] ->
  r_path (only t) (r_step s (LCall t (CLock k fd off len w))) ls s' -> (7 <= length ls)%nat ->
  idle s' t /\ r_res s' t = Some OK /\ exists l, holds s' l (mkG t fd (-1) off len k).
Proof.
  intros fam s t k fd off len w ls s' E R AL ID NF FM NC PF PO PL P L.
  apply (C110_free_lock_granted UF UO UL UF_nd UO_nd UL_nd fds mode allow fam s t k fd off len w (-1) ls s'); auto.
  - unfold file_of. destruct (Z.ltb_spec fd 0); auto. lia.
  - intros l g HL (C1 & (x & X1 & X2) & C3). cbn in *. destruct (NC l g HL) as [Q|[Q|[-> Q]]]; [congruence | exact (Q x X1 X2) |]. destruct C3; congruence.
Qed.
End Kept3.

(** ** C64, C68: with the default mode only range entries can be lost: files and lockers return also when calls fail and threads die *)
Theorem C64_others_kept_partial : forall UF UO UL fds allow s, NoDup UF -> NoDup UO -> NoDup UL ->
  r_reach (r_init UF UO UL fds (fun _ => FREE_FD) allow) calm s -> (forall f, In f UF -> ~ file_lost s f) /\ (forall l, In l UL -> ~ locker_lost UO s l).
Proof.
  intros UF UO UL fds allow s N1 N2 N3 R. apply (rest_kept UF UO UL N1 N2 N3 fds (fun _ => FREE_FD) allow).
  induction R as [|s x R IH OK]; [constructor | apply rr_step; auto]. apply OK.
Qed.
Theorem C68_others_kept_partial : forall UF UO UL fds mode allow s, NoDup UF -> NoDup UO -> NoDup UL ->
  r_reach (r_init UF UO UL fds mode allow) careful s -> (forall f, In f UF -> ~ file_lost s f) /\ (forall l, In l UL -> ~ locker_lost UO s l).
Proof. intros UF UO UL fds mode allow s N1 N2 N3 R. apply (rest_kept UF UO UL N1 N2 N3 fds mode allow s R). Qed.
(** with another mode a death loses no range entry either *)
Theorem C68_other_modes_partial : forall UF UO UL fds mode allow s o, NoDup UF -> NoDup UO -> NoDup UL -> (forall p, mode p <> FREE_FD) ->
  r_reach (r_init UF UO UL fds mode allow) (both careful no_free_fd_set) s -> In o UO -> ~ off_lost s o.
Proof. intros UF UO UL fds mode allow s o N1 N2 N3 M R. apply (C26_no_file_freed_partial UF UO UL N1 N2 N3 fds mode allow); auto. Qed.

(** ** Concrete cases *)
Definition nofd_b (s : rstate) (x : rlabel) : bool := match x with LSetMode _ FREE_FD => false | _ => true end.
Lemma nofd_b_ok : forall s x, nofd_b s x = true -> no_free_fd_set s x.
Proof. intros s x. destruct x; cbn; auto. destruct m; congruence. Qed.
Definition sno := r_init [1;2;3] [11;12;13;14] [21;22;23;24;25] ex_fds (fun _ => FREE_NO) (fun _ => true).
Lemma reach_nofd : forall ls, check (fun s x => careful_b everyone s x && nofd_b s x) sno ls = true -> r_reach sno (both careful no_free_fd_set) (r_exec sno ls).
Proof.
  intros ls C. apply (check_reach (fun s x => careful_b everyone s x && nofd_b s x) (both careful no_free_fd_set) (others_idle everyone)); auto.
  - intros s x J B. apply andb_true_iff in B as [B1 B2]. split; [|apply others_idle_step; auto]. split; [eapply careful_b_ok; eauto | apply nofd_b_ok with (s := s); auto].
  - apply others_idle_init.
  - constructor.
Qed.
(** C26: the schedule of the refutation with the other two modes: entries are kept, the mode changes, a refused call, a death in an unlock,
    a pass, and another file *)
Definition sched26 := does T1 (lock_w 3 0 10) ++ does T2 (lock_w 3 0 10) ++ does T1 (CUnlockRw 3 0 10) ++ LSetMode 1 FREE_OFFSET ::
  does T1 (lock_w 3 20 10) ++ does T2 (lock_w 3 40 10) ++ LCall T1 (CUnlockRw 3 20 10) :: runs T1 4 ++
  LDieProc 1 :: does T2 (CUnlockRw 3 40 10) ++ does T3 (CPass true) ++ does T3 (lock_w 4 50 10).
Definition s26 := r_exec sno sched26.
Example C26_kept_case : r_reach sno (both careful no_free_fd_set) s26 /\ alive s26 T1 = false /\ h_flist (r_h s26) <> [] /\
  holds s26 (hd 0 (h_lfree (r_h (r_exec sno (firstn (length sched26 - length (does T3 (lock_w 4 50 10))) sched26))))) (G T3 4 50 10 Wr).
Proof.
  split; [apply reach_nofd; vm_compute; reflexivity|]. split; [vm_compute; reflexivity|]. split; [vm_compute; discriminate|]. vm_compute. reflexivity.
Qed.
(** the same schedule with the default mode loses a range entry *)
Example C26_default_case : off_lost ex68 11 /\ ~ file_lost ex68 1 /\ ~ locker_lost [11;12;13;14] ex68 21.
Proof.
  split; [apply off_lost_b; vm_compute; reflexivity|]. split.
  - intros [A B]. vm_compute in A, B. tauto.
  - intros [A B]. apply A. vm_compute. auto 6.
Qed.

(** C31: T1 holds the descriptor-less bytes 0..9, T2 gets 20..29 through another id *)
Definition ex31b := r_exec ex31 (does T2 (lock_w (NOFD0 + 1) 20 10)).
Definition fam31 (d off len : Z) : Prop := d = -1 /\ len = 10 /\ (off = 0 \/ off = 20).
Example C31_disjoint_case : equal_or_disjoint fam31 /\ r_res ex31b T2 = Some OK /\ holds ex31b 22 (mkG T2 (NOFD0 + 1) (-1) 20 10 Wr) /\
  holds ex31b 21 (mkG T1 NOFD0 (-1) 0 10 Wr).
Proof.
  split.
  - split.
    + intros d off len (-> & -> & H). unfold two63, two64. lia.
    + intros d o1 l1 o2 l2 (-> & -> & [-> | ->]) (_ & -> & [-> | ->]); auto; right; unfold byte_in; intros x; lia.
  - repeat split; vm_compute; reflexivity.
Qed.

Print Assumptions C26_no_file_freed_partial.
Print Assumptions C26_others_kept_partial.
Print Assumptions C31_disjoint_partial.
Print Assumptions C64_others_kept_partial.
Print Assumptions C68_others_kept_partial.
Print Assumptions C68_other_modes_partial.
