(** Properties C141 and C142: lock calls that meet locks whose holders are gone. *)
From Coq Require Import ZArith List Bool Lia.
From Verif Require Import Base Range_Model RwWord_Model RwApi_Model RwApi_Spec RwApi_Proofs RwApi_Proofs2 RwApi_Proofs3
  RwApi_Proofs4 RwApi_Proofs5 RwApi_Proofs6 RwApi_Proofs7 RwApi_Proofs8 RwApi_Proofs9 RwApi_Proofs10 RwApi_Props.
Import ListNotations.
Open Scope Z_scope.

Section TakeOverProps.
Variables UF UO UL : list Z.
Hypothesis UF_nd : NoDup UF.
Hypothesis UO_nd : NoDup UO.
Hypothesis UL_nd : NoDup UL.
Variable fds : Z -> Z -> option Z.
Variable mode : Z -> fmode.
Variable allow : Z -> bool.
Notation init := (r_init UF UO UL fds mode allow).

(** ** C141: a blocking call that runs alone takes over from holders that are gone; [checks ls] counts how
    often its loop limit is reached *)
Theorem C141_blocking_takes_over : forall fam s t k fd off len d ls s', equal_or_disjoint fam ->
  r_reach init (both careful (in_family fam)) s -> alive s t = true -> (forall u, alive s u = true -> idle s u) ->
  file_of s t fd = Some d -> fam d off len ->
  (forall l g, holds s l g -> conflict (mkG t fd d off len k) g -> forall priv, gone s priv g) ->
  h_ffree (r_h s) <> [] -> h_ofree (r_h s) <> [] -> h_lfree (r_h s) <> [] ->
  r_path (only t) (r_step s (LCall t (CLock k fd off len WBlock))) ls s' -> (16 + length UL <= checks ls)%nat ->
  idle s' t /\ r_res s' t = Some OK /\ exists l, holds s' l (mkG t fd d off len k).
Proof.
  intros fam s t k fd off len d ls s' E R AL ID DV FM GN PF PO PL P L.
  destruct (DI_reach UF UO UL UF_nd UO_nd UL_nd fam fds mode allow (both careful (in_family fam)) s) as [S D]; auto.
  assert (GD : guarded s) by (apply (guarded_reach UF UO UL UF_nd UO_nd UL_nd fds mode allow (both careful (in_family fam)) s (fun _ _ C => proj1 C) R)).
  assert (IF : in_family fam s (LCall t (CLock k fd off len WBlock))) by (simpl; intros d' Q; rewrite DV in Q; inversion Q; subst; auto).
  assert (EQ : r_step s (LCall t (CLock k fd off len WBlock)) = goto s t (RWait (A2 (mkA k fd off len WBlock d)))).
  { unfold r_step. rewrite AL, (ID t AL). unfold r_call. rewrite (DV : dev_of _ _ _ = _). auto. }
  apply (take_over_path UF UO UL UF_nd fam E t (mkA k fd off len WBlock d) eq_refl ls (16 + length UL)%nat _ s' P); auto; [rewrite EQ; exact AL|].
  right; right. exists (16 + length UL)%nat. split; auto. constructor.
  - apply SI_step; auto. exact I.
  - apply (DI_step UF UO UL UF_nd fam); auto.
  - rewrite EQ. exact AL.
  - rewrite EQ. intros u N AU. unfold idle. simpl. rewrite upd_neq by auto. apply (ID u). exact AU.
  - rewrite EQ. simpl. rewrite upd_eq. split; auto.
  - rewrite EQ. simpl. rewrite upd_eq. auto.
  - apply (guarded_step UF UO UL); auto.
  - rewrite EQ. intros l g HL C. apply (GN l g HL C).
  - rewrite EQ. intros _. exact PF.
  - rewrite EQ. intros _. exact PO.
  - rewrite EQ. intros _. exact PL.
  - rewrite EQ. intros f o x ls1. simpl. rewrite upd_eq. discriminate.
  - rewrite EQ. intros f o x ls1. simpl. rewrite upd_eq. discriminate.
Qed.

(** ** C142: no other lock call does: while it runs alone a conflicting lock stays and the call is refused if
    it returns - whether or not the holder is gone *)
Theorem C142_others_never : forall fam s t k fd off len w d l g ls s', equal_or_disjoint fam ->
  r_reach init (both careful (in_family fam)) s -> alive s t = true -> idle s t ->
  file_of s t fd = Some d -> fam d off len -> holds s l g -> conflict (mkG t fd d off len k) g ->
  r_path (only t) (r_step s (LCall t (CLock k fd off len w))) ls s' -> (w = WBlock -> checks ls = 0%nat) ->
  holds s' l g /\ (idle s' t -> exists e, r_res s' t = Some e /\ e <> OK).
Proof.
  intros fam s t k fd off len w d l g ls s' E R AL ID DV FM HL C P NB.
  destruct (DI_reach UF UO UL UF_nd UO_nd UL_nd fam fds mode allow (both careful (in_family fam)) s) as [S D]; auto.
  assert (IF : in_family fam s (LCall t (CLock k fd off len w))) by (simpl; intros d' Q; rewrite DV in Q; inversion Q; subst; auto).
  assert (EQ : r_step s (LCall t (CLock k fd off len w)) = goto s t (RWait (A2 (mkA k fd off len w d)))).
  { unfold r_step. rewrite AL, ID. unfold r_call. rewrite (DV : dev_of _ _ _ = _). auto. }
  assert (ST : stuck UF UO UL fam t (mkA k fd off len w d) l g s').
  { apply (stuck_path UF UO UL UF_nd fam E t (mkA k fd off len w d) l g ls _ s' C P NB). constructor.
    - apply SI_step; auto. exact I.
    - apply (DI_step UF UO UL UF_nd fam); auto.
    - rewrite EQ. exact AL.
    - rewrite EQ. exact HL.
    - left. rewrite EQ. simpl. rewrite upd_eq. split; [split; auto | exact I]. }
  destruct ST as [_ _ _ HL' PC]. split; auto. intro IDL. unfold idle in IDL.
  destruct PC as [[_ B]|(e & NE & [X|[X|[X|[_ X]]]])]; try (rewrite IDL in *; first [contradiction | discriminate]).
  exists e. auto.
Qed.
End TakeOverProps.

(** the full claim for timed calls: with enough attempts before the time is over the lock is taken over *)
Definition C142_statement : Prop := forall UF UO UL fds mode allow fam s t k fd off len d, NoDup UF -> NoDup UO -> NoDup UL -> equal_or_disjoint fam ->
  r_reach (r_init UF UO UL fds mode allow) (both careful (in_family fam)) s -> alive s t = true -> (forall u, alive s u = true -> idle s u) ->
  file_of s t fd = Some d -> fam d off len ->
  (forall l g, holds s l g -> conflict (mkG t fd d off len k) g -> forall priv, gone s priv g) ->
  h_ffree (r_h s) <> [] -> h_ofree (r_h s) <> [] -> h_lfree (r_h s) <> [] ->
  exists n, forall ls s', r_path (only t) (r_step s (LCall t (CLock k fd off len WTimed))) ls s' ->
    (n <= length ls)%nat -> checks ls = 0%nat -> idle s' t /\ r_res s' t = Some OK.

(** T1 writes and a reader of another range is there; the process of T1 ends *)
Definition ex141 := r_exec s0 (does T1 (lock_w 3 0 10) ++ does T3 (lock_r 3 10 20) ++ [LDieProc 1]).
Lemma ex141_quiet : quiet_state everyone [21;22] ex141.
Proof. apply quiet_exec; [apply quiet_init|vm_compute; reflexivity]. Qed.
Lemma ex141_reach : r_reach s0 (both careful (in_family ex_fam)) ex141.
Proof. apply (reach_family everyone ex_famb); auto. Qed.
Lemma ex141_idle : forall u, alive ex141 u = true -> idle ex141 u.
Proof. intros u _. apply (quiet_idle everyone [21;22] ex141 ex141_quiet). vm_compute. reflexivity. Qed.
Lemma ex141_gone : forall l g, holds ex141 l g -> conflict (G T2 3 0 10 Wr) g -> forall priv, gone ex141 priv g.
Proof.
  intros l g HL (_ & (x & B1 & B2) & _) priv. destruct (proj2 ex141_quiet l g HL) as [<-|[<-|[]]].
  - assert (E : h_st (r_h ex141) 21 = LHeld (G T1 3 0 10 Wr)) by (vm_compute; reflexivity).
    unfold holds in HL. rewrite E in HL. inversion HL; subst g. left. vm_compute. reflexivity.
  - assert (E : h_st (r_h ex141) 22 = LHeld (G T3 3 10 20 Rd)) by (vm_compute; reflexivity).
    unfold holds in HL. rewrite E in HL. inversion HL; subst g. unfold byte_in, G in B1, B2. simpl in B1, B2. lia.
Qed.

Theorem C142_timed_takes_over_refuted : ~ C142_statement.
Proof.
  intro H.
  destruct (H [1;2;3] [11;12;13;14] [21;22;23;24;25] ex_fds (fun _ => FREE_FD) (fun _ => true) ex_fam ex141 T2 Wr 3 0 10 103
    nd1 nd2 nd3 ex_fam_ok ex141_reach ltac:(vm_compute; reflexivity) ex141_idle ltac:(vm_compute; reflexivity) ltac:(vm_compute; reflexivity)
    ex141_gone ltac:(vm_compute; discriminate) ltac:(vm_compute; discriminate) ltac:(vm_compute; discriminate)) as [n N].
  assert (CK : forall n, checks (runs T2 n) = 0%nat) by (induction n0; auto).
  destruct (N (runs T2 n) _ (only_runs T2 n _) ltac:(unfold runs; rewrite repeat_length; auto) (CK n)) as [ID RS].
  destruct (C142_others_never [1;2;3] [11;12;13;14] [21;22;23;24;25] nd1 nd2 nd3 ex_fds (fun _ => FREE_FD) (fun _ => true) ex_fam ex141 T2 Wr 3 0 10 WTimed 103
    21 (G T1 3 0 10 Wr) (runs T2 n) (r_exec (r_step ex141 (LCall T2 (CLock Wr 3 0 10 WTimed))) (runs T2 n)) ex_fam_ok ex141_reach ltac:(vm_compute; reflexivity) ltac:(vm_compute; reflexivity) ltac:(vm_compute; reflexivity)
    ltac:(vm_compute; reflexivity) ltac:(vm_compute; reflexivity)) with (2 := only_runs T2 n (r_step ex141 (LCall T2 (CLock Wr 3 0 10 WTimed)))) as [_ X].
  - split; [reflexivity|]. split; [exists 5; unfold byte_in; simpl; lia | left; reflexivity].
  - discriminate.
  - destruct (X ID) as (e & X1 & X2). congruence.
Qed.

(** the blocking call of T2 gets the lock after its loop limit was reached once, and the reader keeps its own;
    a timed call is refused when its time is over *)
Example C141_case : r_reach s0 (both careful (in_family ex_fam)) ex141 /\ holds ex141 21 (G T1 3 0 10 Wr) /\ conflict (G T2 3 0 10 Wr) (G T1 3 0 10 Wr) /\
  (forall priv, gone ex141 priv (G T1 3 0 10 Wr)) /\
  idle (r_exec ex141 (LCall T2 (CLock Wr 3 0 10 WBlock) :: expire T2 21)) T2 /\
  r_res (r_exec ex141 (LCall T2 (CLock Wr 3 0 10 WBlock) :: expire T2 21)) T2 = Some OK /\
  holds (r_exec ex141 (LCall T2 (CLock Wr 3 0 10 WBlock) :: expire T2 21)) 22 (G T3 3 10 20 Rd).
Proof.
  split; [exact ex141_reach|]. split; [vm_compute; reflexivity|].
  split; [split; [reflexivity|split; [exists 5; unfold byte_in; simpl; lia | left; reflexivity]]|].
  split; [intro priv; left; vm_compute; reflexivity|]. repeat split; vm_compute; reflexivity.
Qed.
Example C142_case : r_res (r_exec ex141 (LCall T2 (CLock Wr 3 0 10 WTimed) :: runs T2 500 ++ expire T2 24)) T2 = Some ETIMEDOUT /\
  r_res (r_exec ex141 (does T2 (lock_w 3 0 10))) T2 = Some EBUSY /\
  holds (r_exec ex141 (LCall T2 (CLock Wr 3 0 10 WTimed) :: runs T2 500 ++ expire T2 24)) 21 (G T1 3 0 10 Wr).
Proof. repeat split; vm_compute; reflexivity. Qed.

Print Assumptions C141_blocking_takes_over.
Print Assumptions C142_others_never.
Print Assumptions C142_timed_takes_over_refuted.
