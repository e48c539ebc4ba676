(** C156, C157: read/write locks of forking processes. *)
From Coq Require Import ZArith List Bool Lia.
From Verif Require Import Base Pid_Model Pid_Proofs Mutex_Model Fchild_Model Fchild_Proofs RwWord_Model RwApi_Model RwApi_Spec RwApi_Proofs RwApi_Proofs2 RwApi_Proofs3 RwApi_Proofs5 RwApi_Props Rfork_Model Rfork_Spec Rfork_Proofs Rfork_Proofs2.
Import ListNotations.
Open Scope Z_scope.

Lemma k_reach_mono : forall s0 (ok1 ok2 : kstate -> klabel -> Prop) s, (forall s x, ok1 s x -> ok2 s x) -> k_reach s0 ok1 s -> k_reach s0 ok2 s.
Proof. intros s0 ok1 ok2 s H R. induction R; [constructor | apply kr_step; auto]. Qed.

(** ** Running schedules *)
Definition fresh_b (s : kstate) (n : Z) : bool :=
  (0 <? n) && (n <=? INT_MAX) && forallb (fun u => negb (t_pid (u_t u) =? n) && negb (t_tid (u_t u) =? n) && negb (t_cache (u_t u) =? n)) (k_sys s).
Definition kok_b (first : bool) (famb : Z -> Z -> Z -> bool) (s : kstate) (x : klabel) : bool :=
  match x with
  | KProc n _ _ _ | KThread _ n => fresh_b s n
  | KFork i n => fresh_b s n && (negb first || match nth_error (k_sys s) i with Some u => t_cache (u_t u) =? 0 | None => true end)
  | KCall i (CLock _ fd off len _) => match nth_error (k_sys s) i with
                                      | Some u => match (if fd <? 0 then Some (-1) else r_fd (k_r s) (t_pid (u_t u)) fd) with Some d => famb d off len | None => true end
                                      | None => true end
  | KSetFd _ _ _ => forallb (fun u => match lock_fd (r_pc (k_r s) (id_of u)) with None => true | _ => false end) (k_sys s)
  | KDie i => match nth_error (k_sys s) i with Some u => negb (in_window_b (r_pc (k_r s) (id_of u))) | None => true end
  | _ => true
  end.
Lemma fresh_b_spec : forall s n, fresh_b s n = true -> k_fresh s n.
Proof.
  intros s n H. unfold fresh_b in H. apply andb_true_iff in H as [H F]. apply andb_true_iff in H as [A B]. apply Z.ltb_lt in A. apply Z.leb_le in B.
  split; [lia|]. intros u U. rewrite forallb_forall in F. specialize (F u U). apply andb_true_iff in F as [F F3]. apply andb_true_iff in F as [F1 F2].
  apply negb_true_iff in F1, F2, F3. apply Z.eqb_neq in F1, F2, F3. auto.
Qed.
Lemma kok_spec : forall first famb s x, kok_b first famb s x = true ->
  k_enabled s x /\ k_and k_careful (k_family (fun d o l => famb d o l = true)) s x /\ (first = true -> k_fork_first s x).
Proof.
  intros first famb s x H. destruct x as [n tab mo al|i n|i n|i c|i race gu|i fd d|i mo|i]; cbn in H; (split; [|split; [split|]]); try exact I; try (intros _; exact I); try (solve [apply fresh_b_spec; exact H]).
  - apply andb_true_iff in H as [H _]. apply fresh_b_spec; auto.
  - intros ->. intros u [U _]. rewrite U in H. apply andb_true_iff in H as [_ H]. apply Z.eqb_eq. auto.
  - destruct c; try exact I. intros u d [U _] E. rewrite U, E in H. auto.
  - intros u j w dev _ [W _] _ E. rewrite forallb_forall in H. specialize (H w (nth_error_In _ _ W)). rewrite E in H. discriminate H.
  - intros u [U _] IW. rewrite U in H. destruct (r_pc (k_r s) (id_of u)); try destruct IW; discriminate H.
Qed.
Fixpoint kall_b (first : bool) (famb : Z -> Z -> Z -> bool) (s : kstate) (ls : list klabel) : bool :=
  match ls with [] => true | x :: r => kok_b first famb s x && kall_b first famb (k_step s x) r end.
Lemma kexec_reach : forall first famb (ok : kstate -> klabel -> Prop) s0,
  (forall s x, k_and k_careful (k_family (fun d o l => famb d o l = true)) s x /\ (first = true -> k_fork_first s x) -> ok s x) ->
  forall ls, kall_b first famb s0 ls = true -> k_reach s0 ok (k_exec s0 ls).
Proof.
  intros first famb ok s0 H ls. cut (forall s, k_reach s0 ok s -> kall_b first famb s ls = true -> k_reach s0 ok (k_exec s ls)).
  { intros K E. apply K; auto. constructor. }
  induction ls as [|x ls IH]; intros s R E; cbn in *; auto. apply andb_true_iff in E as [E1 E2]. destruct (kok_spec _ _ _ _ E1) as [A B].
  apply IH; auto. apply kr_step; auto.
Qed.

Definition kruns (i n : nat) : list klabel := repeat (KRun i false false) n.
Definition kdoes (i : nat) (c : rcall) : list klabel := KCall i c :: kruns i 24.
Definition ktab : Z -> option Z := fun fd => if fd <? 100 then Some (100 + fd) else None.
Definition proc (n : Z) : klabel := KProc n ktab FREE_FD true.
Definition k0 : kstate := k_init [1;2;3] [11;12;13;14] [21;22;23;24;25].

(** ** C156: exclusion, also when processes fork *)
Definition C156_statement : Prop := forall UF UO UL fam s l1 g1 l2 g2, NoDup UF -> NoDup UO -> NoDup UL -> equal_or_disjoint fam ->
  k_reach (k_init UF UO UL) (k_and k_careful (k_family fam)) s -> holds (k_r s) l1 g1 -> holds (k_r s) l2 g2 -> l1 <> l2 -> ~ conflict g1 g2.
(** Process 10 uses the library and forks process 20, whose identifier names no thread.  The child is inside the guard, between the
    search for the file and the search for the range; process 30 takes the guard from it, locks and unlocks the range, and the file entry
    goes back to the pool.  The child puts its range into that entry and has its lock; process 30 locks again, takes the entry
    from the pool and has its lock too. *)
Definition w156 : list klabel :=
  proc 10 :: kdoes 0 (lock_w 3 0 10) ++ kdoes 0 (CUnlockRw 3 0 10) ++ [KFork 0 20; proc 30] ++
  KCall 1 (lock_w 3 0 10) :: kruns 1 2 ++ kdoes 2 (lock_w 3 0 10) ++ kdoes 2 (CUnlockRw 3 0 10) ++ kruns 1 24 ++ kdoes 2 (lock_w 3 0 10).
Lemma w156_reach : k_reach k0 (k_and k_careful (k_family (fun d o l => ex_famb d o l = true))) (k_exec k0 w156).
Proof. apply (kexec_reach false ex_famb); [tauto | vm_compute; reflexivity]. Qed.
Theorem C156_exclusion_forks_refuted : ~ C156_statement.
Proof.
  intro H.
  apply (H [1;2;3] [11;12;13;14] [21;22;23;24;25] (fun d o l => ex_famb d o l = true) _ 21 (mkG 85899345930 3 103 0 10 Wr) 22 (mkG 128849018910 3 103 0 10 Wr)
           ltac:(repeat constructor; cbn; intuition lia) ltac:(repeat constructor; cbn; intuition lia) ltac:(repeat constructor; cbn; intuition lia) ex_fam_ok w156_reach).
  - vm_compute. reflexivity.
  - vm_compute. reflexivity.
  - discriminate.
  - split; [reflexivity|]. split; [exists 0; unfold byte_in; cbn [gr_off gr_len]; lia | auto].
Qed.

Theorem C156_exclusion_forks_partial : forall UF UO UL fam s l1 g1 l2 g2, NoDup UF -> NoDup UO -> NoDup UL -> equal_or_disjoint fam ->
  k_reach (k_init UF UO UL) (k_and k_fork_first (k_and k_careful (k_family fam))) s -> holds (k_r s) l1 g1 -> holds (k_r s) l2 g2 -> l1 <> l2 -> ~ conflict g1 g2.
Proof.
  intros UF UO UL fam s l1 g1 l2 g2 NF NO NL E R H1 H2 N.
  destruct (k_reach_sim UF UO UL fam s R (fun _ _ => None) (fun _ => FREE_FD) (fun _ => true)) as (fds & mode & allow & m & RM & X & _).
  destruct (y_same s m X) as (EH & _). unfold holds in H1, H2. rewrite EH in H1, H2.
  apply (C18_exclusion_equal_or_disjoint UF UO UL NF NO NL fds mode allow fam m l1 g1 l2 g2 E RM H1 H2 N).
Qed.
(** Process 10 forks 20 and 30 before any of them uses the library; they inherit its descriptors.  The child 20 writes in [0,10), the child 30 is
    refused there and writes in [10,30), and the parent is refused in both; then 20 dies and a pass of 30 gives [0,10) to the parent. *)
Definition x156 : list klabel :=
  [proc 10; KFork 0 20; KFork 0 30] ++ kdoes 1 (lock_w 3 0 10) ++ kdoes 2 (lock_w 3 0 10) ++ kdoes 2 (lock_w 3 10 20) ++ kdoes 0 (lock_r 3 0 10) ++ kdoes 0 (lock_r 3 10 20).
Definition y156 : list klabel := x156 ++ [KDie 1] ++ kdoes 2 (CPass true) ++ kdoes 0 (lock_w 3 0 10).
Definition id10 : Z := 42949672970.
Definition id20 : Z := 85899345940.
Definition id30 : Z := 128849018910.
Lemma x156_reach : k_reach k0 (k_and k_fork_first (k_and k_careful (k_family ex_fam))) (k_exec k0 x156).
Proof. apply (kexec_reach true ex_famb); [intros s x [A B]; split; auto | vm_compute; reflexivity]. Qed.
Lemma y156_reach : k_reach k0 (k_and k_fork_first (k_and k_careful (k_family ex_fam))) (k_exec k0 y156).
Proof. apply (kexec_reach true ex_famb); [intros s x [A B]; split; auto | vm_compute; reflexivity]. Qed.
Definition brief (s : kstate) : list lstat * list (option Z) * list rpc :=
  (map (h_st (r_h (k_r s))) [21;22;23;24], map (r_res (k_r s)) [id10; id20; id30], map (r_pc (k_r s)) [id10; id20; id30]).
Example C156_case : k_reach k0 (k_and k_fork_first (k_and k_careful (k_family ex_fam))) (k_exec k0 x156) /\ equal_or_disjoint ex_fam /\
  brief (k_exec k0 x156) = ([LHeld (mkG id20 3 103 0 10 Wr); LHeld (mkG id30 3 103 10 20 Wr); LDone; LDone], [Some 16; Some 0; Some 0], [RIdle; RIdle; RIdle]) /\
  k_reach k0 (k_and k_fork_first (k_and k_careful (k_family ex_fam))) (k_exec k0 y156) /\
  brief (k_exec k0 y156) = ([LHeld (mkG id10 3 103 0 10 Wr); LHeld (mkG id30 3 103 10 20 Wr); LDone; LDone], [Some 0; Some 0; Some 0], [RIdle; RIdle; RIdle]).
Proof.
  split; [exact x156_reach|]. split; [exact ex_fam_ok|]. split; [vm_compute; reflexivity|]. split; [exact y156_reach|]. vm_compute. reflexivity.
Qed.

(** ** C157: a running holder keeps its lock until it unlocks it, also when processes fork *)
Definition C157_statement : Prop := forall UF UO UL s x i l g, NoDup UF -> NoDup UO -> NoDup UL ->
  k_reach (k_init UF UO UL) k_careful s -> k_enabled s x -> k_careful s x -> holds (k_r s) l g -> k_holder s i g ->
  (k_actor x = Some i -> ~ k_unlocking s i) -> holds (k_r (k_step s x)) l g.
(** Process 10 uses the library and forks 20, which locks a range without a file.  A pass of process 30 finds no thread 10 of process 20 and
    releases the lock. *)
Definition w157 : list klabel :=
  proc 10 :: kdoes 0 (lock_w NOFD0 0 10) ++ kdoes 0 (CUnlockRw NOFD0 0 10) ++ [KFork 0 20; proc 30] ++ kdoes 1 (lock_w NOFD0 0 10) ++ KCall 2 (CPass true) :: kruns 2 4.
Lemma k_all : forall s x, k_and k_careful (k_family (fun d o l => true = true)) s x /\ (false = true -> k_fork_first s x) -> k_careful s x.
Proof. intros s x [[A _] _]. exact A. Qed.
Lemma nodups : NoDup [1;2;3] /\ NoDup [11;12;13;14] /\ NoDup [21;22;23;24;25].
Proof. repeat split; repeat constructor; cbn; intuition lia. Qed.
Theorem C157_holder_keeps_refuted : ~ C157_statement.
Proof.
  intro H. destruct nodups as (N1 & N2 & N3).
  assert (R : k_reach k0 k_careful (k_exec k0 w157)) by (apply (kexec_reach false (fun _ _ _ => true) _ _ k_all); vm_compute; reflexivity).
  assert (HL : holds (k_r (k_exec k0 w157)) 21 (mkG 85899345930 NOFD0 (-1) 0 10 Wr)) by (vm_compute; reflexivity).
  assert (HO : k_holder (k_exec k0 w157) 1 (mkG 85899345930 NOFD0 (-1) 0 10 Wr)).
  { exists (mkU (mkT 20 20 10) true). split; [split; vm_compute; reflexivity|]. split; vm_compute; reflexivity. }
  assert (Q : holds (k_r (k_step (k_exec k0 w157) (KRun 2 false false))) 21 (mkG 85899345930 NOFD0 (-1) 0 10 Wr)).
  { apply (H _ _ _ _ (KRun 2 false false) 1%nat 21 _ N1 N2 N3 R I I HL HO). discriminate. }
  assert (E : h_st (r_h (k_r (k_step (k_exec k0 w157) (KRun 2 false false)))) 21 = LDone) by (vm_compute; reflexivity).
  unfold holds in Q. rewrite E in Q. discriminate Q.
Qed.
(** and with an ordinary descriptor if the probing process may not look into /proc of the holder *)
Definition w157b : list klabel :=
  proc 10 :: kdoes 0 (lock_w 3 0 10) ++ kdoes 0 (CUnlockRw 3 0 10) ++ [KFork 0 20; proc 30] ++ kdoes 1 (lock_w 3 0 10) ++ KCall 2 (CPass false) :: kruns 2 4.
Example C157_unprivileged : let s := k_exec k0 w157b in k_reach k0 k_careful s /\ k_holder s 1 (mkG 85899345930 3 103 0 10 Wr) /\
  h_st (r_h (k_r s)) 21 = LHeld (mkG 85899345930 3 103 0 10 Wr) /\ h_st (r_h (k_r (k_step s (KRun 2 false false)))) 21 = LDone.
Proof.
  cbv zeta. split; [|split; [|split]].
  - apply (kexec_reach false (fun _ _ _ => true) _ _ k_all). vm_compute. reflexivity.
  - exists (mkU (mkT 20 20 10) true). split; [split; vm_compute; reflexivity|]. split; vm_compute; reflexivity.
  - vm_compute. reflexivity.
  - vm_compute. reflexivity.
Qed.

Theorem C157_holder_keeps_partial : forall UF UO UL s x i l g, NoDup UF -> NoDup UO -> NoDup UL ->
  k_reach (k_init UF UO UL) (k_and k_fork_first k_careful) s -> k_enabled s x -> k_careful s x -> holds (k_r s) l g -> k_holder s i g ->
  (k_actor x = Some i -> ~ k_unlocking s i) -> holds (k_r (k_step s x)) l g.
Proof.
  intros UF UO UL s x i l g NF NO NL R _ _ HL (u & [U RU] & EI & FD) NU.
  assert (R' : k_reach (k_init UF UO UL) (okk (fun _ _ _ => True)) s).
  { apply (k_reach_mono _ (k_and k_fork_first k_careful)); auto. intros s' x' [A B]. split; auto. split; auto. destruct x'; try exact I. destruct c; exact I || (intros ? ? ? ?; exact I). }
  destruct (k_reach_sim UF UO UL _ s R' (fun _ _ => None) (fun _ => FREE_FD) (fun _ => true)) as (fds & mode & allow & m & RM & X & _).
  assert (SIm : SI UF UO UL m) by (apply (SI_reach UF UO UL NF NO NL fds mode allow (okm (fun _ _ _ => True)) m); auto; intros s' x' [A _]; exact A).
  assert (IU : In u (k_sys s)) by (eapply nth_error_In; eauto). pose proof (y_named s m u X IU) as N.
  pose proof (y_same s m X) as (V1 & V2 & V3 & V4).
  assert (HM : holds m l g) by (unfold holds in *; rewrite <- V1; auto).
  assert (PM : present m g).
  { split; [rewrite <- EI, (y_alive_u s m u X IU); auto|]. unfold file_of. change (gr_t g / two32) with (proc_of_thread (gr_t g)). rewrite <- EI, (named_proc u N).
    destruct (gr_fd g <? 0); auto. rewrite <- (y_fd s m u (gr_fd g) X IU). auto. }
  unfold holds in *. destruct x as [n tab mo al|j n|j n|j c|j race gu|j fd d|j mo|j]; cbn [k_step]; cbv zeta; auto; (destruct (k_get s j) as [w|] eqn:G; [|exact HL]); auto.
  - destruct (r_pc (k_r s) (id_of w)); exact HL.
  - destruct (r_pc (k_r s) (id_of w)) eqn:PC; try exact HL. cbn [k_r ask_r r_h]. destruct (call_env (k_r s) (id_of w) c) as (-> & _). auto.
  - cbn [k_r]. destruct (get_in s j w G) as (NW & IW & RW). pose proof (y_named s m w X IW) as NNW.
    assert (SR : same_r (r_run (k_r s) (id_of w) race gu) (r_run m (id_of w) race gu)).
    { apply view_run_r; auto.
      - apply (y_same s m X).
      - intros v GV. apply (y_alive s m); auto. right. apply (n_grd _ _ (y_says s m X)). congruence.
      - intros l0 priv dev. apply (y_probe s m); auto. rewrite V1. apply (n_tid _ _ (y_says s m X)).
      - rewrite (named_proc w NNW). apply (y_home s m X w IW). }
    destruct SR as (-> & _).
    assert (ST : r_step m (LRun (id_of w) race gu) = r_run m (id_of w) race gu) by (cbn; rewrite (y_alive_u s m w X IW), RW; auto).
    rewrite <- ST. apply (held_kept UF UO UL m (LRun (id_of w) race gu) l g SIm HM PM). cbn [actor]. intros E IN. injection E as E.
    assert (w = u) by (apply (well_nth _ w u (y_well s m X) IW IU); congruence). subst w.
    assert (j = i) by (apply (w_uniq _ (y_well s m X) j i u u); auto). subst j. apply NU; auto. exists u. split; [split; auto|]. rewrite V3, EI. auto.
Qed.
(** The child 20, forked before first use, has a lock without a file; process 30 gives up waiting for it and probes it (both ways), a pass of its
    parent probes it too, and it keeps the lock through every step. *)
Definition x157 : list klabel := [proc 10; KFork 0 20; KFork 0 30] ++ kdoes 1 (lock_w NOFD0 0 10) ++ KCall 2 (CLock Wr NOFD0 0 10 WBlock) :: kruns 2 6 ++ repeat (KRun 2 false true) 3.
Definition y157 : list klabel := x157 ++ repeat (KRun 2 false true) 4 ++ kdoes 0 (CPass true) ++ kdoes 0 (CPass false).
Example C157_case : let g := mkG id20 NOFD0 (-1) 0 10 Wr in
  k_reach k0 (k_and k_fork_first k_careful) (k_exec k0 x157) /\ k_holder (k_exec k0 x157) 1 g /\
  (exists a, r_pc (k_r (k_exec k0 x157)) id30 = AD a 1 11 22 [(Wr, 22); (Wr, 21)]) /\
  k_reach k0 (k_and k_fork_first k_careful) (k_exec k0 y157) /\ k_holder (k_exec k0 y157) 1 g /\ holds (k_r (k_exec k0 y157)) 21 g /\
  (exists a, r_pc (k_r (k_exec k0 y157)) id30 = AT a 1 11 22) /\ r_res (k_r (k_exec k0 y157)) id10 = Some 0.
Proof.
  cbv zeta.
  assert (OKF : forall s x, k_and k_careful (k_family (fun d o l => true = true)) s x /\ (true = true -> k_fork_first s x) -> k_and k_fork_first k_careful s x).
  { intros s x [[A _] B]. split; auto. }
  split; [|split; [|split; [|split; [|split; [|split; [|split]]]]]].
  - apply (kexec_reach true (fun _ _ _ => true) _ _ OKF). vm_compute. reflexivity.
  - exists (mkU (mkT 20 20 20) true). split; [split; vm_compute; reflexivity|]. split; vm_compute; reflexivity.
  - eexists. vm_compute. reflexivity.
  - apply (kexec_reach true (fun _ _ _ => true) _ _ OKF). vm_compute. reflexivity.
  - exists (mkU (mkT 20 20 20) true). split; [split; vm_compute; reflexivity|]. split; vm_compute; reflexivity.
  - vm_compute. reflexivity.
  - eexists. vm_compute. reflexivity.
  - vm_compute. reflexivity.
Qed.

Print Assumptions C156_exclusion_forks_refuted.
Print Assumptions C156_exclusion_forks_partial.
Print Assumptions C157_holder_keeps_refuted.
Print Assumptions C157_holder_keeps_partial.
