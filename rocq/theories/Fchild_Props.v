(** C145, C146: mutexes of forking processes. *)
From Coq Require Import ZArith List Bool Lia.
From Verif Require Import Base Pid_Model Pid_Proofs Mutex_Model Mutex_Proofs Mutex_Proofs2 Mutex_Props Fchild_Model Fchild_Spec Fchild_Proofs.
Import ListNotations.
Open Scope Z_scope.

(** ** Running schedules *)
Definition fresh_b (s : fstate) (n : Z) : bool :=
  (0 <? n) && (n <=? INT_MAX) && forallb (fun u => negb (t_pid (u_t u) =? n) && negb (t_tid (u_t u) =? n) && negb (t_cache (u_t u) =? n)) (f_sys s).
Definition ok_b (first : bool) (s : fstate) (x : flabel) : bool :=
  match x with
  | FProc n | FThread _ n => fresh_b s n
  | FFork i n => fresh_b s n && (negb first || match nth_error (f_sys s) i with Some u => t_cache (u_t u) =? 0 | None => true end)
  | FCall _ _ | FRun _ _ => true
  | FDie i => first && forallb (fun w => match m_pc (f_m s) (id_of w) with MK1 _ _ => false | _ => true end) (f_sys s)
  end.
Lemma fresh_b_spec : forall s n, fresh_b s n = true -> fresh s n.
Proof.
  intros s n H. unfold fresh_b in H. apply andb_true_iff in H as [H F]. apply andb_true_iff in H as [A B]. apply Z.ltb_lt in A. apply Z.leb_le in B.
  split; [lia|]. intros u U. rewrite forallb_forall in F. specialize (F u U). apply andb_true_iff in F as [F F3]. apply andb_true_iff in F as [F1 F2].
  apply negb_true_iff in F1, F2, F3. apply Z.eqb_neq in F1, F2, F3. auto.
Qed.
Lemma ok_b_nobody : forall s x, ok_b false s x = true -> f_enabled s x /\ nobody_dies s x.
Proof. intros s x H. destruct x; cbn in *; try discriminate; (split; [|exact I]); auto; apply fresh_b_spec; auto. apply andb_true_iff in H as [H _]. auto. Qed.
Lemma ok_b_first : forall s x, ok_b true s x = true -> f_enabled s x /\ both fork_first no_window s x.
Proof.
  intros s x H. destruct x as [n|i n|i n|i c|i b|i]; cbn in *; try (split; [first [exact I | apply fresh_b_spec; auto] | split; exact I]).
  - apply andb_true_iff in H as [H F]. split; [apply fresh_b_spec; auto | split; [|exact I]]. intros u [U _]. rewrite U in F. apply Z.eqb_eq; auto.
  - split; [exact I | split; [exact I|]]. intros u j w ret RU [RW _] PC. rewrite forallb_forall in H. specialize (H w (nth_error_In _ _ RW)).
    rewrite PC in H. discriminate.
Qed.
Fixpoint all_b (first : bool) (s : fstate) (ls : list flabel) : bool :=
  match ls with [] => true | x :: r => ok_b first s x && all_b first (f_step s x) r end.
Lemma exec_reach : forall first (ok : fstate -> flabel -> Prop), (forall s x, ok_b first s x = true -> f_enabled s x /\ ok s x) ->
  forall ls, all_b first f_init ls = true -> f_reach ok (f_exec f_init ls).
Proof.
  intros first ok H ls. cut (forall s, f_reach ok s -> all_b first s ls = true -> f_reach ok (f_exec s ls)).
  { intros K E. apply K; auto. constructor. }
  induction ls as [|x ls IH]; intros s R E; cbn in *; auto. apply andb_true_iff in E as [E1 E2]. destruct (H s x E1) as [A B].
  apply IH; auto. apply fr_step; auto.
Qed.

Definition runs (i n : nat) : list flabel := repeat (FRun i false) n.
Definition locks (i : nat) : list flabel := FCall i (CLock MBlock) :: runs i 3.
Definition unlocks (i : nat) : list flabel := FCall i CUnlock :: runs i 6.

(** ** C145: a mutex belongs to one running thread, also when processes fork *)
Definition C145_statement : Prop := forall s, f_reach nobody_dies s -> exclusive s owns.
(** Process 10 uses the mutex and forks process 20, which locks it.  Process 30 asks for it: /proc has no thread 10 of process
    20, so the lock is taken from the child, which still runs and still has it. *)
Definition w145 : list flabel := FProc 10 :: locks 0 ++ unlocks 0 ++ [FFork 0 20; FProc 30] ++ locks 1 ++ FCall 2 (CLock MBlock) :: runs 2 13.
Lemma w145_reach : f_reach nobody_dies (f_exec f_init w145).
Proof. apply (exec_reach false); [apply ok_b_nobody | vm_compute; reflexivity]. Qed.
Theorem C145_exclusion_forks_refuted : ~ C145_statement.
Proof.
  intro H. assert (E : 1%nat = 2%nat); [|discriminate E].
  apply (H _ w145_reach 1%nat 2%nat (mkU (mkT 20 20 10) true) (mkU (mkT 30 30 30) true)); unfold owns; try split; vm_compute; reflexivity.
Qed.

Theorem C145_exclusion_forks_partial : forall s, f_reach (both fork_first no_window) s -> exclusive s owns.
Proof.
  intros s R i j ui uj [Ui Ri] [Uj Rj] Oi Oj. destruct (f_reach_sim s R) as (m & RM & X).
  pose proof (x_view s m X) as (_ & _ & _ & _ & V & _). unfold owns in *. rewrite V in Oi, Oj.
  assert (Ii : In ui (f_sys s)) by (eapply nth_error_In; eauto). assert (Ij : In uj (f_sys s)) by (eapply nth_error_In; eauto).
  assert (E : id_of ui = id_of uj) by (apply (C11_exclusion_with_deaths m); auto; rewrite (x_alive s m X); auto).
  pose proof (well_nth _ ui uj (x_well s m X) Ii Ij E). subst uj. apply (w_uniq _ (x_well s m X) i j ui ui); auto.
Qed.
(** Process 10 forks 20 and 30 and starts a second thread before any of them uses the library.  The child locks and dies; the mutex
    is taken from it by process 30, and the second thread of process 10 waits for it. *)
Definition x145 : list flabel :=
  [FProc 10; FFork 0 20; FFork 0 30; FThread 0 40] ++ locks 1 ++ [FDie 1] ++ FCall 2 (CLock MBlock) :: runs 2 13 ++ FCall 3 (CLock MBlock) :: runs 3 20.
Example C145_case : let s := f_exec f_init x145 in
  f_reach (both fork_first no_window) s /\ (exists u, running s 2 u /\ owns s u /\ t_pid (u_t u) = 30) /\
  (exists u, running s 3 u /\ ~ owns s u /\ t_pid (u_t u) = 10) /\ (exists u, nth_error (f_sys s) 1 = Some u /\ u_run u = false /\ owns s u).
Proof.
  cbv zeta. split; [apply (exec_reach true); [apply ok_b_first | vm_compute; reflexivity]|].
  split; [|split].
  - exists (mkU (mkT 30 30 30) true). unfold running, owns. vm_compute. auto.
  - exists (mkU (mkT 10 40 40) true). unfold running, owns. vm_compute. split; auto. split; [discriminate | auto].
  - exists (mkU (mkT 20 20 20) false). unfold owns. vm_compute. auto.
Qed.

(** ** C146: one running thread at a time is inside the guard of the list of mutexes *)
Definition C146_statement : Prop := forall s, f_reach nobody_dies s -> exclusive s inside_list.
(** the child releases its lock; while it holds the guard, process 30 takes the guard from it *)
Definition w146 : list flabel := FProc 10 :: locks 0 ++ unlocks 0 ++ [FFork 0 20; FProc 30] ++ locks 1 ++ FCall 1 CUnlock :: runs 1 3 ++ FCall 2 CRecover :: runs 2 1.
Lemma w146_reach : f_reach nobody_dies (f_exec f_init w146).
Proof. apply (exec_reach false); [apply ok_b_nobody | vm_compute; reflexivity]. Qed.
Theorem C146_one_inside_refuted : ~ C146_statement.
Proof.
  intro H. assert (E : 1%nat = 2%nat); [|discriminate E].
  apply (H _ w146_reach 1%nat 2%nat (mkU (mkT 20 20 10) true) (mkU (mkT 30 30 30) true)).
  - split; vm_compute; reflexivity.
  - split; vm_compute; reflexivity.
  - vm_compute. reflexivity.
  - vm_compute. exact I.
Qed.

Lemma inside_guard : forall s u, inside_list s u -> in_guard (m_pc (f_m s) (id_of u)).
Proof. intros s u. unfold inside_list, in_guard. destruct (m_pc (f_m s) (id_of u)); auto; intros ->; auto. Qed.
Theorem C146_one_inside_partial : forall s, f_reach (both fork_first no_window) s -> exclusive s inside_list.
Proof.
  intros s R i j ui uj [Ui Ri] [Uj Rj] Gi Gj. destruct (f_reach_sim s R) as (m & RM & X). apply inside_guard in Gi, Gj.
  pose proof (x_view s m X) as (_ & _ & _ & V & _). rewrite V in Gi, Gj.
  assert (Ii : In ui (f_sys s)) by (eapply nth_error_In; eauto). assert (Ij : In uj (f_sys s)) by (eapply nth_error_In; eauto).
  pose proof (inv_window m RM) as I. assert (E : id_of ui = id_of uj).
  { rewrite <- (mi_guard m I (id_of ui)); auto; [apply (mi_guard m I (id_of uj)); auto|]; rewrite (x_alive s m X); auto. }
  pose proof (well_nth _ ui uj (x_well s m X) Ii Ij E). subst uj. apply (w_uniq _ (x_well s m X) i j ui ui); auto.
Qed.
(** Children of a process that had not used the library: one releases its lock and is inside the guard, the other waits for the guard. *)
Definition x146 : list flabel := [FProc 10; FFork 0 20; FFork 0 30] ++ locks 1 ++ FCall 1 CUnlock :: runs 1 3 ++ FCall 2 CRecover :: runs 2 5.
Example C146_case : let s := f_exec f_init x146 in
  f_reach (both fork_first no_window) s /\ (exists u, running s 1 u /\ inside_list s u) /\
  (exists u, running s 2 u /\ ~ inside_list s u /\ m_pc (f_m s) (id_of u) = MKGuard None).
Proof.
  cbv zeta. split; [apply (exec_reach true); [apply ok_b_first | vm_compute; reflexivity]|]. split.
  - exists (mkU (mkT 20 20 20) true). unfold running, inside_list. vm_compute. auto.
  - exists (mkU (mkT 30 30 30) true). unfold running, inside_list. vm_compute. auto.
Qed.

Print Assumptions C145_exclusion_forks_refuted.
Print Assumptions C145_exclusion_forks_partial.
Print Assumptions C146_one_inside_refuted.
Print Assumptions C146_one_inside_partial.
