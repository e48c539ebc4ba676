(** Properties of attaching to the shared file: C47-C49 and C73, C74. *)
From Coq Require Import ZArith List Bool Lia.
From Verif Require Import Base Init_Model Init_Spec Init_Proofs Init_Proofs2 Init_Proofs3 Init_Exec.
Import ListNotations.
Open Scope Z_scope.

(** ** C47: never re-initialised under an attached process, without fork *)
Definition C47_statement : Prop := forall s t fail q, i_reach no_forks s -> rewrites s (IRun t fail) -> attached s q -> q = proc t.

(** Two threads of process 1 attach at the same time (a RETRY mode).  The one that created the file loses the race for the write lock
    to process 2 and closes the descriptor of its process after the other one has attached: the locks of process 1 are gone.
    Process 2 exits; process 3 truncates the file that process 1 has mapped. *)
Definition w47 : list ilabel :=
  [ISpawn 1; ISpawn 2; ICall (main 1) (CUse true); ICall (second 1) (CUse true); IRun (main 1) false; ICall (main 2) CInit] ++ runs (main 2) 10 ++
  runs (main 1) 1 ++ runs (second 1) 7 ++ runs (main 1) 1 ++ [IDie 2; ISpawn 3; ICall (main 3) CInit] ++ runs (main 3) 3.

Theorem C47_no_reinit_refuted : ~ C47_statement.
Proof.
  intro H. assert (R : i_reach no_forks (i_exec i_init w47)).
  { apply (exec_reach no_forks nofork_b); [|vm_compute; reflexivity]. intros l x. destruct x; simpl; auto; discriminate. }
  assert (E : 1 = proc (main 3)).
  { apply (H _ (main 3) false 1 R).
    - intro X. vm_compute in X. discriminate X.
    - split; vm_compute; reflexivity. }
  vm_compute in E. discriminate E.
Qed.

(** When the calls of one process do not overlap with its initialisation, the content is changed only by a process that holds the
    exclusive lock, and no other process is attached. *)
Theorem C47_no_reinit_partial : forall s t fail, i_reach (both no_forks one_at_a_time) s -> rewrites s (IRun t fail) ->
  i_wr s = Some (proc t) /\ forall q, attached s q -> q = proc t.
Proof.
  intros s t fail R RW.
  assert (V : inv s) by (apply (reach_inv _ s (fun s x (H : both no_forks one_at_a_time s x) => proj2 H) R)).
  split; [apply (rewriter s t fail V); auto; apply (absent_empty _ s R)|]. intros q A.
  destruct (rewriter_alone s t fail q V (absent_empty _ s R) RW A) as [H|H]; auto.
  rewrite (no_inh _ s (fun s x (H : both no_forks one_at_a_time s x) => proj1 H) R) in H. discriminate H.
Qed.
(** Process 1 is attached and exits; process 2 starts and truncates the file: the hypotheses are met, by an execution in which
    the file had been complete. *)
Definition x47 : list ilabel :=
  [ISpawn 1; ICall (main 1) CInit] ++ runs (main 1) 9 ++ [IDie 1; ISpawn 2; ICall (main 2) CInit] ++ runs (main 2) 3.
Definition both_b (f g : list ilabel -> ilabel -> bool) (l : list ilabel) (x : ilabel) : bool := f l x && g l x.
Example C47_case : i_reach (both no_forks one_at_a_time) (i_exec i_init x47) /\ rewrites (i_exec i_init x47) (IRun (main 2) false) /\
  i_file (i_exec i_init x47) = FReady.
Proof.
  split; [|split; [intro X; vm_compute in X; discriminate X | vm_compute; reflexivity]].
  apply (exec_reach _ (both_b nofork_b one_b)); [|vm_compute; reflexivity]. intros l x H. apply andb_true_iff in H as [H1 H2].
  split; [destruct x; simpl in *; auto; discriminate H1 | apply one_b_spec; auto].
Qed.

(** ** C48: never re-initialised under a forked child *)
Definition C48_statement : Prop := forall s t fail q, i_reach one_at_a_time s -> rewrites s (IRun t fail) -> attached s q -> i_inh s q = true -> q = proc t.

(** Process 1 attaches and forks process 2, which inherits the mapping but not the lock.  Process 1 exits; process 3 starts. *)
Definition w48 : list ilabel :=
  [ISpawn 1; ICall (main 1) CInit] ++ runs (main 1) 9 ++ [IFork (main 1) 2; IDie 1; ISpawn 3; ICall (main 3) CInit] ++ runs (main 3) 3.

Lemma w48_reach : i_reach one_at_a_time (i_exec i_init w48).
Proof. apply (exec_reach _ one_b); [apply one_b_spec | vm_compute; reflexivity]. Qed.

Theorem C48_forked_child_refuted : ~ C48_statement.
Proof.
  intro H. assert (E : 2 = proc (main 3)).
  { apply (H _ (main 3) false 2 w48_reach).
    - intro X. vm_compute in X. discriminate X.
    - split; vm_compute; reflexivity.
    - vm_compute; reflexivity. }
  vm_compute in E. discriminate E.
Qed.

(** What remains with forks: a process that attached itself is never caught. *)
Theorem C48_forked_child_partial : forall s t fail q, i_reach one_at_a_time s -> rewrites s (IRun t fail) -> attached s q -> i_inh s q = false -> q = proc t.
Proof.
  intros s t fail q R RW A I. assert (V : inv s) by (apply (reach_inv _ s (fun s x H => H) R)).
  destruct (rewriter_alone s t fail q V (absent_empty _ s R) RW A) as [H|H]; auto. congruence.
Qed.
Example C48_case : i_reach one_at_a_time (i_exec i_init (w48 ++ runs (main 3) 4)) /\
  rewrites (i_exec i_init (w48 ++ runs (main 3) 4)) (IRun (main 3) false) /\ attached (i_exec i_init (w48 ++ runs (main 3) 4)) 3 /\
  i_inh (i_exec i_init (w48 ++ runs (main 3) 4)) 3 = false /\ attached (i_exec i_init (w48 ++ runs (main 3) 4)) 2.
Proof.
  split; [apply (exec_reach _ one_b); [apply one_b_spec | vm_compute; reflexivity]|].
  split; [intro X; vm_compute in X; discriminate X|]. repeat split; vm_compute; reflexivity.
Qed.

(** ** C49: concurrent start-up *)
Definition only_two (p q : Z) (s : istate) (x : ilabel) : Prop := match x with ISpawn r => r = p \/ r = q | _ => True end.
Definition C49_statement : Prop := forall p q s t, i_reach (both (only_two p q) starts) s -> failed s t -> attached s (proc t).

Definition starts_bb (l : list ilabel) (x : ilabel) : bool := one_b l x && (nofail_b l x && starts_b l x).
Lemma starts_bb_spec : forall l x, starts_bb l x = true -> starts (i_exec i_init l) x.
Proof.
  intros l x H. unfold starts_bb in H. apply andb_true_iff in H as [H1 H]. apply andb_true_iff in H as [H2 H3]. split; [apply one_b_spec; auto|].
  split; destruct x as [| | |? [| |]|? [|]]; simpl in *; auto; discriminate.
Qed.

(** Process 1 creates the file; before it locks the new file, process 2 opens it and takes the write lock. *)
Definition w49 : list ilabel :=
  [ISpawn 1; ISpawn 2; ICall (main 1) CInit; IRun (main 1) false; ICall (main 2) CInit] ++ runs (main 2) 3 ++ runs (main 1) 2.
Theorem C49_concurrent_start_refuted : ~ C49_statement.
Proof.
  intro H. assert (R : i_reach (both (only_two 1 2) starts) (i_exec i_init w49)).
  { apply (exec_reach _ (both_b (fun _ x => match x with ISpawn r => (r =? 1) || (r =? 2) | _ => true end) starts_bb)); [|vm_compute; reflexivity].
    intros l x C. apply andb_true_iff in C as [C1 C2]. split; [|apply starts_bb_spec; auto].
    destruct x; simpl; auto. apply orb_true_iff in C1 as [C1|C1]; apply Z.eqb_eq in C1; auto. }
  assert (F : failed (i_exec i_init w49) (main 1)) by (vm_compute; reflexivity).
  destruct (H 1 2 _ _ R F) as [_ M]. vm_compute in M. discriminate M.
Qed.

(** Any number of processes start, no system call fails.  A start that fails has met somebody else: once every call has returned,
    some process is attached to a complete file. *)
Theorem C49_somebody_attaches_partial : forall s t, i_reach starts s -> failed s t -> (forall u, idle s u) ->
  exists q, attached s q /\ i_file s = FReady.
Proof.
  intros s t R F ID. destruct (reach_inv3 _ s (fun s x H => H) R) as (V & W & X).
  destruct (x_held s X t (or_intror F)) as [H|H].
  - destruct (i_wr s) as [p|] eqn:E; [|congruence]. destruct (w_wr s W p E) as (u & _ & I). rewrite (ID u) in I. contradiction.
  - destruct (i_rd s) as [|q l] eqn:E; [congruence|]. exists q. assert (IN : In q (i_rd s)) by (rewrite E; left; auto).
    assert (FD : i_fd s q = true) by (apply (x_fd s X); auto).
    split; [split|apply W; congruence].
    + destruct (i_alive s q) eqn:A; auto. destruct (v_dead s V q A). congruence.
    + rewrite <- (v_calm s V q); auto. intros u _. rewrite (ID u). auto.
Qed.
Lemma reach_idle : forall l u, ~ In u (threads_of l) -> i_pc (i_exec i_init l) u = IIdle.
Proof. intros. apply untouched; auto. Qed.
Example C49_case : i_reach starts (i_exec i_init (w49 ++ runs (main 2) 7)) /\ failed (i_exec i_init (w49 ++ runs (main 2) 7)) (main 1) /\
  (forall u, idle (i_exec i_init (w49 ++ runs (main 2) 7)) u).
Proof.
  split; [apply (exec_reach _ starts_bb); [apply starts_bb_spec | vm_compute; reflexivity]|]. split; [vm_compute; reflexivity|].
  intro u. assert (B : procb (w49 ++ runs (main 2) 7) is_idle (proc u) = true).
  { unfold procb. apply forallb_forall. intros x I. assert (E : is_idle (i_pc (i_exec i_init (w49 ++ runs (main 2) 7)) x) = true).
    { assert (A : forallb (fun x => is_idle (i_pc (i_exec i_init (w49 ++ runs (main 2) 7)) x)) (threads_of (w49 ++ runs (main 2) 7)) = true) by (vm_compute; reflexivity).
      rewrite forallb_forall in A. apply A; auto. }
    rewrite E. destruct (proc x =? proc u); reflexivity. }
  pose proof (procb_all _ is_idle _ eq_refl B u eq_refl) as I. unfold idle. destruct (i_pc (i_exec i_init (w49 ++ runs (main 2) 7)) u); auto; discriminate I.
Qed.

(** A start that is not disturbed succeeds: it initialises the file when nobody is attached, and joins a complete file otherwise. *)
Theorem C49_undisturbed_start_partial : forall s t, i_reach one_at_a_time s -> i_alive s (proc t) = true -> all_idle s (proc t) -> i_fd s (proc t) = false ->
  i_wr s = None -> (i_rd s = [] \/ (i_exists s = true /\ i_file s = FReady)) ->
  exists n, (n <= 10)%nat /\ started (i_exec s (ICall t CInit :: runs t n)) t.
Proof.
  intros s t R A AI F W C. assert (V : inv s) by (apply (reach_inv _ s (fun s x H => H) R)).
  assert (M : i_map s (proc t) = false). { rewrite <- (v_calm s V); auto. intros u U. rewrite (AI u U). auto. }
  destruct (without (proc t) (i_rd s)) as [|q l] eqn:E; [apply solo_fresh; auto; apply AI; auto|].
  destruct C as [C|[C1 C2]]; [rewrite C in E; discriminate E|].
  exists 6%nat. split; [lia|]. apply solo_join; auto; [apply AI; auto|]. exists q. apply in_without. rewrite E. left; auto.
Qed.
Example C49_undisturbed_case : exists s t, i_reach one_at_a_time s /\ i_alive s (proc t) = true /\ i_fd s (proc t) = false /\
  i_wr s = None /\ i_rd s = [1] /\ i_exists s = true /\ i_file s = FReady /\ all_idle s (proc t).
Proof.
  set (l := [ISpawn 1; ISpawn 2; ICall (main 1) CInit] ++ runs (main 1) 9). exists (i_exec i_init l), (main 2).
  split; [apply (exec_reach _ one_b); [apply one_b_spec | vm_compute; reflexivity]|].
  do 6 (split; [vm_compute; reflexivity|]). intros u U. apply reach_idle. intro I.
  assert (A : forallb (fun x => proc x =? 1) (threads_of l) = true) by (vm_compute; reflexivity).
  rewrite forallb_forall in A. specialize (A u I). rewrite U in A. vm_compute in A. discriminate A.
Qed.

(** ** C73: a process joins only a completely initialised file *)
(** thread [t] of a process that does not hold the exclusive lock maps the file *)
Definition joins (s : istate) (t : Z) (fail : bool) : Prop :=
  i_map s (proc t) = false /\ i_map (i_step s (IRun t fail)) (proc t) = true /\ i_wr s <> Some (proc t).
Definition C73_statement : Prop := forall s t fail, i_reach one_at_a_time s -> joins s t fail -> i_file s = FReady.

(** The process that initialises the file dies after writing the head; a process waiting for the read lock gets it. *)
Definition w73 : list ilabel :=
  [ISpawn 1; ISpawn 2; ICall (main 1) CInit] ++ runs (main 1) 6 ++ [ICall (main 2) CInit] ++ runs (main 2) 3 ++ [IDie 1] ++ runs (main 2) 1.
Theorem C73_joins_complete_refuted : ~ C73_statement.
Proof.
  intro H. assert (R : i_reach one_at_a_time (i_exec i_init w73)) by (apply (exec_reach _ one_b); [apply one_b_spec | vm_compute; reflexivity]).
  assert (E : i_file (i_exec i_init w73) = FReady).
  { apply (H _ (main 2) false R). split; [vm_compute; reflexivity|]. split; [vm_compute; reflexivity|]. intro X. vm_compute in X. discriminate X. }
  vm_compute in E. discriminate E.
Qed.

Lemma joins_attach : forall s t fail, inv s -> joins s t fail -> i_pc s t = IAttach.
Proof.
  intros s t fail V (M & M' & W). pose proof (v_pok s V t) as PK. unfold pok in PK. cbn [i_step] in M'. destruct (i_alive s (proc t)); [|congruence].
  unfold i_run, done in M'. destruct (i_pc s t) eqn:PC; auto; exfalso; try (destruct PK as (_ & _ & PK); congruence); try (cbn in M'; congruence).
  - destruct fail; [cbn in M'; congruence|]. destruct (i_exists s); cbn in M'; congruence.
  - destruct fail; cbn in M'; congruence.
  - destruct (n <? 100); [destruct (can_write s (proc t) && negb fail)|]; cbn in M'; congruence.
  - destruct (can_read s (proc t) && negb fail); cbn in M'; congruence.
  - destruct (can_write s (proc t) && negb fail); cbn in M'; congruence.
  - destruct fail; [|destruct (i_use s t)]; cbn in M'; congruence.
  - cbn in M'. rewrite upd_eq in M'. discriminate M'.
  - destruct (i_fd s (proc t)); cbn in M'; congruence.
  - destruct (i_fd s (proc t)); cbn in M'; congruence.
  - destruct (i_map s (proc t)); [discriminate M|]. cbn in M'. rewrite upd_eq in M'. discriminate M'.
Qed.

(** Without deaths and failing system calls every process that joins finds the complete file; forks and detaching are allowed. *)
Theorem C73_joins_complete_partial : forall s t fail, i_reach calm s -> joins s t fail -> i_file s = FReady.
Proof.
  intros s t fail R J. destruct (reach_inv2 _ s (fun s x H => H) R) as (V & W). pose proof (joins_attach s t fail V J) as PC.
  pose proof (v_pok s V t) as PK. unfold pok in PK. rewrite PC in PK. destruct PK as (_ & _ & I). apply W. intro E. rewrite E in I. contradiction.
Qed.
Definition calm_bb (l : list ilabel) (x : ilabel) : bool := one_b l x && (nodeath_b l x && nofail_b l x).
Lemma calm_bb_spec : forall l x, calm_bb l x = true -> calm (i_exec i_init l) x.
Proof.
  intros l x H. unfold calm_bb in H. apply andb_true_iff in H as [H1 H]. apply andb_true_iff in H as [H2 H3]. split; [apply one_b_spec; auto|].
  split; destruct x as [| | |? [| |]|? [|]]; simpl in *; auto; discriminate.
Qed.
(** process 2 starts while process 1 initialises: it waits for the read lock and joins *)
Example C73_case : exists s t, i_reach calm s /\ joins s t false.
Proof.
  exists (i_exec i_init ([ISpawn 1; ISpawn 2; ICall (main 1) CInit] ++ runs (main 1) 4 ++ [ICall (main 2) CInit] ++ runs (main 2) 5 ++ runs (main 1) 5 ++ runs (main 2) 1)), (main 2).
  split; [apply (exec_reach _ calm_bb); [apply calm_bb_spec | vm_compute; reflexivity]|].
  split; [vm_compute; reflexivity|]. split; [vm_compute; reflexivity|]. intro X. vm_compute in X. discriminate X.
Qed.

(** ** C74: no call touches memory that is not there *)
Definition C74_statement : Prop := forall s p, i_reach any_schedule s -> i_crash s p = false.

(** Two threads in a RETRY mode, no death, no failure: the second one finds the descriptor set but nothing mapped yet. *)
Definition w74 : list ilabel := [ISpawn 1; ICall (main 1) (CUse true); IRun (main 1) false; ICall (second 1) (CUse true); IRun (second 1) false].
Theorem C74_no_crash_refuted : ~ C74_statement.
Proof.
  intro H. assert (R : i_reach any_schedule (i_exec i_init w74)) by (apply (exec_reach _ (fun _ _ => true)); [intros; exact I | vm_compute; reflexivity]).
  pose proof (H _ 1 R) as E. vm_compute in E. discriminate E.
Qed.
(** One thread per process, but the creator dies right after truncating: the waiting process reads the head of an empty file. *)
Definition w74b : list ilabel :=
  [ISpawn 1; ISpawn 2; ICall (main 1) CInit] ++ runs (main 1) 3 ++ [ICall (main 2) CInit] ++ runs (main 2) 3 ++ [IDie 1] ++ runs (main 2) 2.
Theorem C74_crash_after_death_refuted : ~ (forall s p, i_reach one_at_a_time s -> i_crash s p = false).
Proof.
  intro H. assert (R : i_reach one_at_a_time (i_exec i_init w74b)) by (apply (exec_reach _ one_b); [apply one_b_spec | vm_compute; reflexivity]).
  pose proof (H _ 2 R) as E. vm_compute in E. discriminate E.
Qed.

Lemma crash_step : forall s x p, inv s -> (forall t, i_pc s t = IAttach -> i_file s <> FEmpty) -> i_crash s p = false -> i_crash (i_step s x) p = false.
Proof.
  intros s x p V NE H. destruct x as [q|q|t u|t c|t f]; cbn [i_step].
  - destruct (i_alive s q); cbn; auto.
  - destruct (i_alive s q); cbn; auto.
  - destruct (i_alive s (proc t) && negb (i_alive s u)); auto. destruct (i_pc s t); cbn; auto.
  - destruct (i_alive s (proc t)); auto. destruct (i_pc s t); auto. unfold i_call. destruct c as [| |[|]]; destruct (i_fd s (proc t)); cbn; auto.
  - destruct (i_alive s (proc t)); auto. pose proof (v_pok s V t) as PK. unfold pok in PK. specialize (NE t). unfold i_run, done. destruct (i_pc s t); auto;
    try (destruct PK as [_ ->]; auto);
    repeat match goal with
    | |- context [if ?b then _ else _] => destruct b
    | |- context [match i_file s with _ => _ end] => destruct (i_file s) eqn:?; [destruct (NE eq_refl eq_refl)| | |]
    end; cbn; auto.
Qed.
Theorem C74_no_crash_partial : forall s p, i_reach calm s -> i_crash s p = false.
Proof.
  intros s p R. induction R as [|s x R IH O]; auto. destruct (reach_inv2 _ s (fun s x H => H) R) as (V & W). apply crash_step; auto.
  intros t PC. pose proof (v_pok s V t) as PK. unfold pok in PK. rewrite PC in PK. destruct PK as (_ & _ & I).
  assert (E : i_file s = FReady) by (apply W; intro E; rewrite E in I; contradiction). congruence.
Qed.
(** and with deaths and failing system calls, a lock call that found the file attached never crashes *)
Theorem C74_lock_call_partial : forall s t fail p, i_reach one_at_a_time s -> i_pc s t = IUse -> i_crash s p = false -> i_crash (i_step s (IRun t fail)) p = false.
Proof.
  intros s t fail p R PC H. assert (V : inv s) by (apply (reach_inv _ s (fun s x H => H) R)). cbn [i_step]. destruct (i_alive s (proc t)); auto.
  unfold i_run. rewrite PC. pose proof (v_pok s V t) as PK. unfold pok in PK. rewrite PC in PK. destruct PK as [_ ->]. auto.
Qed.
Example C74_case : exists s t, i_reach calm s /\ i_pc s t = IUse /\ i_res (i_step s (IRun t false)) t = Some true.
Proof.
  exists (i_exec i_init ([ISpawn 1; ICall (main 1) (CUse true)] ++ runs (main 1) 9)), (main 1).
  split; [apply (exec_reach _ calm_bb); [apply calm_bb_spec | vm_compute; reflexivity]|]. split; vm_compute; reflexivity.
Qed.

(** ** C108: a process is attached or not, nothing between, and a detach gives everything up *)
(** Whenever no call is running in a process, it has the mapping, the descriptor and the shared lock, or none of them,
    and never the exclusive lock; deaths, failing system calls and forks included. *)
Theorem C108_all_or_nothing : forall s p, i_reach one_at_a_time s -> all_idle s p -> fully_attached s p \/ detached s p.
Proof.
  intros s p R AI. destruct (reach_invl s R) as [V L]. destruct (calm_all s p V L AI) as [(A & B & C & D)|H]; [right|left; exact H].
  repeat split; auto.
Qed.
(** A detach that is not overlapped by other calls of its process, whatever other processes do and whatever fails meanwhile:
    when it has returned, it reports success and the process holds nothing. *)
Theorem C108_detach : forall s t ls s', i_reach one_at_a_time s -> i_alive s (proc t) = true -> all_idle s (proc t) ->
  i_path one_at_a_time (i_step s (ICall t CDestroy)) ls s' ->
  (forall x, In x ls -> elsewhere (proc t) x \/ exists b, x = IRun t b) -> idle s' t ->
  i_res s' t = Some true /\ detached s' (proc t).
Proof.
  intros s t ls s' R A AI P Q ID. destruct (reach_invl s R) as [V L].
  assert (V' : inv (i_step s (ICall t CDestroy))) by (apply inv_step; auto).
  assert (D : det_st (i_step s (ICall t CDestroy)) t /\ i_alive (i_step s (ICall t CDestroy)) (proc t) = true).
  { cbn [i_step]. rewrite A, (AI t eq_refl). cbn [i_call]. destruct (i_fd s (proc t)) eqn:F; (split; [|exact A]).
    - unfold det_st. cbn. rewrite upd_eq. reflexivity.
    - unfold det_st. cbn. rewrite !upd_eq. split; auto. destruct (calm_all s (proc t) V L AI) as [H|H]; [exact H|].
      destruct H as (_ & X & _). congruence. }
  destruct D as [D A']. pose proof (det_path _ _ _ _ P V' A' D Q) as H. unfold det_st in H. rewrite ID in H.
  destruct H as [H1 (H2 & H3 & H4 & H5)]. repeat split; auto.
Qed.
(** two attached processes; the first detaches in three steps, the second stays attached and can then be the only one *)
Lemma runs_path : forall t n s, i_path one_at_a_time s (runs t n) (i_exec s (runs t n)).
Proof. intros t n. induction n as [|n IH]; intro s; [apply ip_nil|]. apply ip_cons; [exact I|apply IH]. Qed.
Example C108_case : exists s s', i_reach one_at_a_time s /\ i_path one_at_a_time (i_step s (ICall (main 1) CDestroy)) (runs (main 1) 3) s' /\
  fully_attached s 1 /\ fully_attached s 2 /\ idle s' (main 1) /\ detached s' 1 /\ fully_attached s' 2.
Proof.
  set (l := [ISpawn 1; ISpawn 2; ICall (main 1) CInit] ++ runs (main 1) 9 ++ [ICall (main 2) CInit] ++ runs (main 2) 6).
  set (s := i_exec i_init l). set (s' := i_exec (i_step s (ICall (main 1) CDestroy)) (runs (main 1) 3)).
  assert (R : i_rd s = [2; 1]) by (vm_compute; reflexivity). assert (W : i_wr s = None) by (vm_compute; reflexivity).
  assert (R' : i_rd s' = [2]) by (vm_compute; reflexivity). assert (W' : i_wr s' = None) by (vm_compute; reflexivity).
  exists s, s'. unfold fully_attached, detached, idle. rewrite R, W, R', W'.
  split; [apply (exec_reach _ one_b); [apply one_b_spec | vm_compute; reflexivity]|].
  split; [apply runs_path|].
  split; [|split; [|split; [|split]]]; try (vm_compute; reflexivity).
  - split; [vm_compute; reflexivity|]. split; [vm_compute; reflexivity|]. split; [intro X; discriminate X|]. left. right. left. reflexivity.
  - split; [vm_compute; reflexivity|]. split; [vm_compute; reflexivity|]. split; [intro X; discriminate X|]. left. left. reflexivity.
  - split; [vm_compute; reflexivity|]. split; [vm_compute; reflexivity|]. split; [intros [X|[]]; discriminate X|]. intro X; discriminate X.
  - split; [vm_compute; reflexivity|]. split; [vm_compute; reflexivity|]. split; [intro X; discriminate X|]. left. left. reflexivity.
Qed.

Print Assumptions C47_no_reinit_refuted.
Print Assumptions C47_no_reinit_partial.
Print Assumptions C48_forked_child_refuted.
Print Assumptions C48_forked_child_partial.
Print Assumptions C49_concurrent_start_refuted.
Print Assumptions C49_somebody_attaches_partial.
Print Assumptions C49_undisturbed_start_partial.
Print Assumptions C73_joins_complete_refuted.
Print Assumptions C73_joins_complete_partial.
Print Assumptions C74_no_crash_refuted.
Print Assumptions C74_crash_after_death_refuted.
Print Assumptions C74_no_crash_partial.
Print Assumptions C74_lock_call_partial.
Print Assumptions C108_all_or_nothing.
Print Assumptions C108_detach.
