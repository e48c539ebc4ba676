(** Properties C143 and C144: the lengths of the shared file and of its mappings. *)
From Coq Require Import ZArith List Bool Lia.
From Verif Require Import Base List_Model Layout_Model Layout_Spec Layout_Props Init_Model Init_Spec Init_Proofs Init_Proofs2 Init_Exec Init_Props
  Mlen_Model Mlen_Spec Mlen_Proofs.
Import ListNotations.
Open Scope Z_scope.

(** the executions of Init_Props.v, with lengths *)
Lemma m_exec_reach : forall (ok : istate -> ilabel -> Prop) okb cnt ls,
  (forall l x, okb l x = true -> ok (i_exec i_init l) x) -> sched_b okb [] ls = true -> m_reach ok (m_exec (m_init cnt) ls).
Proof.
  intros ok okb cnt ls H C. assert (G : forall ls pre, m_reach ok (m_exec (m_init cnt) pre) -> sched_b okb pre ls = true -> m_reach ok (m_exec (m_init cnt) (pre ++ ls))).
  { induction ls0 as [|x l IH]; intros pre R D; [rewrite app_nil_r; auto|]. cbn in D. apply andb_true_iff in D as [D1 D2].
    assert (E : pre ++ x :: l = (pre ++ [x]) ++ l) by (rewrite <- app_assoc; auto). rewrite E. apply IH; auto.
    rewrite m_exec_app. cbn. apply mr_step; auto. rewrite m_i_exec. apply H. auto. }
  apply (G ls []); auto. apply mr_init.
Qed.

(** ** C143: a process that gives up its mapping unmaps exactly what it mapped *)
Definition C143_statement : Prop := forall s, m_reach any_schedule s -> unmaps_whole s.

(** process 3 has configured more areas than the others *)
Definition cnt_a : counts := mkCnt 2 4 4 1 1 4.
Definition cnt_b : counts := mkCnt 64 512 512 64 64 512.
Definition cnt_of (p : Z) : counts := if p =? 3 then cnt_b else cnt_a.
(** Process 1 attaches and forks process 2; process 1 exits, process 3 starts and makes the file anew; process 2 detaches. *)
Definition w143 : list ilabel := w48 ++ runs (main 3) 7 ++ [ICall (main 2) CDestroy] ++ runs (main 2) 1.
Lemma w143_unmap : exists n, m_unmap (m_exec (m_init cnt_of) w143) = [(2, Some n, 4096)] /\ n = 73728.
Proof. eexists. split; vm_compute; reflexivity. Qed.
Lemma w143_reach : m_reach one_at_a_time (m_exec (m_init cnt_of) w143).
Proof. apply (m_exec_reach _ one_b); [apply one_b_spec | vm_compute; reflexivity]. Qed.

Theorem C143_unmaps_whole_refuted : ~ C143_statement.
Proof.
  intro H. assert (R : m_reach any_schedule (m_exec (m_init cnt_of) w143)).
  { apply (m_exec_reach _ (fun _ _ => true)); [intros; exact I | vm_compute; reflexivity]. }
  destruct w143_unmap as (n & E & ->). specialize (H _ R 2 (Some 73728) 4096). rewrite E in H. specialize (H (or_introl eq_refl)). discriminate H.
Qed.

(** Without fork it is false too when two threads of one process attach at the same time: see the execution of C47. *)
Definition w143b : list ilabel := w47 ++ runs (main 3) 7 ++ [ICall (main 1) (CUse true)] ++ runs (main 1) 6.
Theorem C143_two_threads_refuted : ~ (forall s, m_reach no_forks s -> unmaps_whole s).
Proof.
  intro H. assert (R : m_reach no_forks (m_exec (m_init cnt_of) w143b)).
  { apply (m_exec_reach _ nofork_b); [|vm_compute; reflexivity]. intros l x. destruct x; simpl; auto; discriminate. }
  assert (E : m_unmap (m_exec (m_init cnt_of) w143b) = [(1, Some 73728, 4096)]) by (vm_compute; reflexivity).
  specialize (H _ R 1 (Some 73728) 4096). rewrite E in H. specialize (H (or_introl eq_refl)). discriminate H.
Qed.

(** What is true: a process whose calls do not overlap with its initialisation and that attached itself unmaps exactly what it
    mapped; whatever others do, fork and die, whatever fails, and however configurations differ and change. *)
Theorem C143_unmaps_whole_partial : forall s t fail got len, m_reach one_at_a_time s -> i_inh (m_i s) (proc t) = false -> unmapping s t fail got len ->
  got = Some len /\ len = m_len s (proc t).
Proof.
  intros s t fail got len R NI U. destruct (m_reach_inv one_at_a_time s (fun _ _ H => H) R) as [V J]. unfold unmapping in U.
  destruct (unmap_step s (IRun t fail)) as [E|(t' & fail' & r & X & A & PC & M & E)].
  - rewrite E in U. exfalso. apply (f_equal (@length _)) in U. cbn in U. lia.
  - inversion X; subst t' fail'. rewrite E in U. inversion U; subst. split; auto. apply (det_length s t r); auto.
Qed.
Theorem C143_no_forks_partial : forall s, m_reach (both no_forks one_at_a_time) s -> unmaps_whole s.
Proof.
  intros s R. induction R as [cnt|s x R IH O|s p c R IH]; [intros p got len []| |exact IH].
  destruct (m_reach_inv (both no_forks one_at_a_time) s (fun _ _ H => proj2 H) R) as [V J].
  destruct (unmap_step s x) as [E|(t & fail & r & X & A & PC & M & E)]; intros p got len I; rewrite E in I; [eauto|].
  destruct I as [I|I]; [|eauto]. inversion I; subst. apply (det_length s t r); auto.
  apply (no_inh (both no_forks one_at_a_time) (m_i s) (fun _ _ H => proj1 H)). apply m_reach_i; auto.
Qed.
(** Process 1 makes the file with small counts, process 3, configured with larger ones, joins it; both detach; process 3 makes
    it anew and detaches: the lengths passed are those of the mappings, and they differ. *)
Definition x143 : list ilabel :=
  [ISpawn 1; ISpawn 3; ICall (main 1) CInit] ++ runs (main 1) 9 ++ [ICall (main 3) CInit] ++ runs (main 3) 6 ++
  [ICall (main 1) CDestroy] ++ runs (main 1) 3 ++ [ICall (main 3) CDestroy] ++ runs (main 3) 3 ++
  [ICall (main 3) CInit] ++ runs (main 3) 10 ++ [ICall (main 3) CDestroy] ++ runs (main 3) 3.
Example C143_case : m_reach (both no_forks one_at_a_time) (m_exec (m_init cnt_of) x143) /\
  m_unmap (m_exec (m_init cnt_of) x143) = [(3, Some 73728, 73728); (3, Some 4096, 4096); (1, Some 4096, 4096)].
Proof.
  split; [|vm_compute; reflexivity]. apply (m_exec_reach _ (both_b nofork_b one_b)); [|vm_compute; reflexivity].
  intros l x H. apply andb_true_iff in H as [H1 H2]. split; [destruct x; simpl in *; auto; discriminate H1 | apply one_b_spec; auto].
Qed.

(** ** C144: the mapping of an attached process is the file, and holds everything the file was made with *)
Definition C144_statement : Prop := forall s p, m_reach one_at_a_time s -> attached (m_i s) p -> all_idle (m_i s) p -> maps_file s p.

(** process 3 has just truncated the file: the mapping of process 2 is longer, its next access is a SIGBUS *)
Definition w144 : list ilabel := w48 ++ runs (main 3) 1.
Theorem C144_maps_file_refuted : ~ C144_statement.
Proof.
  intro H. assert (R : m_reach one_at_a_time (m_exec (m_init cnt_of) w144)) by (apply (m_exec_reach _ one_b); [apply one_b_spec | vm_compute; reflexivity]).
  assert (X : maps_file (m_exec (m_init cnt_of) w144) 2).
  { apply H; auto; [split; vm_compute; reflexivity|]. intros u U. unfold idle. rewrite m_i_exec.
    pose proof (procb_all w144 is_idle 2 eq_refl ltac:(vm_compute; reflexivity) u U) as Y. cbn [m_i m_init].
    destruct (i_pc (i_exec i_init w144) u); auto; discriminate Y. }
  vm_compute in X. discriminate X.
Qed.

Theorem C144_maps_file_partial : forall s p, m_reach one_at_a_time s -> attached (m_i s) p -> all_idle (m_i s) p -> i_inh (m_i s) p = false ->
  maps_file s p /\ (i_file (m_i s) = FPart \/ i_file (m_i s) = FReady) /\ m_len s p = sz_total (m_by s) /\ (permitted (m_by s) -> maps_areas s p).
Proof.
  intros s p R [A M] AI NI. destruct (m_reach_inv one_at_a_time s (fun _ _ H => H) R) as [V J].
  destruct (own_length s p V J M NI) as (MD & L & Z1 & Z2).
  - intros t T X. rewrite (AI t T) in X. discriminate X.
  - repeat split; auto; rewrite Z2; apply (C45_layout (m_by s)); auto.
Qed.
(** Process 3, which configured more areas, joins the file that process 1 made and maps exactly that; a process that joins
    does not get the areas it configured. *)
Definition x144 : list ilabel := [ISpawn 1; ISpawn 3; ICall (main 1) CInit] ++ runs (main 1) 9 ++ [ICall (main 3) CInit] ++ runs (main 3) 6.
Example C144_case : let s := m_exec (m_init cnt_of) x144 in
  m_reach one_at_a_time s /\ attached (m_i s) 3 /\ all_idle (m_i s) 3 /\ i_inh (m_i s) 3 = false /\ permitted (m_by s) /\ m_by s = cnt_a /\
  m_len s 3 = 4096 /\ sz_total (m_cnt s 3) = 73728.
Proof.
  cbv zeta. split; [apply (m_exec_reach _ one_b); [apply one_b_spec | vm_compute; reflexivity]|].
  split; [split; vm_compute; reflexivity|]. split.
  { intros u U. unfold idle. rewrite m_i_exec. pose proof (procb_all x144 is_idle 3 eq_refl ltac:(vm_compute; reflexivity) u U) as Y. cbn [m_i m_init].
    destruct (i_pc (i_exec i_init x144) u); auto; discriminate Y. }
  split; [vm_compute; reflexivity|]. assert (E : m_by (m_exec (m_init cnt_of) x144) = cnt_a) by (vm_compute; reflexivity). rewrite E.
  split; [unfold permitted; cbn; lia|]. split; [reflexivity|]. split; vm_compute; reflexivity.
Qed.

Print Assumptions C143_unmaps_whole_refuted.
Print Assumptions C143_two_threads_refuted.
Print Assumptions C143_unmaps_whole_partial.
Print Assumptions C143_no_forks_partial.
Print Assumptions C144_maps_file_refuted.
Print Assumptions C144_maps_file_partial.
