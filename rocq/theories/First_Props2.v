(** Theorems about the worker thread and the robust mode: C155. *)
From Coq Require Import List Bool Ascii String ZArith Lia.
From Verif Require Import Base Path_Model Layout_Model Config_Model Config_Spec Config_Proofs Config_Proofs2 Config_Props First_Model First_Spec First_Proofs First_Props.
Import ListNotations.
Open Scope Z_scope.

(** ** C155: the worker thread runs when the robust mode asks for it *)
(** the modes LOW and HIGH ask for the thread that looks for ended processes *)
Definition follows (s : fstate) : Prop := f_worker s = true <-> k_robust (f_cfg s) <> ROBUST_NO.
Definition C155_statement : Prop := forall s, f_reach s -> f_file s <> None -> follows s.

Lemma robust_on_iff : forall m, robust_on m = true <-> m <> ROBUST_NO.
Proof. intros [| |]; cbn; split; congruence. Qed.
Lemma env_robust_twice : forall v m, env_robust v (env_robust v m) = env_robust v m.
Proof. intros [t|] m; cbn; auto. destruct (is_word t "NO"), (is_word t "LOW"), (is_word t "HIGH"); auto. Qed.
Lemma init_object_robust : forall load e cwd ok fs c c' fs' r, InitializeObject load e cwd ok fs c = ROk (c', fs', r) ->
  k_robust c' = if load then env_robust (e "FLCKROBUSTMODE"%string) (k_robust c) else k_robust c.
Proof.
  intros load e cwd ok fs c c' fs' r H. destruct (init_object_shape _ _ _ _ _ _ _ _ _ H) as (c1 & fs1 & L & R).
  assert (A1 : k_robust c1 = if load then env_robust (e "FLCKROBUSTMODE"%string) (k_robust c) else k_robust c).
  { destruct load; [destruct L as (d & _ & ->) | destruct L as [-> _]]; reflexivity. }
  rewrite <- A1. destruct R as [(X & _ & -> & _ & _)|(c2 & E2 & R)]; [auto|].
  assert (A2 : k_robust c2 = k_robust c1) by (rewrite E2; destruct (k_dir c1); auto). rewrite <- A2.
  destruct R as [(_ & -> & ->)|(_ & R)]; [auto|]. destruct (init_shm_cases _ _ _ _ R) as [(-> & ->)|(-> & _)]; reflexivity.
Qed.

(** the worker agrees with a mode [m] while the file is open *)
Definition agrees (s : fstate) (m : robust) : Prop := k_att (f_cfg s) = true -> f_worker s = robust_on m.
Lemma agrees_follows : forall s, filed s -> f_file s <> None -> agrees s (k_robust (f_cfg s)) -> follows s.
Proof. intros s F O A. unfold follows. rewrite A by (apply F; auto). apply robust_on_iff. Qed.
Lemma working_agrees : forall c b f w c0, (k_att c0 = true -> w = robust_on (k_robust c)) -> agrees (mkF c b f (working w c0 c)) (k_robust c).
Proof. intros c b f w c0 H A. cbn in *. unfold working. rewrite A. destruct (k_att c0); auto. Qed.

Lemma start_agrees : forall e cwd ok fs s s' fs', k_att (f_cfg s) = false \/ (f_built s = true /\ agrees s (k_robust (f_cfg s))) -> f_start e cwd ok fs s = ROk (s', fs') ->
  agrees s' (k_robust (f_cfg s')).
Proof.
  intros e cwd ok fs s s' fs' C H. unfold f_start in H. destruct (f_built s) eqn:B.
  - injection H as <- _. destruct C as [C|[_ C]]; auto. intro A. congruence.
  - destruct C as [C|[C _]]; [|discriminate C]. destruct (InitializeObject true e cwd ok fs (f_cfg s)) as [| |[[c fs1] r]]; try discriminate H. injection H as <- _.
    apply working_agrees. congruence.
Qed.
(** a call: the thread is in line with the mode if it was, or if nothing was open *)
Lemma call_agrees : forall e cwd ok1 ok2 dev a fs s s' fs' r, finv s -> k_att (f_cfg s) = false \/ agrees s (k_robust (f_cfg s)) ->
  f_call e cwd ok1 ok2 dev a fs s = ROk (s', fs', r) -> agrees s' (k_robust (f_cfg s')).
Proof.
  intros e cwd ok1 ok2 dev a fs s s' fs' r I C H. unfold f_call in H. destruct (f_start e cwd ok1 fs s) as [| |[s1 fs1]] eqn:ST; try discriminate H.
  assert (A1 : agrees s1 (k_robust (f_cfg s1))).
  { eapply start_agrees; [|exact ST]. destruct C as [C|C]; auto. destruct (f_built s) eqn:B; auto. left. apply I. auto. }
  pose proof (call_head_cases ok2 dev a (f_cfg s1)) as HC. destruct (call_head ok2 dev a (f_cfg s1)) as [c z]. injection H as <- _ _. cbn [fst] in HC. cbn [f_cfg].
  apply working_agrees. intro A. rewrite A1 by auto. destruct HC as [->|[-> _]]; reflexivity.
Qed.
Lemma reinit_agrees : forall e cwd ok1 ok2 d f q fs s s' fs' r, f_reinit e cwd ok1 ok2 d f q fs s = ROk (s', fs', r) -> s' = s \/ agrees s' (k_robust (f_cfg s')).
Proof.
  intros e cwd ok1 ok2 d f q fs s s' fs' r H.
  destruct (f_reinit_shape _ _ _ _ _ _ _ _ _ _ _ _ H) as [(-> & _)|(top & fs0 & s1 & fs1 & c7 & c' & fs2 & _ & ST & AT & RB & _ & _ & IO & ->)]; auto. right.
  cbn [f_cfg]. apply working_agrees. intro A7. rewrite AT in A7.
  pose proof (init_object_robust _ _ _ _ _ _ _ _ _ IO) as RC. cbn in RC. rewrite RC, RB. clear RC RB IO AT.
  unfold f_start in ST. cbn [f_built f_cfg f_file f_worker] in ST. destruct (f_built s); [injection ST as <- _; discriminate A7|].
  destruct (InitializeObject true e cwd ok1 fs0 (w_att false (f_cfg s))) as [| |[[c fs3] r']] eqn:I; try discriminate ST. injection ST as <- _. cbn [f_cfg f_worker] in *.
  unfold working. rewrite A7. cbn [k_att w_att]. pose proof (init_object_robust _ _ _ _ _ _ _ _ _ I) as RC. cbn in RC. rewrite RC, env_robust_twice. reflexivity.
Qed.

(** The mode NO until the first lock call, LOW from then on: the lock call opens the file, no thread will ever look for ended processes. *)
Definition low_late : fstate :=
  f_set (SetR ROBUST_LOW) match f_call env0 None true true true (ApiMutex true (Some (tx "m")) 0) fs_tmp (f_set (SetR ROBUST_NO) f_init) with ROk (s, _, _) => s | _ => f_init end.
Lemma low_late_is : f_reach low_late /\ f_file low_late = Some (tx "/tmp/.fullock/fullock.shm") /\ k_robust (f_cfg low_late) = ROBUST_LOW /\ f_worker low_late = false.
Proof.
  split; [|vm_compute; auto].
  eapply fr_step; [eapply fr_step; [eapply fr_step; [apply fr_init | apply (fd_set (SetR ROBUST_NO))]|] | apply fd_set].
  eapply (fd_call env0 None true true true (ApiMutex true (Some (tx "m")) 0) fs_tmp). vm_compute. reflexivity.
Qed.
Theorem C155_worker_refuted : ~ C155_statement.
Proof.
  intro H. destruct low_late_is as (R & F & K & W). destruct (H _ R) as [_ X]; [rewrite F; discriminate|].
  rewrite W, K in X. assert (X' : false = true) by (apply X; discriminate). discriminate X'.
Qed.

(** the operations of a program that changes between NO and the other modes only while no file is open *)
Inductive f_careful : fstate -> Prop :=
| fc_init : f_careful f_init
| fc_step : forall o s s', f_careful s -> match o with OSet (SetR v) => f_file s = None \/ (v = ROBUST_NO <-> k_robust (f_cfg s) = ROBUST_NO) | _ => True end ->
    f_does o s s' -> f_careful s'.
Lemma careful_reach : forall s, f_careful s -> f_reach s.
Proof. intros s C. induction C as [|o s s' C IH K D]; [apply fr_init | eapply fr_step; eauto]. Qed.
Lemma careful_agrees : forall s, f_careful s -> agrees s (k_robust (f_cfg s)).
Proof.
  intros s C. induction C as [|o s s' C IH K D]; [intro X; discriminate X|]. pose proof (reach_inv _ (careful_reach _ C)) as I.
  destruct D as [e cwd ok1 ok2 dev a fs s s' fs' r H|x s|e cwd ok1 ok2 d f q fs s s' fs' r H].
  - eapply call_agrees; eauto.
  - destruct (set_inv x (f_cfg s) (i_loop _ I)) as (_ & P2 & _ & _). intro A. cbn [f_set f_cfg] in A. rewrite P2 in A. cbn [f_set f_worker f_cfg].
    rewrite (IH A). destruct x as [v|v|v|v]; cbn [set_cfg].
    + destruct K as [K|K]. { exfalso. apply (i_file _ I) in A. congruence. }
      assert (RV : k_robust (fst (SetRobustMode v (f_cfg s))) = v).
      { unfold SetRobustMode. destruct v; auto. cbn [k_loop w_robust]. destruct (k_loop (f_cfg s) <? FLCK_ROBUST_CHKCNT_MIN); reflexivity. }
      rewrite RV. destruct v, (k_robust (f_cfg s)); cbn; auto; exfalso; destruct K as [K1 K2]; try (specialize (K1 eq_refl); discriminate K1); specialize (K2 eq_refl); discriminate K2.
    + reflexivity.
    + reflexivity.
    + unfold fullock_set_robust_check_count, SetRobustLoopCnt. destruct (k_robust (f_cfg s)) eqn:KR; cbn; rewrite ?KR; auto. destruct (v <? FLCK_ROBUST_CHKCNT_MIN); cbn; rewrite ?KR; auto.
  - destruct (reinit_agrees _ _ _ _ _ _ _ _ _ _ _ _ H) as [->|X]; auto.
Qed.
(** True for programs that switch between NO and the other modes only while no shared file is open.  Missing: a switch while the file is open,
    which the statement is false for. *)
Theorem C155_worker_partial : forall s, f_careful s -> f_file s <> None -> follows s.
Proof. intros s C O. apply agrees_follows; auto; [apply (i_file _ (reach_inv _ (careful_reach _ C))) | apply careful_agrees; auto]. Qed.
(** HIGH and LOW exchanged while the file is open, and the mode NO before the first call *)
Example C155_worker_partial_case :
  (exists s, f_careful s /\ f_file s <> None /\ f_worker s = true /\ k_robust (f_cfg s) = ROBUST_LOW) /\
  exists s, f_careful s /\ f_file s <> None /\ f_worker s = false.
Proof.
  split.
  - exists (f_set (SetR ROBUST_LOW) used). split; [|vm_compute; repeat split; congruence]. eapply fc_step; [eapply (fc_step (OCall env0 None true true true (ApiMutex true (Some (tx "m")) 0) fs_tmp)) | | apply fd_set].
    + apply fc_init.
    + exact I.
    + eapply fd_call. vm_compute. reflexivity.
    + right. vm_compute. split; discriminate.
  - eexists. split; [eapply (fc_step (OCall env0 None true true true (ApiMutex true (Some (tx "m")) 0) fs_tmp)) | ].
    + eapply (fc_step (OSet (SetR ROBUST_NO))); [apply fc_init | left; reflexivity | apply fd_set].
    + exact I.
    + eapply fd_call. vm_compute. reflexivity.
    + vm_compute. split; congruence.
Qed.

(** Whatever was set before: after the operation that opens the file the thread is there exactly if the mode asks for it.
    A re-initialisation that does anything opens the file anew. *)
Theorem C155_when_opened : forall o s s', f_reach s -> f_does o s s' -> f_file s' <> None ->
  match o with OSet _ => False | OCall _ _ _ _ _ _ _ => f_file s = None | OReinit _ _ _ _ _ _ _ _ => s' <> s end -> follows s'.
Proof.
  intros o s s' R D O K. pose proof (reach_inv _ R) as I. assert (R' : f_reach s') by (eapply fr_step; eauto). pose proof (reach_inv _ R') as I'.
  apply agrees_follows; auto; [apply I'|].
  destruct D as [e cwd ok1 ok2 dev a fs s s' fs' r H|x s|e cwd ok1 ok2 d f q fs s s' fs' r H]; [| contradiction |].
  - eapply (call_agrees _ _ _ _ _ _ _ _ _ _ _ I); [|exact H]. left. destruct (k_att (f_cfg s)) eqn:A; auto. apply (i_file _ I) in A. congruence.
  - destruct (reinit_agrees _ _ _ _ _ _ _ _ _ _ _ _ H) as [->|X]; auto. congruence.
Qed.
(** the late LOW of above takes effect with a re-initialisation *)
Example C155_when_opened_case : exists s' fs', f_reach low_late /\ f_reinit env0 None true true None None no_counts fs_tmp low_late = ROk (s', fs', true) /\
  f_file s' <> None /\ s' <> low_late /\ f_worker low_late = false /\ f_worker s' = true.
Proof.
  eexists. eexists. split; [apply low_late_is|]. split; [vm_compute; reflexivity|]. split; [vm_compute; discriminate|]. split; [|vm_compute; auto].
  intro E. apply (f_equal f_worker) in E. vm_compute in E. discriminate E.
Qed.

(** lock calls and settings *)
Inductive goes_on : fstate -> fstate -> Prop :=
| go_refl : forall s, goes_on s s
| go_step : forall o s s' s'', goes_on s s' -> f_does o s' s'' -> match o with OReinit _ _ _ _ _ _ _ _ => False | _ => True end -> goes_on s s''.
(** No setting starts or ends the thread, and no lock call once a file is open; the file stays the same. *)
Theorem C155_unchanged : forall s s', f_reach s -> f_file s <> None -> goes_on s s' -> f_worker s' = f_worker s /\ f_file s' = f_file s.
Proof.
  intros s s' R O G. induction G as [s|o s s' s'' G IH D K]; auto. destruct (IH R O) as [W F].
  assert (R' : f_reach s'). { clear - R G. induction G as [s|o s s' s'' G IH D K]; auto. eapply fr_step; [apply IH; auto | exact D]. }
  pose proof (reach_inv _ R') as I. rewrite <- W, <- F. assert (A : k_att (f_cfg s') = true) by (apply (i_file _ I); congruence).
  destruct D as [e cwd ok1 ok2 dev a fs s0 s1 fs' r H|x s0|]; [| cbn; auto | contradiction].
  unfold f_call in H. assert (B : f_built s0 = true). { destruct (f_built s0) eqn:B; auto. destruct (i_new _ I B) as [X _]. congruence. }
  rewrite start_built in H by auto. pose proof (call_head_cases ok2 dev a (f_cfg s0)) as HC. destruct (call_head ok2 dev a (f_cfg s0)) as [c z]. injection H as <- _ _.
  cbn [f_worker f_file fst] in *. unfold working, opened. rewrite A. destruct HC as [->|[-> _]]; [rewrite A|]; auto.
Qed.
Example C155_unchanged_case : exists s', f_reach used /\ f_file used <> None /\ goes_on used s' /\ k_robust (f_cfg s') = ROBUST_NO /\ f_worker s' = true.
Proof.
  exists (f_set (SetR ROBUST_NO) used). split; [apply C149_reinitialize_case|]. split; [vm_compute; discriminate|]. split; [|vm_compute; auto].
  eapply (go_step (OSet (SetR ROBUST_NO))); [apply go_refl | apply fd_set | exact I].
Qed.
(** no thread without a file *)
Theorem C155_no_file_no_worker : forall s, f_reach s -> f_worker s = true -> f_file s <> None.
Proof. intros s R W. pose proof (reach_inv _ R) as I. apply (i_file _ I). apply (i_work _ I). auto. Qed.
Example C155_no_file_no_worker_case : f_reach used /\ f_worker used = true.
Proof. split; [apply C149_reinitialize_case | vm_compute; reflexivity]. Qed.

Print Assumptions C155_worker_refuted.
Print Assumptions C155_worker_partial.
Print Assumptions C155_when_opened.
Print Assumptions C155_unchanged.
Print Assumptions C155_no_file_no_worker.
