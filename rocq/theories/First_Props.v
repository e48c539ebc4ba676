(** Theorems about the first use of the library: C149, C150. *)
From Coq Require Import List Bool Ascii String ZArith Lia.
From Verif Require Import Base Path_Model Layout_Model Config_Model Config_Spec Config_Proofs Config_Proofs2 Config_Props First_Model First_Spec First_Proofs.
Import ListNotations.
Open Scope Z_scope.

(** ** C149: re-initialisation opens the file it names *)
(** Success: the file asked for is open.  Failure: no file is open, or nothing has happened. *)
Definition C149_statement : Prop := forall s e cwd ok1 ok2 d f q fs s' fs' r, f_reach s -> f_reinit e cwd ok1 ok2 d f q fs s = ROk (s', fs', r) ->
  (r = true -> exists p, f_file s' = Some p /\ asked cwd d f p) /\
  (r = false -> f_file s' = None \/ s' = s).
Definition no_counts : counts := mkCnt 0 0 0 0 0 0.
(** A program starts with fullock_reinitialize("/tmp/app", "app.shm", ...) and every system call succeeds: the call is refused,
    and the default file is open. *)
Theorem C149_reinitialize_refuted : ~ C149_statement.
Proof.
  intro H.
  assert (P : exists s' fs', f_reinit env0 None true true (Some (tx "/tmp/app")) (Some (tx "app.shm")) no_counts fs_tmp f_init = ROk (s', fs', false) /\
    f_file s' = Some (tx "/tmp/.fullock/fullock.shm")) by (eexists; eexists; split; vm_compute; reflexivity).
  destruct P as (s' & fs' & E & F). destruct (H _ _ _ _ _ _ _ _ _ _ _ _ fr_init E) as [_ K]. destruct (K eq_refl) as [K'|K']; rewrite K' in F; vm_compute in F; discriminate F.
Qed.
(** A call that succeeds has opened the file it names, in all cases.  A call that fails leaves no file open or changes nothing, if the library
    was in use before, if the environment forbids the automatic start, or if the automatic start cannot open its file.
    Missing: the first use of the library in the default environment, where the statement is false. *)
Theorem C149_reinitialize_partial : forall s e cwd ok1 ok2 d f q fs s' fs' r, f_reach s -> f_reinit e cwd ok1 ok2 d f q fs s = ROk (s', fs', r) ->
  (r = true -> exists p, f_file s' = Some p /\ asked cwd d f p) /\
  (f_built s = true \/ no_auto e \/ ok1 = false -> r = false -> f_file s' = None \/ s' = s).
Proof. intros. eapply reinit_opens; eauto. apply reach_inv. auto. Qed.
(** The same call as the second use of the library, and as the first with FLCKAUTOINIT=no *)
Definition used : fstate := match f_call env0 None true true true (ApiMutex true (Some (tx "m")) 0) fs_tmp f_init with ROk (s, _, _) => s | _ => f_init end.
Example C149_reinitialize_case :
  (f_reach used /\ f_built used = true /\ f_file used = Some (tx "/tmp/.fullock/fullock.shm") /\
   exists s' fs', f_reinit env0 None true true (Some (tx "/tmp/app")) (Some (tx "app.shm")) no_counts fs_tmp used = ROk (s', fs', true) /\ f_file s' = Some (tx "/tmp/app/app.shm")) /\
  (no_auto (env1 "FLCKAUTOINIT" "no") /\
   exists s' fs', f_reinit (env1 "FLCKAUTOINIT" "no") None true true (Some (tx "/tmp/app")) (Some (tx "app.shm")) no_counts fs_tmp f_init = ROk (s', fs', true) /\
     f_file s' = Some (tx "/tmp/app/app.shm")) /\
  exists s' fs', f_reinit env0 None true false (Some (tx "/tmp/app")) (Some (tx "app.shm")) no_counts fs_tmp used = ROk (s', fs', false) /\ f_file s' = None.
Proof.
  split; [|split].
  - split; [|split; [vm_compute; reflexivity|split; [vm_compute; reflexivity|]]].
    + eapply fr_step; [apply fr_init|]. eapply (fd_call env0 None true true true (ApiMutex true (Some (tx "m")) 0) fs_tmp). vm_compute. reflexivity.
    + eexists. eexists. split; vm_compute; reflexivity.
  - split; [exists (tx "no"); split; [reflexivity | apply is_word_iff; reflexivity]|]. eexists. eexists. split; vm_compute; reflexivity.
  - eexists. eexists. split; vm_compute; reflexivity.
Qed.
Print Assumptions C149_reinitialize_refuted.
Print Assumptions C149_reinitialize_partial.

(** The refutation is not a corner case: whenever a lock call made instead would have opened a file by the automatic start, a
    re-initialisation that is the first use and gives no directory fails, and that file is left open. *)
Theorem C149_first_use_fails : forall s e cwd ok1 ok2 dev a d f q fs s' fs' r s1 fs1 x p, f_reach s -> f_built s = false -> d = None \/ d = Some [] ->
  f_call e cwd ok1 false dev a fs s = ROk (s1, fs1, x) -> f_file s1 = Some p ->
  f_reinit e cwd ok1 ok2 d f q fs s = ROk (s', fs', r) -> s' <> s ->
  r = false /\ f_file s' = Some p.
Proof.
  intros s e cwd ok1 ok2 dev a d f q fs s' fs' r s1 fs1 x p R B GD0 CL FP H NE. assert (GD : given d = None) by (destruct GD0; subst d; reflexivity). pose proof (reach_inv s R) as I.
  unfold f_call in CL. destruct (f_start e cwd ok1 fs s) as [| |[s2 fs2]] eqn:ST; try discriminate CL.
  assert (HC : fst (call_head false dev a (f_cfg s2)) = f_cfg s2).
  { assert (AO : forall f0, fst (attach_or false (f_cfg s2) f0) = f_cfg s2).
    { intro f0. unfold attach_or, CheckAttach, InitializeShm. destruct (k_att (f_cfg s2)); auto. destruct (k_nomap (f_cfg s2)); auto; destruct (k_path (f_cfg s2)); auto. }
    destruct a as [lk [nm|] tm|kd fd of ln tm|fd of ln|[nm|] w tm|[nm|] al]; cbn [call_head]; auto;
      match goal with |- context [attach_or false (f_cfg s2) ?g] => pose proof (AO g) as X; destruct (attach_or false (f_cfg s2) g) as [c z]; cbn in X; rewrite X; auto end. }
  destruct (call_head false dev a (f_cfg s2)) as [c z]. cbn [fst] in HC. subst c. injection CL as <- _ _.
  assert (FP2 : f_file s2 = Some p).
  { cbn [f_file] in FP. unfold opened in FP. destruct (k_att (f_cfg s2)); [exact FP | discriminate FP]. }
  eapply reinit_first; eauto.
  destruct (f_reinit_shape _ _ _ _ _ _ _ _ _ _ _ _ H) as [(X & _)|(t0 & t1 & t2 & t3 & t4 & t5 & t6 & _ & _ & _ & _ & _ & _ & _ & ->)]; [congruence | reflexivity].
Qed.
Example C149_first_use_case : f_reach f_init /\ f_built f_init = false /\ (@None text = None \/ @None text = Some []) /\
  (exists s1 fs1 x, f_call env0 None true false true (ApiMutex true (Some (tx "m")) 0) fs_tmp f_init = ROk (s1, fs1, x) /\ f_file s1 = Some (tx "/tmp/.fullock/fullock.shm")) /\
  exists s' fs' r, f_reinit env0 None true true None (Some (tx "app.shm")) no_counts fs_tmp f_init = ROk (s', fs', r) /\ s' <> f_init.
Proof.
  split; [apply fr_init|]. split; [reflexivity|]. split; [auto|]. split.
  - eexists. eexists. eexists. split; vm_compute; reflexivity.
  - eexists. eexists. eexists. split; [vm_compute; reflexivity|]. intro X. apply (f_equal f_built) in X. cbn in X. discriminate X.
Qed.
Print Assumptions C149_first_use_fails.

(** After the first use the functions of [Config_Model] describe re-initialisation, so C52 and C53 apply to it *)
Theorem C149_as_configured : forall e cwd ok1 ok2 d f q fs s s' fs' r, f_built s = true -> f_reinit e cwd ok1 ok2 d f q fs s = ROk (s', fs', r) ->
  ReInitializeObject e cwd ok2 d f q fs (f_cfg s) = ROk (f_cfg s', fs', r).
Proof. intros e cwd ok1 ok2 d f q fs s s' fs' r B H. rewrite <- (reinit_built e cwd ok1 ok2 d f q fs s B), H. reflexivity. Qed.
Example C149_as_configured_case : f_built used = true /\ exists s' fs', f_reinit env0 None true true None None (mkCnt 7 0 0 0 0 0) fs_tmp used = ROk (s', fs', true) /\ n_file (k_cnt (f_cfg s')) = 7.
Proof. split; [vm_compute; reflexivity|]. eexists. eexists. split; vm_compute; reflexivity. Qed.
Print Assumptions C149_as_configured.

(** ** C150: settings stay *)
(** A setting that was accepted is in force until the next setting of its kind or re-initialisation. *)
Definition C150_statement : Prop := forall x s s', f_reach s -> set_says x (f_cfg s) = true -> later x anyop (f_set x s) s' -> in_force x (f_cfg s').
(** The program asks for errors when there is no shared file, before its first lock call; the environment says otherwise. *)
Definition env_allow : env := env1 "FLCKNOMAPMODE" "ALLOW".
Theorem C150_settings_refuted : ~ C150_statement.
Proof.
  intro H.
  assert (P : exists s' fs', f_call env_allow None false true true (ApiMutex true (Some (tx "m")) 0) fs_tmp (f_set (SetN NOMAP_DENY_NORETRY) f_init) = ROk (s', fs', Leave 0) /\
    k_nomap (f_cfg s') = NOMAP_ALLOW_NORETRY) by (eexists; eexists; split; vm_compute; reflexivity).
  destruct P as (s' & fs' & E & F).
  assert (K : in_force (SetN NOMAP_DENY_NORETRY) (f_cfg s')).
  { apply (H (SetN NOMAP_DENY_NORETRY) f_init s'); [apply fr_init | reflexivity|]. eapply la_step; [apply la_refl | exact I | eapply fd_call; exact E | exact I]. }
  cbn in K. rewrite F in K. discriminate K.
Qed.
(** True when each later lock call finds the library in use, or an environment that does not mention the setting.
    Missing: the first use of the library with a variable for the setting, where it is false. *)
Theorem C150_settings_partial : forall x s s', f_reach s -> set_says x (f_cfg s) = true -> later x (settled x) (f_set x s) s' -> in_force x (f_cfg s').
Proof.
  intros x s s' R SS L. eapply later_in_force; [|apply set_in_force; [apply reach_inv; exact R | exact SS] | exact L]. eapply fr_step; [exact R | apply fd_set].
Qed.
(** the same program with a lock call first; and with another variable set *)
Example C150_settings_case :
  (exists s', f_reach used /\ set_says (SetN NOMAP_DENY_NORETRY) (f_cfg used) = true /\
    later (SetN NOMAP_DENY_NORETRY) (settled (SetN NOMAP_DENY_NORETRY)) (f_set (SetN NOMAP_DENY_NORETRY) used) s' /\ k_robust (f_cfg s') = ROBUST_LOW) /\
  exists s', set_says (SetC 77) (f_cfg f_init) = true /\ later (SetC 77) (settled (SetC 77)) (f_set (SetC 77) f_init) s' /\ f_built s' = true.
Proof.
  split.
  - eexists. split; [apply C149_reinitialize_case|]. split; [reflexivity|]. split.
    + eapply la_step; [eapply la_step; [apply la_refl | | apply (fd_set (SetR ROBUST_LOW)) | intro X; exact X] | | eapply (fd_call env_allow None true true true (ApiMutex true (Some (tx "m")) 0) fs_tmp); vm_compute; reflexivity | exact I];
        left; vm_compute; reflexivity.
    + vm_compute. reflexivity.
  - eexists. split; [reflexivity|]. split.
    + eapply la_step; [apply la_refl | | eapply (fd_call env_allow None true true true (ApiMutex true (Some (tx "m")) 0) fs_tmp); vm_compute; reflexivity | exact I].
      right. intros t E. vm_compute in E. discriminate E.
    + vm_compute. reflexivity.
Qed.
Print Assumptions C150_settings_refuted.
Print Assumptions C150_settings_partial.
