(** C78 and C52, continued: which directory is used, and calls for descriptors without a file. *)
From Coq Require Import List Bool Ascii String ZArith Lia.
From Verif Require Import Base Path_Model Path_Spec Path_Proofs Path_Props Layout_Model Layout_Spec Config_Model Config_Spec Config_Proofs Config_Proofs2 Config_Props.
Import ListNotations.
Open Scope Z_scope.

(** the directories on the way can be looked at, and are there or can be made *)
Definition usable (fs : fsys) (d : list text) : Prop :=
  forall a, ancestor a d -> fs_staterr fs (path_of a) = false /\ fs_mkerr fs (path_of a) = false /\ (fs_node fs (path_of a) = None \/ fs_node fs (path_of a) = Some NDir).
Definition var_lib : list text := [tx "var"; tx "lib"; tx "antpickax"].
(** where the file goes without FLCKDIRPATH: below /var/lib/antpickax where that is a directory, below /tmp where it is not there *)
Inductive preset (fs : fsys) : list text -> Prop :=
| pre_var : fs_node fs (path_of var_lib) = Some NDir -> fs_staterr fs (path_of var_lib) = false -> preset fs (var_lib ++ [tx ".fullock"])
| pre_tmp : fs_node fs (path_of var_lib) = None \/ fs_staterr fs (path_of var_lib) = true -> preset fs [tx "tmp"; tx ".fullock"].

Lemma made : forall cwd fs cs d, cs <> [] -> Forall component cs -> walk [] cs = Some d -> usable fs d ->
  exists fs', MakeWorkDirectory cwd fs (path_of cs) = ROk (fs', true) /\ forall a, ancestor a d -> fs_node fs' (path_of a) = Some NDir.
Proof.
  intros cwd fs cs d N C W U. destruct (C75_makes_it cwd fs cs d N C W U) as (fs' & M). exists fs'. split; auto.
  apply (C75_work_directory_partial cwd fs cs d fs' N C W); auto. intros a A. destruct (U a A) as (_ & _ & [E|E]); rewrite E; split; discriminate.
Qed.
(** The directory named by FLCKDIRPATH, if it can be had, is used, with "." and ".." resolved, and then exists. *)
Theorem C78_directory_given : forall e cwd fs c c' fs' cs d, e "FLCKDIRPATH"%string = Some (path_of cs) -> cs <> [] -> Forall component cs -> walk [] cs = Some d -> d <> [] -> usable fs d ->
  LoadEnv e cwd fs c = ROk (c', fs') ->
  (k_dir c' = path_of d \/ k_dir c' = path_of d ++ tx "/") /\ forall a, ancestor a d -> fs_node fs' (path_of a) = Some NDir.
Proof.
  intros e cwd fs c c' fs' cs d E N C W D U H. destruct (load_shape _ _ _ _ _ _ H) as (k & ED & ->). unfold load_result. cbn [k_dir]. rewrite E in ED. unfold env_dir in ED.
  rewrite (real_absolute cwd cs N C), W in ED. assert (P : Forall proper d) by (apply (walk_proper cs [] d); auto).
  assert (CD : Forall component d) by (eapply Forall_impl; [|exact P]; intros a Q; apply Q).
  assert (X : exists cs2, path_of d ++ (if nonempty (last cs []) then [] else tx "/") = path_of cs2 /\ cs2 <> [] /\ Forall component cs2 /\ walk [] cs2 = Some d).
  { destruct (nonempty (last cs [])).
    - exists d. rewrite app_nil_r, (walk_id d [] P). auto.
    - exists (d ++ [[]]). rewrite path_of_app, walk_app, (walk_id d [] P). split; [reflexivity|]. split; [destruct d; discriminate|]. split; [apply Forall_app; split; auto; constructor; [intro Q; exact Q | constructor]|].
      cbn [app walk]. destruct (list_eq_dec ascii_dec [] (tx "")); [auto | contradiction]. }
  destruct X as (cs2 & X & N2 & C2 & W2). destruct (made cwd fs cs2 d N2 C2 W2 U) as (f & M & A). rewrite <- X in M. rewrite M in ED. injection ED as <- <-. split; auto.
  destruct (nonempty (last cs [])); [left; apply app_nil_r | right; auto].
Qed.
(** Without the variable it is the preset one, if that can be had. *)
Theorem C78_directory_preset : forall e cwd fs c c' fs' d, e "FLCKDIRPATH"%string = None -> preset fs d -> usable fs d -> LoadEnv e cwd fs c = ROk (c', fs') ->
  k_dir c' = path_of d /\ forall a, ancestor a d -> fs_node fs' (path_of a) = Some NDir.
Proof.
  intros e cwd fs c c' fs' d E PR U H. destruct (load_shape _ _ _ _ _ _ H) as (k & ED & ->). unfold load_result. cbn [k_dir]. rewrite E in ED. unfold env_dir in ED.
  assert (DD : default_dir fs = path_of d).
  { unfold default_dir. change (tx "/var/lib/antpickax") with (path_of var_lib). destruct PR as [F S|[F|S]]; rewrite ?F, ?S; auto. destruct (fs_staterr fs (path_of var_lib)); auto. }
  assert (OK : d <> [] /\ Forall component d /\ walk [] d = Some d).
  { destruct PR as [F S|F]; (split; [discriminate|]; split; [repeat constructor; unfold component, tx; simpl; intuition discriminate | vm_compute; reflexivity]). }
  destruct OK as (N & C & W). destruct (made cwd fs d d N C W U) as (f & M & A). rewrite DD, M in ED. injection ED as <- <-. auto.
Qed.
Definition fs_var : fsys := mkFs (fun p => if existsb (text_eqb p) [tx "/tmp"; tx "/var"; tx "/var/lib"; tx "/var/lib/antpickax"] then Some NDir else None) (fun _ => false) (fun _ => false) 18.
Example C78_directory_case : preset fs_var (var_lib ++ [tx ".fullock"]) /\ usable fs_var (var_lib ++ [tx ".fullock"]) /\ preset fs_tmp [tx "tmp"; tx ".fullock"] /\ usable fs_tmp [tx "tmp"; tx "f"] /\
  (exists c' fs', LoadEnv env0 None fs_var cfg0 = ROk (c', fs') /\ k_dir c' = tx "/var/lib/antpickax/.fullock") /\
  (exists c' fs', LoadEnv env0 None fs_tmp cfg0 = ROk (c', fs') /\ k_dir c' = tx "/tmp/.fullock") /\
  walk [] [tx "x"; tx ".."; tx "tmp"; tx "f"] = Some [tx "tmp"; tx "f"] /\
  (exists c' fs', LoadEnv (env1 "FLCKDIRPATH" "/x/../tmp/f") None fs_tmp cfg0 = ROk (c', fs') /\ k_dir c' = tx "/tmp/f").
Proof.
  assert (U1 : forall fs d, fs_staterr fs = (fun _ => false) -> fs_mkerr fs = (fun _ => false) -> (forall p, fs_node fs p = None \/ fs_node fs p = Some NDir) -> usable fs d).
  { intros fs d A B K a _. rewrite A, B. auto. }
  split; [apply pre_var; vm_compute; auto|]. split; [apply U1; auto; intro p; unfold fs_var; cbn [fs_node]; destruct (existsb _ _); auto|].
  split; [apply pre_tmp; vm_compute; auto|]. split; [apply U1; auto; intro p; unfold fs_tmp; cbn [fs_node]; destruct (text_eqb _ _); auto|].
  split; [eexists; eexists; split; vm_compute; reflexivity|]. split; [eexists; eexists; split; vm_compute; reflexivity|]. split; [vm_compute; reflexivity|].
  eexists; eexists; split; vm_compute; reflexivity.
Qed.

(** ** C52: descriptors without a file *)
(** With the shared area usable, a call for a descriptor that belongs to no file does not get to it either: lock and unlock calls answer as the mode says, and nothing is reported as locked. *)
Theorem C52_no_file : forall ok c k fd off len t, k_att c = true ->
  (allow (k_nomap c) -> call_head ok false (ApiRw k fd off len t) c = (c, Leave 0)) /\ (~ allow (k_nomap c) -> call_head ok false (ApiRw k fd off len t) c = (c, Leave ENOLCK)) /\
  call_head ok false (ApiIsLocked fd off len) c = (c, Leave 0) /\ call_head ok true (ApiIsLocked fd off len) c = (c, Enter).
Proof.
  intros ok c k fd off len t A. cbn [call_head]. unfold attach_or, CheckAttach, allow. rewrite A. cbn.
  split; [intros [X|X]; rewrite X; reflexivity|]. split; [|split; reflexivity]. intro N. destruct (k_nomap c); auto; exfalso; apply N; auto.
Qed.
Example C52_no_file_case : call_head false false (ApiIsLocked 99 0 1) (w_att true (w_nomap NOMAP_DENY_RETRY cfg0)) = (w_att true (w_nomap NOMAP_DENY_RETRY cfg0), Leave 0).
Proof. vm_compute. reflexivity. Qed.

Print Assumptions C78_directory_given.
Print Assumptions C78_directory_preset.
Print Assumptions C52_no_file.
