(** C141 with the real primitives: the call loops on the list lock and on the lock word. *)
From Coq Require Import ZArith List Bool Lia.
From Verif Require Import Base RwWord_Model RwApi_Model RwApi_Spec RwLin_Spec RwApi_Proofs3 RwApi_Proofs10 RwApi_Props RwApi_Props2
  Guard_Model Rspin_Model Rspin_Proofs Rspin_Proofs2 Rspin_Props.
Import ListNotations.
Open Scope Z_scope.

Section TakeOverSpin.
Variables UF UO UL : list Z.
Hypothesis UF_nd : NoDup UF.
Hypothesis UO_nd : NoDup UO.
Hypothesis UL_nd : NoDup UL.
Variable fds : Z -> Z -> option Z.
Variable mode : Z -> fmode.
Variable allow : Z -> bool.
Notation init := (r_init UF UO UL fds mode allow).

Lemma alone_checks : forall bs s t, alive s t = true -> Forall (fun b => b = true) bs ->
  exists ls, r_path (only t) s ls (r_alone s t bs) /\ checks ls = length bs.
Proof.
  unfold r_alone. induction bs as [|b bs IH]; intros s t AL F; [exists []; split; [constructor | reflexivity]|].
  inversion F as [|? ? Eb F']; subst. destruct (run_env s t false true) as (E1 & E2 & _).
  destruct (IH (r_run s t false true) t) as (ls & P & L); auto; [unfold alive; rewrite E1, E2; exact AL|].
  exists (LRun t false true :: ls). split.
  - constructor; [exists true; reflexivity|]. cbn [r_step]. rewrite AL. exact P.
  - unfold checks in *. cbn. rewrite L. reflexivity.
Qed.

(** the loop limit of the blocking call is one round here, so that every failed attempt is followed by a check *)
Theorem C141_with_primitives : forall fam z h t k fd off len d cs, equal_or_disjoint fam ->
  z_history init (both careful (in_family fam)) z h -> all_quiet (z_r z) -> t <> 0 -> alive (z_r z) t = true ->
  file_of (z_r z) t fd = Some d -> fam d off len ->
  (forall l g, holds (z_r z) l g -> conflict (RwApi_Model.mkG t fd d off len k) g -> forall priv, gone (z_r z) priv g) ->
  h_ffree (r_h (z_r z)) <> [] -> h_ofree (r_h (z_r z)) <> [] -> h_lfree (r_h (z_r z)) <> [] ->
  Forall (fun b => b = true) cs -> (1005 * (16 + length UL) <= length cs)%nat ->
  let s' := z_r (z_solo z t (CLock k fd off len WBlock) cs) in returned s' t OK /\ exists l, holds s' l (RwApi_Model.mkG t fd d off len k).
Proof.
  intros fam z h t k fd off len d cs E H Q T0 AL DV FM GN PF PO PL F L. cbv zeta.
  pose proof (history_reach _ _ _ _ (C124_primitives_not_seen UF UO UL fds mode allow _ z h H)) as R.
  apply (solo_lift (fun b => b = true) z t (CLock k fd off len WBlock) (16 + length UL)%nat
    (fun s' => returned s' t OK /\ exists l, holds s' l (RwApi_Model.mkG t fd d off len k)) (history_settled _ _ _ _ _ _ _ _ _ H) Q T0 AL); auto.
  - intros s [[A _] _]. exact A.
  - intros bs LB FB. destruct (alone_checks bs (r_step (z_r z) (LCall t (CLock k fd off len WBlock))) t) as (ls & P & CK); auto; [rewrite call_alive; auto|].
    destruct (C141_blocking_takes_over UF UO UL UF_nd UO_nd UL_nd fds mode allow fam (z_r z) t k fd off len d ls _ E R AL Q DV FM GN PF PO PL P ltac:(lia)) as (A & B & C).
    split; [split; auto | exact C].
Qed.
End TakeOverSpin.
Lemma quiet_die_family : forall UF UO UL fds mode allow fam z h p, all_quiet (z_r z) ->
  z_history (r_init UF UO UL fds mode allow) (both careful (in_family fam)) z h ->
  z_history (r_init UF UO UL fds mode allow) (both careful (in_family fam)) (z_step z (LDieProc p)) (h ++ z_events z (LDieProc p)).
Proof.
  intros UF UO UL fds mode allow fam z h p Q H. apply zh_step; [exact H | exact I | split; [exact (quiet_die _ _ Q) | exact I]|].
  exact (proj2 (proj2 (history_settled _ _ _ _ _ _ _ _ _ H))).
Qed.
(** the reader T2 ends with its process; T3, writing the same range, takes over *)
Example C141_case_primitives : forall cs, Forall (fun b => b = true) cs -> (1005 * 21 <= length cs)%nat ->
  let s' := z_r (z_solo (z_step z124 (LDieProc (proc_of_thread T2))) T3 (CLock Wr 3 0 10 WBlock) cs) in
  returned s' T3 OK /\ exists l, holds s' l (G T3 3 0 10 Wr).
Proof.
  intros cs F L. destruct z124_history as (H & _ & _).
  pose proof (quiet_die_family _ _ _ _ _ _ _ _ _ (proc_of_thread T2) z124_quiet H) as HD.
  refine (C141_with_primitives _ _ _ nd1 nd2 nd3 _ _ _ ex_fam _ _ T3 Wr 3 0 10 103 cs ex_fam_ok HD (quiet_died _ _ z124_quiet) _ _ _ _ _ _ _ _ F L).
  - vm_compute. discriminate.
  - vm_compute. reflexivity.
  - vm_compute. reflexivity.
  - vm_compute. reflexivity.
  - intros l g HL _ priv. rewrite (z124_held l g (died_holds _ _ _ _ HL)). left. vm_compute. reflexivity.
  - vm_compute. discriminate.
  - vm_compute. discriminate.
  - vm_compute. discriminate.
Qed.
Print Assumptions C141_with_primitives.
