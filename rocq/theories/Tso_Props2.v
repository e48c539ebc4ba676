(** Files under a read/write lock on processors with store buffers (C152). *)
From Coq Require Import ZArith List Bool Lia.
From Verif Require Import Base RwWord_Model RwApi_Model RwApi_Spec RwApi_Proofs RwApi_Proofs2 RwApi_Proofs3 RwApi_Proofs4 RwApi_Proofs5 RwApi_Props
  Tso_Model Tso_Spec Tso_Proofs Tso_Proofs2.
Import ListNotations.
Open Scope Z_scope.

Section Rw.
Variables UF UO UL : list Z.
Hypothesis UF_nd : NoDup UF.
Hypothesis UO_nd : NoDup UO.
Hypothesis UL_nd : NoDup UL.
Variables (fds : Z -> Z -> option Z) (mode : Z -> fmode) (allow : Z -> bool).
Notation init := (r_init UF UO UL fds mode allow).

Definition shared_file_ok (fam : Z -> Z -> Z -> Prop) : rstate -> rlabel -> Prop := both (both careful (in_family fam)) fds_kept.
Definition rx_reach (fam : Z -> Z -> Z -> Prop) :=
  x_reach rstate rlabel (Z * Z) pair_eq init r_step (shared_file_ok fam) r_atomic alive r_may_write.
Definition rx_load := x_load rstate (Z * Z) pair_eq.

Theorem C152_file_data_partial : forall fam s t x, equal_or_disjoint fam -> rx_reach fam s ->
  alive (x_lock _ _ s) t = true -> r_may_read (x_lock _ _ s) t x -> rx_load s t x = last_stored pair_eq (x_log _ _ s) x.
Proof.
  intros fam s t x ED R A M. unfold rx_load.
  set (good := fun s => r_reach init (both careful (in_family fam)) s /\ holders_present s).
  assert (GSI : forall s, good s -> SI UF UO UL s).
  { intros s0 [G _]. apply (DI_reach UF UO UL UF_nd UO_nd UL_nd fam fds mode allow (both careful (in_family fam)) s0); auto. }
  apply (loads_right rstate rlabel (Z * Z) pair_eq init r_step (shared_file_ok fam) r_atomic alive r_may_write r_may_read good r_hw r_hr); auto.
  - split; [apply rr_init|]. intros l g HL. discriminate.
  - intros s0 l G [[C F] K]. pose proof (GSI s0 G) as H. destruct G as [G P]. split; [apply rr_step; [exact G | split; auto]|]. apply (present_step UF UO UL); auto.
  - intros s0 u y _ _ (Id & l & g & HL & T & D & B & K). split; [split|].
    + rewrite Id. intros [].
    + exists l, g. unfold covers. auto.
    + exists l, g. unfold covers. auto.
  - intros s0 u y _ _ (Id & l & g & HL & T & D & B & _). exists l, g. unfold covers. auto.
  - intros s0 u v y [G _] Au Av (_ & l & g & HL & T & [D B] & K) (l2 & g2 & HL2 & T2 & [D2 B2]).
    destruct (Z.eq_dec l l2) as [->|N]; [assert (g = g2) by (unfold holds in *; congruence); congruence|].
    exfalso. apply (C18_exclusion_equal_or_disjoint UF UO UL UF_nd UO_nd UL_nd fds mode allow fam s0 l g l2 g2 ED G HL HL2 N).
    split; [congruence|]. split; [|auto]. exists (snd y). auto.
  - intros s0 l u y G [[C F] K] Al H. destruct G as [G P]. apply (r_keep UF UO UL); auto. apply GSI. split; auto.
Qed.
End Rw.

(** ** Concrete cases *)
Definition r_okb (s : rstate) (l : rlabel) : bool := match l with LCall _ _ | LRun _ _ _ => family_b ex_famb s l | _ => false end.
Definition r_need (s : rstate) (l : rlabel) : list Z :=
  match l with LRun t _ _ => match r_pc s t with RWait _ | RDrop _ | AT _ _ _ _ => [t] | _ => [] end | _ => [] end.
(** locker entries 21 to 25 *)
Definition r_mwb (s : rstate) (t : Z) (x : Z * Z) : bool :=
  match r_pc s t with RIdle => true | _ => false end &&
  existsb (fun l => match h_st (r_h s) l with
                    | LHeld g => (gr_t g =? t) && (gr_dev g =? fst x) && (gr_off g <=? snd x) && (snd x <? gr_off g + gr_len g) && match gr_kind g with Wr => true | Rd => false end
                    | _ => false end) [21;22;23;24;25].
Lemma r_mwb_ok : forall s t x, r_mwb s t x = true -> r_may_write s t x.
Proof.
  intros s t x H. unfold r_mwb in H. apply andb_true_iff in H as [Id H]. apply existsb_exists in H as (l & _ & H). split; [destruct (r_pc s t); congruence|].
  destruct (h_st (r_h s) l) eqn:E; try discriminate. repeat (apply andb_true_iff in H as [H ?]). exists l, g. unfold holds, byte_in. rewrite E.
  apply Z.eqb_eq in H. repeat match goal with Q : (_ =? _) = true |- _ => apply Z.eqb_eq in Q | Q : (_ <=? _) = true |- _ => apply Z.leb_le in Q | Q : (_ <? _) = true |- _ => apply Z.ltb_lt in Q end.
  destruct (gr_kind g); [discriminate|]. auto 6.
Qed.
Lemma r_alive_kept : forall s l t, match l with LCall _ _ | LRun _ _ _ => True | _ => False end -> alive (r_step s l) t = alive s t.
Proof.
  intros s l t H. destruct l; try contradiction; unfold r_step.
  - destruct (alive s t0); auto. destruct (r_pc s t0); auto. unfold alive. destruct (call_env s t0 c) as (-> & -> & _). reflexivity.
  - destruct (alive s t0); auto. unfold alive. destruct (run_env s t0 race give_up) as (-> & -> & _). reflexivity.
Qed.
Definition rx_ev : Type := event rlabel (Z * Z).
Definition rx_run (okb : rstate -> rlabel -> bool) : list rx_ev -> xstate rstate (Z * Z) := x_run rstate rlabel (Z * Z) pair_eq s0 r_step alive okb r_need r_mwb.
Lemma r_need_ok : forall s l t, r_atomic s l t -> In t (r_need s l).
Proof. intros s l t (a & b & -> & P). cbn. destruct (r_pc s t); try contradiction; left; reflexivity. Qed.
Lemma rx_run_reach : forall es, rx_reach [1;2;3] [11;12;13;14] [21;22;23;24;25] ex_fds (fun _ => FREE_FD) (fun _ => true) ex_fam (rx_run r_okb es).
Proof.
  intro es. apply x_run_reach; [| exact r_need_ok | | exact r_mwb_ok].
  - intros s l H. destruct l as [t c|t a b|p fd d|p m|t|p]; try discriminate; (split; [split|]; try exact I).
    destruct c; try exact I. intros d E. cbn in H. rewrite E in H. exact H.
  - intros s l t O A D. exfalso. rewrite r_alive_kept in D; [congruence|]. destruct l; try discriminate; exact I.
Qed.
(** T1 has the file 103 for writing on [0,10) and stores 5 at byte 7: still in its buffer *)
Definition rx_stored : list rx_ev := map ELock (does T1 (lock_w 3 0 10)) ++ [EStore T1 (103, 7) 5].
(** it unlocks; T2 locks the same range for reading *)
Definition rx_passed : list rx_ev := map ELock (does T1 (CUnlockRw 3 0 10) ++ does T2 (lock_r 3 0 10)).
Example C152_case_buffered : let s := rx_run r_okb rx_stored in
  r_may_write (x_lock _ _ s) T1 (103, 7) /\ x_mem _ _ s (103, 7) = 0 /\ rx_load s T1 (103, 7) = 5.
Proof. split; [apply r_mwb_ok; vm_compute; reflexivity|]. split; vm_compute; reflexivity. Qed.
(** the unlock waits for the store *)
Example C152_case_waits : let s := rx_run r_okb (rx_stored ++ rx_passed) in
  exists p, r_pc (x_lock _ _ s) T1 = RWait p /\ r_res (x_lock _ _ s) T2 <> Some OK.
Proof. eexists. split; [vm_compute; reflexivity | vm_compute; discriminate]. Qed.
Definition rx_reader := rx_run r_okb (rx_stored ++ EDrain T1 :: rx_passed).
Example C152_case_passed :
  rx_reach [1;2;3] [11;12;13;14] [21;22;23;24;25] ex_fds (fun _ => FREE_FD) (fun _ => true) ex_fam rx_reader /\
  r_may_read (x_lock _ _ rx_reader) T2 (103, 7) /\ r_res (x_lock _ _ rx_reader) T2 = Some OK /\ rx_load rx_reader T2 (103, 7) = 5.
Proof.
  split; [apply rx_run_reach|]. split; [|split; vm_compute; reflexivity]. split; [vm_compute; reflexivity|]. exists 21, (G T2 3 0 10 Rd).
  split; [vm_compute; reflexivity|]. split; [reflexivity|]. split; [reflexivity|]. split; [unfold byte_in, G; simpl; lia | exact I].
Qed.

(** ** The full statement, for any ranges, is false for the reason of C19 *)
Definition C152_statement : Prop := forall UF UO UL fds allow s t x, NoDup UF -> NoDup UO -> NoDup UL ->
  x_reach rstate rlabel (Z * Z) pair_eq (r_init UF UO UL fds (fun _ => FREE_FD) allow) r_step (both calm fds_kept) r_atomic alive r_may_write s ->
  alive (x_lock _ _ s) t = true -> r_may_read (x_lock _ _ s) t x -> rx_load s t x = last_stored pair_eq (x_log _ _ s) x.
Definition r_okb_any (s : rstate) (l : rlabel) : bool := match l with LCall _ _ | LRun _ _ _ => pools_b s l | _ => false end.
Lemma r_okb_any_ok : forall s l, r_okb_any s l = true -> both calm fds_kept s l.
Proof.
  intros s l O. destruct l as [t c|t a b|p fd d|p m|t|p]; try discriminate; (split; [split; [|split; [|split]]|]; try exact I). apply pools_b_ok. exact O.
Qed.
Lemma r_any_alive : forall s l t, r_okb_any s l = true -> alive s t = true -> alive (r_step s l) t = false -> In t (r_need s l).
Proof. intros s l t O A D. exfalso. rewrite r_alive_kept in D; [congruence|]. destruct l; try discriminate; exact I. Qed.
Definition rx_two := rx_run r_okb_any (map ELock (does T1 (lock_w 3 0 10) ++ does T2 (lock_r 3 20 10) ++ does T3 (lock_r 3 5 20)) ++ [EStore T1 (103, 7) 5]).
Theorem C152_file_data_refuted : ~ C152_statement.
Proof.
  intro H. specialize (H [1;2;3] [11;12;13;14] [21;22;23;24;25] ex_fds (fun _ => true) rx_two T3 (103, 7) nd1 nd2 nd3).
  assert (E : rx_load rx_two T3 (103, 7) = 0) by (vm_compute; reflexivity).
  assert (F : last_stored pair_eq (x_log _ _ rx_two) (103, 7) = 5) by (vm_compute; reflexivity).
  rewrite E, F in H. assert (X : 0 = 5); [|discriminate]. apply H.
  - apply x_run_reach; [| exact r_need_ok | | exact r_mwb_ok].
    + exact r_okb_any_ok.
    + exact r_any_alive.
  - vm_compute. reflexivity.
  - split; [vm_compute; reflexivity|]. exists 23, (G T3 3 5 20 Rd). split; [vm_compute; reflexivity|]. split; [reflexivity|]. split; [reflexivity|].
    split; [unfold byte_in, G; simpl; lia | exact I].
Qed.

Print Assumptions C152_file_data_partial.
Print Assumptions C152_file_data_refuted.
