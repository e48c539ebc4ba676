(** Theorems for C168. *)
From Coq Require Import ZArith List Bool Lia.
From Verif Require Import Base Disc_Model Disc_Spec Disc_Proofs.
Import ListNotations.
Open Scope Z_scope.

(** C168: whatever threads call, however their calls are interleaved and whichever threads end on the way, a running thread has at most one list lock at a time. *)
Theorem C168_one_at_a_time : forall ls t l l', of_library ls -> let s := d_exec d_init ls in live s t -> has s t l -> has s t l' -> l = l'.
Proof. intros ls t l l' O. exact (inv_one _ t l l' (inv_run ls O)). Qed.

(** ... it has none when its call has returned, with success or not ... *)
Theorem C168_none_left : forall ls t l, of_library ls -> let s := d_exec d_init ls in live s t -> outside s t -> ~ has s t l.
Proof. intros ls t l O. exact (inv_outside _ t l (inv_run ls O)). Qed.

(** ... none while it waits for a lock of the user or a signal, and none when it is about to take one ... *)
Theorem C168_none_waiting : forall ls t l l', of_library ls -> let s := d_exec d_init ls in live s t -> waits s t \/ asks s t l' -> ~ has s t l.
Proof. intros ls t l l' O s L [W|A]; [exact (inv_waits _ t l (inv_run ls O) L W)|exact (inv_asks _ t l' l (inv_run ls O) L A)]. Qed.

(** ... and it releases only a list lock that it has. *)
Theorem C168_own_release : forall ls t l, of_library ls -> let s := d_exec d_init ls in live s t -> gives s t l -> has s t l.
Proof. intros ls t l O. exact (inv_gives _ t l (inv_run ls O)). Qed.

(** Hence list locks do not deadlock: when a running thread asks for one, either it gets it at once, or one other thread, running, has it, and that thread needs
    nobody else's step to give it back, after which the asking thread gets it. *)
Theorem C168_no_deadlock : forall ls t l, of_library ls -> let s := d_exec d_init ls in live s t -> asks s t l ->
  has (d_exec s (alone t [true])) t l \/
  exists u bs, u <> t /\ live s u /\ has s u l /\ has (d_exec s (alone u bs ++ alone t [true])) t l.
Proof.
  intros ls t l O s L A. pose proof (inv_run ls O) as I. fold s in I.
  assert (Step : forall s1 k, d_dead s1 t = false -> d_k s1 t = KC (Acq l) :: k -> gets s1 t l = true -> has (d_exec s1 (alone t [true])) t l).
  { intros s1 k D K G. unfold has. cbn. rewrite D, K, G. cbn. unfold updl. destruct (lk_eq l l); congruence. }
  destruct A as (k & K). destruct (gets s t l) eqn:G; [left; eapply Step; eauto|]. right.
  unfold gets in G. destruct (d_own s l) as [u|] eqn:Ow; [|discriminate]. apply orb_false_iff in G. destruct G as [G1 G2]. apply Z.eqb_neq in G1.
  destruct (solo_release _ s u l (le_n _) I G2 Ow) as (bs & P1 & P2 & P3).
  exists u, bs. split; [exact G1|]. split; [exact G2|]. split; [exact Ow|]. rewrite exec_app. eapply Step.
  - rewrite P2. exact L.
  - rewrite P3 by auto. exact K.
  - unfold gets. rewrite P1. reflexivity.
Qed.

(** Cases: 1 signals and has the lock of the conditions, 2 asks for it; 3 waits for a signal and 4 has ended with the lock of the files, for which 5 asks. *)
Definition go (t : Z) (n : nat) : list dlabel := alone t (repeat false n).
Definition case_run : list dlabel :=
  [DCall 3 cond_wait] ++ go 3 200 ++ [DCall 1 cond_signal] ++ go 1 8 ++ [DCall 2 cond_signal] ++ go 2 7 ++
  [DCall 4 rw_lock] ++ go 4 8 ++ [DDie 4; DCall 5 rw_unlock] ++ go 5 7.
Example C168_case : let s := d_exec d_init case_run in
  of_library case_run /\ has s 1 LCond /\ live s 1 /\ asks s 2 LCond /\ live s 2 /\ waits s 3 /\ live s 3 /\ has s 4 LFile /\ ~ live s 4 /\ asks s 5 LFile /\ live s 5.
Proof.
  split.
  - intros t c H.
    assert (F : Forall (fun x => match x with DCall _ c => In c calls | _ => True end) case_run).
    { unfold case_run, go, alone. repeat (apply Forall_app; split); repeat constructor; unfold calls; cbn; tauto. }
    rewrite Forall_forall in F. exact (F _ H).
  - unfold has, live, asks, waits.
    repeat match goal with |- _ /\ _ => split end; try (vm_compute; reflexivity); try (eexists; vm_compute; reflexivity); vm_compute; discriminate.
Qed.
(** 1 goes on to the release, and returns with nothing *)
Example C168_case_release : let s := d_exec d_init (case_run ++ go 1 5) in
  gives s 1 LCond /\ has s 1 LCond /\ let s' := d_exec s (go 1 1) in outside s' 1 /\ d_own s' LCond = None.
Proof. unfold gives, has, outside. split; [eexists; vm_compute; reflexivity|]. repeat split; vm_compute; reflexivity. Qed.
(** a branch that returns without the release is not in the library, and breaks the claim *)
Example C168_case_forgotten : let s := d_exec d_init ([DCall 1 (Acq LCond ;; Ret)] ++ go 1 3) in outside s 1 /\ has s 1 LCond.
Proof. split; vm_compute; reflexivity. Qed.

Print Assumptions C168_one_at_a_time.
Print Assumptions C168_none_left.
Print Assumptions C168_none_waiting.
Print Assumptions C168_own_release.
Print Assumptions C168_no_deadlock.
