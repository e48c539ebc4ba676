(** C59, C83: the process-state cache of a recovery pass. *)
From Verif Require Import Base Cache_Model Cache_Spec Cache_Proofs.
From Coq Require Import ZArith List Bool Lia.
Import ListNotations.
Open Scope Z_scope.

(** The order used by the map is a strict total order: entries neither get lost nor doubled. *)
Theorem C59_key_order :
  (forall a, key_lt a a = false) /\
  (forall a b c, key_lt a b = true -> key_lt b c = true -> key_lt a c = true) /\
  (forall a b, a <> b -> key_lt a b = true \/ key_lt b a = true).
Proof.
  split; [|split].
  - intros a. apply not_true_iff_false. rewrite key_lt_spec. lia.
  - intros a b c. rewrite !key_lt_spec. lia.
  - intros a b N. destruct (key_lt a b) eqn:A; auto. destruct (key_lt b a) eqn:B; auto.
    exfalso. apply N. apply same_key_eq. unfold same_key. now rewrite A, B.
Qed.

(** full statement: whatever a pass asks, each answer is the one the system gave the first time
    that question was put *)
Definition C59_statement : Prop :=
  forall l, Forall (fun x => os_ok (fst x)) l -> pass (Some []) l = expected [] l.

(** a system in which thread 5 of process 5 is gone and thread 6 of process 6 is there *)
Definition os1 : os :=
  mkOs (fun p t => if (p =? 6) && (t =? 6) then SOk 4 77 else SErr 2) (fun _ _ => SErr 2).

Lemma os1_ok : os_ok os1.
Proof.
  unfold os1. split; [|split]; cbn [o_task o_fd].
  - intros p t e H. destruct (_ && _); [discriminate H|]. injection H as <-. unfold EACCES. lia.
  - intros p f e H. injection H as <-. lia.
  - intros p f d i H. discriminate H.
Qed.

(** descriptor -1 and the thread itself share an entry: the dead thread 5 counts as running after
    the question about its descriptor -1 *)
Theorem C59_transparent_refuted : ~ C59_statement.
Proof.
  intros H. specialize (H [(os1, QDev 5 5 (-1)); (os1, QRun 5 5)]
    (Forall_cons (os1, QDev 5 5 (-1)) os1_ok (Forall_cons (os1, QRun 5 5) os1_ok (Forall_nil _)))).
  vm_compute in H. discriminate H.
Qed.

(** and the running thread 6 counts as dead for its lock without descriptor after the question
    about the thread *)
Theorem C59_live_as_dead_refuted :
  os_ok os1 /\ truth os1 (QDev 6 6 (-1)) <> ADev None /\
  pass (Some []) [(os1, QRun 6 6); (os1, QDev 6 6 (-1))] = [ARun true; ADev None].
Proof.
  split; [exact os1_ok|]. split; [vm_compute; intro X; discriminate X|vm_compute; reflexivity].
Qed.

(** what holds: transparency for every pass that does not put both kinds of question about one
    thread, the descriptor being -1 *)
Theorem C59_transparent_partial : forall l,
  Forall (fun x => os_ok (fst x)) l -> unmixed (map snd l) ->
  pass (Some []) l = expected [] l.
Proof. intros l O U. apply pass_expected; auto. apply inv_empty. Qed.

(** a pass over a changing system: thread 6 ends between two questions *)
Definition os2 : os := mkOs (fun _ _ => SErr 2) (fun _ _ => SErr 2).

Lemma os2_ok : os_ok os2.
Proof.
  unfold os2. split; [|split]; cbn [o_task o_fd].
  - intros p t e H. injection H as <-. unfold EACCES. lia.
  - intros p f e H. injection H as <-. lia.
  - intros p f d i H. discriminate H.
Qed.

Example C59_case :
  let l := [(os1, QRun 6 6); (os1, QDev 6 6 (-2147483648)); (os2, QRun 6 6); (os2, QDev 6 6 3)] in
  Forall (fun x => os_ok (fst x)) l /\ unmixed (map snd l) /\
  pass (Some []) l = [ARun true; ADev (Some (FLCK_EACCESS_ID, FLCK_EACCESS_ID)); ARun true; ADev None].
Proof.
  split; [|split].
  - repeat (apply Forall_cons; [cbn [fst]; auto using os1_ok, os2_ok|]). apply Forall_nil.
  - intros p t [_ H]. cbn in H. destruct H as [H|[H|[H|[H|[]]]]]; discriminate H.
  - vm_compute. reflexivity.
Qed.

(** ** C83: without a cache the same question to the same system has the same answer, and the
    answer about a thread is whether it exists *)

(** full statement: a process is reported as gone exactly when the system says it is gone; a lock
    without descriptor lives as long as its thread *)
Definition C83_statement : Prop :=
  forall o p t f, os_ok o -> is_int32 f ->
    (truth o (QRun p t) = ARun true <-> exists d i, o_task o p t = SOk d i) /\
    (f < 0 -> (truth o (QDev p t f) = ADev None <-> exists e, o_task o p t = SErr e)) /\
    (0 <= f -> forall d i, (o_fd o p f = SOk d i -> truth o (QDev p t f) = ADev (Some (d, i)))) /\
    (0 <= f -> forall e, o_fd o p f = SErr e -> e <> EACCES -> truth o (QDev p t f) = ADev None) /\
    (0 <= f -> o_fd o p f = SErr EACCES ->
       (truth o (QDev p t f) = ADev None <-> exists e, o_task o p t = SErr e)).

Lemma no_fd_neg : forall f, is_int32 f -> IS_NO_FD f = (f <? 0).
Proof.
  unfold is_int32, INT_MIN, INT_MAX, IS_NO_FD, two32. intros f H.
  rewrite Z.testbit_eqb by lia. change (2 ^ 31) with 2147483648.
  destruct (Z.ltb_spec f 0) as [L|L].
  - rewrite <- (Z.mod_add f 1) by lia. rewrite (Z.mod_small (f + 1 * 4294967296)) by lia.
    assert (D : (f + 1 * 4294967296) / 2147483648 = 1).
    { symmetry. apply Z.div_unique with (f + 2147483648); lia. }
    rewrite D. reflexivity.
  - rewrite (Z.mod_small f) by lia. rewrite Z.div_small by lia. reflexivity.
Qed.

Theorem C83_probe : C83_statement.
Proof.
  intros o p t f (O1 & O2 & O3) F. unfold truth, ask, FindThreadProcess, GetFileDevNode.
  pose proof (no_fd_neg f F) as N. unfold ask_dev, GetFileDevNode1. rewrite N.
  split; [|split; [|split; [|split]]].
  - destruct (o_task o p t) as [e|d i]; cbn; split; auto.
    + intro X; discriminate X.
    + intros (d & i & X). discriminate X.
    + intros _. eauto.
  - intros L. destruct (Z.ltb_spec f 0) as [_|]; [|lia].
    destruct (o_task o p t) as [e|d i] eqn:T; cbn [fst].
    + destruct (O1 _ _ _ T) as [A B].
      destruct (Z.eqb_spec e 0), (Z.eqb_spec e EACCES); try contradiction. cbn. split; eauto.
    + cbn. split; [intro X; discriminate X|]. intros (e & X). discriminate X.
  - intros L d i T. destruct (Z.ltb_spec f 0) as [|_]; [lia|]. rewrite T. reflexivity.
  - intros L e T NE. destruct (Z.ltb_spec f 0) as [|_]; [lia|]. rewrite T.
    pose proof (O2 _ _ _ T) as A.
    destruct (Z.eqb_spec e EACCES) as [|_]; [contradiction|].
    destruct (Z.eqb_spec e EACCES) as [|_]; [contradiction|].
    destruct (Z.eqb_spec e 0); [contradiction|].
    destruct (Z.eqb_spec e EACCES) as [|_]; [contradiction|]. reflexivity.
  - intros L T. destruct (Z.ltb_spec f 0) as [|_]; [lia|]. rewrite T. cbn [Z.eqb EACCES Pos.eqb].
    destruct (o_task o p t) as [e|d i] eqn:T1.
    + destruct (O1 _ _ _ T1) as [A B].
      destruct (Z.eqb_spec e 0); [contradiction|]. destruct (Z.eqb_spec e EACCES); [contradiction|].
      cbn. split; eauto.
    + cbn. split; [intro X; discriminate X|]. intros (e & X). discriminate X.
Qed.

Example C83_case :
  os_ok os1 /\ truth os1 (QRun 5 5) = ARun false /\ truth os1 (QRun 6 6) = ARun true /\
  truth os1 (QDev 5 5 (-2147483648)) = ADev None /\
  truth os1 (QDev 6 6 (-1)) = ADev (Some (FLCK_EACCESS_ID, FLCK_EACCESS_ID)).
Proof. split; [exact os1_ok|]. repeat split; vm_compute; reflexivity. Qed.

Print Assumptions C59_key_order.
Print Assumptions C59_transparent_refuted.
Print Assumptions C59_live_as_dead_refuted.
Print Assumptions C59_transparent_partial.
Print Assumptions C83_probe.
