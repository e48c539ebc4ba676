(** C162: the worker releases what ended processes and threads had locked. *)
From Coq Require Import ZArith List Bool Lia.
From Verif Require Import Base Wake_Model Wake_Spec Wake_Proofs.
Import ListNotations.
Open Scope Z_scope.

Fixpoint along_w (ok : wsys -> wlabel -> Prop) (s : wsys) (ls : list wlabel) : Prop :=
  match ls with [] => True | x :: r => ok s x /\ along_w ok (w_step s x) r end.
Lemma w_reach_from : forall (ok : wsys -> wlabel -> Prop) ls s, w_reach ok s -> along_w ok s ls -> w_reach ok (w_exec s ls).
Proof. intros ok ls. induction ls as [|x r IH]; intros s R A; [exact R|]. destruct A as [O A]. apply (IH (w_step s x)); auto. constructor; auto. Qed.
Lemma reach_more : forall (P Q : wsys -> wlabel -> Prop) s, (forall s x, P s x -> Q s x) -> w_reach P s -> w_reach Q s.
Proof. intros P Q s H R. induction R; constructor; auto. Qed.
Definition any_w (s : wsys) (x : wlabel) : Prop := True.

(** ** C162 What an ended process or thread has locked is released by the running worker of another process *)
Definition C162_statement : Prop := forall s, w_reach any_w s -> w_flag s = RUN -> cleared s (ended s).
Lemma quiet_refutes : forall s l, w_reach any_w s -> w_flag s = RUN -> quiet s -> ended s l -> In l (w_locks s) -> ~ C162_statement.
Proof. intros s l R F Q E I H. destruct (H s R F) as (n & D). apply (D O l E). rewrite quiet_stays; auto. Qed.
(** A process that has a mutex ends.  The close of its descriptors wakes the worker, which looks while the process still has its directory in
    /proc (it has not been waited for); when that goes no event comes, and the worker sleeps for ever. *)
Definition w162 : list wlabel := [LWork false; LFlag RUN; LTake (mkL 20 20 ByTask 1); LClose 20 false; LWork false; LWork false; LWork false; LWork false; LWork false; LGone 20].
Theorem C162_released_refuted : ~ C162_statement.
Proof.
  apply (quiet_refutes (w_exec w_init w162) (mkL 20 20 ByTask 1)).
  - apply w_reach_from; [constructor|]. cbn [along_w w162]. repeat split.
  - reflexivity.
  - repeat split.
  - left. reflexivity.
  - vm_compute. auto.
Qed.
(** Nothing failed in that execution, and the worker was watching. *)
Example C162_released_fair : w_reach (both_w reads watched) (w_exec w_init w162).
Proof. apply w_reach_from; [constructor|]. cbn [along_w w162]. repeat split; try discriminate. Qed.
(** The end of a thread closes nothing and wakes nobody. *)
Definition w162t : list wlabel := [LWork false; LFlag RUN; LTake (mkL 20 21 ByTask 1); LThr 20 21].
Theorem C162_threads_refuted : ~ C162_statement.
Proof.
  apply (quiet_refutes (w_exec w_init w162t) (mkL 20 21 ByTask 1)).
  - apply w_reach_from; [constructor|]. cbn [along_w w162t]. repeat split.
  - reflexivity.
  - repeat split.
  - right. reflexivity.
  - vm_compute. auto.
Qed.
(** Who ended before the worker began to watch is not looked for: there is no pass at the start. *)
Definition w162e : list wlabel := [LTake (mkL 20 20 ByTask 1); LClose 20 false; LGone 20; LWork false; LFlag RUN].
Theorem C162_earlier_refuted : ~ C162_statement.
Proof.
  apply (quiet_refutes (w_exec w_init w162e) (mkL 20 20 ByTask 1)).
  - apply w_reach_from; [constructor|]. cbn [along_w w162e]. repeat split.
  - reflexivity.
  - repeat split.
  - left. reflexivity.
  - vm_compute. auto.
Qed.
(** While a forked child still has the open file of the process that ends, nobody is told. *)
Definition w162s : list wlabel := [LWork false; LFlag RUN; LTake (mkL 20 20 ByFd 1); LShared 20; LGone 20].
Theorem C162_forked_refuted : ~ C162_statement.
Proof.
  apply (quiet_refutes (w_exec w_init w162s) (mkL 20 20 ByFd 1)).
  - apply w_reach_from; [constructor|]. cbn [along_w w162s]. repeat split.
  - reflexivity.
  - repeat split.
  - left. reflexivity.
  - vm_compute. auto.
Qed.
(** When reading the events has failed once, further events may be merged with the unread one, and nothing wakes the worker any more. *)
Definition w162f : list wlabel := [LWork false; LFlag RUN; LTake (mkL 20 20 ByFd 1); LClose 20 false; LWork false; LWork false; LWork true; LGone 20; LOther true; LOther true].
Example C162_failed_read : let s := w_exec w_init w162f in w_reach watched s /\ w_flag s = RUN /\ forall n, In (mkL 20 20 ByFd 1) (w_locks (alone n s)).
Proof.
  cbv zeta. split; [|split].
  - apply w_reach_from; [constructor|]. cbn [along_w w162f]. repeat split; try discriminate.
  - reflexivity.
  - assert (FX : w_work (w_exec w_init w162f) false = w_exec w_init w162f) by reflexivity. assert (AL : forall n, alone n (w_exec w_init w162f) = w_exec w_init w162f) by (induction n; cbn [alone]; auto; rewrite FX; auto).
    intro n. rewrite AL. vm_compute. auto.
Qed.

(** Locks that the pass looks up by their descriptor: the close event is enough.  Reads succeed, processes end after the worker has begun to watch,
    and no forked child keeps their open file. *)
Theorem C162_by_descriptor_partial : forall s, w_reach (both_w reads watched) s -> w_flag s = RUN ->
  cleared s (fun l => l_by l = ByFd /\ w_life s (l_pid l) <> Running).
Proof.
  intros s R F. assert (JJ : J s) by (apply (J_reach (both_w reads watched)); auto; intros ? ? []; auto).
  assert (T : Tr true s) by (apply (Tr_reach true (both_w reads watched)); auto; intros ? ? []; repeat split; auto; discriminate).
  destruct (sure_cleared true s JJ T) as (n & H); auto; [discriminate|]. exists n. intros m l [A B]. apply H. split; auto. intros _. auto.
Qed.
(** All locks, when processes are gone altogether by the time the worker looks. *)
Theorem C162_prompt_partial : forall s, w_reach (both_w (both_w reads watched) prompt) s -> w_flag s = RUN -> (forall pid, w_life s pid <> Closed) ->
  cleared s (fun l => w_life s (l_pid l) = Gone).
Proof.
  intros s R F P. assert (JJ : J s) by (apply (J_reach (both_w (both_w reads watched) prompt)); auto; intros ? ? [[] ]; auto).
  assert (T : Tr false s) by (apply (Tr_reach false (both_w (both_w reads watched) prompt)); auto; intros ? ? [[] ]; repeat split; auto).
  destruct (sure_cleared false s JJ T) as (n & H); auto. exists n. intros m l A. apply H. split; [intro Q; discriminate | congruence].
Qed.
(** The next close of the file by whomever, by chance: everything that is found dead at that time goes, whatever happened before. *)
Theorem C162_next_close_partial : forall s merged, w_reach reads s -> w_flag s = RUN -> w_pc s <> WOff ->
  cleared (w_step s (LOther merged)) (fun l => match l_by l with ByTask => ended s l | ByFd => w_life s (l_pid l) <> Running end).
Proof.
  intros s merged R F N. assert (JJ : J s) by (apply (J_reach reads); auto). pose proof (J_step s (LOther merged) JJ I) as J'. cbn [w_step] in *.
  assert (E : w_flag (post s merged) = RUN /\ w_life (post s merged) = w_life s /\ w_thr (post s merged) = w_thr s /\ (0 < w_q (post s merged))%nat).
  { pose proof (j_end s JJ) as W. unfold post. destruct (w_pc s) eqn:EP; try congruence; try (specialize (W eq_refl); congruence);
      (destruct (merged && (0 <? Z.of_nat (w_q s))) eqn:M; cbn; repeat split; auto; [apply andb_true_iff in M as [_ M]; apply ltb_pos in M; auto | lia]). }
  destruct E as (E1 & E2 & E3 & E4). destruct (event_clears (post s merged) J' E1 E4) as (n & H). exists n. intros m l D. apply H. unfold dead. rewrite E2, E3. unfold ended in D.
  destruct (l_by l); [destruct D as [->|D]; auto; rewrite D; destruct (w_life s (l_pid l)); auto | destruct (w_life s (l_pid l)); auto; destruct D; auto].
Qed.

(** A process with a read/write lock and a mutex ends, after a thread of another process that has a mutex; the close of the process makes the
    worker look, and it releases all three and leaves the mutex of the thread that runs on. *)
Definition e162 : list wlabel :=
  [LWork false; LFlag RUN; LTake (mkL 20 20 ByTask 1); LTake (mkL 20 20 ByFd 2); LTake (mkL 30 31 ByTask 3); LTake (mkL 30 30 ByTask 4);
   LThr 30 31; LClose 20 false; LWork false; LGone 20; LWork false].
Example C162_case : w_reach (both_w (both_w reads watched) prompt) (w_exec w_init e162) /\ w_flag (w_exec w_init e162) = RUN /\
  w_locks (w_exec w_init e162) = [mkL 30 30 ByTask 4; mkL 30 31 ByTask 3; mkL 20 20 ByFd 2; mkL 20 20 ByTask 1] /\
  w_locks (alone 6 (w_exec w_init e162)) = [mkL 30 30 ByTask 4].
Proof.
  split; [|repeat split; reflexivity]. apply w_reach_from; [constructor|]. cbn [along_w e162]. repeat split; try discriminate; intros (l & E) pid; vm_compute in E; discriminate.
Qed.
Example C162_next_case : w_reach reads (w_exec w_init w162t) /\ w_locks (w_exec w_init w162t) = [mkL 20 21 ByTask 1] /\
  w_locks (alone 4 (w_step (w_exec w_init w162t) (LOther false))) = [].
Proof. split; [|split; reflexivity]. apply w_reach_from; [constructor|]. cbn [along_w w162t]. repeat split. Qed.

Print Assumptions C162_released_refuted.
Print Assumptions C162_threads_refuted.
Print Assumptions C162_earlier_refuted.
Print Assumptions C162_forked_refuted.
Print Assumptions C162_by_descriptor_partial.
Print Assumptions C162_prompt_partial.
Print Assumptions C162_next_close_partial.
