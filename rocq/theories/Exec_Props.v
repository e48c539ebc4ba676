(** C163, C164: locks of a program that is replaced by another one, or whose process number is used again. *)
From Coq Require Import ZArith List Bool Lia.
From Verif Require Import Base Exec_Model Exec_Spec Exec_Proofs.
Import ListNotations.
Open Scope Z_scope.

(** In full: once a program has been replaced by another one in the same process and a recovery pass has been made, nothing is locked by the old program. *)
Definition C163_statement : Prop :=
  forall run s, e_reach any_e (e_init run) s -> forall h, In h (e_locks (e_step s EPass)) -> ~ replaced s h.

Lemma any_exec : forall ls s0 s, e_reach any_e s0 s -> e_reach any_e s0 (e_exec s ls).
Proof. induction ls as [|x ls IH]; cbn; intros s0 s R; auto. apply IH. constructor; [auto | exact I]. Qed.

Definition all_run (p : Z) : bool := true.
(** Process 10 locks a mutex in its main thread and executes another program: the owner's numbers are those of the new program. *)
Definition w163 : list elabel := [ELock 10 10 (Mtx 1); EExec 10 10; EPass].
Theorem C163_released_refuted : ~ C163_statement.
Proof.
  intro H. specialize (H all_run (e_exec (e_init all_run) w163) (any_exec _ _ _ (er_refl _ _)) (mkX (Mtx 1) 10 10 0 true)).
  apply H; [vm_compute; auto | vm_compute; discriminate].
Qed.
(** The same for ranges, also if no thread but a second one, gone since, had locked: file 7 is open as descriptor 3, which the new program inherits. *)
Definition C163_ranges_statement : Prop :=
  forall run s, e_reach any_e (e_init run) s -> forall h fd f n, x_w h = Rng fd f n -> x_tid h <> x_pid h -> In h (e_locks (e_step s EPass)) -> ~ replaced s h.
Definition w163r : list elabel := [EOpen 10 3 7 false; EThread 10 11; ELock 10 11 (Rng 3 7 1); EExec 10 10; EPass].
Theorem C163_ranges_refuted : ~ C163_ranges_statement.
Proof.
  intro H. specialize (H all_run (e_exec (e_init all_run) w163r) (any_exec _ _ _ (er_refl _ _)) (mkX (Rng 3 7 1) 10 11 0 true) 3 7 1 eq_refl).
  apply H; [discriminate | vm_compute; auto | vm_compute; discriminate].
Qed.

(** What is released: if numbers of threads and descriptors are not used again for the same, the pass leaves of the old program only the mutexes (and
    locks without a file) of the main thread, and ranges on descriptors that the new program has inherited and has open. *)
Theorem C163_rest_partial : forall run s, e_reach fresh_numbers (e_init run) s -> forall h, In h (e_locks (e_step s EPass)) -> replaced s h ->
  match x_w h with
  | Mtx _ => x_tid h = x_pid h /\ e_thr s (x_pid h) (x_pid h) = true
  | Rng fd file _ => (fd < 0 /\ x_tid h = x_pid h /\ e_thr s (x_pid h) (x_pid h) = true) \/ (0 <= fd /\ e_fd s (x_pid h) fd = Some (file, false))
  end.
Proof.
  intros run s R h H P. assert (E : EI s) by (apply (EI_reach fresh_numbers run); auto). cbn in H. apply filter_In in H as [H L]. pose proof (ei_old s E h H P) as K.
  apply negb_true_iff in L. unfold lost in L. unfold kept in K.
  assert (F : negb (e_thr s (x_pid h) (x_tid h)) = false -> (x_tid h <> x_pid h -> e_thr s (x_pid h) (x_tid h) = false) -> x_tid h = x_pid h /\ e_thr s (x_pid h) (x_pid h) = true).
  { intros A B. apply negb_false_iff in A. split; [|eapply (ei_main s E); eauto]. destruct (Z.eq_dec (x_tid h) (x_pid h)); auto. rewrite B in A by auto. discriminate. }
  destruct (x_w h) as [m|fd f k]; auto. destruct (fd <? 0) eqn:N; [apply Z.ltb_lt in N; left; auto|]. apply Z.ltb_ge in N. right. split; auto.
  destruct (e_fd s (x_pid h) fd) as [[g c]|]; [|discriminate]. apply negb_false_iff, Z.eqb_eq in L. subst g. rewrite (K c eq_refl). auto.
Qed.

(** What stays, stays: as long as the process lives and its main thread does not unlock the mutex, whatever else is done and however often the process
    executes further programs, no other thread gets it. *)
Theorem C163_stays_partial : forall run s0 p n h, e_reach any_e (e_init run) s0 -> In h (e_locks s0) -> x_w h = Mtx n -> x_pid h = p -> x_tid h = p -> e_thr s0 p p = true ->
  forall s, e_reach (ignores p n) s0 s -> forall q u, ~ (q = p /\ u = p) -> snd (e_lock s q u (Mtx n)) = EBUSY_E /\ fst (e_lock s q u (Mtx n)) = s.
Proof.
  intros run s0 p n h R H W P T L s R2 q u N.
  assert (U0 : unique (e_locks s0)) by (apply (unique_reach any_e (e_init run)); auto; intro k; cbn; lia).
  destruct (main_reach s0 s p n U0 (conj L (ex_intro _ h (conj H (conj W (conj P T))))) R2) as (U & _ & h2 & H2 & W2 & P2 & T2).
  unfold e_lock. rewrite (unique_in _ _ _ U H2 W2). destruct (mine q u (Mtx n) h2) eqn:M; [|auto]. apply mine_true in M as (M1 & M2 & _). destruct N. split; congruence.
Qed.

(** And the new program can do something about it: its main thread gets the mutex at once, and one unlock, with or without that lock before, frees it for all. *)
Theorem C163_heir_partial : forall run s p n h, e_reach any_e (e_init run) s -> In h (e_locks s) -> x_w h = Mtx n -> x_pid h = p -> x_tid h = p ->
  e_lock s p p (Mtx n) = (s, 0) /\ snd (e_unlock s p p (Mtx n)) = 0 /\
  forall q u, snd (e_lock (fst (e_unlock s p p (Mtx n))) q u (Mtx n)) = 0.
Proof.
  intros run s p n h R H W P T. assert (U : unique (e_locks s)) by (apply (unique_reach any_e (e_init run)); auto; intro k; cbn; lia).
  pose proof (unique_in _ _ _ U H W) as F. assert (M : mine p p (Mtx n) h = true) by (apply mine_true; auto).
  unfold e_lock at 1, e_unlock. rewrite F, M. repeat split. intros q u. unfold e_lock. cbn [fst set_locks e_locks]. rewrite (drop_unique _ _ U). auto.
Qed.

(** Process 10, threads 10 and 11: mutexes 1 (main) and 2 (other), ranges on descriptor 3 (inherited) and 4 (closed by execve), a lock without a file by each thread.
    The other thread calls execve; its mutex 2 is not given to the new program before a pass, which releases mutex 2, the range on 4 and its lock without a file. *)
Definition e163 : list elabel :=
  [EThread 10 11; EOpen 10 3 7 false; EOpen 10 4 8 true; ELock 10 10 (Mtx 1); ELock 10 11 (Mtx 2); ELock 10 11 (Rng 3 7 1); ELock 10 10 (Rng 4 8 1);
   ELock 10 10 (Rng (-5) 9 1); ELock 10 11 (Rng (-5) 9 2); EExec 10 11].
Example C163_case : e_reach fresh_numbers (e_init all_run) (e_exec (e_init all_run) e163) /\
  snd (e_lock (e_exec (e_init all_run) e163) 10 10 (Mtx 2)) = EBUSY_E /\
  map x_w (e_locks (e_exec (e_init all_run) (e163 ++ [EPass]))) = [Rng (-5) 9 1; Rng 3 7 1; Mtx 1] /\
  snd (e_lock (e_exec (e_init all_run) (e163 ++ [EPass])) 10 10 (Mtx 2)) = 0 /\
  snd (e_lock (e_exec (e_init all_run) (e163 ++ [EPass])) 20 20 (Mtx 1)) = EBUSY_E /\
  snd (e_lock (e_exec (e_init all_run) (e163 ++ [EPass; EUnlock 10 10 (Mtx 1)])) 20 20 (Mtx 1)) = 0.
Proof.
  split; [|vm_compute; repeat split; auto]. unfold e_exec, e163. cbn [fold_left]. repeat (apply er_step; [|try exact I; vm_compute; intros; intuition discriminate]). constructor.
Qed.


(** ** C164 *)
(** In full: a recovery pass releases what an ended process had locked, also when another process has got its number. *)
Definition C164_statement : Prop :=
  forall run s, e_reach no_exec (e_init run) s -> forall h, In h (e_locks (e_step s EPass)) -> ~ replaced s h.
(** Process 10 ends with a mutex locked; process 20 starts a child that gets the number 10. *)
Definition w164 : list elabel := [ELock 10 10 (Mtx 1); EDie 10; EStart 10 20; EPass].
Theorem C164_released_refuted : ~ C164_statement.
Proof.
  intro H. apply (H all_run (e_exec (e_init all_run) w164)) with (h := mkX (Mtx 1) 10 10 0 true); [|vm_compute; auto | vm_compute; discriminate].
  unfold e_exec, w164. cbn [fold_left]. repeat (apply er_step; [|exact I]). constructor.
Qed.
(** With a pass in time it does: the pass releases all locks of a process number that nobody has ... *)
Theorem C164_in_time_partial : forall run s, e_reach any_e (e_init run) s -> forall p, e_thr s p p = false -> forall h, In h (e_locks (e_step s EPass)) -> x_pid h <> p.
Proof.
  intros run s R p D h H E. subst p. destruct (gone_reach any_e run s R _ D) as [G1 G2]. cbn in H. apply filter_In in H as [_ H]. unfold lost in H. rewrite G1 in H.
  destruct (x_w h) as [m|fd f k]; [discriminate|]. rewrite G2 in H. destruct (fd <? 0); discriminate.
Qed.
(** ... and if no number is given to a new process before that, there is never a lock of an ended process under the number of a running one: whatever is
    registered was locked by the process that has the number now or had it last. *)
Theorem C164_own_partial : forall run s, e_reach (both_e no_exec fresh_process) (e_init run) s -> forall h, In h (e_locks s) -> ~ replaced s h.
Proof.
  intros run s R. assert (A : forall h, In h (e_locks s) -> x_img h = e_img s (x_pid h)); [|intros h H N; apply N; auto].
  induction R as [|s x R IH [O1 O2]]; [intros h []|]. apply same_step; auto.
Qed.
(** Until the heir of the number unlocks the mutex nobody else gets it, and one unlock of the heir frees it: C163_stays_partial and C163_heir_partial, which
    hold here as well.  Process 10 ends with mutexes 1 and 2 locked by its threads 10 and 11 and a range of file 7, open as descriptor 3.  The child of 20 gets the number
    and, from its parent, file 7 as descriptor 3: mutex 1 and the range stay.  With a pass before the start nothing does. *)
Definition e164 (early : bool) : list elabel :=
  [EOpen 20 3 7 false; EThread 10 11; EOpen 10 3 7 true; ELock 10 10 (Mtx 1); ELock 10 11 (Mtx 2); ELock 10 11 (Rng 3 7 1); EDie 10] ++
  (if early then [EPass] else []) ++ [EStart 10 20; EPass].
Example C164_case : e_reach (both_e no_exec fresh_process) (e_init all_run) (e_exec (e_init all_run) (e164 true)) /\
  e_locks (e_exec (e_init all_run) (e164 true)) = [] /\
  map x_w (e_locks (e_exec (e_init all_run) (e164 false))) = [Rng 3 7 1; Mtx 1] /\
  snd (e_lock (e_exec (e_init all_run) (e164 false)) 20 20 (Mtx 1)) = EBUSY_E /\
  snd (e_lock (e_exec (e_init all_run) (e164 false)) 10 10 (Mtx 1)) = 0.
Proof.
  split; [|vm_compute; repeat split; auto]. unfold e_exec, e164. cbn [fold_left app].
  repeat (apply er_step; [|split; [exact I | try exact I; vm_compute; intros; intuition discriminate]]). constructor.
Qed.

Print Assumptions C163_released_refuted.
Print Assumptions C163_ranges_refuted.
Print Assumptions C163_rest_partial.
Print Assumptions C163_stays_partial.
Print Assumptions C163_heir_partial.
Print Assumptions C164_released_refuted.
Print Assumptions C164_in_time_partial.
Print Assumptions C164_own_partial.
