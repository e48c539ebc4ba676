(** C166: locks of a thread that has ended while its process goes on. *)
From Coq Require Import ZArith List Bool Lia.
From Verif Require Import Base Exec_Model Exec_Spec Exec_Proofs Exec_Props.
Import ListNotations.
Open Scope Z_scope.

(** In full: a recovery pass releases whatever a thread had locked that has ended since; nobody executes another program and no number is used again. *)
Definition C166_statement : Prop :=
  forall run s, e_reach (both_e no_exec fresh_numbers) (e_init run) s -> forall h, In h (e_locks (e_step s EPass)) -> x_done h = false.
(** The main thread of process 10 ends with a mutex locked, by pthread_exit, while thread 11 goes on: the system keeps /proc/10/task/10 for the ended thread. *)
Definition w166 : list elabel := [EThread 10 11; ELock 10 10 (Mtx 1); EExit 10 10; EPass].
Theorem C166_released_refuted : ~ C166_statement.
Proof.
  intro H. enough (true = false) by discriminate. apply (H all_run (e_exec (e_init all_run) w166)) with (h := mkX (Mtx 1) 10 10 0 true); [|vm_compute; auto].
  unfold e_exec, w166. cbn [fold_left]. repeat (apply er_step; [|split; [exact I | try exact I; vm_compute; intros; intuition discriminate]]). constructor.
Qed.
(** Nor for threads other than the main one: a range is looked up by the descriptor, which is the process's. *)
Definition C166_others_statement : Prop :=
  forall run s, e_reach (both_e no_exec fresh_numbers) (e_init run) s -> forall h, x_tid h <> x_pid h -> In h (e_locks (e_step s EPass)) -> x_done h = false.
Definition w166r : list elabel := [EOpen 10 3 7 true; EThread 10 11; ELock 10 11 (Rng 3 7 1); EExit 10 11; EPass].
Theorem C166_others_refuted : ~ C166_others_statement.
Proof.
  intro H. enough (true = false) by discriminate. apply (H all_run (e_exec (e_init all_run) w166r)) with (h := mkX (Rng 3 7 1) 10 11 0 true); [|discriminate|vm_compute; auto].
  unfold e_exec, w166r. cbn [fold_left]. repeat (apply er_step; [|split; [exact I | try exact I; vm_compute; intros; intuition discriminate]]). constructor.
Qed.

(** What is released: of ended threads the pass leaves only mutexes (and locks without a file) of main threads whose process goes on, and ranges of files that
    the process still has open under the descriptor. *)
Theorem C166_rest_partial : forall run s, e_reach fresh_numbers (e_init run) s -> forall h, In h (e_locks (e_step s EPass)) -> x_done h = true ->
  match x_w h with
  | Mtx _ => x_tid h = x_pid h /\ e_thr s (x_pid h) (x_pid h) = true
  | Rng fd file _ => (fd < 0 /\ x_tid h = x_pid h /\ e_thr s (x_pid h) (x_pid h) = true) \/ (0 <= fd /\ exists c, e_fd s (x_pid h) fd = Some (file, c))
  end.
Proof.
  intros run s R h H D. assert (E : EI s) by (apply (EI_reach fresh_numbers run); auto). cbn in H. apply filter_In in H as [H L]. pose proof (over_reach run s R h H D) as K.
  apply negb_true_iff in L. unfold lost in L. unfold left in K.
  assert (F : negb (e_thr s (x_pid h) (x_tid h)) = false -> (x_tid h <> x_pid h -> e_thr s (x_pid h) (x_tid h) = false) -> x_tid h = x_pid h /\ e_thr s (x_pid h) (x_pid h) = true).
  { intros A B. apply negb_false_iff in A. split; [|eapply (ei_main s E); eauto]. destruct (Z.eq_dec (x_tid h) (x_pid h)); auto. rewrite B in A by auto. discriminate. }
  destruct (x_w h) as [m|fd f k]; auto. destruct (fd <? 0) eqn:N; [apply Z.ltb_lt in N; left; auto|]. apply Z.ltb_ge in N. right. split; auto.
  destruct (e_fd s (x_pid h) fd) as [[g c]|]; [|discriminate]. apply negb_false_iff, Z.eqb_eq in L. subst g. eauto.
Qed.
(** And the mutex of an ended main thread is locked as long as the process goes on with its program: whatever calls are made and passes are run,
    nobody gets it, and nobody's unlock frees it. *)
Theorem C166_stays_partial : forall run s0 p n h, e_reach any_e (e_init run) s0 -> In h (e_locks s0) -> x_w h = Mtx n -> x_pid h = p -> x_tid h = p ->
  e_thr s0 p p = true -> e_zomb s0 p = true ->
  forall s, e_reach (goes_on p) s0 s -> forall q u, e_runs s q u = true -> e_lock s q u (Mtx n) = (s, EBUSY_E) /\ e_unlock s q u (Mtx n) = (s, EPERM_E).
Proof.
  intros run s0 p n h R H W P T L Z s R2 q u N.
  assert (U0 : unique (e_locks s0)) by (apply (unique_reach any_e (e_init run)); auto; intro k; cbn; lia).
  destruct (zomb_reach s0 s p n U0 (conj L (ex_intro _ h (conj H (conj W (conj P T))))) Z R2) as (U & (_ & h2 & H2 & W2 & P2 & T2) & Z2).
  unfold e_lock, e_unlock. rewrite (unique_in _ _ _ U H2 W2). destruct (mine q u (Mtx n) h2) eqn:M; [|auto]. apply mine_true in M as (M1 & M2 & _).
  exfalso. unfold e_runs in N. apply andb_true_iff in N as [_ N]. replace q with p in N by congruence. replace u with p in N by congruence. rewrite Z2, Z.eqb_refl in N. discriminate.
Qed.
(** Process 10 with threads 10, 11, 12: mutexes 1, 2, 3 locked by one each.  10 and 11 end: the pass frees mutex 2; 1 stays until the process ends. *)
Definition e166 : list elabel :=
  [EThread 10 11; EThread 10 12; ELock 10 10 (Mtx 1); ELock 10 11 (Mtx 2); ELock 10 12 (Mtx 3); ELock 10 11 (Rng (-5) 9 1); EExit 10 10; EExit 10 11; EPass].
Example C166_case : e_reach (both_e no_exec fresh_numbers) (e_init all_run) (e_exec (e_init all_run) e166) /\
  map x_w (e_locks (e_exec (e_init all_run) e166)) = [Mtx 3; Mtx 1] /\ map x_done (e_locks (e_exec (e_init all_run) e166)) = [false; true] /\
  e_runs (e_exec (e_init all_run) e166) 10 12 = true /\ e_thr (e_exec (e_init all_run) e166) 10 10 = true /\ e_zomb (e_exec (e_init all_run) e166) 10 = true /\
  snd (e_lock (e_exec (e_init all_run) e166) 10 12 (Mtx 1)) = EBUSY_E /\ snd (e_lock (e_exec (e_init all_run) e166) 10 12 (Mtx 2)) = 0 /\
  e_locks (e_exec (e_init all_run) (e166 ++ [EDie 10; EPass])) = [].
Proof.
  split; [|vm_compute; repeat split; auto]. unfold e_exec, e166. cbn [fold_left].
  repeat (apply er_step; [|split; [exact I | try exact I; vm_compute; intros; intuition (subst; discriminate)]]). constructor.
Qed.

Print Assumptions C166_released_refuted.
Print Assumptions C166_others_refuted.
Print Assumptions C166_rest_partial.
Print Assumptions C166_stays_partial.
