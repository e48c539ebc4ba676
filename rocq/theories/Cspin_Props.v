(** C131, C132: condition variables with the real list lock (lib/flckbaselist.tcc:59-127 around lib/flckshm.cc:872-965,
    lib/flcklistncond.cc:56-190). *)
From Coq Require Import ZArith List Bool Lia Arith Permutation.
From Verif Require Import Base Cond_Model Cond_Spec Cond_Proofs Cond_Proofs2 Cond_Proofs3 Cond_Props Guard_Model
  Cspin_Model Cspin_Spec Cspin_Proofs Cspin_Proofs2 Cspin_Proofs3.
Import ListNotations.
Open Scope Z_scope.

Lemma y_path_exec : forall ok y ls y', y_path ok y ls y' -> y' = y_exec y ls.
Proof. intros ok y ls y' P. induction P; auto. Qed.
Lemma y_path_app : forall ok y l1 y1 l2 y2, y_path ok y l1 y1 -> y_path ok y1 l2 y2 -> y_path ok y (l1 ++ l2) y2.
Proof. intros ok y l1 y1 l2 y2 P. induction P; intro Q; auto. cbn. constructor; auto. Qed.
Lemma in_list_crit : forall y t, in_list y t <-> c_alive (y_c y) t = true /\ crit (c_pc (y_c y) t) = true.
Proof. intros y t. unfold in_list. destruct (c_pc (y_c y) t); cbn; intuition discriminate. Qed.
Lemma y_path_weaken : forall (P Q : cstate -> clabel -> Prop) y ls y', (forall s x, P s x -> Q s x) -> y_path P y ls y' -> y_path Q y ls y'.
Proof. intros P Q y ls y' W H. induction H; constructor; auto. Qed.

(** ** C131 *)
(** Every execution with the real lock is, for programs, an execution with the list lock taken in one step: same memory at the
    end, same calls, returns and deaths in the same order, on schedules of the same kind. *)
Theorem C131_list_lock_not_seen : forall UW n ok ls y, NoDup UW -> y_path ok (y_init (c_init UW n)) ls y ->
  exists ls', c_path ok (c_init UW n) ls' (y_c y) /\ c_hist (c_init UW n) ls' = y_hist (y_init (c_init UW n)) ls /\ incl ls' ls.
Proof.
  intros UW n ok ls y ND P. destruct (path_sim UW ok _ ls y (YI_init UW n ND) P) as (_ & A & B). exists (shadow (y_init (c_init UW n)) ls).
  split; [exact A|]. split; [symmetry; exact B|]. intros x I. eapply shadow_in, I.
Qed.
(** ... and so is every part of one, so that what is proved about calls there holds here. *)
Theorem C131_calls_are_calls : forall UW n ok l0 y t cc ls y2, NoDup UW -> y_path ok (y_init (c_init UW n)) l0 y ->
  y_path ok y (XCall t cc :: ls) y2 -> one_call t ls ->
  c_reach (c_init UW n) ok (y_c y) /\ exists ls', c_path ok (y_c y) (XCall t cc :: ls') (y_c y2) /\ one_call t ls' /\
    c_hist (y_c y) (XCall t cc :: ls') = y_hist y (XCall t cc :: ls).
Proof.
  intros UW n ok l0 y t cc ls y2 ND P0 P ONE. destruct (y_path_start UW ok n l0 y ND P0) as [H R]. split; auto.
  destruct (path_sim UW ok _ _ _ H P) as (_ & A & B). exists (shadow (y_step y (XCall t cc)) ls). cbn [shadow counts] in A, B.
  split; [exact A|]. split; [apply shadow_one; auto | symmetry; exact B].
Qed.
(** never two living threads between taking and releasing the list lock *)
Theorem C131_one_inside : forall UW n ok ls y t u, NoDup UW -> y_path ok (y_init (c_init UW n)) ls y -> in_list y t -> in_list y u -> t = u.
Proof.
  intros UW n ok ls y t u ND P I1 I2. destruct (y_path_start UW ok n ls y ND P) as [H _]. apply in_list_crit in I1 as [A1 C1]. apply in_list_crit in I2 as [A2 C2].
  pose proof (ci_guard _ _ (yv_ci _ _ H) t A1 C1). pose proof (ci_guard _ _ (yv_ci _ _ H) u A2 C2). congruence.
Qed.
(** signals wake the longest waiter, exactly one *)
Theorem C131_signal_wakes_longest : forall UW n c l0 y t ls y2, NoDup UW -> y_path (owners_wait c) (y_init (c_init UW n)) l0 y ->
  c_alive (y_c y) t = true -> t <> 0 -> idle (y_c y) t -> y_path (owners_wait c) y (XCall t (CSignal c) :: ls) y2 -> one_call t ls -> idle (y_c y2) t ->
  exists wk, y_wakes t y (XCall t (CSignal c) :: ls) wk /\
    y_moment (owners_wait c) y (XCall t (CSignal c) :: ls) y2 (fun s1 => woke_one c s1 wk) /\
    (c_res (y_c y2) t = Some OK \/ c_res (y_c y2) t = Some EINVAL /\ wk = []).
Proof.
  intros UW n c l0 y t ls y2 ND P0 AL T0 ID P ONE ID2. destruct (y_path_start UW _ n l0 y ND P0) as [H R].
  destruct (path_sim UW _ _ _ _ H P) as (_ & A & _). pose proof A as A'. cbn [shadow counts] in A'.
  destruct (C38_signal_wakes_longest_partial UW n c (y_c y) t (shadow (y_step y (XCall t (CSignal c))) ls) (y_c y2) ND R AL T0 ID A' (shadow_one _ _ _ ONE) ID2) as (wk & W1 & W2 & W3).
  exists wk. split; [eapply (wakes_sim UW); eauto|]. split; [eapply (moment_sim UW); eauto | exact W3].
Qed.
(** a signal by the owner of the mutex misses nobody who has released it *)
Theorem C131_no_lost_wakeup : forall UW n c m l0 y t ls y2, NoDup UW -> y_path (proper c m) (y_init (c_init UW n)) l0 y ->
  t <> 0 -> idle (y_c y) t -> c_m (y_c y) m = t -> y_path (proper c m) y (XCall t (CSignal c) :: ls) y2 -> one_call t ls -> idle (y_c y2) t ->
  exists wk, y_wakes t y (XCall t (CSignal c) :: ls) wk /\
    y_moment (proper c m) y (XCall t (CSignal c) :: ls) y2 (fun s1 => woke_one c s1 wk /\
      forall w, counted s1 c w <-> exists u, released s1 c u w /\ w_wait (c_w s1 w) = true).
Proof.
  intros UW n c m l0 y t ls y2 ND P0 T0 ID M P ONE ID2. destruct (y_path_start UW _ n l0 y ND P0) as [H R].
  destruct (path_sim UW _ _ _ _ H P) as (_ & A & _). pose proof A as A'. cbn [shadow counts] in A'.
  destruct (C40_no_lost_wakeup UW n c m (y_c y) t (shadow (y_step y (XCall t (CSignal c))) ls) (y_c y2) ND R T0 ID M A' (shadow_one _ _ _ ONE) ID2) as (wk & W1 & W2).
  exists wk. split; [eapply (wakes_sim UW); eauto | eapply (moment_sim UW); eauto].
Qed.
(** broadcasts wake everybody counted as waiting *)
Theorem C131_broadcast_wakes_all : forall UW n c l0 y t ls y2, NoDup UW -> y_path (owners_wait c) (y_init (c_init UW n)) l0 y ->
  c_alive (y_c y) t = true -> t <> 0 -> idle (y_c y) t -> y_path (owners_wait c) y (XCall t (CBroadcast c) :: ls) y2 -> one_call t ls -> idle (y_c y2) t ->
  exists wk, y_wakes t y (XCall t (CBroadcast c) :: ls) wk /\
    y_moment (owners_wait c) y (XCall t (CBroadcast c) :: ls) y2 (fun s1 => forall w, counted s1 c w -> In w wk).
Proof.
  intros UW n c l0 y t ls y2 ND P0 AL T0 ID P ONE ID2. destruct (y_path_start UW _ n l0 y ND P0) as [H R].
  destruct (path_sim UW _ _ _ _ H P) as (_ & A & _). pose proof A as A'. cbn [shadow counts] in A'.
  destruct (C39_broadcast_wakes_all_owners UW n c (y_c y) t (shadow (y_step y (XCall t (CBroadcast c))) ls) (y_c y2) ND R AL T0 ID A' (shadow_one _ _ _ ONE) ID2) as (wk & W1 & W2).
  exists wk. split; [eapply (wakes_sim UW); eauto | eapply (moment_sim UW); eauto].
Qed.
(** a wait call that reports success owns the mutex and was woken by a signal or broadcast on its condition *)
Theorem C131_wait_success : forall UW n l0 y t c m k ls y2, NoDup UW -> y_path any_schedule (y_init (c_init UW n)) l0 y ->
  t <> 0 -> idle (y_c y) t -> y_path any_schedule y (XCall t (CWait c m k) :: ls) y2 -> one_call t ls -> c_alive (y_c y2) t = true -> idle (y_c y2) t ->
  c_res (y_c y2) t = Some OK -> c_m (y_c y2) m = t /\ y_woken any_schedule y (XCall t (CWait c m k) :: ls) c t.
Proof.
  intros UW n l0 y t c m k ls y2 ND P0 T0 ID P ONE AL ID2 RS. destruct (y_path_start UW _ n l0 y ND P0) as [H R].
  destruct (path_sim UW _ _ _ _ H P) as (_ & A & _). cbn [shadow counts] in A. split.
  - eapply C41_success_owns_mutex; eauto. apply shadow_one; auto.
  - eapply (woken_sim UW); eauto. cbn [shadow counts]. eapply C70_no_spurious_wakeup; eauto. apply shadow_one; auto.
Qed.
(** no entry is lost: when nobody died and no call is under way all entries are free *)
Theorem C131_all_entries_return : forall UW n ls y, NoDup UW -> y_path no_deaths (y_init (c_init UW n)) ls y -> (forall t, idle (y_c y) t) ->
  Permutation (c_pool (y_c y)) UW /\ forall c, c_wl (y_c y) c = [].
Proof. intros UW n ls y ND P ID. destruct (y_path_start UW _ n ls y ND P) as [_ R]. eapply C44_all_entries_return; eauto. Qed.

(** *** A case *)
Fixpoint y_checks (y : ystate) (T : list Z) (ls : list clabel) : bool :=
  match ls with
  | [] => true
  | x :: r => match x with XRun t _ => existsb (Z.eqb t) T | XCall t (CWait c m _) => (m =? 1) && (c_m (y_c y) 1 =? t) | XDie _ => false | _ => true end
              && forallb (fun t => match y_g (y_step y x) t with GUB => false | _ => true end) T && y_checks (y_step y x) T r
  end.
Lemma y_checks_path : forall T ls y, (forall t, ~ In t T -> y_g y t <> GUB) -> y_checks y T ls = true -> y_path (proper 1 1) y ls (y_exec y ls).
Proof.
  intros T ls. induction ls as [|x ls IH]; intros y O H; [constructor|]. cbn [y_checks] in H. apply andb_true_iff in H as [H H3]. apply andb_true_iff in H as [H1 H2].
  assert (O' : forall t, ~ In t T -> y_g (y_step y x) t <> GUB).
  { intros t N. destruct x as [u cc|u g|u|m]; try (apply O; auto; fail). cbn [y_step]. destruct (_ && _); [|apply O; auto]. rewrite y_run_other; [apply O; auto|].
    intros ->. apply N. apply existsb_exists in H1 as (z & I & E). apply Z.eqb_eq in E. subst. auto. }
  cbn [y_exec]. constructor; [| |apply IH; auto].
  - split; [destruct x; cbn; auto; discriminate|]. destruct x as [u [| |c m k| | |]| | |]; cbn; auto. intros _. apply andb_true_iff in H1 as [E1 E2].
    apply Z.eqb_eq in E1. apply Z.eqb_eq in E2. auto.
  - intro t. destruct (in_dec Z.eq_dec t T) as [I|N]; [|apply O'; auto]. rewrite forallb_forall in H2. specialize (H2 t I). destruct (y_g (y_step y x) t); try discriminate; auto.
Qed.
Definition y0 := y_init s_init.
Definition y_runs (t : Z) (n : nat) : list clabel := map (XRun t) (repeat false n).
(** thread 1 takes mutex 1 and waits on condition 1; while thread 2 is inside the list on its way to wait as well, thread 3 calls
    signal and spins; thread 2 waits, thread 3 gets the list and wakes thread 1, which returns with the mutex *)
Definition y131_a := [XCall 1 (CLockM 1 KBlock); XRun 1 false; XCall 1 (CWait 1 1 KBlock)] ++ y_runs 1 9.
Definition y131_b := [XCall 2 (CLockM 1 KBlock); XRun 2 false; XCall 2 (CWait 1 1 KTimed)] ++ y_runs 2 4.
Definition y131_call := y_runs 3 4 ++ y_runs 2 5 ++ y_runs 3 9.
Definition y131_1 := y_exec y0 (y131_a ++ y131_b).
Definition y131_2 := y_exec y131_1 (XCall 3 (CSignal 1) :: y131_call).
Definition y131_3 := y_exec y131_2 (y_runs 1 8).
Lemma y0_fine : forall T t, ~ In t T -> y_g y0 t <> GUB.
Proof. intros. discriminate. Qed.
Example C131_case : y_path (proper 1 1) y0 (y131_a ++ y131_b) y131_1 /\ y_path (proper 1 1) y131_1 (XCall 3 (CSignal 1) :: y131_call) y131_2 /\
  in_list y131_1 2 /\ idle (y_c y131_1) 3 /\ one_call 3 y131_call /\ idle (y_c y131_2) 3 /\ c_res (y_c y131_2) 3 = Some OK.
Proof.
  assert (P : y_path (proper 1 1) y0 ((y131_a ++ y131_b) ++ XCall 3 (CSignal 1) :: y131_call) (y_exec y0 ((y131_a ++ y131_b) ++ XCall 3 (CSignal 1) :: y131_call))).
  { apply (y_checks_path [1; 2; 3]); [apply y0_fine | vm_compute; reflexivity]. }
  split; [apply (y_checks_path [1; 2; 3]); [apply y0_fine | vm_compute; reflexivity]|].
  split.
  { apply (y_checks_path [1; 2; 3]); [|vm_compute; reflexivity]. intros t N.
    assert (Q : y_path (proper 1 1) y0 (y131_a ++ y131_b) y131_1) by (apply (y_checks_path [1; 2; 3]); [apply y0_fine | vm_compute; reflexivity]).
    clear P. revert t N. cut (forall y ls y', y_path (proper 1 1) y ls y' -> y_no_overflow y -> y_no_overflow y').
    - intros X t _. apply (X y0 _ _ Q). intro u. discriminate.
    - intros y ls y' PA. induction PA; auto. }
  split; [split; vm_compute; [reflexivity | exact I]|]. split; [unfold idle; vm_compute; reflexivity|].
  split; [intros c I; apply in_app_or in I as [I|I]; [|apply in_app_or in I as [I|I]]; unfold y_runs in I; apply in_map_iff in I as (? & E & _); discriminate|].
  split; [unfold idle; vm_compute; reflexivity | vm_compute; reflexivity].
Qed.
(** thread 2 registered and released the mutex meanwhile; the longest waiter, thread 1, was woken; thread 2 still waits *)
Example C131_case_result : w_wait (c_w (y_c y131_2) 101) = false /\ w_wait (c_w (y_c y131_2) 102) = true /\ c_m (y_c y131_2) 1 = 0 /\
  idle (y_c y131_3) 1 /\ c_res (y_c y131_3) 1 = Some OK /\ c_m (y_c y131_3) 1 = 1.
Proof. unfold idle. repeat split; vm_compute; reflexivity. Qed.

(** ** C132 *)
Lemma no_overflow_path : forall ok y ls y', y_path ok y ls y' -> y_no_overflow y -> y_no_overflow y'.
Proof. intros ok y ls y' PA. induction PA; auto. Qed.
Lemma out_of : forall y t, (forall u, u <> t -> ~ in_list y u) -> out (y_c y) t.
Proof. intros y t H u N A. specialize (H u N). rewrite in_list_crit in H. destruct (crit _); auto. exfalso. auto. Qed.

(** the state after the call was made *)
Lemma call_state : forall UW y t cc, YI UW y -> y_no_overflow y -> t <> 0 -> c_alive (y_c y) t = true -> idle (y_c y) t -> out (y_c y) t ->
  let y1 := y_step y (XCall t cc) in y_c y1 = c_call (y_c y) t cc /\ YI UW y1 /\ y_no_overflow y1 /\ c_alive (y_c y1) t = true /\ out (y_c y1) t /\ y_g y1 t = GIdle.
Proof.
  intros UW y t cc H NO T0 AL ID O y1. assert (A : c_alive (y_c y) t && negb (t =? 0) = true) by (rewrite AL; apply negb_true_iff, Z.eqb_neq, T0).
  assert (E : y_c y1 = c_call (y_c y) t cc) by (unfold y1; cbn; rewrite A, ID; reflexivity).
  split; auto. split; [apply YI_step; auto|]. split; [exact NO|]. split; [rewrite E, call_alive; auto|]. split.
  - rewrite E. intros u N A'. rewrite call_alive in A'. rewrite <- (O u N A'). f_equal. pose proof (step_pc (y_c y) (XCall t cc) u) as Q. cbn [c_step] in Q. rewrite A, ID in Q. apply Q. cbn. congruence.
  - pose proof (yv_spots _ _ H t AL) as SP. rewrite ID in SP. apply spot_idle in SP. exact SP.
Qed.
Lemma call_todo : forall s t cc, (1005 * left_to_do (c_call s t cc) (c_pc (c_call s t cc) t) <= enough s cc)%nat.
Proof.
  intros s t cc. unfold enough. apply Nat.mul_le_mono_l. destruct cc as [m k|m|c m k|c|c|]; cbn [c_call]; try (destruct (c_mk s m)); cbn; rewrite ?upd_eq; cbn; try lia.
  match goal with |- (?a + _ <= ?b + _)%nat => enough (a = b) by lia end.
  generalize (c_conds s). induction l as [|c l IH]; cbn; auto.
Qed.

Section Runs.
Variables (UW : list Z) (n : nat) (l0 : list clabel) (y : ystate).
Hypothesis ND : NoDup UW.
Hypothesis P0 : y_path any_schedule (y_init (c_init UW n)) l0 y.
Let H : YI UW y := proj1 (y_path_start UW any_schedule n l0 y ND P0).
Let NO : y_no_overflow y.
Proof. eapply no_overflow_path; [exact P0|]. intro t. discriminate. Qed.

Lemma run_call : forall t cc okb (P : cstate -> Prop) (gs : list bool), t <> 0 -> c_alive (y_c y) t = true -> idle (y_c y) t -> (forall u, u <> t -> ~ in_list y u) ->
  (forall s, P s -> c_pc s t = CIdle) ->
  (forall k s, CI UW s -> inside s -> out s t -> c_alive s t = true -> t <> 0 -> s = c_call (y_c y) t cc -> (left_to_do s (c_pc s t) <= k)%nat -> within okb k s t P) ->
  (enough (y_c y) cc <= length gs)%nat -> Forall okb gs ->
  let y' := y_exec y (XCall t cc :: map (XRun t) gs) in y_path any_schedule y (XCall t cc :: map (XRun t) gs) y' /\ P (y_c y').
Proof.
  intros t cc okb P gs T0 AL ID O PI W L F. destruct (call_state UW y t cc H NO T0 AL ID (out_of y t O)) as (E & H1 & N1 & A1 & O1 & G1).
  set (y1 := y_step y (XCall t cc)) in *.
  destruct (lift UW okb (left_to_do (y_c y1) (c_pc (y_c y1) t)) y1 t P H1 T0 A1 O1 G1 PI) with (cs := gs) as [PF GF]; auto.
  - apply W; auto; [apply H1 | apply H1].
  - rewrite E. pose proof (call_todo (y_c y) t cc). lia.
  - assert (Q : y_path any_schedule y1 (map (XRun t) gs) (y_alone y1 t gs)) by (apply (alone_path UW); auto; [intros; exact I | rewrite GF; discriminate]).
    cbn zeta. cbn [y_exec]. fold y1. rewrite <- (y_path_exec _ _ _ _ Q). split; auto. constructor; auto; exact I.
Qed.

(** a thread that waits outside the list goes on alone *)
Lemma run_on : forall t okb (P : cstate -> Prop) (gs : list bool), t <> 0 -> c_alive (y_c y) t = true -> entry (y_c y) (c_pc (y_c y) t) = None -> leaves (c_pc (y_c y) t) = false ->
  (forall u, u <> t -> ~ in_list y u) -> (forall s, P s -> c_pc s t = CIdle) ->
  within okb (left_to_do (y_c y) (c_pc (y_c y) t)) (y_c y) t P ->
  (1005 * left_to_do (y_c y) (c_pc (y_c y) t) <= length gs)%nat -> Forall okb gs ->
  let y' := y_exec y (map (XRun t) gs) in y_path any_schedule y (map (XRun t) gs) y' /\ P (y_c y').
Proof.
  intros t okb P gs T0 AL EE LV O PI W L F.
  assert (G : y_g y t = GIdle).
  { pose proof (yv_spots _ _ H t AL) as SP. destruct (y_g y t); cbn in SP; auto; try congruence; try contradiction; destruct SP; congruence. }
  destruct (lift UW okb _ y t P H T0 AL (out_of y t O) G PI W gs L F) as [PF GF].
  assert (Q : y_path any_schedule y (map (XRun t) gs) (y_alone y t gs)) by (apply (alone_path UW); auto; [intros; exact I | rewrite GF; discriminate]).
  cbn zeta. rewrite <- (y_path_exec _ _ _ _ Q). auto.
Qed.
End Runs.

Lemma call_manner : forall s t cc, manner (c_pc (c_call s t cc) t) = match cc with CLockM _ k => Some k | CWait _ m k => if c_mk s m then Some k else None | _ => None end.
Proof. intros s t cc. destruct cc as [m k|m|c m k|c|c|]; cbn [c_call]; try destruct (c_mk s m); cbn; rewrite upd_eq; reflexivity. Qed.

(** Every call with a limit returns when its thread runs alone and the time is up: nobody alive is inside the list, dead threads may
    have left its lock taken, other calls may be waiting. *)
Theorem C132_calls_return : forall UW n l0 y t cc gs, NoDup UW -> y_path any_schedule (y_init (c_init UW n)) l0 y ->
  t <> 0 -> c_alive (y_c y) t = true -> idle (y_c y) t -> (forall u, u <> t -> ~ in_list y u) ->
  ~ unlimited cc -> (enough (y_c y) cc <= length gs)%nat -> Forall (fun g => g = true) gs ->
  let y' := y_exec y (XCall t cc :: map (XRun t) gs) in y_path any_schedule y (XCall t cc :: map (XRun t) gs) y' /\ idle (y_c y') t.
Proof.
  intros UW n l0 y t cc gs ND P0 T0 AL ID O NU L F.
  apply (run_call UW n l0 y ND P0 t cc (fun g => g = true) (fun s => c_pc s t = CIdle) gs T0 AL ID O); auto.
  intros k s A B C D _ E LK. apply (ends_timed UW t); auto. rewrite E, call_manner. intro Q. apply NU.
  destruct cc as [m k'|m|c m k'|c|c|]; try discriminate; [injection Q as ->|destruct (c_mk _ _); [injection Q as ->|discriminate]]; exact I.
Qed.
(** Unlocking a mutex, signals, broadcasts and recovery return whatever the clock says. *)
Theorem C132_immediate_calls_return : forall UW n l0 y t cc gs, NoDup UW -> y_path any_schedule (y_init (c_init UW n)) l0 y ->
  t <> 0 -> c_alive (y_c y) t = true -> idle (y_c y) t -> (forall u, u <> t -> ~ in_list y u) ->
  immediate cc -> (enough (y_c y) cc <= length gs)%nat ->
  let y' := y_exec y (XCall t cc :: map (XRun t) gs) in y_path any_schedule y (XCall t cc :: map (XRun t) gs) y' /\ idle (y_c y') t.
Proof.
  intros UW n l0 y t cc gs ND P0 T0 AL ID O IM L.
  apply (run_call UW n l0 y ND P0 t cc (fun _ => True) (fun s => c_pc s t = CIdle) gs T0 AL ID O); auto; [|apply Forall_forall; auto].
  intros k s A B C D _ E LK. apply (ends_any UW t); auto. rewrite E, call_manner. destruct cc; auto; contradiction.
Qed.
(** Locking a free mutex succeeds, however the call waits. *)
Theorem C132_free_mutex_is_got : forall UW n l0 y t m k gs, NoDup UW -> y_path any_schedule (y_init (c_init UW n)) l0 y ->
  t <> 0 -> c_alive (y_c y) t = true -> idle (y_c y) t -> (forall u, u <> t -> ~ in_list y u) ->
  c_m (y_c y) m = 0 -> (enough (y_c y) (CLockM m k) <= length gs)%nat ->
  let y' := y_exec y (XCall t (CLockM m k) :: map (XRun t) gs) in
  y_path any_schedule y (XCall t (CLockM m k) :: map (XRun t) gs) y' /\ idle (y_c y') t /\ c_res (y_c y') t = Some OK /\ c_m (y_c y') m = t.
Proof.
  intros UW n l0 y t m k gs ND P0 T0 AL ID O M L.
  apply (run_call UW n l0 y ND P0 t (CLockM m k) (fun _ => True) (fun s => c_pc s t = CIdle /\ c_res s t = Some OK /\ c_m s m = t) gs T0 AL ID O); auto; [tauto| |apply Forall_forall; auto].
  intros k' s A B C D _ E LK. apply (ends_well UW t m); auto. unfold well. rewrite E. cbn. rewrite upd_eq. split; auto. left. exact M.
Qed.

Lemma wl_empty : forall UW s c, CI UW s -> mem c (c_conds s) = false -> c_wl s c = [].
Proof.
  intros UW s c H M. destruct (c_wl s c) as [|w l] eqn:E; auto. exfalso. apply mem_out in M. apply M. eapply (ci_cond _ _ H c w). rewrite E. left; auto.
Qed.
(** A signal that runs alone wakes the longest waiter and nobody else, and changes nothing but that. *)
Theorem C132_signal_alone : forall UW n l0 y t c gs, NoDup UW -> y_path any_schedule (y_init (c_init UW n)) l0 y ->
  t <> 0 -> c_alive (y_c y) t = true -> idle (y_c y) t -> (forall u, u <> t -> ~ in_list y u) -> (enough (y_c y) (CSignal c) <= length gs)%nat ->
  let y' := y_exec y (XCall t (CSignal c) :: map (XRun t) gs) in
  y_path any_schedule y (XCall t (CSignal c) :: map (XRun t) gs) y' /\ idle (y_c y') t /\
  c_res (y_c y') t = Some (if mem c (c_conds (y_c y)) then OK else EINVAL) /\
  (forall w, longest (y_c y) c w -> w_wait (c_w (y_c y') w) = false) /\
  (forall w, ~ longest (y_c y) c w -> w_wait (c_w (y_c y') w) = w_wait (c_w (y_c y) w)) /\
  (forall w, w_mtx (c_w (y_c y') w) = w_mtx (c_w (y_c y) w)) /\
  rest_same t (y_c y) (y_c y').
Proof.
  intros UW n l0 y t c gs ND P0 T0 AL ID O L. pose proof (yv_ci _ _ (proj1 (y_path_start UW any_schedule n l0 y ND P0))) as HC.
  destruct (run_call UW n l0 y ND P0 t (CSignal c) (fun _ => True) (fun s => sig_way t c (y_c y) s /\ c_pc s t = CIdle) gs T0 AL ID O) as [PA [[RS K] ID']]; auto.
  - tauto.
  - intros k s A B C D _ E LK. apply (ends_signal UW t c (y_c y)); auto; [intro M; eapply wl_empty; eauto|].
    rewrite E. split; [|cbn; rewrite upd_eq; auto]. repeat split; auto. intros u N. cbn. rewrite upd_neq; auto.
  - apply Forall_forall; auto.
  - set (y' := y_exec y (XCall t (CSignal c) :: map (XRun t) gs)) in *. rewrite ID' in K. destruct K as [R S]. split; auto. split; auto. split; auto.
    unfold signalled in S. split; [|split; [|split; [|exact RS]]].
    + intros w LO. apply (pick_longest UW) in LO; auto. rewrite LO in S. rewrite S. unfold unwait. rewrite upd_eq. reflexivity.
    + intros w LO. destruct (pick (y_c y) (c_wl (y_c y) c) None) as [w'|] eqn:PK; rewrite S; auto. unfold unwait. rewrite upd_neq; auto.
      intros ->. apply LO. apply (pick_longest UW); auto.
    + intros w. destruct (pick (y_c y) (c_wl (y_c y) c) None) as [w'|] eqn:PK; rewrite S; auto. unfold unwait.
      destruct (Z.eq_dec w w') as [->|N]; [rewrite upd_eq | rewrite upd_neq]; auto.
Qed.
(** ... and a broadcast wakes all. *)
Theorem C132_broadcast_alone : forall UW n l0 y t c gs, NoDup UW -> y_path any_schedule (y_init (c_init UW n)) l0 y ->
  t <> 0 -> c_alive (y_c y) t = true -> idle (y_c y) t -> (forall u, u <> t -> ~ in_list y u) -> (enough (y_c y) (CBroadcast c) <= length gs)%nat ->
  let y' := y_exec y (XCall t (CBroadcast c) :: map (XRun t) gs) in
  y_path any_schedule y (XCall t (CBroadcast c) :: map (XRun t) gs) y' /\ idle (y_c y') t /\
  c_res (y_c y') t = Some (if mem c (c_conds (y_c y)) then OK else EINVAL) /\
  (forall w, In w (c_wl (y_c y) c) -> w_wait (c_w (y_c y') w) = false) /\
  (forall w, ~ In w (c_wl (y_c y) c) -> w_wait (c_w (y_c y') w) = w_wait (c_w (y_c y) w)) /\
  (forall w, w_mtx (c_w (y_c y') w) = w_mtx (c_w (y_c y) w)) /\
  rest_same t (y_c y) (y_c y').
Proof.
  intros UW n l0 y t c gs ND P0 T0 AL ID O L. pose proof (yv_ci _ _ (proj1 (y_path_start UW any_schedule n l0 y ND P0))) as HC.
  destruct (run_call UW n l0 y ND P0 t (CBroadcast c) (fun _ => True) (fun s => bc_way t c (y_c y) s /\ c_pc s t = CIdle) gs T0 AL ID O) as [PA [[RS K] ID']]; auto.
  - tauto.
  - intros k s A B C D _ E LK. apply (ends_broadcast UW t c (y_c y)); auto; [intro M; eapply wl_empty; eauto|].
    rewrite E. split; [|cbn; rewrite upd_eq; auto]. repeat split; auto. intros u N. cbn. rewrite upd_neq; auto.
  - apply Forall_forall; auto.
  - set (y' := y_exec y (XCall t (CBroadcast c) :: map (XRun t) gs)) in *. rewrite ID' in K. destruct K as [R [S1 S2]]. split; auto. split; auto. split; auto.
    split; [|split; [|split; [|exact RS]]].
    + intros w I. rewrite S1; auto.
    + intros w I. rewrite S2; auto.
    + intros w. destruct (in_dec Z.eq_dec w (c_wl (y_c y) c)) as [I|N]; [rewrite S1 | rewrite S2]; auto.
Qed.

(** A woken waiter that runs alone returns 0 with its mutex if that is free; nobody alive is inside the list. *)
Theorem C132_woken_waiter_returns : forall UW n l0 y u a w gs, NoDup UW -> y_path any_schedule (y_init (c_init UW n)) l0 y ->
  c_alive (y_c y) u = true -> c_pc (y_c y) u = WW a w -> w_wait (c_w (y_c y) w) = false -> c_m (y_c y) (w_mtx (c_w (y_c y) w)) = 0 ->
  (forall v, v <> u -> ~ in_list y v) -> (1005 * 6 <= length gs)%nat ->
  let y' := y_exec y (map (XRun u) gs) in
  y_path any_schedule y (map (XRun u) gs) y' /\ idle (y_c y') u /\ c_res (y_c y') u = Some OK /\ c_m (y_c y') (w_mtx (c_w (y_c y) w)) = u.
Proof.
  intros UW n l0 y u a w gs ND P0 AL Ep W M O L. destruct (y_path_start UW any_schedule n l0 y ND P0) as [H R].
  assert (U0 : u <> 0) by (intros ->; rewrite (zero_reach _ _ _ _ R) in Ep; discriminate).
  destruct (ci_reg _ _ (yv_ci _ _ H) u a w AL) as (_ & _ & MX); [rewrite Ep; reflexivity|]. rewrite MX in *.
  apply (run_on UW n l0 y ND P0 u (fun _ => True) (fun s => c_pc s u = CIdle /\ c_res s u = Some OK /\ c_m s (a_m a) = u) gs); auto.
  - rewrite Ep. reflexivity.
  - rewrite Ep. reflexivity.
  - tauto.
  - apply (ends_well UW u (a_m a)); auto; [apply H | apply H | apply out_of; auto |]. unfold well. rewrite Ep. split; auto. split; auto. left. exact M.
  - rewrite Ep. exact L.
  - apply Forall_forall; auto.
Qed.

(** End to end: a signal made while a call waits makes that call return, if its entry is the longest waiting one. *)
Theorem C132_signal_reaches_waiter : forall UW n l0 y t c u w gs hs, NoDup UW -> y_path any_schedule (y_init (c_init UW n)) l0 y ->
  t <> 0 -> c_alive (y_c y) t = true -> idle (y_c y) t -> (forall v, v <> t -> ~ in_list y v) ->
  c_alive (y_c y) u = true -> blocked (y_c y) c u w -> longest (y_c y) c w -> c_m (y_c y) (w_mtx (c_w (y_c y) w)) = 0 ->
  (enough (y_c y) (CSignal c) <= length gs)%nat -> (1005 * 6 <= length hs)%nat ->
  let ls := XCall t (CSignal c) :: map (XRun t) gs ++ map (XRun u) hs in let y' := y_exec y ls in
  y_path any_schedule y ls y' /\ idle (y_c y') t /\ c_res (y_c y') t = Some OK /\
  idle (y_c y') u /\ c_res (y_c y') u = Some OK /\ c_m (y_c y') (w_mtx (c_w (y_c y) w)) = u.
Proof.
  intros UW n l0 y t c u w gs hs ND P0 T0 AL ID O AU BL LO M L1 L2.
  destruct (C132_signal_alone UW n l0 y t c gs ND P0 T0 AL ID O L1) as (PA & ID1 & R1 & WK & _ & MX & RS).
  set (y1 := y_exec y (XCall t (CSignal c) :: map (XRun t) gs)) in *.
  destruct RS as (E1 & E2 & E3 & E4 & E5 & E6). unfold blocked in BL. destruct (c_pc (y_c y) u) eqn:Ep; try contradiction. destruct BL as (CA & -> & WW).
  assert (NU : u <> t) by (intros ->; unfold idle in ID; congruence).
  destruct (C132_woken_waiter_returns UW n (l0 ++ XCall t (CSignal c) :: map (XRun t) gs) y1 u a w hs ND) as (PB & IB & RB & MB).
  - eapply y_path_app; eauto.
  - rewrite E4. exact AU.
  - rewrite E5; auto.
  - apply WK, LO.
  - rewrite E1, MX. exact M.
  - intros v N. rewrite in_list_crit. destruct (Z.eq_dec v t) as [->|NT]; [unfold idle in ID1; rewrite ID1; cbn; intuition discriminate|].
    rewrite E4, E5 by auto. rewrite <- in_list_crit. apply O, NT.
  - exact L2.
  - assert (PC : y_path any_schedule y (XCall t (CSignal c) :: map (XRun t) gs ++ map (XRun u) hs) (y_exec y1 (map (XRun u) hs))).
    { rewrite app_comm_cons. eapply y_path_app; eauto. }
    cbn zeta. rewrite <- (y_path_exec _ _ _ _ PC). split; auto.
    assert (OTH : c_pc (y_c (y_exec y1 (map (XRun u) hs))) t = c_pc (y_c y1) t /\ c_res (y_c (y_exec y1 (map (XRun u) hs))) t = c_res (y_c y1) t).
    { clear - NU PB ND P0 PA. assert (H1 : YI UW y1).
      { destruct (y_path_start UW any_schedule n l0 y ND P0) as [H _]. apply (path_sim UW any_schedule y _ y1 H PA). }
      destruct (path_sim UW any_schedule y1 _ _ H1 PB) as (_ & Q & _). revert Q. generalize (y_c (y_exec y1 (map (XRun u) hs))) as s'.
      assert (AC : forall x, In x (shadow y1 (map (XRun u) hs)) -> actor x <> Some t).
      { intros x I. apply shadow_in in I. apply in_map_iff in I as (b & <- & _). cbn. congruence. }
      revert AC. generalize (shadow y1 (map (XRun u) hs)) as l. generalize (y_c y1) as s. intros s l AC s' Q. induction Q as [s|s x l s' _ Q IH]; auto.
      destruct IH as [I1 I2]; [intros z I; apply AC; right; auto|]. rewrite I1, I2, step_pc, step_res by (apply AC; left; auto). auto. }
    destruct OTH as [OT1 OT2]. unfold idle in *. rewrite OT1, OT2, R1. rewrite MX in MB. split; auto. split; auto.
    assert (MEM : mem c (c_conds (y_c y)) = true).
    { apply mem_in. eapply (ci_cond UW); [apply (proj1 (y_path_start UW any_schedule n l0 y ND P0)) | apply LO]. }
    rewrite MEM. reflexivity.
Qed.

(** *** A case: thread 3 dies inside the list in the middle of its signal, before it has woken anybody *)
Definition y132_1 := y_exec y0 (y131_a ++ [XCall 3 (CSignal 1)] ++ y_runs 3 3 ++ [XDie 3]).
Fixpoint y_fine (y : ystate) (T : list Z) (ls : list clabel) : bool :=
  match ls with
  | [] => true
  | x :: r => match x with XRun t _ => existsb (Z.eqb t) T | _ => true end
              && forallb (fun t => match y_g (y_step y x) t with GUB => false | _ => true end) T && y_fine (y_step y x) T r
  end.
Lemma y_fine_path : forall T ls y, (forall t, ~ In t T -> y_g y t <> GUB) -> y_fine y T ls = true -> y_path any_schedule y ls (y_exec y ls).
Proof.
  intros T ls. induction ls as [|x ls IH]; intros y O H; [constructor|]. cbn [y_fine] in H. apply andb_true_iff in H as [H H3]. apply andb_true_iff in H as [H1 H2].
  assert (O' : forall t, ~ In t T -> y_g (y_step y x) t <> GUB).
  { intros t N. destruct x as [u cc|u g|u|m]; try (apply O; auto; fail). cbn [y_step]. destruct (_ && _); [|apply O; auto]. rewrite y_run_other; [apply O; auto|].
    intros ->. apply N. apply existsb_exists in H1 as (z & I & E). apply Z.eqb_eq in E. subst. auto. }
  cbn [y_exec]. constructor; [exact I | |apply IH; auto].
  intro t. destruct (in_dec Z.eq_dec t T) as [I|N]; [|apply O'; auto]. rewrite forallb_forall in H2. specialize (H2 t I). destruct (y_g (y_step y x) t); try discriminate; auto.
Qed.
Lemma y132_path : y_path any_schedule y0 (y131_a ++ [XCall 3 (CSignal 1)] ++ y_runs 3 3 ++ [XDie 3]) y132_1.
Proof. apply (y_fine_path [1; 2; 3]); [apply y0_fine | vm_compute; reflexivity]. Qed.
Lemma y132_facts : c_alive (y_c y132_1) 2 = true /\ c_alive (y_c y132_1) 1 = true /\ c_guard (y_c y132_1) = Some 3 /\ c_alive (y_c y132_1) 3 = false /\
  c_pc (y_c y132_1) 1 = WW (mkWA 1 1 KBlock) 101 /\ c_wl (y_c y132_1) 1 = [101] /\ w_wait (c_w (y_c y132_1) 101) = true /\ c_m (y_c y132_1) 1 = 0 /\
  w_mtx (c_w (y_c y132_1) 101) = 1 /\ enough (y_c y132_1) (CSignal 1) = (1005 * 7)%nat.
Proof. repeat split; vm_compute; reflexivity. Qed.
Lemma y_step_pc : forall y x t, actor x <> Some t -> c_pc (y_c (y_step y x)) t = c_pc (y_c y) t.
Proof.
  intros y x t N. destruct x as [u cc|u g|u|m]; try (apply step_pc; auto; fail). cbn [y_step]. destruct (_ && _); auto. assert (NE : t <> u) by (cbn in N; congruence).
  unfold y_run. destruct (entry _ _); [|destruct (leaves _)]; [destruct (g_pc _ u)|destruct (g_pc _ u)|]; cbn; rewrite ?upd_neq by auto; rewrite ?run_pc by auto; auto.
Qed.
Lemma y_exec_pc : forall ls y t, (forall x, In x ls -> actor x <> Some t) -> c_pc (y_c (y_exec y ls)) t = c_pc (y_c y) t.
Proof.
  induction ls as [|x ls IH]; intros y t A; auto. cbn [y_exec]. rewrite IH by (intros z I; apply A; right; auto). apply y_step_pc, A. left. reflexivity.
Qed.
Lemma y132_others : forall t, t <> 1 -> t <> 3 -> c_pc (y_c y132_1) t = CIdle.
Proof.
  intros t N1 N3. unfold y132_1. rewrite y_exec_pc; auto. intros x I.
  assert (Q : Forall (fun x => actor x = Some 1 \/ actor x = Some 3 \/ actor x = None) (y131_a ++ [XCall 3 (CSignal 1)] ++ y_runs 3 3 ++ [XDie 3])) by (repeat constructor).
  rewrite Forall_forall in Q. destruct (Q x I) as [E|[E|E]]; rewrite E; congruence.
Qed.
Lemma case_facts : forall y, c_pc (y_c y) 1 = WW (mkWA 1 1 KBlock) 101 -> c_alive (y_c y) 3 = false -> c_wl (y_c y) 1 = [101] ->
  w_wait (c_w (y_c y) 101) = true -> (forall t, t <> 1 -> t <> 3 -> c_pc (y_c y) t = CIdle) ->
  idle (y_c y) 2 /\ (forall v, v <> 2 -> ~ in_list y v) /\ blocked (y_c y) 1 1 101 /\ longest (y_c y) 1 101.
Proof.
  intros y P1 A3 W1 WT OT. split; [apply OT; lia|]. split.
  - intros v N I. apply in_list_crit in I as [AL C]. destruct (Z.eq_dec v 1) as [->|N1]; [rewrite P1 in C; discriminate|].
    destruct (Z.eq_dec v 3) as [->|N3]; [congruence|]. rewrite OT in C by auto. discriminate.
  - split; [unfold blocked; rewrite P1; auto|]. split; [split; [rewrite W1; left; auto | auto]|].
    intros w' [I _] N. rewrite W1 in I. destruct I as [I|[]]. congruence.
Qed.
Example C132_case : y_path any_schedule y0 (y131_a ++ [XCall 3 (CSignal 1)] ++ y_runs 3 3 ++ [XDie 3]) y132_1 /\ idle (y_c y132_1) 2 /\ (forall v, v <> 2 -> ~ in_list y132_1 v) /\ blocked (y_c y132_1) 1 1 101 /\ longest (y_c y132_1) 1 101.
Proof.
  destruct y132_facts as (A2 & A1 & G & A3 & P1 & W1 & WT & M & MX & EN).
  split; [exact y132_path|]. exact (case_facts y132_1 P1 A3 W1 WT y132_others).
Qed.
(** thread 2 takes the list over, wakes thread 1, and thread 1 returns 0 with the mutex *)
Example C132_case_ends : forall gs hs, length gs = (1005 * 7)%nat -> length hs = (1005 * 6)%nat ->
  let ls := XCall 2 (CSignal 1) :: map (XRun 2) gs ++ map (XRun 1) hs in let y' := y_exec y132_1 ls in
  y_path any_schedule y132_1 ls y' /\ idle (y_c y') 1 /\ c_res (y_c y') 1 = Some OK /\ c_m (y_c y') 1 = 1.
Proof.
  destruct y132_facts as (A2 & A1 & G & A3 & P1 & W1 & WT & M & MX & EN). destruct C132_case as (P & I2 & O & B & LO).
  pose proof nd_init as ND. revert A2 A1 M MX EN P I2 O B LO. generalize y132_1 as y. clear. intros y A2 A1 M MX EN P I2 O B LO gs hs L1 L2.
  assert (M1 : c_m (y_c y) (w_mtx (c_w (y_c y) 101)) = 0) by (rewrite MX; exact M).
  destruct (C132_signal_reaches_waiter [101; 102; 103] 2 _ y 2 1 1 101 gs hs nd_init P ltac:(lia) A2 I2 O A1 B LO M1) as (Q & _ & _ & X1 & X2 & X3).
  - rewrite EN, L1. apply le_n.
  - rewrite L2. apply le_n.
  - rewrite MX in X3. split; [exact Q|]. split; [exact X1|]. split; [exact X2 | exact X3].
Qed.

Print Assumptions C131_list_lock_not_seen.
Print Assumptions C131_calls_are_calls.
Print Assumptions C131_one_inside.
Print Assumptions C131_signal_wakes_longest.
Print Assumptions C131_no_lost_wakeup.
Print Assumptions C131_broadcast_wakes_all.
Print Assumptions C131_wait_success.
Print Assumptions C131_all_entries_return.
Print Assumptions C132_calls_return.
Print Assumptions C132_immediate_calls_return.
Print Assumptions C132_free_mutex_is_got.
Print Assumptions C132_signal_alone.
Print Assumptions C132_broadcast_alone.
Print Assumptions C132_woken_waiter_returns.
Print Assumptions C132_signal_reaches_waiter.
