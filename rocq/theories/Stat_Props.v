(** Lifetime of static objects: C147, C148. *)
From Coq Require Import List Bool Arith Lia.
From Verif Require Import Base Stat_Model Stat_Spec Stat_Proofs Stat_Proofs2.
Import ListNotations.

(** ** C147: at exit the calling thread uses no destroyed object of the library, and static recursive locks are released *)
Definition C147_statement : Prop :=
  forall cf s, l_reach cf anything s -> l_bad s = false /\ (gone s -> forall i, l_held s i = false).

Lemma exec_reach : forall cf (ok : lstate -> llabel * oc -> Prop) ls, (forall s x, In x ls -> ok s x) -> forall s, l_reach cf ok s -> l_reach cf ok (fold_left (l_step cf) ls s).
Proof.
  intros cf ok. induction ls as [|x ls IH]; intros K s R; auto. cbn. apply IH; [intros; apply K; right; auto|]. apply lr_step; auto. apply K. left. auto.
Qed.
Fixpoint allowed (cf : lconf) (ok : lstate -> llabel * oc -> Prop) (s : lstate) (ls : list (llabel * oc)) : Prop :=
  match ls with [] => True | x :: r => ok s x /\ allowed cf ok (l_step cf s x) r end.
Lemma exec_allowed : forall cf ok ls s, l_reach cf ok s -> allowed cf ok s ls -> l_reach cf ok (fold_left (l_step cf) ls s).
Proof.
  intros cf ok. induction ls as [|x ls IH]; intros s R K; auto. destruct K as [K1 K2]. cbn. apply IH; auto. apply lr_step; auto.
Qed.
Lemma exec_any : forall cf ls, l_reach cf anything (l_exec cf ls).
Proof. intros cf ls. apply exec_reach; [intros; exact I | apply lr_init]. Qed.

(** all goes well, with a worker *)
Definition fine : oc := mkO true true true.
Definition usual : lconf := mkLC true false.
(** a static recursive lock, locked in main() and left to its destructor: the helper is gone then *)
Definition lazy_run : list (llabel * oc) :=
  map (fun l => (l, fine)) [LNew 0 ULazy; LLock 0; LExit; LPop; LPop; LPop; LPop; LPop].
(** the lock stays in the shared memory, and in a program that retries the null path of the helper would be used; a static object calling the
    library only in its destructor does it as well *)
Theorem C147_statics_refuted : ~ C147_statement.
Proof. intro H. destruct (H usual _ (exec_any usual lazy_run)) as [B _]. vm_compute in B. discriminate. Qed.
Theorem C147_lock_left_refuted : exists s, l_reach usual (both inits anything) s /\ gone s /\ l_held s 0 = true.
Proof.
  exists (l_exec usual lazy_run). split; [|split; [split|]].
  - apply exec_reach; [|apply lr_init]. intros s x X. split; [|exact I]. unfold lazy_run in X. apply in_map_iff in X as (l & <- & _). reflexivity.
  - vm_compute. reflexivity.
  - vm_compute. reflexivity.
  - vm_compute. reflexivity.
Qed.
Definition late_run : list (llabel * oc) := map (fun l => (l, fine)) [LNew 0 (UCalls false); LCall; LExit; LPop; LPop; LPop; LPop].
Theorem C147_late_call_refuted : exists s, l_reach (mkLC true true) anything s /\ gone s /\ l_bad s = true.
Proof.
  exists (l_exec (mkLC true true) late_run). split; [apply exec_any|]. split; [split|].
  - vm_compute. reflexivity.
  - vm_compute. reflexivity.
  - vm_compute. reflexivity.
Qed.
(** a recursive lock that was never locked starts the library in its destructor, when the object for messages is gone already *)
Definition unused_run : list (llabel * oc) := map (fun l => (l, fine)) [LNew 0 ULazy; LDebug; LExit; LPop; LPop].
Theorem C147_started_at_exit_refuted : exists s x, l_reach usual anything s /\ l_exit s = true /\ l_bad s = false /\ l_built s Helper = false /\
  l_bad (l_step usual s x) = true /\ l_built (l_step usual s x) Helper = true.
Proof.
  exists (l_exec usual (removelast unused_run)), (LPop, fine). split; [apply exec_any|].
  split; [vm_compute; reflexivity|]. split; [vm_compute; reflexivity|]. split; [vm_compute; reflexivity|]. split; vm_compute; reflexivity.
Qed.

(** what holds: objects that lock or call in their constructors, or recursive locks left unlocked by a program that has used the library *)
Theorem C147_statics_partial : forall cf s, c_auto cf = true -> l_reach cf (both inits careful) s ->
  l_bad s = false /\ (gone s -> forall i, l_held s i = false).
Proof.
  intros cf s AU R. pose proof (tidy_reach cf s AU R) as [C A L B W K H]. split; auto. intros [_ D] i. destruct (l_held s i) eqn:Y; auto.
  destruct (H i Y) as [P Q]. destruct (K i P) as [BU _]. assert (Z : In (User i) (l_done s)) by (apply (k_in s C); auto). rewrite D in Z. contradiction.
Qed.
(** until exit() nothing at all is destroyed, whatever the program does *)
Theorem C147_before_exit : forall cf s, l_reach cf anything s -> l_exit s = false -> l_bad s = false.
Proof.
  assert (U : forall x s, (forall y, l_dead s y = false) -> l_bad s = false -> l_bad (l_use x s) = false /\ l_dead (l_use x s) = l_dead s).
  { intros x s D B. unfold l_use. rewrite D. unfold l_build. destruct (l_built s x); auto. }
  assert (P : forall s, l_bad (l_pass s) = l_bad s /\ l_dead (l_pass s) = l_dead s).
  { intros s. unfold l_pass, l_build. destruct (l_dead s Tids); auto. destruct (l_built s Tids); auto. }
  assert (M : forall cf o s, (forall y, l_dead s y = false) -> l_bad s = false -> l_bad (l_shm cf o s) = false /\ l_dead (l_shm cf o s) = l_dead s).
  { intros cf o s D B. unfold l_shm. destruct (l_built s Helper); auto. destruct (U Debug s D B) as [U1 U2]. cbv zeta.
    unfold l_build. destruct (l_built _ Helper); cbn; auto. }
  assert (K : forall cf o s, (forall y, l_dead s y = false) -> l_bad s = false -> l_bad (l_call cf o s) = false /\ l_dead (l_call cf o s) = l_dead s).
  { intros cf o s D B. destruct (M cf o s D B) as [M1 M2]. unfold l_call. set (s1 := l_shm cf o s) in *.
    assert (X : l_bad (l_attach cf o s1) = false /\ l_dead (l_attach cf o s1) = l_dead s1).
    { unfold l_attach. destruct (l_att s1); auto. destruct (c_retry cf); auto. rewrite M2, D. cbn. auto. }
    destruct X as [X1 X2]. cbv zeta. destruct (l_att _); [|split; congruence]. destruct (U Tids (l_attach cf o s1)) as [U1 U2]; auto; [intro y; rewrite X2, M2; auto|]. split; congruence. }
  assert (RL : forall cf o i s, (forall y, l_dead s y = false) -> l_bad s = false -> l_bad (l_rlock cf o i s) = false /\ l_dead (l_rlock cf o i s) = l_dead s).
  { intros cf o i s D B. unfold l_rlock. destruct (l_lock s i); auto. destruct (M cf o s D B) as [M1 M2].
    destruct (U Stack (l_shm cf o s)) as [U1 U2]; auto; [intro; rewrite M2; auto|].
    destruct (K cf o (l_use Stack (l_shm cf o s))) as [K1 K2]; auto; [intro; rewrite U2, M2; auto|]. cbn. split; congruence. }
  assert (RU : forall cf o i s, (forall y, l_dead s y = false) -> l_bad s = false -> l_bad (l_runlock cf o i s) = false /\ l_dead (l_runlock cf o i s) = l_dead s).
  { intros cf o i s D B. unfold l_runlock. destruct (M cf o s D B) as [M1 M2]. cbv zeta. destruct (negb _); auto.
    destruct (U Stack (l_shm cf o s)) as [U1 U2]; auto; [intro; rewrite M2; auto|].
    destruct (K cf o (l_use Stack (l_shm cf o s))) as [K1 K2]; auto; [intro; rewrite U2, M2; auto|]. cbn. split; congruence. }
  assert (G : forall cf s, l_reach cf anything s -> l_exit s = false -> l_bad s = false /\ forall y, l_dead s y = false).
  { intros cf s R. induction R as [|s [x o] R IH _]; [cbn; auto|]. intro X.
    assert (E : l_exit s = false).
    { destruct (l_exit s) eqn:E; auto. exfalso. revert X. unfold l_step. cbn [fst snd]. rewrite E. destruct x; cbn [orb]; try congruence; cbn [l_exit]; try discriminate.
      - unfold l_pass, l_build. destruct (l_work s); [|congruence]. destruct (l_dead s Tids); [cbn; congruence|]. destruct (l_built s Tids); cbn; congruence.
      - intro X. assert (Y : forall t x, l_exit (l_use x t) = l_exit t) by (intros t x; unfold l_use, l_build; destruct (l_dead t x); auto; destruct (l_built t x); auto).
        assert (YP : forall t, l_exit (l_pass t) = l_exit t) by (intros t; unfold l_pass, l_build; destruct (l_dead t Tids); auto; destruct (l_built t Tids); auto).
        assert (YM : forall t, l_exit (l_shm cf o t) = l_exit t).
        { intro t. unfold l_shm. destruct (l_built t Helper); auto. cbv zeta. unfold l_build. destruct (l_built _ Helper); cbn; apply Y. }
        assert (YC : forall t, l_exit (l_call cf o t) = l_exit t).
        { intro t. unfold l_call. cbv zeta. set (t1 := l_shm cf o t). assert (Z : l_exit (l_attach cf o t1) = l_exit t1).
          { unfold l_attach. destruct (l_att t1); auto. destruct (c_retry cf); auto. destruct (l_dead t1 Helper); auto. }
          destruct (l_att _); [rewrite Y|]; rewrite Z; apply YM. }
        assert (YU : forall i t, l_exit (l_runlock cf o i t) = l_exit t).
        { intros i t. unfold l_runlock. cbv zeta. destruct (negb _); [apply YM|]. cbn. rewrite YC, Y. apply YM. }
        revert X. unfold l_pop. destruct (l_done s) as [|[| | | |i] r]; cbn; try congruence.
        destruct (l_kind s i); rewrite ?YU, ?YC; cbn; congruence. }
    destruct (IH E) as [B D]. clear IH. revert X. unfold l_step. cbn [fst snd]. rewrite E. cbn [orb].
    destruct x as [| | |i k|i|i| | |].
    - intros _. destruct (U Debug s D B) as [P1 P2]. split; auto. intro; rewrite P2; auto.
    - intros _. destruct (M cf o s D B) as [P1 P2]. split; auto. intro; rewrite P2; auto.
    - intros _. destruct (K cf o s D B) as [P1 P2]. split; auto. intro; rewrite P2; auto.
    - intros _. destruct (l_built s (User i)); auto. unfold l_new. cbv zeta. set (s1 := l_setkind i k s).
      assert (D1 : forall y, l_dead s1 y = false) by exact D. assert (B1 : l_bad s1 = false) by exact B.
      assert (UB : forall t, l_bad (l_build (User i) t) = l_bad t /\ l_dead (l_build (User i) t) = l_dead t) by (intro t; unfold l_build; destruct (l_built t (User i)); auto).
      destruct (U Tids s1 D1 B1) as [U1 U2].
      destruct k as [| |[|]].
      + destruct (UB (l_use Tids s1)) as [Q1 Q2]. split; [congruence|]. intro. rewrite Q2, U2. auto.
      + destruct (RL cf o i (l_use Tids s1)) as [R1 R2]; auto; [intro; rewrite U2; auto|]. destruct (UB (l_rlock cf o i (l_use Tids s1))) as [Q1 Q2].
        split; [congruence|]. intro. rewrite Q2, R2, U2. auto.
      + destruct (K cf o s1 D1 B1) as [R1 R2]. destruct (UB (l_call cf o s1)) as [Q1 Q2]. split; [congruence|]. intro. rewrite Q2, R2. auto.
      + destruct (UB s1) as [Q1 Q2]. split; [congruence|]. intro. rewrite Q2. auto.
    - intros _. destruct (RL cf o i s D B) as [P1 P2]. destruct (l_kind s i), (l_built s (User i)); auto; (split; [auto | intro; rewrite P2; auto]).
    - intros _. destruct (RU cf o i s D B) as [P1 P2]. destruct (l_kind s i), (l_built s (User i)); auto; (split; [auto | intro; rewrite P2; auto]).
    - intros _. destruct (l_work s); auto. destruct (P s) as [P1 P2]. split; [congruence|]. intro. rewrite P2. auto.
    - cbn. discriminate.
    - auto. }
  intros cf s R X. apply (G cf s R X).
Qed.

(** a program with a locking object, a lazy one locked and unlocked in main(), and one calling the library; everything is destroyed and nothing left *)
Definition careful_run : list (llabel * oc) :=
  map (fun l => (l, fine)) ([LNew 0 ULock; LNew 1 ULazy; LNew 2 (UCalls true); LLock 1; LWorker; LUnlock 1; LExit] ++ repeat LPop 9).
Example C147_careful_case : gone (l_exec usual careful_run) /\ l_built (l_exec usual careful_run) (User 0) = true /\
  l_bad (l_exec usual careful_run) = false /\ l_held (l_exec usual careful_run) 0 = false /\
  l_held (fold_left (l_step usual) (map (fun l => (l, fine)) [LNew 0 ULock; LExit]) l_init) 0 = true.
Proof.
  split; [split; vm_compute; reflexivity|]. split; [vm_compute; reflexivity|]. split; [vm_compute; reflexivity|]. split; vm_compute; reflexivity.
Qed.
Example C147_careful_reached : l_reach usual (both inits careful) (l_exec usual careful_run).
Proof.
  apply exec_allowed; [apply lr_init|]. unfold careful_run. cbn [map app repeat allowed].
  do 6 (split; [split; [reflexivity | exact I]|]). split; [split; [reflexivity|]|do 9 (split; [split; [reflexivity | exact I]|]); exact I].
  unfold careful. cbn [fst]. intros i.
  match goal with |- l_built ?s _ = _ -> _ => assert (X0 : l_kind s 0 = ULock) by (vm_compute; reflexivity);
    assert (X1 : l_lock s 1 = false) by (vm_compute; reflexivity); assert (X2 : l_kind s 2 = UCalls true) by (vm_compute; reflexivity);
    assert (X3 : forall j, l_built s (User (S (S (S j)))) = false) by (intro j; vm_compute; reflexivity);
    assert (X4 : l_built s Helper = true) by (vm_compute; reflexivity); generalize dependent s end.
  intros s X0 X1 X2 X3 X4 BU KI. destruct i as [|[|[|i]]]; try congruence. auto.
Qed.

(** ** C148: the worker does not look up thread numbers after their cache is gone *)
Definition C148_statement : Prop := forall cf s, l_reach cf anything s -> l_badw s = false.
(** one lock call, and exit() *)
Definition worker_run : list (llabel * oc) := map (fun l => (l, fine)) [LCall; LExit; LPop; LWorker].
Theorem C148_worker_refuted : ~ C148_statement.
Proof. intro H. specialize (H usual _ (exec_any usual worker_run)). vm_compute in H. discriminate. Qed.
(** ... though the calling thread does nothing wrong *)
Theorem C148_worker_careful_refuted : exists s, l_reach usual (both inits careful) s /\ l_badw s = true /\ l_bad s = false.
Proof.
  exists (l_exec usual worker_run). split; [|split; vm_compute; reflexivity]. apply exec_allowed; [apply lr_init|]. unfold worker_run. cbn [map allowed].
  split; [split; [reflexivity | exact I]|]. split; [split; [reflexivity|]|split; [split; [reflexivity | exact I]|]; split; [split; [reflexivity | exact I]|]; exact I].
  unfold careful. cbn [fst]. intros i.
  match goal with |- l_built ?s _ = _ -> _ => assert (X : l_built s (User i) = false) by (vm_compute; reflexivity); generalize dependent s end.
  intros s X BU. congruence.
Qed.
Theorem C148_worker_partial : forall cf s, c_auto cf = true -> l_reach cf (both inits numbers_first) s -> l_badw s = false.
Proof. intros cf s AU R. destruct (well_reach cf s AU R) as [V _]. apply (v_badw s V). Qed.
(** a recursive lock built before the first call; the worker passes until the helper is destroyed *)
Definition numbers_run : list (llabel * oc) := map (fun l => (l, fine)) [LNew 0 ULazy; LCall; LWorker; LExit; LWorker; LPop; LWorker; LPop; LPop; LPop; LWorker].
Example C148_numbers_case : l_reach usual (both inits numbers_first) (l_exec usual numbers_run) /\ l_badw (l_exec usual numbers_run) = false /\
  gone (l_exec usual numbers_run) /\ l_work (fold_left (l_step usual) (firstn 4 numbers_run) l_init) = true.
Proof.
  split; [|split; [vm_compute; reflexivity|split; [split; vm_compute; reflexivity | vm_compute; reflexivity]]].
  apply exec_allowed; [apply lr_init|]. unfold numbers_run. cbn [map allowed].
  split; [split; [reflexivity|]; right; right; left; exact I|]. split; [split; [reflexivity|]; right; left; vm_compute; reflexivity|].
  do 9 (split; [split; [reflexivity|]; left; vm_compute; reflexivity|]). exact I.
Qed.
(** ... or a program without worker *)
Definition plain_run : list (llabel * oc) := map (fun l => (l, mkO true false true)) [LCall; LExit; LPop; LWorker; LPop; LPop].
Example C148_plain_case : l_reach usual (both inits numbers_first) (l_exec usual plain_run) /\ l_badw (l_exec usual plain_run) = false /\ gone (l_exec usual plain_run).
Proof.
  split; [|split; [vm_compute; reflexivity|split; vm_compute; reflexivity]].
  apply exec_allowed; [apply lr_init|]. unfold plain_run. cbn [map allowed].
  split; [split; [reflexivity|]; right; right; right; reflexivity|].
  do 5 (split; [split; [reflexivity|]; left; vm_compute; reflexivity|]). exact I.
Qed.

Print Assumptions C147_statics_refuted.
Print Assumptions C147_lock_left_refuted.
Print Assumptions C147_late_call_refuted.
Print Assumptions C147_started_at_exit_refuted.
Print Assumptions C147_statics_partial.
Print Assumptions C147_before_exit.
Print Assumptions C148_worker_refuted.
Print Assumptions C148_worker_careful_refuted.
Print Assumptions C148_worker_partial.
