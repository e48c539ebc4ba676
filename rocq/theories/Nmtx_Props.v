(** Named mutexes together: linearizability (C113) and the room for names (C114). *)
From Coq Require Import ZArith List Bool Lia.
From Verif Require Import Base Name_Model Name_Spec Name_Proofs Mutex_Model Mutex_Spec Mutex_Proofs Mutex_Proofs2
  Nmtx_Model Nmtx_Spec Nmtx_Proofs Nmtx_Proofs2 Nmtx_Proofs3 Nmtx_Proofs4.
Import ListNotations.
Open Scope Z_scope.

(** ** C113: whatever programs can see of named mutexes, a table of atomic mutexes could have shown *)
Definition C113_statement : Prop := forall U key val cnt s h, NoDup U ->
  n_history (n_init U key val cnt) n_any s h -> exists a, g_history (length U) a h.

Theorem C113_linearizable_partial : forall U key val cnt s h, NoDup U ->
  n_history (n_init U key val cnt) n_no_exit_in_window s h -> exists a, g_history (length U) a h.
Proof.
  intros U key val cnt s h ND H.
  assert (D : NoExitInWindow <> AnyTime) by discriminate.
  destruct (simulation NoExitInWindow D U key val cnt s h ND H) as (a & HA & _). eauto.
Qed.
(** without condition waits any thread may die at any instant *)
Theorem C113_no_wait_linearizable_partial : forall U key val cnt s h, NoDup U ->
  n_history (n_init U key val cnt) n_no_wait s h -> exists a, g_history (length U) a h.
Proof.
  intros U key val cnt s h ND H.
  assert (D : NoWait <> AnyTime) by discriminate.
  destruct (simulation NoWait D U key val cnt s h ND H) as (a & HA & _). eauto.
Qed.
(** read off the history alone: for every name, of the threads that have not died at most one has locked it
    and not yet started to unlock it or to wait with it *)
Lemma one_locker : forall room a h n t u, g_history room a h -> t <> 0 -> u <> 0 ->
  ~ dead_in t h -> ~ dead_in u h -> has_lock n t h = true -> has_lock n u h = true -> t = u.
Proof.
  intros room a h n t u HA T0 U0 DT DU LT LU.
  pose proof (gtold_history room a h HA n t T0) as T. pose proof (gtold_history room a h HA n u U0) as W.
  rewrite <- (gt_lock _ _ _ _ T (proj2 (gt_alive _ _ _ _ T) DT) LT). apply (gt_lock _ _ _ _ W (proj2 (gt_alive _ _ _ _ W) DU) LU).
Qed.
Theorem C113_one_locker_in_history_partial : forall U key val cnt s h n t u, NoDup U ->
  n_history (n_init U key val cnt) n_no_exit_in_window s h -> t <> 0 -> u <> 0 ->
  ~ dead_in t h -> ~ dead_in u h -> has_lock n t h = true -> has_lock n u h = true -> t = u.
Proof.
  intros U key val cnt s h n t u ND H. destruct (C113_linearizable_partial U key val cnt s h ND H) as (a & HA).
  eapply one_locker; eauto.
Qed.

(** ** Concrete histories *)
Fixpoint n_exec (s : nstate) (ls : list nlabel) : nstate := match ls with [] => s | l :: r => n_exec (n_step s l) r end.
Fixpoint hist (s : nstate) (ls : list nlabel) : list nevent :=
  match ls with [] => [] | l :: r => n_events s l ++ hist (n_step s l) r end.
Definition good_name (c : ncall) : bool := forallb (fun b => (1 <=? b) && (b <=? 255)) (str_of (name_of c)).
Fixpoint possible (wt : bool) (s : nstate) (ls : list nlabel) : bool :=
  match ls with
  | [] => true
  | l :: r => match l with NCall t c => negb (t =? 0) && n_alive s t && good_name c && (wt || match c with NWaitUnlock _ => false | _ => true end)
              | NRun t _ => negb (t =? 0) && n_alive s t | NDie t => negb (t =? 0) end && possible wt (n_step s l) r
  end.
Lemma good_proper : forall c, good_name c = true -> proper_name c.
Proof.
  intros c H. apply proper_str. unfold is_cstring. unfold good_name in H. rewrite forallb_forall in H. apply Forall_forall.
  intros b IN. specialize (H b IN). apply andb_true_iff in H as [A B]. apply Z.leb_le in A, B. lia.
Qed.
Lemma hist_exec : forall s0 (ok : nstate -> nlabel -> Prop) wt,
  (forall s l, n_any s l -> (wt = false -> match l with NCall _ (NWaitUnlock _) => False | _ => True end) -> ok s l) ->
  forall ls s h, n_history s0 ok s h -> possible wt s ls = true -> n_history s0 ok (n_exec s ls) (h ++ hist s ls).
Proof.
  intros s0 ok wt Hok ls. induction ls as [|l r IH]; intros s h R G; [simpl; rewrite app_nil_r; exact R|].
  cbn [possible] in G. apply andb_true_iff in G. destruct G as [G G3].
  cbn [n_exec hist]. rewrite app_assoc. apply IH; auto.
  destruct l as [t c|t b|t]; rewrite ?andb_true_iff, ?negb_true_iff, ?Z.eqb_neq in G.
  - destruct G as (((G1 & G2) & G4) & G5). constructor; auto; [simpl; auto|]. apply Hok; [apply good_proper; auto|].
    intros ->. simpl in G5. destruct c; auto. discriminate.
  - destruct G as (G1 & G2). constructor; auto; [simpl; auto|]. apply Hok; [exact I | auto].
  - constructor; auto. apply Hok; [exact I | auto].
Qed.
Lemma hist_any : forall s0 ls, possible true s0 ls = true -> n_history s0 n_any (n_exec s0 ls) (hist s0 ls).
Proof. intros s0 ls P. apply (hist_exec s0 n_any true) with (h := []); auto. constructor. Qed.
Lemma hist_nowait : forall s0 ls, possible false s0 ls = true -> n_history s0 n_no_wait (n_exec s0 ls) (hist s0 ls).
Proof.
  intros s0 ls P. apply (hist_exec s0 n_no_wait false) with (h := []); auto; [|constructor].
  intros s l A B. split; auto. specialize (B eq_refl). destruct l as [t []|t b|t]; auto.
Qed.

Definition run (t : Z) (n : nat) : list nlabel := repeat (NRun t true) n.
Definition does (t : Z) (c : ncall) (n : nat) : list nlabel := NCall t c :: run t n.
Definition key0 : nameent := key_of [].
(** entries [U], whatever their memory contains *)
Definition start (U : list Z) : nstate := n_init U (fun _ => key0) (fun _ => 77) (fun _ => 5).
Definition na : option cstring := Some [97].
Definition nb : option cstring := Some [98].
(** two names of 64 bytes that differ in the last byte *)
Definition long1 : option cstring := Some (repeat 120 63 ++ [49]).
Definition long2 : option cstring := Some (repeat 120 63 ++ [50]).

(** 1 locks a, 2 is refused a and locks b, 1 unlocks, 3 gets a and dies, a pass of 2 frees it, 2 locks it *)
Definition ex113 : list nlabel :=
  does 1 (NLock na MBlock) 9 ++ does 2 (NLock na MTry) 9 ++ does 2 (NLock nb MTry) 9 ++ does 1 (NUnlock na) 9 ++
  does 3 (NLock na MBlock) 9 ++ [NDie 3] ++ does 2 NRecover 20 ++ does 2 (NLock na MTry) 9.
Example C113_case : n_history (start [10; 11]) n_no_wait (n_exec (start [10; 11]) ex113) (hist (start [10; 11]) ex113) /\
  hist (start [10; 11]) ex113 = [VCall 1 (NLock na MBlock); VRet 1 OK; VCall 2 (NLock na MTry); VRet 2 EBUSY; VCall 2 (NLock nb MTry); VRet 2 OK;
    VCall 1 (NUnlock na); VRet 1 OK; VCall 3 (NLock na MBlock); VRet 3 OK; VDie 3; VCall 2 NRecover; VRet 2 OK; VCall 2 (NLock na MTry); VRet 2 OK] /\
  has_lock na 2 (hist (start [10; 11]) ex113) = true /\ has_lock nb 2 (hist (start [10; 11]) ex113) = true.
Proof. split; [apply hist_nowait; vm_compute; reflexivity | vm_compute; auto]. Qed.
(** names are compared on 63 bytes: two programs with different long names share a mutex *)
Definition ex113_long : list nlabel := does 1 (NLock long1 MBlock) 9 ++ does 2 (NLock long2 MTry) 9.
Example C113_long_names : n_history (start [10; 11]) n_no_wait (n_exec (start [10; 11]) ex113_long) (hist (start [10; 11]) ex113_long) /\
  hist (start [10; 11]) ex113_long = [VCall 1 (NLock long1 MBlock); VRet 1 OK; VCall 2 (NLock long2 MTry); VRet 2 EBUSY].
Proof. split; [apply hist_nowait; vm_compute; reflexivity | vm_compute; auto]. Qed.
(** the table never shows a lock granted to 2 while 1 has it *)
Example C113_table_excludes : forall room a,
  ~ g_history room a [VCall 1 (NLock na MBlock); VRet 1 OK; VCall 2 (NLock na MTry); VRet 2 OK].
Proof.
  intros room a H. assert (X : 1 = 2); [|lia]. eapply (one_locker room a _ na); eauto; try lia; try reflexivity;
    unfold dead_in; simpl; intros [X|[X|[X|[X|[]]]]]; discriminate.
Qed.
(** putting a name into the table is visible before the lock: 2 unlocks a name that 1 is about to lock for
    the first time, and nobody has locked; the answer is success, neither "unknown" nor "not owner" *)
Definition ex113_seen : list nlabel := NCall 1 (NLock na MBlock) :: run 1 5 ++ does 2 (NUnlock na) 9 ++ does 3 (NUnlock nb) 9.
Example C113_registration_seen :
  n_history (start [10; 11]) n_no_wait (n_exec (start [10; 11]) ex113_seen) (hist (start [10; 11]) ex113_seen) /\
  hist (start [10; 11]) ex113_seen = [VCall 1 (NLock na MBlock); VCall 2 (NUnlock na); VRet 2 OK; VCall 3 (NUnlock nb); VRet 3 EINVAL].
Proof. split; [apply hist_nowait; vm_compute; reflexivity | vm_compute; auto]. Qed.

(** ** C113 without restriction: false, see C12 *)
Definition C113_witness : list nlabel :=
  does 1 (NLock na MBlock) 9 ++ does 1 (NWaitUnlock na) 3 ++ does 2 (NLock na MBlock) 3 ++ does 3 NRecover 5 ++
  run 1 4 ++ [NDie 1] ++ run 2 4 ++ run 3 9 ++ does 4 (NLock na MTry) 7.
Theorem C113_linearizable_refuted : ~ C113_statement.
Proof.
  intros H. set (s0 := start [10; 11]). set (h := hist s0 C113_witness).
  assert (R : n_history s0 n_any (n_exec s0 C113_witness) h) by (apply hist_any; vm_compute; reflexivity).
  destruct (H [10; 11] _ _ _ _ _ ltac:(repeat constructor; simpl; intuition lia) R) as (a & HA).
  assert (D : forall t, existsb (fun e => match e with VDie u => u =? t | _ => false end) h = false -> ~ dead_in t h).
  { intros t E X. assert (Y : existsb (fun e => match e with VDie u => u =? t | _ => false end) h = true).
    { apply existsb_exists. exists (VDie t). split; [exact X | apply Z.eqb_refl]. }
    congruence. }
  assert (X : 2 = 4); [|lia]. apply (one_locker 2%nat a h na); auto; try lia; try (apply D); vm_compute; reflexivity.
Qed.

(** ** C114: "no room for the name" *)
(** full statement: a lock answers ENOLCK only when as many names as the table has entries were used *)
Definition C114_statement : Prop := forall U key val cnt s h t, NoDup U ->
  n_history (n_init U key val cnt) n_any s h -> In (VRet t ENOLCK) h ->
  exists K, NoDup K /\ incl K (locked_names h) /\ (length U <= length K)%nat.
(** true up to one entry for every death *)
Theorem C114_no_room_partial : forall U key val cnt s h t, NoDup U ->
  n_history (n_init U key val cnt) n_any s h -> In (VRet t ENOLCK) h ->
  exists K, NoDup K /\ incl K (locked_names h) /\ (length U <= length K + deaths h)%nat.
Proof. intros. eapply no_room; eauto. Qed.
(** programs that use fewer names than there are entries never see ENOLCK as long as nobody dies *)
Theorem C114_few_names_never_refused : forall U key val cnt s h t names, NoDup U ->
  n_history (n_init U key val cnt) n_any s h -> (forall u, ~ In (VDie u) h) -> incl (locked_names h) names ->
  (length names < length U)%nat -> ~ In (VRet t ENOLCK) h.
Proof.
  intros U key val cnt s h t names ND H NDIE IN LT X.
  destruct (C114_no_room_partial U key val cnt s h t ND H X) as (K & N & I & LE).
  assert (D0 : deaths h = O).
  { unfold deaths. destruct (filter _ h) as [|v l] eqn:E; auto. exfalso.
    assert (Y : In v (filter (fun v => match v with VDie _ => true | _ => false end) h)) by (rewrite E; left; auto).
    apply filter_In in Y as [Y1 Y2]. destruct v; try discriminate. eapply NDIE; eauto. }
  assert (LK : (length K <= length names)%nat) by (apply NoDup_incl_length; auto; eapply incl_tran; eauto). lia.
Qed.
(** two threads die while they put the first name into a table of two *)
Definition C114_witness : list nlabel :=
  does 1 (NLock na MBlock) 3 ++ [NDie 1] ++ does 2 (NLock na MBlock) 3 ++ [NDie 2] ++ does 3 (NLock na MBlock) 9.
Theorem C114_no_room_refuted : ~ C114_statement.
Proof.
  intros H. set (s0 := start [10; 11]). set (h := hist s0 C114_witness).
  assert (R : n_history s0 n_any (n_exec s0 C114_witness) h) by (apply hist_any; vm_compute; reflexivity).
  assert (EH : h = [VCall 1 (NLock na MBlock); VDie 1; VCall 2 (NLock na MBlock); VDie 2; VCall 3 (NLock na MBlock); VRet 3 ENOLCK])
    by (vm_compute; reflexivity).
  destruct (H [10; 11] _ _ _ _ _ 3 ltac:(repeat constructor; simpl; intuition lia) R) as (K & N & I & LE).
  { rewrite EH. simpl. auto 10. }
  assert (I' : incl K [[97]]).
  { intros x IN. apply I in IN. rewrite EH in IN. unfold locked_names, na, canon in IN. simpl in IN. simpl. tauto. }
  pose proof (NoDup_incl_length N I') as LK. simpl in LE, LK. lia.
Qed.
(** a table of one entry refuses the second name *)
Definition ex114 : list nlabel := does 1 (NLock na MBlock) 9 ++ does 2 (NLock nb MBlock) 9.
Example C114_case : n_history (start [10]) n_any (n_exec (start [10]) ex114) (hist (start [10]) ex114) /\
  hist (start [10]) ex114 = [VCall 1 (NLock na MBlock); VRet 1 OK; VCall 2 (NLock nb MBlock); VRet 2 ENOLCK].
Proof. split; [apply hist_any; vm_compute; reflexivity | vm_compute; auto]. Qed.
(** a table of three entries takes both *)
Example C114_few_case : n_history (start [10; 11; 12]) n_any (n_exec (start [10; 11; 12]) ex114) (hist (start [10; 11; 12]) ex114) /\
  hist (start [10; 11; 12]) ex114 = [VCall 1 (NLock na MBlock); VRet 1 OK; VCall 2 (NLock nb MBlock); VRet 2 OK] /\
  incl (locked_names (hist (start [10; 11; 12]) ex114)) [[97]; [98]].
Proof. split; [apply hist_any; vm_compute; reflexivity | split; [vm_compute; reflexivity | vm_compute; intros x [X|[X|[]]]; auto]]. Qed.

Print Assumptions C113_linearizable_partial.
Print Assumptions C113_no_wait_linearizable_partial.
Print Assumptions C113_one_locker_in_history_partial.
Print Assumptions C113_linearizable_refuted.
Print Assumptions C114_no_room_partial.
Print Assumptions C114_few_names_never_refused.
Print Assumptions C114_no_room_refuted.
