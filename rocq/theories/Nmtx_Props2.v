(** Named mutexes: calls that run alone (C115) and what recovery gives back (C116). *)
From Coq Require Import ZArith List Bool Lia.
From Verif Require Import Base Name_Model Name_Spec Name_Proofs Mutex_Model Mutex_Spec Mutex_Proofs Mutex_Proofs2
  Nmtx_Model Nmtx_Spec Nmtx_Proofs Nmtx_Proofs2 Nmtx_Proofs5 Nmtx_Props.
Import ListNotations.
Open Scope Z_scope.

(** ** What the table says *)
(** the name is in the table and its mutex has owner [v] (0: free) *)
Definition owner (s : nstate) (n : cstring) (v : Z) : Prop :=
  exists e, In e (n_list s) /\ n_name (n_key s e) = canon (Some n) /\ n_val s e = v.
Definition unknown (s : nstate) (n : cstring) : Prop := forall e, In e (n_list s) -> n_name (n_key s e) <> canon (Some n).
(** no call of a living thread is running *)
Definition quiet (s : nstate) : Prop := forall u, n_alive s u = true -> n_pc s u = NIdle.
(** thread [t] makes call [c] and runs alone for as many steps as there are retry decisions *)
Definition solo (s : nstate) (t : Z) (c : ncall) (bs : list bool) : nstate :=
  fold_left (fun x b => n_step x (NRun t b)) bs (n_step s (NCall t c)).
Lemma solo_alone : forall s t c bs, solo s t c bs = alone (n_call s t c) t bs.
Proof. reflexivity. Qed.
Definition returned (s : nstate) (t r : Z) : Prop := n_pc s t = NIdle /\ n_res s t = Some r.
(** names other than [n] keep their owners *)
Definition others_keep (s s' : nstate) (n : cstring) : Prop :=
  forall m v, canon (Some m) <> canon (Some n) -> owner s m v -> owner s' m v.

Lemma ended_owner : forall s s' t e n v g r, In e (n_list s) -> ename s e = canon (Some n) -> ended s s' t e v g r ->
  returned s' t r /\ owner s' n v /\ others_keep s s' n.
Proof.
  intros s s' t e n v g r IN EN ((A & B & C & D & E & F) & P & R & V & G). split; [split; auto|]. split.
  - exists e. rewrite A, C. auto.
  - intros m w NE (x & X1 & X2 & X3). exists x. rewrite A, C. repeat split; auto. rewrite E; auto.
    intros ->. unfold ename in EN. congruence.
Qed.

Section Quiet.
Variables (U : list Z) (key : Z -> nameent) (val cnt : Z -> Z).
Hypothesis ND : NoDup U.

(** a free name, or a new one while there is room: at once *)
Theorem C115_free_name_locked_at_once : forall s h t n k bs, n_history (n_init U key val cnt) n_any s h -> quiet s ->
  t <> 0 -> n_alive s t = true -> is_cstring n -> owner s n 0 \/ (unknown s n /\ n_free s <> []) -> length bs = 8%nat ->
  let s' := solo s t (NLock (Some n) k) bs in returned s' t OK /\ owner s' n t /\ others_keep s s' n.
Proof.
  intros s h t n k bs H Q T0 AL CN D L s'.
  assert (W : within (fun _ => True) 8 (n_call s t (NLock (Some n) k)) t (fun s' => returned s' t OK /\ owner s' n t /\ others_keep s s' n)).
  { destruct D as [(e & IN & EN & V)|[NEW FR]].
    - apply (within_more _ 6); [intros x X; apply X | lia |].
      eapply within_weak; [|eapply (q_lock_free _ U key val cnt ND s h t H Q T0 AL n k e); eauto].
      intros x X. eapply ended_owner; [eauto | eauto | exact X].
    - destruct (n_free s) as [|e fr] eqn:F; [congruence|].
      eapply within_weak; [|eapply (q_lock_new _ U key val cnt ND s h t H Q T0 AL n k e fr); eauto].
      intros x (X1 & X2 & X3 & X4 & X5 & X6 & X7 & X8). split; [split; auto|]. split.
      + exists e. rewrite X4. simpl. auto.
      + intros m v NE (y & Y1 & Y2 & Y3). exists y. rewrite X4. split; [simpl; auto|].
        assert (NEQ : y <> e).
        { intros ->. pose proof (ni_nodup _ _ (q_inv U key val cnt ND s h H)) as N. rewrite F in N.
          apply NoDup_remove_2 in N. apply N. apply in_or_app. auto. }
        destruct (X8 y NEQ) as [Z1 Z2]. unfold ename in Z1. split; congruence. }
  apply W; auto. apply Forall_forall. auto.
Qed.
(** no room *)
Theorem C115_new_name_without_room : forall s h t n k bs, n_history (n_init U key val cnt) n_any s h -> quiet s ->
  t <> 0 -> n_alive s t = true -> is_cstring n -> unknown s n -> n_free s = [] -> length bs = 3%nat ->
  let s' := solo s t (NLock (Some n) k) bs in returned s' t ENOLCK /\ forall m v, owner s m v <-> owner s' m v.
Proof.
  intros s h t n k bs H Q T0 AL CN NEW FR L s'.
  assert (W : within (fun _ => True) 3 (n_call s t (NLock (Some n) k)) t (fun s' => returned s' t ENOLCK /\ forall m v, owner s m v <-> owner s' m v)).
  { eapply within_weak; [|eapply (q_refused _ U key val cnt ND s h t H Q AL (NLock (Some n) k) ENOLCK); eauto; exact I].
    intros x (X1 & X2 & X3 & X4 & X5 & X6 & X7). split; [split; auto|]. unfold ename in X7.
    intros m v. split; intros (y & Y1 & Y2 & Y3); exists y; rewrite X4, X6, X7 in *; auto. }
  apply W; auto. apply Forall_forall. auto.
Qed.
(** somebody else has it: a try is refused *)
Theorem C115_try_refused_at_once : forall s h t n v bs, n_history (n_init U key val cnt) n_any s h -> quiet s ->
  t <> 0 -> n_alive s t = true -> is_cstring n -> owner s n v -> v <> 0 -> v <> t -> length bs = 5%nat ->
  let s' := solo s t (NLock (Some n) MTry) bs in returned s' t EBUSY /\ owner s' n v /\ others_keep s s' n.
Proof.
  intros s h t n v bs H Q T0 AL CN (e & IN & EN & V) V0 VT L s'.
  assert (W : within (fun _ => True) 5 (n_call s t (NLock (Some n) MTry)) t (fun s' => returned s' t EBUSY /\ owner s' n v /\ others_keep s s' n)).
  { eapply within_weak; [|eapply (q_lock_busy _ U key val cnt ND s h t H Q AL n e); eauto; congruence].
    intros x X. rewrite V in X. eapply ended_owner; [eauto | eauto | exact X]. }
  apply W; auto. apply Forall_forall. auto.
Qed.
(** unlock: the owner frees the mutex, whatever its count; nobody else does *)
Theorem C115_unlock_by_owner : forall s h t n, n_history (n_init U key val cnt) n_any s h -> quiet s ->
  t <> 0 -> n_alive s t = true -> is_cstring n -> owner s n t ->
  exists N, forall bs, (N <= length bs)%nat ->
  let s' := solo s t (NUnlock (Some n)) bs in returned s' t OK /\ owner s' n 0 /\ others_keep s s' n.
Proof.
  intros s h t n H Q T0 AL CN (e & IN & EN & V). exists (8 + 3 * Z.to_nat (n_cnt s e))%nat. intros bs L s'.
  assert (W : within (fun _ => True) (length bs) (n_call s t (NUnlock (Some n))) t (fun s' => returned s' t OK /\ owner s' n 0 /\ others_keep s s' n)).
  { apply (within_more _ (8 + 3 * Z.to_nat (n_cnt s e))); [intros x X; apply X | auto |].
    eapply within_weak; [|eapply (q_unlock_own _ U key val cnt ND s h t H Q T0 AL n e); eauto].
    intros x X. eapply ended_owner; [eauto | eauto | exact X]. }
  apply W; auto. apply Forall_forall. auto.
Qed.
Theorem C115_unlock_by_others : forall s h t n bs, n_history (n_init U key val cnt) n_any s h -> quiet s ->
  t <> 0 -> n_alive s t = true -> is_cstring n -> length bs = 5%nat ->
  let s' := solo s t (NUnlock (Some n)) bs in
  (unknown s n -> returned s' t EINVAL /\ forall m v, owner s m v <-> owner s' m v) /\
  (owner s n 0 -> returned s' t OK /\ owner s' n 0 /\ others_keep s s' n) /\
  (forall v, owner s n v -> v <> 0 -> v <> t -> returned s' t EPERM /\ owner s' n v /\ others_keep s s' n).
Proof.
  intros s h t n bs H Q T0 AL CN L s'.
  assert (ALL : Forall (fun _ : bool => True) bs) by (apply Forall_forall; auto).
  split; [|split].
  - intro NEW.
    assert (W : within (fun _ => True) 5 (n_call s t (NUnlock (Some n))) t (fun s' => returned s' t EINVAL /\ forall m v, owner s m v <-> owner s' m v)).
    { apply (within_more _ 3); [intros x X; apply X | lia |].
      eapply within_weak; [|eapply (q_refused _ U key val cnt ND s h t H Q AL (NUnlock (Some n)) EINVAL); eauto; exact I].
      intros x (X1 & X2 & X3 & X4 & X5 & X6 & X7). split; [split; auto|]. unfold ename in X7.
      intros m v. split; intros (y & Y1 & Y2 & Y3); exists y; rewrite X4, X6, X7 in *; auto. }
    apply W; auto.
  - intros (e & IN & EN & V).
    assert (W : within (fun _ => True) 5 (n_call s t (NUnlock (Some n))) t (fun s' => returned s' t OK /\ owner s' n 0 /\ others_keep s s' n)).
    { apply (within_more _ 4); [intros x X; apply X | lia |].
      eapply within_weak; [|eapply (q_unlock_free _ U key val cnt ND s h t H Q AL n e); eauto]. intros x X. eapply ended_owner; [eauto | eauto | exact X]. }
    apply W; auto.
  - intros v (e & IN & EN & V) V0 VT.
    assert (W : within (fun _ => True) 5 (n_call s t (NUnlock (Some n))) t (fun s' => returned s' t EPERM /\ owner s' n v /\ others_keep s s' n)).
    { eapply within_weak; [|eapply (q_unlock_other _ U key val cnt ND s h t H Q AL n e); eauto; congruence].
      intros x X. rewrite V in X. eapply ended_owner; [eauto | eauto | exact X]. }
    apply W; auto.
Qed.

(** ** C116: recovery *)
(** a pass that runs alone ends, frees every mutex of a dead owner and no other *)
Theorem C116_pass_frees_mutexes_of_the_dead : forall s h t bs, n_history (n_init U key val cnt) n_any s h -> quiet s ->
  t <> 0 -> n_alive s t = true -> length bs = (5 + 7 * length (n_list s))%nat ->
  let s' := solo s t NRecover bs in
  returned s' t OK /\ forall n v, owner s n v -> owner s' n (if n_alive s v then v else 0).
Proof.
  intros s h t bs H Q T0 AL L s'.
  assert (W : within (fun _ => True) (5 + 7 * length (n_list s)) (n_call s t NRecover) t (fun s' =>
    returned s' t OK /\ forall n v, owner s n v -> owner s' n (if n_alive s v then v else 0))).
  { eapply within_weak; [|eapply (q_recover _ U key val cnt ND s h t H Q AL)].
    intros x ((A & B & C & D & E) & P & R & V). split; [split; auto|].
    intros n v (e & IN & EN & VV). exists e. rewrite A, C. repeat split; auto. rewrite V by auto. unfold cleared. rewrite VV. auto. }
  apply W; auto. apply Forall_forall. auto.
Qed.
(** a blocking lock that looks for dead owners after its first failed attempt gets the mutex of a dead owner itself *)
Theorem C116_blocking_lock_takes_over : forall s h t n v, n_history (n_init U key val cnt) n_any s h -> quiet s ->
  t <> 0 -> n_alive s t = true -> is_cstring n -> owner s n v -> n_alive s v = false ->
  let s' := solo s t (NLock (Some n) MBlock) (repeat false (13 + 7 * length (n_list s))) in
  returned s' t OK /\ owner s' n t.
Proof.
  intros s h t n v H Q T0 AL CN (e & IN & EN & V) DEAD. cbv zeta. rewrite <- V in DEAD. rewrite solo_alone.
  pose proof (q_lock_dead U key val cnt s h t n e ND H Q T0 AL CN IN EN DEAD) as W.
  destruct (W (repeat false (13 + 7 * length (n_list s)))) as (A & B & C & D & E).
  - apply repeat_length.
  - apply Forall_forall. intros b X. exact (repeat_spec _ _ _ X).
  - split; [split; auto|]. exists e. rewrite D. auto.
Qed.
End Quiet.

(** ** Concrete cases *)
Definition callers (ls : list nlabel) : list Z := flat_map (fun l => match l with NCall t _ => [t] | _ => [] end) ls.
Lemma idle_step : forall s l u, n_pc s u = NIdle -> match l with NCall t _ => u <> t | _ => True end -> n_pc (n_step s l) u = NIdle.
Proof.
  intros s [t c|t b|t] u E N; simpl; auto.
  - unfold n_call. destruct (n_pc s t); auto; destruct c as [[n|] k|[n|]|n| ]; simpl; rewrite upd_neq; auto.
  - destruct (Z.eq_dec u t) as [->|NE]; [unfold n_run; rewrite E; auto|].
    unfold n_run. destruct (n_pc s t) as [ |p|c|c e|c e|c e|r|c e p|w|w|w es|w es e p|w]; auto.
    + destruct (_ || _); simpl; rewrite ?upd_neq; auto.
    + destruct (n_find s (ckey c)); destruct c; simpl; rewrite ?upd_neq; auto. destruct (n_free s); simpl; rewrite upd_neq; auto.
    + simpl. rewrite upd_neq; auto.
    + simpl. rewrite upd_neq; auto.
    + unfold n_drop_guard. destruct (n_guard s =? t); simpl; rewrite upd_neq; auto.
    + unfold n_drop_guard. destruct (n_guard s =? t); simpl; rewrite upd_neq; auto.
    + destruct (m_pc (m_run (n_view s e t p) t b) t); simpl; rewrite upd_neq; auto.
    + destruct (n_list s); [destruct w as [[c e]|]|]; simpl; rewrite upd_neq; auto.
    + simpl. rewrite upd_neq; auto.
    + destruct es; simpl; rewrite upd_neq; auto.
    + destruct (m_pc (m_run (n_view s e t p) t b) t); simpl; rewrite upd_neq; auto.
    + unfold n_drop_guard. destruct w as [[c e]|]; destruct (n_guard s =? t); simpl; rewrite upd_neq; auto.
Qed.
Lemma idle_exec : forall ls s u, n_pc s u = NIdle -> ~ In u (callers ls) -> n_pc (n_exec s ls) u = NIdle.
Proof.
  induction ls as [|l ls IH]; intros s u E N; auto. simpl. apply IH.
  - apply idle_step; auto. destruct l; auto. simpl in N. intros ->. apply N. auto.
  - intro X. apply N. unfold callers in *. simpl. apply in_or_app. auto.
Qed.
Definition at_rest (s : nstate) (u : Z) : bool := negb (n_alive s u) || match n_pc s u with NIdle => true | _ => false end.
Lemma quiet_exec : forall s ls, (forall u, n_pc s u = NIdle) -> forallb (at_rest (n_exec s ls)) (callers ls) = true -> quiet (n_exec s ls).
Proof.
  intros s ls I F u A. destruct (in_dec Z.eq_dec u (callers ls)) as [IN|NI]; [|apply idle_exec; auto].
  rewrite forallb_forall in F. specialize (F u IN). unfold at_rest in F. rewrite A in F. simpl in F. destruct (n_pc (n_exec s ls) u); auto; discriminate.
Qed.
(** 1 has a and b and dies while it unlocks b; 2 has c; 3 died in a lock of b; one entry is left, one is lost *)
Definition nc : option cstring := Some [99].
Definition ex115 : list nlabel :=
  does 1 (NLock na MBlock) 9 ++ does 1 (NLock nb MBlock) 9 ++ does 2 (NLock nc MTry) 9 ++ does 3 (NLock nb MBlock) 6 ++
  does 4 (NLock (Some [100]) MBlock) 3 ++ [NDie 4; NDie 3] ++ does 1 (NUnlock nb) 5 ++ [NDie 1].
Definition s115 : nstate := n_exec (start [10; 11; 12; 13; 14]) ex115.
Example C115_case : n_history (start [10; 11; 12; 13; 14]) n_any s115 (hist (start [10; 11; 12; 13; 14]) ex115) /\ quiet s115 /\
  n_alive s115 2 = true /\ n_alive s115 1 = false /\ owner s115 [97] 1 /\ owner s115 [98] 1 /\ owner s115 [99] 2 /\ unknown s115 [100] /\
  n_free s115 = [14] /\ n_guard s115 = 1.
Proof.
  split; [apply hist_any; vm_compute; reflexivity|]. split; [apply quiet_exec; [reflexivity | vm_compute; reflexivity]|].
  split; [vm_compute; reflexivity|]. split; [vm_compute; reflexivity|].
  assert (L : n_list s115 = [12; 11; 10]) by (vm_compute; reflexivity). unfold owner, unknown. rewrite L.
  split; [exists 10; vm_compute; auto|]. split; [exists 11; vm_compute; auto|]. split; [exists 12; vm_compute; auto|].
  split; [|vm_compute; auto]. intros e [<-|[<-|[<-|[]]]]; vm_compute; discriminate.
Qed.
(** the calls of the theorems in that state *)
Example C115_answers :
  n_res (solo s115 2 (NLock (Some [100]) MTry) (repeat true 8)) 2 = Some OK /\
  n_res (solo s115 2 (NLock (Some [98]) MTry) (repeat true 5)) 2 = Some EBUSY /\
  n_res (solo s115 2 (NUnlock (Some [99])) (repeat true 8)) 2 = Some OK /\
  n_res (solo s115 2 (NUnlock (Some [97])) (repeat true 5)) 2 = Some EPERM /\
  n_res (solo s115 2 (NUnlock (Some [100])) (repeat true 5)) 2 = Some EINVAL.
Proof. vm_compute. auto. Qed.
Example C116_case : let s' := solo s115 2 NRecover (repeat true 26) in
  n_res s' 2 = Some OK /\ map (n_val s') [10; 11; 12] = [0; 0; 2] /\
  n_val (solo s115 2 (NLock (Some [98]) MBlock) (repeat false 34)) 11 = 2.
Proof. vm_compute. auto. Qed.

Print Assumptions C115_free_name_locked_at_once.
Print Assumptions C115_new_name_without_room.
Print Assumptions C115_try_refused_at_once.
Print Assumptions C115_unlock_by_owner.
Print Assumptions C115_unlock_by_others.
Print Assumptions C116_pass_frees_mutexes_of_the_dead.
Print Assumptions C116_blocking_lock_takes_over.
