(** Named mutexes with the real list lock: programs cannot tell the spin lock from an atomic one (C119), and
    calls that run alone return within a bounded number of steps (C120). *)
From Coq Require Import ZArith List Bool Lia.
From Verif Require Import Base Name_Model Mutex_Model Nmtx_Model Nmtx_Spec Nmtx_Proofs Nmtx_Proofs2 Nmtx_Proofs5 Nmtx_Props Nmtx_Props2.
From Verif Require Import Guard_Model Nspin_Model Nspin_Proofs Nspin_Proofs2.
Import ListNotations.
Open Scope Z_scope.

(** ** C119 *)
(** every history is one of the machine with the atomic lock, reached in the same state *)
Theorem C119_spin_lock_not_seen : forall d U key val cnt q h, NoDup U ->
  q_history (n_init U key val cnt) (n_ok d) q h -> n_history (n_init U key val cnt) (n_ok d) (q_n q) h.
Proof. intros d U key val cnt q h ND H. exact (proj1 (spin_sim d U key val cnt ND q h H)). Qed.
(** so histories are those of a table of atomic mutexes *)
Theorem C119_linearizable : forall U key val cnt q h, NoDup U ->
  q_history (n_init U key val cnt) n_no_exit_in_window q h \/ q_history (n_init U key val cnt) n_no_wait q h ->
  exists a, g_history (length U) a h.
Proof.
  intros U key val cnt q h ND [H|H].
  - apply (C113_linearizable_partial U key val cnt (q_n q) h ND). exact (C119_spin_lock_not_seen NoExitInWindow _ _ _ _ _ _ ND H).
  - apply (C113_no_wait_linearizable_partial U key val cnt (q_n q) h ND). exact (C119_spin_lock_not_seen NoWait _ _ _ _ _ _ ND H).
Qed.
(** read off the history: one locker per name *)
Theorem C119_one_locker : forall U key val cnt q h n t u, NoDup U ->
  q_history (n_init U key val cnt) n_no_exit_in_window q h \/ q_history (n_init U key val cnt) n_no_wait q h ->
  t <> 0 -> u <> 0 -> ~ dead_in t h -> ~ dead_in u h -> has_lock n t h = true -> has_lock n u h = true -> t = u.
Proof.
  intros U key val cnt q h n t u ND H. destruct (C119_linearizable U key val cnt q h ND H) as (a & HA). eapply one_locker; eauto.
Qed.
(** ENOLCK only if names and deaths have used up the table *)
Theorem C119_no_room : forall U key val cnt q h t, NoDup U ->
  q_history (n_init U key val cnt) n_any q h -> In (VRet t ENOLCK) h ->
  exists K, NoDup K /\ incl K (locked_names h) /\ (length U <= length K + deaths h)%nat.
Proof.
  intros U key val cnt q h t ND H. apply (C114_no_room_partial U key val cnt (q_n q) h t ND).
  exact (C119_spin_lock_not_seen AnyTime _ _ _ _ _ _ ND H).
Qed.
(** of the threads that have not died, at most one is inside the guarded sections *)
Theorem C119_one_inside : forall U key val cnt q h t u, NoDup U ->
  q_history (n_init U key val cnt) n_any q h -> n_alive (q_n q) t = true -> n_alive (q_n q) u = true ->
  guarded (n_pc (q_n q) t) -> guarded (n_pc (q_n q) u) -> t = u.
Proof.
  intros U key val cnt q h t u ND H AT AU GT GU.
  pose proof (ninv_reach AnyTime U key val cnt _ h ND (C119_spin_lock_not_seen AnyTime _ _ _ _ _ _ ND H)) as NI.
  rewrite <- (ni_guard _ _ NI t AT GT). apply (ni_guard _ _ NI u AU GU).
Qed.

(** ** C120 *)
(** thread [t] makes call [c] and runs alone for as many steps as there are retry decisions *)
Definition q_solo (q : qstate) (t : Z) (c : ncall) (cs : list bool) : qstate :=
  fold_left (fun x b => q_step x (NRun t b)) cs (q_step q (NCall t c)).

(** what a call does alone with an atomic lock, it does alone with the spin lock, in at most 1005 times the steps *)
Lemma solo_lift : forall U key val cnt okb q h t c N (P : nstate -> Prop), NoDup U ->
  q_history (n_init U key val cnt) n_any q h -> quiet (q_n q) -> t <> 0 -> n_alive (q_n q) t = true -> proper_name c ->
  (forall s, P s -> n_pc s t = NIdle) ->
  (forall bs, length bs = N -> Forall okb bs -> P (solo (q_n q) t c bs)) ->
  forall cs, (1005 * N <= length cs)%nat -> Forall okb cs -> P (q_n (q_solo q t c cs)).
Proof.
  intros U key val cnt okb q h t c N P ND H Q T0 AL PN PI W cs L F.
  destruct (spin_sim AnyTime U key val cnt ND q h H) as [NH QI].
  change (q_n (q_solo q t c cs)) with (q_n (q_alone (mkQ (n_call (q_n q) t c) (q_g q)) t cs)).
  apply (lift U key val cnt ND okb N _ t (h ++ n_events (q_n q) (NCall t c)) P); auto; cbn [q_n q_g].
  - apply (nh_step _ n_any (q_n q) (NCall t c)); [exact NH | split; auto | exact PN].
  - rewrite call_alive. exact AL.
  - intros u NE A. rewrite call_alive in A. rewrite call_other by auto. apply Q; auto.
  - specialize (QI t AL). rewrite (Q t AL) in QI. destruct (q_g q t); simpl in QI; auto; try contradiction; try discriminate. destruct QI; contradiction.
Qed.

Section Quiet.
Variables (U : list Z) (key : Z -> nameent) (val cnt : Z -> Z).
Hypothesis ND : NoDup U.
Definition yes : bool -> Prop := fun _ => True.
Lemma all_yes : forall cs, Forall yes cs.
Proof. intro cs. apply Forall_forall. intros. exact I. Qed.

Theorem C120_free_name_locked : forall q h t n k cs, q_history (n_init U key val cnt) n_any q h -> quiet (q_n q) ->
  t <> 0 -> n_alive (q_n q) t = true -> is_cstring n ->
  owner (q_n q) n 0 \/ (unknown (q_n q) n /\ n_free (q_n q) <> []) -> (1005 * 8 <= length cs)%nat ->
  let s' := q_n (q_solo q t (NLock (Some n) k) cs) in returned s' t OK /\ owner s' n t /\ others_keep (q_n q) s' n.
Proof.
  intros q h t n k cs H Q T0 AL CN D L. cbv zeta.
  pose proof (C119_spin_lock_not_seen AnyTime U key val cnt q h ND H) as NH.
  apply (solo_lift U key val cnt yes q h t (NLock (Some n) k) 8 (fun s' => returned s' t OK /\ owner s' n t /\ others_keep (q_n q) s' n));
    auto using all_yes; [intros s X; apply X|].
  intros bs LB _. apply (C115_free_name_locked_at_once U key val cnt ND (q_n q) h); auto.
Qed.
Theorem C120_new_name_without_room : forall q h t n k cs, q_history (n_init U key val cnt) n_any q h -> quiet (q_n q) ->
  t <> 0 -> n_alive (q_n q) t = true -> is_cstring n -> unknown (q_n q) n -> n_free (q_n q) = [] -> (1005 * 3 <= length cs)%nat ->
  let s' := q_n (q_solo q t (NLock (Some n) k) cs) in returned s' t ENOLCK /\ forall m v, owner (q_n q) m v <-> owner s' m v.
Proof.
  intros q h t n k cs H Q T0 AL CN NW FR L. cbv zeta.
  pose proof (C119_spin_lock_not_seen AnyTime U key val cnt q h ND H) as NH.
  apply (solo_lift U key val cnt yes q h t (NLock (Some n) k) 3 (fun s' => returned s' t ENOLCK /\ forall m v, owner (q_n q) m v <-> owner s' m v));
    auto using all_yes; [intros s X; apply X|].
  intros bs LB _. apply (C115_new_name_without_room U key val cnt ND (q_n q) h); auto.
Qed.
Theorem C120_try_refused : forall q h t n v cs, q_history (n_init U key val cnt) n_any q h -> quiet (q_n q) ->
  t <> 0 -> n_alive (q_n q) t = true -> is_cstring n -> owner (q_n q) n v -> v <> 0 -> v <> t -> (1005 * 5 <= length cs)%nat ->
  let s' := q_n (q_solo q t (NLock (Some n) MTry) cs) in returned s' t EBUSY /\ owner s' n v /\ others_keep (q_n q) s' n.
Proof.
  intros q h t n v cs H Q T0 AL CN OW V0 VT L. cbv zeta.
  pose proof (C119_spin_lock_not_seen AnyTime U key val cnt q h ND H) as NH.
  apply (solo_lift U key val cnt yes q h t (NLock (Some n) MTry) 5 (fun s' => returned s' t EBUSY /\ owner s' n v /\ others_keep (q_n q) s' n));
    auto using all_yes; [intros s X; apply X|].
  intros bs LB _. apply (C115_try_refused_at_once U key val cnt ND (q_n q) h); auto.
Qed.
Theorem C120_unlock_by_owner : forall q h t n, q_history (n_init U key val cnt) n_any q h -> quiet (q_n q) ->
  t <> 0 -> n_alive (q_n q) t = true -> is_cstring n -> owner (q_n q) n t ->
  exists N, forall cs, (N <= length cs)%nat ->
  let s' := q_n (q_solo q t (NUnlock (Some n)) cs) in returned s' t OK /\ owner s' n 0 /\ others_keep (q_n q) s' n.
Proof.
  intros q h t n H Q T0 AL CN OW.
  pose proof (C119_spin_lock_not_seen AnyTime U key val cnt q h ND H) as NH.
  destruct (C115_unlock_by_owner U key val cnt ND (q_n q) h t n NH Q T0 AL CN OW) as (N & W).
  exists (1005 * N)%nat. intros cs L. cbv zeta.
  apply (solo_lift U key val cnt yes q h t (NUnlock (Some n)) N (fun s' => returned s' t OK /\ owner s' n 0 /\ others_keep (q_n q) s' n));
    auto using all_yes; [intros s X; apply X|].
  intros bs LB _. apply W. lia.
Qed.
Theorem C120_unlock_by_others : forall q h t n cs, q_history (n_init U key val cnt) n_any q h -> quiet (q_n q) ->
  t <> 0 -> n_alive (q_n q) t = true -> is_cstring n -> (1005 * 5 <= length cs)%nat ->
  let s := q_n q in let s' := q_n (q_solo q t (NUnlock (Some n)) cs) in
  (unknown s n -> returned s' t EINVAL /\ forall m v, owner s m v <-> owner s' m v) /\
  (owner s n 0 -> returned s' t OK /\ owner s' n 0 /\ others_keep s s' n) /\
  (forall v, owner s n v -> v <> 0 -> v <> t -> returned s' t EPERM /\ owner s' n v /\ others_keep s s' n).
Proof.
  intros q h t n cs H Q T0 AL CN L. cbv zeta.
  pose proof (C119_spin_lock_not_seen AnyTime U key val cnt q h ND H) as NH.
  assert (W : forall bs, length bs = 5%nat -> _) by (intros bs LB; exact (C115_unlock_by_others U key val cnt ND (q_n q) h t n bs NH Q T0 AL CN LB)).
  cbv zeta in W. split; [|split].
  - intro X. apply (solo_lift U key val cnt yes q h t (NUnlock (Some n)) 5 (fun s' => returned s' t EINVAL /\ forall m v, owner (q_n q) m v <-> owner s' m v));
      auto using all_yes; [intros s Y; apply Y|]. intros bs LB _. apply (W bs LB); auto.
  - intro X. apply (solo_lift U key val cnt yes q h t (NUnlock (Some n)) 5 (fun s' => returned s' t OK /\ owner s' n 0 /\ others_keep (q_n q) s' n));
      auto using all_yes; [intros s Y; apply Y|]. intros bs LB _. apply (W bs LB); auto.
  - intros v X V0 VT. apply (solo_lift U key val cnt yes q h t (NUnlock (Some n)) 5 (fun s' => returned s' t EPERM /\ owner s' n v /\ others_keep (q_n q) s' n));
      auto using all_yes; [intros s Y; apply Y|]. intros bs LB _. apply (W bs LB); auto.
Qed.
Theorem C120_pass_frees_mutexes_of_the_dead : forall q h t cs, q_history (n_init U key val cnt) n_any q h -> quiet (q_n q) ->
  t <> 0 -> n_alive (q_n q) t = true -> (1005 * (5 + 7 * length (n_list (q_n q))) <= length cs)%nat ->
  let s' := q_n (q_solo q t NRecover cs) in
  returned s' t OK /\ forall n v, owner (q_n q) n v -> owner s' n (if n_alive (q_n q) v then v else 0).
Proof.
  intros q h t cs H Q T0 AL L. cbv zeta.
  pose proof (C119_spin_lock_not_seen AnyTime U key val cnt q h ND H) as NH.
  apply (solo_lift U key val cnt yes q h t NRecover (5 + 7 * length (n_list (q_n q)))
    (fun s' => returned s' t OK /\ forall n v, owner (q_n q) n v -> owner s' n (if n_alive (q_n q) v then v else 0)));
    auto using all_yes; [exact I | intros s X; apply X|].
  intros bs LB _. apply (C116_pass_frees_mutexes_of_the_dead U key val cnt ND (q_n q) h); auto.
Qed.
Theorem C120_blocking_lock_takes_over : forall q h t n v cs, q_history (n_init U key val cnt) n_any q h -> quiet (q_n q) ->
  t <> 0 -> n_alive (q_n q) t = true -> is_cstring n -> owner (q_n q) n v -> n_alive (q_n q) v = false ->
  Forall (fun b => b = false) cs -> (1005 * (13 + 7 * length (n_list (q_n q))) <= length cs)%nat ->
  let s' := q_n (q_solo q t (NLock (Some n) MBlock) cs) in returned s' t OK /\ owner s' n t.
Proof.
  intros q h t n v cs H Q T0 AL CN OW DEAD F L. cbv zeta.
  pose proof (C119_spin_lock_not_seen AnyTime U key val cnt q h ND H) as NH.
  apply (solo_lift U key val cnt (fun b => b = false) q h t (NLock (Some n) MBlock) (13 + 7 * length (n_list (q_n q)))
    (fun s' => returned s' t OK /\ owner s' n t)); auto; [intros s X; apply X|].
  intros bs LB FB. assert (E : bs = repeat false (13 + 7 * length (n_list (q_n q)))).
  { rewrite <- LB. clear -FB. induction FB as [|b bs -> FB IH]; simpl; congruence. }
  rewrite E. apply (C116_blocking_lock_takes_over U key val cnt ND (q_n q) h t n v); auto.
Qed.
End Quiet.

(** ** Concrete histories *)
Fixpoint q_exec (q : qstate) (ls : list nlabel) : qstate := match ls with [] => q | l :: r => q_exec (q_step q l) r end.
Fixpoint q_hist (q : qstate) (ls : list nlabel) : list nevent :=
  match ls with [] => [] | l :: r => q_events q l ++ q_hist (q_step q l) r end.
Definition sane (x : gpc) : bool := match x with GUB => false | _ => true end.
Fixpoint q_possible (wt : bool) (q : qstate) (ls : list nlabel) : bool :=
  match ls with
  | [] => true
  | l :: r => match l with NCall t c => negb (t =? 0) && n_alive (q_n q) t && good_name c && (wt || match c with NWaitUnlock _ => false | _ => true end)
              | NRun t b => negb (t =? 0) && n_alive (q_n q) t && sane (q_g (q_run q t b) t) | NDie t => negb (t =? 0) end && q_possible wt (q_step q l) r
  end.
Lemma q_hist_exec : forall s0 (ok : nstate -> nlabel -> Prop) wt,
  (forall s l, n_any s l -> (wt = false -> match l with NCall _ (NWaitUnlock _) => False | _ => True end) -> ok s l) ->
  forall ls q h, q_history s0 ok q h -> no_overflow q -> q_possible wt q ls = true -> q_history s0 ok (q_exec q ls) (h ++ q_hist q ls).
Proof.
  intros s0 ok wt Hok ls. induction ls as [|l r IH]; intros q h R NO G; [simpl; rewrite app_nil_r; exact R|].
  cbn [q_possible] in G. apply andb_true_iff in G. destruct G as [G G3].
  assert (NO' : no_overflow (q_step q l)).
  { destruct l as [t c|t b|t]; try exact NO. intro u. cbn [q_step]. destruct (Z.eq_dec u t) as [->|N].
    - apply andb_true_iff in G as [_ G]. intro E. rewrite E in G. discriminate.
    - rewrite q_run_other; auto. }
  cbn [q_exec q_hist]. rewrite app_assoc. apply IH; auto.
  destruct l as [t c|t b|t]; rewrite ?andb_true_iff, ?negb_true_iff, ?Z.eqb_neq in G.
  - destruct G as (((G1 & G2) & G4) & G5). constructor; auto; [simpl; auto|]. apply Hok; [apply good_proper; auto|].
    intros ->. simpl in G5. destruct c; auto. discriminate.
  - destruct G as ((G1 & G2) & G4). constructor; auto; [simpl; auto|]. apply Hok; [exact I | auto].
  - constructor; auto. apply Hok; [exact I | auto].
Qed.
Lemma q_hist_any : forall s0 ls, q_possible true (q_init s0) ls = true -> q_history s0 n_any (q_exec (q_init s0) ls) (q_hist (q_init s0) ls).
Proof. intros s0 ls P. apply (q_hist_exec s0 n_any true) with (h := []); auto; [constructor | intros t X; discriminate]. Qed.
Lemma q_hist_nowait : forall s0 ls, q_possible false (q_init s0) ls = true -> q_history s0 n_no_wait (q_exec (q_init s0) ls) (q_hist (q_init s0) ls).
Proof.
  intros s0 ls P. apply (q_hist_exec s0 n_no_wait false) with (h := []); auto; [|constructor | intros t X; discriminate].
  intros s l A B. split; auto. specialize (B eq_refl). destruct l as [t []|t b|t]; auto.
Qed.

(** 1 locks a; 2 asks for a, spins 20 times while 3 is inside, is refused; 3 dies inside; 1 finds 3 dead after
    more than a thousand spins and unlocks; 2 locks a *)
Definition ex119 : list nlabel :=
  does 1 (NLock na MBlock) 12 ++ NCall 3 (NLock nb MBlock) :: run 3 4 ++ does 2 (NLock na MTry) 20 ++
  run 3 12 ++ run 2 12 ++ NCall 3 (NUnlock nb) :: run 3 3 ++ [NDie 3] ++ does 1 (NUnlock na) 900 ++ run 1 150 ++ does 2 (NLock na MBlock) 12.
Example C119_case :
  q_history (start [10; 11; 12]) n_no_wait (q_exec (q_init (start [10; 11; 12])) ex119) (q_hist (q_init (start [10; 11; 12])) ex119) /\
  q_hist (q_init (start [10; 11; 12])) ex119 =
   [VCall 1 (NLock na MBlock); VRet 1 OK; VCall 3 (NLock nb MBlock); VCall 2 (NLock na MTry); VRet 3 OK; VRet 2 EBUSY; VCall 3 (NUnlock nb); VDie 3;
    VCall 1 (NUnlock na); VRet 1 OK; VCall 2 (NLock na MBlock); VRet 2 OK].
Proof. split; [apply q_hist_nowait; vm_compute; reflexivity | vm_compute; reflexivity]. Qed.

Lemma q_idle_step : forall q l u, n_pc (q_n q) u = NIdle -> match l with NCall t _ => u <> t | _ => True end -> n_pc (q_n (q_step q l)) u = NIdle.
Proof.
  intros q l u E N. destruct l as [t c|t b|t]; [apply (idle_step (q_n q) (NCall t c)); auto | |exact E].
  cbn [q_step]. destruct (Z.eq_dec u t) as [->|NE].
  - change (q_run q t b) with (q_alone q t [b]). rewrite idle_stays; auto.
  - unfold q_run. pose proof (fun s E' => idle_step s (NRun t b) u E' I) as IS. cbn [n_step] in IS.
    destruct (releases _); [|destruct (n_pc (q_n q) t)]; try (apply IS; exact E);
      destruct (g_pc _ t); cbn [q_n n_set_guard n_goto n_pc]; rewrite ?upd_neq by auto; try exact E; apply IS; exact E.
Qed.
Lemma q_idle_exec : forall ls q u, n_pc (q_n q) u = NIdle -> ~ In u (callers ls) -> n_pc (q_n (q_exec q ls)) u = NIdle.
Proof.
  induction ls as [|l ls IH]; intros q u E N; auto. simpl. apply IH.
  - apply q_idle_step; auto. destruct l; auto. simpl in N. intros ->. apply N. auto.
  - intro X. apply N. unfold callers in *. simpl. apply in_or_app. auto.
Qed.
Lemma q_quiet_exec : forall q ls, (forall u, n_pc (q_n q) u = NIdle) -> forallb (at_rest (q_n (q_exec q ls))) (callers ls) = true -> quiet (q_n (q_exec q ls)).
Proof.
  intros q ls I F u A. destruct (in_dec Z.eq_dec u (callers ls)) as [IN|NI]; [|apply q_idle_exec; auto].
  rewrite forallb_forall in F. specialize (F u IN). unfold at_rest in F. rewrite A in F. simpl in F. destruct (n_pc (q_n (q_exec q ls)) u); auto; discriminate.
Qed.
(** 1 has a and dies while it unlocks b, with the lock of the list; 2 has c *)
Definition ex120 : list nlabel :=
  does 1 (NLock na MBlock) 12 ++ does 1 (NLock nb MBlock) 12 ++ does 2 (NLock nc MTry) 12 ++ does 1 (NUnlock nb) 6 ++ [NDie 1].
Definition q120 : qstate := q_exec (q_init (start [10; 11; 12; 13])) ex120.
Example C120_case : q_history (start [10; 11; 12; 13]) n_any q120 (q_hist (q_init (start [10; 11; 12; 13])) ex120) /\ quiet (q_n q120) /\
  n_alive (q_n q120) 2 = true /\ n_alive (q_n q120) 1 = false /\ owner (q_n q120) [97] 1 /\ owner (q_n q120) [99] 2 /\ unknown (q_n q120) [100] /\
  n_free (q_n q120) = [13] /\ n_guard (q_n q120) = 1.
Proof.
  split; [apply q_hist_any; vm_compute; reflexivity|]. split; [apply q_quiet_exec; [reflexivity | vm_compute; reflexivity]|].
  split; [vm_compute; reflexivity|]. split; [vm_compute; reflexivity|].
  assert (L : n_list (q_n q120) = [12; 11; 10]) by (vm_compute; reflexivity). unfold owner, unknown. rewrite L.
  split; [exists 10; vm_compute; auto|]. split; [exists 12; vm_compute; auto|].
  split; [|vm_compute; auto]. intros e [<-|[<-|[<-|[]]]]; vm_compute; discriminate.
Qed.
(** with the dead holder of the list lock in the way calls take a thousand steps more *)
Example C120_answers :
  n_res (q_n (q_solo q120 2 (NLock (Some [100]) MTry) (repeat true 1014))) 2 = Some OK /\
  n_res (q_n (q_solo q120 2 (NLock (Some [97]) MTry) (repeat true 1010))) 2 = Some EBUSY /\
  n_res (q_n (q_solo q120 2 (NLock (Some [97]) MTry) (repeat true 1000))) 2 = Some OK /\
  n_pc (q_n (q_solo q120 2 (NLock (Some [97]) MTry) (repeat true 1000))) 2 = NWait (NFind (NLock (Some [97]) MTry)) /\
  n_res (q_n (q_solo q120 2 (NUnlock (Some [97])) (repeat true 1010))) 2 = Some EPERM /\
  map (n_val (q_n (q_solo q120 2 NRecover (repeat true 1040)))) [10; 11; 12] = [0; 0; 2].
Proof. vm_compute. auto 10. Qed.

Print Assumptions C119_spin_lock_not_seen.
Print Assumptions C119_linearizable.
Print Assumptions C119_one_locker.
Print Assumptions C119_no_room.
Print Assumptions C119_one_inside.
Print Assumptions C120_free_name_locked.
Print Assumptions C120_new_name_without_room.
Print Assumptions C120_try_refused.
Print Assumptions C120_unlock_by_owner.
Print Assumptions C120_unlock_by_others.
Print Assumptions C120_pass_frees_mutexes_of_the_dead.
Print Assumptions C120_blocking_lock_takes_over.
