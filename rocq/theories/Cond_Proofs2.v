(** Condition variables: frames of the steps; signal and broadcast calls. *)
From Coq Require Import ZArith List Bool Lia Sorted.
From Verif Require Import Base Cond_Model Cond_Spec Cond_Proofs.
Import ListNotations.
Open Scope Z_scope.

(** ** What a step can change *)
Ltac pcases s t Ep := destruct (c_pc s t) as
    [|m k|m|a|a|a|a w|a w|a w|a w|a w r|a w|a w r|a w r|a w r|a w r|r|c b|c b|c ws last|c w|c ws|c w ws| |cs ws] eqn:Ep.

(** a step of [t] either is the identity or goes through [goto] or [ret] *)
Lemma run_pc : forall s t g u, u <> t -> c_pc (c_run s t g) u = c_pc s u.
Proof.
  intros s t g u N. unfold c_run, take_guard, unlock_mutex.
  pcases s t Ep; simpl; auto;
  repeat match goal with
  | |- context[match ?x with _ => _ end] => destruct x; simpl; auto
  end; try apply upd_neq; auto.
Qed.
Lemma run_res : forall s t g u, u <> t -> c_res (c_run s t g) u = c_res s u.
Proof.
  intros s t g u N. unfold c_run, take_guard, unlock_mutex.
  pcases s t Ep; simpl; auto;
  repeat match goal with
  | |- context[match ?x with _ => _ end] => destruct x; simpl; auto
  end; try apply upd_neq; auto.
Qed.
Lemma run_alive : forall s t g, c_alive (c_run s t g) = c_alive s.
Proof.
  intros s t g. unfold c_run, take_guard, unlock_mutex.
  pcases s t Ep; simpl; auto;
  repeat match goal with
  | |- context[match ?x with _ => _ end] => destruct x; simpl; auto
  end.
Qed.
Lemma run_m : forall s t g m, c_m (c_run s t g) m = c_m s m \/
  ((c_m s m = 0 \/ c_m s m = t) /\
   match c_pc s t with ML m' _ | MU m' => m' = m | WU a w | WL a w _ => w_mtx (c_w s w) = m | _ => False end).
Proof.
  intros s t g m0. unfold c_run, take_guard, unlock_mutex, can_lock.
  pcases s t Ep; simpl; auto;
  repeat match goal with
  | |- context[if c_m s ?m =? t then _ else _] => destruct (Z.eqb_spec (c_m s m) t); simpl; auto
  | |- context[if (?a =? ?b) || (?c =? ?d) then _ else _] => destruct (Z.eqb_spec a b); destruct (Z.eqb_spec c d); simpl; auto
  | |- context[upd (c_m s) ?m ?v m0] => destruct (upd_cases _ (c_m s) m v m0) as [[? ->]|[? ->]]; [subst|]; auto
  | |- context[match ?x with _ => _ end] => destruct x; simpl; auto
  end.
Qed.
Lemma run_w : forall s t g w, w_wait (c_w (c_run s t g) w) = w_wait (c_w s w) \/
  match c_pc s t with
  | WI _ w' | WS _ w' => w' = w /\ w_wait (c_w (c_run s t g) w) = true
  | WB _ w' _ | SW _ w' | SU _ w' _ => w' = w /\ w_wait (c_w (c_run s t g) w) = false
  | _ => False
  end.
Proof.
  intros s t g w0. unfold c_run, take_guard, unlock_mutex.
  pcases s t Ep; simpl; auto;
  repeat match goal with
  | |- context[upd (c_w s) ?w ?v w0] => destruct (upd_cases _ (c_w s) w v w0) as [[? ->]|[? ->]]; [subst|]; simpl; auto
  | |- context[match ?x with _ => _ end] => destruct x; simpl; auto
  end.
Qed.
Lemma run_wl : forall s t g c, c_wl (c_run s t g) c = c_wl s c \/
  match c_pc s t with WI a _ => a_c a = c | WC a _ _ => a_c a = c | RP _ _ => True | _ => False end.
Proof.
  intros s t g c0. unfold c_run, take_guard, unlock_mutex.
  pcases s t Ep; simpl; auto;
  repeat match goal with
  | |- context[upd (c_wl s) ?w ?v c0] => destruct (upd_cases _ (c_wl s) w v c0) as [[? ->]|[? ->]]; [subst|]; simpl; auto
  | |- context[match ?x with _ => _ end] => destruct x; simpl; auto
  end.
Qed.

Lemma step_pc : forall s x u, actor x <> Some u -> c_pc (c_step s x) u = c_pc s u.
Proof.
  intros s x u N. destruct x as [t c|t g|t|m]; simpl in *.
  - assert (u <> t) by congruence. destruct (c_alive s t && negb (t =? 0)); auto. destruct (c_pc s t); auto.
    unfold c_call. destruct c; simpl; try destruct (c_mk s m); simpl; apply upd_neq; auto.
  - assert (u <> t) by congruence. destruct (c_alive s t && negb (t =? 0)); auto. apply run_pc; auto.
  - destruct (t =? 0); auto.
  - destruct (c_alive s (c_m s m)); auto.
Qed.
Lemma step_res : forall s x u, actor x <> Some u -> c_res (c_step s x) u = c_res s u.
Proof.
  intros s x u N. destruct x as [t c|t g|t|m]; simpl in *.
  - assert (u <> t) by congruence. destruct (c_alive s t && negb (t =? 0)); auto. destruct (c_pc s t); auto.
    unfold c_call. destruct c; simpl; try destruct (c_mk s m); simpl; auto; apply upd_neq; auto.
  - assert (u <> t) by congruence. destruct (c_alive s t && negb (t =? 0)); auto. apply run_res; auto.
  - destruct (t =? 0); auto.
  - destruct (c_alive s (c_m s m)); auto.
Qed.
Lemma call_alive : forall s t c, c_alive (c_call s t c) = c_alive s.
Proof. intros s t c. unfold c_call. destruct c; simpl; try destruct (c_mk s m); auto. Qed.
Lemma step_alive : forall s x u, c_alive (c_step s x) u = true -> c_alive s u = true.
Proof.
  intros s x u. destruct x as [t c|t g|t|m]; simpl.
  - destruct (c_alive s t && negb (t =? 0)); auto. destruct (c_pc s t); auto. rewrite call_alive. auto.
  - destruct (c_alive s t && negb (t =? 0)); auto. rewrite run_alive. auto.
  - destruct (t =? 0); auto. simpl. destruct (upd_cases _ (c_alive s) t false u) as [[-> ->]|[N ->]]; auto. discriminate.
  - destruct (c_alive s (c_m s m)); auto.
Qed.
Lemma step_nodeath : forall s x, no_deaths s x -> c_alive (c_step s x) = c_alive s.
Proof.
  intros s x. destruct x as [t c|t g|t|m]; simpl; intro H; try contradiction.
  - destruct (c_alive s t && negb (t =? 0)); auto. destruct (c_pc s t); auto. apply call_alive.
  - destruct (c_alive s t && negb (t =? 0)); auto. apply run_alive.
  - destruct (c_alive s (c_m s m)); auto.
Qed.
Lemma call_w : forall s t c, c_w (c_call s t c) = c_w s /\ c_wl (c_call s t c) = c_wl s /\ c_m (c_call s t c) = c_m s /\
  c_pool (c_call s t c) = c_pool s.
Proof. intros s t c. unfold c_call. destruct c; simpl; try destruct (c_mk s m); auto. Qed.
Lemma step_wl : forall s x c, c_wl (c_step s x) c = c_wl s c \/ exists t g, x = XRun t g /\ c_alive s t = true /\
  match c_pc s t with WI a _ => a_c a = c | WC a _ _ => a_c a = c | RP _ _ => True | _ => False end.
Proof.
  intros s x c0. destruct x as [t c|t g|t|m]; simpl.
  - left. destruct (c_alive s t && negb (t =? 0)); auto. destruct (c_pc s t); auto. destruct (call_w s t c) as (_ & -> & _); auto.
  - destruct (c_alive s t) eqn:AL; simpl; auto. destruct (t =? 0); simpl; auto. destruct (run_wl s t g c0); auto. right. exists t, g. auto.
  - destruct (t =? 0); auto.
  - destruct (c_alive s (c_m s m)); auto.
Qed.
Lemma step_w : forall s x w, w_wait (c_w (c_step s x) w) = w_wait (c_w s w) \/ exists t g, x = XRun t g /\ c_alive s t = true /\
  match c_pc s t with
  | WI _ w' | WS _ w' => w' = w /\ w_wait (c_w (c_step s x) w) = true
  | WB _ w' _ | SW _ w' | SU _ w' _ => w' = w /\ w_wait (c_w (c_step s x) w) = false
  | _ => False
  end.
Proof.
  intros s x w0. destruct x as [t c|t g|t|m]; simpl.
  - left. destruct (c_alive s t && negb (t =? 0)); auto. destruct (c_pc s t); auto. destruct (call_w s t c) as (-> & _); auto.
  - destruct (c_alive s t) eqn:AL; simpl; auto. destruct (t =? 0) eqn:T0; simpl; auto. destruct (run_w s t g w0); auto. right. exists t, g.
    split; auto.
  - destruct (t =? 0); auto.
  - destruct (c_alive s (c_m s m)); auto.
Qed.
(** a live owner keeps its mutex unless it acts itself *)
Lemma step_m : forall s x m, c_m (c_step s x) m = c_m s m \/ c_alive s (c_m s m) = false \/
  exists t g, x = XRun t g /\ c_alive s t = true /\ t <> 0 /\ (c_m s m = 0 \/ c_m s m = t) /\
   match c_pc s t with ML m' _ | MU m' => m' = m | WU a w | WL a w _ => w_mtx (c_w s w) = m | _ => False end.
Proof.
  intros s x m0. destruct x as [t c|t g|t|m]; simpl.
  - left. destruct (c_alive s t && negb (t =? 0)); auto. destruct (c_pc s t); auto. destruct (call_w s t c) as (_ & _ & -> & _); auto.
  - destruct (c_alive s t) eqn:AL; simpl; auto. destruct (Z.eqb_spec t 0); simpl; auto. destruct (run_m s t g m0) as [|[A B]]; auto. right. right.
    exists t, g. auto.
  - destruct (t =? 0); auto.
  - destruct (c_alive s (c_m s m)) eqn:AL; auto. simpl. destruct (upd_cases _ (c_m s) m 0 m0) as [[-> ->]|[N ->]]; auto.
Qed.

(** thread 0 is never running *)
Lemma zero_step : forall s x, c_pc s 0 = CIdle -> c_pc (c_step s x) 0 = CIdle.
Proof.
  intros s x H. destruct x as [t c|t g|t|m]; simpl.
  - destruct (Z.eqb_spec t 0); [rewrite andb_false_r; auto|]. rewrite andb_true_r. destruct (c_alive s t); auto. destruct (c_pc s t); auto.
    unfold c_call. destruct c; simpl; try destruct (c_mk s m); simpl; rewrite upd_neq; auto.
  - destruct (Z.eqb_spec t 0); [rewrite andb_false_r; auto|]. rewrite andb_true_r. destruct (c_alive s t); auto. rewrite run_pc; auto.
  - destruct (t =? 0); auto.
  - destruct (c_alive s (c_m s m)); auto.
Qed.
Lemma zero_reach : forall UW n ok s, c_reach (c_init UW n) ok s -> c_pc s 0 = CIdle.
Proof. intros UW n ok s R. induction R; auto. apply zero_step; auto. Qed.

Lemma dead_step : forall s x t, c_alive s t = false -> c_pc (c_step s x) t = c_pc s t /\ c_alive (c_step s x) t = false.
Proof.
  intros s x t D. assert (A : c_alive (c_step s x) t = false) by (destruct (c_alive (c_step s x) t) eqn:E; auto; apply step_alive in E; congruence).
  split; auto. destruct x as [u c|u g|u|m]; try (apply step_pc; simpl; congruence).
  - destruct (Z.eq_dec u t) as [->|N]; [simpl; rewrite D; auto|]. apply step_pc. simpl. congruence.
  - destruct (Z.eq_dec u t) as [->|N]; [simpl; rewrite D; auto|]. apply step_pc. simpl. congruence.
Qed.
Lemma dead_path : forall ok s ls s' t, c_path ok s ls s' -> c_alive s t = false -> c_pc s' t = c_pc s t.
Proof.
  intros ok s ls s' t P. induction P; auto. intro D. destruct (dead_step s x t D) as [A B]. rewrite IHP; auto.
Qed.

(** ** Waiters that own their mutex *)
Definition pre (p : cpc) : option wargs :=
  match p with WG a | WN a | WR a | WI a _ | WD a _ | WS a _ | WU a _ => Some a | _ => None end.

Section Owners.
Variable UW : list Z.
Variable c0 : Z.
Record OI (s : cstate) : Prop := {
  oi_pre : forall t a, c_alive s t = true -> pre (c_pc s t) = Some a -> a_c a = c0 -> c_m s (a_m a) = t;
  oi_wb : forall t a w r, c_alive s t = true -> c_pc s t = WB a w r -> a_c a <> c0
}.
Lemma OI_init : forall n, OI (c_init UW n).
Proof. intro n. constructor; simpl; intros; discriminate. Qed.

Lemma pre_run : forall s t g a, pre (c_pc (c_run s t g) t) = Some a -> pre (c_pc s t) = Some a.
Proof.
  intros s t g a0. unfold c_run, take_guard, unlock_mutex.
  pcases s t Ep; simpl; rewrite ?Ep; simpl; auto;
  repeat match goal with
  | |- context[match ?x with _ => _ end] => destruct x; simpl; auto
  end; rewrite ?upd_eq, ?Ep; simpl; auto; discriminate.
Qed.

Lemma OI_step : forall s x, CI UW s -> c_pc s 0 = CIdle -> OI s -> owners_wait c0 s x -> OI (c_step s x).
Proof.
  intros s x H Z0 [A B] OW.
  assert (KEEP : forall t a, c_alive (c_step s x) t = true -> pre (c_pc s t) = Some a -> a_c a = c0 ->
     c_m (c_step s x) (a_m a) = t \/ exists g w, x = XRun t g /\ c_pc s t = WU a w).
  { intros t a AL P E. pose proof (step_alive _ _ _ AL) as AL0. pose proof (A t a AL0 P E) as M.
    destruct (step_m s x (a_m a)) as [Q|[Q|(u & g & -> & ALu & N & [M0|M0] & Q)]]; [left; congruence|congruence| |].
    - assert (T0 : t = 0) by congruence. rewrite T0, Z0 in P. discriminate.
    - assert (UT : u = t) by congruence. clear M0. rewrite UT in *. right. destruct (c_pc s t) eqn:Ep; simpl in P; try discriminate; try contradiction.
      inversion P. eauto. }
  constructor.
  - intros t a AL P E. pose proof (step_alive _ _ _ AL) as AL0.
    assert (D : pre (c_pc s t) = Some a \/ c_m (c_step s x) (a_m a) = t).
    { destruct x as [u cc|u g|u|m'].
      - destruct (Z.eq_dec u t) as [->|N]; [|left; rewrite step_pc in P by (simpl; congruence); auto].
        simpl in *. rewrite AL0 in *. destruct (negb (t =? 0)); simpl in *; auto. destruct (c_pc s t) eqn:Ep; simpl in *; rewrite ?Ep in P; simpl in P; auto.
        unfold c_call in *. destruct cc as [m k|m|c m k|c|c|]; simpl in *; try (destruct (c_mk s m); simpl in * ); rewrite upd_eq in P; simpl in P; try discriminate.
        inversion P; subst a. simpl in *. right. auto.
      - destruct (Z.eq_dec u t) as [->|N]; [|left; rewrite step_pc in P by (simpl; congruence); auto].
        left. simpl in P. destruct (c_alive s t && negb (t =? 0)); auto. eapply pre_run; eauto.
      - left. rewrite step_pc in P by (simpl; congruence). auto.
      - left. rewrite step_pc in P by (simpl; congruence). auto. }
    destruct D as [D|D]; auto. destruct (KEEP t a AL D E) as [Q|(g & w & -> & Q)]; auto.
    exfalso. simpl in P. rewrite AL0 in P. destruct (Z.eqb_spec t 0) as [T0|T0]; [subst t; rewrite Z0 in Q; discriminate|]. simpl in P. unfold c_run in P. rewrite Q in P.
    unfold goto in P. simpl in P. rewrite upd_eq in P. destruct (_ =? OK) in P; discriminate.
  - intros t a w r AL P E. pose proof (step_alive _ _ _ AL) as AL0.
    destruct x as [u cc|u g|u|m']; try (rewrite step_pc in P by (simpl; congruence); eapply B; eauto; fail).
    + destruct (Z.eq_dec u t) as [->|N]; [|rewrite step_pc in P by (simpl; congruence); eapply B; eauto].
      simpl in *. rewrite AL0 in *. destruct (negb (t =? 0)); simpl in *; [|eapply B; eauto]. destruct (c_pc s t) eqn:Ep; try (rewrite ?Ep in P; try discriminate; eapply B; eauto; congruence).
      unfold c_call in P. destruct cc as [m k|m|c m k|c|c|]; simpl in *; try (destruct (c_mk s m); simpl in * ); rewrite upd_eq in P; simpl in P; discriminate.
    + destruct (Z.eq_dec u t) as [->|N]; [|rewrite step_pc in P by (simpl; congruence); eapply B; eauto].
      simpl in P. rewrite AL0 in P. destruct (t =? 0); simpl in P; [eapply B; eauto|]. unfold c_run, take_guard, unlock_mutex in P. destruct (c_pc s t) eqn:Ep; simpl in P; rewrite ?Ep in P; try discriminate;
      repeat match type of P with context[match ?y with _ => _ end] => destruct y eqn:?; simpl in P end; rewrite ?upd_eq, ?Ep in P; try discriminate.
      all: inversion P; subst.
      all: destruct (ci_reg UW s H t a w AL0) as (_ & _ & M); [rewrite Ep; auto|].
      all: assert (OM : c_m s (a_m a) = t) by (apply A; auto; rewrite Ep; auto).
      all: unfold unlock_result in *; rewrite M, OM, Z.eqb_refl, orb_true_r in *; discriminate.
Qed.
Lemma OI_reach : forall n (ok : cstate -> clabel -> Prop) s, NoDup UW -> (forall s x, ok s x -> owners_wait c0 s x) -> c_reach (c_init UW n) ok s -> OI s.
Proof.
  intros n ok s N W R. induction R; [apply OI_init|]. apply OI_step; auto.
  - eapply CI_reach; eauto.
  - eapply zero_reach; eauto.
Qed.
End Owners.
