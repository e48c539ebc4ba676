(** Condition variables with the real list lock: what calls that run alone achieve. *)
From Coq Require Import ZArith List Bool Lia Arith Sorted.
From Verif Require Import Base Cond_Model Cond_Spec Cond_Proofs Cond_Proofs2 Cond_Proofs3 Guard_Model Cspin_Model Cspin_Spec Cspin_Proofs Cspin_Proofs2.
Import ListNotations.
Open Scope Z_scope.

(** ** Calls that may not wait for ever *)
Definition manner (p : cpc) : option ckind :=
  match p with
  | ML _ k => Some k
  | WG a | WN a | WR a | WI a _ | WD a _ | WS a _ | WU a _ | WB a _ _ | WW a _ | WL a _ _ | WJ a _ _ | WC a _ _ | WP a _ _ => Some (a_k a)
  | _ => None
  end.
Lemma run_manner : forall s t g, manner (c_pc (c_run s t g) t) = manner (c_pc s t) \/ manner (c_pc (c_run s t g) t) = None.
Proof.
  intros s t g. unfold c_run. destruct (c_pc s t) eqn:Ep; unfold take_guard;
    repeat match goal with |- context [match ?x with _ => _ end] => destruct x eqn:? end; cbn; rewrite ?upd_eq, ?Ep; auto;
    destruct (_ =? OK); auto.
Qed.

Section Calls.
Variables (UW : list Z) (t : Z).

Lemma ends_timed : forall n s, CI UW s -> inside s -> out s t -> c_alive s t = true -> t <> 0 -> manner (c_pc s t) <> Some KBlock ->
  (left_to_do s (c_pc s t) <= n)%nat -> within (fun g => g = true) n s t (fun s' => c_pc s' t = CIdle).
Proof.
  apply (ends UW (fun g => g = true) (fun s => manner (c_pc s t) <> Some KBlock)); auto.
  - intros s g K -> _. unfold goes. destruct (c_pc s t); auto; cbn in K.
    + destruct k; auto; congruence.
    + right. split; [congruence | auto].
    + destruct (a_k a); auto; congruence.
  - intros s g _ _ _ _ K _. destruct (run_manner s t g) as [->| ->]; [auto | discriminate].
Qed.
Lemma ends_any : forall n s, CI UW s -> inside s -> out s t -> c_alive s t = true -> t <> 0 -> manner (c_pc s t) = None ->
  (left_to_do s (c_pc s t) <= n)%nat -> within (fun _ => True) n s t (fun s' => c_pc s' t = CIdle).
Proof.
  apply (ends UW (fun _ => True) (fun s => manner (c_pc s t) = None)); auto.
  - intros s g K _ _. unfold goes. destruct (c_pc s t); auto; discriminate K.
  - intros s g _ _ _ _ K _. destruct (run_manner s t g) as [->| ->]; auto.
Qed.

(** ** Waiters that were woken, mutexes that are free *)
Variable m : Z.
Definition mine (s : cstate) : Prop := c_m s m = 0 \/ c_m s m = t.
Definition well (s : cstate) : Prop :=
  match c_pc s t with
  | CIdle => c_res s t = Some OK /\ c_m s m = t
  | ML m' _ => m' = m /\ mine s
  | WW a w => a_m a = m /\ w_wait (c_w s w) = false /\ mine s
  | WL a w r => a_m a = m /\ r = OK /\ mine s
  | WJ _ _ r | WC _ _ r | WP _ _ r | CX r => r = OK /\ c_m s m = t
  | _ => False
  end.
Lemma mine_lock : forall s, mine s -> can_lock s m t = true.
Proof. intros s [E|E]; unfold can_lock; rewrite E, Z.eqb_refl, ?orb_true_r; auto. Qed.
Lemma ends_well : forall n s, CI UW s -> inside s -> out s t -> c_alive s t = true -> t <> 0 -> well s ->
  (left_to_do s (c_pc s t) <= n)%nat -> within (fun _ => True) n s t (fun s' => c_pc s' t = CIdle /\ c_res s' t = Some OK /\ c_m s' m = t).
Proof.
  (* the waiter's entry names its mutex *)
  set (K := fun s => well s /\ match c_pc s t with WL a w _ => w_mtx (c_w s w) = a_m a | WC a w _ => In w (c_wl s (a_c a)) | _ => True end).
  intros n s H IN O AL T0 W L.
  apply (ends UW (fun _ => True) K); auto.
  - intros s' g [W' M'] _ NI. unfold goes, well in *. destruct (c_pc s' t); auto.
    + destruct W' as [-> M1]. left. apply mine_lock, M1.
    + left. apply W'.
    + destruct W' as (E & _ & M1). rewrite M', E. left. apply mine_lock, M1.
  - intros s' g H' IN' O' AL' [W' M'] _. unfold K, well in *. unfold c_run.
    destruct (c_pc s' t) as [|m' k|m'|a|a|a|a w|a w|a w|a w|a w r|a w|a w r|a w r|a w r|a w r|r|c b|c b|c ws l|c w|c ws|c w ws| |cs ws] eqn:Ep; try contradiction.
    + rewrite Ep. auto.
    + destruct W' as [-> M1]. rewrite (mine_lock _ M1). cbn. rewrite !upd_eq. auto.
    + destruct W' as (E & WA & M1). rewrite WA. cbn. rewrite !upd_eq. split; auto. eapply ci_reg; [exact H' | exact AL' | rewrite Ep; reflexivity].
    + destruct W' as (E & R & M1). rewrite M', E. cbv zeta. rewrite (mine_lock _ M1). cbn. rewrite !upd_eq. auto.
    + destruct (take_cases s' t (WC a w r)) as [Q|[Q _]]; rewrite Q.
      * rewrite Ep. auto.
      * cbn. rewrite upd_eq. split; auto. eapply (ci_reg _ _ H' t); [exact AL' | rewrite Ep; reflexivity].
    + rewrite (proj2 (mem_in _ _) M'). cbn. rewrite upd_eq. auto.
    + cbn. rewrite upd_eq. auto.
    + cbn. rewrite !upd_eq. destruct W' as [-> W']. auto.
  - intros s' [W' _] E. unfold well in W'. rewrite E in W'. tauto.
  - split; auto. unfold well in W. destruct (c_pc s t) eqn:Ep; auto; try contradiction; eapply (ci_reg _ _ H t); auto; rewrite Ep; reflexivity.
Qed.
End Calls.

(** ** Signals and broadcasts *)
Definition pick (s : cstate) (ws : list Z) (l : option Z) : option Z := fold_left (fun l w => if w_wait (c_w s w) then Some w else l) ws l.
Definition unwait (s : cstate) (w : Z) := upd (c_w s) w (w_set_wait (c_w s w) false).

Section Effects.
Variables (UW : list Z) (t c : Z) (s0 : cstate).

(** all but the entries, the list lock and the thread itself *)
Definition rest_same (s : cstate) : Prop :=
  c_m s = c_m s0 /\ c_wl s = c_wl s0 /\ c_conds s = c_conds s0 /\ c_alive s = c_alive s0 /\ (forall u, u <> t -> c_pc s u = c_pc s0 u) /\
  c_seq s = c_seq s0.
Definition answer : Z := if mem c (c_conds s0) then OK else EINVAL.
Definition signalled (s : cstate) : Prop := c_w s = match pick s0 (c_wl s0 c) None with Some w => unwait s0 w | None => c_w s0 end.
Definition sig_way (s : cstate) : Prop := rest_same s /\
  match c_pc s t with
  | SG c' b | SF c' b => c' = c /\ b = false /\ c_w s = c_w s0
  | SS c' ws l => c' = c /\ mem c (c_conds s0) = true /\ c_w s = c_w s0 /\ pick s0 ws l = pick s0 (c_wl s0 c) None
  | SW c' w => c' = c /\ mem c (c_conds s0) = true /\ c_w s = c_w s0 /\ pick s0 (c_wl s0 c) None = Some w
  | CX r => r = answer /\ signalled s
  | CIdle => c_res s t = Some answer /\ signalled s
  | _ => False
  end.
Definition broadcasted (s : cstate) : Prop :=
  (forall w, In w (c_wl s0 c) -> c_w s w = w_set_wait (c_w s0 w) false) /\ (forall w, ~ In w (c_wl s0 c) -> c_w s w = c_w s0 w).
Definition half (s : cstate) (ws : list Z) : Prop := incl ws (c_wl s0 c) /\
  (forall w, In w (c_wl s0 c) -> c_w s w = w_set_wait (c_w s0 w) false \/ In w ws /\ c_w s w = c_w s0 w) /\ (forall w, ~ In w (c_wl s0 c) -> c_w s w = c_w s0 w).
Definition bc_way (s : cstate) : Prop := rest_same s /\
  match c_pc s t with
  | SG c' b | SF c' b => c' = c /\ b = true /\ c_w s = c_w s0
  | SB c' ws => c' = c /\ mem c (c_conds s0) = true /\ half s ws
  | SU c' w ws => c' = c /\ mem c (c_conds s0) = true /\ half s (w :: ws)
  | CX r => r = answer /\ broadcasted s
  | CIdle => c_res s t = Some answer /\ broadcasted s
  | _ => False
  end.

Hypothesis EMPTY : mem c (c_conds s0) = false -> c_wl s0 c = [].

Lemma rest_goto : forall s p, rest_same s -> rest_same (goto s t p).
Proof. intros s p (A & B & C & D & E & F). repeat split; auto. intros u N. cbn. rewrite upd_neq; auto. Qed.
Lemma rest_ret : forall s r, rest_same s -> rest_same (ret s t r).
Proof. intros s r (A & B & C & D & E & F). repeat split; auto. intros u N. cbn. rewrite upd_neq; auto. Qed.
Lemma rest_w : forall s w x, rest_same s -> rest_same (set_w s w x).
Proof. intros s w x (A & B & C & D & E & F). repeat split; auto. Qed.
Lemma rest_g : forall s g, rest_same s -> rest_same (set_guard s g).
Proof. intros s g (A & B & C & D & E & F). repeat split; auto. Qed.

Lemma sig_run : forall s g, sig_way s -> sig_way (c_run s t g).
Proof.
  intros s g K. pose proof K as [R K']. pose proof R as (E1 & E2 & E3 & E4 & E5 & E6). unfold c_run.
  destruct (c_pc s t) as [|m' k|m'|a|a|a|a w|a w|a w|a w|a w r|a w|a w r|a w r|a w r|a w r|r|c' b|c' b|c' ws l|c' w|c' ws|c' w ws| |cs ws] eqn:Ep; try contradiction; auto.
  - destruct K' as [-> K']. split; [apply rest_ret, rest_g; auto|]. cbn. rewrite !upd_eq. auto.
  - destruct (take_cases s t (SF c' b)) as [Q|[Q _]]; rewrite Q; auto. split; [apply rest_goto, rest_g; auto|]. cbn. rewrite upd_eq. auto.
  - destruct K' as (-> & -> & W). rewrite E3. destruct (mem c (c_conds s0)) eqn:M.
    + split; [apply rest_goto; auto|]. cbn. rewrite upd_eq. rewrite E2. auto.
    + split; [apply rest_goto; auto|]. cbn. rewrite upd_eq. unfold answer, signalled. rewrite M, EMPTY by auto. cbn. auto.
  - destruct K' as (-> & M & W & P). destruct ws as [|w ws]; [destruct l as [w|]|].
    + split; [apply rest_goto; auto|]. cbn. rewrite upd_eq. cbn in P. auto.
    + split; [apply rest_goto; auto|]. cbn. rewrite upd_eq. cbn in P. unfold answer, signalled. rewrite M, <- P. auto.
    + split; [apply rest_goto; auto|]. cbn. rewrite upd_eq. cbn in P. rewrite W. auto.
  - destruct K' as (-> & M & W & P). split; [apply rest_goto, rest_w; auto|]. cbn. rewrite upd_eq. unfold answer, signalled. rewrite M, P. cbn. unfold unwait. rewrite W. auto.
Qed.
Lemma set_wait_off : forall r, w_wait r = false -> w_set_wait r false = r.
Proof. intros [a b d] E. cbn in *. subst. reflexivity. Qed.
Lemma bc_run : forall s g, bc_way s -> bc_way (c_run s t g).
Proof.
  intros s g K. pose proof K as [R K']. pose proof R as (E1 & E2 & E3 & E4 & E5 & E6). unfold c_run.
  destruct (c_pc s t) as [|m' k|m'|a|a|a|a w|a w|a w|a w|a w r|a w|a w r|a w r|a w r|a w r|r|c' b|c' b|c' ws l|c' w|c' ws|c' w ws| |cs ws] eqn:Ep; try contradiction; auto.
  - destruct K' as [-> K']. split; [apply rest_ret, rest_g; auto|]. cbn. rewrite !upd_eq. auto.
  - destruct (take_cases s t (SF c' b)) as [Q|[Q _]]; rewrite Q; auto. split; [apply rest_goto, rest_g; auto|]. cbn. rewrite upd_eq. auto.
  - destruct K' as (-> & -> & W). rewrite E3. destruct (mem c (c_conds s0)) eqn:M.
    + split; [apply rest_goto; auto|]. cbn. rewrite upd_eq. rewrite E2. split; auto. split; auto. unfold half. cbn. rewrite W. split; [apply incl_refl|]. split; auto.
    + split; [apply rest_goto; auto|]. cbn. rewrite upd_eq. unfold answer, broadcasted. rewrite M, EMPTY by auto. cbn. rewrite W. split; auto. split; [intros w []|auto].
  - destruct K' as (-> & M & (IC & H1 & H2)). destruct ws as [|w ws].
    + split; [apply rest_goto; auto|]. cbn. rewrite upd_eq. unfold answer. rewrite M. split; auto. split; auto. intros w I. destruct (H1 w I) as [|[[] _]]; auto.
    + destruct (w_wait (c_w s w)) eqn:WW; (split; [apply rest_goto; auto|]); cbn; rewrite upd_eq; split; auto; split; auto; (split; [|split; [|exact H2]]).
      * exact IC.
      * exact H1.
      * intros x I. apply IC. right. auto.
      * intros x I. cbn. destruct (H1 x I) as [E|[[<-|J] E]]; auto. left. rewrite E in *. rewrite set_wait_off; auto.
  - destruct K' as (-> & M & (IC & H1 & H2)). split; [apply rest_goto, rest_w; auto|]. cbn. rewrite upd_eq. split; auto. split; auto. split; [|split].
    + intros x I. apply IC. right. auto.
    + intros x I. cbn. destruct (Z.eq_dec x w) as [->|N].
      * rewrite upd_eq. left. destruct (H1 w I) as [E|[_ E]]; rewrite E; auto.
      * rewrite upd_neq by auto. destruct (H1 x I) as [E|[[<-|J] E]]; auto; contradiction.
    + intros x I. cbn. rewrite upd_neq; auto. intros ->. apply I, IC. left. reflexivity.
Qed.

Lemma ends_signal : forall n s, CI UW s -> inside s -> out s t -> c_alive s t = true -> t <> 0 -> sig_way s ->
  (left_to_do s (c_pc s t) <= n)%nat -> within (fun _ => True) n s t (fun s' => sig_way s' /\ c_pc s' t = CIdle).
Proof.
  apply (ends UW (fun _ => True) sig_way); auto.
  - intros s g [_ K] _ _. unfold goes. destruct (c_pc s t); auto; contradiction.
  - intros. apply sig_run; auto.
Qed.
Lemma ends_broadcast : forall n s, CI UW s -> inside s -> out s t -> c_alive s t = true -> t <> 0 -> bc_way s ->
  (left_to_do s (c_pc s t) <= n)%nat -> within (fun _ => True) n s t (fun s' => bc_way s' /\ c_pc s' t = CIdle).
Proof.
  apply (ends UW (fun _ => True) bc_way); auto.
  - intros s g [_ K] _ _. unfold goes. destruct (c_pc s t); auto; contradiction.
  - intros. apply bc_run; auto.
Qed.
End Effects.

(** the entry picked by a signal is the longest waiter *)
Lemma pick_spec : forall s ws l w, pick s ws l = Some w ->
  (exists a b, ws = a ++ w :: b /\ w_wait (c_w s w) = true /\ forall x, In x b -> w_wait (c_w s x) = false) \/ (l = Some w /\ forall x, In x ws -> w_wait (c_w s x) = false).
Proof.
  intros s ws. induction ws as [|y ws IH]; intros l w P; cbn in P; [right; split; auto; intros x []|].
  destruct (IH _ _ P) as [(a & b & -> & W & F)|[E F]].
  - left. exists (y :: a), b. auto.
  - destruct (w_wait (c_w s y)) eqn:Y.
    + injection E as ->. left. exists [], ws. auto.
    + right. split; auto. intros x [<-|I]; auto.
Qed.
Lemma pick_none : forall s ws l, pick s ws l = None -> forall x, In x ws -> w_wait (c_w s x) = false.
Proof.
  intros s ws. induction ws as [|y ws IH]; intros l P x I; cbn in P; [destruct I|].
  destruct I as [->|I]; [|eapply IH; eauto]. destruct (w_wait (c_w s x)) eqn:Y; auto. exfalso. clear IH Y. revert P. generalize x at 1. induction ws as [|z ws IH]; intros y P; [discriminate|].
  cbn in P. destruct (w_wait (c_w s z)); eauto.
Qed.
Lemma pick_longest : forall UW s c w, CI UW s -> (longest s c w <-> pick s (c_wl s c) None = Some w).
Proof.
  assert (FW : forall UW s c w, CI UW s -> pick s (c_wl s c) None = Some w -> longest s c w).
  { intros UW s c w H P. destruct (pick_spec _ _ _ _ P) as [(a & b & E & W & F)|[E _]]; [|discriminate]. split.
    - split; auto. rewrite E. apply in_or_app. right. left. reflexivity.
    - intros w' [I W'] N. rewrite E in I. pose proof (ci_sort _ _ H c) as S. rewrite E in S.
      apply in_app_or in I as [I|[I|I]]; [eapply sorted_before; eauto | congruence | rewrite F in W' by auto; discriminate]. }
  intros UW s c w H. split; [|eapply FW; eauto]. intros [[I W] L]. destruct (pick s (c_wl s c) None) as [w'|] eqn:P.
  - destruct (Z.eq_dec w' w) as [->|N]; auto. exfalso. destruct (FW UW s c w' H P) as [C' L']. specialize (L w' C' N).
    assert (C : counted s c w) by (split; auto). specialize (L' w C (not_eq_sym N)). lia.
  - exfalso. rewrite (pick_none _ _ _ P w I) in W. discriminate.
Qed.
