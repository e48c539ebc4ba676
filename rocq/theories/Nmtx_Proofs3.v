(** Forward simulation: named mutexes show only histories of a table of atomic mutexes. *)
From Coq Require Import ZArith List Bool Lia.
From Verif Require Import Base Name_Model Name_Spec Name_Proofs Mutex_Model Mutex_Spec Mutex_Proofs Mutex_Proofs2 Mutex_Props
  Lin_Spec Lin_Proofs Nmtx_Model Nmtx_Spec Nmtx_Proofs Nmtx_Proofs2.
Import ListNotations.
Open Scope Z_scope.

Inductive g_steps : gstate -> list nevent -> gstate -> Prop :=
| gss_nil : forall a, g_steps a [] a
| gss_cons : forall a e1 a1 e2 a2, g_step a e1 a1 -> g_steps a1 e2 a2 -> g_steps a (e1 ++ e2) a2.
Lemma g_history_steps : forall room a e a', g_steps a e a' -> forall h, g_history room a h -> g_history room a' (h ++ e).
Proof.
  intros room a e a' S. induction S as [|a e1 a1 e2 a2 S1 S2 IH]; intros h H; [rewrite app_nil_r; auto|].
  rewrite app_assoc. apply IH. econstructor; eauto.
Qed.
Lemma g_one : forall a e a', g_step a e a' -> g_steps a e a'.
Proof. intros a e a' S. rewrite <- (app_nil_r e). econstructor; eauto. constructor. Qed.

(** ** What the table has done for a thread at a program point *)
Definition lift (c : ncall) (o : op_state) : gop := match o with OIdle => GIdle | OWaits _ => GWaits c | ODone r => GDone r end.
Definition wcall (w : option (ncall * Z)) : ncall := match w with Some (c, _) => c | None => NRecover end.
Fixpoint gop_of (s : nstate) (t : Z) (p : npc) : gop :=
  match p with
  | NIdle => GIdle
  | NWait q => gop_of s t q
  | NFind c | NInit c _ | NIns c _ | NRelOp c _ => GWaits c
  | NRelRet r => GDone r
  | NOp c e q => lift c (op_of (n_val s e) t q)
  | NPEnter w | NPStart w | NPass w _ | NPAt w _ _ _ | NPRel w => GWaits (wcall w)
  end.
(** a live thread has taken an entry that is not in the list yet *)
Definition reg (s : nstate) : nat :=
  match new_of (n_pc s (n_guard s)) with Some _ => if n_alive s (n_guard s) then 1%nat else O | None => O end.

Record GS (s : nstate) (a : gstate) : Prop := {
  gsm_alive : forall t, g_alive a t = n_alive s t;
  gsm_known : forall x, g_known a x = true <-> exists e, In e (n_list s) /\ ename s e = x;
  gsm_owner : forall e, In e (n_list s) -> g_owner a (ename s e) = n_val s e;
  gsm_room : g_room a = (length (n_free s) + reg s)%nat;
  gsm_op : forall t, n_alive s t = true -> g_op a t = gop_of s t (n_pc s t)
}.

Lemma setn_eq : forall (B : Type) (f : list Z -> B) n v, setn f n v n = v.
Proof. intros. unfold setn. destruct (list_eq_dec Z.eq_dec n n); congruence. Qed.
Lemma setn_neq : forall (B : Type) (f : list Z -> B) n v x, x <> n -> setn f n v x = f x.
Proof. intros. unfold setn. destruct (list_eq_dec Z.eq_dec x n); congruence. Qed.

Section Sim.
Variable d : sched.
Hypothesis D : d <> AnyTime.
Notation ninv := (ninv d).

Lemma reg_one : forall s u c, ninv s -> n_alive s u = true -> new_of (n_pc s u) = Some c -> reg s = 1%nat.
Proof.
  intros s u c I A N. assert (G : n_guard s = u) by (apply (ni_guard _ _ I); auto; destruct (n_pc s u); try discriminate; simpl; auto).
  unfold reg. rewrite G, N, A. auto.
Qed.
Lemma reg_zero : forall s, (forall u, n_alive s u = true -> new_of (n_pc s u) = None) -> reg s = O.
Proof.
  intros s H. unfold reg. destruct (new_of (n_pc s (n_guard s))) eqn:E; auto. destruct (n_alive s (n_guard s)) eqn:A; auto.
  rewrite H in E by auto. discriminate.
Qed.
Lemma reg_case : forall s, reg s = O \/ (reg s = 1%nat /\ exists c, n_alive s (n_guard s) = true /\ new_of (n_pc s (n_guard s)) = Some c).
Proof.
  intro s. unfold reg. destruct (new_of (n_pc s (n_guard s))) eqn:E; auto. destruct (n_alive s (n_guard s)) eqn:A; auto.
  right. split; auto. exists n. auto.
Qed.
Lemma reg_same : forall s s' t, ninv s -> ninv s' -> (forall u, n_alive s' u = n_alive s u) -> (forall u, u <> t -> n_pc s' u = n_pc s u) ->
  new_of (n_pc s t) = None -> new_of (n_pc s' t) = None -> reg s' = reg s.
Proof.
  intros s s' t I I' A O N N'. destruct (reg_case s) as [Z|(Z & c & A1 & C1)]; destruct (reg_case s') as [Z'|(Z' & c' & A2 & C2)]; rewrite Z, Z'; auto; exfalso.
  - set (u := n_guard s') in *. destruct (Z.eq_dec u t) as [E|E]; [rewrite E in C2; congruence|].
    rewrite A in A2. rewrite O in C2 by auto. rewrite (reg_one s u c') in Z; auto. discriminate.
  - set (u := n_guard s) in *. destruct (Z.eq_dec u t) as [E|E]; [rewrite E in C1; congruence|].
    rewrite (reg_one s' u c) in Z'; auto; [discriminate | rewrite A; auto | rewrite O; auto].
Qed.

(** what other threads have done does not change when the word changes as a mutex word does *)
Lemma gop_other : forall s s' u p, pc_ok d s p ->
  (forall e, In e (n_list s) -> (n_val s' e =? u) = (n_val s e =? u)) -> gop_of s' u p = gop_of s u p.
Proof.
  intros s s' u p. induction p; intros P V; simpl in *; auto.
  - destruct p; simpl in *; auto; destruct P.
  - destruct P as (_ & [IN _] & _). f_equal. unfold op_of. destruct p; auto. rewrite V; auto.
Qed.

Lemma gs_frame : forall s a s' t, GS s a -> ninv s -> t <> 0 -> n_alive s t = true ->
  n_list s' = n_list s -> (forall e, In e (n_list s) -> n_key s' e = n_key s e) ->
  (forall u, n_alive s' u = n_alive s u) -> (forall u, u <> t -> n_pc s' u = n_pc s u) ->
  (forall e u, u <> t -> u <> 0 -> n_alive s u = true -> In e (n_list s) -> (n_val s' e =? u) = (n_val s e =? u)) ->
  forall own room op, (forall e, In e (n_list s) -> own (ename s e) = n_val s' e) -> room = (length (n_free s') + reg s')%nat ->
  (forall u, u <> t -> op u = g_op a u) -> op t = gop_of s' t (n_pc s' t) ->
  GS s' (mkGS own (g_known a) room (g_alive a) op).
Proof.
  intros s a s' t S I T0 AL L K A O V own room op OW RM OP OT. destruct (ni_zero _ _ I) as [Z1 Z2]. constructor; simpl; auto.
  - intro u. rewrite A. apply (gsm_alive _ _ S).
  - intro x. rewrite (gsm_known _ _ S). rewrite L. split; intros (e & IN & E); exists e; (split; auto); unfold ename in *; rewrite K in *; auto.
  - intros e IN. rewrite L in IN. unfold ename. rewrite K by auto. apply OW; auto.
  - intros u AU. rewrite A in AU. destruct (Z.eq_dec u t) as [->|N]; auto. rewrite OP, O, (gsm_op _ _ S u AU) by auto.
    destruct (Z.eq_dec u 0) as [->|N0]; [rewrite Z1; auto|]. symmetry. apply gop_other; auto. apply (ni_pc _ _ I).
Qed.

Lemma gs_al : forall s a t, GS s a -> n_alive s t = true -> g_alive a t = true.
Proof. intros s a t S A. rewrite (gsm_alive _ _ S). auto. Qed.
Lemma upd_g : forall (f : Z -> gop) t v u, u <> t -> upd f t v u = f u.
Proof. intros. apply upd_neq; auto. Qed.
Lemma upd_g2 : forall (f : Z -> gop) t v w u, u <> t -> upd (upd f t v) t w u = f u.
Proof. intros. rewrite !upd_neq; auto. Qed.

(** ** Steps that change no registered word *)
Section Quiet.
Variables (s s' : nstate) (a : gstate) (t : Z).
Hypothesis S : GS s a.
Hypothesis I : ninv s.
Hypothesis T0 : t <> 0.
Hypothesis AL : n_alive s t = true.
Hypothesis L : n_list s' = n_list s.
Hypothesis K : forall e, In e (n_list s) -> n_key s' e = n_key s e.
Hypothesis A : forall u, n_alive s' u = n_alive s u.
Hypothesis O : forall u, u <> t -> n_pc s' u = n_pc s u.
Hypothesis V : forall e, In e (n_list s) -> n_val s' e = n_val s e.
Hypothesis RM : (length (n_free s') + reg s' = length (n_free s) + reg s)%nat.

Lemma q_frame : forall op, (forall u, u <> t -> op u = g_op a u) -> op t = gop_of s' t (n_pc s' t) ->
  GS s' (mkGS (g_owner a) (g_known a) (g_room a) (g_alive a) op).
Proof.
  intros op OP OT. apply (gs_frame s a s' t); auto.
  - intros e u _ _ _ IN. rewrite V; auto.
  - intros e IN. rewrite V by auto. apply (gsm_owner _ _ S); auto.
  - rewrite RM. apply (gsm_room _ _ S).
Qed.
Lemma q_stutter : gop_of s' t (n_pc s' t) = gop_of s t (n_pc s t) -> exists a', g_steps a [] a' /\ GS s' a'.
Proof.
  intro E. exists a. split; [constructor|].
  assert (EA : a = mkGS (g_owner a) (g_known a) (g_room a) (g_alive a) (g_op a)) by (destruct a; auto).
  rewrite EA. apply q_frame; auto. rewrite E. apply (gsm_op _ _ S t AL).
Qed.
Lemma q_effect : forall c r, gop_of s t (n_pc s t) = GWaits c -> geffect a t c (g_owner a) r -> gop_of s' t (n_pc s' t) = GDone r ->
  exists a', g_steps a [] a' /\ GS s' a'.
Proof.
  intros c r E EF E'. exists (mkGS (g_owner a) (g_known a) (g_room a) (g_alive a) (upd (g_op a) t (GDone r))). split.
  - apply g_one. apply (gs_effect a t c); auto; [apply (gs_al s); auto | rewrite (gsm_op _ _ S t AL); auto].
  - apply q_frame; auto using upd_g. rewrite upd_eq. auto.
Qed.
Lemma q_effect_ret : forall c r, gop_of s t (n_pc s t) = GWaits c -> geffect a t c (g_owner a) r -> gop_of s' t (n_pc s' t) = GIdle ->
  exists a', g_steps a [VRet t r] a' /\ GS s' a'.
Proof.
  intros c r E EF E'. exists (mkGS (g_owner a) (g_known a) (g_room a) (g_alive a) (upd (upd (g_op a) t (GDone r)) t GIdle)). split.
  - change [VRet t r] with (@nil nevent ++ [VRet t r]). econstructor; [|apply g_one].
    + apply (gs_effect a t c (g_owner a) r); auto; [apply (gs_al s); auto | rewrite (gsm_op _ _ S t AL); auto].
    + apply (gs_ret (mkGS (g_owner a) (g_known a) (g_room a) (g_alive a) (upd (g_op a) t (GDone r))) t r); simpl; [apply (gs_al s); auto | apply upd_eq].
  - apply q_frame; auto using upd_g2. rewrite upd_eq. auto.
Qed.
Lemma q_ret : forall r, gop_of s t (n_pc s t) = GDone r -> gop_of s' t (n_pc s' t) = GIdle ->
  exists a', g_steps a [VRet t r] a' /\ GS s' a'.
Proof.
  intros r E E'. exists (mkGS (g_owner a) (g_known a) (g_room a) (g_alive a) (upd (g_op a) t GIdle)). split.
  - apply g_one. apply gs_ret; [apply (gs_al s); auto | rewrite (gsm_op _ _ S t AL); auto].
  - apply q_frame; auto using upd_g. rewrite upd_eq. auto.
Qed.
End Quiet.

(** ** Steps on a registered entry *)
Lemma op_call : forall c v t q c', op_shape c q -> op_of v t q = OWaits c' -> c' = mcall_of c.
Proof.
  intros c v t q c' H E. destruct q; simpl in H; try (destruct H; fail); simpl in E; try discriminate;
    try (destruct H as (n & ->); inversion E; auto; fail).
  all: match goal with g : bool |- _ => destruct g end; destruct H as (n & ->); simpl in E; try (destruct (v =? t)); inversion E; auto.
Qed.
Lemma effect_named : forall c v t v' r, accepted c -> effect v t (mcall_of c) v' r -> meffect v t c v' r.
Proof.
  intros c v t v' r AC EF. destruct c as [n k|n|n| ]; [| | |destruct AC]; simpl in EF; inversion EF; subst;
    try (match goal with H : _ = _ \/ _ = _ |- _ => destruct H; discriminate end);
    try (econstructor; eauto; fail).
Qed.

Section Entry.
Variables (s s' : nstate) (a : gstate) (t e : Z) (b : bool) (m : mstate).
Hypothesis S : GS s a.
Hypothesis I : ninv s.
Hypothesis I' : ninv s'.
Hypothesis T0 : t <> 0.
Hypothesis AL : n_alive s t = true.
Hypothesis L : n_list s' = n_list s.
Hypothesis F : n_free s' = n_free s.
Hypothesis K : n_key s' = n_key s.
Hypothesis A : n_alive s' = n_alive s.
Hypothesis O : forall u, u <> t -> n_pc s' u = n_pc s u.
Hypothesis N : new_of (n_pc s t) = None.
Hypothesis N' : new_of (n_pc s' t) = None.
Hypothesis IN : In e (n_list s).
Hypothesis M : m_reach (mok d) m.
Hypothesis RM : R s e m.
Hypothesis V : n_val s' = upd (n_val s) e (m_val (m_run m t b)).

Lemma e_reg : (length (n_free s') + reg s' = length (n_free s) + reg s)%nat.
Proof. rewrite F. f_equal. apply (reg_same s s' t); auto. intro u. rewrite A. auto. Qed.
Lemma e_same : m_val (m_run m t b) = m_val m -> forall x, In x (n_list s) -> n_val s' x = n_val s x.
Proof.
  intros E x _. rewrite V, E, (R_val _ _ _ RM). destruct (Z.eq_dec x e) as [->|X]; [apply upd_eq | apply upd_neq; auto].
Qed.
Lemma e_frame : forall op, (forall u, u <> t -> op u = g_op a u) -> op t = gop_of s' t (n_pc s' t) ->
  GS s' (mkGS (setn (g_owner a) (ename s e) (m_val (m_run m t b))) (g_known a) (g_room a) (g_alive a) op).
Proof.
  intros op OP OT. apply (gs_frame s a s' t); auto.
  - intros x _. rewrite K. auto.
  - intro u. rewrite A. auto.
  - intros x u U0 UT AU INx. rewrite V. destruct (Z.eq_dec x e) as [->|X]; [rewrite upd_eq | rewrite upd_neq by auto; auto].
    rewrite <- (R_val _ _ _ RM). apply other_val; auto; [apply (mok_inv d); auto | rewrite (R_alive _ _ _ RM); auto ..].
  - intros x INx. rewrite V. destruct (Z.eq_dec x e) as [->|X]; [rewrite setn_eq, upd_eq; auto|].
    rewrite upd_neq by auto. rewrite setn_neq; [apply (gsm_owner _ _ S); auto|]. intro E. apply X. apply (ni_one _ _ I); auto.
  - rewrite e_reg. apply (gsm_room _ _ S).
Qed.
Lemma e_known : g_known a (ename s e) = true.
Proof. apply (gsm_known _ _ S). exists e. auto. Qed.
Lemma e_owner : g_owner a (ename s e) = m_val m.
Proof. rewrite (gsm_owner _ _ S) by auto. symmetry. apply (R_val _ _ _ RM). Qed.
End Entry.

Lemma sim_op : forall s a t b c e p, GS s a -> ninv s -> t <> 0 -> n_alive s t = true -> n_pc s t = NOp c e p ->
  exists a', g_steps a (n_events s (NRun t b)) a' /\ GS (n_run s t b) a'.
Proof.
  intros s a t b c e p S I T0 AL Ep. pose proof (ninv_run d s t b I T0 AL) as I'.
  pose proof (ni_pc _ _ I t) as PC. rewrite Ep in PC. simpl in PC. destruct PC as (FC & EO & SH).
  destruct (shape_not_taking _ _ SH) as [TK NI]. destruct (EO) as [EN EE].
  destruct (ni_ent _ _ I e EN) as (m0 & M0 & R0).
  assert (P0 : m_pc m0 t = p) by (rewrite (R_pc _ _ _ R0), Ep; simpl; rewrite Z.eqb_refl; auto).
  pose proof (entry_run s e m0 t b p R0 P0 TK) as AG.
  assert (AL0 : m_alive m0 t = true) by (rewrite (R_alive _ _ _ R0); auto).
  destruct (reach_facts (mok d) m0 (fun x => mok_inv d x D) M0) as (CO & PB).
  pose proof (run_outcome m0 t b (mok_inv d m0 D M0) CO T0 AL0 (PB t)) as OUT.
  set (m := m_run (n_view s e t p) t b) in *. set (m1 := m_run m0 t b) in *.
  assert (VP : m_pc (n_view s e t p) t = p) by (simpl; apply upd_eq).
  assert (NX : op_shape c (m_pc m t) \/ m_pc m t = MIdle \/ (m_pc m t = MKGuard (Some MBlock) /\ exists n, c = NLock (Some n) MBlock)).
  { apply op_next. rewrite VP. auto. }
  assert (RES : m_pc m t = MIdle -> exists r, m_res m t = Some r /\ m_res m1 t = Some r).
  { intro E. assert (X : m_res m t = m_res m1 t).
    { apply run_res; auto.
      - constructor; simpl; auto; [symmetry; apply (R_val _ _ _ R0) | symmetry; apply (R_cnt _ _ _ R0) | rewrite upd_eq; auto].
      - intro u. simpl. symmetry. apply (R_alive _ _ _ R0).
      - rewrite VP. auto.
      - rewrite VP. auto. }
    destruct (run_ends (n_view s e t p) t b) as (r & Y); [rewrite VP; auto | exact E|]. exists r. fold m in Y. split; congruence. }
  destruct AG as [A1 A2 A3].
  set (s' := n_run s t b) in *.
  assert (FACTS : n_list s' = n_list s /\ n_free s' = n_free s /\ n_key s' = n_key s /\ n_alive s' = n_alive s /\
    (forall u, u <> t -> n_pc s' u = n_pc s u) /\ n_val s' = upd (n_val s) e (m_val m) /\ new_of (n_pc s' t) = None /\
    gop_of s' t (n_pc s' t) = lift c (op_of (m_val m) t (m_pc m t)) /\
    n_events s (NRun t b) = match m_pc m t, m_res m t with MIdle, Some r => [VRet t r] | _, _ => [] end).
  { unfold n_events. fold s'. rewrite Ep. unfold s', n_run. rewrite Ep. fold m. destruct NX as [SH'|[E|[E (n & EC)]]].
    - assert (X : (match m_pc m t with
        | MIdle => n_return (n_back s e m) t (match m_res m t with Some r => r | None => OK end)
        | MKGuard _ => n_goto (n_back s e m) t (NPEnter (Some (c, e)))
        | p' => n_goto (n_back s e m) t (NOp c e p') end) = n_goto (n_back s e m) t (NOp c e (m_pc m t)))
        by (destruct (m_pc m t); simpl in SH'; try (destruct SH'; fail); auto).
      rewrite X. simpl. rewrite !upd_eq. simpl. rewrite upd_eq. repeat split; auto.
      + intros u N. apply upd_neq; auto.
      + destruct (m_pc m t); simpl in SH'; try (destruct SH'; fail); auto.
    - rewrite E. destruct (RES E) as (r & Y1 & Y2). rewrite Y1. simpl. rewrite !upd_eq. repeat split; auto. intros u N. apply upd_neq; auto.
    - rewrite E. simpl. rewrite !upd_eq. repeat split; auto. intros u N. apply upd_neq; auto. }
  destruct FACTS as (L & F & K & A & O & V & N' & G' & EV). rewrite A1 in V.
  assert (N : new_of (n_pc s t) = None) by (rewrite Ep; auto).
  assert (G0 : gop_of s t (n_pc s t) = lift c (op_of (m_val m0) t (m_pc m0 t))) by (rewrite Ep, (R_val _ _ _ R0), P0; auto).
  rewrite A1, A3 in G'.
  assert (AC : accepted c) by (destruct FC as (_ & X & _); auto).
  assert (AN : forall u, n_alive s' u = n_alive s u) by (intro u; rewrite A; auto).
  assert (KN : forall x, In x (n_list s) -> n_key s' x = n_key s x) by (intros x _; rewrite K; auto).
  pose proof (e_reg s s' t I I' F A O N N') as RG.
  pose proof (e_frame s s' a t e b m0 S I I' T0 AL L F K A O N N' EN M0 R0 V) as FR. fold m1 in FR.
  assert (KW : g_known a (canon (about c)) = true) by (rewrite <- EE; apply e_known; auto).
  assert (OW : g_owner a (canon (about c)) = m_val m0) by (rewrite <- EE; apply e_owner; auto).
  assert (NI0 : m_pc m0 t <> MIdle) by congruence.
  assert (SH0 : op_shape c (m_pc m0 t)) by (rewrite P0; auto).
  assert (EV0 : m_events m0 (MRun t b) = match m_pc m1 t, m_res m1 t with MIdle, Some r => [ERet t r] | _, _ => [] end).
  { unfold m_events. fold m1. destruct (m_pc m0 t) eqn:X; try congruence; destruct (m_pc m1 t); auto; destruct (m_res m1 t); auto. }
  assert (EVR : m_events m0 (MRun t b) = [] -> n_events s (NRun t b) = []).
  { intro X. rewrite EV, A3. rewrite EV0 in X. destruct (m_pc m1 t) eqn:Y; auto.
    assert (Y' : m_pc m t = MIdle) by congruence. destruct (RES Y') as (r & Y1 & Y2). rewrite Y2 in X. discriminate. }
  assert (EVS : forall r, m_events m0 (MRun t b) = [ERet t r] -> n_events s (NRun t b) = [VRet t r]).
  { intros r X. rewrite EV, A3. rewrite EV0 in X. destruct (m_pc m1 t) eqn:Y; try discriminate.
    assert (Y' : m_pc m t = MIdle) by congruence. destruct (RES Y') as (r' & Y1 & Y2). rewrite Y2 in X. rewrite Y1. inversion X. auto. }
  destruct OUT as [V1 E1 X1|c' r E1 EF E2 X1|c' r E1 EF E2 X1|r E1 V1 E2 X1|c' C' E1 V1 D1 V2 E2 X1].
  - rewrite (EVR X1). apply (q_stutter s s' a t); auto.
    + apply (e_same s s' t e b m0); auto.
    + rewrite G', G0. fold m1 in E1. rewrite E1. auto.
  - rewrite (EVR X1). fold m1 in EF, E2. assert (CC : c' = mcall_of c) by (exact (op_call _ _ _ _ _ SH0 E1)). subst c'.
    exists (mkGS (setn (g_owner a) (ename s e) (m_val m1)) (g_known a) (g_room a) (g_alive a) (upd (g_op a) t (GDone r))). split.
    + apply g_one. apply (gs_effect a t c _ r); auto.
      * apply (gs_al s); auto.
      * rewrite (gsm_op _ _ S t AL), G0, E1. auto.
      * rewrite EE. apply ge_known; auto. rewrite OW. apply effect_named; auto.
    + apply FR; auto using upd_g. rewrite upd_eq, G', E2. auto.
  - rewrite (EVS r X1). fold m1 in EF, E2. assert (CC : c' = mcall_of c) by (exact (op_call _ _ _ _ _ SH0 E1)). subst c'.
    exists (mkGS (setn (g_owner a) (ename s e) (m_val m1)) (g_known a) (g_room a) (g_alive a) (upd (upd (g_op a) t (GDone r)) t GIdle)). split.
    + change [VRet t r] with (@nil nevent ++ [VRet t r]). econstructor; [|apply g_one].
      * apply (gs_effect a t c (setn (g_owner a) (ename s e) (m_val m1)) r); auto.
        -- apply (gs_al s); auto.
        -- rewrite (gsm_op _ _ S t AL), G0, E1. auto.
        -- rewrite EE. apply ge_known; auto. rewrite OW. apply effect_named; auto.
      * apply (gs_ret (mkGS (setn (g_owner a) (ename s e) (m_val m1)) (g_known a) (g_room a) (g_alive a) (upd (g_op a) t (GDone r))) t r); simpl;
          [apply (gs_al s); auto | apply upd_eq].
    + apply FR; auto using upd_g2. rewrite upd_eq, G', E2. auto.
  - rewrite (EVS r X1). apply (q_ret s s' a t); auto.
    + apply (e_same s s' t e b m0); auto.
    + rewrite G0, E1. auto.
    + fold m1 in E2. rewrite G', E2. auto.
  - rewrite (EVR X1). assert (CC : c' = mcall_of c) by (exact (op_call _ _ _ _ _ SH0 E1)). subst c'. fold m1 in V2, E2.
    exists (mkGS (setn (g_owner a) (ename s e) (m_val m1)) (g_known a) (g_room a) (g_alive a) (g_op a)). split.
    + apply g_one. rewrite V2. apply (gs_reap a t c (ename s e)); auto.
      * apply (gs_al s); auto.
      * rewrite (gsm_op _ _ S t AL), G0, E1. auto.
      * destruct C' as [X|X]; destruct c as [n []|n|n| ]; simpl in X; try discriminate; simpl; auto.
      * rewrite EE, OW. auto.
      * rewrite EE, OW, (gsm_alive _ _ S), <- (R_alive _ _ _ R0). auto.
    + apply FR; auto. rewrite (gsm_op _ _ S t AL), G0, G', E1, E2. auto.
Qed.

Lemma wcall_recovers : forall s w, pass_ok d s w -> recovers (wcall w).
Proof. intros s [[c e]|]; simpl; auto. intros (_ & (n & ->) & _). simpl. auto. Qed.

Lemma sim_at : forall s a t b w es e p, GS s a -> ninv s -> t <> 0 -> n_alive s t = true -> n_pc s t = NPAt w es e p ->
  exists a', g_steps a (n_events s (NRun t b)) a' /\ GS (n_run s t b) a'.
Proof.
  intros s a t b w es e p S I T0 AL Ep. pose proof (ninv_run d s t b I T0 AL) as I'.
  pose proof (ni_pc _ _ I t) as PC. rewrite Ep in PC. simpl in PC. destruct PC as (WO & ND & IC & SH).
  destruct (pass_not_taking _ _ _ SH) as (TK & NI & IG & DR).
  assert (EN : In e (n_list s)) by (apply IC; left; auto).
  destruct (ni_ent _ _ I e EN) as (m0 & M0 & R0).
  assert (P0 : m_pc m0 t = p) by (rewrite (R_pc _ _ _ R0), Ep; simpl; rewrite Z.eqb_refl; auto).
  pose proof (entry_run s e m0 t b p R0 P0 TK) as AG.
  assert (AL0 : m_alive m0 t = true) by (rewrite (R_alive _ _ _ R0); auto).
  destruct (reach_facts (mok d) m0 (fun x => mok_inv d x D) M0) as (CO & PB).
  pose proof (run_outcome m0 t b (mok_inv d m0 D M0) CO T0 AL0 (PB t)) as OUT.
  set (m := m_run (n_view s e t p) t b) in *. set (m1 := m_run m0 t b) in *.
  assert (VP : m_pc (n_view s e t p) t = p) by (simpl; apply upd_eq).
  assert (NX : pass_shape w e (m_pc m t) \/ m_pc m t = MKRel (ret_at w e)) by (apply pass_next; rewrite VP; auto).
  destruct AG as [A1 A2 A3].
  set (s' := n_run s t b) in *.
  assert (FACTS : n_list s' = n_list s /\ n_free s' = n_free s /\ n_key s' = n_key s /\ n_alive s' = n_alive s /\
    (forall u, u <> t -> n_pc s' u = n_pc s u) /\ n_val s' = upd (n_val s) e (m_val m) /\ new_of (n_pc s' t) = None /\
    gop_of s' t (n_pc s' t) = GWaits (wcall w) /\ n_events s (NRun t b) = []).
  { unfold n_events. fold s'. rewrite Ep. unfold s', n_run. rewrite Ep. fold m. destruct NX as [SH'|E].
    - assert (X : (match m_pc m t with
        | MKRel _ => n_goto (n_back s e m) t (NPass w es)
        | p' => n_goto (n_back s e m) t (NPAt w es e p') end) = n_goto (n_back s e m) t (NPAt w es e (m_pc m t)))
        by (destruct (m_pc m t); simpl in SH'; try (destruct SH'; fail); auto).
      rewrite X. simpl. rewrite !upd_eq. repeat split; auto. intros u N. apply upd_neq; auto.
    - rewrite E. simpl. rewrite !upd_eq. repeat split; auto. intros u N. apply upd_neq; auto. }
  destruct FACTS as (L & F & K & A & O & V & N' & G' & EV). rewrite A1 in V. rewrite EV.
  assert (N : new_of (n_pc s t) = None) by (rewrite Ep; auto).
  assert (G0 : gop_of s t (n_pc s t) = GWaits (wcall w)) by (rewrite Ep; auto).
  assert (AN : forall u, n_alive s' u = n_alive s u) by (intro u; rewrite A; auto).
  assert (KN : forall x, In x (n_list s) -> n_key s' x = n_key s x) by (intros x _; rewrite K; auto).
  pose proof (e_reg s s' t I I' F A O N N') as RG.
  pose proof (e_frame s s' a t e b m0 S I I' T0 AL L F K A O N N' EN M0 R0 V) as FR. fold m1 in FR.
  assert (OW : g_owner a (ename s e) = m_val m0) by (apply e_owner; auto).
  assert (Q1 : exists c', op_of (m_val m1) t (m_pc m1 t) = OWaits c').
  { rewrite <- A3. destruct NX as [SH'|E]; [destruct (m_pc m t); simpl in SH'; try (destruct SH'; fail); eexists; reflexivity|].
    rewrite E. eexists; reflexivity. }
  assert (Q0 : exists c', op_of (m_val m0) t (m_pc m0 t) = OWaits c').
  { rewrite P0. destruct p; simpl in SH; try (destruct SH; fail); eexists; reflexivity. }
  destruct Q1 as (c1 & Q1). destruct Q0 as (c0 & Q0).
  destruct OUT as [V1 E1 X1|c' r E1 EF E2 X1|c' r E1 EF E2 X1|r E1 V1 E2 X1|c' C' E1 V1 D1 V2 E2 X1];
    try (fold m1 in E2; congruence); try congruence.
  - apply (q_stutter s s' a t); auto.
    + apply (e_same s s' t e b m0); auto.
    + rewrite G', G0. auto.
  - fold m1 in V2.
    exists (mkGS (setn (g_owner a) (ename s e) (m_val m1)) (g_known a) (g_room a) (g_alive a) (g_op a)). split.
    + apply g_one. rewrite V2. apply (gs_reap a t (wcall w) (ename s e)); auto.
      * apply (gs_al s); auto.
      * rewrite (gsm_op _ _ S t AL), G0. auto.
      * eapply wcall_recovers; eauto.
      * rewrite OW. auto.
      * rewrite OW, (gsm_alive _ _ S), <- (R_alive _ _ _ R0). auto.
    + apply FR; auto. rewrite (gsm_op _ _ S t AL), G0, G'. auto.
Qed.

(** ** Every step *)
Lemma known_of : forall s a c e, GS s a -> entry_of s c e -> g_known a (canon (about c)) = true.
Proof. intros s a c e S [IN E]. apply (gsm_known _ _ S). exists e. auto. Qed.
Lemma unknown_of : forall s a n, GS s a -> (forall e, In e (n_list s) -> ename s e <> n) -> g_known a n = false.
Proof.
  intros s a n S H. destruct (g_known a n) eqn:E; auto. apply (gsm_known _ _ S) in E. destruct E as (e & IN & X). destruct (H e IN X).
Qed.

Lemma sim_run : forall s a t b, GS s a -> ninv s -> t <> 0 -> n_alive s t = true ->
  exists a', g_steps a (n_events s (NRun t b)) a' /\ GS (n_run s t b) a'.
Proof.
  intros s a t b S I T0 AL. pose proof (ninv_run d s t b I T0 AL) as I'. pose proof (ni_pc _ _ I t) as PC.
  assert (QUIET : forall q, n_list (n_run s t b) = n_list s -> n_key (n_run s t b) = n_key s -> n_val (n_run s t b) = n_val s ->
    n_free (n_run s t b) = n_free s -> n_alive (n_run s t b) = n_alive s -> n_pc (n_run s t b) = upd (n_pc s) t q ->
    new_of (n_pc s t) = None -> new_of q = None -> gop_of (n_run s t b) t q = gop_of s t (n_pc s t) ->
    n_events s (NRun t b) = [] -> exists a', g_steps a (n_events s (NRun t b)) a' /\ GS (n_run s t b) a').
  { intros q L K V F A P N N' G E. rewrite E.
    assert (PT : n_pc (n_run s t b) t = q) by (rewrite P; apply upd_eq).
    assert (O : forall u, u <> t -> n_pc (n_run s t b) u = n_pc s u) by (intros; rewrite P; apply upd_neq; auto).
    apply (q_stutter s (n_run s t b) a t); auto; try (intros; congruence).
    rewrite F. f_equal. apply (reg_same s _ t); auto; intros; congruence. }
  destruct (n_pc s t) as [ |p|c|c e|c e|c e|r|c e q|w|w|w es|w es e q|w] eqn:Ep; simpl in PC.
  - exists a. unfold n_events, n_run. rewrite Ep. split; [constructor | auto].
  - unfold n_events, n_run in *. rewrite Ep in *.
    destruct ((n_guard s =? 0) || (n_guard s =? t) || negb (n_alive s (n_guard s))).
    + apply (QUIET p); simpl; rewrite ?upd_eq; auto; destruct p; try (destruct PC; fail); auto.
    + exists a. split; [rewrite Ep; destruct (n_res s t); constructor | auto].
  - assert (NG : n_guard s = t) by (apply (ni_guard _ _ I); auto; rewrite Ep; simpl; auto).
    assert (R0 : reg s = O) by (unfold reg; rewrite NG, Ep; auto).
    destruct PC as (PN & AC & _). unfold n_events, n_run in *. rewrite Ep in *. destruct (n_find s (ckey c)) as [e|] eqn:F.
    + destruct c as [n k|n|n| ]; try (destruct AC; fail).
      * apply (QUIET (NRelOp (NLock n k) e)); simpl; rewrite ?upd_eq; auto.
      * apply (QUIET (NOp (NUnlock n) e (MU0 true))); simpl; rewrite ?upd_eq; auto.
      * apply (QUIET (NRelOp (NWaitUnlock n) e)); simpl; rewrite ?upd_eq; auto.
    + pose proof (unknown_of s a _ S (find_none d s c I PN F)) as U.
      destruct c as [n k|n|n| ]; try (destruct AC; fail).
      * destruct (n_free s) as [|e fr] eqn:FR.
        -- destruct n as [n|]; [|destruct AC]. simpl. rewrite upd_eq.
           apply (q_effect s _ a t) with (c := NLock (Some n) k) (r := ENOLCK); simpl; rewrite ?upd_eq; auto.
           ++ intros u N. apply upd_neq; auto.
           ++ f_equal. apply (reg_same s _ t); simpl; rewrite ?upd_eq, ?Ep; auto. intros u N. apply upd_neq; auto.
           ++ rewrite Ep. auto.
           ++ apply ge_full; auto. rewrite (gsm_room _ _ S), FR, R0. auto.
        -- simpl. rewrite upd_eq. apply (q_stutter s _ a t); simpl; rewrite ?upd_eq, ?Ep; auto.
           ++ intros u N. apply upd_neq; auto.
           ++ rewrite FR, R0. simpl. unfold reg. simpl. rewrite NG, upd_eq. simpl. rewrite AL. lia.
      * simpl. rewrite upd_eq. apply (q_effect s _ a t) with (c := NUnlock n) (r := EINVAL); simpl; rewrite ?upd_eq; auto.
        -- intros u N. apply upd_neq; auto.
        -- f_equal. apply (reg_same s _ t); simpl; rewrite ?upd_eq, ?Ep; auto. intros u N. apply upd_neq; auto.
        -- rewrite Ep. auto.
        -- apply ge_unknown with (n := n); auto.
      * simpl. rewrite upd_eq. apply (q_effect s _ a t) with (c := NWaitUnlock n) (r := EINVAL); simpl; rewrite ?upd_eq; auto.
        -- intros u N. apply upd_neq; auto.
        -- f_equal. apply (reg_same s _ t); simpl; rewrite ?upd_eq, ?Ep; auto. intros u N. apply upd_neq; auto.
        -- rewrite Ep. auto.
        -- apply ge_unknown with (n := n); auto.
  - assert (NG : n_guard s = t) by (apply (ni_guard _ _ I); auto; rewrite Ep; simpl; auto).
    destruct PC as (_ & _ & NL & _). assert (LE : forall x, In x (n_list s) -> x <> e) by (intros x IN ->; contradiction).
    unfold n_events, n_run in *. rewrite Ep in *. simpl. rewrite upd_eq. apply (q_stutter s _ a t); simpl; rewrite ?upd_eq, ?Ep; auto.
    + intros x IN. apply upd_neq; auto.
    + intros u N. apply upd_neq; auto.
    + intros x IN. apply upd_neq; auto.
    + unfold reg. simpl. rewrite NG, upd_eq, Ep. auto.
  - assert (NG : n_guard s = t) by (apply (ni_guard _ _ I); auto; rewrite Ep; simpl; auto).
    destruct PC as (FC & (n & k & ->) & NL & NF & K & V & C).
    assert (UN : forall x, In x (n_list s) -> ename s x <> canon (Some n)).
    { apply (ni_new _ _ I t (NLock (Some n) k)); auto. rewrite Ep. auto. }
    pose proof (unknown_of s a _ S UN) as U.
    assert (EE : ename s e = canon (Some n)) by (unfold ename; rewrite K; unfold ckey; rewrite key_name, canon_str; auto).
    assert (R1 : g_room a = Datatypes.S (length (n_free s))).
    { rewrite (gsm_room _ _ S). unfold reg. rewrite NG, Ep. simpl. rewrite AL. lia. }
    unfold n_events, n_run in *. rewrite Ep in *. simpl. rewrite upd_eq.
    exists (mkGS (setn (g_owner a) (canon (Some n)) 0) (setn (g_known a) (canon (Some n)) true) (length (n_free s)) (g_alive a) (g_op a)). split.
    + apply g_one. apply (gs_new a t n k); auto; [apply (gs_al s); auto | rewrite (gsm_op _ _ S t AL), Ep; auto].
    + constructor; simpl.
      * apply (gsm_alive _ _ S).
      * intro x. unfold setn. destruct (list_eq_dec Z.eq_dec x (canon (Some n))) as [->|X].
        -- split; auto. intros _. exists e. split; auto.
        -- rewrite (gsm_known _ _ S). split.
           ++ intros (y & IN & E). exists y. auto.
           ++ intros (y & [<-|IN] & E); [exfalso; unfold ename in *; simpl in E; congruence | exists y; auto].
      * intros x [<-|IN].
        -- change (setn (g_owner a) (canon (Some n)) 0 (ename s e) = n_val s e). rewrite EE, setn_eq. auto.
        -- change (setn (g_owner a) (canon (Some n)) 0 (ename s x) = n_val s x). rewrite setn_neq by auto. apply (gsm_owner _ _ S); auto.
      * unfold reg. simpl. rewrite NG, upd_eq. simpl. lia.
      * intros u AU. destruct (Z.eq_dec u t) as [->|N]; [rewrite upd_eq, (gsm_op _ _ S t AL), Ep; auto|].
        rewrite upd_neq by auto. rewrite (gsm_op _ _ S u AU). symmetry. apply gop_other; auto. apply (ni_pc _ _ I).
  - assert (NG : n_guard s = t) by (apply (ni_guard _ _ I); auto; rewrite Ep; simpl; auto).
    destruct PC as (_ & _ & CC). unfold n_events, n_run in *. rewrite Ep in *. rewrite drop_eq in * by auto.
    apply (QUIET (NOp c e match c with NLock _ k => MRead k | _ => MU0 false end)); simpl; rewrite ?upd_eq; auto.
    destruct CC as [(n & k & ->)|(n & ->)]; auto.
  - assert (NG : n_guard s = t) by (apply (ni_guard _ _ I); auto; rewrite Ep; simpl; auto).
    unfold n_events, n_run in *. rewrite Ep in *. rewrite drop_eq in * by auto. simpl. rewrite !upd_eq.
    apply (q_ret s _ a t); simpl; rewrite ?upd_eq; auto.
    + intros u N. apply upd_neq; auto.
    + f_equal. apply (reg_same s _ t); simpl; rewrite ?upd_eq, ?Ep; auto. intros u N. apply upd_neq; auto.
    + rewrite Ep. auto.
  - eapply sim_op; eauto.
  - unfold n_events, n_run in *. rewrite Ep in *. destruct (n_list s) as [|e0 l] eqn:L.
    + destruct w as [[c e]|].
      * destruct PC as (_ & _ & IN & _). rewrite L in IN. destruct IN.
      * simpl. rewrite !upd_eq. apply (q_effect_ret s _ a t) with (c := NRecover); simpl; rewrite ?upd_eq; auto.
        -- intros u N. apply upd_neq; auto.
        -- f_equal. apply (reg_same s _ t); simpl; rewrite ?upd_eq, ?Ep; auto. intros u N. apply upd_neq; auto.
        -- rewrite Ep. auto.
        -- constructor.
    + apply (QUIET (NWait (NPStart w))); simpl; rewrite ?upd_eq; auto.
  - unfold n_events, n_run in *. rewrite Ep in *. apply (QUIET (NPass w (n_list s))); simpl; rewrite ?upd_eq; auto.
  - unfold n_events, n_run in *. rewrite Ep in *. destruct es as [|e es].
    + apply (QUIET (NPRel w)); simpl; rewrite ?upd_eq; auto.
    + apply (QUIET (NPAt w es e (n_start w e))); simpl; rewrite ?upd_eq; auto.
  - eapply sim_at; eauto.
  - assert (NG : n_guard s = t) by (apply (ni_guard _ _ I); auto; rewrite Ep; simpl; auto).
    unfold n_events, n_run in *. rewrite Ep in *. rewrite drop_eq in * by auto. destruct w as [[c e]|].
    + destruct PC as (_ & (n & ->) & _). apply (QUIET (NOp (NLock (Some n) MBlock) e (MRead MBlock))); simpl; rewrite ?upd_eq; auto.
    + simpl. rewrite !upd_eq. apply (q_effect_ret s _ a t) with (c := NRecover); simpl; rewrite ?upd_eq; auto.
      * intros u N. apply upd_neq; auto.
      * f_equal. apply (reg_same s _ t); simpl; rewrite ?upd_eq, ?Ep; auto. intros u N. apply upd_neq; auto.
      * rewrite Ep. auto.
      * constructor.
Qed.

Lemma sim_call : forall s a t c, GS s a -> ninv s -> t <> 0 -> n_alive s t = true -> n_ok d s (NCall t c) ->
  exists a', g_steps a (n_events s (NCall t c)) a' /\ GS (n_call s t c) a'.
Proof.
  intros s a t c S I T0 AL OK. pose proof (ninv_call d s t c I T0 AL OK) as I'. unfold n_events.
  destruct (n_pc s t) eqn:Ep; try (exists a; unfold n_call; rewrite Ep; split; [constructor | auto]; fail).
  assert (GO : g_op a t = GIdle) by (rewrite (gsm_op _ _ S t AL), Ep; auto).
  set (a1 := mkGS (g_owner a) (g_known a) (g_room a) (g_alive a) (upd (g_op a) t (GWaits c))).
  assert (C1 : g_step a [VCall t c] a1) by (apply gs_call; auto; apply (gs_al s); auto).
  assert (FR : forall q, n_call s t c = n_goto s t q -> new_of q = None -> forall op, (forall u, u <> t -> op u = g_op a u) ->
    op t = gop_of (n_call s t c) t (n_pc (n_call s t c) t) ->
    GS (n_call s t c) (mkGS (g_owner a) (g_known a) (g_room a) (g_alive a) op)).
  { intros q E NQ op O1 O2. apply (q_frame s (n_call s t c) a t); auto; try (rewrite E; auto; fail).
    - rewrite E. intros u N. simpl. apply upd_neq; auto.
    - f_equal; [rewrite E; auto|]. apply (reg_same s _ t); auto; try (rewrite Ep; auto; fail).
      + rewrite E. auto.
      + intros u N. rewrite E. simpl. apply upd_neq; auto.
      + rewrite E. simpl. rewrite upd_eq. auto. }
  assert (GO1 : forall q, n_call s t c = n_goto s t q -> q <> NIdle -> new_of q = None -> gop_of (n_call s t c) t q = GWaits c ->
    exists a', g_steps a (VCall t c :: match n_pc (n_call s t c) t, n_res (n_call s t c) t with NIdle, Some r => [VRet t r] | _, _ => [] end) a' /\
    GS (n_call s t c) a').
  { intros q E NQ NW G. assert (PT : n_pc (n_call s t c) t = q) by (rewrite E; simpl; apply upd_eq). exists a1. split.
    - rewrite PT. destruct q; try congruence; apply g_one; auto.
    - apply (FR q); auto using upd_g. rewrite upd_eq, PT. auto. }
  assert (NUL : n_call s t c = n_return s t EINVAL -> geffect a1 t c (g_owner a) EINVAL ->
    exists a', g_steps a (VCall t c :: match n_pc (n_call s t c) t, n_res (n_call s t c) t with NIdle, Some r => [VRet t r] | _, _ => [] end) a' /\
    GS (n_call s t c) a').
  { intros E EF. exists (mkGS (g_owner a) (g_known a) (g_room a) (g_alive a) (upd (upd (upd (g_op a) t (GWaits c)) t (GDone EINVAL)) t GIdle)). split.
    - rewrite E. simpl. rewrite !upd_eq. change [VCall t c; VRet t EINVAL] with ([VCall t c] ++ [] ++ [VRet t EINVAL]).
      econstructor; [exact C1|]. econstructor; [|apply g_one].
      + apply (gs_effect a1 t c (g_owner a) EINVAL); auto; simpl; [apply (gs_al s); auto | apply upd_eq].
      + apply (gs_ret (mkGS (g_owner a) (g_known a) (g_room a) (g_alive a) (upd (upd (g_op a) t (GWaits c)) t (GDone EINVAL))) t EINVAL); simpl;
          [apply (gs_al s); auto | apply upd_eq].
    - apply (q_frame s (n_call s t c) a t); auto; try (rewrite E; auto; fail).
      + rewrite E. intros u N. simpl. apply upd_neq; auto.
      + f_equal; [rewrite E; auto|]. apply (reg_same s _ t); auto; try (rewrite Ep; auto; fail).
        * rewrite E. auto.
        * intros u N. rewrite E. simpl. apply upd_neq; auto.
        * rewrite E. simpl. rewrite upd_eq. auto.
      + intros u N. rewrite !upd_neq; auto.
      + rewrite E. simpl. rewrite !upd_eq. auto. }
  destruct c as [[n|] k|[n|]|n| ].
  - apply (GO1 (NWait (NFind (NLock (Some n) k)))); auto; [unfold n_call; rewrite Ep; auto | discriminate].
  - apply NUL; [unfold n_call; rewrite Ep; auto | apply (ge_null_lock a1)].
  - apply (GO1 (NWait (NFind (NUnlock (Some n))))); auto; [unfold n_call; rewrite Ep; auto | discriminate].
  - apply NUL; [unfold n_call; rewrite Ep; auto | apply (ge_null_unlock a1)].
  - apply (GO1 (NWait (NFind (NWaitUnlock n)))); auto; [unfold n_call; rewrite Ep; auto | discriminate].
  - apply (GO1 (NPEnter None)); auto; [unfold n_call; rewrite Ep; auto | discriminate].
Qed.

Lemma sim_die : forall s a t, GS s a -> ninv s -> t <> 0 -> exists a', g_steps a [VDie t] a' /\ GS (n_step s (NDie t)) a'.
Proof.
  intros s a t S I T0. set (s' := n_step s (NDie t)). set (al := upd (g_alive a) t false).
  assert (MA : forall u, n_alive s' u = true -> n_alive s u = true /\ u <> t).
  { intros u. simpl. unfold upd. destruct (Z.eqb_spec u t); auto. discriminate. }
  assert (GAL : forall u, al u = n_alive s' u).
  { intro u. unfold al. simpl. unfold upd. destruct (u =? t); auto. apply (gsm_alive _ _ S). }
  assert (D1 : g_step a [VDie t] (mkGS (g_owner a) (g_known a) (g_room a) al (g_op a))) by (apply gs_die; auto).
  assert (FR : forall room op, room = (length (n_free s') + reg s')%nat -> (forall u, u <> t -> op u = g_op a u) ->
    GS s' (mkGS (g_owner a) (g_known a) room al op)).
  { intros room op RM OP. constructor; simpl; auto.
    - apply (gsm_known _ _ S).
    - apply (gsm_owner _ _ S).
    - intros u AU. destruct (MA u AU) as [A1 A2]. rewrite OP by auto. rewrite (gsm_op _ _ S u A1). symmetry. apply gop_other; auto. apply (ni_pc _ _ I). }
  pose proof (gsm_room _ _ S) as RM. destruct (reg_case s) as [Z|(Z & c & A1 & C1)].
  - exists (mkGS (g_owner a) (g_known a) (g_room a) al (g_op a)). split; [apply g_one; auto|]. apply FR; auto.
    rewrite RM, Z. f_equal. unfold reg in *. simpl. destruct (new_of (n_pc s (n_guard s))); auto. unfold upd. destruct (n_guard s =? t); auto.
  - destruct (Z.eq_dec (n_guard s) t) as [E|E].
    + rewrite E in *. pose proof (ni_pc _ _ I t) as PC.
      assert (X : exists n k, c = NLock (Some n) k /\ g_op a t = GWaits c).
      { rewrite (gsm_op _ _ S t A1). destruct (n_pc s t); try discriminate; simpl in C1, PC; inversion C1; subst; destruct PC as (_ & (n & k & ->) & _);
          exists n; exists k; auto. }
      destruct X as (n & k & -> & GO).
      assert (U : g_known a (canon (Some n)) = false) by (apply (unknown_of s); auto; apply (ni_new _ _ I t _ A1 C1)).
      exists (mkGS (g_owner a) (g_known a) (length (n_free s)) al (upd (g_op a) t GIdle)). split.
      * change [VDie t] with ([VDie t] ++ []). econstructor; [exact D1|]. apply g_one.
        apply (gs_leak (mkGS (g_owner a) (g_known a) (g_room a) al (g_op a)) t n k); simpl; auto.
        -- unfold al. apply upd_eq.
        -- rewrite RM, Z. lia.
      * apply FR; auto using upd_g. simpl. unfold reg. simpl. rewrite E, C1, upd_eq. lia.
    + exists (mkGS (g_owner a) (g_known a) (g_room a) al (g_op a)). split; [apply g_one; auto|]. apply FR; auto.
      rewrite RM. f_equal. unfold reg. simpl. rewrite upd_neq by auto. auto.
Qed.

Lemma gs_start : forall U key val cnt, GS (n_init U key val cnt) (g_init (length U)).
Proof.
  intros U key val cnt. constructor; simpl; auto.
  - intro x. split; [discriminate | intros (e & [] & _)].
  - intros e [].
Qed.

Theorem simulation : forall U key val cnt s h, NoDup U -> n_history (n_init U key val cnt) (n_ok d) s h ->
  exists a, g_history (length U) a h /\ GS s a.
Proof.
  intros U key val cnt s h ND H. induction H as [|s l h H IH EN OK].
  - exists (g_init (length U)). split; [constructor | apply gs_start].
  - destruct IH as (a & HA & S). pose proof (ninv_reach d U key val cnt s h ND H) as I.
    assert (X : exists a', g_steps a (n_events s l) a' /\ GS (n_step s l) a').
    { destruct l as [t c|t b|t]; simpl in EN.
      - apply sim_call; tauto.
      - apply sim_run; tauto.
      - apply sim_die; auto. }
    destruct X as (a' & ST & S'). exists a'. split; auto. eapply g_history_steps; eauto.
Qed.
End Sim.
