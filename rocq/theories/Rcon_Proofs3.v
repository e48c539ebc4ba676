(** What each thread sees of a concurrent execution is a sequential execution. *)
From Verif Require Import Base Rcsv_Model Rcsv_Spec Rcsv_Proofs Rcsv_Proofs2 Rcsv_Props Rcon_Model Rcon_Spec Rcon_Proofs Rcon_Proofs2.
From Coq Require Import ZArith List Bool Lia.
Import ListNotations.
Open Scope Z_scope.

Section Own.
Variable own : Z -> Z.
Variable okc : st -> op -> Prop.
Variable okr : op -> bool -> Prop.
Hypothesis NC : forall s p, okc s p -> no_conversion s p.
Hypothesis AB : about_caller own okc.

Definition seq_ok (s : st) (p : op) (b : bool) (s' : st) : Prop := okc s p /\ okr p b.

Definition during (t : Z) (p : op) (q : prog) (S : cst) : Prop :=
  0 < t /\ own (target p) = t /\ local own t (target p) q /\
  (o_tid (s_obj (c_s S) (target p)) = t \/ exists b L, q = PRet b L) /\
  exists s0 answers, reach seq_ok s0 /\ allowed p s0 = true /\ okc s0 p /\
    forall l, exists s, call p (set_ans s0 (answers ++ l)) = exec q s /\ s_ans s = l /\ sees own t s S.

Record Inv (S : cst) : Prop := {
  i_wf : WF own (c_s S);
  i_mtx : s_mtx (c_s S) = match c_hold S with Some _ => true | None => false end;
  i_idle : forall t, c_thr S t = TIdle -> holds S t = false /\ exists s, reach seq_ok s /\ sees own t s S;
  i_run : forall t p q, c_thr S t = TRun p q -> during t p q S }.

Lemma seq_plain : forall s, reach seq_ok s -> reach plain s.
Proof. intros s. apply reach_weak. intros a p b d [H _]. unfold plain. auto. Qed.

Lemma act_inv : forall t o stk g k, local own t o (PAct stk g k) ->
  (forall s, keeps stk s (g s)) /\
  (forall s c, agree own t s c -> WF own c -> o_tid (s_obj c o) = t ->
     agree own t (g s) (g c) /\ k s = k c /\ WF own (g c) /\ frame own t c (g c) /\
     (o_tid (s_obj (g c) o) = t \/ exists b L, k c = PRet b L)) /\
  (forall s c, agree own t s c -> WF own c -> o_tid (s_obj c o) = t -> local own t o (k c)).
Proof. intros t o stk g k H. inversion H; subst. auto. Qed.
Lemma ulk_inv : forall t o k, local own t o (PUlk k) -> local own t o k.
Proof. intros t o k H. inversion H; subst. auto. Qed.

(** the race flag stays *)
Lemma race_stays : forall t o q, local own t o q -> forall s c, agree own t s c -> WF own c ->
  (o_tid (s_obj c o) = t \/ exists b L, q = PRet b L) -> s_race s = true -> s_race (reached (exec q s)) = true.
Proof.
  intros t o q H. induction H as [b L|k H IH|k H IH|L c0 k H IH|stk g k K H H1 IH]; intros s c A W T R.
  - exact R.
  - destruct T as [T|(b & L & E)]; [|discriminate E]. cbn [exec]. destruct (s_mtx s); [exact R|]. apply (IH (set_mtx s true) c); auto.
  - destruct T as [T|(b & L & E)]; [|discriminate E]. cbn [exec]. apply (IH (set_mtx (mark s) false) c); auto. cbn. rewrite R. reflexivity.
  - destruct T as [T|(b & L1 & E)]; [|discriminate E]. cbn [exec]. destruct (s_ans s) as [|a l]; [exact R|]. eapply IH with (c := c); auto.
  - destruct T as [T|(b & L & E)]; [|discriminate E]. cbn [exec].
    pose proof (proj2 (proj2 (proj2 (K s)))) as RK. rewrite R in RK. cbn in RK.
    destruct (H s c A W T) as (A1 & E & W1 & F & T1). rewrite E. apply (IH s c A W T _ (g c)); auto.
Qed.

Section During.
Variables (S : cst) (t : Z) (p : op).
Hypothesis I : Inv S.

(** nothing is accessed without the mutex *)
Lemma no_race : forall q s s0 answers l, reach seq_ok s0 -> okc s0 p ->
  call p (set_ans s0 (answers ++ l)) = exec q s -> s_race (reached (exec q s)) = false.
Proof.
  intros q s s0 answers l R O E. rewrite <- E. apply C90_race_partial; [now apply seq_plain|auto].
Qed.

Lemma at_act : forall g k, c_thr S t = TRun p (PAct true g k) -> c_hold S = Some t.
Proof.
  intros g k E. destruct (i_run S I t p _ E) as (P & O & Q & T & s0 & an & R & AL & OK & H).
  destruct (H []) as (s & C & AN & (A & LG & MX)). pose proof (no_race _ _ _ _ _ R OK C) as NR.
  destruct (s_mtx s) eqn:M.
  - unfold holds in MX. destruct (c_hold S) as [u|]; [|discriminate MX]. f_equal. symmetry in MX. now apply Z.eqb_eq.
  - exfalso. destruct T as [T|(b & L & X)]; [|discriminate X].
    destruct (act_inv _ _ _ _ _ Q) as (K & H0 & H1).
    destruct (H0 s (c_s S) A (i_wf S I) T) as (A1 & E1 & W1 & F & T1).
    cbn [exec] in NR. rewrite E1 in NR.
    rewrite (race_stays t (target p) (k (c_s S)) (H1 s (c_s S) A (i_wf S I) T) (g s) (g (c_s S))) in NR; auto; [discriminate NR|].
    rewrite (proj2 (proj2 (proj2 (K s)))), M. cbn. apply orb_true_r.
Qed.
Lemma at_ulk : forall k, c_thr S t = TRun p (PUlk k) -> c_hold S = Some t.
Proof.
  intros k E. destruct (i_run S I t p _ E) as (P & O & Q & T & s0 & an & R & AL & OK & H).
  destruct (H []) as (s & C & AN & (A & LG & MX)). pose proof (no_race _ _ _ _ _ R OK C) as NR.
  destruct (s_mtx s) eqn:M.
  - unfold holds in MX. destruct (c_hold S) as [u|]; [|discriminate MX]. f_equal. symmetry in MX. now apply Z.eqb_eq.
  - exfalso. destruct T as [T|(b & L & X)]; [|discriminate X].
    pose proof (ulk_inv _ _ _ Q) as H0. cbn [exec] in NR.
    rewrite (race_stays t (target p) k H0 (set_mtx (mark s) false) (c_s S)) in NR; auto; [discriminate NR|apply I|].
    cbn. rewrite M. apply orb_true_r.
Qed.
Lemma at_shm : forall L c k, c_thr S t = TRun p (PShm L c k) -> holds S t = false.
Proof.
  intros L c k E. destruct (i_run S I t p _ E) as (P & O & Q & T & s0 & an & R & AL & OK & H).
  destruct (H []) as (s & C & AN & (A & LG & MX)). rewrite <- MX.
  pose proof (C91_mutex_free seq_ok s0 p (an ++ []) R) as F. rewrite C in F. cbn [exec] in F. now rewrite AN in F.
Qed.
Lemma at_ret : forall b L, c_thr S t = TRun p (PRet b L) -> holds S t = false.
Proof.
  intros b L E. destruct (i_run S I t p _ E) as (P & O & Q & T & s0 & an & R & AL & OK & H).
  destruct (H []) as (s & C & AN & (A & LG & MX)). rewrite <- MX.
  pose proof (C91_mutex_free seq_ok s0 p (an ++ []) R) as F. rewrite C in F. exact F.
Qed.
End During.

(** ** The steps of other threads *)
Lemma agree_other : forall t u s c c', u <> t -> frame own t c c' -> agree own u s c -> agree own u s c'.
Proof.
  intros t u s c c' N [F1 F2] (A & D & K). split; [|split].
  - intros x X. rewrite F1 by congruence. auto.
  - exact D.
  - rewrite F2 by auto. exact K.
Qed.
Lemma sees_other : forall t u s S S', u <> t -> frame own t (c_s S) (c_s S') ->
  log_of u (c_log S') = log_of u (c_log S) -> holds S' u = holds S u -> sees own u s S -> sees own u s S'.
Proof.
  intros t u s S S' N F L H (A & LG & M). split; [eapply agree_other; eauto|]. split; congruence.
Qed.
Lemma during_other : forall t u p q S S', u <> t -> frame own t (c_s S) (c_s S') ->
  log_of u (c_log S') = log_of u (c_log S) -> holds S' u = holds S u -> during u p q S -> during u p q S'.
Proof.
  intros t u p q S S' N F L H (P & O & Q & T & s0 & an & R & AL & OK & X).
  split; [exact P|]. split; [exact O|]. split; [exact Q|]. split.
  - destruct T as [T|T]; [left|right; exact T]. rewrite (proj1 F) by congruence. exact T.
  - exists s0, an. split; [exact R|]. split; [exact AL|]. split; [exact OK|]. intros l. destruct (X l) as (s & E & A & SE).
    exists s. split; [exact E|]. split; [exact A|]. eapply sees_other; eauto.
Qed.

(** a step of [t] *)
Lemma inv_step : forall S S' t, Inv S -> WF own (c_s S') ->
  s_mtx (c_s S') = match c_hold S' with Some _ => true | None => false end ->
  frame own t (c_s S) (c_s S') ->
  (forall u, u <> t -> c_thr S' u = c_thr S u /\ log_of u (c_log S') = log_of u (c_log S) /\ holds S' u = holds S u) ->
  (c_thr S' t = TIdle -> holds S' t = false /\ exists s, reach seq_ok s /\ sees own t s S') ->
  (forall p q, c_thr S' t = TRun p q -> during t p q S') -> Inv S'.
Proof.
  intros S S' t I W M F U HI HR. constructor; [exact W|exact M| |].
  - intros u E. destruct (Z.eq_dec u t) as [->|N]; [auto|]. destruct (U u N) as (U1 & U2 & U3). rewrite U1 in E.
    destruct (i_idle S I u E) as (H1 & s & R & SE). split; [congruence|]. exists s. split; [exact R|]. eapply sees_other; eauto.
  - intros u p q E. destruct (Z.eq_dec u t) as [->|N]; [auto|]. destruct (U u N) as (U1 & U2 & U3). rewrite U1 in E.
    eapply during_other; eauto. now apply (i_run S I).
Qed.

Lemma log_cons : forall u t x l, log_of u ((t, x) :: l) = if t =? u then x :: log_of u l else log_of u l.
Proof. intros u t x l. unfold log_of. cbn. destruct (t =? u); reflexivity. Qed.

Lemma inv_call : forall S t p S', Inv S -> owned own t p -> okc (c_s S) p -> c_step S (KCall t p) = Some S' -> Inv S'.
Proof.
  intros S t p S' I (P & O & TI) OK E. cbn in E. destruct (c_thr S t) eqn:TH; try discriminate E.
  destruct (allowed p (c_s S)) eqn:AL; [|discriminate E]. injection E as <-.
  destruct (i_idle S I t TH) as (HF & s & R & (A & LG & MX)).
  assert (AP : agree own t (pre p s) (pre p (c_s S))).
  { destruct p; try exact A.
    - apply (agree_on own t s (c_s S) o (fun _ => mkO true tid fd off len UNL false false [] None) (fun _ => mkO true tid fd off len UNL false false [] None)); auto.
    - apply (agree_on own t s (c_s S) o (fun _ => mkO true tid fd off len (ty read) false false [] None) (fun _ => mkO true tid fd off len (ty read) false false [] None)); auto. }
  assert (WP : WF own (pre p (c_s S))).
  { destruct p; try apply (i_wf S I); cbn in TI, O.
    - apply (WF_on own (c_s S) o (fun _ => mkO true tid fd off len UNL false false [] None)); [apply I|].
      split; [left; cbn; congruence|]. split; [discriminate|intros y []].
    - apply (WF_on own (c_s S) o (fun _ => mkO true tid fd off len (ty read) false false [] None)); [apply I|].
      split; [left; cbn; congruence|]. split; [discriminate|intros y []]. }
  assert (TP : o_tid (s_obj (pre p (c_s S)) (target p)) = t).
  { assert (X : makes p = false -> o_tid (s_obj (c_s S) (target p)) = t).
    { intros X. unfold allowed in AL. rewrite X in AL. destruct (i_wf S I (target p)) as [[Y|[_ Y]] _]; [congruence|rewrite Y in AL; discriminate AL]. }
    destruct p; auto; cbn [pre set_obj s_obj target]; rewrite upd_eq; exact TI. }
  assert (FP : frame own t (c_s S) (pre p (c_s S))).
  { destruct p; try apply frame_refl.
    - apply (frame_on own t (c_s S) o (fun _ => mkO true tid fd off len UNL false false [] None) O).
    - apply (frame_on own t (c_s S) o (fun _ => mkO true tid fd off len (ty read) false false [] None) O). }
  apply (inv_step S _ t I).
  - exact WP.
  - cbn [c_s c_hold]. rewrite <- (i_mtx S I). destruct p; reflexivity.
  - exact FP.
  - intros u N. cbn [c_thr c_log]. rewrite upd_neq by auto. auto.
  - cbn [c_thr]. rewrite upd_eq. discriminate.
  - cbn [c_thr]. rewrite upd_eq. intros p0 q E. injection E as <- <-.
    split; [exact P|]. split; [exact O|]. split; [now apply local_prog|]. split; [left; exact TP|].
    exists s, []. split; [exact R|]. split; [|split].
    + unfold allowed in *. rewrite (proj1 A _ O). exact AL.
    + eapply AB; eauto.
    + intros l. exists (pre p (set_ans s l)). cbn [app]. split; [|split].
      * symmetry. apply exec_call. cbn. congruence.
      * destruct p; reflexivity.
      * split; [destruct p; exact AP|]. cbn [c_log]. split; [rewrite <- LG; destruct p; reflexivity|].
        change (holds _ t) with (holds S t). rewrite <- MX. destruct p; reflexivity.
Qed.

Lemma holds_some : forall S t, c_hold S = Some t -> holds S t = true.
Proof. intros S t E. unfold holds. rewrite E. apply Z.eqb_refl. Qed.

Lemma inv_own_step : forall S t S', Inv S -> (forall p b L, c_thr S t = TRun p (PRet b L) -> okr p b) ->
  c_step S (KStep t) = Some S' -> Inv S'.
Proof.
  intros S t S' I OKR E. cbn in E. destruct (c_thr S t) as [|p q|] eqn:TH; try discriminate E.
  pose proof (i_run S I t p q TH) as (P & O & Q & T & s0 & an & R & AL & OK & H).
  destruct q as [b L|stk g k|k|k|L c k]; try discriminate E.
  - (* return *)
    injection E as <-. apply (inv_step S _ t I).
    + apply I.
    + apply I.
    + apply frame_refl.
    + intros u N. cbn [c_thr c_log]. rewrite upd_neq by auto. auto.
    + intros _. split; [exact (at_ret S t p I b L TH)|]. destruct (H []) as (s & C & AN & SE). exists s. split; [|exact SE].
      apply (reach_call seq_ok s0 p (an ++ []) b L s R AL C). split; [exact OK|]. apply (OKR p b L). reflexivity.
    + cbn [c_thr]. rewrite upd_eq. discriminate.
  - (* access *)
    injection E as <-. inversion Q as [| | | |stk0 g0 k0 K H0 H1]; subst.
    assert (TT : o_tid (s_obj (c_s S) (target p)) = own (target p)) by (destruct T as [T|(b & L & X)]; [exact T|discriminate X]).
    assert (X : WF own (g (c_s S)) /\ frame own (own (target p)) (c_s S) (g (c_s S)) /\
      (o_tid (s_obj (g (c_s S)) (target p)) = own (target p) \/ (exists b L, k (c_s S) = PRet b L)) /\ local own (own (target p)) (target p) (k (c_s S))).
    { destruct (H []) as (s & C & AN & (A & LG & MX)). destruct (H0 s (c_s S) A (i_wf S I) TT) as (A1 & E1 & W1 & F1 & T1).
      split; [exact W1|]. split; [exact F1|]. split; [exact T1|]. exact (H1 s (c_s S) A (i_wf S I) TT). }
    destruct X as (W1 & F1 & T1 & L1). apply (inv_step S _ (own (target p)) I).
    + exact W1.
    + cbn [c_s c_hold]. rewrite (proj1 (K (c_s S))). apply I.
    + exact F1.
    + intros u N. cbn [c_thr c_log]. rewrite upd_neq by auto. auto.
    + cbn [c_thr]. rewrite upd_eq. discriminate.
    + cbn [c_thr]. rewrite upd_eq. intros p0 q E. injection E as <- <-.
      split; [exact P|]. split; [reflexivity|]. split; [exact L1|]. split; [exact T1|].
      exists s0, an. split; [exact R|]. split; [exact AL|]. split; [exact OK|]. intros l.
      destruct (H l) as (s & C & AN & (A & LG & MX)). destruct (H0 s (c_s S) A (i_wf S I) TT) as (A1 & E1 & _).
      destruct (K s) as (K1 & K2 & K3 & K4).
      exists (g s). split; [rewrite C; cbn [exec]; now rewrite E1|]. split; [congruence|].
      split; [exact A1|]. cbn [c_log]. split; [congruence|]. change (s_mtx (g s) = holds S (own (target p))). congruence.
  - (* lock *)
    destruct (s_mtx (c_s S)) eqn:MC; [injection E as <-; exact I|]. injection E as <-.
    inversion Q as [|k0 Q0| | |]; subst. assert (HN : c_hold S = None).
    { pose proof (i_mtx S I) as X. rewrite MC in X. destruct (c_hold S); [discriminate X|reflexivity]. }
    apply (inv_step S _ (own (target p)) I).
    + apply I.
    + reflexivity.
    + split; reflexivity.
    + intros u N. cbn [c_thr c_log]. rewrite upd_neq by auto. split; [reflexivity|]. split; [reflexivity|].
      unfold holds. cbn [c_hold]. rewrite HN. apply Z.eqb_neq. congruence.
    + cbn [c_thr]. rewrite upd_eq. discriminate.
    + cbn [c_thr]. rewrite upd_eq. intros p0 q E. injection E as <- <-.
      split; [exact P|]. split; [reflexivity|]. split; [exact Q0|]. split; [left; destruct T as [T|(b & L & X)]; [exact T|discriminate X]|].
      exists s0, an. split; [exact R|]. split; [exact AL|]. split; [exact OK|]. intros l.
      destruct (H l) as (s & C & AN & (A & LG & MX)). assert (M : s_mtx s = false) by (rewrite MX; unfold holds; now rewrite HN).
      exists (set_mtx s true). split; [rewrite C; cbn [exec]; now rewrite M|]. split; [exact AN|]. split; [exact A|]. split; [exact LG|].
      symmetry. apply holds_some. reflexivity.
  - (* unlock *)
    injection E as <-. inversion Q as [| |k0 Q0| |]; subst. pose proof (at_ulk S _ p I k TH) as HS.
    apply (inv_step S _ (own (target p)) I).
    + apply I.
    + reflexivity.
    + split; reflexivity.
    + intros u N. cbn [c_thr c_log]. rewrite upd_neq by auto. split; [reflexivity|]. split; [reflexivity|].
      unfold holds. cbn [c_hold]. rewrite HS. symmetry. apply Z.eqb_neq. congruence.
    + cbn [c_thr]. rewrite upd_eq. discriminate.
    + cbn [c_thr]. rewrite upd_eq. intros p0 q E. injection E as <- <-.
      split; [exact P|]. split; [reflexivity|]. split; [exact Q0|]. split; [left; destruct T as [T|(b & L & X)]; [exact T|discriminate X]|].
      exists s0, an. split; [exact R|]. split; [exact AL|]. split; [exact OK|]. intros l.
      destruct (H l) as (s & C & AN & (A & LG & MX)).
      exists (set_mtx (mark s) false). split; [exact C|]. split; [exact AN|]. split; [exact A|]. split; [exact LG|]. reflexivity.
Qed.

Lemma inv_ans : forall S t a S', Inv S -> c_step S (KAns t a) = Some S' -> Inv S'.
Proof.
  intros S t a S' I E. cbn in E. destruct (c_thr S t) as [|p q|] eqn:TH; try discriminate E.
  destruct q as [b L|stk g k|k|k|L c k]; try discriminate E. injection E as <-.
  pose proof (i_run S I t p _ TH) as (P & O & Q & T & s0 & an & R & AL & OK & H).
  inversion Q as [| | |L0 c0 k0 Q0|]; subst. apply (inv_step S _ (own (target p)) I).
  - apply I.
  - apply I.
  - apply frame_refl.
  - intros u N. cbn [c_thr c_log]. rewrite upd_neq by auto. rewrite log_cons, (proj2 (Z.eqb_neq _ _)) by congruence. auto.
  - cbn [c_thr]. rewrite upd_eq. discriminate.
  - cbn [c_thr]. rewrite upd_eq. intros p0 q E. injection E as <- <-.
    split; [exact P|]. split; [reflexivity|]. split; [apply Q0|]. split; [left; destruct T as [T|(b & L1 & X)]; [exact T|discriminate X]|].
    exists s0, (an ++ [a]). split; [exact R|]. split; [exact AL|]. split; [exact OK|]. intros l.
    destruct (H (a :: l)) as (s & C & AN & (A & LG & MX)).
    exists (mkS (s_obj s) (s_stack s) (s_mtx s) (s_race s) ((c, a) :: s_log s) l).
    split; [rewrite <- app_assoc; cbn [app]; rewrite C; cbn [exec]; now rewrite AN|]. split; [reflexivity|]. split; [exact A|].
    cbn [c_log]. rewrite log_cons, Z.eqb_refl. split; [cbn; congruence|exact MX].
Qed.

Lemma inv_fork : forall S t S', Inv S -> c_step S (KFork t) = Some S' -> Inv S'.
Proof.
  intros S t S' I E. cbn in E. destruct (c_thr S t) eqn:TH; try discriminate E. injection E as <-. constructor.
  - apply I.
  - apply I.
  - cbn [c_thr]. intros u E. destruct (c_thr S u) eqn:U; try discriminate E. exact (i_idle S I u U).
  - cbn [c_thr]. intros u p q E. destruct (c_thr S u); discriminate E.
Qed.

Lemma inv_reach : forall S, c_reach (usage own okc okr) S -> Inv S.
Proof.
  intros S H. induction H as [|S1 l S2 H IH OK E].
  - constructor.
    + intros x. split; [right; split; reflexivity|]. split; [discriminate|intros y []].
    + reflexivity.
    + intros t _. split; [reflexivity|]. exists init_s. split; [constructor|]. split; [|split; reflexivity].
      split; [reflexivity|]. split; reflexivity.
    + discriminate.
  - destruct l as [t p|t|t a|t].
    + destruct OK as [O1 O2]. eapply inv_call; eauto.
    + eapply inv_own_step; eauto. intros p b L TH. cbn in OK. now rewrite TH in OK.
    + eapply inv_ans; eauto.
    + eapply inv_fork; eauto.
Qed.
End Own.
