(** The holder of the stack mutex goes on; calls that run alone return. *)
From Verif Require Import Base Rcsv_Model Rcsv_Spec Rcsv_Proofs Rcsv_Proofs2 Rcsv_Props Rcon_Model Rcon_Spec Rcon_Proofs Rcon_Proofs2 Rcon_Proofs3.
From Coq Require Import ZArith List Bool Lia.
Import ListNotations.
Open Scope Z_scope.

Lemma about_nc : forall own, about_caller own no_conversion.
Proof.
  intros own t s c p A O H. destruct p; cbn in *; auto; unfold locked, kind in *; rewrite (proj1 A) by exact O; exact H.
Qed.

(** ** The holder *)
Lemma holder_releases : forall own (okc : st -> op -> Prop) (okr : op -> bool -> Prop), (forall s p, okc s p -> no_conversion s p) -> about_caller own okc ->
  forall t o q, local own t o q -> forall S p, target p = o -> Inv own okc okr S ->
  c_thr S t = TRun p q -> c_hold S = Some t -> ~ write_refused (log_of t (c_log S)) ->
  exists n S', runs n t S = Some S' /\ c_hold S' = None.
Proof.
  intros own okc okr NC AB t o q H. induction H as [b L|k H IH|k H IH|L c0 k H IH|stk g k K H H1 IH]; intros S p TG I TH HD NW.
  - pose proof (at_ret own okc okr S t p I b L TH) as X. rewrite (holds_some S t HD) in X. discriminate X.
  - exfalso. destruct (i_run own okc okr S I t p _ TH) as (P & O & Q & T & s0 & an & R & AL & OK & X).
    destruct (X []) as (s & C & AN & (A & LG & MX)). rewrite (holds_some S t HD) in MX. cbn [exec] in C. rewrite MX in C.
    apply NW. rewrite <- LG. exact (C88_stuck_partial _ _ _ _ _ R C).
  - exists 1%nat. cbn [runs c_step]. rewrite TH. eexists. split; [reflexivity|reflexivity].
  - pose proof (at_shm own okc okr S t p I L c0 k TH) as X. rewrite (holds_some S t HD) in X. discriminate X.
  - set (S1 := mkC (g (c_s S)) (c_hold S) (upd (c_thr S) t (TRun p (k (c_s S)))) (c_log S)).
    assert (E : c_step S (KStep t) = Some S1) by (cbn; rewrite TH; reflexivity).
    assert (I1 : Inv own okc okr S1) by (apply (inv_own_step own okc okr NC S t S1 I); [intros; congruence|exact E]).
    destruct (i_run own okc okr S I t p _ TH) as (P & O & Q & T & s0 & an & R & AL & OK & X).
    destruct (X []) as (s & C & AN & (A & LG & MX)).
    assert (TT : o_tid (s_obj (c_s S) o) = t) by (rewrite <- TG; destruct T as [T|(b & L & Y)]; [exact T|discriminate Y]).
    destruct (IH s (c_s S) A (i_wf own okc okr S I) TT S1 p TG I1) as (n & S2 & RN & HN).
    + unfold S1. cbn [c_thr]. apply upd_eq.
    + exact HD.
    + exact NW.
    + exists (Datatypes.S n), S2. split; [|exact HN]. cbn [runs]. rewrite E. exact RN.
Qed.

(** a holder that spins or is gone never releases *)
Definition lost (S : cst) (u : Z) : Prop :=
  c_hold S = Some u /\ (c_thr S u = TGone \/ exists p k, c_thr S u = TRun p (PLck k)).
Lemma lost_stays : forall own (okc : st -> op -> Prop) (okr : op -> bool -> Prop), (forall s p, okc s p -> no_conversion s p) -> about_caller own okc ->
  forall S S' u, c_reach (usage own okc okr) S -> lost S u -> csteps (usage own okc okr) S S' -> lost S' u /\ c_reach (usage own okc okr) S'.
Proof.
  intros own okc okr NC AB S S' u R LO H. induction H as [|S1 l S2 H IH OK E]; [auto|].
  destruct IH as [[HD TU] R1]. pose proof (inv_reach own okc okr NC AB S1 R1) as I.
  split; [|exact (csteps_next _ _ _ _ _ R1 OK E)].
  assert (MT : s_mtx (c_s S1) = true) by (rewrite (i_mtx own okc okr S1 I), HD; reflexivity).
  assert (U : forall t f hd lg s, u <> t -> hd = c_hold S1 -> lost (mkC s hd (upd (c_thr S1) t f) lg) u).
  { intros t f hd lg s N ->. split; [exact HD|]. cbn [c_thr]. rewrite upd_neq by auto. exact TU. }
  destruct l as [t p|t|t a|t]; cbn in E.
  - destruct (c_thr S1 t) eqn:TH; try discriminate E. destruct (allowed p (c_s S1)); [|discriminate E]. injection E as <-.
    apply U; [|reflexivity]. intros ->. destruct TU as [X|(q & k & X)]; congruence.
  - destruct (c_thr S1 t) as [|p q|] eqn:TH; try discriminate E.
    destruct q as [b L|stk g k|k|k|L c k]; try discriminate E.
    + injection E as <-. apply U; [|reflexivity]. intros ->. destruct TU as [X|(q & k & X)]; congruence.
    + injection E as <-. apply U; [|reflexivity]. intros ->. destruct TU as [X|(q & k' & X)]; congruence.
    + rewrite MT in E. injection E as <-. now split.
    + exfalso. pose proof (at_ulk own okc okr NC S1 t p I k TH) as X.
      assert (t = u) by congruence. subst t. destruct TU as [Y|(q & k' & Y)]; congruence.
  - destruct (c_thr S1 t) as [|p q|] eqn:TH; try discriminate E.
    destruct q as [b L|stk g k|k|k|L c k]; try discriminate E. injection E as <-.
    apply U; [|reflexivity]. intros ->. destruct TU as [X|(q & k' & X)]; congruence.
  - destruct (c_thr S1 t) eqn:TH; try discriminate E. injection E as <-. split; [exact HD|]. left. cbn [c_thr].
    destruct TU as [X|(q & k & X)]; rewrite X; reflexivity.
Qed.

(** ** Calls that run alone *)
Inductive calm : bool -> prog -> Prop :=
| calm_ret : forall b L, calm false (PRet b L)
| calm_lck : forall k, calm true k -> calm false (PLck k)
| calm_ulk : forall k, calm false k -> calm true (PUlk k)
| calm_shm : forall L c k, (forall a, (match c with SWrite _ _ _ _ => a = 0 | _ => True end) -> calm false (k a)) -> calm false (PShm L c k)
| calm_act : forall m stk g k, (forall s, s_mtx (g s) = s_mtx s) -> (forall s, calm m (k s)) -> calm m (PAct stk g k).

Lemma calm_plock : forall L k, calm true (k true) -> calm L (plock L k).
Proof. intros [] k H; [exact H|now constructor]. Qed.
Lemma calm_pulk : forall L k, calm false (k false) -> calm L (pulk L k).
Proof. intros [] k H; [now constructor|exact H]. Qed.
Lemma keeps_mtx : forall stk s s', keeps stk s s' -> s_mtx s' = s_mtx s.
Proof. intros stk s s' H. apply H. Qed.

Lemma calm_unlock : forall o L k, (forall b L, calm L (k b L)) -> calm L (pRawUnlock o L k).
Proof.
  intros o L k K. unfold pRawUnlock. constructor; [reflexivity|]. intros s. destruct (_ || _); [apply K|]. apply calm_plock.
  constructor; [reflexivity|]. intros s1. destruct (o_master _).
  - constructor; [reflexivity|]. intros _. apply K.
  - constructor; [intros s2; exact (keeps_mtx true _ _ (keeps_off o s2))|]. intros s2. destruct (o_pend _); [|apply K]. destruct (o_has _); [|apply K].
    apply calm_pulk. constructor. intros a _. destruct (a =? 0).
    + constructor; [reflexivity|]. intros _. apply K.
    + apply calm_plock. constructor; [reflexivity|]. intros _. apply K.
Qed.
Lemma calm_unlock_if : forall b o L k, (forall b L, calm L (k b L)) -> calm L (punlock_if b o L k).
Proof. intros [] o L k K; [now apply calm_unlock|apply K]. Qed.
Lemma calm_read : forall o L k, (forall b L, calm L (k b L)) -> calm L (pRawReadLock o L k).
Proof.
  intros o L k K. unfold pRawReadLock. constructor; [reflexivity|]. intros s. cbv zeta.
  destruct (_ && _); [apply K|]. destruct (_ && _); [apply K|]. apply calm_plock, calm_unlock_if. intros [] L1; cbn [negb]; [|apply K].
  constructor; [intros s2; exact (keeps_mtx true _ _ (keeps_look_read o s2))|]. intros s2. destruct (first_match _ _ _); [apply K|].
  apply calm_pulk. constructor. intros a _. destruct (a =? 0).
  - constructor; [reflexivity|]. intros _. apply K.
  - apply calm_plock. constructor; [reflexivity|]. intros _. apply K.
Qed.
Lemma calm_take : forall o rs k, calm false (k false) -> calm false (ptake o rs false k).
Proof.
  intros o rs k K. induction rs as [|i r IH]; [exact K|]. cbn [ptake]. constructor; [reflexivity|]. intros s.
  assert (N : calm false (PAct false (pend_reader o i) (fun _ => ptake o r false k))).
  { constructor; [intros s1; exact (keeps_mtx false _ _ (keeps_pend_reader o i s1))|auto]. }
  destruct (_ && _); [|exact N]. constructor. auto.
Qed.
Lemma calm_write : forall o L k, (forall b L, calm L (k b L)) -> calm L (pRawWriteLock o L k).
Proof.
  intros o L k K. unfold pRawWriteLock. constructor; [reflexivity|]. intros s. cbv zeta.
  destruct (_ && _); [apply K|]. destruct (_ && _ && _); [constructor; [reflexivity|]; intros _; apply K|].
  apply calm_plock, calm_unlock_if. intros [] L1; cbn [negb]; [|apply K].
  constructor; [intros s2; exact (keeps_mtx true _ _ (keeps_look_write o s2))|]. intros s2. destruct (look o s2) as [[rs ks] w].
  destruct w; [apply K|]. apply calm_pulk, calm_take. constructor; [reflexivity|]. intros s3. constructor. intros a ->. cbn.
  constructor; [reflexivity|]. intros _. apply K.
Qed.
Lemma calm_fin : forall b L, calm L (pfin b L).
Proof. intros b L. apply calm_pulk. constructor. Qed.
Lemma calm_prog : forall p, calm false (prog_of p).
Proof.
  assert (RL : forall o rd L, calm L (pRawLock o rd L pfin)).
  { intros o [] L; [apply calm_read|apply calm_write]; apply calm_fin. }
  intros p. destruct p; cbn [prog_of].
  - constructor.
  - destruct (_ =? _); [constructor|apply RL].
  - apply calm_unlock. intros b L. apply calm_pulk. constructor; [reflexivity|]. intros _. constructor.
  - apply calm_unlock. intros [] L; cbn [negb]; [|apply calm_fin]. constructor; [reflexivity|]. intros _. apply RL.
  - apply RL.
  - constructor; [reflexivity|]. intros s. destruct (o_type _); [constructor|apply calm_read|apply calm_write]; apply calm_fin.
  - apply calm_read, calm_fin.
  - apply calm_write, calm_fin.
  - apply calm_unlock, calm_fin.
Qed.

Lemma calm_alone : forall ans m q, grants_writes ans -> calm m q -> forall S t p, s_mtx (c_s S) = m -> c_thr S t = TRun p q ->
  exists n, c_thr (alone ans n t S) t = TIdle /\ s_mtx (c_s (alone ans n t S)) = false.
Proof.
  intros ans m q G H. induction H as [b L|k H IH|k H IH|L c k H IH|m stk g k K H IH]; intros S t p M TH.
  - exists 1%nat. cbn [alone c_step]. rewrite TH. cbn [c_thr c_s]. rewrite upd_eq. auto.
  - destruct (IH (mkC (set_mtx (c_s S) true) (Some t) (upd (c_thr S) t (TRun p k)) (c_log S)) t p) as (n & N); [reflexivity|apply upd_eq|].
    exists (Datatypes.S n). cbn [alone c_step]. rewrite TH, M. exact N.
  - destruct (IH (mkC (set_mtx (c_s S) false) None (upd (c_thr S) t (TRun p k)) (c_log S)) t p) as (n & N); [reflexivity|apply upd_eq|].
    exists (Datatypes.S n). cbn [alone c_step]. rewrite TH. exact N.
  - assert (A : match c with SWrite _ _ _ _ => ans S c = 0 | _ => True end) by (destruct c; auto).
    destruct (IH (ans S c) A (mkC (c_s S) (c_hold S) (upd (c_thr S) t (TRun p (k (ans S c)))) ((t, (c, ans S c)) :: c_log S)) t p) as (n & N);
      [exact M|apply upd_eq|].
    exists (Datatypes.S n). cbn [alone c_step]. rewrite TH. exact N.
  - destruct (IH (c_s S) (mkC (g (c_s S)) (c_hold S) (upd (c_thr S) t (TRun p (k (c_s S)))) (c_log S)) t p) as (n & N);
      [cbn [c_s]; now rewrite K|apply upd_eq|].
    exists (Datatypes.S n). cbn [alone c_step]. rewrite TH. exact N.
Qed.
