(** Static objects: what is registered, and in which order. *)
From Coq Require Import List Bool Arith Lia.
From Verif Require Import Base Stat_Model Stat_Spec.
Import ListNotations.

Lemma sid_eqb_spec : forall x y, reflect (x = y) (sid_eqb x y).
Proof.
  intros x y. destruct x, y; cbn; try (constructor; congruence). destruct (Nat.eqb_spec i i0) as [->|N]; constructor; congruence.
Qed.
Lemma setf_eq : forall f x b, setf f x b x = b.
Proof. intros f x b. unfold setf. destruct (sid_eqb_spec x x); congruence. Qed.
Lemma setf_neq : forall f x b y, y <> x -> setf f x b y = f y.
Proof. intros f x b y N. unfold setf. destruct (sid_eqb_spec y x); congruence. Qed.
Lemma setn_eq : forall A (f : nat -> A) i b, setn f i b i = b.
Proof. intros A f i b. unfold setn. rewrite Nat.eqb_refl. auto. Qed.
Lemma setn_neq : forall A (f : nat -> A) i b j, j <> i -> setn f i b j = f j.
Proof. intros A f i b j N. unfold setn. destruct (Nat.eqb_spec j i); congruence. Qed.

Definition is_user (x : sid) : Prop := match x with User _ => True | _ => False end.

(** the list of registered objects is what is built and not destroyed *)
Record cons (s : lstate) : Prop := mkC {
  k_in : forall x, In x (l_done s) <-> l_built s x = true /\ l_dead s x = false;
  k_nodup : NoDup (l_done s);
  k_dead : forall x, l_dead s x = true -> l_built s x = true
}.

(** a step that only builds objects of the library; the program's objects, the deaths and the faults of the caller are as before *)
Record grows (s s' : lstate) : Prop := mkGr {
  g_done : exists l, l_done s' = l ++ l_done s /\ (forall x, In x l -> ~ is_user x);
  g_dead : l_dead s' = l_dead s;
  g_kind : l_kind s' = l_kind s;
  g_lock : l_lock s' = l_lock s;
  g_held : l_held s' = l_held s;
  g_exit : l_exit s' = l_exit s;
  g_bad : l_bad s' = l_bad s;
  g_user : forall i, l_built s' (User i) = l_built s (User i);
  g_built : forall x, l_built s x = true -> l_built s' x = true;
  g_in : forall x, In x (l_done s) -> In x (l_done s')
}.
Lemma grows_refl : forall s, grows s s.
Proof. intro s. constructor; auto. exists []. split; auto. Qed.
Lemma grows_trans : forall a b c, grows a b -> grows b c -> grows a c.
Proof.
  intros a b c [(l1 & A1 & A2) B1 B2 B3 B4 B5 B6 B7 B8 B9] [(l2 & A3 & A4) C1 C2 C3 C4 C5 C6 C7 C8 C9]. constructor; auto; try congruence; try (intro i; rewrite C7; auto; fail).
  exists (l2 ++ l1). split; [rewrite A3, A1; apply app_assoc|]. intros x X. apply in_app_or in X as [X|X]; auto.
Qed.

Lemma build_ok : forall s x, cons s -> ~ is_user x -> cons (l_build x s) /\ grows s (l_build x s) /\ l_built (l_build x s) x = true /\
  l_att (l_build x s) = l_att s /\ l_work (l_build x s) = l_work s /\ l_badw (l_build x s) = l_badw s.
Proof.
  intros s x [C1 C2 C3] U. unfold l_build. destruct (l_built s x) eqn:B.
  - split; [constructor; auto|]. split; [apply grows_refl|]. auto.
  - assert (D : l_dead s x = false) by (destruct (l_dead s x) eqn:D; auto; apply C3 in D; congruence). split; [constructor; cbn|split; [|split; [apply setf_eq | auto]]].
    + intro y. destruct (sid_eqb_spec y x) as [->|N].
      * rewrite setf_eq. split; auto.
      * rewrite setf_neq by auto. split; [intros [E|E]; [congruence | apply C1; auto] | intro E; right; apply C1; auto].
    + constructor; auto. intro X. apply C1 in X. destruct X; congruence.
    + intros y Y. destruct (sid_eqb_spec y x) as [->|N]; [apply setf_eq | rewrite setf_neq by auto; auto].
    + constructor; cbn; auto.
      * exists [x]. split; auto. intros y [<-|[]]. auto.
      * intro i. apply setf_neq. intros <-. apply U. exact I.
      * intros y Y. destruct (sid_eqb_spec y x) as [->|N]; [apply setf_eq | rewrite setf_neq by auto; auto].
Qed.

Lemma use_ok : forall s x, cons s -> ~ is_user x -> l_dead s x = false -> cons (l_use x s) /\ grows s (l_use x s) /\ In x (l_done (l_use x s)) /\
  l_att (l_use x s) = l_att s /\ l_work (l_use x s) = l_work s /\ l_badw (l_use x s) = l_badw s.
Proof.
  intros s x C U D. unfold l_use. rewrite D. destruct (build_ok s x C U) as (A & B & E & F & G & H).
  split; auto. split; auto. split; auto. apply (k_in _ A). split; auto. rewrite (g_dead _ _ B). auto.
Qed.
Lemma use_same : forall s x, cons s -> In x (l_done s) -> l_use x s = s.
Proof. intros s x C I. apply (k_in s C) in I as [B D]. unfold l_use, l_build. rewrite D, B. auto. Qed.

Lemma started_ok : forall s a w, cons s -> cons (l_started a w s) /\ grows s (l_started a w s).
Proof.
  intros s a w [C1 C2 C3]. split; [constructor; auto|]. constructor; auto. exists []. split; auto.
Qed.
Lemma pass_ok : forall s, cons s -> cons (l_pass s) /\ grows s (l_pass s) /\ l_att (l_pass s) = l_att s /\ l_work (l_pass s) = l_work s.
Proof.
  intros s C. unfold l_pass. destruct (l_dead s Tids).
  - destruct C as [C1 C2 C3]. split; [constructor; auto|]. split; auto. constructor; auto. exists []. split; auto.
  - destruct (build_ok s Tids C) as (A & B & _ & D & E & _); auto.
Qed.

(** the helper: building it *)
Lemma shm_ok : forall cf o s, cons s -> l_built s Helper = true \/ l_dead s Debug = false ->
  cons (l_shm cf o s) /\ grows s (l_shm cf o s) /\ l_built (l_shm cf o s) Helper = true /\
  (l_built s Helper = false -> l_att (l_shm cf o s) = c_auto cf && o_init o /\ l_work (l_shm cf o s) = c_auto cf && o_init o && o_worker o).
Proof.
  intros cf o s C K. unfold l_shm. destruct (l_built s Helper) eqn:B.
  - split; auto. split; [apply grows_refl|]. split; auto. discriminate.
  - assert (D : l_dead s Debug = false) by (destruct K; congruence). destruct (use_ok s Debug C) as (C1 & G1 & _); auto.
    set (on := c_auto cf && o_init o). destruct (started_ok (l_use Debug s) on (on && o_worker o) C1) as (C2 & G2).
    set (s2 := l_started on (on && o_worker o) (l_use Debug s)) in *.
    cbv zeta. destruct (build_ok s2 Helper C2) as (C4 & G4 & B4 & A4 & W4 & _); auto.
    split; auto. split; [|split; [auto|]].
    + eapply grows_trans; [|exact G4]. eapply grows_trans; [exact G1 | exact G2].
    + intros _. rewrite A4, W4. auto.
Qed.
Lemma shm_same : forall cf o s, l_built s Helper = true -> l_shm cf o s = s.
Proof. intros cf o s B. unfold l_shm. rewrite B. auto. Qed.

(** attached exactly while the helper lives *)
Record att (s : lstate) : Prop := mkA {
  a_live : l_built s Helper = true -> l_dead s Helper = false -> l_att s = true;
  a_none : l_built s Helper = false \/ l_dead s Helper = true -> l_att s = false /\ l_work s = false
}.
Lemma att_grows : forall s s', att s -> grows s s' -> l_built s' Helper = l_built s Helper -> l_att s' = l_att s -> l_work s' = l_work s -> att s'.
Proof. intros s s' [A1 A2] G E F H. constructor; rewrite E, (g_dead _ _ G), F, ?H; auto. Qed.

Lemma use_att : forall s x, att s -> l_att s = l_att (l_use x s) /\ l_work s = l_work (l_use x s).
Proof. intros s x _. unfold l_use, l_build. destruct (l_dead s x); auto. destruct (l_built s x); auto. Qed.

Lemma shm_att : forall cf o s, cons s -> c_auto cf = true -> o_init o = true -> att s -> l_built s Helper = true \/ l_dead s Debug = false -> att (l_shm cf o s).
Proof.
  intros cf o s C AU OI A K. destruct (l_built s Helper) eqn:B; [rewrite shm_same; auto|].
  destruct (shm_ok cf o s C) as (C' & G & B' & X); [rewrite B; auto|]. destruct (X B) as [X1 X2]. rewrite AU, OI in X1.
  assert (D : l_dead s Helper = false) by (destruct (l_dead s Helper) eqn:D; auto; apply (k_dead s C) in D; congruence).
  constructor; auto. intros [Y|Y]; [congruence | rewrite (g_dead _ _ G) in Y; congruence].
Qed.

(** a lock function when the library can be used *)
Lemma call_ok : forall cf o s, cons s -> c_auto cf = true -> o_init o = true -> att s ->
  l_built s Helper = true \/ l_dead s Debug = false -> l_dead s Helper = false -> l_dead s Tids = false ->
  cons (l_call cf o s) /\ grows s (l_call cf o s) /\ att (l_call cf o s) /\ In Helper (l_done (l_call cf o s)) /\ In Tids (l_done (l_call cf o s)).
Proof.
  intros cf o s C AU OI A K DH DT. unfold l_call. destruct (shm_ok cf o s C K) as (C1 & G1 & B1 & _). pose proof (shm_att cf o s C AU OI A K) as A1.
  set (s1 := l_shm cf o s) in *. assert (AT : l_att s1 = true) by (apply A1; auto; rewrite (g_dead _ _ G1); auto).
  assert (E : l_attach cf o s1 = s1) by (unfold l_attach; rewrite AT; auto). cbv zeta. rewrite E, AT.
  destruct (use_ok s1 Tids C1) as (C2 & G2 & I2 & AA & WW & _); auto; [rewrite (g_dead _ _ G1); auto|].
  assert (IH : In Helper (l_done s1)) by (apply (k_in _ C1); split; auto; rewrite (g_dead _ _ G1); auto).
  split; auto. split; [eapply grows_trans; eauto|]. split; [|split; auto; apply (g_in _ _ G2); auto].
  apply (att_grows s1); auto. rewrite B1. apply (g_built _ _ G2). auto.
Qed.
Lemma call_same : forall cf o s, cons s -> att s -> In Helper (l_done s) -> In Tids (l_done s) -> l_call cf o s = s.
Proof.
  intros cf o s C A H T. pose proof H as H'. apply (k_in s C) in H' as [B D]. unfold l_call, l_attach. rewrite (shm_same cf o s B). rewrite (a_live s A B D).
  rewrite (a_live s A B D). apply use_same; auto.
Qed.

(** ** What the destructors need is registered before *)
Record tidy (s : lstate) : Prop := mkT {
  t_cons : cons s;
  t_att : att s;
  t_alive : l_exit s = false -> forall x, l_dead s x = false;
  t_bad : l_bad s = false;
  t_below : forall l1 i l2, l_done s = l1 ++ User i :: l2 ->
    match l_kind s i with
    | ULock => In Helper l2 /\ In Stack l2 /\ In Tids l2
    | UCalls _ => In Helper l2 /\ In Tids l2
    | ULazy => l_exit s = true -> l_lock s i = false /\ l_built s Helper = true
    end;
  t_lock : forall i, l_lock s i = true -> l_built s (User i) = true /\ (forall b, l_kind s i <> UCalls b);
  t_held : forall i, l_held s i = true -> l_lock s i = true /\ l_dead s (User i) = false
}.

Lemma app_split : forall (l l1 l2 d : list sid) i, (forall x, In x l -> ~ is_user x) -> l ++ d = l1 ++ User i :: l2 ->
  exists l1', d = l1' ++ User i :: l2.
Proof.
  induction l as [|a l IH]; intros l1 l2 d i N E; cbn in E; [eauto|].
  destruct l1 as [|b l1]; cbn in E; inversion E; subst.
  - exfalso. apply (N (User i)); [left; auto | exact I].
  - eapply IH; eauto. intros x X. apply N. right. auto.
Qed.

Lemma tidy_grows : forall s s', tidy s -> cons s' -> grows s s' -> att s' -> tidy s'.
Proof.
  intros s s' [C A L B W K H] C' G A'. constructor; auto.
  - rewrite (g_exit _ _ G), (g_dead _ _ G). auto.
  - rewrite (g_bad _ _ G). auto.
  - intros l1 i l2 E. destruct (g_done _ _ G) as (l & E' & N). rewrite E' in E. destruct (app_split l l1 l2 _ i N E) as (l1' & X).
    specialize (W l1' i l2 X). rewrite (g_kind _ _ G), (g_exit _ _ G), (g_lock _ _ G). destruct (l_kind s i); auto.
    intro Y. destruct (W Y). split; auto. apply (g_built _ _ G). auto.
  - intros i Y. rewrite (g_lock _ _ G) in Y. rewrite (g_user _ _ G), (g_kind _ _ G). auto.
  - intros i Y. rewrite (g_held _ _ G) in Y. rewrite (g_lock _ _ G), (g_dead _ _ G). auto.
Qed.

(** writing the state of a lock, its object being alive and unlockable or the program not yet at its end *)
Lemma tidy_lock : forall s i b h, tidy s -> l_exit s = false -> (h = true -> b = true) -> (b = true -> l_built s (User i) = true /\ (forall b, l_kind s i <> UCalls b)) -> forall s',
  s' = mkL (l_done s) (l_built s) (l_dead s) (l_att s) (l_work s) (l_kind s) (setn (l_lock s) i b) (setn (l_held s) i h) (l_exit s) (l_bad s) (l_badw s) -> tidy s'.
Proof.
  intros s i b h [[C1 C2 C3] [A1 A2] L B W K H] X Y BU s' ->. constructor; cbn; auto; try (constructor; auto; fail).
  - intros l1 j l2 E. specialize (W l1 j l2 E). destruct (l_kind s j); auto. rewrite X. discriminate.
  - intros j HJ. destruct (Nat.eq_dec j i) as [->|N]; [rewrite setn_eq in HJ; auto | rewrite setn_neq in HJ by auto; auto].
  - intros j HJ. destruct (Nat.eq_dec j i) as [->|N].
    + rewrite setn_eq in *. split; auto.
    + rewrite setn_neq in * by auto. auto.
Qed.

Lemma rlock_ok : forall cf o i s, tidy s -> l_exit s = false -> c_auto cf = true -> o_init o = true ->
  exists s1, grows s s1 /\ tidy s1 /\ (l_lock s i = false -> In Helper (l_done s1) /\ In Stack (l_done s1) /\ In Tids (l_done s1)) /\
  l_rlock cf o i s = if l_lock s i then s else l_setlock i (o_res o) s1.
Proof.
  intros cf o i s T X AU OI. pose proof T as [C A L B W K H]. unfold l_rlock. destruct (l_lock s i); [exists s; split; [apply grows_refl|]; split; auto; split; auto; discriminate|].
  destruct (shm_ok cf o s C) as (C1 & G1 & B1 & _); auto. pose proof (shm_att cf o s C AU OI A (or_intror (L X Debug))) as A1.
  set (s1 := l_shm cf o s) in *. destruct (use_ok s1 Stack C1) as (C2 & G2 & I2 & AA & WW & _); auto; [rewrite (g_dead _ _ G1); auto|].
  set (s2 := l_use Stack s1) in *.
  assert (A2 : att s2). { apply (att_grows s1); auto. rewrite B1. apply (g_built _ _ G2). auto. }
  assert (D2 : l_dead s2 = l_dead s) by (rewrite (g_dead _ _ G2), (g_dead _ _ G1); auto).
  destruct (call_ok cf o s2 C2 AU OI A2) as (C3 & G3 & A3 & I3 & I4); rewrite ?D2; auto.
  exists (l_call cf o s2). assert (G : grows s (l_call cf o s2)) by (eapply grows_trans; [exact G1|]; eapply grows_trans; eauto).
  split; auto. split; [eapply tidy_grows; eauto|]. split; auto. intros _. split; auto. split; auto. apply (g_in _ _ G3). auto.
Qed.

Lemma runlock_ok : forall cf o i s, tidy s -> l_exit s = false -> c_auto cf = true -> o_init o = true -> l_built s (User i) = true -> tidy (l_runlock cf o i s).
Proof.
  intros cf o i s T X AU OI BU. pose proof T as [C A L B W K H]. unfold l_runlock.
  destruct (shm_ok cf o s C) as (C1 & G1 & B1 & _); auto. pose proof (shm_att cf o s C AU OI A (or_intror (L X Debug))) as A1.
  set (s1 := l_shm cf o s) in *. cbv zeta. destruct (l_lock s1 i); cbn [negb]; [|eapply tidy_grows; eauto].
  destruct (use_ok s1 Stack C1) as (C2 & G2 & I2 & AA & WW & _); auto; [rewrite (g_dead _ _ G1); auto|].
  set (s2 := l_use Stack s1) in *.
  assert (A2 : att s2). { apply (att_grows s1); auto. rewrite B1. apply (g_built _ _ G2). auto. }
  assert (D2 : l_dead s2 = l_dead s) by (rewrite (g_dead _ _ G2), (g_dead _ _ G1); auto).
  destruct (call_ok cf o s2 C2 AU OI A2) as (C3 & G3 & A3 & I3 & I4); rewrite ?D2; auto.
  assert (G : grows s (l_call cf o s2)) by (eapply grows_trans; [exact G1|]; eapply grows_trans; eauto).
  set (s3 := l_call cf o s2) in *. assert (T3 : tidy s3) by (eapply tidy_grows; eauto).
  assert (AT : l_att s3 = true). { apply (k_in _ C3) in I3 as [Y Z]. apply A3; auto. }
  rewrite AT. eapply (tidy_lock s3 i false false T3); [rewrite (g_exit _ _ G); auto | discriminate | discriminate | rewrite <- AT; reflexivity].
Qed.

(** building the program's object *)
Lemma tidy_user : forall s i, tidy s -> l_exit s = false -> l_built s (User i) = false ->
  match l_kind s i with
  | ULock => In Helper (l_done s) /\ In Stack (l_done s) /\ In Tids (l_done s) | UCalls _ => In Helper (l_done s) /\ In Tids (l_done s) | ULazy => True
  end -> tidy (l_build (User i) s).
Proof.
  intros s i [[C1 C2 C3] [A1 A2] L B W LK H] X BU K. unfold l_build. rewrite BU. constructor; cbn; auto.
  - constructor; cbn.
    + intro y. destruct (sid_eqb_spec y (User i)) as [->|N].
      * rewrite setf_eq. split; auto.
      * rewrite setf_neq by auto. split; [intros [E|E]; [congruence | apply C1; auto] | intro E; right; apply C1; auto].
    + constructor; auto. intro Y. apply C1 in Y. destruct Y; congruence.
    + intros y Y. rewrite L in Y by auto. discriminate.
  - constructor; cbn; rewrite ?setf_neq by discriminate; auto.
  - intros l1 j l2 E. destruct l1 as [|a l1]; cbn in E; inversion E; subst.
    + destruct (l_kind s j); auto. rewrite X. discriminate.
    + specialize (W l1 j l2 ltac:(assumption)). destruct (l_kind s j); auto.
  - intros j Y. apply LK in Y. split; [|apply Y]. destruct Y as [Y _]. destruct (sid_eqb_spec (User j) (User i)) as [->|N]; [apply setf_eq | rewrite setf_neq by auto; auto].
Qed.

Lemma tidy_kind : forall s i k, tidy s -> l_exit s = false -> l_built s (User i) = false -> tidy (l_setkind i k s).
Proof.
  intros s i k [[C1 C2 C3] [A1 A2] L B W K H] X BU. constructor; cbn; auto; try (constructor; auto; fail).
  2: { intros j Y. destruct (K j Y) as [P Q]. split; auto. rewrite setn_neq; auto. congruence. }
  intros l1 j l2 E. assert (N : j <> i).
  { intros ->. assert (Y : In (User i) (l_done s)) by (rewrite E; apply in_or_app; right; left; auto). apply C1 in Y. destruct Y; congruence. }
  rewrite setn_neq by auto. apply (W l1 j l2 E).
Qed.

Lemma tidy_step : forall cf s x, c_auto cf = true -> tidy s -> inits s x -> careful s x -> tidy (l_step cf s x).
Proof.
  intros cf s [x o] AU T OI CA. pose proof T as [C A L B W K H]. unfold inits in OI. cbn [snd] in OI. unfold careful in CA. cbn [fst] in CA.
  destruct x as [| | |i k|i|i| | |]; unfold l_step; cbn [fst snd].
  - (* LDebug *) destruct (l_exit s) eqn:X; auto. destruct (use_ok s Debug C) as (C1 & G1 & _ & AA & WW & _); auto.
    eapply tidy_grows; eauto. apply (att_grows s); auto. unfold l_use, l_build. destruct (l_dead s Debug); auto. destruct (l_built s Debug); auto.
  - (* LNull *) destruct (l_exit s) eqn:X; auto. destruct (shm_ok cf o s C) as (C1 & G1 & _); auto. eapply tidy_grows; eauto. apply shm_att; auto.
  - (* LCall *) destruct (l_exit s) eqn:X; auto. destruct (call_ok cf o s C) as (C1 & G1 & A1 & _); auto. eapply tidy_grows; eauto.
  - (* LNew *) destruct (l_exit s) eqn:X; cbn [orb]; auto. destruct (l_built s (User i)) eqn:BU; auto. unfold l_new.
    pose proof (tidy_kind s i k T X BU) as T1. set (s1 := l_setkind i k s) in *. assert (X1 : l_exit s1 = false) by exact X.
    assert (K1 : l_kind s1 i = k) by (cbn; apply setn_eq). assert (BU1 : l_built s1 (User i) = false) by exact BU.
    pose proof T1 as [C1 A1 L1 B1 W1 Q1 H1].
    assert (TU : grows s1 (l_use Tids s1) /\ tidy (l_use Tids s1)).
    { destruct (use_ok s1 Tids C1) as (C2 & G2 & I2 & AA & WW & _); auto. split; auto.
      eapply tidy_grows; eauto. apply (att_grows s1); auto. unfold l_use, l_build. destruct (l_dead s1 Tids); auto. destruct (l_built s1 Tids); auto. }
    destruct k as [| |[|]]; cbv zeta.
    + destruct TU as (G2 & T2). apply tidy_user; auto; [rewrite (g_exit _ _ G2); auto | rewrite (g_user _ _ G2); auto | rewrite (g_kind _ _ G2), K1; auto].
    + destruct TU as (G2 & T2). set (s2 := l_use Tids s1) in *.
      assert (X2 : l_exit s2 = false) by (rewrite (g_exit _ _ G2); auto). destruct (rlock_ok cf o i s2 T2 X2 AU OI) as (s3 & G3 & T3 & I3 & E).
      assert (BU2 : l_built s2 (User i) = false) by (rewrite (g_user _ _ G2); auto).
      destruct (l_lock s2 i) eqn:LK; [apply (t_lock s2 T2) in LK as [LK _]; congruence|]. rewrite E.
      assert (X3 : l_exit s3 = false) by (rewrite (g_exit _ _ G3); auto). assert (BU3 : l_built s3 (User i) = false) by (rewrite (g_user _ _ G3); auto).
      assert (T4 : tidy (l_build (User i) s3)) by (apply tidy_user; auto; rewrite (g_kind _ _ G3), (g_kind _ _ G2), K1; auto).
      eapply (tidy_lock _ i (o_res o) (o_res o && l_att s3) T4).
      * unfold l_build. rewrite BU3. exact X3.
      * intro Y. apply andb_true_iff in Y. apply Y.
      * intros _. unfold l_build. rewrite BU3. cbn. split; [apply setf_eq|]. rewrite (g_kind _ _ G3), (g_kind _ _ G2), K1. discriminate.
      * unfold l_build, l_setlock. cbn. rewrite BU3. reflexivity.
    + destruct (call_ok cf o s1 C1) as (C2 & G2 & A2 & I2 & I3); auto. assert (T2 : tidy (l_call cf o s1)) by (eapply tidy_grows; eauto).
      apply tidy_user; auto; [rewrite (g_exit _ _ G2); auto | rewrite (g_user _ _ G2); auto | rewrite (g_kind _ _ G2), K1; auto].
    + contradiction.
  - (* LLock *) destruct (l_exit s) eqn:X; auto.
    assert (Y : l_built s (User i) = true -> (forall b, l_kind s i <> UCalls b) -> tidy (l_rlock cf o i s)).
    { intros BU NK. destruct (rlock_ok cf o i s T X AU OI) as (s3 & G3 & T3 & I3 & E). rewrite E. destruct (l_lock s i); auto.
      eapply (tidy_lock s3 i (o_res o) (o_res o && l_att s3) T3); [rewrite (g_exit _ _ G3); auto | intro Y; apply andb_true_iff in Y; apply Y | | reflexivity].
      intros _. rewrite (g_user _ _ G3), (g_kind _ _ G3). auto. }
    destruct (l_kind s i), (l_built s (User i)); auto; apply Y; auto; discriminate.
  - (* LUnlock *) destruct (l_exit s) eqn:X; auto.
    assert (Y : l_built s (User i) = true -> tidy (l_runlock cf o i s)) by (intro BU; apply runlock_ok; auto).
    destruct (l_kind s i), (l_built s (User i)); auto.
  - (* LWorker *) destruct (l_work s) eqn:WK; auto. destruct (pass_ok s C) as (C1 & G1 & AA & WW). eapply tidy_grows; eauto.
    apply (att_grows s); auto. unfold l_pass, l_build. destruct (l_dead s Tids); auto. destruct (l_built s Tids); auto.
  - (* LExit *) destruct C as [C1 C2 C3], A as [A1 A2]. constructor; cbn; auto; try (constructor; auto; fail); try discriminate.
    intros l1 i l2 E. specialize (W l1 i l2 E). destruct (l_kind s i) eqn:KI; auto. intros _. apply CA; auto.
    assert (Y : In (User i) (l_done s)) by (rewrite E; apply in_or_app; right; left; auto). apply C1 in Y. apply Y.
  - (* LPop *) destruct (l_exit s) eqn:X; auto. unfold l_pop. destruct (l_done s) as [|y r] eqn:D; auto.
    (* the object is gone from the list *)
    assert (CK : cons (l_kill y s)).
    { destruct C as [C1 C2 C3]. rewrite D in *. inversion C2; subst. constructor; cbn; rewrite ?D; cbn; auto.
      - intro z. destruct (sid_eqb_spec z y) as [->|N].
        + rewrite setf_eq. split; [contradiction | intros [_ Y]; discriminate].
        + rewrite setf_neq by auto. rewrite <- C1. cbn. split; auto. intros [Y|Y]; auto. congruence.
      - intros z Y. destruct (sid_eqb_spec z y) as [->|N]; [apply C1; left; auto | rewrite setf_neq in Y by auto; auto]. }
    assert (WR : forall l1 i l2, r = l1 ++ User i :: l2 -> match l_kind s i with
       | ULock => In Helper l2 /\ In Stack l2 /\ In Tids l2 | UCalls _ => In Helper l2 /\ In Tids l2 | ULazy => true = true -> l_lock s i = false /\ l_built s Helper = true end).
    { intros l1 i l2 E. apply (W (y :: l1) i l2). rewrite E. auto. }
    destruct y as [| | | |i].
    + (* Debug *) constructor; cbn; rewrite ?D, ?X; cbn; auto; try discriminate.
      * destruct A as [A1 A2]. constructor; cbn; rewrite ?setf_neq by discriminate; auto.
    + (* Helper *) destruct CK as [K1 K2 K3]. constructor; cbn; rewrite ?D, ?X; cbn; auto; try discriminate.
      * constructor; cbn; auto.
      * constructor; cbn; rewrite ?setf_eq; auto.
    + (* Tids *) constructor; cbn; rewrite ?D, ?X; cbn; auto; try discriminate.
      * destruct A as [A1 A2]. constructor; cbn; rewrite ?setf_neq by discriminate; auto.
    + (* Stack *) constructor; cbn; rewrite ?D, ?X; cbn; auto; try discriminate.
      * destruct A as [A1 A2]. constructor; cbn; rewrite ?setf_neq by discriminate; auto.
    + (* User *) set (s1 := l_kill (User i) s) in *.
      assert (A1 : att s1) by (destruct A as [A1 A2]; constructor; cbn; rewrite ?setf_neq by discriminate; auto).
      assert (D1 : l_done s1 = r) by (cbn; rewrite D; auto). specialize (W [] i r eq_refl).
      assert (GO : l_held s i = false -> tidy s1).
      { intro NH. constructor; auto; cbn; rewrite ?D, ?X; cbn; auto; try discriminate.
        intros j Y. destruct (H j Y) as [P Q]. split; auto. rewrite setf_neq; auto. intros E. inversion E; subst. congruence. }
      destruct (l_kind s i) eqn:KI.
      * destruct (W eq_refl) as [LK BH]. assert (NH : l_held s i = false) by (destruct (l_held s i) eqn:Y; auto; destruct (H i Y); congruence).
        unfold l_runlock. rewrite (shm_same cf o s1 BH). cbv zeta. change (l_lock s1 i) with (l_lock s i). rewrite LK. cbn [negb]. auto.
      * destruct W as (IH & IS & IT). rewrite <- D1 in IH, IS, IT.
        assert (BH : l_built s1 Helper = true) by (apply (k_in _ CK) in IH; apply IH).
        unfold l_runlock. rewrite (shm_same cf o s1 BH). cbv zeta. change (l_lock s1 i) with (l_lock s i). destruct (l_lock s i) eqn:LK; cbn [negb].
        -- rewrite (use_same s1 Stack CK IS), (call_same cf o s1 CK A1 IH IT).
           assert (AT : l_att s1 = true) by (apply (k_in _ CK) in IH as [P Q]; apply A1; auto). rewrite AT.
           destruct CK as [K1 K2 K3], A1 as [A1 A2]. constructor; cbn; rewrite ?D, ?X; cbn; auto; try discriminate.
           ++ rewrite D1 in K1, K2. constructor; cbn; auto.
           ++ constructor; cbn; auto. intro Y. rewrite <- AT. apply A2. auto.
           ++ intros l1 j l2 E. specialize (WR l1 j l2 E). destruct (l_kind s j) eqn:KJ; auto. intros _. destruct (WR eq_refl) as [P Q]. split; auto.
              destruct (Nat.eq_dec j i) as [->|N]; [apply setn_eq | rewrite setn_neq by auto; auto].
           ++ intros j Y. destruct (Nat.eq_dec j i) as [->|N]; [rewrite setn_eq in Y; discriminate | rewrite setn_neq in Y by auto; auto].
           ++ intros j Y. destruct (Nat.eq_dec j i) as [->|N]; [rewrite setn_eq in Y; discriminate|]. rewrite setn_neq in * by auto.
              rewrite setf_neq by congruence. auto.
        -- apply GO; auto. destruct (l_held s i) eqn:Y; auto. destruct (H i Y); congruence.
      * destruct W as (IH & IT). rewrite <- D1 in IH, IT. rewrite (call_same cf o s1 CK A1 IH IT). apply GO.
        destruct (l_held s i) eqn:Y; auto. destruct (H i Y) as [P _]. destruct (K i P) as [_ Q]. exfalso. apply (Q too). auto.
Qed.
