(** The list lock and the lock words of read/write locks behave as the atomic ones of RwApi_Model.v. *)
From Coq Require Import ZArith List Bool Lia.
From Verif Require Import Base RwWord_Model RwApi_Model RwApi_Spec RwApi_Proofs RwApi_Proofs2 RwApi_Proofs3 RwApi_Proofs9
  RwLin_Spec Guard_Model Rspin_Model.
Import ListNotations.
Open Scope Z_scope.

(** ** The list lock in RwApi_Model.v, on every schedule *)
Definition shape (p : rpc) : Prop := match p with RWait p => waitable p | RDrop p => droppable p | _ => True end.
Record GI (s : rstate) : Prop := {
  gi_shape : forall t, alive s t = true -> shape (r_pc s t);
  gi_crit : forall t, alive s t = true -> crit (r_pc s t) = true -> r_guard s = Some t;
  gi_in : guarded s
}.

Lemma guarded_call : forall s t c, guarded s -> r_pc s t = RIdle -> guarded (r_call s t c).
Proof.
  intros s t c G Ep u E AU. destruct (call_env s t c) as (E1 & E2 & _).
  assert (AU' : alive s u = true) by (unfold alive in *; rewrite E1, E2 in AU; exact AU).
  assert (E' : r_guard s = Some u) by (rewrite <- E; unfold r_call; destruct c; try destruct (dev_of s t fd); reflexivity).
  pose proof (G u E' AU') as C. destruct (Z.eq_dec u t) as [->|N]; [rewrite Ep in C; discriminate|].
  destruct (call_other s t c u N) as [-> _]. exact C.
Qed.

Lemma waitable_crit : forall p, waitable p -> crit p = true.
Proof. intros []; simpl; tauto. Qed.
Lemma droppable_out : forall p, droppable p -> crit p = false.
Proof. intros []; simpl; tauto. Qed.

Lemma shape_run : forall s t race gu, shape (r_pc s t) -> shape (r_pc (r_run s t race gu) t).
Proof.
  intros s t race gu S. unfold r_run, pass_step, after_f1, after_f2. destruct (r_pc s t) eqn:Ep; simpl in S;
    repeat match goal with |- context [match ?x with _ => _ end] => destruct x eqn:? end; simpl; rewrite ?upd_eq, ?Ep; simpl; auto;
    match goal with H : waitable ?p |- _ => destruct p; simpl in *; tauto | H : droppable ?p |- _ => destruct p; simpl in *; try tauto; destruct p; tauto end.
Qed.

Lemma guard_run : forall s t race gu, r_guard (r_run s t race gu) =
  match r_pc s t with
  | RWait _ => match r_guard s with Some u => if alive s u then Some u else Some t | None => Some t end
  | RDrop _ => None
  | _ => r_guard s
  end.
Proof.
  intros s t race gu. unfold r_run, pass_step. destruct (r_pc s t) eqn:Ep;
    repeat match goal with |- context [match ?x with _ => _ end] => destruct x eqn:? end; simpl; auto.
Qed.

Lemma crit_run : forall s t race gu, shape (r_pc s t) -> crit (r_pc (r_run s t race gu) t) = true ->
  crit (r_pc s t) = true \/ exists p, r_pc s t = RWait p /\ r_guard (r_run s t race gu) = Some t.
Proof.
  intros s t race gu S C. destruct (crit (r_pc s t)) eqn:C0; auto. right. rewrite guard_run.
  revert C. unfold r_run. destruct (r_pc s t) as [ |p|p|e0|a0|a0 f|a0 f o|a0 f o l|a0 f o l|a0 f o l|a0 f o l ls|a0 f o e0|a0 f e0|a0 e0|a0|a0 f o k l|a0 f o k l|a0 f o|a0 f|a0|priv|priv fs os ls] eqn:Ep; try discriminate C0.
  - rewrite Ep. discriminate.
  - intro C. exists p. split; auto. revert C. destruct (r_guard s) as [u|]; auto. destruct (alive s u); auto. rewrite Ep. discriminate.
  - simpl. rewrite upd_eq. discriminate.
  - repeat match goal with |- context [match ?x with _ => _ end] => destruct x eqn:? end; simpl; rewrite ?upd_eq, ?Ep; discriminate.
  - simpl. rewrite upd_eq. discriminate.
Qed.

Lemma GI_run : forall s t race gu, GI s -> alive s t = true -> GI (r_run s t race gu).
Proof.
  intros s t race gu [S C G] AL. destruct (run_env s t race gu) as (E1 & E2 & _).
  assert (AE : forall u, alive (r_run s t race gu) u = alive s u) by (intro u; unfold alive; rewrite E1, E2; reflexivity).
  constructor.
  - intros u A. rewrite AE in A. destruct (Z.eq_dec u t) as [->|N]; [apply shape_run; auto|].
    destruct (run_other s t race gu u N) as [-> _]. auto.
  - intros u A CU. rewrite AE in A. destruct (Z.eq_dec u t) as [->|N].
    + destruct (crit_run s t race gu (S t AL) CU) as [C0|(p & Ep & E)]; auto. rewrite guard_run. pose proof (C t AL C0) as G0.
      revert CU. destruct (r_pc s t) eqn:Ep; auto; try discriminate C0.
      unfold r_run. rewrite Ep. simpl. rewrite upd_eq. rewrite droppable_out; [discriminate|]. specialize (S t AL). rewrite Ep in S. exact S.
    + destruct (run_other s t race gu u N) as [E _]. rewrite E in CU. pose proof (C u A CU) as G0. rewrite guard_run, G0, A.
      destruct (r_pc s t) eqn:Ep; auto. exfalso. apply N. assert (X : crit (r_pc s t) = true) by (rewrite Ep; reflexivity).
      pose proof (C t AL X). congruence.
  - apply guarded_run; auto. intros p E. specialize (S t AL). rewrite E in S. exact S.
Qed.

Lemma GI_step : forall s x, GI s -> GI (r_step s x).
Proof.
  intros s x H. destruct x as [t c|t race gu|p fd d|p m|t|p]; cbn [r_step].
  - destruct (alive s t) eqn:AL; auto. destruct (r_pc s t) eqn:Ep; auto. destruct H as [S C G].
    destruct (call_env s t c) as (E1 & E2 & _).
    assert (AE : forall u, alive (r_call s t c) u = alive s u) by (intro u; unfold alive; rewrite E1, E2; reflexivity).
    assert (EG : r_guard (r_call s t c) = r_guard s) by (unfold r_call; destruct c; try destruct (dev_of s t fd); reflexivity).
    assert (ET : shape (r_pc (r_call s t c) t) /\ crit (r_pc (r_call s t c) t) = false).
    { unfold r_call; destruct c; try destruct (dev_of s t fd); simpl; rewrite upd_eq; simpl; auto. }
    constructor; [ | |apply guarded_call; auto].
    + intros u A. rewrite AE in A. destruct (Z.eq_dec u t) as [->|N]; [apply ET|]. destruct (call_other s t c u N) as [-> _]. auto.
    + intros u A CU. rewrite AE in A. rewrite EG. destruct (Z.eq_dec u t) as [->|N]; [destruct ET; congruence|].
      destruct (call_other s t c u N) as [E _]. rewrite E in CU. auto.
  - destruct (alive s t) eqn:AL; auto. apply GI_run; auto.
  - destruct H as [S C G]. constructor; auto.
  - destruct H as [S C G]. constructor; auto.
  - assert (AE : forall u, alive (mkR (r_h s) (r_guard s) (r_pc s) (r_res s) (upd (r_talive s) t false) (r_palive s) (r_fd s) (r_mode s) (r_allow s)) u = true -> alive s u = true).
    { intros u. unfold alive. cbn [r_talive r_palive]. unfold upd. destruct (u =? t); auto. rewrite andb_false_r. discriminate. }
    destruct H as [S C G]. constructor; [intros u A; apply S, AE, A | intros u A CU; apply C; [apply AE, A | exact CU] | intros u E A; apply G; [exact E | apply AE, A]].
  - assert (AE : forall u, alive (mkR (r_h s) (r_guard s) (r_pc s) (r_res s) (r_talive s) (upd (r_palive s) p false) (r_fd s) (r_mode s) (r_allow s)) u = true -> alive s u = true).
    { intros u. unfold alive. cbn [r_talive r_palive]. unfold upd. destruct (proc_of_thread u =? p); auto. discriminate. }
    destruct H as [S C G]. constructor; [intros u A; apply S, AE, A | intros u A CU; apply C; [apply AE, A | exact CU] | intros u E A; apply G; [exact E | apply AE, A]].
Qed.

(** ** One step *)
Definition spot_ok (s : rstate) (p : rpc) (x : gpc) : Prop :=
  match x with
  | GIdle => True
  | GLock _ _ | GLockProbe _ _ => exists q, p = RWait q
  | GLockTake _ o => (exists q, p = RWait q) /\ alive s o = false
  | GUnlock _ _ => exists q, p = RDrop q
  | _ => False
  end.
(** a value is loaded only while the compare-and-swap that uses it is ahead *)
Definition load_ok (p : rpc) (v : option Z) : Prop :=
  match v, p with
  | None, _ => True
  | Some _, AT a _ _ _ => a_kind a = Rd
  | Some _, B2 _ => True
  | _, _ => False
  end.
Record zinv (z : zstate) : Prop := {
  zi_gi : GI (z_r z);
  zi_nz : r_guard (z_r z) <> Some 0;
  zi_spot : forall t, alive (z_r z) t = true -> spot_ok (z_r z) (r_pc (z_r z) t) (z_g z t);
  zi_load : forall t, alive (z_r z) t = true -> load_ok (r_pc (z_r z) t) (z_w z t)
}.

Lemma set_guard_same : forall s, r_guard s <> Some 0 -> set_guard s (guard_of (word_of (r_guard s))) = s.
Proof.
  intros s N. unfold guard_of, word_of. destruct s as [h g pc res ta pa fd m al]. unfold set_guard. cbn in *.
  destruct g as [u|]; cbn; auto. destruct (Z.eqb_spec u 0) as [->|]; [congruence | reflexivity].
Qed.
Lemma guard_of_nz : forall t, t <> 0 -> guard_of t = Some t.
Proof. intros t T0. unfold guard_of. destruct (Z.eqb_spec t 0); [contradiction | reflexivity]. Qed.
Lemma guard_of_0 : guard_of 0 = None.
Proof. reflexivity. Qed.

Lemma z_run_other : forall z t gu u, u <> t -> z_g (z_run z t gu) u = z_g z u /\ z_w (z_run z t gu) u = z_w z u.
Proof.
  intros z t gu u N. unfold z_run.
  repeat match goal with |- context [match ?x with _ => _ end] => destruct x end; cbn [z_g z_w]; rewrite ?upd_neq by auto; auto.
Qed.

(** the step of an unlock call that finds nothing to change *)
Lemma b2_run : forall s t a race gu, r_pc s t = B2 a -> r_run s t race gu = r_run s t false gu.
Proof. intros s t a race gu E. unfold r_run. rewrite E. reflexivity. Qed.
Lemma race_run : forall s t race gu, (forall a f o l, r_pc s t <> AT a f o l) -> r_run s t race gu = r_run s t false gu.
Proof. intros s t race gu E. unfold r_run. destruct (r_pc s t); try reflexivity. exfalso. eapply E. reflexivity. Qed.

Definition stutters (z : zstate) (t : Z) (gu : bool) : Prop :=
  z_r (z_run z t gu) = z_r z /\ r_pc (z_r z) t <> RIdle /\
  spot_ok (z_r z) (r_pc (z_r z) t) (z_g (z_run z t gu) t) /\ load_ok (r_pc (z_r z) t) (z_w (z_run z t gu) t).
Definition moves (z : zstate) (t : Z) (gu : bool) : Prop :=
  z_r (z_run z t gu) = r_run (z_r z) t (raced z t) gu /\ z_g (z_run z t gu) t = GIdle /\ z_w (z_run z t gu) t = None.

Lemma spot_idle : forall s p x, spot_ok s p x -> (forall q, p <> RWait q) -> (forall q, p <> RDrop q) -> x = GIdle.
Proof.
  intros s p x H N1 N2. destruct x; cbn in H; try contradiction; auto;
    try (destruct H as [q H]; exfalso; eapply N1; eassumption); try (destruct H as [q H]; exfalso; eapply N2; eassumption).
  destruct H as [[q H] _]. exfalso. eapply N1; eassumption.
Qed.
Lemma load_none : forall p v, load_ok p v -> (forall a f o l, p <> AT a f o l) -> (forall a, p <> B2 a) -> v = None.
Proof.
  intros p [v|] H N1 N2; auto. cbn in H. destruct p; try contradiction; exfalso; [eapply N1 | eapply N2]; reflexivity.
Qed.

Lemma z_run_cases : forall z t gu, t <> 0 -> alive (z_r z) t = true -> zinv z -> z_g (z_run z t gu) t <> GUB ->
  stutters z t gu \/ moves z t gu.
Proof.
  intros z t gu T0 AL [H NZ SP LD] NU. specialize (SP t AL). specialize (LD t AL). unfold stutters, moves.
  pose proof (set_guard_same _ NZ) as SG. pose proof (gi_crit _ H t AL) as CG.
  remember (z_r z) as s eqn:Es.
  assert (V : forall x, z_view z t x = Guard_Model.mkG (word_of (r_guard s)) (alive s) (upd (z_g z) t x)) by (intros; unfold z_view; rewrite <- Es; reflexivity).
  assert (RC : forall a f o l v, r_pc s t = AT a f o l -> z_w z t = Some v -> raced z t = negb (o_val (h_o (r_h s) o) =? v)).
  { intros a f o l v E1 E2. unfold raced. rewrite <- Es, E1, E2. reflexivity. }
  assert (RN : z_w z t = None -> raced z t = false) by (intros E; unfold raced; rewrite E; destruct (r_pc (z_r z) t); reflexivity).
  unfold z_run in *. rewrite <- Es in *.
  destruct (r_pc s t) as [ |p|p|e0|a|a f|a f o|a f o l|a f o l|a f o l|a f o l ls|a f o e0|a f e0|a e0|a|a f o k l|a f o k l|a f o|a f|a|priv|priv fs os ls] eqn:Ep;
    try (pose proof (load_none _ _ LD ltac:(discriminate) ltac:(discriminate)) as WN);
    try (pose proof (spot_idle _ _ _ SP ltac:(discriminate) ltac:(discriminate)) as GN).
  all: try (right; cbn [z_r z_g z_w]; rewrite (RN WN); auto; fail).
  - (* taking the list lock *)
    assert (RUN : match r_guard s with Some u => alive s u = false | None => True end -> r_run s t (raced z t) gu = goto (set_guard s (Some t)) t p).
    { intros E. unfold r_run. rewrite Ep. destruct (r_guard s); [rewrite E|]; reflexivity. }
    assert (NT : r_guard s <> Some t).
    { intro E. pose proof (gi_in _ H t E AL) as C. rewrite Ep in C. discriminate. }
    unfold Guard_Model.g_step in *. rewrite V in *. cbn [g_pc g_word g_alive] in *. rewrite upd_eq in *.
    destruct (z_g z t) as [ |c o|c o|c o| |c o|c o|c o| ] eqn:Eg; cbn [spot_ok] in SP; try contradiction; try (destruct SP; discriminate).
    + left. cbn [g_pc g_word] in *. rewrite upd_eq in *. cbn [z_r z_g z_w]. rewrite upd_eq. split; [exact SG|]. split; [discriminate|]. split; [exists p; reflexivity | exact LD].
    + destruct (Z.eqb_spec (word_of (r_guard s)) 0) as [E0|E0]; cbn [g_pc g_word] in *.
      * right. rewrite upd_eq in *. cbn [z_r z_g z_w]. rewrite upd_eq, guard_of_nz, RUN; auto.
        unfold word_of in E0. destruct (r_guard s) as [u|]; auto. congruence.
      * destruct (Z.eqb_spec (word_of (r_guard s)) t) as [E1|E1]; cbn [g_pc g_word] in *.
        { exfalso. unfold word_of in E1, E0. destruct (r_guard s); congruence. }
        left. destruct (negb (word_of (r_guard s) =? o)).
        -- cbn [g_pc g_word] in *. rewrite upd_eq in *. unfold g_next in *. destruct (0 =? INT_MAX); cbn [z_r z_g z_w] in *; rewrite upd_eq in *; [congruence|].
           split; [exact SG|]. split; [discriminate|]. split; [exists p; reflexivity | exact LD].
        -- destruct (TRYLOCK_LIMIT <? c); cbn [g_pc g_word] in *; rewrite upd_eq in *.
           ++ cbn [z_r z_g z_w]. rewrite upd_eq. split; [exact SG|]. split; [discriminate|]. split; [exists p; reflexivity | exact LD].
           ++ unfold g_next in *. destruct (c =? INT_MAX); cbn [z_r z_g z_w] in *; rewrite upd_eq in *; [congruence|].
              split; [exact SG|]. split; [discriminate|]. split; [exists p; reflexivity | exact LD].
    + left. destruct (alive s o) eqn:A; cbn [g_pc g_word] in *; rewrite upd_eq in *.
      * unfold g_next in *. destruct (c =? INT_MAX); cbn [z_r z_g z_w] in *; rewrite upd_eq in *; [congruence|].
        split; [exact SG|]. split; [discriminate|]. split; [exists p; reflexivity | exact LD].
      * cbn [z_r z_g z_w]. rewrite upd_eq. split; [exact SG|]. split; [discriminate|]. split; [split; [exists p; reflexivity | exact A] | exact LD].
    + destruct SP as [_ DEAD]. destruct (Z.eqb_spec (word_of (r_guard s)) o) as [E|E]; cbn [g_pc g_word] in *; rewrite upd_eq in *.
      * right. cbn [z_r z_g z_w]. rewrite upd_eq, guard_of_nz, RUN; auto. unfold word_of in E. destruct (r_guard s); auto. congruence.
      * left. unfold g_next in *. destruct (c =? INT_MAX); cbn [z_r z_g z_w] in *; rewrite upd_eq in *; [congruence|].
        split; [exact SG|]. split; [discriminate|]. split; [exists p; reflexivity | exact LD].
  - (* releasing it *)
    specialize (CG eq_refl).
    assert (RUN : r_run s t (raced z t) gu = goto (set_guard s None) t p) by (unfold r_run; rewrite Ep; reflexivity).
    unfold Guard_Model.g_step in *. rewrite V in *. cbn [g_pc g_word g_alive] in *. rewrite upd_eq in *.
    destruct (z_g z t) as [ |c o|c o|c o| |c o|c o|c o| ] eqn:Eg; cbn [spot_ok] in SP; try contradiction; try (destruct SP; discriminate).
    + left. cbn [g_pc g_word] in *. rewrite upd_eq in *. cbn [z_r z_g z_w]. rewrite upd_eq. split; [exact SG|]. split; [discriminate|]. split; [exists p; reflexivity | exact LD].
    + destruct SP as [[q Q] _]. discriminate.
    + right. rewrite CG in *. cbn [word_of] in *. rewrite Z.eqb_refl in *. cbn [g_pc g_word] in *. rewrite upd_eq in *. cbn [z_r z_g z_w]. rewrite upd_eq, RUN. auto.
  - (* an attempt on the lock word *)
    destruct (a_kind a) eqn:EK.
    + destruct (z_w z t) as [v|] eqn:EW.
      * right. cbn [z_r z_g z_w]. rewrite upd_eq. auto.
      * destruct (o_val (h_o (r_h s) o) <? RW_UNLOCK).
        -- right. cbn [z_r z_g z_w]. rewrite (RN eq_refl). auto.
        -- left. cbn [z_r z_g z_w]. rewrite upd_eq, GN. split; auto. split; [discriminate|]. split; [exact I | exact EK].
    + destruct (z_w z t) as [v|] eqn:EW; [cbn in LD; congruence|]. right. cbn [z_r z_g z_w]. rewrite (RN eq_refl). auto.
  - (* an unlock *)
    assert (RB : r_run s t (raced z t) gu = r_run s t false gu) by (apply (b2_run s t a); exact Ep).
    destruct (unlock_target (r_h s) t a) as [o|] eqn:ET.
    + destruct (z_w z t) as [b|] eqn:EW.
      * destruct (o_val (h_o (r_h s) o) =? b).
        -- right. cbn [z_r z_g z_w]. rewrite upd_eq. auto.
        -- left. cbn [z_r z_g z_w]. rewrite upd_eq, GN. split; auto. split; [discriminate|]. split; exact I.
      * destruct (o_val (h_o (r_h s) o) =? RW_UNLOCK).
        -- right. cbn [z_r z_g z_w]. auto.
        -- left. cbn [z_r z_g z_w]. rewrite upd_eq, GN. split; auto. split; [discriminate|]. split; exact I.
    + right. cbn [z_r z_g z_w]. rewrite upd_eq. auto.
Qed.

Lemma spot_alive : forall s s' p x, (forall o, alive s o = false -> alive s' o = false) -> spot_ok s p x -> spot_ok s' p x.
Proof. intros s s' p x H S. destruct x; cbn in *; auto. destruct S; auto. Qed.

Lemma zinv_step : forall z x, zinv z -> no_thread_zero x -> z_no_overflow (z_step z x) -> zinv (z_step z x) /\
  ((z_r (z_step z x) = z_r z /\ z_events z x = [] /\ actor x <> None) \/
   (z_r (z_step z x) = r_step (z_r z) (z_label z x) /\ z_events z x = r_events (z_r z) (z_label z x))).
Proof.
  intros z x H NT NO.
  assert (ENV : (forall t race gu, x <> LRun t race gu) -> zinv (z_step z x)).
  { intros NR. destruct H as [G NZ SP LD].
    assert (Q : z_step z x = mkZ (r_step (z_r z) x) (z_g z) (z_w z)) by (destruct x; auto; exfalso; eapply NR; reflexivity).
    rewrite Q. clear Q.
    assert (AM : forall u, alive (r_step (z_r z) x) u = true -> alive (z_r z) u = true).
    { intros u A. destruct (alive (z_r z) u) eqn:A0; auto. exfalso. revert A.
      destruct x as [t c|t race gu|p fd d|p m|t|p]; cbn [r_step]; try congruence; try (unfold alive in *; cbn; congruence).
      - destruct (alive (z_r z) t); [|congruence]. destruct (r_pc (z_r z) t); try congruence.
        destruct (call_env (z_r z) t c) as (E1 & E2 & _). unfold alive in *. rewrite E1, E2. congruence.
      - exfalso; eapply NR; reflexivity.
      - unfold alive in *. cbn. unfold upd. destruct (u =? t); [rewrite andb_false_r|]; congruence.
      - unfold alive in *. cbn. unfold upd. destruct (proc_of_thread u =? p); simpl; congruence. }
    assert (AD : forall o, alive (z_r z) o = false -> alive (r_step (z_r z) x) o = false).
    { intros o A. destruct (alive (r_step (z_r z) x) o) eqn:B; auto. apply AM in B. congruence. }
    assert (PC : forall u, r_pc (r_step (z_r z) x) u = r_pc (z_r z) u \/ r_pc (z_r z) u = RIdle).
    { intro u. destruct x as [t c|t race gu|p fd d|p m|t|p]; cbn [r_step]; auto.
      - destruct (alive (z_r z) t); auto. destruct (r_pc (z_r z) t) eqn:Ep; auto. destruct (Z.eq_dec u t) as [->|N]; auto.
        left. apply (call_other (z_r z) t c u N).
      - exfalso; eapply NR; reflexivity. }
    constructor; cbn [z_r z_g z_w].
    - apply GI_step; auto.
    - destruct x as [t c|t race gu|p fd d|p m|t|p]; cbn [r_step]; auto; [|exfalso; eapply NR; reflexivity].
      destruct (alive (z_r z) t); auto. destruct (r_pc (z_r z) t); auto. unfold r_call; destruct c; try destruct (dev_of _ t fd); exact NZ.
    - intros u A. specialize (SP u (AM u A)). apply (spot_alive (z_r z)); auto. destruct (PC u) as [->|E]; auto.
      rewrite E in SP. apply spot_idle in SP; try discriminate. rewrite SP. exact I.
    - intros u A. specialize (LD u (AM u A)). destruct (PC u) as [->|E]; auto. rewrite E in LD. apply load_none in LD; try discriminate.
      rewrite LD. exact I. }
  destruct x as [t c|t race gu|p fd d|p m|t|p];
    try (split; [apply ENV; discriminate | right; split; reflexivity]).
  clear ENV. cbn [z_step z_label z_events actor r_step r_events] in *. destruct (alive (z_r z) t) eqn:AL.
  2:{ split; [exact H|]. left. split; [reflexivity|]. split; [reflexivity | discriminate]. }
  destruct (run_env (z_r z) t (raced z t) gu) as (E1 & E2 & _).
  assert (AE : forall u, alive (r_run (z_r z) t (raced z t) gu) u = alive (z_r z) u) by (intro u; unfold alive; rewrite E1, E2; reflexivity).
  assert (OT : forall u, u <> t -> z_g (z_run z t gu) u = z_g z u /\ z_w (z_run z t gu) u = z_w z u) by (intros; apply z_run_other; auto).
  simpl in NT. destruct (z_run_cases z t gu NT AL H (NO t)) as [(ST & NI & SP & LD)|(MV & MG & MW)]; destruct H as [G NZ SP0 LD0].
  - split; [constructor|left].
    + rewrite ST; auto.
    + rewrite ST; auto.
    + intros u A. rewrite ST in A |- *. destruct (Z.eq_dec u t) as [->|N]; auto. rewrite (proj1 (OT u N)). auto.
    + intros u A. rewrite ST in A |- *. destruct (Z.eq_dec u t) as [->|N]; auto. rewrite (proj2 (OT u N)). auto.
    + split; auto. split; [|discriminate]. rewrite ST. destruct (r_pc (z_r z) t); congruence || reflexivity.
  - split; [constructor|right].
    + rewrite MV. apply GI_run; auto.
    + rewrite MV, guard_run. destruct (r_pc (z_r z) t); auto; try congruence.
      destruct (r_guard (z_r z)) as [u|]; [destruct (alive (z_r z) u); auto|]; congruence.
    + intros u A. rewrite MV in A |- *. rewrite AE in A. destruct (Z.eq_dec u t) as [->|N]; [rewrite MG; exact I|].
      rewrite (proj1 (OT u N)), (proj1 (run_other _ _ _ _ _ N)). apply (spot_alive (z_r z)); auto. intros o. rewrite AE. auto.
    + intros u A. rewrite MV in A |- *. rewrite AE in A. destruct (Z.eq_dec u t) as [->|N]; [rewrite MW; exact I|].
      rewrite (proj2 (OT u N)), (proj1 (run_other _ _ _ _ _ N)). auto.
    + rewrite MV. split; reflexivity.
Qed.

Section Sim.
Variables UF UO UL : list Z.
Variable fds : Z -> Z -> option Z.
Variable mode : Z -> fmode.
Variable allow : Z -> bool.
Notation init := (r_init UF UO UL fds mode allow).

Lemma zinv_init : zinv (z_init init).
Proof.
  constructor; cbn; try discriminate; auto. constructor; cbn; auto; try discriminate.
Qed.

(** every history is one of RwApi_Model.v *)
Lemma spin_sim : forall ok z h, z_history init ok z h -> r_history init ok (z_r z) h /\ zinv z.
Proof.
  intros ok z h H. induction H as [|z x h H [IH ZI] NT OK NO].
  - split; [constructor | apply zinv_init].
  - destruct (zinv_step z x ZI NT NO) as [ZI' [(E & EV & _)|(E & EV)]]; split; auto.
    + rewrite E, EV, app_nil_r. exact IH.
    + rewrite E, EV. constructor; auto.
Qed.
End Sim.

(** the rest of an execution: some steps are dropped, none are added or exchanged *)
Lemma path_sim : forall ok z ls z', z_path ok z ls z' -> zinv z ->
  zinv z' /\ exists ls', r_path ok (z_r z) ls' (z_r z') /\ (forall t c, In (LCall t c) ls' -> In (LCall t c) ls) /\
    (forall t race gu, In (LRun t race gu) ls' -> exists race', In (LRun t race' gu) ls).
Proof.
  intros ok z ls z' P. induction P as [z|z x ls z' NT OK NO P IH]; intro ZI.
  - split; auto. exists []. split; [constructor|]. split; intros; contradiction.
  - destruct (zinv_step z x ZI NT NO) as [ZI' C]. destruct (IH ZI') as (ZE & ls' & P' & C1 & C2). split; auto.
    destruct C as [(E & _)|(E & _)]; rewrite E in P'.
    + exists ls'. split; auto. split; [intros; right; auto|]. intros t race gu I. destruct (C2 t race gu I) as [r' X]. exists r'. right. auto.
    + exists (z_label z x :: ls'). split; [constructor; auto|]. split.
      * intros t c [I|I]; [left | right; auto]. destruct x; simpl in I; congruence.
      * intros t race gu [I|I]; [|destruct (C2 t race gu I) as [r' X]; exists r'; right; auto].
        destruct x; simpl in I; try discriminate. injection I as -> _ ->. eexists. left. reflexivity.
Qed.
