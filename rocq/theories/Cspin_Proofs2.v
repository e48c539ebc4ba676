(** Condition variables with the real list lock: calls that run alone. *)
From Coq Require Import ZArith List Bool Lia Arith Sorted.
From Verif Require Import Base Cond_Model Cond_Spec Cond_Proofs Cond_Proofs2 Cond_Proofs3 Guard_Model Cspin_Model Cspin_Spec Cspin_Proofs.
Import ListNotations.
Open Scope Z_scope.

(** ** Taking the list lock alone *)
Definition y_alone (y : ystate) (t : Z) (cs : list bool) : ystate := fold_left (fun y gu => y_run y t gu) cs y.
Lemma y_alone_app : forall cs cs' y t, y_alone y t (cs ++ cs') = y_alone (y_alone y t cs) t cs'.
Proof. intros. unfold y_alone. apply fold_left_app. Qed.
Lemma guard_of_nz : forall t, t <> 0 -> guard_of t = Some t.
Proof. intros t N. unfold guard_of. destruct (Z.eqb_spec t 0); [contradiction | reflexivity]. Qed.

Section Wait.
Variables (t : Z) (p : cpc) (s : cstate).
Hypothesis T0 : t <> 0.
Hypothesis IN : inside s.
Hypothesis Ep : entry s (c_pc s t) = Some p.

Definition there (y : ystate) (x : gpc) : Prop := y_c y = s /\ y_g y t = x.
Lemma wait_run : forall y x gu, there y x ->
  y_run y t gu = let g := Guard_Model.g_step (Guard_Model.mkG (word_of (c_guard s)) (c_alive s) (upd (y_g y) t x)) t in
    match g_pc g t with
    | GIn => mkY (goto (set_guard s (guard_of (g_word g))) t p) (upd (y_g y) t GIdle)
    | x => mkY (set_guard s (guard_of (g_word g))) (upd (y_g y) t x)
    end.
Proof. intros y x gu (E1 & E2). unfold y_run, y_view. rewrite E1, Ep, E2. reflexivity. Qed.
Definition got (y : ystate) : Prop := y_c y = goto (set_guard s (Some t)) t p /\ y_g y t = GIdle.

Lemma same_guard : set_guard s (guard_of (word_of (c_guard s))) = s.
Proof. rewrite guard_word by auto. apply set_guard_same. Qed.
Ltac fin := cbn [g_pc g_word g_alive]; rewrite ?upd_eq; split; cbn [y_c y_g]; try apply upd_eq; try reflexivity; try apply same_guard.

Lemma wait_start : forall y gu, there y GIdle -> there (y_run y t gu) (GLock 0 0).
Proof. intros y gu H. rewrite (wait_run y GIdle gu H). unfold Guard_Model.g_step. cbn [g_pc]. rewrite upd_eq. fin. Qed.
Lemma wait_free : forall y gu c o, there y (GLock c o) -> c_guard s = None -> got (y_run y t gu).
Proof.
  intros y gu c o H G. rewrite (wait_run y _ gu H). unfold Guard_Model.g_step. cbn [g_pc g_word]. rewrite upd_eq.
  rewrite G. cbn [word_of]. change (0 =? 0) with true. cbv iota. fin. rewrite guard_of_nz; auto.
Qed.

Variable d : Z.
Hypothesis G : c_guard s = Some d.
Hypothesis Dt : d <> t.
Hypothesis DEAD : c_alive s d = false.
Lemma D0 : d <> 0.
Proof. apply (IN d G). Qed.
Lemma set_d : set_guard s (guard_of d) = s.
Proof. rewrite <- same_guard at 2. rewrite G. reflexivity. Qed.

Lemma wait_first : forall y gu, there y (GLock 0 0) -> there (y_run y t gu) (GLock 1 d).
Proof.
  intros y gu H. rewrite (wait_run y _ gu H). unfold Guard_Model.g_step. cbn [g_pc g_word]. rewrite upd_eq.
  rewrite G. cbn [word_of]. rewrite (proj2 (Z.eqb_neq d 0) D0), (proj2 (Z.eqb_neq d t) Dt). cbn [negb].
  unfold g_next. change (0 =? INT_MAX) with false. cbv iota. cbn [Z.add]. fin. apply set_d.
Qed.
Lemma wait_spin : forall y gu c, there y (GLock c d) -> 0 <= c <= TRYLOCK_LIMIT -> there (y_run y t gu) (GLock (c + 1) d).
Proof.
  intros y gu c H Hc. rewrite (wait_run y _ gu H). unfold Guard_Model.g_step. cbn [g_pc g_word]. rewrite upd_eq.
  rewrite G. cbn [word_of]. rewrite (proj2 (Z.eqb_neq d 0) D0), (proj2 (Z.eqb_neq d t) Dt), Z.eqb_refl. cbn [negb].
  unfold TRYLOCK_LIMIT in *. rewrite (proj2 (Z.ltb_ge 1000 c)) by lia.
  unfold g_next. rewrite (proj2 (Z.eqb_neq c INT_MAX)) by (unfold INT_MAX; lia). fin. apply set_d.
Qed.
Lemma wait_spins : forall cs y c, there y (GLock c d) -> 0 <= c -> c + Z.of_nat (length cs) <= TRYLOCK_LIMIT + 1 ->
  there (y_alone y t cs) (GLock (c + Z.of_nat (length cs)) d).
Proof.
  induction cs as [|b cs IH]; intros y c H Hc Hl; cbn [length] in *.
  - replace (c + Z.of_nat 0) with c by lia. exact H.
  - unfold y_alone in *. cbn [fold_left]. replace (c + Z.of_nat (S (length cs))) with (c + 1 + Z.of_nat (length cs)) by lia.
    apply IH; try lia. apply wait_spin; auto. lia.
Qed.
Lemma wait_take : forall y b1 b2 b3, there y (GLock 1001 d) -> got (y_run (y_run (y_run y t b1) t b2) t b3).
Proof.
  intros y b1 b2 b3 H.
  assert (H1 : there (y_run y t b1) (GLockProbe 1001 d)).
  { rewrite (wait_run y _ b1 H). unfold Guard_Model.g_step. cbn [g_pc g_word]. rewrite upd_eq.
    rewrite G. cbn [word_of]. rewrite (proj2 (Z.eqb_neq d 0) D0), (proj2 (Z.eqb_neq d t) Dt), Z.eqb_refl. cbn [negb].
    change (TRYLOCK_LIMIT <? 1001) with true. cbv iota. fin. apply set_d. }
  assert (H2 : there (y_run (y_run y t b1) t b2) (GLockTake 1001 d)).
  { rewrite (wait_run _ _ b2 H1). unfold Guard_Model.g_step. cbn [g_pc g_word g_alive]. rewrite upd_eq, DEAD. fin. }
  rewrite (wait_run _ _ b3 H2). unfold Guard_Model.g_step. cbn [g_pc g_word]. rewrite upd_eq, G. cbn [word_of]. rewrite Z.eqb_refl. fin.
  rewrite guard_of_nz; auto.
Qed.
End Wait.

Lemma wait_all : forall y t p, t <> 0 -> inside (y_c y) -> entry (y_c y) (c_pc (y_c y) t) = Some p -> y_g y t = GIdle ->
  match c_guard (y_c y) with None => True | Some u => u <> t /\ c_alive (y_c y) u = false end ->
  exists N, (1 <= N <= 1005)%nat /\ forall cs, length cs = N -> got t p (y_c y) (y_alone y t cs).
Proof.
  intros y t p T0 IN Ep Eg TK. assert (H : there t (y_c y) y GIdle) by (split; auto).
  destruct (c_guard (y_c y)) as [d|] eqn:EG.
  2:{ exists 2%nat; split; [lia|]; intros [|b1 [|b2 [|]]] L; try discriminate. cbn [y_alone fold_left].
      apply (wait_free t p (y_c y) T0 Ep _ b2 0 0); [|exact EG]. apply (wait_start t p (y_c y)); auto. }
  destruct TK as [Dt DEAD]. exists 1005%nat. split; [lia|]. intros cs L.
  destruct cs as [|b1 [|b2 cs]]; try discriminate. cbn [length] in L.
  assert (L3 : length cs = 1003%nat) by lia. clear L.
  change (b1 :: b2 :: cs) with ([b1; b2] ++ cs). rewrite y_alone_app. rewrite <- (firstn_skipn 1000 cs), y_alone_app.
  assert (LF : length (firstn 1000 cs) = 1000%nat) by (rewrite firstn_length, L3; reflexivity).
  assert (LS : length (skipn 1000 cs) = 3%nat) by (rewrite skipn_length, L3; reflexivity).
  remember (firstn 1000 cs) as c1 eqn:E1. remember (skipn 1000 cs) as c2 eqn:E2. clear E1 E2 L3.
  destruct c2 as [|x1 [|x2 [|x3 [|]]]]; try discriminate.
  change (y_alone ?a t [x1; x2; x3]) with (y_run (y_run (y_run a t x1) t x2) t x3).
  eapply (wait_take t p (y_c y)); eauto.
  replace 1001 with (1 + Z.of_nat (length c1)) by (rewrite LF; reflexivity).
  apply (wait_spins t p (y_c y) IN Ep d); auto; try lia; [|rewrite LF; unfold TRYLOCK_LIMIT; lia].
  change (y_alone y t [b1; b2]) with (y_run (y_run y t b1) t b2).
  apply (wait_first t p (y_c y) IN Ep d); auto. apply (wait_start t p (y_c y)); auto.
Qed.

(** ** One step of Cond_Model.v alone *)
(** no other living thread is between taking and releasing the list lock *)
Definition out (s : cstate) (t : Z) : Prop := forall u, u <> t -> c_alive s u = true -> crit (c_pc s u) = false.

Lemma out_free : forall s t, inside s -> out s t -> c_alive s t = true -> crit (c_pc s t) = false ->
  match c_guard s with None => True | Some u => u <> t /\ c_alive s u = false end.
Proof.
  intros s t IN O AL C. destruct (c_guard s) as [u|] eqn:G; auto. destruct (IN u G) as [_ D]. destruct (c_alive s u) eqn:AU.
  - exfalso. specialize (D eq_refl). destruct (Z.eq_dec u t) as [->|N]; [congruence|]. rewrite (O u N AU) in D. discriminate.
  - split; auto. intros ->. congruence.
Qed.
Lemma take_out : forall s t p, inside s -> out s t -> c_alive s t = true -> crit (c_pc s t) = false -> take_guard s t p = goto (set_guard s (Some t)) t p.
Proof.
  intros s t p IN O AL C. pose proof (out_free s t IN O AL C) as F. unfold take_guard. destruct (c_guard s); auto. destruct F as [_ ->]. reflexivity.
Qed.

Section Alone.
Variable UW : list Z.

Lemma one_step : forall (okb : bool -> Prop) y t, YI UW y -> t <> 0 -> c_alive (y_c y) t = true -> out (y_c y) t -> y_g y t = GIdle ->
  exists N, (1 <= N <= 1005)%nat /\ forall cs, length cs = N -> Forall okb cs ->
    exists b, okb b /\ y_c (y_alone y t cs) = c_run (y_c y) t b /\ y_g (y_alone y t cs) t = GIdle.
Proof.
  intros okb y t H T0 AL O Eg. pose proof (yv_in _ _ H) as IN.
  destruct (entry (y_c y) (c_pc (y_c y) t)) as [p|] eqn:Ee.
  - destruct (entry_crit _ _ _ Ee) as [C1 C2].
    destruct (wait_all y t p T0 IN Ee Eg (out_free _ _ IN O AL C1)) as (N & LN & HN).
    exists N. split; auto. intros cs L F. destruct cs as [|b cs]; [simpl in L; lia|]. exists b. split; [apply (Forall_inv F)|].
    destruct (HN (b :: cs) L) as (HA & HB). split; auto. rewrite HA, (entry_run _ _ p b Ee), take_out; auto.
  - destruct (leaves (c_pc (y_c y) t)) eqn:LV.
    + exists 2%nat. split; [lia|]. intros [|b1 [|b2 [|]]] L F; try discriminate. exists b2. split; [apply (Forall_inv (Forall_inv_tail F))|].
      assert (GT : c_guard (y_c y) = Some t) by (eapply ci_guard; [apply H | auto | apply leaves_crit; auto]).
      assert (X : y_run y t b1 = mkY (y_c y) (upd (y_g y) t (GUnlock 0 0))).
      { unfold y_run, y_view. rewrite Ee, LV, Eg. unfold Guard_Model.g_step. cbn [g_pc g_word]. rewrite upd_eq. cbn [g_pc g_word]. rewrite upd_eq.
        rewrite guard_word, set_guard_same; auto. }
      cbn [y_alone fold_left]. rewrite X. unfold y_run, y_view. cbn [y_c y_g]. rewrite Ee, LV, upd_eq. unfold Guard_Model.g_step. cbn [g_pc g_word g_alive]. rewrite upd_eq.
      rewrite GT. cbn [word_of]. rewrite Z.eqb_refl. cbn [g_pc g_word]. rewrite upd_eq. cbn [y_c y_g]. rewrite upd_eq.
      split; auto. apply leave_run; auto.
    + exists 1%nat. split; [lia|]. intros [|b [|]] L F; try discriminate. exists b. split; [apply (Forall_inv F)|].
      cbn [y_alone fold_left]. unfold y_run. rewrite Ee, LV. cbn [y_c y_g]. auto.
Qed.

Lemma idle_stays : forall cs y t, c_pc (y_c y) t = CIdle -> y_alone y t cs = y.
Proof.
  induction cs as [|b cs IH]; intros y t E; auto. unfold y_alone in *. cbn [fold_left].
  assert (X : y_run y t b = y) by (unfold y_run, c_run; rewrite E; destruct y; reflexivity). rewrite X. auto.
Qed.
Lemma alone_other : forall cs y t u, u <> t -> y_g (y_alone y t cs) u = y_g y u.
Proof.
  induction cs as [|b cs IH]; intros y t u N; auto. unfold y_alone in *. cbn [fold_left]. rewrite (IH (y_run y t b) t u N). apply y_run_other; auto.
Qed.
(** overflow is for ever *)
Lemma overflow_stays : forall y t b, y_g y t = GUB -> y_g (y_run y t b) t = GUB.
Proof.
  intros y t b E. unfold y_run. destruct (entry _ _); [|destruct (leaves _)]; [ | |exact E]; rewrite E; unfold Guard_Model.g_step; cbn [y_view g_pc]; rewrite !upd_eq;
    cbn [g_pc y_view]; rewrite ?upd_eq; cbn [y_g]; apply upd_eq.
Qed.
Lemma overflow_alone : forall cs y t, y_g y t = GUB -> y_g (y_alone y t cs) t = GUB.
Proof. induction cs as [|b cs IH]; intros y t E; auto. unfold y_alone in *. cbn [fold_left]. apply IH, overflow_stays, E. Qed.

Lemma YI_alone : forall y y' t b, YI UW y -> t <> 0 -> c_alive (y_c y) t = true -> y_c y' = c_run (y_c y) t b -> y_g y' t = GIdle ->
  (forall u, u <> t -> y_g y' u = y_g y u) -> YI UW y'.
Proof.
  intros y y' t b H T0 AL E Eg OT. constructor.
  - rewrite E. apply CI_run; [apply H | auto].
  - rewrite E. apply inside_run; [apply H | auto | auto].
  - intros u A. rewrite E, run_alive in A. rewrite E. destruct (Z.eq_dec u t) as [->|N]; [rewrite Eg; exact I|].
    rewrite OT, run_pc by auto. eapply spot_mono; [|apply (yv_spots _ _ H u A)]. intros o. rewrite run_alive. auto.
Qed.

(** what a call does alone in Cond_Model.v it does here *)
Definition c_alone (s : cstate) (t : Z) (cs : list bool) : cstate := fold_left (fun s gu => c_run s t gu) cs s.
Definition within (okb : bool -> Prop) (n : nat) (s : cstate) (t : Z) (P : cstate -> Prop) : Prop :=
  forall cs, length cs = n -> Forall okb cs -> P (c_alone s t cs).

Lemma out_run : forall s t b, out s t -> out (c_run s t b) t.
Proof. intros s t b O u N A. rewrite run_alive in A. rewrite run_pc; auto. Qed.

Lemma lift : forall (okb : bool -> Prop) n y t (P : cstate -> Prop), YI UW y -> t <> 0 -> c_alive (y_c y) t = true ->
  out (y_c y) t -> y_g y t = GIdle -> (forall s, P s -> c_pc s t = CIdle) -> within okb n (y_c y) t P ->
  forall cs, (1005 * n <= length cs)%nat -> Forall okb cs -> P (y_c (y_alone y t cs)) /\ y_g (y_alone y t cs) t = GIdle.
Proof.
  intros okb. induction n as [|n IH]; intros y t P H T0 AL OI Eg PI W cs L F.
  - assert (P0 : P (y_c y)) by (apply (W []); auto). rewrite idle_stays; auto.
  - destruct (one_step okb y t H T0 AL OI Eg) as (N & LN & HN).
    rewrite <- (firstn_skipn N cs) in F |- *. apply Forall_app in F as [F1 F2]. rewrite y_alone_app.
    assert (LF : length (firstn N cs) = N) by (rewrite firstn_length; lia).
    destruct (HN _ LF F1) as (b & OB & E1 & E2).
    apply IH; auto.
    + apply (YI_alone y _ t b H T0 AL E1 E2). intros u NU. apply alone_other; auto.
    + rewrite E1, run_alive. auto.
    + rewrite E1. apply out_run, OI.
    + rewrite E1. intros bs LB FB. apply (W (b :: bs)); [simpl; auto | constructor; auto].
    + rewrite skipn_length. lia.
Qed.

(** the run as an execution *)
Lemma alone_path : forall (ok : cstate -> clabel -> Prop) cs y t, (forall s b, ok s (XRun t b)) -> t <> 0 -> c_alive (y_c y) t = true -> y_no_overflow y -> YI UW y ->
  y_g (y_alone y t cs) t <> GUB -> y_path ok y (map (XRun t) cs) (y_alone y t cs).
Proof.
  intros ok cs y t OK T0. revert y. induction cs as [|b cs IH]; intros y AL NO H NU; [constructor|].
  assert (A : c_alive (y_c y) t && negb (t =? 0) = true) by (rewrite AL; apply negb_true_iff, Z.eqb_neq, T0).
  assert (E : y_step y (XRun t b) = y_run y t b) by (cbn [y_step]; rewrite A; reflexivity).
  assert (NO' : y_no_overflow (y_run y t b)).
  { intros u. destruct (Z.eq_dec u t) as [->|N]; [|rewrite y_run_other; auto]. intro Q. apply NU. unfold y_alone. cbn [fold_left]. apply (overflow_alone cs), Q. }
  cbn [map]. constructor; auto; rewrite E; auto. unfold y_alone. cbn [fold_left]. apply IH; auto.
  - destruct (y_run_cases y t b T0 AL (YI_yinv UW y H) (NO' t)) as [(Q & _)|(Q & _)]; rewrite Q; rewrite ?run_alive; auto.
  - rewrite <- E. apply YI_step; auto. rewrite E. exact NO'.
Qed.

(** ** Every call ends *)
Definition sum (s : cstate) (cs : list Z) : nat := fold_right (fun c n => (length (c_wl s c) + 2 + n)%nat) O cs.
Definition left_to_do (s : cstate) (p : cpc) : nat :=
  match p with
  | CIdle => 0 | ML _ _ | MU _ => 1
  | WG _ => 13 | WN _ => 12 | WR _ => 11 | WI _ _ => 10 | WD _ _ => 9 | WS _ _ => 8 | WU _ _ => 7 | WB _ _ _ | WW _ _ => 6
  | WL _ _ _ => 5 | WJ _ _ _ => 4 | WC _ _ _ => 3 | WP _ _ _ => 2 | CX _ => 1
  | SG c _ => 2 * length (c_wl s c) + 5
  | SF c _ => 2 * length (c_wl s c) + 4
  | SS _ ws _ => length ws + 3
  | SW _ _ => 2
  | SB _ ws => 2 * length ws + 2
  | SU _ _ ws => 2 * length ws + 3
  | RG => sum s (c_conds s) + 3
  | RP cs None => sum s cs + 2
  | RP [] (Some _) => 2
  | RP (_ :: cs) (Some ws) => sum s cs + length ws + 3
  end%nat.

(** the step of [t] does not wait *)
Definition goes (s : cstate) (t : Z) (g : bool) : Prop :=
  match c_pc s t with
  | ML m k => can_lock s m t = true \/ k = KTry \/ (k = KTimed /\ g = true)
  | WW a w => w_wait (c_w s w) = false \/ (a_k a <> KBlock /\ g = true)
  | WL a w _ => can_lock s (w_mtx (c_w s w)) t = true \/ a_k a = KTry \/ (a_k a = KTimed /\ g = true)
  | _ => True
  end.

Lemma cutoff_len : forall w l, (length (cutoff w l) <= length l)%nat.
Proof. intros w l. unfold cutoff. induction l as [|x l IH]; cbn; [lia|]. destruct (negb _); cbn; lia. Qed.
Lemma sum_le : forall s s' cs, (forall c, (length (c_wl s' c) <= length (c_wl s c))%nat) -> (sum s' cs <= sum s cs)%nat.
Proof. intros s s' cs H. induction cs as [|c cs IH]; cbn; [lia|]. specialize (H c). fold (sum s' cs) (sum s cs). lia. Qed.

Lemma run_less : forall s t g, inside s -> out s t -> c_alive s t = true -> goes s t g -> c_pc s t <> CIdle ->
  (left_to_do (c_run s t g) (c_pc (c_run s t g) t) < left_to_do s (c_pc s t))%nat.
Proof.
  intros s t g IN O AL GO NI.
  assert (PG : forall s' p, c_pc (goto s' t p) t = p) by (intros; cbn; apply upd_eq).
  assert (PR : forall s' r, c_pc (ret s' t r) t = CIdle) by (intros; cbn; apply upd_eq).
  assert (LG : forall s' p q, left_to_do (goto s' t p) q = left_to_do s' q).
  { reflexivity. }
  pose proof (take_out s t) as TK. unfold goes in GO. unfold c_run.
  destruct (c_pc s t) as [|m k|m|a|a|a|a w|a w|a w|a w|a w r|a w|a w r|a w r|a w r|a w r|r|c b|c b|c ws l|c w|c ws|c w ws| |cs ws] eqn:Ep; cbn [crit] in TK; try contradiction;
    rewrite ?TK by auto; try (rewrite ?PG, ?PR, ?LG; cbn; lia).
  - destruct (can_lock s m t); [rewrite PR; cbn; lia|]. destruct GO as [GO|[->|[-> ->]]]; [discriminate|..]; rewrite PR; cbn; lia.
  - destruct (mem _ _); [|destruct (c_cfree s)]; rewrite PG; cbn; lia.
  - destruct (c_pool s); rewrite PG; cbn; lia.
  - cbv zeta. rewrite PG. destruct (_ =? OK); cbn; lia.
  - destruct (w_wait (c_w s w)); [|rewrite PG; cbn; lia]. destruct GO as [GO|[K ->]]; [discriminate|]. destruct (a_k a); try contradiction; rewrite PG; cbn; lia.
  - cbv zeta. destruct (can_lock s _ t); [rewrite PG; cbn; lia|]. destruct GO as [GO|[->|[-> ->]]]; [discriminate|..]; rewrite PG; cbn; lia.
  - destruct (mem _ _); rewrite PG; cbn; lia.
  - destruct (mem _ _); [destruct b|]; rewrite PG, LG; cbn; lia.
  - destruct ws as [|w ws]; [destruct l|]; rewrite PG; cbn; lia.
  - destruct ws as [|w ws]; [|destruct (w_wait _)]; rewrite PG; cbn; lia.
  - rewrite PG, LG. cbn. change (sum (set_guard s (Some t)) (c_conds s)) with (sum s (c_conds s)). destruct (c_conds s); lia.
  - destruct cs as [|c cs]; [destruct ws; rewrite PG; cbn; lia|]. destruct ws as [[|w ws]|].
    + rewrite PG, LG. destruct cs; cbn; lia.
    + cbv zeta. rewrite PG, LG. cbn [left_to_do length].
      match goal with |- (sum ?s' cs + _ + _ < _)%nat => assert (X : (sum s' cs <= sum s cs)%nat) end.
      { apply sum_le. intro c'. destruct (_ && _); auto. cbn. destruct (Z.eq_dec c' c) as [->|N]; [rewrite upd_eq; apply cutoff_len | rewrite upd_neq; auto]. }
      lia.
    + rewrite PG, LG. cbn [left_to_do length sum fold_right]. fold (sum s cs). lia.
Qed.

(** a run in which every step goes on ends *)
Lemma ends : forall (okb : bool -> Prop) (K : cstate -> Prop) (P : cstate -> Prop) t,
  (forall s g, K s -> okb g -> c_pc s t <> CIdle -> goes s t g) ->
  (forall s g, CI UW s -> inside s -> out s t -> c_alive s t = true -> K s -> okb g -> K (c_run s t g)) ->
  (forall s, K s -> c_pc s t = CIdle -> P s) ->
  forall n s, CI UW s -> inside s -> out s t -> c_alive s t = true -> t <> 0 -> K s -> (left_to_do s (c_pc s t) <= n)%nat -> within okb n s t P.
Proof.
  intros okb K P t KG KS KP. induction n as [|n IH]; intros s H IN O AL T0 KK L cs LC F.
  - destruct cs; [|discriminate]. cbn. apply KP; auto. destruct (c_pc s t) as [| | | | | | | | | | | | | | | | | | | | | | | |cs [ws|]]; cbn in L; try lia; auto; destruct cs; cbn in L; lia.
  - destruct cs as [|b cs]; [discriminate|]. cbn [c_alone fold_left]. apply (IH (c_run s t b)); auto.
    + apply CI_run; auto.
    + apply inside_run; auto.
    + apply out_run; auto.
    + rewrite run_alive; auto.
    + apply KS; auto. apply (Forall_inv F).
    + assert (NE : c_pc s t = CIdle \/ c_pc s t <> CIdle) by (destruct (c_pc s t); auto; right; discriminate).
      destruct NE as [E|NE]; [unfold c_run; rewrite E; rewrite E; cbn; lia|].
      pose proof (run_less s t b IN O AL (KG s b KK (Forall_inv F) NE) NE). lia.
    + apply (Forall_inv_tail F).
Qed.
End Alone.
