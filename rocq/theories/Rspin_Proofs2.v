(** Read/write locks with the real primitives: calls that run alone. *)
From Coq Require Import ZArith List Bool Lia Arith.
From Verif Require Import Base RwWord_Model RwApi_Model RwApi_Spec RwApi_Proofs RwApi_Proofs2 RwApi_Proofs3 RwApi_Proofs9
  RwLin_Spec Guard_Model Rspin_Model Rspin_Proofs.
Import ListNotations.
Open Scope Z_scope.

(** ** Lock words are never below -1, on every schedule *)
Definition words (h : heap) : Prop := forall o, RW_WLOCK <= o_val (h_o h o).

Lemma unlock_word_low : forall v, RW_WLOCK <= v -> RW_WLOCK <= unlock_word v.
Proof. intros v H. unfold unlock_word, RW_UNLOCK, RW_WLOCK in *. destruct (v =? 0); auto. destruct (Z.leb_spec v (-1)); lia. Qed.
Lemma lock_word_low : forall k v, word_permits k v = true -> RW_WLOCK <= lock_word k v.
Proof. intros [] v H; unfold word_permits, lock_word, RW_UNLOCK, RW_WLOCK in *; [apply Z.leb_le in H|]; lia. Qed.

Lemma words_set_o : forall h o r, words h -> RW_WLOCK <= o_val r -> words (set_o h o r).
Proof. intros h o r H V o'. unfold set_o. cbn [h_o]. destruct (upd_cases _ (h_o h) o r o') as [[_ ->]|[_ ->]]; auto. Qed.
Lemma words_same : forall h h', words h -> h_o h' = h_o h -> words h'.
Proof. intros h h' H E o. rewrite E. apply H. Qed.
Lemma words_list : forall h o k x, words h -> RW_WLOCK <= o_val (o_set_list (h_o h o) k x).
Proof. intros h o [] x H; apply H. Qed.

Lemma words_drop_locker : forall h o k l, words h -> words (drop_locker h o k l).
Proof. intros h o k l H. unfold drop_locker. eapply words_same; [|reflexivity]. apply words_set_o; auto. apply words_list; auto. Qed.
Lemma words_check : forall s priv exc dev o k l, words (r_h s) -> words (check_locker s priv exc dev o k l).
Proof.
  intros s priv exc dev o k l H. unfold check_locker. destruct (match exc with Some (t, fd) => _ | None => false end); auto.
  destruct (_ && _); auto. eapply words_same; [|reflexivity]. apply words_drop_locker. destruct (l_locked _); auto.
  apply words_set_o; auto. apply unlock_word_low. apply H.
Qed.
Lemma words_free_lockers : forall h o, words h -> words (free_lockers h o).
Proof. intros h o H. unfold free_lockers. eapply words_same; [|reflexivity]. apply words_set_o; auto. apply (H o). Qed.
Lemma words_free_offs : forall h f, words h -> words (free_offs h f).
Proof.
  intros h f H. unfold free_offs. eapply words_same; [|reflexivity]. generalize (f_offs (h_f h f)). intro os. revert h H.
  induction os as [|o os IH]; intros h H; auto. cbn [fold_left]. apply IH. eapply words_same; [|reflexivity]. apply words_free_lockers; auto.
Qed.

Ltac wsolve := match goal with
  | |- words (set_st ?h _ _) => apply (words_same h); [|reflexivity]
  | |- words (set_l ?h _ _) => apply (words_same h); [|reflexivity]
  | |- words (set_lfree ?h _) => apply (words_same h); [|reflexivity]
  | |- words (set_ofree ?h _) => apply (words_same h); [|reflexivity]
  | |- words (set_f ?h _ _) => apply (words_same h); [|reflexivity]
  | |- words (set_files ?h _ _) => apply (words_same h); [|reflexivity]
  | |- words (drop_off ?h _ _) => apply (words_same h); [|reflexivity]
  | |- words (drop_file ?h _) => apply (words_same h); [|reflexivity]
  | |- words (drop_locker _ _ _ _) => apply words_drop_locker
  | |- words (check_locker _ _ _ _ _ _ _) => apply words_check
  | |- words (free_offs _ _) => apply words_free_offs
  | |- words (set_o _ _ _) => apply words_set_o
  | H : words ?h |- words ?h => exact H
  end.
Lemma words_run : forall s t race gu, words (r_h s) -> words (r_h (r_run s t race gu)).
Proof.
  intros s t race gu H. unfold r_run, pass_step. destruct (r_pc s t) eqn:Ep;
    repeat match goal with |- context [match ?x with _ => _ end] => destruct x eqn:? end; cbn [r_h goto set_h ret set_guard]; auto;
    repeat wsolve; cbn [o_val o_set_prot o_set_val]; try apply H; try (apply unlock_word_low; apply H); try (unfold RW_UNLOCK, RW_WLOCK; lia).
  all: try (match goal with |- RW_WLOCK <= o_val (o_set_list (h_o ?h _) _ _) => apply words_list end; repeat wsolve; auto; fail).
  - match goal with |- RW_WLOCK <= o_val (h_o ?h2 ?o) => assert (W : words h2); [|apply (W o)] end.
    repeat wsolve. match goal with |- RW_WLOCK <= o_val (o_set_list (h_o ?h _) _ _) => apply words_list end. repeat wsolve.
  - apply lock_word_low. match goal with H : _ && _ = true |- _ => apply andb_true_iff in H; apply H end.
Qed.
Lemma words_step : forall s x, words (r_h s) -> words (r_h (r_step s x)).
Proof.
  intros s x H. destruct x as [t c|t race gu|p fd d|p m|t|p]; cbn [r_step]; auto.
  - destruct (alive s t); auto. destruct (r_pc s t); auto. rewrite call_heap. exact H.
  - destruct (alive s t); auto. apply words_run; auto.
Qed.
Lemma words_reach : forall UF UO UL fds mode allow ok s h, r_history (r_init UF UO UL fds mode allow) ok s h -> words (r_h s).
Proof.
  intros UF UO UL fds mode allow ok s h H. induction H; [|apply words_step; auto]. intro o. cbn. unfold RW_UNLOCK, RW_WLOCK. lia.
Qed.

(** ** Taking the list lock alone *)
Definition z_alone (z : zstate) (t : Z) (cs : list bool) : zstate := fold_left (fun z gu => z_run z t gu) cs z.
Lemma z_alone_app : forall cs cs' z t, z_alone z t (cs ++ cs') = z_alone (z_alone z t cs) t cs'.
Proof. intros. unfold z_alone. apply fold_left_app. Qed.

Section Wait.
Variables (t : Z) (p : rpc) (s : rstate) (w : Z -> option Z).
Hypothesis T0 : t <> 0.
Hypothesis NZ : r_guard s <> Some 0.
Hypothesis Ep : r_pc s t = RWait p.

Definition there (z : zstate) (x : gpc) : Prop := z_r z = s /\ z_g z t = x /\ z_w z = w.

Lemma wait_run : forall z x gu, there z x ->
  z_run z t gu = let g := Guard_Model.g_step (Guard_Model.mkG (word_of (r_guard s)) (alive s) (upd (z_g z) t x)) t in
    match g_pc g t with
    | GIn => mkZ (goto (set_guard s (guard_of (g_word g))) t p) (upd (z_g z) t GIdle) w
    | x => mkZ (set_guard s (guard_of (g_word g))) (upd (z_g z) t x) w
    end.
Proof. intros z x gu (E1 & E2 & E3). unfold z_run, z_view. rewrite E1, Ep, E2, E3. reflexivity. Qed.

Definition got (z : zstate) : Prop := z_r z = goto (set_guard s (Some t)) t p /\ z_g z t = GIdle /\ z_w z = w.

Ltac fin := cbn [g_pc g_word g_alive]; rewrite ?upd_eq; (split; [|split]); cbn [z_r z_g z_w]; try apply upd_eq; try reflexivity; try (apply set_guard_same; exact NZ).

Lemma wait_start : forall z gu, there z GIdle -> there (z_run z t gu) (GLock 0 0).
Proof.
  intros z gu H. rewrite (wait_run z GIdle gu H). unfold Guard_Model.g_step. cbn [g_pc]. rewrite upd_eq. fin.
Qed.
Lemma wait_free : forall z gu c o, there z (GLock c o) -> r_guard s = None -> got (z_run z t gu).
Proof.
  intros z gu c o H G. rewrite (wait_run z _ gu H). unfold Guard_Model.g_step. cbn [g_pc g_word]. rewrite upd_eq.
  rewrite G. cbn [word_of]. change (0 =? 0) with true. cbv iota. fin. rewrite guard_of_nz; auto.
Qed.

Variable d : Z.
Hypothesis G : r_guard s = Some d.
Hypothesis Dt : d <> t.
Hypothesis DEAD : alive s d = false.
Lemma D0 : d <> 0.
Proof. intros ->. auto. Qed.

Lemma set_d : set_guard s (guard_of d) = s.
Proof. rewrite <- (set_guard_same s NZ) at 2. rewrite G. reflexivity. Qed.

Lemma wait_first : forall z gu, there z (GLock 0 0) -> there (z_run z t gu) (GLock 1 d).
Proof.
  intros z gu H. rewrite (wait_run z _ gu H). unfold Guard_Model.g_step. cbn [g_pc g_word]. rewrite upd_eq.
  rewrite G. cbn [word_of]. rewrite (proj2 (Z.eqb_neq d 0) D0), (proj2 (Z.eqb_neq d t) Dt). cbn [negb].
  unfold g_next. change (0 =? INT_MAX) with false. cbv iota. cbn [Z.add]. fin. apply set_d.
Qed.
Lemma wait_spin : forall z gu c, there z (GLock c d) -> 0 <= c <= TRYLOCK_LIMIT -> there (z_run z t gu) (GLock (c + 1) d).
Proof.
  intros z gu c H Hc. rewrite (wait_run z _ gu H). unfold Guard_Model.g_step. cbn [g_pc g_word]. rewrite upd_eq.
  rewrite G. cbn [word_of]. rewrite (proj2 (Z.eqb_neq d 0) D0), (proj2 (Z.eqb_neq d t) Dt), Z.eqb_refl. cbn [negb].
  unfold TRYLOCK_LIMIT in *. rewrite (proj2 (Z.ltb_ge 1000 c)) by lia.
  unfold g_next. rewrite (proj2 (Z.eqb_neq c INT_MAX)) by (unfold INT_MAX; lia). fin. apply set_d.
Qed.
Lemma wait_spins : forall cs z c, there z (GLock c d) -> 0 <= c -> c + Z.of_nat (length cs) <= TRYLOCK_LIMIT + 1 ->
  there (z_alone z t cs) (GLock (c + Z.of_nat (length cs)) d).
Proof.
  induction cs as [|b cs IH]; intros z c H Hc Hl; cbn [length] in *.
  - replace (c + Z.of_nat 0) with c by lia. exact H.
  - unfold z_alone in *. cbn [fold_left]. replace (c + Z.of_nat (S (length cs))) with (c + 1 + Z.of_nat (length cs)) by lia.
    apply IH; try lia. apply wait_spin; auto. lia.
Qed.
Lemma wait_take : forall z b1 b2 b3, there z (GLock 1001 d) -> got (z_run (z_run (z_run z t b1) t b2) t b3).
Proof.
  intros z b1 b2 b3 H.
  assert (H1 : there (z_run z t b1) (GLockProbe 1001 d)).
  { rewrite (wait_run z _ b1 H). unfold Guard_Model.g_step. cbn [g_pc g_word]. rewrite upd_eq.
    rewrite G. cbn [word_of]. rewrite (proj2 (Z.eqb_neq d 0) D0), (proj2 (Z.eqb_neq d t) Dt), Z.eqb_refl. cbn [negb].
    change (TRYLOCK_LIMIT <? 1001) with true. cbv iota. fin. apply set_d. }
  assert (H2 : there (z_run (z_run z t b1) t b2) (GLockTake 1001 d)).
  { rewrite (wait_run _ _ b2 H1). unfold Guard_Model.g_step. cbn [g_pc g_word g_alive]. rewrite upd_eq, DEAD. fin. }
  rewrite (wait_run _ _ b3 H2). unfold Guard_Model.g_step. cbn [g_pc g_word]. rewrite upd_eq, G. cbn [word_of]. rewrite Z.eqb_refl. fin.
  rewrite guard_of_nz; auto.
Qed.
End Wait.

Lemma wait_all : forall z t p, t <> 0 -> r_guard (z_r z) <> Some 0 -> r_pc (z_r z) t = RWait p -> z_g z t = GIdle ->
  match r_guard (z_r z) with None => True | Some u => u <> t /\ alive (z_r z) u = false end ->
  exists N, (1 <= N <= 1005)%nat /\ forall cs, length cs = N -> got t p (z_r z) (z_w z) (z_alone z t cs).
Proof.
  intros z t p T0 NZ Ep Eg TK. assert (H : there t (z_r z) (z_w z) z GIdle) by (repeat split; auto).
  destruct (r_guard (z_r z)) as [d|] eqn:EG.
  2:{ exists 2%nat; split; [lia|]; intros [|b1 [|b2 [|]]] L; try discriminate; cbn [z_alone fold_left].
      apply (wait_free t p (z_r z) (z_w z) T0 Ep _ b2 0 0); [|exact EG]. apply (wait_start t p (z_r z)); auto. congruence. }
  destruct TK as [Dt DEAD]. exists 1005%nat. split; [lia|]. intros cs L.
  destruct cs as [|b1 [|b2 cs]]; try discriminate. cbn [length] in L.
  assert (L3 : length cs = 1003%nat) by lia. clear L.
  change (b1 :: b2 :: cs) with ([b1; b2] ++ cs). rewrite z_alone_app. rewrite <- (firstn_skipn 1000 cs), z_alone_app.
  assert (LF : length (firstn 1000 cs) = 1000%nat) by (rewrite firstn_length, L3; reflexivity).
  assert (LS : length (skipn 1000 cs) = 3%nat) by (rewrite skipn_length, L3; reflexivity).
  remember (firstn 1000 cs) as c1 eqn:E1. remember (skipn 1000 cs) as c2 eqn:E2. clear E1 E2 L3.
  destruct c2 as [|x1 [|x2 [|x3 [|]]]]; try discriminate.
  change (z_alone ?a t [x1; x2; x3]) with (z_run (z_run (z_run a t x1) t x2) t x3).
  assert (NZ' : r_guard (z_r z) <> Some 0) by congruence.
  eapply (wait_take t p (z_r z) (z_w z)); eauto.
  replace 1001 with (1 + Z.of_nat (length c1)) by (rewrite LF; reflexivity).
  apply (wait_spins t p (z_r z) (z_w z) NZ' Ep d); auto; try lia; [|rewrite LF; unfold TRYLOCK_LIMIT; lia].
  change (z_alone z t [b1; b2]) with (z_run (z_run z t b1) t b2).
  apply (wait_first t p (z_r z) (z_w z) NZ' Ep d); auto. apply (wait_start t p (z_r z)); auto.
Qed.

(** ** One step of RwApi_Model.v alone *)
Definition rest_idle (s : rstate) (t : Z) : Prop := forall u, u <> t -> alive s u = true -> r_pc s u = RIdle.

Lemma one_step : forall (okb : bool -> Prop) z t, zinv z -> words (r_h (z_r z)) -> t <> 0 -> alive (z_r z) t = true -> rest_idle (z_r z) t ->
  z_g z t = GIdle -> z_w z t = None ->
  exists N, (1 <= N <= 1005)%nat /\ forall cs, length cs = N -> Forall okb cs ->
    exists b, okb b /\ z_r (z_alone z t cs) = r_run (z_r z) t false b /\ z_g (z_alone z t cs) t = GIdle /\ z_w (z_alone z t cs) t = None.
Proof.
  intros okb z t ZI WD T0 AL OI Eg Ew. destruct ZI as [GI0 NZ _ _].
  assert (D1 : (forall gu, z_r (z_run z t gu) = r_run (z_r z) t false gu /\ z_g (z_run z t gu) t = GIdle /\ z_w (z_run z t gu) t = None) ->
    exists N, (1 <= N <= 1005)%nat /\ forall cs, length cs = N -> Forall okb cs ->
    exists b, okb b /\ z_r (z_alone z t cs) = r_run (z_r z) t false b /\ z_g (z_alone z t cs) t = GIdle /\ z_w (z_alone z t cs) t = None).
  { intro H. exists 1%nat. split; [lia|]. intros [|b [|]] L F; try discriminate. exists b. split; [apply (Forall_inv F)|]. apply H. }
  assert (D2 : (forall b1 b2, let z' := z_run (z_run z t b1) t b2 in z_r z' = r_run (z_r z) t false b2 /\ z_g z' t = GIdle /\ z_w z' t = None) ->
    exists N, (1 <= N <= 1005)%nat /\ forall cs, length cs = N -> Forall okb cs ->
    exists b, okb b /\ z_r (z_alone z t cs) = r_run (z_r z) t false b /\ z_g (z_alone z t cs) t = GIdle /\ z_w (z_alone z t cs) t = None).
  { intro H. exists 2%nat. split; [lia|]. intros [|b1 [|b2 [|]]] L F; try discriminate. exists b2. split; [apply (Forall_inv (Forall_inv_tail F))|]. apply H. }
  destruct (r_pc (z_r z) t) as [ |p|p|e0|a|a f|a f o|a f o l|a f o l|a f o l|a f o l ls|a f o e0|a f e0|a e0|a|a f o k l|a f o k l|a f o|a f|a|priv|priv fs os ls] eqn:Ep;
    try (apply D1; intro gu; unfold z_run; rewrite Ep; cbn [z_r z_g z_w]; auto; fail).
  - destruct (wait_all z t p T0 NZ Ep Eg) as (N & LN & HN).
    { destruct (r_guard (z_r z)) as [u|] eqn:EG; auto. destruct (alive (z_r z) u) eqn:AU.
      - exfalso. pose proof (gi_in _ GI0 u EG AU) as C. destruct (Z.eq_dec u t) as [->|N]; [rewrite Ep in C|rewrite (OI u N AU) in C]; discriminate.
      - split; auto. intros ->. congruence. }
    exists N. split; auto. intros cs L F. destruct cs as [|b cs]; [simpl in L; lia|]. exists b. split; [apply (Forall_inv F)|].
    destruct (HN (b :: cs) L) as (HA & HB & HC). split; [|split; [exact HB | rewrite HC; exact Ew]].
    rewrite HA. unfold r_run. rewrite Ep. destruct (r_guard (z_r z)) as [u|] eqn:EG; auto. destruct (alive (z_r z) u) eqn:AU; auto.
    exfalso. pose proof (gi_in _ GI0 u EG AU) as C. destruct (Z.eq_dec u t) as [->|N']; [rewrite Ep in C|rewrite (OI u N' AU) in C]; discriminate.
  - apply D2. intros b1 b2. assert (GT : r_guard (z_r z) = Some t) by (apply (gi_crit _ GI0 t AL); rewrite Ep; reflexivity).
    assert (X : z_run z t b1 = mkZ (z_r z) (upd (z_g z) t (GUnlock 0 0)) (z_w z)).
    { unfold z_run, z_view. rewrite Ep, Eg. unfold Guard_Model.g_step. cbn [g_pc g_word]. rewrite upd_eq. cbn [g_pc g_word]. rewrite upd_eq.
      rewrite set_guard_same; auto. }
    rewrite X. unfold z_run, z_view. cbn [z_r z_g z_w]. rewrite Ep, upd_eq. unfold Guard_Model.g_step. cbn [g_pc g_word g_alive]. rewrite upd_eq.
    rewrite GT. cbn [word_of]. rewrite Z.eqb_refl. cbn [g_pc g_word]. rewrite upd_eq. cbn [z_r z_g z_w]. rewrite upd_eq.
    split; [|auto]. unfold r_run. rewrite Ep. reflexivity.
  - destruct (a_kind a) eqn:EK.
    + destruct (o_val (h_o (r_h (z_r z)) o) <? RW_UNLOCK) eqn:EV.
      * apply D1. intro gu. unfold z_run. rewrite Ep, EK, Ew, EV. cbn [z_r z_g z_w]. auto.
      * apply D2. intros b1 b2.
        assert (X : z_run z t b1 = mkZ (z_r z) (z_g z) (upd (z_w z) t (Some (o_val (h_o (r_h (z_r z)) o))))) by (unfold z_run; rewrite Ep, EK, Ew, EV; reflexivity).
        rewrite X. unfold z_run, raced. cbn [z_r z_g z_w]. rewrite Ep, EK, upd_eq. cbn [z_r z_g z_w]. rewrite upd_eq, Z.eqb_refl. auto.
    + apply D1. intro gu. unfold z_run. rewrite Ep, EK. cbn [z_r z_g z_w]. auto.
  - destruct (unlock_target (r_h (z_r z)) t a) as [o|] eqn:ET.
    + destruct (o_val (h_o (r_h (z_r z)) o) =? RW_UNLOCK) eqn:EV.
      * apply D1. intro gu. unfold z_run. rewrite Ep, ET, Ew, EV. cbn [z_r z_g z_w]. auto.
      * apply D2. intros b1 b2. pose proof (WD o) as V.
        assert (X : z_run z t b1 = mkZ (z_r z) (z_g z) (upd (z_w z) t (Some (o_val (h_o (r_h (z_r z)) o))))).
        { unfold z_run; rewrite Ep, ET, Ew, EV. destruct (Z.leb_spec (o_val (h_o (r_h (z_r z)) o)) RW_WLOCK) as [Q|Q]; [|reflexivity].
          replace (o_val (h_o (r_h (z_r z)) o)) with RW_WLOCK by lia. reflexivity. }
        rewrite X. unfold z_run. cbn [z_r z_g z_w]. rewrite Ep, ET, upd_eq, Z.eqb_refl. cbn [z_r z_g z_w]. rewrite upd_eq. auto.
    + apply D1. intro gu. unfold z_run. rewrite Ep, ET. cbn [z_r z_g z_w]. rewrite upd_eq. auto.
Qed.

Lemma idle_stays : forall cs z t, r_pc (z_r z) t = RIdle -> z_alone z t cs = z.
Proof.
  induction cs as [|b cs IH]; intros z t E; auto. unfold z_alone in *. cbn [fold_left].
  assert (X : z_run z t b = z) by (unfold z_run, r_run; rewrite E; destruct z; reflexivity).
  rewrite X. auto.
Qed.

(** what a call does alone in RwApi_Model.v it does here *)
Definition r_alone (s : rstate) (t : Z) (cs : list bool) : rstate := fold_left (fun s gu => r_run s t false gu) cs s.
Definition within (okb : bool -> Prop) (n : nat) (s : rstate) (t : Z) (P : rstate -> Prop) : Prop :=
  forall cs, length cs = n -> Forall okb cs -> P (r_alone s t cs).

(** the parts of the invariant that matter while a thread runs alone *)
Lemma zinv_alone : forall z z' t, zinv z -> rest_idle (z_r z) t -> alive (z_r z) t = true -> t <> 0 -> forall b, z_r z' = r_run (z_r z) t false b ->
  z_g z' t = GIdle -> z_w z' t = None -> (forall u, u <> t -> z_g z' u = z_g z u /\ z_w z' u = z_w z u) -> zinv z'.
Proof.
  intros z z' t [G NZ SP LD] OI AL T0 b E Eg Ew OT. destruct (run_env (z_r z) t false b) as (E1 & E2 & _).
  assert (AE : forall u, alive (r_run (z_r z) t false b) u = alive (z_r z) u) by (intro u; unfold alive; rewrite E1, E2; reflexivity).
  constructor; rewrite E.
  - apply GI_run; auto.
  - rewrite guard_run. destruct (r_pc (z_r z) t); auto; try congruence. destruct (r_guard (z_r z)) as [u|]; [destruct (alive (z_r z) u); auto|]; congruence.
  - intros u A. rewrite AE in A. destruct (Z.eq_dec u t) as [->|N]; [rewrite Eg; exact I|].
    rewrite (proj1 (OT u N)), (proj1 (run_other _ _ _ _ _ N)). apply (spot_alive (z_r z)); auto. intros o. rewrite AE. auto.
  - intros u A. rewrite AE in A. destruct (Z.eq_dec u t) as [->|N]; [rewrite Ew; exact I|].
    rewrite (proj2 (OT u N)), (proj1 (run_other _ _ _ _ _ N)). auto.
Qed.
Lemma alone_other : forall cs z t u, u <> t -> z_g (z_alone z t cs) u = z_g z u /\ z_w (z_alone z t cs) u = z_w z u.
Proof.
  induction cs as [|b cs IH]; intros z t u N; auto. unfold z_alone in *. cbn [fold_left]. destruct (IH (z_run z t b) t u N) as [-> ->].
  apply z_run_other; auto.
Qed.

Lemma lift : forall (okb : bool -> Prop) n z t (P : rstate -> Prop), zinv z -> words (r_h (z_r z)) -> t <> 0 -> alive (z_r z) t = true ->
  rest_idle (z_r z) t -> z_g z t = GIdle -> z_w z t = None -> (forall s, P s -> r_pc s t = RIdle) -> within okb n (z_r z) t P ->
  forall cs, (1005 * n <= length cs)%nat -> Forall okb cs -> P (z_r (z_alone z t cs)) /\ zinv (z_alone z t cs).
Proof.
  intros okb. induction n as [|n IH]; intros z t P ZI WD T0 AL OI Eg Ew PI W cs L F.
  - assert (P0 : P (z_r z)) by (apply (W []); auto). rewrite idle_stays; auto.
  - destruct (one_step okb z t ZI WD T0 AL OI Eg Ew) as (N & LN & HN).
    rewrite <- (firstn_skipn N cs) in F |- *. apply Forall_app in F as [F1 F2]. rewrite z_alone_app.
    assert (LF : length (firstn N cs) = N) by (rewrite firstn_length; lia).
    destruct (HN _ LF F1) as (b & OB & E1 & E2 & E3). destruct (run_env (z_r z) t false b) as (K1 & K2 & _).
    assert (KA : forall u, alive (r_run (z_r z) t false b) u = alive (z_r z) u) by (intro u; unfold alive; rewrite K1, K2; reflexivity).
    apply IH; auto.
    + apply (zinv_alone z _ t ZI OI AL T0 b); auto. intros u NU. apply alone_other; auto.
    + rewrite E1. apply words_run; auto.
    + rewrite E1, KA. auto.
    + rewrite E1. intros u N0 A. rewrite KA in A. rewrite (proj1 (run_other _ _ _ _ _ N0)); auto.
    + rewrite E1. intros bs LB FB. apply (W (b :: bs)); [simpl; auto | constructor; auto].
    + rewrite skipn_length. lia.
Qed.
