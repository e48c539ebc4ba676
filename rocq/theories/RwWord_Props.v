(** C15, C63 and the lock-word part of C34. *)
From Coq Require Import ZArith List Bool Lia.
From Verif Require Import Base RwWord_Model RwWord_Proofs.
Import ListNotations.
Open Scope Z_scope.

(** C15: in every reachable state (any number of requests, any interleaving of loads and CASes), if a
    request holds the word for writing then no other request holds it in any mode. *)
Theorem C15_writer_excludes_all : forall s a b r, w_reach s ->
  w_pc s a = WHold Wr -> w_pc s b = WHold r -> a = b.
Proof.
  intros s a b r R Ha Hb. destruct (w_reach_inv s R) as [_ (L & [N HR] & C)].
  assert (A : holds_mode (w_pc s a) = Some Wr) by now rewrite Ha.
  destruct C as [[V W]|[V [-> [w W]]]]; [destruct (W _ A)|].
  destruct r.
  - assert (B : holds_mode (w_pc s b) = Some Rd) by now rewrite Hb. apply HR in B. destruct B.
  - assert (B : holds_mode (w_pc s b) = Some Wr) by now rewrite Hb. apply W in A. apply W in B. congruence.
Qed.

(** ... the exclusion lasts until the unlock of the holder has taken effect, and the word always
    says who holds it: -1 for one writer, otherwise the number of readers. *)
Theorem C15_word_counts_holders : forall s, w_reach s ->
  (exists L, NoDup L /\ (forall a, In a L <-> holds_mode (w_pc s a) = Some Rd) /\ w_val s = Z.of_nat (length L)
             /\ forall a, holds_mode (w_pc s a) <> Some Wr)
  \/ (w_val s = -1 /\ (forall a, holds_mode (w_pc s a) <> Some Rd)
      /\ exists w, forall a, holds_mode (w_pc s a) = Some Wr <-> a = w).
Proof.
  intros s R. destruct (w_reach_inv s R) as [_ (L & [N HR] & C)].
  destruct C as [[V W]|[V [-> W]]].
  - left. exists L. auto.
  - right. split; auto. split; auto. intros a E. apply HR in E. destruct E.
Qed.

(** ... nothing remains once every request has finished *)
Theorem C15_free_after_all_released : forall s, w_reach s -> (forall a, w_pc s a = WIdle) -> w_val s = 0.
Proof.
  intros s R H. destruct (C15_word_counts_holders s R) as [(L & N & HL & V & _)|(V & _ & w & W)].
  - destruct L as [|x L]; [auto|]. specialize (proj1 (HL x) (or_introl eq_refl)). rewrite H. discriminate.
  - specialize (proj2 (W w) eq_refl). rewrite H. discriminate.
Qed.

(** ... a request can always get in when the mode of the current holders allows it: two steps for a
    reader when no writer holds, one step for a writer when nobody holds *)
Theorem C15_reader_admitted : forall s a, w_reach s -> w_pc s a = WIdle ->
  (forall b, holds_mode (w_pc s b) <> Some Wr) ->
  let s' := w_exec s [WCall a (CRd KTry); WRun a false; WRun a false] in
  w_pc s' a = WHold Rd /\ w_res s' a = Some OK.
Proof.
  intros s a R P H. assert (V : 0 <= w_val s).
  { destruct (C15_word_counts_holders s R) as [(L & N & HL & V & _)|(V & _ & w & W)]; [lia|].
    specialize (proj2 (W w) eq_refl). intros E. destruct (H _ E). }
  unfold w_exec. cbn [fold_left w_step].
  assert (E1 : w_call s a (CRd KTry) = mkW (w_val s) (upd (w_pc s) a (WRdRead KTry)) (w_res s)).
  { unfold w_call. now rewrite P. }
  rewrite E1. clear E1.
  match goal with |- context [w_run (w_run ?x a false) a false] =>
    assert (E2 : w_run x a false = mkW (w_val s) (upd (upd (w_pc s) a (WRdRead KTry)) a (WRdCas KTry (w_val s))) (w_res s))
      by (unfold w_run; cbn [w_pc]; rewrite upd_eq; reflexivity) end.
  rewrite E2. clear E2. unfold w_run. cbn [w_pc w_val w_res]. rewrite upd_eq. unfold RW_UNLOCK.
  rewrite (proj2 (Z.ltb_ge (w_val s) 0)) by lia. rewrite Z.eqb_refl. cbn. rewrite !upd_eq. auto.
Qed.

Theorem C15_writer_admitted : forall s a, w_reach s -> w_pc s a = WIdle ->
  (forall b, holds_mode (w_pc s b) = None) ->
  let s' := w_exec s [WCall a (CWr KTry); WRun a false] in
  w_pc s' a = WHold Wr /\ w_res s' a = Some OK.
Proof.
  intros s a R P H. assert (V : w_val s = 0).
  { destruct (C15_word_counts_holders s R) as [(L & N & HL & V & _)|(V & _ & w & W)].
    - destruct L as [|x L]; [auto|]. specialize (proj1 (HL x) (or_introl eq_refl)). rewrite H. discriminate.
    - specialize (proj2 (W w) eq_refl). rewrite H. discriminate. }
  unfold w_exec. cbn [fold_left w_step].
  assert (E1 : w_call s a (CWr KTry) = mkW (w_val s) (upd (w_pc s) a (WWrCas KTry)) (w_res s)).
  { unfold w_call. now rewrite P. }
  rewrite E1. unfold w_run. cbn [w_pc w_val w_res]. rewrite upd_eq, V. cbn. rewrite !upd_eq. auto.
Qed.

Lemma w_exec_reach : forall ls s, w_reach s -> w_reach (w_exec s ls).
Proof. induction ls; cbn; intros; auto. apply IHls. now constructor. Qed.

Example C15_example :
  let s := w_exec w_init [WCall 1 (CRd KTry); WCall 2 (CRd KTimed); WRun 1 false; WRun 2 false; WRun 1 false;
                          WRun 2 false; WRun 2 false; WRun 2 false; WCall 3 (CWr (KBlock NOLIMIT 0)); WRun 3 false] in
  w_reach s /\ w_pc s 1 = WHold Rd /\ w_pc s 2 = WHold Rd /\ w_val s = 2 /\ w_pc s 3 = WWrCas (KBlock NOLIMIT 2).
Proof. cbv zeta. split; [apply w_exec_reach; constructor|]. vm_compute. auto. Qed.

Example C15_example_writer :
  let s := w_exec w_init [WCall 1 (CWr KTry); WRun 1 false] in w_reach s /\ w_pc s 1 = WHold Wr.
Proof. cbv zeta. split; [apply w_exec_reach; constructor|]. vm_compute. auto. Qed.

(** C63 (full statement, false): a try-read-lock fails only if a writer held the range at some
    instant of the history. *)
Definition C63_statement : Prop := forall ls a,
  w_res (w_exec w_init ls) a = Some EBUSY ->
  (forall c, In (WCall a c) ls -> c = CRd KTry) ->
  exists l1 l2 b, ls = l1 ++ l2 /\ holds_mode (w_pc (w_exec w_init l1) b) = Some Wr.

Lemma all_prefixes : forall (ls l1 l2 : list wlabel), ls = l1 ++ l2 -> exists n, l1 = firstn n ls.
Proof. intros. exists (length l1). subst. rewrite firstn_app, Nat.sub_diag, firstn_all. cbn. now rewrite app_nil_r. Qed.

(** agents outside [1,2] never move in the witness *)
Definition witness63 := [WCall 1 (CRd KTry); WCall 2 (CRd KTry); WRun 1 false; WRun 2 false; WRun 2 false; WRun 1 false].

(** Witness: two concurrent try-read-locks on a free range; the loser of the CAS gets EBUSY. *)
Theorem C63_tryrdlock_spurious_failure_refuted : ~ C63_statement.
Proof.
  intro H. destruct (H witness63 1) as (l1 & l2 & b & E & W).
  - vm_compute. reflexivity.
  - intros c Hin. cbn in Hin. repeat (destruct Hin as [Hin|Hin]; [inversion Hin; auto|]). destruct Hin.
  - destruct (all_prefixes _ _ _ E) as [n ->].
    destruct (Z.eq_dec b 1) as [->|H1]; [|destruct (Z.eq_dec b 2) as [->|H2]].
    + do 7 (destruct n as [|n]; [vm_compute in W; discriminate|]). rewrite firstn_all2 in W by (cbn; lia). vm_compute in W; discriminate.
    + do 7 (destruct n as [|n]; [vm_compute in W; discriminate|]). rewrite firstn_all2 in W by (cbn; lia). vm_compute in W; discriminate.
    + assert (forall n, w_pc (w_exec w_init (firstn n witness63)) b = WIdle) as A.
      { intros m. clear -H1 H2. assert (B : forall ls, (forall l, In l ls -> match l with WCall x _ | WRun x _ => x <> b end) ->
           forall s, w_pc s b = WIdle -> w_pc (w_exec s ls) b = WIdle).
        { induction ls as [|l ls IH]; cbn; intros Hl s P; auto. apply IH; [intros l' H'; apply Hl; now right|].
          specialize (Hl l (or_introl eq_refl)). destruct l as [x c|x e]; cbn; assert (b <> x) by congruence.
          - unfold w_call, w_goto. destruct (w_pc s x), c; auto;
              try destruct (w_loop_head _ _); cbn; rewrite ?upd_neq; auto.
          - unfold w_run, w_goto. destruct (w_pc s x); auto;
              repeat (match goal with |- context [if ?c then _ else _] => destruct c end);
              try destruct (w_failed _ _ _); cbn; rewrite ?upd_neq; auto. }
        apply B; [|reflexivity]. intros l Hin.
        assert (In l witness63).
        { rewrite <- (firstn_skipn m witness63). apply in_or_app; auto. }
        cbn in H. repeat (destruct H as [H|H]; [subst; congruence|]). destruct H. }
      rewrite A in W. discriminate.
Qed.

(** True part: a failing try-write-lock and a failing try-read-lock are explained by the word: the
    write attempt fails only at an instant at which somebody holds the range; the read attempt only
    if a writer held it when the word was loaded, or somebody changed the word since then. *)
Theorem C63_trywrlock_failure_explained_partial : forall s a e, w_reach s ->
  w_pc s a = WWrCas KTry -> w_res (w_run s a e) a = Some EBUSY -> w_pc (w_run s a e) a = WIdle ->
  exists b, holds_mode (w_pc s b) <> None.
Proof.
  intros s a e R P Hr Hi. unfold w_run in Hr, Hi. rewrite P in *. unfold RW_UNLOCK in *.
  destruct (Z.eqb_spec (w_val s) 0) as [V|V].
  - cbn in Hi. rewrite upd_eq in Hi. discriminate.
  - destruct (C15_word_counts_holders s R) as [(L & N & HL & VL & _)|(VL & _ & w & W)].
    + destruct L as [|x L]; [cbn in VL; lia|]. exists x. rewrite (proj1 (HL x) (or_introl eq_refl)). discriminate.
    + exists w. rewrite (proj2 (W w) eq_refl). discriminate.
Qed.

Theorem C63_tryrdlock_failure_explained_partial : forall s a b e, w_reach s ->
  w_pc s a = WRdCas KTry b -> w_pc (w_run s a e) a = WIdle -> b < 0 \/ w_val s <> b.
Proof.
  intros s a b e R P Hi. unfold w_run in Hi. rewrite P in Hi. unfold RW_UNLOCK in *.
  destruct (Z.ltb_spec b 0); auto. destruct (Z.eqb_spec (w_val s) b); auto.
  cbn in Hi. rewrite upd_eq in Hi. discriminate.
Qed.

(** C34 for the lock words (full statement, false): no wait ever overflows its loop counter. *)
Definition C34_rwlock_statement : Prop := forall s a, w_reach s -> w_pc s a <> WUB.

Lemma rd_wait_rounds : forall (k : nat) s a c, w_val s = -1 -> w_pc s a = WRdRead (KBlock NOLIMIT c) ->
  0 <= c -> c + Z.of_nat k <= INT_MAX ->
  exists ls, w_val (w_exec s ls) = -1 /\ w_pc (w_exec s ls) a = WRdRead (KBlock NOLIMIT (c + Z.of_nat k)).
Proof.
  induction k; intros s a c V P Hc Hle.
  - exists []. cbn. replace (c + 0) with c by lia. auto.
  - set (s2 := w_exec s [WRun a false; WRun a false]).
    assert (S2 : w_val s2 = -1 /\ w_pc s2 a = WRdRead (KBlock NOLIMIT (c + 1))).
    { subst s2. unfold w_exec. cbn [fold_left w_step].
      assert (E1 : w_run s a false = mkW (w_val s) (upd (w_pc s) a (WRdCas (KBlock NOLIMIT c) (w_val s))) (w_res s)).
      { unfold w_run. now rewrite P. }
      rewrite E1. unfold w_run. cbn [w_pc w_val w_res]. rewrite upd_eq, V. cbn.
      rewrite (proj2 (Z.eqb_neq c INT_MAX)) by lia. cbn. rewrite upd_eq. auto. }
    destruct S2 as [V2 P2].
    destruct (IHk s2 a (c + 1) V2 P2) as (ls & A & B); try lia.
    exists ([WRun a false; WRun a false] ++ ls). unfold w_exec in *. rewrite fold_left_app.
    split; auto. fold s2. replace (c + Z.of_nat (S k)) with (c + 1 + Z.of_nat k) by lia. auto.
Qed.

(** Witness: a reader waits (default, non-robust mode) while a writer keeps the range. *)
Theorem C34_rwlock_wait_counter_overflow_refuted : ~ C34_rwlock_statement.
Proof.
  intro H.
  set (s1 := w_exec w_init [WCall 1 (CWr KTry); WRun 1 false; WCall 2 (CRd (KBlock NOLIMIT 0))]).
  assert (R1 : w_reach s1) by (apply w_exec_reach; constructor).
  destruct (rd_wait_rounds (Z.to_nat (INT_MAX - 1)) s1 2 1) as (ls & V & P).
  { reflexivity. }
  { reflexivity. }
  { lia. }
  { rewrite Z2Nat.id; unfold INT_MAX; lia. }
  rewrite Z2Nat.id in P by (unfold INT_MAX; lia).
  set (s3 := w_exec s1 ls) in *.
  assert (R3 : w_reach s3) by (apply w_exec_reach; auto).
  apply (H (w_exec s3 [WRun 2 false; WRun 2 false]) 2).
  - apply w_exec_reach; auto.
  - unfold w_exec. cbn [fold_left w_step].
    assert (E1 : w_run s3 2 false = mkW (-1) (upd (w_pc s3) 2 (WRdCas (KBlock NOLIMIT INT_MAX) (-1))) (w_res s3)).
    { unfold w_run. rewrite P, V. unfold w_goto. rewrite V. reflexivity. }
    rewrite E1. reflexivity.
Qed.

(** ** Results of the calls *)
Definition no_call (a : Z) (l : wlabel) : Prop := match l with WCall b _ => b <> a | WRun _ _ => True end.
(** what a failing call of each kind may return *)
Definition fails_with (k : wkind) (e : Z) (ls : list wlabel) (a : Z) : Prop :=
  match k with
  | KTry => e = EBUSY
  | KTimed => e = ETIMEDOUT /\ In (WRun a true) ls
  | KBlock m _ => e = ETIMEDOUT /\ m <> NOLIMIT
  end.
Definition same_kind (k k' : wkind) : Prop :=
  match k, k' with KTry, KTry => True | KTimed, KTimed => True | KBlock m _, KBlock m' _ => m = m' | _, _ => False end.
(** state of agent [a] during and after its call of kind [k] and mode [r] *)
Definition in_call (r : rwmode) (k : wkind) (p : wpc) : Prop :=
  match p, r with WRdRead k', Rd => same_kind k k' | WRdCas k' _, Rd => same_kind k k' | WWrCas k', Wr => same_kind k k' | WUB, _ => True | _, _ => False end.
Definition call_ends (r : rwmode) (k : wkind) (s : wstate) (a : Z) (ls : list wlabel) : Prop :=
  (w_pc s a = WHold r /\ w_res s a = Some OK) \/ (w_pc s a = WIdle /\ exists e, w_res s a = Some e /\ fails_with k e ls a).

Lemma fails_more : forall k e ls ls' a, fails_with k e ls a -> (forall x, In x ls -> In x ls') -> fails_with k e ls' a.
Proof. intros [| |] e ls ls' a H I; cbn in *; intuition. Qed.

Lemma loop_head_kind : forall r k k' go s a ls, same_kind k k' -> (forall k'', same_kind k k'' -> in_call r k (go k'')) ->
  in_call r k (w_pc (w_goto s a (w_loop_head k' go)) a) \/ call_ends r k (w_goto s a (w_loop_head k' go)) a ls.
Proof.
  intros r k k' go s a ls K G. unfold w_loop_head. destruct k' as [m c| |].
  - destruct (negb (m =? NOLIMIT) && (m <? c)) eqn:E.
    + right. right. cbn. rewrite !upd_eq. split; auto. exists ETIMEDOUT. split; auto. destruct k; cbn in K; try contradiction. subst. cbn. split; auto.
      intro X. subst. cbn in E. discriminate.
    + left. destruct (c =? INT_MAX); cbn; rewrite upd_eq; [exact I|]. apply G. destruct k; cbn in *; auto.
  - left. cbn. rewrite upd_eq. auto.
  - left. cbn. rewrite upd_eq. auto.
Qed.

Lemma failed_kind : forall r k k' go s a x ls, same_kind k k' -> (forall k'', same_kind k k'' -> in_call r k (go k'')) -> In (WRun a x) ls ->
  in_call r k (w_pc (w_goto s a (w_failed k' go x)) a) \/ call_ends r k (w_goto s a (w_failed k' go x)) a ls.
Proof.
  intros r k k' go s a x ls K G L. unfold w_failed. destruct k' as [m c| |].
  - apply loop_head_kind; auto.
  - right. right. cbn. rewrite !upd_eq. split; auto. exists EBUSY. split; auto. destruct k; cbn in *; auto; contradiction.
  - destruct x.
    + right. right. cbn. rewrite !upd_eq. split; auto. exists ETIMEDOUT. split; auto. destruct k; cbn in *; auto; contradiction.
    + left. cbn. rewrite upd_eq. auto.
Qed.

Lemma w_step_other : forall s l a, match l with WCall b _ => b | WRun b _ => b end <> a ->
  w_pc (w_step s l) a = w_pc s a /\ w_res (w_step s l) a = w_res s a.
Proof.
  intros s [b c|b x] a N; cbn [w_step].
  - unfold w_call. destruct (w_pc s b), c; auto; unfold w_goto;
      repeat match goal with |- context [match ?q with inl _ => _ | inr _ => _ end] => destruct q end; cbn; rewrite ?upd_neq; auto.
  - unfold w_run. destruct (w_pc s b); auto; repeat match goal with |- context [if ?c then _ else _] => destruct c end; unfold w_goto;
      repeat match goal with |- context [match ?q with inl _ => _ | inr _ => _ end] => destruct q end; cbn; rewrite ?upd_neq; auto.
Qed.

Lemma in_call_step : forall r k s a l ls, in_call r k (w_pc s a) -> no_call a l -> In l ls ->
  in_call r k (w_pc (w_step s l) a) \/ call_ends r k (w_step s l) a ls.
Proof.
  intros r k s a l ls H N L. destruct (Z.eq_dec (match l with WCall b _ => b | WRun b _ => b end) a) as [E|E].
  2:{ left. destruct (w_step_other s l a E) as [-> _]. auto. }
  destruct l as [b c|b x]; cbn in E, N; [contradiction|]. subst b. cbn [w_step]. unfold w_run.
  destruct (w_pc s a) as [|k'|k' b|k'|r'|r'|r' b n|] eqn:P; destruct r; cbn [in_call] in H; try contradiction; try (left; rewrite P; exact I).
  - left. cbn. rewrite upd_eq. auto.
  - destruct (b <? RW_UNLOCK); [apply failed_kind; auto|]. destruct (w_val s =? b); [|apply failed_kind; auto].
    right. left. cbn. rewrite !upd_eq. auto.
  - destruct (w_val s =? RW_UNLOCK); [|apply failed_kind; auto]. right. left. cbn. rewrite !upd_eq. auto.
Qed.

Lemma ended_step : forall r k s a l ls, call_ends r k s a ls -> no_call a l -> call_ends r k (w_step s l) a ls.
Proof.
  intros r k s a l ls H N. destruct (Z.eq_dec (match l with WCall b _ => b | WRun b _ => b end) a) as [E|E].
  - destruct l as [b c|b x]; cbn in E, N; [contradiction|]. subst b. cbn [w_step]. unfold w_run. destruct H as [[P R]|[P R]]; rewrite P; [left | right]; auto.
  - unfold call_ends. destruct (w_step_other s l a E) as [-> ->]. exact H.
Qed.

Lemma calls_end : forall r k a ls0 ls s, Forall (no_call a) ls -> incl ls ls0 -> in_call r k (w_pc s a) \/ call_ends r k s a ls0 ->
  in_call r k (w_pc (w_exec s ls) a) \/ call_ends r k (w_exec s ls) a ls0.
Proof.
  intros r k a ls0 ls. induction ls as [|l ls IH]; intros s N IN H; [exact H|]. inversion N; subst. cbn. apply IH; auto; [intros x X; apply IN; right; auto|].
  destruct H as [H|H]; [apply in_call_step; auto; apply IN; left; auto | right; apply ended_step; auto].
Qed.

(** Whatever the other agents do: a call that has ended either holds the lock in the mode asked for and
    returned 0, or does not hold it and returned EBUSY (try), ETIMEDOUT after the clock ran out (timed), or
    ETIMEDOUT (blocking with a retry limit; never without one). *)
Theorem C63_results : forall s a r k ls, w_reach s -> w_pc s a = WIdle -> Forall (no_call a) ls ->
  let s' := w_exec s (WCall a (match r with Rd => CRd k | Wr => CWr k end) :: ls) in
  in_call r k (w_pc s' a) \/ call_ends r k s' a ls.
Proof.
  intros s a r k ls _ P N s'. unfold s'. unfold w_exec. cbn [fold_left]. apply calls_end; auto; [apply incl_refl|]. cbn [w_step]. unfold w_call. rewrite P.
  destruct r; apply loop_head_kind; auto; destruct k; cbn; auto.
Qed.

Example C63_results_example : let s := w_exec w_init [WCall 1 (CWr KTry); WRun 1 false] in
  w_res (w_exec s [WCall 2 (CRd KTry); WRun 2 false; WRun 2 false]) 2 = Some EBUSY /\
  w_res (w_exec s [WCall 2 (CWr KTimed); WRun 2 false; WRun 2 true]) 2 = Some ETIMEDOUT.
Proof. split; reflexivity. Qed.

Print Assumptions C15_writer_excludes_all.
Print Assumptions C15_word_counts_holders.
Print Assumptions C15_free_after_all_released.
Print Assumptions C15_reader_admitted.
Print Assumptions C15_writer_admitted.
Print Assumptions C63_tryrdlock_spurious_failure_refuted.
Print Assumptions C63_trywrlock_failure_explained_partial.
Print Assumptions C63_tryrdlock_failure_explained_partial.
Print Assumptions C34_rwlock_wait_counter_overflow_refuted.

Print Assumptions C63_results.
