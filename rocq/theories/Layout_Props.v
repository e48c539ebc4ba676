(** Properties C45, C46: layout and initial contents of the shared file. *)
From Coq Require Import ZArith List Bool Lia Znumtheory.
From Verif Require Import Base List_Model List_Spec List_Proofs Layout_Model Layout_Spec.
Import ListNotations.
Open Scope Z_scope.

Lemma some_inj : forall (A : Type) (x y : A), Some x = Some y -> y = x.
Proof. congruence. Qed.
Lemma align8 : forall k, 0 <= k < 1000000000 -> ALIGNMENT (8 * k) 8 = 8 * k.
Proof.
  intros k H. unfold ALIGNMENT. replace (8 * k) with (k * 8) by lia. rewrite Z.div_mul by lia. rewrite Z.mod_mul by lia. cbn [Z.eqb].
  rewrite Z.add_0_r. apply u64_small. unfold two64. lia.
Qed.
Lemma s64_small : forall x, 0 <= x < two63 -> s64 x = x.
Proof. intros x H. unfold s64. rewrite Z.mod_small by (unfold two63, two64 in *; lia). destruct (Z.ltb_spec x two63); lia. Qed.
Lemma off_next_exact : forall off k n, 0 <= off < 1000000000 -> 0 <= k <= 16 -> 0 <= n <= 16384 ->
  off_next off (8 * k) n = off + 8 * (k * n).
Proof.
  intros off k n H K N. unfold off_next, area_bytes. assert (0 <= k * n <= 262144) by nia.
  rewrite u64_small by (unfold two64; nia). replace (8 * k * n) with (8 * (k * n)) by ring. rewrite align8 by lia.
  apply s64_small. unfold two63. lia.
Qed.

(** the offsets without wrap-around *)
Lemma offsets : forall c, permitted c ->
  off_filelock c = 136 /\ off_offlock c = 136 + 40 * n_file c /\ off_locker c = off_offlock c + 56 * n_off c /\
  off_nmtxlock c = off_locker c + 24 * n_locker c /\ off_ncondlock c = off_nmtxlock c + 96 * n_nmtx c /\
  off_waiter c = off_ncondlock c + 88 * n_ncond c /\ off_end c = off_waiter c + 32 * n_waiter c /\
  off_end c <= sz_total c < off_end c + 4096 /\ sz_total c mod 4096 = 0 /\ off_end c < 1000000000.
Proof.
  intros c (A & B & C & D & E & F).
  assert (O0 : off_filelock c = 136) by reflexivity.
  assert (O1 : off_offlock c = 136 + 40 * n_file c).
  { unfold off_offlock, sz_FLFILELOCK. rewrite O0. change 40 with (8 * 5). rewrite off_next_exact; lia. }
  assert (O2 : off_locker c = off_offlock c + 56 * n_off c).
  { unfold off_locker, sz_FLOFFLOCK. change 56 with (8 * 7) at 1. rewrite off_next_exact; lia. }
  assert (O3 : off_nmtxlock c = off_locker c + 24 * n_locker c).
  { unfold off_nmtxlock, sz_FLLOCKER. change 24 with (8 * 3) at 1. rewrite off_next_exact; lia. }
  assert (O4 : off_ncondlock c = off_nmtxlock c + 96 * n_nmtx c).
  { unfold off_ncondlock, sz_FLNAMEDMUTEX. change 96 with (8 * 12) at 1. rewrite off_next_exact; lia. }
  assert (O5 : off_waiter c = off_ncondlock c + 88 * n_ncond c).
  { unfold off_waiter, sz_FLNAMEDCOND. change 88 with (8 * 11) at 1. rewrite off_next_exact; lia. }
  assert (O6 : off_end c = off_waiter c + 32 * n_waiter c).
  { unfold off_end, sz_FLWAITER. change 32 with (8 * 4) at 1. rewrite off_next_exact; lia. }
  assert (T : off_end c <= sz_total c < off_end c + 4096 /\ sz_total c mod 4096 = 0).
  { unfold sz_total, ALIGNMENT, GetSystemPageSize. rewrite (u64_small (off_end c)) by (unfold two64; lia).
    set (e := off_end c) in *. pose proof (Z.div_mod e 4096). pose proof (Z.mod_pos_bound e 4096).
    destruct (Z.eqb_spec (e mod 4096) 0).
    - rewrite u64_small by (unfold two64; lia). split; [lia|]. apply Z.mod_mul. lia.
    - rewrite u64_small by (unfold two64; lia). split; [lia|]. apply Z.mod_mul. lia. }
  repeat split; lia.
Qed.

(** ** C45 *)
Theorem C45_layout : forall c, permitted c -> good_layout c.
Proof.
  intros c P. pose proof (offsets c P) as (O0 & O1 & O2 & O3 & O4 & O5 & O6 & T & TM & BD).
  destruct P as (A & B & C & D & E & F). unfold good_layout, areas, inside, aligned, disjoint, sz_FLHEAD, sz_FLFILELOCK, sz_FLOFFLOCK, sz_FLLOCKER, sz_FLNAMEDMUTEX, sz_FLNAMEDCOND, sz_FLWAITER.
  split; [|split; [|split; [|split; auto; unfold two63; lia]]].
  - repeat (apply Forall_cons; [cbn [fst snd]; lia|]). constructor.
  - assert (M : forall k, (8 * k) mod 8 = 0) by (intro k; rewrite Z.mul_comm; apply Z.mod_mul; lia).
    apply Forall_cons; [reflexivity|]. apply Forall_cons; [cbn [fst]; rewrite O0; reflexivity|]. repeat (apply Forall_cons; [cbn [fst]|]); [| | | | |constructor].
    + replace (off_offlock c) with (8 * (17 + 5 * n_file c)) by lia. auto.
    + replace (off_locker c) with (8 * (17 + 5 * n_file c + 7 * n_off c)) by lia. auto.
    + replace (off_nmtxlock c) with (8 * (17 + 5 * n_file c + 7 * n_off c + 3 * n_locker c)) by lia. auto.
    + replace (off_ncondlock c) with (8 * (17 + 5 * n_file c + 7 * n_off c + 3 * n_locker c + 12 * n_nmtx c)) by lia. auto.
    + replace (off_waiter c) with (8 * (17 + 5 * n_file c + 7 * n_off c + 3 * n_locker c + 12 * n_nmtx c + 11 * n_ncond c)) by lia. auto.
  - assert (ST : forall i a, nth_error [(0, 136); (off_filelock c, 40 * n_file c); (off_offlock c, 56 * n_off c); (off_locker c, 24 * n_locker c);
        (off_nmtxlock c, 96 * n_nmtx c); (off_ncondlock c, 88 * n_ncond c); (off_waiter c, 32 * n_waiter c)] i = Some a ->
        (i < 7)%nat /\ fst a = nth i [0; off_filelock c; off_offlock c; off_locker c; off_nmtxlock c; off_ncondlock c; off_waiter c; off_end c] 0 /\
        fst a + snd a = nth (S i) [0; off_filelock c; off_offlock c; off_locker c; off_nmtxlock c; off_ncondlock c; off_waiter c; off_end c] 0).
    { intros i a H. do 7 (destruct i as [|i]; [cbn [nth_error] in H; apply some_inj in H; subst a; cbn [fst snd nth]; split; [lia|]; split; lia|]). destruct i; discriminate. }
    assert (MO : forall i j, (i <= j)%nat -> (j < 8)%nat -> nth i [0; off_filelock c; off_offlock c; off_locker c; off_nmtxlock c; off_ncondlock c; off_waiter c; off_end c] 0
        <= nth j [0; off_filelock c; off_offlock c; off_locker c; off_nmtxlock c; off_ncondlock c; off_waiter c; off_end c] 0).
    { intros i j I J. do 8 (destruct j as [|j]; [do 8 (destruct i as [|i]; [cbn [nth]; lia|]); lia|]). lia. }
    intros i j a b N IA JB x [XA XB]. destruct (ST i a IA) as (I7 & F1 & F2). destruct (ST j b JB) as (J7 & G1 & G2).
    destruct (Nat.lt_total i j) as [L|[L|L]]; [|congruence|].
    + pose proof (MO (S i) j). lia.
    + pose proof (MO (S j) i). lia.
Qed.

(** ** C46 *)
Lemma entries_in : forall size n first r, In r (entries first size n) <-> exists i, 0 <= i < Z.of_nat n /\ r = first + i * size.
Proof.
  intros size n. induction n as [|n IH]; intros first r.
  - simpl. split; [contradiction|]. intros (i & I & _). lia.
  - cbn [entries In]. rewrite IH. split.
    + intros [<-|(i & I & ->)]; [exists 0; split; lia|]. exists (i + 1). split; lia.
    + intros (i & I & ->). destruct (Z.eq_dec i 0) as [->|N]; [left; lia|]. right. exists (i - 1). split; lia.
Qed.
Lemma entries_length : forall size n first, length (entries first size n) = n.
Proof. intros size n. induction n; intros; simpl; auto. Qed.

(** the cells written while a pool is made *)
Lemma init_loop_cells_hi : forall base size n first prev a v, 0 < size ->
  In (a, v) (init_loop base 0 size (first + base) prev n) -> (prev <> 0 /\ a = next_cell base 0 prev) \/ first <= a < first + size * Z.of_nat n.
Proof.
  intros base size n. induction n as [|n IH]; intros first prev a v S H; [contradiction|].
  cbn [init_loop] in H. apply in_app_or in H as [H|H].
  - destruct (Z.eqb_spec prev 0); [contradiction|]. destruct H as [H|[]]. inversion H; subst. left; auto.
  - cbn [app In] in H. destruct H as [H|H].
    + inversion H; subst. rewrite next_cell_pos. right. nia.
    + replace (first + base + size) with (first + size + base) in H by lia. apply IH in H as [[_ ->]|H]; auto; [rewrite next_cell_pos|]; right; nia.
Qed.

Lemma make_pool_writes : forall base cell size off n a v, 0 < base -> 0 < off -> 0 < size -> 0 <= n ->
  In (a, v) (snd (make_pool base cell size off n)) -> a = cell \/ off <= a < off + size * n.
Proof.
  intros base cell size off n a v B O S N H. unfold make_pool, make_list in H. replace (base + off) with (off + base) in H by lia.
  destruct (Z.eqb_spec (off + base) 0); [lia|]. unfold init_list in H. destruct (Z.eqb_spec (off + base) 0); [lia|]. cbn [orb] in H.
  destruct (Nat.eqb_spec (Z.to_nat n) 0); cbn [snd] in H; apply in_app_or in H as [H|[H|[]]]; try contradiction; try (inversion H; auto).
  apply init_loop_cells_hi in H as [[X _]|H]; auto; [lia|]. right. rewrite Z2Nat.id in H by lia. auto.
Qed.

Lemma make_pool_pool : forall base cell size off n m, 0 < base -> 136 <= off -> 0 < size -> 0 < n -> cell < 136 ->
  pool_of (apply_writes m (snd (make_pool base cell size off n))) cell off size n /\
  apply_writes m (snd (make_pool base cell size off n)) cell = off.
Proof.
  intros base cell size off n m B O S N C. unfold make_pool, make_list. replace (base + off) with (off + base) by lia.
  destruct (Z.eqb_spec (off + base) 0); [lia|]. unfold init_list. destruct (Z.eqb_spec (off + base) 0); [lia|]. cbn [orb].
  destruct (Nat.eqb_spec (Z.to_nat n) 0); [lia|]. cbn [snd]. rewrite apply_writes_app. cbn [apply_writes]. rewrite to_rel_pos by lia.
  split; [|apply upd_eq].
  exists (entries off size (Z.to_nat n)). rewrite entries_length, Z2Nat.id by lia. split; [|split; auto].
  - destruct (init_loop_chain base 0 size (Z.to_nat n) off 0 m) as [CH _]; try lia.
    destruct (Z.to_nat n) as [|k] eqn:EK; [lia|]. rewrite <- EK in *.
    assert (IN : forall r, In r (entries off size (Z.to_nat n)) -> r + 0 <> cell) by (intros r H; apply entries_ge in H; lia).
    split; [|split; auto].
    + rewrite upd_eq. eapply chain_frame; [|exact CH]. intros r H. apply upd_neq. auto.
    + eapply chain_nodup; eauto.
  - intro r. rewrite entries_in. rewrite Z2Nat.id by lia. tauto.
Qed.

(** the pool survives writes elsewhere *)
Lemma pool_frame : forall m ws cell off size n, 0 < size ->
  (forall a v, In (a, v) ws -> a <> cell /\ ~ (off <= a < off + size * n)) -> pool_of m cell off size n -> pool_of (apply_writes m ws) cell off size n.
Proof.
  intros m ws cell off size n S H (l & C & L & I). exists l. split; auto. eapply contents_frame; [| |exact C].
  - apply apply_writes_frame. intros a v J. apply H in J. tauto.
  - intros r J. apply apply_writes_frame. intros a v K E. apply H in K as [_ K]. apply I in J as (i & J & ->). apply K. subst a. nia.
Qed.

Theorem C46_initial_pools : forall base c, 0 < base -> permitted c ->
  let m := init_mem base c in
  init_ok base c = true /\
  pool_of m h_file_lock_free (off_filelock c) sz_FLFILELOCK (n_file c) /\
  pool_of m h_offset_lock_free (off_offlock c) sz_FLOFFLOCK (n_off c) /\
  pool_of m h_locker_free (off_locker c) sz_FLLOCKER (n_locker c) /\
  pool_of m h_named_mutex_free (off_nmtxlock c) sz_FLNAMEDMUTEX (n_nmtx c) /\
  pool_of m h_named_cond_free (off_ncondlock c) sz_FLNAMEDCOND (n_ncond c) /\
  pool_of m h_waiter_free (off_waiter c) sz_FLWAITER (n_waiter c) /\
  contents 0 m h_file_lock_list [] /\ contents 0 m h_named_mutex_list [] /\ contents 0 m h_named_cond_list [] /\
  m h_file_lock_lockid = 0 /\ m h_named_mutex_lockid = 0 /\ m h_named_cond_lockid = 0 /\ m h_version = 1 /\ m h_flength = sz_total c.
Proof.
  intros base c B P m. pose proof (offsets c P) as (O0 & O1 & O2 & O3 & O4 & O5 & O6 & T & TM & BD). destruct P as (PA & PB & PC & PD & PE & PF).
  set (W1 := snd (make_pool base h_file_lock_free sz_FLFILELOCK (off_filelock c) (n_file c))).
  set (W2 := snd (make_pool base h_offset_lock_free sz_FLOFFLOCK (off_offlock c) (n_off c))).
  set (W3 := snd (make_pool base h_locker_free sz_FLLOCKER (off_locker c) (n_locker c))).
  set (W4 := snd (make_pool base h_named_mutex_free sz_FLNAMEDMUTEX (off_nmtxlock c) (n_nmtx c))).
  set (W5 := snd (make_pool base h_named_cond_free sz_FLNAMEDCOND (off_ncondlock c) (n_ncond c))).
  set (W6 := snd (make_pool base h_waiter_free sz_FLWAITER (off_waiter c) (n_waiter c))).
  set (W0 := [(h_version, 1); (h_flength, sz_total c); (h_file_lock_lockid, 0); (h_file_lock_list, 0); (h_named_mutex_lockid, 0); (h_named_mutex_list, 0)]).
  assert (E : m = apply_writes (fun _ => 0) (W0 ++ W1 ++ W2 ++ W3 ++ W4 ++ W5 ++ W6)) by reflexivity.
  assert (I1 : forall a v, In (a, v) W1 -> a = 88 \/ off_filelock c <= a < off_offlock c).
  { intros a v H. apply make_pool_writes in H; unfold h_file_lock_free, sz_FLFILELOCK in *; lia. }
  assert (I2 : forall a v, In (a, v) W2 -> a = 96 \/ off_offlock c <= a < off_locker c).
  { intros a v H. apply make_pool_writes in H; unfold h_offset_lock_free, sz_FLOFFLOCK in *; lia. }
  assert (I3 : forall a v, In (a, v) W3 -> a = 104 \/ off_locker c <= a < off_nmtxlock c).
  { intros a v H. apply make_pool_writes in H; unfold h_locker_free, sz_FLLOCKER in *; lia. }
  assert (I4 : forall a v, In (a, v) W4 -> a = 112 \/ off_nmtxlock c <= a < off_ncondlock c).
  { intros a v H. apply make_pool_writes in H; unfold h_named_mutex_free, sz_FLNAMEDMUTEX in *; lia. }
  assert (I5 : forall a v, In (a, v) W5 -> a = 120 \/ off_ncondlock c <= a < off_waiter c).
  { intros a v H. apply make_pool_writes in H; unfold h_named_cond_free, sz_FLNAMEDCOND in *; lia. }
  assert (I6 : forall a v, In (a, v) W6 -> a = 128 \/ off_waiter c <= a < off_end c).
  { intros a v H. apply make_pool_writes in H; unfold h_waiter_free, sz_FLWAITER in *; lia. }
  assert (LATE : forall k a v, In (a, v) k -> k = W1 ++ W2 ++ W3 ++ W4 ++ W5 ++ W6 -> 88 <= a).
  { intros k a v H ->. repeat (apply in_app_or in H as [H|H]); [apply I1 in H | apply I2 in H | apply I3 in H | apply I4 in H | apply I5 in H | apply I6 in H]; lia. }
  assert (HD : forall x, x < 88 -> m x = apply_writes (fun _ => 0) W0 x).
  { intros x X. rewrite E, apply_writes_app. apply apply_writes_frame. intros a v H. pose proof (LATE _ _ _ H eq_refl). lia. }
  assert (P6 : forall m', pool_of (apply_writes m' W6) 128 (off_waiter c) 32 (n_waiter c) /\ apply_writes m' W6 128 = off_waiter c) by (intro; apply make_pool_pool; unfold h_waiter_free, sz_FLWAITER; lia).
  assert (P5 : forall m', pool_of (apply_writes m' W5) 120 (off_ncondlock c) 88 (n_ncond c) /\ apply_writes m' W5 120 = off_ncondlock c) by (intro; apply make_pool_pool; unfold h_named_cond_free, sz_FLNAMEDCOND; lia).
  assert (P4 : forall m', pool_of (apply_writes m' W4) 112 (off_nmtxlock c) 96 (n_nmtx c) /\ apply_writes m' W4 112 = off_nmtxlock c) by (intro; apply make_pool_pool; unfold h_named_mutex_free, sz_FLNAMEDMUTEX; lia).
  assert (P3 : forall m', pool_of (apply_writes m' W3) 104 (off_locker c) 24 (n_locker c) /\ apply_writes m' W3 104 = off_locker c) by (intro; apply make_pool_pool; unfold h_locker_free, sz_FLLOCKER; lia).
  assert (P2 : forall m', pool_of (apply_writes m' W2) 96 (off_offlock c) 56 (n_off c) /\ apply_writes m' W2 96 = off_offlock c) by (intro; apply make_pool_pool; unfold h_offset_lock_free, sz_FLOFFLOCK; lia).
  assert (P1 : forall m', pool_of (apply_writes m' W1) 88 (off_filelock c) 40 (n_file c) /\ apply_writes m' W1 88 = off_filelock c) by (intro; apply make_pool_pool; unfold h_file_lock_free, sz_FLFILELOCK; lia).
  assert (PL : forall A X D cell off size n, m = apply_writes (fun _ => 0) (A ++ X ++ D) -> 0 < size ->
      (forall m', pool_of (apply_writes m' X) cell off size n /\ apply_writes m' X cell = off) ->
      (forall a v, In (a, v) D -> a <> cell /\ ~ (off <= a < off + size * n)) -> pool_of m cell off size n /\ m cell = off).
  { intros A X D cell off size n EM S PX FD. rewrite EM, !apply_writes_app. split; [apply pool_frame; auto; apply PX|].
    rewrite apply_writes_frame; [apply PX | intros a v H; apply FD in H; tauto]. }
  assert (Q1 : pool_of m 88 (off_filelock c) 40 (n_file c) /\ m 88 = off_filelock c).
  { apply (PL W0 W1 (W2 ++ W3 ++ W4 ++ W5 ++ W6)); auto; [lia|]. intros a v H. repeat (apply in_app_or in H as [H|H]); [apply I2 in H | apply I3 in H | apply I4 in H | apply I5 in H | apply I6 in H]; lia. }
  assert (Q2 : pool_of m 96 (off_offlock c) 56 (n_off c) /\ m 96 = off_offlock c).
  { apply (PL (W0 ++ W1) W2 (W3 ++ W4 ++ W5 ++ W6)); [rewrite E; clear; rewrite ?app_nil_r, <- ?app_assoc; reflexivity | lia | assumption |]. intros a v H. repeat (apply in_app_or in H as [H|H]); [apply I3 in H | apply I4 in H | apply I5 in H | apply I6 in H]; lia. }
  assert (Q3 : pool_of m 104 (off_locker c) 24 (n_locker c) /\ m 104 = off_locker c).
  { apply (PL (W0 ++ W1 ++ W2) W3 (W4 ++ W5 ++ W6)); [rewrite E; clear; rewrite ?app_nil_r, <- ?app_assoc; reflexivity | lia | assumption |]. intros a v H. repeat (apply in_app_or in H as [H|H]); [apply I4 in H | apply I5 in H | apply I6 in H]; lia. }
  assert (Q4 : pool_of m 112 (off_nmtxlock c) 96 (n_nmtx c) /\ m 112 = off_nmtxlock c).
  { apply (PL (W0 ++ W1 ++ W2 ++ W3) W4 (W5 ++ W6)); [rewrite E; clear; rewrite ?app_nil_r, <- ?app_assoc; reflexivity | lia | assumption |]. intros a v H. repeat (apply in_app_or in H as [H|H]); [apply I5 in H | apply I6 in H]; lia. }
  assert (Q5 : pool_of m 120 (off_ncondlock c) 88 (n_ncond c) /\ m 120 = off_ncondlock c).
  { apply (PL (W0 ++ W1 ++ W2 ++ W3 ++ W4) W5 W6); [rewrite E; clear; rewrite ?app_nil_r, <- ?app_assoc; reflexivity | lia | assumption |]. intros a v H. apply I6 in H; lia. }
  assert (Q6 : pool_of m 128 (off_waiter c) 32 (n_waiter c) /\ m 128 = off_waiter c).
  { apply (PL (W0 ++ W1 ++ W2 ++ W3 ++ W4 ++ W5) W6 []); [rewrite E; clear; rewrite ?app_nil_r, <- ?app_assoc; reflexivity | lia | assumption | intros a v []]. }
  destruct Q1 as [Q1 V1], Q2 as [Q2 V2], Q3 as [Q3 V3], Q4 as [Q4 V4], Q5 as [Q5 V5], Q6 as [Q6 V6].
  assert (EM : forall x, m x = 0 -> contents 0 m x []).
  { intros x X. split; [rewrite X; constructor|]. split; [constructor | intros r []]. }
  assert (OKB : init_ok base c = true).
  { unfold init_ok. fold m. cbn [forallb]. unfold h_file_lock_free, h_offset_lock_free, h_locker_free, h_named_mutex_free, h_named_cond_free, h_waiter_free. rewrite V1, V2, V3, V4, V5, V6.
    repeat match goal with |- context [?x =? 0] => destruct (Z.eqb_spec x 0); [lia|] end. auto. }
  split; [exact OKB|]. split; [exact Q1|]. split; [exact Q2|]. split; [exact Q3|]. split; [exact Q4|]. split; [exact Q5|]. split; [exact Q6|].
  split; [apply EM; rewrite HD by (unfold h_file_lock_list; lia); reflexivity|].
  split; [apply EM; rewrite HD by (unfold h_named_mutex_list; lia); reflexivity|].
  split; [apply EM; rewrite HD by (unfold h_named_cond_list; lia); reflexivity|].
  repeat split; rewrite HD; try reflexivity; unfold h_file_lock_lockid, h_named_mutex_lockid, h_named_cond_lockid, h_version, h_flength; lia.
Qed.

(** ** Examples *)
Definition default_counts := mkCnt 128 8192 8192 256 256 8192.
Example C45_example : permitted default_counts /\ sz_total default_counts = 970752.
Proof. split; [unfold permitted; simpl; lia | reflexivity]. Qed.
Example C46_example : let c := mkCnt 2 4 4 1 1 4 in permitted c /\ init_mem 4096 c h_file_lock_free = 136 /\ init_mem 4096 c 136 = 176 /\ init_mem 4096 c 176 = 0.
Proof. split; [unfold permitted; simpl; lia | repeat split; reflexivity]. Qed.

Print Assumptions C45_layout.
Print Assumptions C46_initial_pools.
