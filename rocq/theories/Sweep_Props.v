(** C96-C99: the recovery pass. *)
From Verif Require Import Base Cache_Model Cache_Spec Cache_Proofs RwApi_Model Sweep_Model Sweep_Spec Sweep_Proofs Sweep_Proofs2.
From Coq Require Import ZArith List Bool Lia.
Import ListNotations.
Open Scope Z_scope.

(** ** C96: what is alive during the whole pass keeps everything it holds *)
Definition C96_statement : Prop := forall w s, (forall n, table_ok (w n)) -> ids_ok s ->
  let s' := CheckProcessDead w s in
  (forall f o l, In f (g_files s) -> In o (n_offs f) -> in_entry o l ->
     (forall n, live (w n) (n_dev f) (n_ino f) l) ->
     exists f' o', In f' (g_files s') /\ n_dev f' = n_dev f /\ n_ino f' = n_ino f /\ n_prot f' = n_prot f /\
       In o' (n_offs f') /\ e_off o' = e_off o /\ e_len o' = e_len o /\
       (In l (e_rd o) -> In l (e_rd o')) /\ (In l (e_wr o) -> In l (e_wr o'))) /\
  (forall k m p t, nth_error (g_mtx s) k = Some m -> m_own m = Some (p, t) ->
     (forall n, there (w n) p t) -> nth_error (g_mtx s') k = Some m) /\
  (forall k c p t, nth_error (g_cond s) k = Some c -> In (p, t) c ->
     (forall n, there (w n) p t) -> exists c', nth_error (g_cond s') k = Some c' /\ In (p, t) c').

Theorem C96_live_kept : C96_statement.
Proof.
  intros w s T I s'. destruct (pass_filters w s T I) as (ver & run & P1 & P2 & P3 & P4 & P5 & _). fold s' in P3, P4, P5.
  assert (RUN : forall p t, in_names s p t -> (forall n, there (w n) p t) -> run p t = true).
  { intros p t N L. destruct (P2 _ _ N) as [[_ R]|(n & R)]; auto. apply R, L. }
  split; [|split].
  - intros f o l F O E L.
    assert (V : ver (n_dev f) (n_ino f) l = true).
    { destruct (P1 (n_dev f) (n_ino f) l) as (n & V); [exists f, o; auto|]. apply V, L. }
    assert (U : used_off (keep_off (ver (n_dev f) (n_ino f)) o) = true) by (destruct E; [eapply used_rd|eapply used_wr]; eauto).
    exists (keep_file ver f), (keep_off (ver (n_dev f) (n_ino f)) o). rewrite P3.
    assert (INO : In (keep_off (ver (n_dev f) (n_ino f)) o) (n_offs (keep_file ver f))).
    { cbn [keep_file n_offs]. apply filter_In. split; auto. apply in_map. auto. }
    sp; auto.
    + unfold keep_files. apply filter_In. split; [now apply in_map|]. unfold used_file. apply orb_true_iff. right.
      apply existsb_exists. eauto.
    + intro X. cbn. apply filter_In. auto.
    + intro X. cbn. apply filter_In. auto.
  - intros k m p t M O L. rewrite P4. rewrite (map_nth_error _ _ _ M). unfold keep_mtx. rewrite O.
    rewrite RUN; auto. left. exists m. split; auto. eapply nth_error_In; eauto.
  - intros k c p t C J L. rewrite P5. rewrite (map_nth_error _ _ _ C). eexists. split; [reflexivity|].
    unfold keep_cond. apply filter_In. split; auto. cbn. apply RUN; auto. right. exists c. split; auto.
    eapply nth_error_In; eauto.
Qed.

(** ** C97: what is gone during the whole pass holds nothing afterwards *)
Definition gone_lockers (w : nat -> os) (s s' : shr) : Prop :=
  forall d i l, in_files s d i l -> (forall n, ~ live (w n) d i l) -> ~ in_files s' d i l.
Definition gone_names (w : nat -> os) (s s' : shr) (q : Z -> Z -> Prop) : Prop :=
  (forall k m p t, nth_error (g_mtx s) k = Some m -> m_own m = Some (p, t) -> q p t ->
     (forall n, ~ there (w n) p t) -> nth_error (g_mtx s') k = Some (ME None 0)) /\
  (forall k c c' p t, nth_error (g_cond s) k = Some c -> In (p, t) c -> q p t ->
     (forall n, ~ there (w n) p t) -> nth_error (g_cond s') k = Some c' -> ~ In (p, t) c').
Definition C97_statement : Prop := forall w s, (forall n, table_ok (w n)) -> ids_ok s ->
  let s' := CheckProcessDead w s in gone_lockers w s s' /\ gone_names w s s' (fun _ _ => True).

(** nobody is there any more *)
Definition empty_os : os := mkOs (fun _ _ => SErr 2) (fun _ _ => SErr 2).
Lemma empty_ok : table_ok empty_os.
Proof.
  split; [split; [|split]|].
  - intros p t e X. injection X as <-. unfold EACCES. lia.
  - intros p f e X. injection X as <-. lia.
  - intros p f d i X. discriminate X.
  - intros p f d i X. discriminate X.
Qed.
(** thread 7/8 died with a read lock without descriptor (number -1), a mutex and as a waiter *)
Definition leftover : shr :=
  Shr [FE 5 6 false [OE 0 10 false 1 [Lk 7 8 (-1) true] []]] [ME (Some (7, 8)) 2] [[(7, 8)]] 3 3 3 3.
Lemma leftover_ok : ids_ok leftover.
Proof.
  split.
  - intros d i l (f & o & [<-|[]] & _ & _ & [<-|[]] & [[<-|[]]|[]]). unfold is_int32, INT_MIN, INT_MAX. cbn. lia.
  - intros p t [(m & [<-|[]] & O)|(c & [<-|[]] & [X|[]])].
    + cbn in O. injection O as <- <-. lia.
    + injection X as <- <-. lia.
Qed.

(** the locker goes, the mutex stays: the answer about descriptor -1 is kept as "runs" *)
Theorem C97_gone_refuted : ~ C97_statement.
Proof.
  intro H. destruct (H (fun _ => empty_os) leftover (fun _ => empty_ok) leftover_ok) as (_ & M & _).
  specialize (M 0%nat (ME (Some (7, 8)) 2) 7 8 eq_refl eq_refl Logic.I).
  assert (X : nth_error (g_mtx (CheckProcessDead (fun _ => empty_os) leftover)) 0 = Some (ME None 0)).
  { apply M. intros _ (d & i & E). discriminate E. }
  vm_compute in X. discriminate X.
Qed.

(** all lockers; mutexes and waiters of threads that left no locker with the number -1 *)
Theorem C97_gone_partial : forall w s, (forall n, table_ok (w n)) -> ids_ok s ->
  let s' := CheckProcessDead w s in
  gone_lockers w s s' /\
  gone_names w s s' (fun p t => forall d i l, in_files s d i l -> l_pid l = p -> l_tid l = t -> l_fd l <> -1).
Proof.
  intros w s T I s'. destruct (pass_filters w s T I) as (ver & run & P1 & P2 & P3 & P4 & P5 & _). fold s' in P3, P4, P5.
  assert (RUN : forall p t, in_names s p t -> (forall d i l, in_files s d i l -> l_pid l = p -> l_tid l = t -> l_fd l <> -1) ->
     (forall n, ~ there (w n) p t) -> run p t = false).
  { intros p t N Q L. destruct (P2 _ _ N) as [[(d & i & l & X1 & X2 & X3 & X4) R]|(n & R)].
    - exfalso. exact (Q _ _ _ X1 X2 X3 X4).
    - destruct (run p t); auto. exfalso. apply (L n), R. auto. }
  split; [|split].
  - intros d i l IN L IN'. destruct (in_files_keep ver s s' d i l P3 IN') as [_ V].
    destruct (P1 _ _ _ IN) as (n & X). apply (L n), X, V.
  - intros k m p t M O Q L. rewrite P4. rewrite (map_nth_error _ _ _ M). unfold keep_mtx. rewrite O.
    rewrite RUN; auto. left. exists m. split; auto. eapply nth_error_In; eauto.
  - intros k c c' p t C J Q L E X. rewrite P5, (map_nth_error _ _ _ C) in E. injection E as <-.
    unfold keep_cond in X. apply filter_In in X. destruct X as [_ X]. cbn [fst snd] in X. rewrite RUN in X; [discriminate X| |auto|auto].
    right. exists c. split; auto. eapply nth_error_In; eauto.
Qed.

(** what the first pass leaves to a thread that is gone the second takes *)
Theorem C97_second_partial : forall w w' s, (forall n, table_ok (w n)) -> (forall n, table_ok (w' n)) -> ids_ok s ->
  let s' := CheckProcessDead w s in let s'' := CheckProcessDead w' s' in
  (forall k m p t, nth_error (g_mtx s) k = Some m -> m_own m = Some (p, t) ->
     (forall n, ~ there (w n) p t) -> (forall n, ~ there (w' n) p t) -> nth_error (g_mtx s'') k = Some (ME None 0)) /\
  (forall k c'' p t, (forall n, ~ there (w n) p t) -> (forall n, ~ there (w' n) p t) ->
     nth_error (g_cond s'') k = Some c'' -> ~ In (p, t) c'').
Proof.
  intros w w' s T T' I s' s''.
  destruct (pass_filters w s T I) as (ver & run & P1 & P2 & P3 & P4 & P5 & _). fold s' in P3, P4, P5.
  assert (I' : ids_ok s').
  { destruct I as [I1 I2]. split.
    - intros d i l L. apply (I1 d i). eapply in_files_keep; eauto.
    - intros p t [(m & M & O)|(c & C & J)].
      + rewrite P4 in M. apply in_map_iff in M. destruct M as (m0 & <- & M). unfold keep_mtx in O.
        destruct (m_own m0) as [[a b]|] eqn:O0; [|congruence]. destruct (run a b); [|discriminate O].
        apply (I2 p t). left. exists m0. split; auto.
      + rewrite P5 in C. apply in_map_iff in C. destruct C as (c0 & <- & C). unfold keep_cond in J. apply filter_In in J.
        apply (I2 p t). right. exists c0. tauto. }
  destruct (C97_gone_partial w' s' T' I') as (_ & M2 & W2). fold s'' in M2, W2.
  destruct (pass_filters w' s' T' I') as (ver' & run' & _ & _ & _ & P4' & P5' & _). fold s'' in P4', P5'.
  assert (CLEAN : forall p t, (forall n, ~ there (w n) p t) ->
    forall d i l, in_files s' d i l -> l_pid l = p -> l_tid l = t -> l_fd l <> -1).
  { intros p t L d i l IN <- <- F. destruct (in_files_keep ver s s' d i l P3 IN) as [IN0 V].
    destruct (P1 _ _ _ IN0) as (n & X). apply X in V. unfold live in V. rewrite F in V. cbn in V. apply (L n V). }
  split.
  - intros k m p t M O L L'.
    assert (X : nth_error (g_mtx s') k = Some (keep_mtx run m)) by (rewrite P4; now apply map_nth_error).
    assert (Y : keep_mtx run m = m \/ keep_mtx run m = ME None 0).
    { unfold keep_mtx. rewrite O. destruct (run p t); auto. }
    destruct Y as [Y|Y]; rewrite Y in X.
    + eapply M2; eauto.
    + rewrite P4', (map_nth_error _ _ _ X). reflexivity.
  - intros k c'' p t L L' E J.
    assert (X : exists c', nth_error (g_cond s') k = Some c' /\ c'' = keep_cond run' c').
    { rewrite P5' in E. rewrite nth_error_map in E. destruct (nth_error (g_cond s') k) as [c'|]; [|discriminate E].
      exists c'. split; auto. cbn in E. congruence. }
    destruct X as (c' & X & ->). assert (J' : In (p, t) c') by (unfold keep_cond in J; apply filter_In in J; tauto).
    exact (W2 _ _ _ _ _ X J' (CLEAN _ _ L) L' E J).
Qed.

(** ** C98: a pass loses no entry, leaves no empty entry, keeps lock words right and invents nothing *)
Definition C98_statement : Prop := forall w s, (forall n, table_ok (w n)) -> ids_ok s ->
  let s' := CheckProcessDead w s in
  (nfiles s' + p_file s' = nfiles s + p_file s /\ noffs s' + p_off s' = noffs s + p_off s /\
   nlockers s' + p_lk s' = nlockers s + p_lk s /\ nwaiters s' + p_wait s' = nwaiters s + p_wait s) /\
  (forall f', In f' (g_files s') ->
     (n_prot f' = true \/ exists o' l, In o' (n_offs f') /\ (e_prot o' = true \/ in_entry o' l)) /\
     exists f, In f (g_files s) /\ n_dev f = n_dev f' /\ n_ino f = n_ino f' /\ n_prot f = n_prot f' /\
     forall o', In o' (n_offs f') ->
       (e_prot o' = true \/ exists l, in_entry o' l) /\
       exists o, In o (n_offs f) /\ e_off o = e_off o' /\ e_len o = e_len o' /\ e_prot o = e_prot o' /\
         (forall l, In l (e_rd o') -> In l (e_rd o)) /\ (forall l, In l (e_wr o') -> In l (e_wr o))) /\
  (forall f, In f (g_files s) -> (n_prot f = true \/ exists o, In o (n_offs f) /\ e_prot o = true) ->
     exists f', In f' (g_files s') /\ n_dev f' = n_dev f /\ n_ino f' = n_ino f /\ n_prot f' = n_prot f /\
     forall o, In o (n_offs f) -> e_prot o = true ->
       exists o', In o' (n_offs f') /\ e_off o' = e_off o /\ e_len o' = e_len o /\ e_prot o' = true) /\
  ((forall f o, In f (g_files s) -> In o (n_offs f) -> fits o) ->
   (forall f o, In f (g_files s') -> In o (n_offs f) -> fits o)) /\
  length (g_mtx s') = length (g_mtx s) /\ length (g_cond s') = length (g_cond s) /\
  (forall k m m', nth_error (g_mtx s) k = Some m -> nth_error (g_mtx s') k = Some m' -> m' = m \/ m' = ME None 0) /\
  (forall k c c' x, nth_error (g_cond s) k = Some c -> nth_error (g_cond s') k = Some c' -> In x c' -> In x c).

Lemma used_has : forall o, used_off o = true -> e_prot o = true \/ exists l, in_entry o l.
Proof.
  intros o U. unfold used_off, in_entry in *. destruct (e_prot o); auto. right.
  destruct (e_rd o) as [|x r]; [|exists x; cbn; auto]. destruct (e_wr o) as [|x r]; [discriminate U|exists x; cbn; auto].
Qed.

Theorem C98_conserved : C98_statement.
Proof.
  intros w s T I s'. destruct (pass_filters w s T I) as (ver & run & P1 & P2 & P3 & P4 & P5 & P6). fold s' in P3, P4, P5, P6.
  split; [exact P6|]. split; [|split; [|split; [|split; [|split; [|split]]]]].
  - intros f' F. rewrite P3 in F. destruct (in_kept _ _ _ F) as (f & F0 & D & IN & PR & U & K). split.
    + unfold used_file in U. apply orb_true_iff in U. destruct U as [U|U]; auto. right.
      apply existsb_exists in U. destruct U as (o' & O & U). destruct (used_has _ U) as [X|(l & X)]; [|eauto].
      exists o', (Lk 0 0 0 false). auto.
    + exists f. sp; auto. intros o' O. destruct (K _ O) as (U' & o & O0 & ->). split; [now apply used_has|].
      exists o. sp; auto; cbn; intros l X; apply filter_In in X; tauto.
  - intros f F PR. exists (keep_file ver f).
    assert (KO : forall o, In o (n_offs f) -> e_prot o = true ->
       In (keep_off (ver (n_dev f) (n_ino f)) o) (n_offs (keep_file ver f)) /\
       used_off (keep_off (ver (n_dev f) (n_ino f)) o) = true).
    { intros o O E. assert (U : used_off (keep_off (ver (n_dev f) (n_ino f)) o) = true).
      { unfold used_off, keep_off. cbn [e_prot e_rd e_wr]. now rewrite E. }
      split; auto. cbn [keep_file n_offs]. apply filter_In. split; auto. now apply in_map. }
    sp; auto.
    + rewrite P3. unfold keep_files. apply filter_In. split; [now apply in_map|]. unfold used_file. apply orb_true_iff.
      destruct PR as [PR|(o & O & E)]; [left; exact PR|right]. apply existsb_exists. destruct (KO o O E). eauto.
    + intros o O E. exists (keep_off (ver (n_dev f) (n_ino f)) o). destruct (KO o O E). sp; auto.
  - intros H. rewrite P3. now apply fits_in_keep.
  - rewrite P4. apply map_length.
  - rewrite P5. apply map_length.
  - intros k m m' M M'. rewrite P4, (map_nth_error _ _ _ M) in M'. injection M' as <-. unfold keep_mtx.
    destruct (m_own m) as [[a b]|]; auto. destruct (run a b); auto.
  - intros k c c' x C C' X. rewrite P5, (map_nth_error _ _ _ C) in C'. injection C' as <-. unfold keep_cond in X.
    apply filter_In in X. tauto.
Qed.

(** ** C99: the pass a waiting call makes over the range it waits for *)
Definition C99_statement : Prop := forall w dev ino pid tid fd o, (forall n, table_ok (w n)) ->
  (forall l, in_entry o l -> is_int32 (l_fd l)) ->
  let '(o', n) := RecoverRange w dev ino pid tid fd o in
  let mine l := l_pid l = pid /\ l_tid l = tid /\ l_fd l = fd in
  e_off o' = e_off o /\ e_len o' = e_len o /\ e_prot o' = false /\
  n + off_lockers o' = off_lockers o /\
  (fits o -> fits o') /\
  (forall l, In l (e_rd o') -> In l (e_rd o)) /\ (forall l, In l (e_wr o') -> In l (e_wr o)) /\
  (forall l, mine l \/ (forall n, live (w n) dev ino l) ->
     (In l (e_rd o) -> In l (e_rd o')) /\ (In l (e_wr o) -> In l (e_wr o'))) /\
  (forall l, ~ mine l -> (forall n, ~ live (w n) dev ino l) -> ~ in_entry o' l).

Theorem C99_range_pass : C99_statement.
Proof.
  intros w dev ino pid tid fd o T F. assert (W : forall n, os_ok (w n)) by (intro n; apply T).
  unfold RecoverRange. set (o1 := OE (e_off o) (e_len o) true (e_word o) (e_rd o) (e_wr o)).
  set (ex := (pid, tid, fd)).
  destruct (sweep_off w dev ino ex pass0 o1) as [[o2 n] p] eqn:S.
  destruct (sweep_off_spec w W (fun _ => True) ex _ _ _ _ _ _ _ (good0 w _) (fun _ _ _ => Logic.I) S) as (G & _ & Q & K & N).
  pose (mine := fun l => l_pid l = pid /\ l_tid l = tid /\ l_fd l = fd). cbn [e_off e_len e_prot e_rd e_wr].
  assert (MINE : forall l, exempt ex l = true <-> mine l).
  { intro l. cbn. rewrite !andb_true_iff, !Z.eqb_eq. unfold mine. tauto. }
  assert (V : forall l, in_entry o l -> exempt ex l = false -> exists m, kept ex p dev ino l = true <-> live (w m) dev ino l).
  { intros l I E. destruct (Q l I) as [X|(v & V)]; [congruence|]. destruct (G _ _ V) as (_ & _ & m & TR). exists m.
    unfold kept. rewrite E. cbn [orb]. unfold verd. apply judge_truth; auto. }
  subst o2. cbn [keep_off e_off e_len e_rd e_wr o1].
  assert (IN : forall l, in_entry o l -> mine l \/ (forall n, live (w n) dev ino l) -> kept ex p dev ino l = true).
  { intros l I [X|X].
    - apply MINE in X. unfold kept. now rewrite X.
    - destruct (exempt ex l) eqn:E; [unfold kept; now rewrite E|]. destruct (V l I E) as (m & Y). apply Y, X. }
  assert (OUT : forall l, in_entry o l -> ~ mine l -> (forall n, ~ live (w n) dev ino l) -> kept ex p dev ino l = false).
  { intros l I X Y. destruct (exempt ex l) eqn:E; [exfalso; apply X, MINE; auto|]. destruct (V l I E) as (m & Z).
    destruct (kept ex p dev ino l); auto. exfalso. apply (Y m), Z. auto. }
  sp; auto.
  - unfold off_lockers in *. cbn [e_rd e_wr o1 keep_off] in N. cbn [e_rd e_wr]. lia.
  - intro H. apply (fits_keep (kept ex p dev ino)) in H. exact H.
  - intros l X. apply filter_In in X. tauto.
  - intros l X. apply filter_In in X. tauto.
  - intros l L. split; intro X; apply filter_In; split; auto; apply IN; auto; [now left|now right].
  - intros l L M X. unfold in_entry in X. cbn [e_rd e_wr] in X. rewrite !filter_In in X.
    assert (kept ex p dev ino l = false) by (apply OUT; auto; unfold in_entry; tauto). destruct X as [[_ X]|[_ X]]; congruence.
Qed.

(** ** cases *)
(** thread 7/8 has descriptor 4 open on file 5/6 and thread 9/9 has gone; 7/9 waits *)
Definition some_os : os :=
  mkOs (fun p t => if (p =? 7) && ((t =? 8) || (t =? 9)) then SOk 1 1 else SErr 2)
       (fun p f => if (p =? 7) && (f =? 4) then SOk 5 6 else SErr 2).
Lemma some_ok : table_ok some_os.
Proof.
  split; [split; [|split]|]; cbn.
  - intros p t e X. destruct ((p =? 7) && ((t =? 8) || (t =? 9))); [discriminate X|]. injection X as <-. unfold EACCES. lia.
  - intros p f e X. destruct ((p =? 7) && (f =? 4)); [discriminate X|]. injection X as <-. lia.
  - intros p f d i X. destruct ((p =? 7) && (f =? 4)); [|discriminate X]. injection X as <- <-. lia.
  - intros p f d i X. destruct ((p =? 7) && (f =? 4)); [|discriminate X]. injection X as <- <-. unfold two64. lia.
Qed.
(** 9/9 died; descriptor 3 of 7/8 is closed *)
Definition mixed : shr :=
  Shr [FE 5 6 false [OE 0 10 false 3 [Lk 7 8 4 true; Lk 9 9 4 true; Lk 7 8 3 true] [Lk 9 9 4 false];
                     OE 20 10 false (-1) [] [Lk 9 9 5 true]];
       FE 5 7 false [OE 0 1 false (-1) [] [Lk 7 8 4 true]]]
      [ME (Some (7, 8)) 1; ME (Some (9, 9)) 2; ME None 0] [[(7, 9); (9, 9)]; [(9, 9)]] 10 10 10 10.
Ltac pick H := repeat match type of H with _ \/ _ => destruct H as [H|H] end; try contradiction.
Lemma mixed_ok : ids_ok mixed.
Proof.
  split.
  - intros d i l (f & o & F & _ & _ & O & L). unfold is_int32, INT_MIN, INT_MAX.
    cbn in F. pick F; subst f; cbn in O; pick O; subst o; unfold in_entry in L; cbn in L; pick L; subst l; cbn; lia.
  - intros p t [(m & M & O)|(c & C & J)].
    + cbn in M. pick M; subst m; cbn in O; try discriminate O; injection O as <- <-; lia.
    + cbn in C. pick C; subst c; cbn in J; pick J; injection J as <- <-; lia.
Qed.
Example mixed_pass : CheckProcessDead (fun _ => some_os) mixed =
  Shr [FE 5 6 false [OE 0 10 false 1 [Lk 7 8 4 true] []]]
      [ME (Some (7, 8)) 1; ME None 0; ME None 0] [[(7, 9)]; []] 11 12 15 12.
Proof. vm_compute. reflexivity. Qed.
Example C96_case : In (Lk 7 8 4 true) (e_rd (OE 0 10 false 3 [Lk 7 8 4 true; Lk 9 9 4 true; Lk 7 8 3 true] [Lk 9 9 4 false]))
  /\ live some_os 5 6 (Lk 7 8 4 true) /\ there some_os 7 8 /\ there some_os 7 9.
Proof. cbn. repeat split; auto; try (exists 1, 1; reflexivity). Qed.
Example C97_case : ~ live some_os 5 6 (Lk 9 9 4 true) /\ ~ live some_os 5 6 (Lk 7 8 3 true) /\ ~ there some_os 9 9.
Proof.
  unfold live, there. cbn. split; [|split].
  - intros [X|[X _]]; discriminate X.
  - intros [X|[X _]]; discriminate X.
  - intros (d & i & X). discriminate X.
Qed.
Example C97_second_case : g_mtx (CheckProcessDead (fun _ => empty_os) leftover) = [ME (Some (7, 8)) 2] /\
  g_mtx (CheckProcessDead (fun _ => empty_os) (CheckProcessDead (fun _ => empty_os) leftover)) = [ME None 0].
Proof. split; vm_compute; reflexivity. Qed.
Example C98_case : forall f o, In f (firstn 1 (g_files mixed)) -> In o (n_offs f) -> fits o.
Proof.
  intros f o [<-|[]] O. cbn in O. pick O; subst o; [left|right]; repeat split; reflexivity.
Qed.
(** a protected range without holders stays, its neighbour goes *)
Example C98_protected_case : g_files (CheckProcessDead (fun _ => some_os)
  (Shr [FE 5 6 false [OE 0 10 true 0 [] []; OE 20 10 false 0 [] []]] [] [] 1 1 1 1)) =
  [FE 5 6 false [OE 0 10 true 0 [] []]].
Proof. vm_compute. reflexivity. Qed.
(** the caller's own locker stays although its descriptor is not on that file any more *)
Example C99_case : RecoverRange (fun _ => some_os) 5 6 7 8 3
  (OE 0 10 false 2 [Lk 7 8 4 true; Lk 9 9 4 true] [Lk 7 8 3 false]) =
  (OE 0 10 false 1 [Lk 7 8 4 true] [Lk 7 8 3 false], 1).
Proof. vm_compute. reflexivity. Qed.

Print Assumptions C96_live_kept.
Print Assumptions C97_gone_refuted.
Print Assumptions C97_gone_partial.
Print Assumptions C97_second_partial.
Print Assumptions C98_conserved.
Print Assumptions C99_range_pass.
