(** The dump of the shared memory: C121-C123. *)
From Coq Require Import ZArith List Bool Lia.
From Verif Require Import Base List_Model List_Spec List_Proofs Layout_Model Dump_Model Dump_Spec Dump_Proofs Dump_Proofs2.
Import ListNotations.
Open Scope Z_scope.

(** ** C121: what a dump shows *)
Definition C121_statement : Prop := forall fuel base m h fr out,
  0 < base -> has_shape m h -> long h fuel -> Dump fuel true base m fr = Some out ->
  shows_all base h out /\ (fr = true -> shows_free base h out).

(** The true part: the dump ends; of every list in use it shows the first entry, with everything inside it,
    of the free lists it shows every entry.  Missing: the other entries of the three lists in use. *)
Theorem C121_dump_shows_partial : forall fuel base m h fr,
  0 < base -> has_shape m h -> long h fuel ->
  exists out, Dump fuel true base m fr = Some out /\ shows_first base h out /\ (fr = true -> shows_free base h out).
Proof.
  intros fuel base m h fr Hb Hs Hl. eexists. split; [apply dump_eq; eassumption|]. split.
  - unfold shows_first. rewrite !section_read by (left; reflexivity). cbn [section_lines]. repeat split.
    + rewrite (shown_flat _ _ _ (fun x => [x + base])) by (intros; apply shown_file). apply flat_sing.
    + rewrite (shown_flat _ _ _ (fun x => mapped base (s_offs h x))) by (intros; apply (shown_file_offs base m h 1)). apply flat_mapped.
    + rewrite (shown_flat _ _ _ (fun x => mapped base (flat_map (fun o => s_readers h o ++ s_writers h o) (s_offs h x))))
        by (intros; apply (shown_file_lockers base m h 1)).
      rewrite flat_mapped. f_equal. destruct (s_files h) as [|x l]; cbn; [reflexivity|]. now rewrite !app_nil_r.
    + rewrite (shown_flat _ _ _ (fun x => [x + base])) by (intros; apply shown_mtx). apply flat_sing.
    + rewrite (shown_flat _ _ _ (fun x => [x + base])) by (intros; apply shown_cond). apply flat_sing.
    + rewrite (shown_flat _ _ _ (fun x => mapped base (s_waiters h x))) by (intros; apply (shown_cond_waiters base m h 1)). apply flat_mapped.
  - intros ->. unfold shows_free.
    rewrite !(section_read base m h true) by (right; reflexivity).
    cbn [section_lines]. repeat split; rewrite (shown_flat _ _ _ (fun x => [x + base])); try apply flat_sing; intros.
    + apply shown_file.
    + apply shown_off.
    + apply shown_locker.
    + apply shown_mtx.
    + apply shown_cond.
    + apply shown_waiter.
Qed.
Print Assumptions C121_dump_shows_partial.

(** so the dump is complete as long as no list in use has more than one entry *)
Theorem C121_short_lists_are_complete : forall fuel base m h fr out,
  0 < base -> has_shape m h -> long h fuel -> Dump fuel true base m fr = Some out ->
  (length (s_files h) <= 1)%nat -> (length (s_mtxs h) <= 1)%nat -> (length (s_conds h) <= 1)%nat ->
  shows_all base h out.
Proof.
  intros fuel base m h fr out Hb Hs Hl D F M C.
  destruct (C121_dump_shows_partial fuel base m h fr Hb Hs Hl) as (out' & D' & (S1 & _ & _ & S2 & S3 & _) & _).
  rewrite D in D'. injection D' as <-.
  assert (G : forall l : list Z, (length l <= 1)%nat -> first_of l = l).
  { intros [|x [|y l]]; cbn; auto; lia. }
  unfold shows_all. rewrite S1, S2, S3, !G by auto. auto.
Qed.
Print Assumptions C121_short_lists_are_complete.

(** an example: two mutexes (800, 896) in use, one file (200) with a range (300) with a reader (400), a condition
    variable (500) with a waiter (600) for the mutex 800; a free locker (700) *)
Definition ex_dump (owner : Z) : mem := fun a => match a with
  | 48 => 200 | 64 => 800 | 80 => 500 | 104 => 700
  | 208 => 5 | 216 => 77 | 224 => 300
  | 308 => 1 | 316 => 0 | 324 => 10 | 332 => 400
  | 408 => 4294967297 | 416 => 3 | 420 => 1
  | 508 => 600 | 516 => 11 | 524 => 12
  | 608 => 4294967298 | 616 => 2 | 624 => 800
  | 800 => 896 | 808 => owner | 816 => (if owner =? 0 then 0 else 1) | 824 => 21 | 832 => 22 | 920 => 23 | 928 => 24
  | _ => 0 end.
Definition ex_shape : shape :=
  {| s_files := [200]; s_mtxs := [800; 896]; s_conds := [500];
     s_offs := fun f => if f =? 200 then [300] else []; s_readers := fun o => if o =? 300 then [400] else [];
     s_writers := fun _ => []; s_waiters := fun c => if c =? 500 then [600] else [];
     s_file_free := []; s_off_free := []; s_locker_free := [700]; s_mtx_free := []; s_cond_free := []; s_waiter_free := [] |}.

Lemma ex_has_shape : forall owner, has_shape (ex_dump owner) ex_shape.
Proof.
  intros owner. unfold has_shape, leads, ex_shape; cbn [s_files s_mtxs s_conds s_offs s_readers s_writers s_waiters s_file_free
    s_off_free s_locker_free s_mtx_free s_cond_free s_waiter_free app].
  repeat match goal with |- _ /\ _ => split end.
  all: try match goal with |- chain _ _ _ _ => repeat (constructor; [reflexivity|]); constructor end.
  - intros f [<-|[]]. split; [constructor; [reflexivity|constructor]|].
    intros o [<-|[]]. split; [constructor; [reflexivity|constructor]|constructor].
  - intros o [].
  - intros c [<-|[]]. constructor; [reflexivity|constructor].
Qed.
Lemma ex_long : long ex_shape 5.
Proof.
  unfold long, ex_shape; cbn. repeat split; try lia; intros x.
  - destruct (x =? 200); cbn; lia.
  - destruct (x =? 300); cbn; lia.
  - destruct (x =? 500); cbn; lia.
Qed.

Example C121_case : match Dump 5 true 4096 (ex_dump 9) true with
  | Some out => shown KMtx 1 (sec SMtx out) = [800 + 4096] /\ shown KLocker 5 (sec SFile out) = [400 + 4096] /\
                shown KWaiter 3 (sec SCond out) = [600 + 4096] /\ shown KMtx 5 (sec SCond out) = [800 + 4096] /\
                shown KLocker 1 (sec SLockerFree out) = [700 + 4096]
  | None => False
  end.
Proof. vm_compute. auto 10. Qed.

(** The second mutex in use is nowhere in the dump. *)
Theorem C121_dump_complete_refuted : ~ C121_statement.
Proof.
  intros H. destruct (Dump 5 true 4096 (ex_dump 9) true) as [out|] eqn:D; [|vm_compute in D; discriminate].
  destruct (H 5%nat 4096 (ex_dump 9) ex_shape true out) as ((_ & M & _) & _); auto;
    [reflexivity | apply ex_has_shape | apply ex_long|].
  vm_compute in D. injection D as <-. vm_compute in M. discriminate.
Qed.
Print Assumptions C121_dump_complete_refuted.

(** ** C122: a dump tells the state of the locks it shows *)
Definition C122_statement : Prop := forall fuel base m m' h h' fr out r,
  0 < base -> has_shape m h -> has_shape m' h' -> long h fuel -> long h' fuel ->
  Dump fuel true base m fr = Some out -> Dump fuel true base m' fr = Some out ->
  (* a mutex shown in use: whether somebody owns it (lockval, at 8) *)
  (In (r + base) (shown KMtx 1 (sec SMtx out)) -> (m (r + 8) = 0 <-> m' (r + 8) = 0)) /\
  (* a range shown: the lock word, the offset, the length *)
  (In (r + base) (shown KOff 3 (sec SFile out)) -> m (r + 8) = m' (r + 8) /\ m (r + 16) = m' (r + 16) /\ m (r + 24) = m' (r + 24)) /\
  (* a reader or writer shown: thread, descriptor, whether it has the lock *)
  (In (r + base) (shown KLocker 5 (sec SFile out)) -> m (r + 8) = m' (r + 8) /\ m (r + 16) = m' (r + 16) /\ m (r + 20) = m' (r + 20)).

(** The true part: every line about a member of an entry gives its value, in every section; so two memories with
    the same dump agree on all members shown.  Missing: a mutex has no line about its owner. *)
Theorem C122_members_partial : forall fuel base m h fr s,
  0 < base -> has_shape m h -> long h fuel ->
  exists out, Dump fuel true base m fr = Some out /\
    forall k n r f o, In (r + base) (shown k n (sec s out)) -> In (f, o) (members k) ->
      value_of k n (r + base) f (sec s out) = Some (m (r + o)).
Proof.
  intros fuel base m h fr s Hb Hs Hl. eexists. split; [apply dump_eq; eassumption|].
  intros k n r f o I M. apply shown_in in I.
  assert (E : r + base - base + o = r + o) by lia. rewrite <- E.
  assert (T : truthful base m (sec s (d_used base m h ++ if fr then d_free base m h else []))).
  { destruct (in_use s) eqn:U; [rewrite section_read by auto; apply tr_section|].
    destruct fr; [rewrite (section_read base m h true) by auto; apply tr_section|]. rewrite section_none by auto. intros k' n' p' f' o' _ []. }
  now apply T.
Qed.
Print Assumptions C122_members_partial.

Lemma same_values : forall fuel base m m' h h' fr out s k n r f o,
  0 < base -> has_shape m h -> has_shape m' h' -> long h fuel -> long h' fuel ->
  Dump fuel true base m fr = Some out -> Dump fuel true base m' fr = Some out ->
  In (r + base) (shown k n (sec s out)) -> In (f, o) (members k) -> m (r + o) = m' (r + o).
Proof.
  intros fuel base m m' h h' fr out s k n r f o Hb S S' L L' D D' I M.
  destruct (C122_members_partial fuel base m h fr s Hb S L) as (o1 & D1 & V1).
  destruct (C122_members_partial fuel base m' h' fr s Hb S' L') as (o2 & D2 & V2).
  rewrite D in D1. injection D1 as <-. rewrite D' in D2. injection D2 as <-.
  specialize (V1 k n r f o I M). rewrite (V2 k n r f o I M) in V1. congruence.
Qed.

(** the second and third part of the statement hold *)
Theorem C122_read_write_locks_partial : forall fuel base m m' h h' fr out r,
  0 < base -> has_shape m h -> has_shape m' h' -> long h fuel -> long h' fuel ->
  Dump fuel true base m fr = Some out -> Dump fuel true base m' fr = Some out ->
  (In (r + base) (shown KOff 3 (sec SFile out)) -> m (r + 8) = m' (r + 8) /\ m (r + 16) = m' (r + 16) /\ m (r + 24) = m' (r + 24)) /\
  (In (r + base) (shown KLocker 5 (sec SFile out)) -> m (r + 8) = m' (r + 8) /\ m (r + 16) = m' (r + 16) /\ m (r + 20) = m' (r + 20)).
Proof.
  intros fuel base m m' h h' fr out r Hb S S' L L' D D'.
  pose proof (fun k n f o => same_values fuel base m m' h h' fr out SFile k n r f o Hb S S' L L' D D') as G.
  split; intros I; repeat split.
  - apply (G KOff 3 FLockval 8 I). cbn. auto.
  - apply (G KOff 3 FOffset 16 I). cbn. auto.
  - apply (G KOff 3 FLen 24 I). cbn. auto.
  - apply (G KLocker 5 FPid 8 I). cbn. auto.
  - apply (G KLocker 5 FFd 16 I). cbn. auto.
  - apply (G KLocker 5 FLocked 20 I). cbn. auto.
Qed.
Print Assumptions C122_read_write_locks_partial.

Example C122_case : match Dump 5 true 4096 (ex_dump 9) true with
  | Some out => value_of KOff 3 (300 + 4096) FLockval (sec SFile out) = Some 1 /\
                value_of KLocker 5 (400 + 4096) FFd (sec SFile out) = Some 3 /\
                value_of KMtx 1 (800 + 4096) FName (sec SMtx out) = Some 22 /\
                value_of KMtx 1 (800 + 4096) FPid (sec SMtx out) = None
  | None => False
  end.
Proof. vm_compute. auto 10. Qed.

(** A mutex owned by thread 9 and a free one look the same. *)
Theorem C122_mutex_state_refuted : ~ C122_statement.
Proof.
  intros H. destruct (Dump 5 true 4096 (ex_dump 9) true) as [out|] eqn:D; [|vm_compute in D; discriminate].
  assert (D' : Dump 5 true 4096 (ex_dump 0) true = Some out).
  { rewrite <- D. vm_compute. reflexivity. }
  destruct (H 5%nat 4096 (ex_dump 9) (ex_dump 0) ex_shape ex_shape true out 800) as (M & _); auto;
    try apply ex_has_shape; try apply ex_long; [reflexivity|].
  assert (I : In (800 + 4096) (shown KMtx 1 (sec SMtx out))).
  { vm_compute in D. injection D as <-. vm_compute. auto. }
  destruct (M I) as [_ M2]. specialize (M2 eq_refl). vm_compute in M2. discriminate.
Qed.
Print Assumptions C122_mutex_state_refuted.

(** ** C123: a dump taken while other threads work *)
Definition C123_statement : Prop := forall base noff m top free l f ss s,
  0 < base -> contents noff m top l -> contents noff m free f -> apart noff top l free f ->
  walk base noff top free (fun _ => True) (w_start m) ss s ->
  forall r, In (r + base) (w_out s) -> was_in noff top ss r.

(** The list 100 at head cell 8, the free list 140 at head cell 16.  The walk is at 100 when its owner releases
    it; 100 now leads to 140, which was never in the list. *)
Definition ex_walk : mem := fun a => match a with 8 => 100 | 16 => 140 | _ => 0 end.
Fixpoint play (base noff top free : Z) (s : wstate) (ss : list wstate) (ls : list wlabel) : option (list wstate * wstate) :=
  match ls with
  | [] => Some (ss, s)
  | a :: r => match w_step base noff top free s a with None => None | Some s' => play base noff top free s' (s' :: ss) r end
  end.
Lemma play_walk : forall base noff top free s0 ls s ss ss' s', walk base noff top free (fun _ => True) s0 ss s ->
  play base noff top free s ss ls = Some (ss', s') -> walk base noff top free (fun _ => True) s0 ss' s'.
Proof.
  intros base noff top free s0 ls. induction ls as [|a ls IH]; intros s ss ss' s' W H; cbn in H.
  - injection H as <- <-. auto.
  - destruct (w_step base noff top free s a) as [s1|] eqn:E; [|discriminate].
    eapply IH; [|exact H]. now apply walk_s with (s' := s) (a := a).
Qed.
Definition ex_steps : list wlabel :=
  [LDump; LRelease (100 + 4096) 5; LWrite; LWrite; LWrite; LWrite; LDump; LDump; LDump].

Lemma ex_walk_contents : contents 16 ex_walk 8 [100] /\ contents 16 ex_walk 16 [140] /\ apart 16 8 [100] 16 [140].
Proof.
  split; [|split].
  - split; [constructor; [reflexivity|constructor]|]. split; [repeat constructor; auto|]. intros r [<-|[]]. lia.
  - split; [constructor; [reflexivity|constructor]|]. split; [repeat constructor; auto|]. intros r [<-|[]]. lia.
  - unfold apart. cbn. repeat split; try lia; intros r [<-|[]]; lia.
Qed.

Theorem C123_dump_while_running_refuted : ~ C123_statement.
Proof.
  intros H. destruct ex_walk_contents as (L & F & A).
  destruct (play 4096 16 8 16 (w_start ex_walk) [w_start ex_walk] ex_steps) as [[ss s]|] eqn:P; [|vm_compute in P; discriminate].
  assert (W : walk 4096 16 8 16 (fun _ => True) (w_start ex_walk) ss s) by (eapply play_walk; [constructor|exact P]).
  assert (O : w_out s = [140 + 4096; 100 + 4096]).
  { change (match Some (ss, s) with Some (_, x) => w_out x = [140 + 4096; 100 + 4096] | None => False end).
    rewrite <- P. vm_compute. reflexivity. }
  assert (N : forall x, In x ss -> w_mem x 8 = 100 \/ w_mem x 8 = 0).
  { change (match Some (ss, s) with Some (xs, _) => forall x, In x xs -> w_mem x 8 = 100 \/ w_mem x 8 = 0 | None => False end).
    rewrite <- P. vm_compute. intros x X. repeat (destruct X as [<-|X]; [auto|]). destruct X. }
  assert (N2 : forall x, In x ss -> w_mem x 8 = 100 -> w_mem x 116 = 0).
  { change (match Some (ss, s) with Some (xs, _) => forall x, In x xs -> w_mem x 8 = 100 -> w_mem x 116 = 0 | None => False end).
    rewrite <- P. vm_compute. intros x X. repeat (destruct X as [<-|X]; [intros Y; first [discriminate Y | reflexivity]|]). destruct X. }
  destruct (H 4096 16 ex_walk 8 16 [100] [140] ss s eq_refl L F A W 140) as (x & l & X & (C & _) & I).
  { rewrite O. now left. }
  destruct (N x X) as [E|E]; rewrite E in C.
  - destruct l as [|y l]; [inversion C|]. apply chain_inv in C. destruct C as (<- & _ & C).
    change (100 + 16) with 116 in C. rewrite (N2 x X E) in C. inversion C; [|lia]. subst l. destruct I as [I|[]]; lia.
  - inversion C; [|lia]. subst l. destruct I.
Qed.
Print Assumptions C123_dump_while_running_refuted.

(** The true part: whatever the others do, every entry shown is an entry of the two lists (so no pointer is
    followed out of the area of the entries). *)
Theorem C123_only_entries_partial : forall base noff m top free l f ss s,
  0 < base -> contents noff m top l -> contents noff m free f ->
  walk base noff top free (fun _ => True) (w_start m) ss s ->
  forall p, (In p (w_out s) -> exists r, In r (l ++ f) /\ p = r + base) /\
            (w_cur s = Some p -> p = 0 \/ exists r, In r (l ++ f) /\ p = r + base).
Proof.
  intros base noff m top free l f ss s Hb L F W.
  assert (PP : forall r, In r (l ++ f) -> 0 < r).
  { intros r H. apply in_app_or in H. destruct H; [destruct L as (C & _)|destruct F as (C & _)]; eapply chain_pos; eauto. }
  assert (G : forall x q, chain noff m x q -> (forall r, In r q -> In r (l ++ f)) ->
            okv (l ++ f) x /\ forall r, In r q -> okv (l ++ f) (m (r + noff))).
  { intros x q C. induction C as [|r q R C IH]; intros S; [split; [now left|intros r []]|].
    destruct IH as (I1 & I2); [intros; apply S; now right|].
    split; [right; apply S; now left|]. intros y [<-|Hy]; auto. }
  assert (I : pinv base noff top free (l ++ f) (w_start m)).
  { destruct L as (C & _), F as (C' & _). destruct (G _ _ C) as (G1 & G2); [intros; apply in_or_app; auto|].
    destruct (G _ _ C') as (G3 & G4); [intros; apply in_or_app; auto|].
    split; [|split; [intros c v []|split; [discriminate|intros p []]]].
    split; auto. split; auto. intros r Hr. apply in_app_or in Hr. destruct Hr; auto. }
  assert (J : pinv base noff top free (l ++ f) s).
  { remember (w_start m) as s0 eqn:E0. clear E0. induction W; [exact I|].
    eapply pinv_step; [exact Hb|exact PP| |exact H0]. auto. }
  destruct J as (_ & _ & J1 & J2). intros p. split; [apply J2|apply J1].
Qed.
Print Assumptions C123_only_entries_partial.

(** As long as nothing is released, a walk that has ended has shown exactly the list of some moment of the walk,
    in order. *)
Theorem C123_without_release_partial : forall base noff m top free l f ss s,
  0 < base -> contents noff m top l -> contents noff m free f -> apart noff top l free f ->
  walk base noff top free (fun a => forall p n, a <> LRelease p n) (w_start m) ss s -> w_cur s = Some 0 ->
  exists s0 l0, In s0 ss /\ contents noff (w_mem s0) top l0 /\ rev (w_out s) = mapped base l0.
Proof.
  intros base noff m top free l f ss s Hb L F A W E.
  assert (I : winv base noff top free ss s).
  { remember (w_start m) as s0 eqn:E0. revert E. generalize (Some 0). intros o _. induction W as [s1|s1 ss s' a s'' W IH K H].
    - subst s1. exists l, f. repeat split; cbn; auto; try apply L. constructor; auto.
    - eapply winv_step; [exact Hb|apply IH; auto|exact K|exact H]. }
  destruct I as (l1 & f1 & L1 & _ & P). unfold place in P. rewrite E in P.
  destruct P as (new & pre & suf & -> & (s0 & I0 & C0) & P).
  assert (R : forall x, In x suf -> 0 < x).
  { intros x Hx. destruct C0 as (C & _). eapply chain_pos; [exact C|]. apply in_or_app. now right. }
  destruct (w_next s).
  - destruct P as (x & suf' & -> & X & _). specialize (R x (or_introl eq_refl)). lia.
  - destruct P as (O & X). destruct suf as [|x suf].
    + exists s0, pre. rewrite app_nil_r in C0. split; auto. split; auto. rewrite O. apply rev_involutive.
    + specialize (R x (or_introl eq_refl)). rewrite to_abs_pos in X by auto. lia.
Qed.
Print Assumptions C123_without_release_partial.

(** a walk during which 140 is put into the list *)
Example C123_case : match play 4096 16 8 16 (w_start ex_walk) [w_start ex_walk]
    [LAcquire; LWrite; LWrite; LWrite; LDump; LWrite; LDump; LDump] with
  | Some (_, s) => w_cur s = Some 0 /\ w_out s = [100 + 4096] /\ w_mem s 8 = 140
  | None => False
  end.
Proof. vm_compute. auto. Qed.
