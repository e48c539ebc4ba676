(** Proofs about the recovery pass. *)
From Verif Require Import Base Cache_Model Cache_Spec Cache_Proofs Sweep_Model Sweep_Spec.
From Coq Require Import ZArith List Bool Lia.
Import ListNotations.
Open Scope Z_scope.

Ltac sp := repeat match goal with |- _ /\ _ => split end.

(** the exact answer for one locker *)
Lemma no_fd_neg32 : forall fd, is_int32 fd -> IS_NO_FD fd = (fd <? 0).
Proof.
  unfold is_int32, INT_MIN, INT_MAX, IS_NO_FD, two32. intros f H.
  rewrite Z.testbit_eqb by lia. change (2 ^ 31) with 2147483648.
  destruct (Z.ltb_spec f 0) as [L|L].
  - rewrite <- (Z.mod_add f 1) by lia. rewrite (Z.mod_small (f + 1 * 4294967296)) by lia.
    assert (D : (f + 1 * 4294967296) / 2147483648 = 1).
    { symmetry. apply Z.div_unique with (f + 2147483648); lia. }
    rewrite D. reflexivity.
  - rewrite (Z.mod_small f) by lia. rewrite Z.div_small by lia. reflexivity.
Qed.

Definition judge (dev ino : Z) (r : option (Z * Z)) : bool :=
  match r with
  | None => false
  | Some (d, i) => negb (negb (FLCK_EACCESS_ID =? d) && negb (FLCK_EACCESS_ID =? i) && (negb (d =? dev) || negb (i =? ino)))
  end.

Lemma judge_truth : forall o dev ino l r, table_ok o -> is_int32 (l_fd l) ->
  truth o (QDev (l_pid l) (l_tid l) (l_fd l)) = ADev r -> (judge dev ino r = true <-> live o dev ino l).
Proof.
  intros o dev ino l r ((T1 & T2 & T3) & T4) F E. unfold truth, ask, GetFileDevNode, ask_dev in E.
  rewrite no_fd_neg32 in E by auto. unfold live. destruct (l_fd l <? 0) eqn:NF.
  - unfold there. destruct (o_task o (l_pid l) (l_tid l)) as [e|d i] eqn:T.
    + destruct (T1 _ _ _ T) as [A B]. apply Z.eqb_neq in A, B. rewrite A, B in E. cbn in E.
      injection E as <-. cbn. split; [intro X; discriminate X|intros (x & y & X); discriminate X].
    + cbn in E. injection E as <-. cbn. split; eauto.
  - unfold GetFileDevNode1, there in *. destruct (o_fd o (l_pid l) (l_fd l)) as [e|d i] eqn:T.
    + pose proof (T2 _ _ _ T) as NE. destruct (Z.eqb_spec e EACCES) as [->|NA].
      * rewrite Z.eqb_refl in E. destruct (o_task o (l_pid l) (l_tid l)) as [e|d i] eqn:T'.
        -- destruct (T1 _ _ _ T') as [A B]. apply Z.eqb_neq in A, B. rewrite A, B in E. cbn in E.
           injection E as <-. cbn. split; [intro X; discriminate X|].
           intros [X|[_ (x & y & X)]]; discriminate X.
        -- cbn in E. injection E as <-. cbn. split; auto. intros _. right. eauto.
      * rewrite (proj2 (Z.eqb_neq e EACCES) NA) in E. apply Z.eqb_neq in NA, NE. rewrite NA, NE in E. cbn in E. injection E as <-. cbn.
        split; [intro X; discriminate X|]. intros [X|[X _]]; [discriminate X|].
        injection X as X. apply Z.eqb_neq in NA. congruence.
    + cbn in E. injection E as <-. destruct (T4 _ _ _ _ T) as [A B].
      unfold judge. unfold FLCK_EACCESS_ID. rewrite (proj2 (Z.eqb_neq (two64 - 1) d)) by congruence.
      rewrite (proj2 (Z.eqb_neq (two64 - 1) i)) by congruence. cbn [negb andb].
      rewrite negb_orb, !negb_involutive, andb_true_iff, !Z.eqb_eq. split.
      * intros [-> ->]. auto.
      * intros [X|[X _]]; [|discriminate X]. injection X as -> ->. auto.
Qed.

Section Pass.
Variable w : nat -> os.
Variable W : forall n, os_ok (w n).

Definition known (p : pst) (k : key) : Prop := exists v, lookup (q_cache p) k = Some v.
Definition extends (p p' : pst) : Prop := forall k v, lookup (q_cache p) k = Some v -> lookup (q_cache p') k = Some v.
Lemma ext_refl : forall p, extends p p. Proof. intros p k v. auto. Qed.
Lemma ext_trans : forall a b c, extends a b -> extends b c -> extends a c.
Proof. intros a b c X Y k v Z. auto. Qed.
Lemma ext_known : forall a b k, extends a b -> known a k -> known b k.
Proof. intros a b k X (v & V). exists v. auto. Qed.
Hint Resolve ext_refl ext_trans ext_known : core.

(** what the cache says about a locker *)
Definition node_of (p : pst) (k : key) : option (Z * Z) :=
  match lookup (q_cache p) k with
  | Some v => if (v_dev v =? 0) && (v_ino v =? 0) then None else Some (v_dev v, v_ino v)
  | None => None
  end.
Lemma node_ext : forall p p' k, extends p p' -> known p k -> node_of p' k = node_of p k.
Proof. intros p p' k X (v & V). unfold node_of. now rewrite (X _ _ V), V. Qed.

Section Files.
Variable A : key -> Prop.
(** every entry is what the system said at some moment about a locker in the lists *)
Definition good (p : pst) : Prop :=
  forall k v, lookup (q_cache p) k = Some v ->
    A k /\ v_run v = true /\ exists n, truth (w n) (QDev (k_pid k) (k_tid k) (k_fd k)) = ADev (node_of p k).

Lemma good0 : good pass0.
Proof. intros k v X. discriminate X. Qed.

Lemma ask_node_spec : forall p a t f r p', good p -> A (Key a t f) -> ask_node w p a t f = (r, p') ->
  good p' /\ extends p p' /\ known p' (Key a t f) /\ r = node_of p' (Key a t f).
Proof.
  intros p a t f r p' G IA E. unfold ask_node, GetFileDevNode, get_device_cache in E.
  destruct (lookup (q_cache p) (Key a t f)) as [v|] eqn:L.
  - assert (X : node_of p (Key a t f) = r /\ q_cache p' = q_cache p).
    { unfold node_of. rewrite L. unfold FLCK_INVALID_ID in E. rewrite !(Z.eqb_sym 0) in E.
      destruct ((v_dev v =? 0) && (v_ino v =? 0)); injection E as <- <-; auto. }
    destruct X as [X Y].
    assert (N : forall k, node_of p' k = node_of p k) by (intro k; unfold node_of; now rewrite Y).
    split; [|split; [|split]].
    + intros k u U. rewrite Y in U. rewrite N. apply (G _ _ U).
    + intros k u U. now rewrite Y.
    + exists v. now rewrite Y.
    + now rewrite N.
  - destruct (ask_dev (w (q_no p)) a t f) as [[rr d] i] eqn:AD.
    set (ok := (rr =? 0) || (rr =? EACCES)) in *.
    assert (TR : truth (w (q_no p)) (QDev a t f) = ADev (if ok then Some (d, i) else None)).
    { unfold truth, ask, GetFileDevNode. rewrite AD. reflexivity. }
    injection E as <- <-.
    set (v := if ok then Val d i true else Val 0 0 true).
    assert (C : (if ok then set_device_cache (q_cache p) a t f d i else set_no_device_cache (q_cache p) a t f)
                = store (q_cache p) (Key a t f) v).
    { subst v. unfold set_device_cache, set_no_device_cache, FLCK_INVALID_ID. destruct ok; reflexivity. }
    rewrite C. clear C. set (p' := PS (S (q_no p)) (store (q_cache p) (Key a t f) v)).
    assert (LK : forall k, lookup (q_cache p') k = if same_key (Key a t f) k then Some v else lookup (q_cache p) k)
      by (intro k; apply lookup_store).
    assert (SELF : lookup (q_cache p') (Key a t f) = Some v) by now rewrite LK, same_key_refl.
    assert (NODE : node_of p' (Key a t f) = (if ok then Some (d, i) else None)).
    { unfold node_of. rewrite SELF. subst v. destruct ok eqn:OK; cbn; auto.
      destruct (ask_dev_ok _ _ _ _ _ _ _ (W (q_no p)) AD OK) as [X|X].
      - rewrite (proj2 (Z.eqb_neq d 0) X). auto.
      - rewrite (proj2 (Z.eqb_neq i 0) X). destruct (d =? 0); auto. }
    assert (EXT : extends p p').
    { intros k u X. rewrite LK. destruct (same_key (Key a t f) k) eqn:SK; auto.
      apply same_key_eq in SK. subst k. congruence. }
    split; [|repeat split; auto; exists v; auto].
    intros k u X. destruct (same_key (Key a t f) k) eqn:SK.
    + apply same_key_eq in SK. subst k. rewrite SELF in X. apply (f_equal (fun x => match x with Some y => y | None => v end)) in X.
      subst u. split; [auto|]. split; [subst v; destruct ok; reflexivity|]. exists (q_no p). cbn [k_pid k_tid k_fd].
      now rewrite NODE.
    + rewrite LK, SK in X. destruct (G _ _ X) as (X1 & X2 & n & X3). split; auto. split; auto. exists n.
      rewrite (node_ext p p'); auto. exists u. auto.
Qed.

Definition kk (l : lk) : key := Key (l_pid l) (l_tid l) (l_fd l).
Definition verd (p : pst) (dev ino : Z) (l : lk) : bool := judge dev ino (node_of p (kk l)).
Lemma verd_ext : forall p p' d i l, extends p p' -> known p (kk l) -> verd p' d i l = verd p d i l.
Proof. intros. unfold verd. now rewrite (node_ext p p'). Qed.

(** the exempted locker, if any, is not among those asked about *)
Variable ex : Z * Z * Z.
Definition exempt (l : lk) : bool :=
  let '(xp, xt, xf) := ex in (l_pid l =? xp) && (l_tid l =? xt) && (l_fd l =? xf).
Definition kept (p : pst) (dev ino : Z) (l : lk) : bool := exempt l || verd p dev ino l.
Definition seen (p : pst) (l : lk) : Prop := exempt l = true \/ known p (kk l).

Lemma kept_ext : forall p p' d i l, extends p p' -> seen p l -> kept p' d i l = kept p d i l.
Proof.
  intros p p' d i l X [S|S]; unfold kept; [now rewrite S|]. now rewrite (verd_ext p p').
Qed.
Lemma seen_ext : forall p p' l, extends p p' -> seen p l -> seen p' l.
Proof. intros p p' l X [S|S]; [left|right]; eauto. Qed.

Lemma dead_locker_spec : forall dev ino p l b p', good p -> (exempt l = false -> A (kk l)) ->
  dead_locker w dev ino ex p l = (b, p') ->
  good p' /\ extends p p' /\ seen p' l /\ b = negb (kept p' dev ino l).
Proof.
  intros dev ino p l b p' G IA E. unfold dead_locker in E. unfold seen, kept, exempt in *. destruct ex as [[xp xt] xf].
  destruct ((l_pid l =? xp) && (l_tid l =? xt) && (l_fd l =? xf)) eqn:X.
  - injection E as <- <-. split; auto.
  - destruct (ask_node w p (l_pid l) (l_tid l) (l_fd l)) as [r p1] eqn:AN.
    destruct (ask_node_spec _ _ _ _ _ _ G (IA eq_refl) AN) as (G1 & E1 & K1 & R1).
    assert (P : p' = p1 /\ b = negb (judge dev ino r)).
    { destruct r as [[d i]|]; injection E as <- <-; cbn [judge]; rewrite ?negb_involutive; auto. }
    destruct P as [-> ->]. rewrite R1. auto.
Qed.

Lemma lost_cons : forall k x l, lost k (x :: l) = ((if l_locked x && negb (k x) then 1 else 0) + lost k l)%nat.
Proof. intros. unfold lost. cbn. destruct (l_locked x && negb (k x)); reflexivity. Qed.
Lemma lost_ext : forall k k' l, (forall x, In x l -> k x = k' x) -> lost k l = lost k' l.
Proof.
  intros k k' l H. unfold lost. f_equal. apply filter_ext_in. intros x I. now rewrite H.
Qed.
Lemma unlocked_S : forall n v, unlocked (S n) v = unlocked n (RwApi_Model.unlock_word v).
Proof.
  intros n v. unfold unlocked, RwApi_Model.unlock_word, RwWord_Model.RW_UNLOCK, RwWord_Model.RW_WLOCK.
  destruct (v =? 0) eqn:E; [apply Z.eqb_eq in E|apply Z.eqb_neq in E]; [|destruct (v <=? -1) eqn:L; [apply Z.leb_le in L|apply Z.leb_gt in L]]; destruct n; lia.
Qed.
Lemma unlocked_add : forall a b v, unlocked (a + b) v = unlocked b (unlocked a v).
Proof.
  induction a; intros b v; [reflexivity|]. cbn [plus]. rewrite !unlocked_S. apply IHa.
Qed.

Lemma sweep_lockers_spec : forall dev ino l p v k v' n p', good p ->
  (forall x, In x l -> exempt x = false -> A (kk x)) ->
  sweep_lockers w dev ino ex p v l = (k, v', n, p') ->
  good p' /\ extends p p' /\ (forall x, In x l -> seen p' x) /\
  k = filter (kept p' dev ino) l /\ v' = unlocked (lost (kept p' dev ino) l) v /\ n = len l - len k.
Proof.
  induction l as [|x l IH]; intros p v k v' n p' G IA E; cbn [sweep_lockers] in E.
  - injection E as <- <- <- <-. sp; auto; try (intros ? []).
  - destruct (dead_locker w dev ino ex p x) as [b p1] eqn:D.
    destruct (dead_locker_spec _ _ _ _ _ _ G (IA x (or_introl eq_refl)) D) as (G1 & E1 & S1 & B1).
    assert (IA' : forall y, In y l -> exempt y = false -> A (kk y)) by (intros; apply IA; cbn; auto).
    destruct b.
    + destruct (sweep_lockers w dev ino ex p1 (if l_locked x then RwApi_Model.unlock_word v else v) l) as [[[k1 v1] n1] p2] eqn:SW.
      injection E as <- <- <- <-. destruct (IH _ _ _ _ _ _ G1 IA' SW) as (G2 & E2 & S2 & K2 & V2 & N2).
      assert (KX : kept p2 dev ino x = false) by (rewrite (kept_ext p1 p2) by auto; destruct (kept p1 dev ino x); auto; discriminate B1).
      split; auto. split; [eauto|]. split; [intros y [<-|I]; auto; eapply seen_ext; eauto|].
      cbn [filter]. rewrite KX. split; auto. rewrite lost_cons, KX. cbn [negb]. rewrite andb_true_r. split.
      * rewrite V2. destruct (l_locked x); auto. cbn [plus]. now rewrite unlocked_S.
      * unfold len in *. cbn [length]. lia.
    + destruct (sweep_lockers w dev ino ex p1 v l) as [[[k1 v1] n1] p2] eqn:SW.
      injection E as <- <- <- <-. destruct (IH _ _ _ _ _ _ G1 IA' SW) as (G2 & E2 & S2 & K2 & V2 & N2).
      assert (KX : kept p2 dev ino x = true) by (rewrite (kept_ext p1 p2) by auto; destruct (kept p1 dev ino x); auto; discriminate B1).
      split; auto. split; [eauto|]. split; [intros y [<-|I]; auto; eapply seen_ext; eauto|].
      cbn [filter]. rewrite KX. split; [now rewrite <- K2|]. rewrite lost_cons, KX. cbn [negb]. rewrite andb_false_r.
      split; auto. unfold len in *. cbn [length]. lia.
Qed.

Definition seen_off (p : pst) (o : oent) : Prop := forall x, in_entry o x -> seen p x.
Definition may_off (o : oent) : Prop := forall x, in_entry o x -> exempt x = false -> A (kk x).

Lemma keep_off_ext : forall p p' d i o, extends p p' -> seen_off p o ->
  keep_off (kept p' d i) o = keep_off (kept p d i) o.
Proof.
  intros p p' d i o X S. unfold keep_off, seen_off, in_entry in *. f_equal.
  - f_equal. f_equal; apply lost_ext; intros; apply kept_ext; auto.
  - apply filter_ext_in; intros; apply kept_ext; auto.
  - apply filter_ext_in; intros; apply kept_ext; auto.
Qed.

Lemma sweep_off_spec : forall dev ino p o o' n p', good p -> may_off o ->
  sweep_off w dev ino ex p o = (o', n, p') ->
  good p' /\ extends p p' /\ seen_off p' o /\ o' = keep_off (kept p' dev ino) o /\
  n = off_lockers o - off_lockers o'.
Proof.
  intros dev ino p o o' n p' G M E. unfold sweep_off in E. unfold may_off, in_entry in M.
  destruct (sweep_lockers w dev ino ex p (e_word o) (e_rd o)) as [[[k1 v1] n1] p1] eqn:S1.
  destruct (sweep_lockers w dev ino ex p1 v1 (e_wr o)) as [[[k2 v2] n2] p2] eqn:S2.
  injection E as <- <- <-.
  destruct (sweep_lockers_spec _ _ _ _ _ _ _ _ _ G (fun x I => M x (or_introl I)) S1) as (G1 & X1 & Q1 & K1 & V1 & N1).
  destruct (sweep_lockers_spec _ _ _ _ _ _ _ _ _ G1 (fun x I => M x (or_intror I)) S2) as (G2 & X2 & Q2 & K2 & V2 & N2).
  split; auto. split; [eauto|]. split.
  { intros x [I|I]; auto. eapply seen_ext; eauto. }
  assert (EQ : forall x, In x (e_rd o) -> kept p2 dev ino x = kept p1 dev ino x) by (intros; apply kept_ext; auto).
  unfold keep_off, off_lockers. cbn [e_rd e_wr]. split; [|lia].
  rewrite (filter_ext_in _ _ (e_rd o) EQ), (lost_ext _ _ (e_rd o) EQ). rewrite <- K1, <- K2. f_equal.
  rewrite unlocked_add, <- V1. auto.
Qed.

Lemma used_off_eq : forall o, oent_locked o = used_off o.
Proof.
  intros. unfold oent_locked, used_off. now destruct (e_prot o), (e_rd o), (e_wr o).
Qed.
Lemma used_file_eq : forall f, fent_locked f = used_file f.
Proof.
  intros. unfold fent_locked, used_file. f_equal. induction (n_offs f); cbn; auto.
  now rewrite used_off_eq, IHl.
Qed.

Lemma sweep_offs_spec : forall dev ino l p k no nl p', good p -> Forall may_off l ->
  sweep_offs w dev ino ex p l = (k, no, nl, p') ->
  good p' /\ extends p p' /\ Forall (seen_off p') l /\
  k = filter used_off (map (keep_off (kept p' dev ino)) l) /\ no = len l - len k /\
  nl = total off_lockers l - total off_lockers k.
Proof.
  induction l as [|o l IH]; intros p k no nl p' G M E; cbn [sweep_offs] in E.
  - injection E as <- <- <- <-. sp; auto.
  - inversion M as [|? ? M1 M2]; subst.
    destruct (sweep_off w dev ino ex p o) as [[o' n] p1] eqn:S1.
    destruct (sweep_off_spec _ _ _ _ _ _ _ G M1 S1) as (G1 & X1 & Q1 & K1 & N1).
    destruct (sweep_offs w dev ino ex p1 l) as [[[k2 no2] nl2] p2] eqn:S2.
    destruct (IH _ _ _ _ _ G1 M2 S2) as (G2 & X2 & Q2 & K2 & N2 & L2).
    assert (KE : o' = keep_off (kept p2 dev ino) o) by (rewrite K1; symmetry; apply keep_off_ext; auto).
    assert (CASE : p' = p2 /\ k = (if used_off o' then o' :: k2 else k2) /\ no = (if used_off o' then no2 else no2 + 1) /\ nl = n + nl2).
    { rewrite used_off_eq in E. destruct (used_off o'); injection E as <- <- <- <-; auto. }
    destruct CASE as (-> & -> & -> & ->). split; auto. split; [eauto|]. split.
    { constructor; auto. intros x I. eapply seen_ext; eauto. }
    cbn [map filter]. rewrite <- KE, <- K2. split; auto.
    unfold total in *. cbn [fold_right]. destruct (used_off o') eqn:U; cbn [fold_right]; unfold len in *; cbn [length].
    + split; lia.
    + assert (off_lockers o' = 0).
      { unfold used_off in U. apply orb_false_iff in U. destruct U as [U U2]. apply orb_false_iff in U. destruct U as [_ U1].
        apply negb_false_iff, Nat.eqb_eq in U1, U2. unfold off_lockers, len. rewrite U1, U2. reflexivity. }
      split; lia.
Qed.
End Files.

Definition kp (p : pst) := kept no_ex p.
Definition seen_file (p : pst) (f : fent) : Prop := Forall (seen_off no_ex p) (n_offs f).

Lemma keep_file_ext : forall p p' f, extends p p' -> seen_file p f -> keep_file (kp p') f = keep_file (kp p) f.
Proof.
  intros p p' f X S. unfold keep_file. f_equal. f_equal. apply map_ext_in. intros o I.
  apply keep_off_ext; auto. unfold seen_file in S. rewrite Forall_forall in S. auto.
Qed.

Section All.
Variable A : key -> Prop.
Lemma sweep_files_spec : forall l p k nf no nl p', good A p ->
  Forall (fun f => Forall (may_off A no_ex) (n_offs f)) l ->
  sweep_files w p l = (k, nf, no, nl, p') ->
  good A p' /\ extends p p' /\ Forall (seen_file p') l /\
  k = keep_files (kp p') l /\ nf = len l - len k /\
  no = total (fun f => len (n_offs f)) l - total (fun f => len (n_offs f)) k /\
  nl = total (fun f => total off_lockers (n_offs f)) l - total (fun f => total off_lockers (n_offs f)) k.
Proof.
  induction l as [|f l IH]; intros p k nf no nl p' G M E; cbn [sweep_files] in E.
  - injection E as <- <- <- <- <-. sp; auto.
  - inversion M as [|? ? M1 M2]; subst.
    destruct (sweep_offs w (n_dev f) (n_ino f) no_ex p (n_offs f)) as [[[os no1] nl1] p1] eqn:S1.
    destruct (sweep_offs_spec _ _ _ _ _ _ _ _ _ _ G M1 S1) as (G1 & X1 & Q1 & K1 & N1 & L1).
    destruct (sweep_files w p1 l) as [[[[k2 nf2] no2] nl2] p2] eqn:S2.
    destruct (IH _ _ _ _ _ _ G1 M2 S2) as (G2 & X2 & Q2 & K2 & F2 & N2 & L2).
    set (f' := FE (n_dev f) (n_ino f) (n_prot f) os) in *.
    assert (KE : f' = keep_file (kp p2) f) by (rewrite (keep_file_ext p1 p2); auto; unfold keep_file, kp; now rewrite <- K1).
    rewrite used_file_eq in E.
    assert (CASE : p' = p2 /\ k = (if used_file f' then f' :: k2 else k2) /\ nf = (if used_file f' then nf2 else nf2 + 1)
      /\ no = no1 + no2 /\ nl = nl1 + nl2).
    { destruct (used_file f'); injection E as <- <- <- <- <-; auto. }
    destruct CASE as (-> & -> & -> & -> & ->). split; auto. split; [eauto|]. split.
    { constructor; auto. unfold seen_file in *. eapply Forall_impl; [|exact Q1]. intros o S x I. eapply seen_ext; eauto. }
    unfold keep_files in *. cbn [map filter]. rewrite <- KE, <- K2. split; auto.
    unfold total in *. cbn [fold_right]. destruct (used_file f') eqn:U; cbn [fold_right]; unfold len in *; cbn [length].
    + cbn [f' n_offs]. sp; lia.
    + assert (Z0 : os = []).
      { unfold used_file in U. apply orb_false_iff in U. destruct U as [_ U]. cbn [f' n_offs] in U.
        destruct os as [|o os]; auto. cbn in U. apply orb_false_iff in U. destruct U as [U _].
        assert (I : In o (filter used_off (map (keep_off (kept no_ex p1 (n_dev f) (n_ino f))) (n_offs f)))) by (rewrite <- K1; cbn; auto).
        apply filter_In in I. destruct I as [_ I]. congruence. }
      rewrite Z0 in *. cbn in N1, L1. sp; lia.
Qed.
End All.

(** mutexes and conditions; [pf]: the pass after the files *)
Section Names.
Variable A : key -> Prop.
Variable pf : pst.
Variable GF : good A pf.
Definition rkey (p t : Z) : key := Key p t (-1).
Definition goodr (p : pst) : Prop :=
  extends pf p /\
  forall a t v, lookup (q_cache p) (rkey a t) = Some v ->
    (known pf (rkey a t) /\ v_run v = true) \/ (exists n, v_run v = true <-> there (w n) a t).
Definition run_of (p : pst) (a t : Z) : bool :=
  match lookup (q_cache p) (rkey a t) with Some v => v_run v | None => false end.
Lemma run_ext : forall p p' a t, extends p p' -> known p (rkey a t) -> run_of p' a t = run_of p a t.
Proof. intros p p' a t X (v & V). unfold run_of. now rewrite (X _ _ V), V. Qed.

Lemma goodr0 : goodr pf.
Proof.
  split; auto. intros a t v V. left. split; [exists v; auto|]. now destruct (GF _ _ V) as (_ & X & _).
Qed.

Lemma ask_run_spec : forall p a t b p', goodr p -> ask_run w p a t = (b, p') ->
  goodr p' /\ extends p p' /\ known p' (rkey a t) /\ b = run_of p' a t.
Proof.
  intros p a t b p' (G1 & G2) E. unfold ask_run, FindThreadProcess, get_execution_cache in E.
  change (Key a t FLCK_INVALID_HANDLE) with (rkey a t) in E.
  destruct (lookup (q_cache p) (rkey a t)) as [v|] eqn:L; cbn in E; injection E as <- <-.
  - unfold goodr, extends, known, run_of in *. cbn [q_cache]. rewrite L. sp; eauto.
  - unfold set_execution_cache. change (Key a t FLCK_INVALID_HANDLE) with (rkey a t).
    set (b := match o_task (w (q_no p)) a t with SErr _ => false | SOk _ _ => true end).
    set (v := Val FLCK_INVALID_ID FLCK_INVALID_ID b). set (p' := PS (S (q_no p)) (store (q_cache p) (rkey a t) v)).
    assert (LK : forall k, lookup (q_cache p') k = if same_key (rkey a t) k then Some v else lookup (q_cache p) k)
      by (intro k; apply lookup_store).
    assert (SELF : lookup (q_cache p') (rkey a t) = Some v) by now rewrite LK, same_key_refl.
    assert (EXT : extends p p').
    { intros k u X. rewrite LK. destruct (same_key (rkey a t) k) eqn:SK; auto.
      apply same_key_eq in SK. subst k. congruence. }
    split; [|sp; auto; [exists v; auto|unfold run_of; now rewrite SELF]].
    split; [eauto|]. intros a' t' u X. rewrite LK in X. destruct (same_key (rkey a t) (rkey a' t')) eqn:SK; auto.
    apply same_key_eq in SK. injection SK as <- <-. apply (f_equal (fun x => match x with Some y => v_run y | None => true end)) in X.
    right. exists (q_no p). rewrite <- X. subst v b. cbn. unfold there.
    destruct (o_task (w (q_no p)) a t); split; try (intro Y; discriminate Y); eauto.
    intros (x & y & Y). discriminate Y.
Qed.

Lemma sweep_mtx_spec : forall l p k p', goodr p -> (forall m a t, In m l -> m_own m = Some (a, t) -> a <> 0) ->
  sweep_mtx w p l = (k, p') ->
  goodr p' /\ extends p p' /\ k = map (keep_mtx (run_of p')) l /\
  (forall m a t, In m l -> m_own m = Some (a, t) -> known p' (rkey a t)).
Proof.
  induction l as [|m l IH]; intros p k p' G NZ E; cbn [sweep_mtx] in E.
  - injection E as <- <-. sp; auto; try (intros ? ? ? []).
  - assert (NZ' : forall m a t, In m l -> m_own m = Some (a, t) -> a <> 0) by (intros; eapply NZ; cbn; eauto).
    destruct (m_own m) as [[a t]|] eqn:O.
    + assert (NA : a <> 0) by (eapply NZ; [left; reflexivity|eauto]).
      rewrite (proj2 (Z.eqb_neq a 0) NA) in E. cbn [andb] in E.
      destruct (ask_run w p a t) as [b p1] eqn:AR.
      destruct (ask_run_spec _ _ _ _ _ G AR) as (G1 & X1 & K1 & R1).
      destruct (sweep_mtx w p1 l) as [k2 p2] eqn:S2. injection E as <- <-.
      destruct (IH _ _ _ G1 NZ' S2) as (G2 & X2 & K2 & N2).
      split; auto. split; [eauto|]. split.
      * cbn [map]. rewrite K2. f_equal. unfold keep_mtx at 1. rewrite O. rewrite (run_ext p1 p2) by auto. now rewrite R1.
      * intros m' a' t' [<-|I] O'; [|eapply N2; eauto]. rewrite O in O'. injection O' as <- <-. eauto.
    + destruct (sweep_mtx w p l) as [k2 p2] eqn:S2. injection E as <- <-.
      destruct (IH _ _ _ G NZ' S2) as (G2 & X2 & K2 & N2). split; auto. split; auto. split.
      * cbn [map]. rewrite K2. f_equal. unfold keep_mtx. now rewrite O.
      * intros m' a' t' [<-|I] O'; [congruence|]. eapply N2; eauto.
Qed.

Definition run2 (p : pst) (x : Z * Z) : bool := run_of p (fst x) (snd x).
Lemma sweep_waiters_spec : forall l p k n p', goodr p -> (forall a t, In (a, t) l -> a <> 0) ->
  sweep_waiters w p l = (k, n, p') ->
  goodr p' /\ extends p p' /\ k = keep_cond (run_of p') l /\ n = len l - len k /\
  (forall a t, In (a, t) l -> known p' (rkey a t)).
Proof.
  induction l as [|[a t] l IH]; intros p k n p' G NZ E; cbn [sweep_waiters] in E.
  - injection E as <- <- <-. sp; auto; try (intros ? ? []).
  - assert (NA : a <> 0) by (eapply NZ; left; reflexivity).
    rewrite (proj2 (Z.eqb_neq a 0) NA) in E. cbn [andb] in E.
    assert (NZ' : forall a t, In (a, t) l -> a <> 0) by (intros; eapply NZ; right; eauto).
    destruct (ask_run w p a t) as [b p1] eqn:AR.
    destruct (ask_run_spec _ _ _ _ _ G AR) as (G1 & X1 & K1 & R1).
    destruct (sweep_waiters w p1 l) as [[k2 n2] p2] eqn:S2.
    destruct (IH _ _ _ _ G1 NZ' S2) as (G2 & X2 & K2 & N2 & Q2).
    assert (CASE : p' = p2 /\ k = (if b then (a, t) :: k2 else k2) /\ n = (if b then n2 else n2 + 1)) by (destruct b; injection E as <- <- <-; auto).
    destruct CASE as (-> & -> & ->). split; auto. split; [eauto|].
    assert (RB : run_of p2 a t = b) by (rewrite (run_ext p1 p2) by auto; auto).
    unfold keep_cond in *. cbn [filter fst snd]. rewrite RB. split; [destruct b; congruence|]. split.
    + unfold len in *. destruct b; cbn [length]; lia.
    + intros a' t' [X|I]; [injection X as <- <-; eauto|eauto].
Qed.

Lemma keep_cond_ext : forall p p' c, extends p p' -> (forall a t, In (a, t) c -> known p (rkey a t)) ->
  keep_cond (run_of p') c = keep_cond (run_of p) c.
Proof.
  intros p p' c X K. apply filter_ext_in. intros [a t] I. apply run_ext; auto.
Qed.

Lemma sweep_conds_spec : forall l p k n p', goodr p -> (forall c a t, In c l -> In (a, t) c -> a <> 0) ->
  sweep_conds w p l = (k, n, p') ->
  goodr p' /\ extends p p' /\ k = map (keep_cond (run_of p')) l /\ n = total len l - total len k /\
  (forall c a t, In c l -> In (a, t) c -> known p' (rkey a t)).
Proof.
  induction l as [|c l IH]; intros p k n p' G NZ E; cbn [sweep_conds] in E.
  - injection E as <- <- <-. sp; auto; try (intros ? ? ? []).
  - destruct (sweep_waiters w p c) as [[c' n1] p1] eqn:S1.
    destruct (sweep_waiters_spec _ _ _ _ _ G (fun a t I => NZ c a t (or_introl eq_refl) I) S1) as (G1 & X1 & K1 & N1 & Q1).
    destruct (sweep_conds w p1 l) as [[k2 n2] p2] eqn:S2. injection E as <- <- <-.
    destruct (IH _ _ _ _ G1 (fun c a t I => NZ c a t (or_intror I)) S2) as (G2 & X2 & K2 & N2 & Q2).
    split; auto. split; [eauto|]. split; [|split].
    + cbn [map]. rewrite K2, K1. f_equal. symmetry. apply keep_cond_ext; auto.
    + unfold total in *. cbn [fold_right]. lia.
    + intros c1 a t [<-|I] J; eauto.
Qed.
End Names.
End Pass.
