From Verif Require Import Base Util_Model Util_Spec Util_Proofs Util_Proofs2.
From Coq Require Import ZArith List Bool Lia.
Import ListNotations.
Open Scope Z_scope.

Definition byte_mem (m : Z -> Z) : Prop := forall i, 0 <= m i < 256.

Lemma load_range : forall m p, byte_mem m -> 0 <= load32 m p < two32.
Proof.
  intros m p B. unfold load32, two32.
  pose proof (B p). pose proof (B (p + 1)). pose proof (B (p + 2)). pose proof (B (p + 3)). lia.
Qed.

(** ** The scan stays inside the buffer and ends, whatever the buffer holds *)
Lemma scan_bounds : forall m bytes watch fuel ptr rv r t,
  byte_mem m -> 0 <= ptr -> scan fuel m bytes watch ptr rv = Some (r, t) ->
  Forall (fun a => 0 <= a < bytes) t.
Proof.
  intros m bytes watch. induction fuel as [|fuel IH]; intros ptr rv r t B P E; cbn [scan] in E;
    [discriminate E|].
  destruct (Z.leb_spec (ptr + EVSIZE) bytes) as [L|L].
  - match type of E with match ?x with _ => _ end = _ => destruct x as [[r1 t1]|] eqn:E1 end;
      [|discriminate E].
    assert (T : t = (addrs4 (ptr + 12) ++ addrs4 ptr ++
      (if s32 (load32 m ptr) =? watch then addrs4 (ptr + 4) else [])) ++ t1) by congruence.
    subst t. unfold EVSIZE in *.
    pose proof (load_range m (ptr + 12) B) as R.
    apply IH in E1; [|auto|lia].
    apply Forall_app; split; [|exact E1].
    apply Forall_app; split; [|apply Forall_app; split].
    + unfold addrs4. repeat constructor; lia.
    + unfold addrs4. repeat constructor; lia.
    + destruct (_ =? _); [unfold addrs4; repeat constructor; lia|constructor].
  - assert (t = []) by congruence. subst. constructor.
Qed.

Lemma scan_ends : forall m bytes watch fuel ptr rv,
  byte_mem m -> (0 < fuel)%nat -> bytes - ptr < Z.of_nat fuel ->
  scan fuel m bytes watch ptr rv <> None.
Proof.
  intros m bytes watch. induction fuel as [|fuel IH]; intros ptr rv B F L; [lia|]. cbn [scan].
  destruct (Z.leb_spec (ptr + EVSIZE) bytes) as [T|T]; [|intro X; discriminate X].
  pose proof (load_range m (ptr + 12) B) as R. unfold EVSIZE in *.
  match goal with |- match ?x with _ => _ end <> _ => destruct x as [[r1 t1]|] eqn:E1 end;
    [intro X; discriminate X|].
  exfalso. revert E1. apply IH; auto; lia.
Qed.

Lemma scan_true : forall m bytes watch fuel ptr r t,
  scan fuel m bytes watch ptr true = Some (r, t) -> r = true.
Proof.
  intros m bytes watch. induction fuel as [|fuel IH]; intros ptr r t E; cbn [scan] in E;
    [discriminate E|].
  destruct (Z.leb_spec (ptr + EVSIZE) bytes) as [L|L]; [|congruence].
  match type of E with match ?x with _ => _ end = _ => destruct x as [[r1 t1]|] eqn:E1 end;
    [|discriminate E].
  destruct (_ && _) in E1; apply IH in E1; congruence.
Qed.

(** ** The scan of a row of records *)
Definition hitb (watch : Z) (e : event) : bool :=
  (e_wd e =? watch) && (Z.testbit (e_mask e) 3 || Z.testbit (e_mask e) 4).

Lemma hitb_closed : forall watch evs, existsb (hitb watch) evs = true <-> closed_in watch evs.
Proof.
  intros. rewrite existsb_exists. unfold closed_in, hitb, is_close. split; intros (e & I & H); exists e.
  - apply andb_true_iff in H as [H1 H2]. apply Z.eqb_eq in H1. apply orb_true_iff in H2. auto.
  - destruct H as [-> H]. rewrite Z.eqb_refl. split; auto. cbn. now apply orb_true_iff.
Qed.

Definition ev_size (e : event) : Z := 16 + Z.of_nat (length (e_name e)).

Lemma encode_length : forall e, Z.of_nat (length (encode e)) = ev_size e.
Proof. intros. unfold encode, ev_size. rewrite !app_length. cbn [length le32]. lia. Qed.

(** [m] holds [bs] from address [p] *)
Definition at_ (m : Z -> Z) (p : Z) (bs : list Z) : Prop :=
  forall i, (i < length bs)%nat -> m (p + Z.of_nat i) = nth i bs 0.

Lemma at_app : forall m p a b, at_ m p (a ++ b) -> at_ m p a /\ at_ m (p + Z.of_nat (length a)) b.
Proof.
  intros m p a b H. split; intros i L.
  - rewrite H by (rewrite app_length; lia). now apply app_nth1.
  - specialize (H (length a + i)%nat). rewrite app_length in H.
    replace (p + Z.of_nat (length a) + Z.of_nat i) with (p + Z.of_nat (length a + i)) by lia.
    rewrite H by lia. rewrite app_nth2 by lia. f_equal. lia.
Qed.

Lemma at_record : forall m p e, event_ok e -> at_ m p (encode e) ->
  s32 (load32 m p) = e_wd e /\ load32 m (p + 4) = e_mask e /\
  load32 m (p + 12) = Z.of_nat (length (e_name e)).
Proof.
  intros m p e (W & M & N & _) H. unfold encode in H.
  apply at_app in H as [H1 H]. apply at_app in H as [H2 H]. apply at_app in H as [H3 H].
  apply at_app in H as [H4 _]. cbn [length le32] in H2, H3, H4.
  replace (p + Z.of_nat 4) with (p + 4) in * by lia.
  replace (p + 4 + Z.of_nat 4 + Z.of_nat 4) with (p + 12) in * by lia.
  split; [|split].
  - rewrite (load_le32 m p (e_wd e mod two32)); [now apply s32_mod| |exact H1].
    apply Z.mod_pos_bound. unfold two32. lia.
  - apply load_le32; auto.
  - apply load_le32; [lia|exact H4].
Qed.

Lemma scan_events : forall m bytes watch evs fuel ptr rv r t,
  Forall event_ok evs -> at_ m ptr (stream evs) -> 0 <= ptr ->
  ptr + Z.of_nat (length (stream evs)) <= bytes ->
  scan (length evs + fuel) m bytes watch ptr rv = Some (r, t) ->
  exists t', scan fuel m bytes watch (ptr + Z.of_nat (length (stream evs)))
               (rv || existsb (hitb watch) evs) = Some (r, t').
Proof.
  intros m bytes watch. induction evs as [|e evs IH]; intros fuel ptr rv r t F A P L E.
  - cbn in *. rewrite Z.add_0_r, orb_false_r. eauto.
  - inversion F as [|? ? F1 F2]; subst.
    change (stream (e :: evs)) with (encode e ++ stream evs) in *.
    apply at_app in A as [A1 A2]. destruct (at_record _ _ _ F1 A1) as (R1 & R2 & R3).
    rewrite app_length, Nat2Z.inj_add, encode_length in L. rewrite encode_length in A2.
    cbn [length Nat.add scan] in E. unfold EVSIZE in E.
    destruct (Z.leb_spec (ptr + 16) bytes) as [T|T]; [|unfold ev_size in *; lia].
    rewrite R1, R2, R3, mask_test in E.
    match type of E with match ?x with _ => _ end = _ => destruct x as [[r1 t1]|] eqn:E1 end;
      [|discriminate E].
    assert (r1 = r) by congruence. subst r1. clear E.
    replace (ptr + (16 + Z.of_nat (length (e_name e)))) with (ptr + ev_size e) in E1 by (unfold ev_size; lia).
    apply IH in E1; auto; try (unfold ev_size in *; lia).
    destruct E1 as [t' E1]. exists t'.
    rewrite app_length, Nat2Z.inj_add, encode_length, Z.add_assoc.
    rewrite <- E1. f_equal. cbn [existsb]. unfold hitb at 1.
    destruct ((e_wd e =? watch) && (Z.testbit (e_mask e) 3 || Z.testbit (e_mask e) 4))%bool;
      destruct rv; reflexivity.
Qed.

Lemma stream_long : forall evs, 16 * Z.of_nat (length evs) <= Z.of_nat (length (stream evs)).
Proof.
  induction evs as [|e evs IH]; [cbn; lia|].
  change (stream (e :: evs)) with (encode e ++ stream evs).
  rewrite app_length, Nat2Z.inj_add, encode_length. unfold ev_size. cbn [length]. lia.
Qed.

Lemma scan_all_ends : forall m bytes watch, byte_mem m -> 0 <= bytes ->
  exists r t, scan_all m bytes watch = Some (r, t) /\ Forall (fun a => 0 <= a < bytes) t.
Proof.
  intros m bytes watch B L. unfold scan_all.
  destruct (scan (S (Z.to_nat bytes)) m bytes watch 0 false) as [[r t]|] eqn:E.
  - exists r, t. split; auto. exact (scan_bounds _ _ _ _ _ _ _ _ B (Z.le_refl 0) E).
  - exfalso. revert E. apply scan_ends; auto; lia.
Qed.

(** records at the start of the buffer: no close event is missed; records that fill the buffer:
    the result is exact *)
Lemma scan_all_events : forall m bytes watch evs r t,
  Forall event_ok evs -> holds m (stream evs) ->
  Z.of_nat (length (stream evs)) <= bytes ->
  scan_all m bytes watch = Some (r, t) ->
  (closed_in watch evs -> r = true) /\
  (bytes = Z.of_nat (length (stream evs)) -> r = true -> closed_in watch evs).
Proof.
  intros m bytes watch evs r t F H L E. unfold scan_all in E.
  pose proof (stream_long evs) as S.
  replace (Datatypes.S (Z.to_nat bytes)) with (length evs + (Datatypes.S (Z.to_nat bytes) - length evs))%nat in E by lia.
  apply scan_events in E; auto; [|lia].
  destruct E as [t' E]. cbn [orb] in E. split.
  - intros C. apply hitb_closed in C. rewrite C in E. now apply scan_true in E.
  - intros -> R. apply hitb_closed.
    destruct (Datatypes.S (Z.to_nat (Z.of_nat (length (stream evs)))) - length evs)%nat eqn:Q; [discriminate E|].
    cbn [scan] in E. unfold EVSIZE in E.
    destruct (Z.leb_spec (0 + Z.of_nat (length (stream evs)) + 16) (Z.of_nat (length (stream evs)))); [lia|].
    congruence.
Qed.

(** ** [CheckEvent] *)
Lemma view_bytes : forall junk buf, byte_mem (view junk buf).
Proof. intros junk buf i. unfold view. apply Z.mod_pos_bound. lia. Qed.

Lemma view_done : forall junk buf done,
  firstn (length done) buf = map Some done -> Forall (fun b => 0 <= b < 256) done ->
  holds (view junk buf) done.
Proof.
  intros junk buf done F B i L. unfold view. rewrite Nat2Z.id. unfold cell in *.
  assert (X : nth i buf None = nth i (firstn (length done) buf) None).
  { clear F B. revert i buf L. induction (length done) as [|n IHn]; intros i buf L; [lia|].
    destruct buf as [|c buf]; [now destruct i|]. destruct i as [|i]; [reflexivity|].
    cbn. apply IHn. lia. }
  rewrite X, F. rewrite (nth_indep _ None (Some 0)) by (rewrite map_length; lia).
  rewrite (map_nth (@Some Z)). apply Z.mod_small.
  rewrite Forall_forall in B. apply B. now apply nth_In.
Qed.

Lemma le32_bytes : forall x, Forall (fun b => 0 <= b < 256) (le32 x).
Proof. intros. unfold le32. repeat constructor; apply Z.mod_pos_bound; lia. Qed.

Lemma stream_bytes : forall evs, Forall event_ok evs -> Forall (fun b => 0 <= b < 256) (stream evs).
Proof.
  induction 1 as [|e evs (_ & _ & _ & N) _ IH]; [constructor|].
  change (stream (e :: evs)) with (encode e ++ stream evs).
  apply Forall_app; split; [|exact IH]. unfold encode.
  repeat (apply Forall_app; split; [apply le32_bytes|]). exact N.
Qed.

Lemma check_event_spec : forall sysconf junk mem watch l out,
  CheckEvent sysconf junk mem watch l = Some out -> Forall (read_ok 4096) l ->
  (exists v loads cap, out = CRet v loads cap /\ Forall (fun a => 0 <= a < cap) loads) /\
  forall evs, Forall event_ok evs -> delivered (until_final 4096 l) = stream evs ->
    exists v loads cap, out = CRet v loads cap /\
    (closed_in watch evs -> ~ gave_up mem (until_final 4096 l) -> v = true) /\
    (v = true -> ~ In (RErr EAGAIN) (until_final 4096 l) -> closed_in watch evs).
Proof.
  intros sysconf junk mem watch l out E F. unfold CheckEvent in E.
  destruct (flck_read sysconf mem l) as [res|] eqn:E1; [|discriminate E].
  destruct (flck_read_spec _ _ _ _ E1 F) as [[-> G]|(buf & sz & -> & R3 & R4 & R5)].
  - split.
    + exists false, [], 0. split; [congruence|constructor].
    + intros evs V D. exists false, [], 0. split; [congruence|]. split; [tauto|].
      intros X; discriminate X.
  - destruct (scan_all_ends (view junk buf) sz watch (view_bytes _ _) ltac:(lia)) as (r & t & E2 & B).
    rewrite E2 in E. assert (O : out = CRet r t (Z.of_nat (length buf))) by congruence. clear E. split.
    + exists r, t, (Z.of_nat (length buf)). split; auto. eapply Forall_impl; [|exact B].
      cbv beta. intros. lia.
    + intros evs V D. exists r, t, (Z.of_nat (length buf)).
      split; auto. rewrite D in *.
      assert (H : holds (view junk buf) (stream evs)) by (apply view_done; auto; now apply stream_bytes).
      assert (L : Z.of_nat (length (stream evs)) <= sz) by lia.
      destruct (scan_all_events _ _ _ _ _ _ V H L E2) as [A1 A2]. split; auto.
      intros VT NE. apply A2; auto. destruct R5 as [R5|[_ R5]]; auto. contradiction.
Qed.
