From Verif Require Import Base Util_Model Util_Spec Util_Proofs.
From Coq Require Import ZArith List Bool Lia.
Import ListNotations.
Open Scope Z_scope.

(** ** [flck_fill_zero] comes to its end *)
Lemma pwrite_short_log : forall buf count offset l file cnt v file' log rest,
  pwrite_loop file buf count offset cnt l = Some (v, file', log, rest) ->
  (forall a, In a l -> a <> Did 0) ->
  (forall k, In (Did k) l -> 0 <= k) ->
  0 <= cnt -> cnt <= count ->
  (v = -1 \/ Z.of_nat (length log) <= v - cnt /\ 0 <= v) /\ exists pre, l = pre ++ rest /\ length pre = length log.
Proof.
  intros buf count offset. induction l as [|a r IH]; intros file cnt v file' log rest E N P C D;
    cbn [pwrite_loop] in E; destruct (Z.ltb_spec cnt count) as [L|L]; try discriminate E.
  - injection E as <- <- <- <-. split; [right; cbn; lia|]. exists []. auto.
  - destruct a as [k|e].
    + destruct (pwrite_loop (blit file (offset + cnt) buf cnt k) buf count offset (cnt + k) r)
        as [[[[v1 f1] log1] rest1]|] eqn:E1; [|discriminate E].
      injection E as <- <- <- <-.
      assert (K : 1 <= k).
      { specialize (P k (or_introl eq_refl)). specialize (N _ (or_introl eq_refl)).
        assert (k <> 0) by (intro; subst; now apply N). lia. }
      destruct (Z.le_gt_cases (cnt + k) count) as [Q|Q].
      * destruct (IH _ _ _ _ _ _ E1) as [[A|A] (pre & B1 & B2)];
          try (intros; apply N; now right); try (intros; apply P; now right); try lia.
        -- split; [now left|]. exists (Did k :: pre). subst r. cbn; split; auto.
        -- split; [right; cbn [length]; lia|]. exists (Did k :: pre). subst r. cbn; split; auto.
      * destruct r as [|a1 r1]; cbn [pwrite_loop] in E1;
          destruct (Z.ltb_spec (cnt + k) count); try lia; injection E1 as <- <- <- <-;
          (split; [right; cbn [length]; lia|exists [Did k]; auto]).
    + injection E as <- <- <- <-. split; [now left|]. exists [Err e]. auto.
  - injection E as <- <- <- <-. split; [right; cbn [length]; lia|]. exists []. auto.
Qed.

Lemma fill_returns : forall count offset fuel l file cnt,
  (forall a, In a l -> a <> Did 0) ->
  (forall k, In (Did k) l -> 0 <= k) ->
  0 <= cnt ->
  count - cnt <= Z.of_nat (length l) -> (length l < fuel)%nat ->
  fill_loop fuel file count offset cnt l <> None.
Proof.
  intros count offset. induction fuel as [|fuel IH]; intros l file cnt N P C L F; [lia|].
  cbn [fill_loop]. destruct (Z.ltb_spec cnt count) as [T|T]; [|intro X; discriminate X].
  unfold flck_pwrite.
  destruct (pwrite_loop file bydata (Z.min (count - cnt) CHUNK) (offset + cnt) 0 l)
    as [[[[v f] log1] rest1]|] eqn:E1.
  - destruct (Z.eqb_spec v (-1)) as [|V]; [intro X; discriminate X|].
    assert (M : 0 <= Z.min (count - cnt) CHUNK) by (unfold CHUNK; lia).
    destruct (pwrite_short_log _ _ _ _ _ _ _ _ _ _ E1 N P (Z.le_refl 0) M) as [[A|[A A']] (pre & B1 & B2)]; [lia|].
    destruct (pwrite_uses _ _ _ _ _ _ _ _ _ _ E1) as [U1 U2].
    assert (U3 : log1 <> []) by (apply U2; unfold CHUNK; lia).
    assert (U4 : (1 <= length log1)%nat) by (destruct log1; [congruence|cbn [length]; lia]).
    specialize (IH rest1 f (cnt + v)).
    destruct (fill_loop fuel f count offset (cnt + v) rest1) as [[[[b2 f2] log2] rest2]|];
      [intro X; discriminate X|].
    exfalso. apply IH; auto; try lia.
    + intros a Ha. apply N. subst l. apply in_or_app. now right.
    + intros k Hk. apply P. subst l. apply in_or_app. now right.
  - exfalso. revert E1. apply pwrite_returns; auto. lia.
Qed.

(** ** [flck_read] *)
Lemma put_spec : forall buf pos bs,
  0 <= pos -> pos + Z.of_nat (length bs) <= Z.of_nat (length buf) ->
  exists buf', put buf pos bs = Some buf' /\ length buf' = length buf /\
    forall done, firstn (Z.to_nat pos) buf = map Some done ->
      firstn (Z.to_nat pos + length bs) buf' = map Some (done ++ bs) /\
      skipn (Z.to_nat pos + length bs) buf' = skipn (Z.to_nat pos + length bs) buf.
Proof.
  intros buf pos bs P L. unfold put.
  destruct (Nat.ltb_spec (length buf) (Z.to_nat pos + length bs)) as [Q|Q]; [lia|].
  eexists; split; [reflexivity|]. split.
  - rewrite !app_length, map_length, firstn_length_le, skipn_length by lia. lia.
  - intros done D.
    assert (LD : length (map Some done) = Z.to_nat pos).
    { rewrite <- D. apply firstn_length_le. lia. }
    assert (LB : length (map (@Some Z) bs) = length bs) by apply map_length.
    assert (LA : length (map Some done ++ map Some bs) = (Z.to_nat pos + length bs)%nat)
      by (rewrite app_length; lia).
    rewrite D, app_assoc. split.
    + rewrite <- LA at 1. rewrite firstn_app, Nat.sub_diag, firstn_all. cbn. rewrite app_nil_r.
      now rewrite map_app.
    + rewrite <- LA at 1. rewrite skipn_app, Nat.sub_diag, skipn_all. reflexivity.
Qed.

Lemma fresh_length : forall n, length (fresh n) = Z.to_nat n.
Proof. intros. apply repeat_length. Qed.

(** the loop of [flck_read]: what was delivered is at the start of the buffer, the next page is
    free; [done] is what was delivered before *)
Lemma read_loop_spec : forall page l buf size pos mem done res,
  0 < page ->
  read_loop page buf size pos mem l = Some res ->
  Forall (read_ok page) l ->
  0 <= pos -> size = Z.of_nat (length buf) -> size = pos + page ->
  pos = Z.of_nat (length done) -> firstn (Z.to_nat pos) buf = map Some done ->
  (res = RFail /\ gave_up mem (until_final page l)) \/
  exists buf' sz, res = RBuf sz buf' /\
    firstn (length (done ++ delivered (until_final page l))) buf' =
      map Some (done ++ delivered (until_final page l)) /\
    0 <= sz <= Z.of_nat (length buf') /\
    (sz = Z.of_nat (length (done ++ delivered (until_final page l))) \/
     sz = Z.of_nat (length (done ++ delivered (until_final page l))) + page /\
     In (RErr EAGAIN) (until_final page l)).
Proof.
  intros page. induction l as [|a r IH]; intros buf size pos mem done res PG E F P S S2 D B;
    cbn [read_loop] in E; [discriminate E|].
  inversion F as [|? ? F1 F2]; subst. destruct a as [bs|e].
  - unfold read_ok in F1; cbn [got] in F1. cbn [until_final final].
    assert (LB : Z.of_nat (length done) + Z.of_nat (length bs) <= Z.of_nat (length buf)) by lia.
    destruct (put_spec buf _ bs P LB) as (buf1 & E1 & L1 & Q). rewrite E1 in E.
    destruct (Q _ B) as [Q1 Q2]. clear Q.
    destruct (Z.ltb_spec (Z.of_nat (length bs)) page) as [T|T].
    + injection E as <-. right. exists buf1.
      exists (Z.of_nat (length done) + Z.of_nat (length bs)).
      assert (X : delivered [Got bs] = bs) by (unfold delivered; cbn; apply app_nil_r).
      rewrite X. rewrite app_length.
      split; [reflexivity|]. split.
      { rewrite Nat2Z.id in Q1. exact Q1. }
      split; [lia|]. left. lia.
    + assert (LE : Z.of_nat (length bs) = page) by lia.
      destruct (Z.ltb_spec (Z.of_nat (length buf)) (Z.of_nat (length done) + Z.of_nat (length bs) + page)) as [U|U]; [|lia].
      assert (K : read_loop page (buf1 ++ fresh (Z.of_nat (length done) + Z.of_nat (length bs) + page - Z.of_nat (length buf1)))
        (Z.of_nat (length done) + Z.of_nat (length bs) + page) (Z.of_nat (length done) + Z.of_nat (length bs)) (tl mem) r = Some res
        \/ (res = RFail /\ In false mem)).
      { destruct mem as [|[|] mem']; [left; exact E|left; exact E|right].
        split; [now injection E|now left]. }
      clear E. destruct K as [E|[E E0]]; [|left; split; auto; now left].
      assert (X : delivered (Got bs :: until_final page r) = bs ++ delivered (until_final page r)) by reflexivity.
      rewrite X, app_assoc.
      destruct (IH _ _ _ _ (done ++ bs) _ PG E F2) as [[R R']|(buf' & sz & R2 & R3 & R4 & R5)].
      * lia.
      * rewrite app_length, fresh_length. lia.
      * lia.
      * rewrite app_length. lia.
      * rewrite firstn_app.
        replace (Z.to_nat (Z.of_nat (length done) + Z.of_nat (length bs))) with (Z.to_nat (Z.of_nat (length done)) + length bs)%nat by lia.
        rewrite Q1. replace (Z.to_nat (Z.of_nat (length done)) + length bs - length buf1)%nat with 0%nat by lia.
        cbn [firstn]. apply app_nil_r.
      * left. split; auto. destruct R' as [R'|(e & R1 & R2)].
        -- left. destruct mem; [destruct R'|now right].
        -- right. exists e. split; auto. now right.
      * right. exists buf', sz.
        split; [exact R2|]. split; [exact R3|].
        split; [exact R4|]. destruct R5 as [R5|[R5 R6]]; [now left|right]. split; auto. now right.
  - cbn [until_final final]. destruct (Z.eqb_spec e EAGAIN) as [->|N].
    + injection E as <-. right. exists buf, (Z.of_nat (length buf)).
      change (negb (EAGAIN =? EINTR)) with true. cbv iota.
      assert (X : delivered [RErr EAGAIN] = []) by reflexivity. rewrite X, app_nil_r.
      split; [reflexivity|]. split.
      { rewrite Nat2Z.id in B. exact B. }
      split; [lia|]. right. split; [lia|now left].
    + destruct (Z.eqb_spec e EINTR) as [->|M].
      * cbn [negb]. change (delivered (RErr EINTR :: until_final page r)) with (delivered (until_final page r)).
        destruct (IH _ _ _ _ _ _ PG E F2 P eq_refl S2 eq_refl B) as [[R R']|(buf' & sz & R2 & R3 & R4 & R5)].
        -- left. split; auto. destruct R' as [R'|(e & R1 & R2)]; [now left|].
           right. exists e. split; auto. now right.
        -- right. exists buf', sz. split; [exact R2|]. split; [exact R3|].
           split; [exact R4|]. destruct R5 as [R5|[R5 R6]]; [now left|right]. split; auto. now right.
      * injection E as <-. left. split; auto. right. exists e. split; auto. now left.
Qed.

Lemma page_is : forall s, GetSystemPageSize s = 4096.
Proof. reflexivity. Qed.

Lemma flck_read_spec : forall sysconf mem l res,
  flck_read sysconf mem l = Some res -> Forall (read_ok 4096) l ->
  (res = RFail /\ gave_up mem (until_final 4096 l)) \/
  exists buf sz, res = RBuf sz buf /\
    firstn (length (delivered (until_final 4096 l))) buf = map Some (delivered (until_final 4096 l)) /\
    0 <= sz <= Z.of_nat (length buf) /\
    (sz = Z.of_nat (length (delivered (until_final 4096 l))) \/
     sz = Z.of_nat (length (delivered (until_final 4096 l))) + 4096 /\
     In (RErr EAGAIN) (until_final 4096 l)).
Proof.
  intros sysconf mem l res E F. unfold flck_read in E. rewrite page_is in E.
  assert (K : read_loop 4096 (fresh 4096) 4096 0 (tl mem) l = Some res \/ (res = RFail /\ In false mem)).
  { destruct mem as [|[|] mem']; [left; exact E|left; exact E|right; split; [now injection E|now left]]. }
  destruct K as [K|[K K']]; [|left; split; auto; now left]. clear E.
  apply (read_loop_spec 4096) with (done := []) in K; auto; try lia.
  destruct K as [[K1 K2]|K]; [left; split; auto|right; exact K].
  destruct K2 as [K2|K2]; [left; destruct mem; [destruct K2|now right]|now right].
Qed.

(** no wrong use of memory, and the call returns as soon as the OS gives a final answer *)
Lemma flck_read_no_crash : forall sysconf mem l,
  Forall (read_ok 4096) l -> flck_read sysconf mem l <> Some RCrash.
Proof.
  intros sysconf mem l F E. destruct (flck_read_spec _ _ _ _ E F) as [[X _]|(b & s & X & _)];
    discriminate X.
Qed.

(** ** Bytes and words *)
Lemma load_le32 : forall m p x, 0 <= x < two32 ->
  (forall i, (i < 4)%nat -> m (p + Z.of_nat i) = nth i (le32 x) 0) -> load32 m p = x.
Proof.
  intros m p x X H.
  pose proof (H 0%nat ltac:(lia)) as H0. pose proof (H 1%nat ltac:(lia)) as H1.
  pose proof (H 2%nat ltac:(lia)) as H2. pose proof (H 3%nat ltac:(lia)) as H3.
  cbn [nth le32] in *. unfold load32.
  change (Z.of_nat 0) with 0 in H0. change (Z.of_nat 1) with 1 in H1.
  change (Z.of_nat 2) with 2 in H2. change (Z.of_nat 3) with 3 in H3.
  rewrite Z.add_0_r in H0. rewrite H0, H1, H2, H3.
  unfold two32 in X.
  assert (A1 : x / 256 = x / 256) by reflexivity.
  pose proof (Z.div_mod x 256 ltac:(lia)) as D0.
  pose proof (Z.div_mod (x / 256) 256 ltac:(lia)) as D1.
  pose proof (Z.div_mod (x / 65536) 256 ltac:(lia)) as D2.
  rewrite (Z.div_div x 256 256) in D1 by lia. rewrite (Z.div_div x 65536 256) in D2 by lia.
  change (256 * 256) with 65536 in D1. change (65536 * 256) with 16777216 in D2.
  assert (D3 : x / 16777216 mod 256 = x / 16777216).
  { apply Z.mod_small. split; [apply Z.div_pos; lia|]. apply Z.div_lt_upper_bound; lia. }
  lia.
Qed.

Lemma s32_mod : forall x, is_int32 x -> s32 (x mod two32) = x.
Proof.
  unfold is_int32, s32, INT_MIN, INT_MAX, two32. intros x H. rewrite Z.mod_mod by lia.
  destruct (Z.ltb_spec (x mod 4294967296) 2147483648) as [L|L].
  - destruct (Z.lt_ge_cases x 0).
    + rewrite <- (Z.mod_add x 1) in L by lia. rewrite Z.mod_small in L by lia. lia.
    + apply Z.mod_small. lia.
  - destruct (Z.lt_ge_cases x 0).
    + rewrite <- (Z.mod_add x 1) by lia. rewrite Z.mod_small by lia. lia.
    + rewrite Z.mod_small in L by lia. lia.
Qed.

(** the three tests on the mask are the two close bits *)
Lemma land_pow : forall x n, 0 <= n -> negb (Z.land x (2 ^ n) =? 0) = Z.testbit x n.
Proof.
  intros x n N. destruct (Z.testbit x n) eqn:T.
  - destruct (Z.eqb_spec (Z.land x (2 ^ n)) 0) as [Q|Q]; auto.
    assert (Z.testbit (Z.land x (2 ^ n)) n = false) by (rewrite Q; apply Z.bits_0).
    rewrite Z.land_spec, T, Z.pow2_bits_true in H by lia. discriminate H.
  - assert (Q : Z.land x (2 ^ n) = 0).
    { apply Z.bits_inj'. intros m M. rewrite Z.land_spec, Z.bits_0.
      destruct (Z.eq_dec m n) as [->|D]; [now rewrite T|].
      rewrite Z.pow2_bits_false by lia. apply andb_false_r. }
    rewrite Q. reflexivity.
Qed.

Lemma mask_test : forall x,
  (negb (Z.land x IN_CLOSE =? 0) || negb (Z.land x IN_CLOSE_NOWRITE =? 0)
     || negb (Z.land x IN_CLOSE_WRITE =? 0))%bool = (Z.testbit x 3 || Z.testbit x 4)%bool.
Proof.
  intros x.
  change IN_CLOSE_NOWRITE with (2 ^ 4). change IN_CLOSE_WRITE with (2 ^ 3).
  rewrite !land_pow by lia.
  change IN_CLOSE with (Z.lor (2 ^ 3) (2 ^ 4)). rewrite Z.land_lor_distr_r.
  pose proof (land_pow x 3 ltac:(lia)) as A3. pose proof (land_pow x 4 ltac:(lia)) as A4.
  destruct (Z.testbit x 3), (Z.testbit x 4); cbn [orb]; rewrite ?orb_true_r, ?orb_false_r; auto.
  apply negb_false_iff in A3, A4. apply Z.eqb_eq in A3, A4. rewrite A3, A4. reflexivity.
Qed.
