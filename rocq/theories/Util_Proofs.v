From Verif Require Import Base Util_Model Util_Spec.
From Coq Require Import ZArith List Bool Lia.
Import ListNotations.
Open Scope Z_scope.

(** ** Copying *)
Lemma blit_in : forall dst d src s n i, 0 <= i < n -> blit dst d src s n (d + i) = src (s + i).
Proof.
  intros. unfold blit. destruct (Z.leb_spec d (d + i)); [|lia].
  destruct (Z.ltb_spec (d + i) (d + n)); [|lia]. simpl. f_equal. lia.
Qed.

Lemma blit_out : forall dst d src s n x, x < d \/ d + n <= x -> blit dst d src s n x = dst x.
Proof.
  intros. unfold blit. destruct (Z.leb_spec d x); simpl; auto.
  destruct (Z.ltb_spec x (d + n)); auto. lia.
Qed.

Lemma same_outside_refl : forall f a n, same_outside f f a n.
Proof. intros f a n x _. reflexivity. Qed.

(** ** [flck_pread] *)
Lemma pread_loop_spec : forall size file count offset l buf cnt v buf' log rest,
  pread_loop file buf count offset cnt l = Some (v, buf', log, rest) ->
  0 <= cnt <= count -> 0 <= offset -> (cnt = 0 \/ offset + cnt <= size) ->
  Forall (os_read_ok size) log ->
  Forall (in_buffer count) log /\
  (v = -1 /\ Exists failed log /\ same_outside buf' buf cnt (count - cnt) \/
   cnt <= v <= count /\ Forall (fun y => ~ failed y) log /\
   copies buf' cnt file (offset + cnt) (v - cnt) /\ same_outside buf' buf cnt (v - cnt) /\
   (v = 0 \/ offset + v <= size) /\ (v < count -> size <= offset + v)).
Proof.
  intros size file count offset. induction l as [|a r IH]; intros buf cnt v buf' log rest E Hc Ho Hs F;
    cbn [pread_loop] in E; destruct (Z.ltb_spec cnt count) as [L|L]; try discriminate E.
  - injection E as <- <- <- <-. split; [constructor|]. right. repeat split; auto; try lia.
    intros i Hi. lia.
  - destruct a as [k|e].
    + destruct (Z.eqb_spec k 0) as [->|N].
      * injection E as <- <- <- <-. inversion F as [|? ? F1 _]; subst. clear F.
        unfold os_read_ok in F1; cbn [y_ans y_len y_pos] in F1.
        destruct F1 as [F1|[_ F1]]; [lia|].
        split. { constructor; [|constructor]. unfold in_buffer; cbn [y_at y_len]. lia. }
        right. split; [lia|]. split. { constructor; [|constructor]. intros [e X]. discriminate X. }
        split. { intros i Hi. lia. }
        split. { intros x Hx. apply blit_out. lia. }
        split; [exact Hs|]. intros _. exact F1.
      * destruct (pread_loop file (blit buf cnt file (offset + cnt) k) count offset (cnt + k) r)
          as [[[[v1 b1] log1] rest1]|] eqn:E1; [|discriminate E].
        injection E as <- <- <- <-. inversion F as [|? ? F1 F2]; subst. clear F.
        unfold os_read_ok in F1; cbn [y_ans y_len y_pos] in F1.
        destruct F1 as [[K1 K2]|[K1 _]]; [|lia].
        assert (H1 : 0 <= cnt + k <= count) by lia.
        assert (H2 : cnt + k = 0 \/ offset + (cnt + k) <= size) by lia.
        destruct (IH _ _ _ _ _ _ E1 H1 Ho H2 F2) as [B [(V & X & S)|(V & X & C & S & G & K)]].
        -- split. { constructor; auto. unfold in_buffer; cbn [y_at y_len]; lia. }
           left. split; [exact V|]. split; [now apply Exists_cons_tl|].
           intros x Hx. rewrite S by lia. apply blit_out. lia.
        -- split. { constructor; auto. unfold in_buffer; cbn [y_at y_len]; lia. }
           right. split; [lia|]. split.
           { constructor; auto. intros [e Y]. discriminate Y. }
           split.
           { intros i Hi. destruct (Z.lt_ge_cases i k) as [I|I].
             - rewrite S by lia. rewrite blit_in by lia. reflexivity.
             - specialize (C (i - k)). replace (cnt + k + (i - k)) with (cnt + i) in C by lia.
               replace (offset + (cnt + k) + (i - k)) with (offset + cnt + i) in C by lia.
               apply C. lia. }
           split. { intros x Hx. rewrite S by lia. apply blit_out. lia. }
           split; auto.
    + injection E as <- <- <- <-. split.
      { constructor; [|constructor]. unfold in_buffer; cbn [y_at y_len]; lia. }
      left. split; [reflexivity|]. split. { constructor. exists e. reflexivity. }
      apply same_outside_refl.
  - injection E as <- <- <- <-. split; [constructor|]. right. repeat split; auto; try lia.
    intros i Hi. lia.
Qed.

(** ** [flck_pwrite] *)
Lemma pwrite_loop_spec : forall buf count offset l file cnt v file' log rest,
  pwrite_loop file buf count offset cnt l = Some (v, file', log, rest) ->
  0 <= cnt <= count ->
  Forall os_write_ok log ->
  Forall (in_buffer count) log /\
  (v = -1 /\ Exists failed log /\ same_outside file' file (offset + cnt) (count - cnt) \/
   v = count /\ Forall (fun y => ~ failed y) log /\
   copies file' (offset + cnt) buf cnt (count - cnt) /\
   same_outside file' file (offset + cnt) (count - cnt)).
Proof.
  intros buf count offset. induction l as [|a r IH]; intros file cnt v file' log rest E Hc F;
    cbn [pwrite_loop] in E; destruct (Z.ltb_spec cnt count) as [L|L]; try discriminate E.
  - injection E as <- <- <- <-. split; [constructor|]. right. repeat split; auto; try lia.
    intros i Hi. lia.
  - destruct a as [k|e].
    + destruct (pwrite_loop (blit file (offset + cnt) buf cnt k) buf count offset (cnt + k) r)
        as [[[[v1 f1] log1] rest1]|] eqn:E1; [|discriminate E].
      injection E as <- <- <- <-. inversion F as [|? ? F1 F2]; subst. clear F.
      unfold os_write_ok in F1; cbn [y_ans y_len] in F1.
      assert (H1 : 0 <= cnt + k <= count) by lia.
      destruct (IH _ _ _ _ _ _ E1 H1 F2) as [B [(V & X & S)|(V & X & C & S)]].
      * split. { constructor; auto. unfold in_buffer; cbn [y_at y_len]; lia. }
        left. split; [exact V|]. split; [now apply Exists_cons_tl|].
        intros x Hx. rewrite S by lia. apply blit_out. lia.
      * split. { constructor; auto. unfold in_buffer; cbn [y_at y_len]; lia. }
        right. split; [exact V|]. split.
        { constructor; auto. intros [e Y]. discriminate Y. }
        split.
        { intros i Hi. destruct (Z.lt_ge_cases i k) as [I|I].
          - rewrite S by lia. rewrite blit_in by lia. reflexivity.
          - specialize (C (i - k)). replace (offset + (cnt + k) + (i - k)) with (offset + cnt + i) in C by lia.
            replace (cnt + k + (i - k)) with (cnt + i) in C by lia.
            apply C. lia. }
        intros x Hx. rewrite S by lia. apply blit_out. lia.
    + injection E as <- <- <- <-. split.
      { constructor; [|constructor]. unfold in_buffer; cbn [y_at y_len]; lia. }
      left. split; [reflexivity|]. split. { constructor. exists e. reflexivity. }
      apply same_outside_refl.
  - injection E as <- <- <- <-. split; [constructor|]. right. repeat split; auto; try lia.
    intros i Hi. lia.
Qed.

(** a write that returned has used at least one answer if there was something to write *)
Lemma pwrite_uses : forall buf count offset l file cnt v file' log rest,
  pwrite_loop file buf count offset cnt l = Some (v, file', log, rest) ->
  length l = (length log + length rest)%nat /\ (cnt < count -> log <> []).
Proof.
  intros buf count offset. induction l as [|a r IH]; intros file cnt v file' log rest E;
    cbn [pwrite_loop] in E; destruct (Z.ltb_spec cnt count) as [L|L]; try discriminate E.
  - injection E as <- <- <- <-. split; [reflexivity|lia].
  - destruct a as [k|e].
    + destruct (pwrite_loop (blit file (offset + cnt) buf cnt k) buf count offset (cnt + k) r)
        as [[[[v1 f1] log1] rest1]|] eqn:E1; [|discriminate E].
      injection E as <- <- <- <-. destruct (IH _ _ _ _ _ _ E1) as [A _].
      split; [cbn [length]; lia|]. intros _ X. discriminate X.
    + injection E as <- <- <- <-. split; [cbn [length]; lia|]. intros _ X. discriminate X.
  - injection E as <- <- <- <-. split; [reflexivity|lia].
Qed.

(** progress: non-zero answers bring the call to its end *)
Lemma pwrite_returns : forall buf count offset l file cnt,
  (forall a, In a l -> a <> Did 0) ->
  (forall k, In (Did k) l -> 0 <= k) ->
  (count - cnt <= Z.of_nat (length l)) ->
  pwrite_loop file buf count offset cnt l <> None.
Proof.
  intros buf count offset. induction l as [|a r IH]; intros file cnt N P L;
    cbn [pwrite_loop]; destruct (Z.ltb_spec cnt count) as [T|T]; try (intro X; discriminate X).
  - cbn [length] in L. lia.
  - destruct a as [k|e]; [|intro X; discriminate X].
    assert (K : 1 <= k).
    { specialize (P k (or_introl eq_refl)). specialize (N _ (or_introl eq_refl)).
      assert (k <> 0) by (intro; subst; now apply N). lia. }
    specialize (IH (blit file (offset + cnt) buf cnt k) (cnt + k)).
    destruct (pwrite_loop (blit file (offset + cnt) buf cnt k) buf count offset (cnt + k) r)
      as [[[[v1 f1] log1] rest1]|] eqn:E1; [intro X; discriminate X|].
    exfalso. apply IH; auto.
    + intros a Ha. apply N. now right.
    + intros k0 Hk. apply P. now right.
    + cbn [length] in L. lia.
Qed.

Lemma pread_returns : forall file count offset l buf cnt,
  (forall k, In (Did k) l -> 0 <= k) ->
  (count - cnt <= Z.of_nat (length l)) ->
  pread_loop file buf count offset cnt l <> None.
Proof.
  intros file count offset. induction l as [|a r IH]; intros buf cnt P L;
    cbn [pread_loop]; destruct (Z.ltb_spec cnt count) as [T|T]; try (intro X; discriminate X).
  - cbn [length] in L. lia.
  - destruct a as [k|e]; [|intro X; discriminate X].
    destruct (Z.eqb_spec k 0) as [->|N]; [intro X; discriminate X|].
    assert (K : 1 <= k) by (specialize (P k (or_introl eq_refl)); lia).
    specialize (IH (blit buf cnt file (offset + cnt) k) (cnt + k)).
    destruct (pread_loop file (blit buf cnt file (offset + cnt) k) count offset (cnt + k) r)
      as [[[[v1 f1] log1] rest1]|] eqn:E1; [intro X; discriminate X|].
    exfalso. apply IH; auto.
    + intros k0 Hk. apply P. now right.
    + cbn [length] in L. lia.
Qed.

(** zero-byte answers keep the write loop going *)
Lemma pwrite_zero_spins : forall buf count offset n file cnt,
  cnt < count -> pwrite_loop file buf count offset cnt (repeat (Did 0) n) = None.
Proof.
  intros buf count offset. induction n as [|n IH]; intros file cnt L; cbn [repeat pwrite_loop];
    destruct (Z.ltb_spec cnt count) as [T|T]; try lia; auto.
  rewrite IH by lia. reflexivity.
Qed.

(** ** [flck_fill_zero] *)
Lemma fill_loop_spec : forall count offset fuel l file cnt b file' log rest,
  fill_loop fuel file count offset cnt l = Some (b, file', log, rest) ->
  0 <= cnt <= count ->
  Forall os_write_ok log ->
  Forall (in_buffer CHUNK) log /\
  same_outside file' file (offset + cnt) (count - cnt) /\
  (b = false /\ Exists failed log \/
   b = true /\ Forall (fun y => ~ failed y) log /\
   copies file' (offset + cnt) (fun _ => 0) 0 (count - cnt)).
Proof.
  intros count offset. induction fuel as [|fuel IH]; intros l file cnt b file' log rest E Hc F;
    cbn [fill_loop] in E; [discriminate E|].
  destruct (Z.ltb_spec cnt count) as [L|L].
  - destruct (flck_pwrite file bydata (Z.min (count - cnt) CHUNK) (offset + cnt) l)
      as [[[[v f] log1] rest1]|] eqn:E1; [|discriminate E].
    unfold flck_pwrite in E1.
    assert (M : 0 <= 0 <= Z.min (count - cnt) CHUNK) by (unfold CHUNK; lia).
    assert (W : forall y, in_buffer (Z.min (count - cnt) CHUNK) y -> in_buffer CHUNK y).
    { unfold in_buffer. intros y. lia. }
    destruct (Z.eqb_spec v (-1)) as [->|N].
    + injection E as <- <- <- <-.
      destruct (pwrite_loop_spec _ _ _ _ _ _ _ _ _ _ E1 M F) as [B [(V & X & S)|(V & _)]]; [|lia].
      split. { eapply Forall_impl; [|exact B]. exact W. }
      split. { intros x Hx. apply S. lia. }
      left. auto.
    + destruct (fill_loop fuel f count offset (cnt + v) rest1) as [[[[b2 f2] log2] rest2]|] eqn:E2;
        [|discriminate E].
      injection E as <- <- <- <-. apply Forall_app in F as [F1 F2].
      destruct (pwrite_loop_spec _ _ _ _ _ _ _ _ _ _ E1 M F1) as [B [(V & _)|(V & X & C & S)]]; [lia|].
      assert (H1 : 0 <= cnt + v <= count) by lia.
      destruct (IH _ _ _ _ _ _ _ E2 H1 F2) as (B2 & S2 & Q).
      split. { apply Forall_app. split; [|exact B2]. eapply Forall_impl; [|exact B]. exact W. }
      split. { intros x Hx. rewrite S2 by lia. apply S. lia. }
      destruct Q as [(Q1 & Q2)|(Q1 & Q2 & Q3)].
      * left. split; auto. apply Exists_app. now right.
      * right. split; auto. split; [now apply Forall_app|].
        intros i Hi. destruct (Z.lt_ge_cases i v) as [I|I].
        -- rewrite S2 by lia. specialize (C i). replace (offset + cnt + 0 + i) with (offset + cnt + i) in C by lia.
           rewrite C by lia. reflexivity.
        -- specialize (Q3 (i - v)). replace (offset + (cnt + v) + (i - v)) with (offset + cnt + i) in Q3 by lia.
           rewrite Q3 by lia. reflexivity.
  - injection E as <- <- <- <-. split; [constructor|]. split; [apply same_outside_refl|].
    right. split; auto. split; [constructor|]. intros i Hi. lia.
Qed.

(** the fuel of [flck_fill_zero] is never the reason for [None]: more fuel changes nothing *)
Lemma fill_fuel : forall count offset fuel l file cnt,
  (length l < fuel)%nat ->
  fill_loop (S fuel) file count offset cnt l = fill_loop fuel file count offset cnt l.
Proof.
  intros count offset. induction fuel as [|fuel IH]; intros l file cnt H; [lia|].
  remember (S fuel) as g. cbn [fill_loop]. subst g. cbn [fill_loop].
  destruct (Z.ltb_spec cnt count) as [L|L]; auto.
  destruct (flck_pwrite file bydata (Z.min (count - cnt) CHUNK) (offset + cnt) l)
    as [[[[v f] log1] rest1]|] eqn:E1; auto.
  destruct (v =? -1); auto.
  unfold flck_pwrite in E1. destruct (pwrite_uses _ _ _ _ _ _ _ _ _ _ E1) as [A B].
  assert (P : log1 <> []) by (apply B; unfold CHUNK; lia).
  destruct log1 as [|y log1]; [congruence|]. cbn [length] in A.
  specialize (IH rest1 f (cnt + v)). rewrite <- IH by lia. reflexivity.
Qed.
