(** A step of a call touches the objects of its thread and its part of the stack. *)
From Verif Require Import Base Rcsv_Model Rcsv_Spec Rcon_Model Rcon_Spec.
From Coq Require Import ZArith List Bool Lia.
Import ListNotations.
Open Scope Z_scope.

Section Own.
Variable own : Z -> Z.

Definition keeps (stk : bool) (s s' : st) : Prop :=
  s_mtx s' = s_mtx s /\ s_log s' = s_log s /\ s_ans s' = s_ans s /\ s_race s' = s_race s || (stk && negb (s_mtx s)).
Definition frame (t : Z) (c c' : st) : Prop :=
  (forall x, own x <> t -> s_obj c' x = s_obj c x) /\
  (forall u, u <> t -> of_thread own u (s_stack c') = of_thread own u (s_stack c)).
Definition wfo (x : Z) (b : obj) : Prop :=
  (o_tid b = own x \/ (o_tid b = 0 /\ o_alive b = false)) /\ (forall m, o_master b = Some m -> own m = own x) /\
  (forall y, In y (o_pend b) -> own y = own x).
Definition WF (c : st) : Prop := forall x, wfo x (s_obj c x).

Lemma WF_master : forall c x m t, WF c -> own x = t -> o_master (s_obj c x) = Some m -> own m = t.
Proof. intros c x m t W X M. rewrite <- X. destruct (W x) as (_ & H & _). auto. Qed.
Lemma WF_pend : forall c x y t, WF c -> own x = t -> In y (o_pend (s_obj c x)) -> own y = t.
Proof. intros c x y t W X M. rewrite <- X. destruct (W x) as (_ & _ & H). auto. Qed.

(** ** Own objects *)
Lemma agree_on : forall t s c x f f', agree own t s c -> own x = t -> f (s_obj c x) = f' (s_obj c x) ->
  agree own t (on s x f) (on c x f').
Proof.
  intros t s c x f f' (A & D & K) O E. split; [|split; [|exact K]].
  - intros y Y. cbn [on set_obj s_obj]. unfold upd. destruct (Z.eqb_spec y x) as [->|N]; [|auto]. rewrite A by auto. exact E.
  - intros y Y. cbn [on set_obj s_obj]. rewrite upd_neq; [auto|congruence].
Qed.
Lemma WF_on : forall c x f, WF c -> wfo x (f (s_obj c x)) -> WF (on c x f).
Proof.
  intros c x f W H y. cbn [on set_obj s_obj]. unfold upd. destruct (Z.eqb_spec y x) as [->|N]; [exact H|apply W].
Qed.
Lemma frame_on : forall t c x f, own x = t -> frame t c (on c x f).
Proof.
  intros t c x f O. split; [|reflexivity]. intros y Y. cbn [on set_obj s_obj]. rewrite upd_neq; [reflexivity|congruence].
Qed.
Lemma frame_trans : forall t a b c, frame t a b -> frame t b c -> frame t a c.
Proof. intros t a b c [A1 A2] [B1 B2]. split; [intros x X; rewrite B1, A1 by auto; auto|intros u U; rewrite B2, A2 by auto; auto]. Qed.
Lemma frame_refl : forall t a, frame t a a.
Proof. intros t a. split; auto. Qed.

Lemma keeps_on : forall s x f, keeps false s (on s x f).
Proof. intros s x f. repeat split. cbn. now rewrite orb_false_r. Qed.
Lemma keeps_trans : forall a b c, keeps false a b -> keeps false b c -> keeps false a c.
Proof.
  intros a b c (A1 & A2 & A3 & A4) (B1 & B2 & B3 & B4). unfold keeps. cbn in *. rewrite orb_false_r in *. repeat split; congruence.
Qed.
Lemma keeps_stack : forall s l, keeps true s (set_stack s l).
Proof. intros s l. repeat split. Qed.
Lemma keeps_after : forall a b c, keeps false a b -> keeps true b c -> keeps true a c.
Proof.
  intros a b c (A1 & A2 & A3 & A4) (B1 & B2 & B3 & B4). unfold keeps. cbn in *. rewrite orb_false_r in *.
  repeat split; try congruence.
Qed.
Lemma keeps_before : forall a b c, keeps true a b -> keeps false b c -> keeps true a c.
Proof.
  intros a b c (A1 & A2 & A3 & A4) (B1 & B2 & B3 & B4). unfold keeps. cbn in *. rewrite orb_false_r in *. repeat split; congruence.
Qed.
Lemma keeps_twice : forall a b c, keeps true a b -> keeps true b c -> keeps true a c.
Proof.
  intros a b c (A1 & A2 & A3 & A4) (B1 & B2 & B3 & B4). unfold keeps. cbn in *.
  repeat split; try congruence. rewrite B4, A1, A4. now destruct (s_race a), (s_mtx a).
Qed.

(** ** The stack *)
Lemma filter_erase : forall t o l, own o = t -> of_thread own t (erase o l) = erase o (of_thread own t l).
Proof.
  intros t o l O. induction l as [|x r IH]; [reflexivity|]. cbn [erase of_thread filter].
  destruct (Z.eqb_spec x o) as [->|N].
  - rewrite O, Z.eqb_refl. cbn [erase]. rewrite Z.eqb_refl. reflexivity.
  - cbn [filter]. fold (of_thread own t (erase o r)). rewrite IH. destruct (own x =? t); [|reflexivity].
    cbn [erase]. rewrite (proj2 (Z.eqb_neq _ _) N). reflexivity.
Qed.
Lemma filter_erase_other : forall t u o l, own o = t -> u <> t -> of_thread own u (erase o l) = of_thread own u l.
Proof.
  intros t u o l O U. induction l as [|x r IH]; [reflexivity|]. cbn [erase of_thread filter].
  destruct (Z.eqb_spec x o) as [->|N].
  - rewrite O, (proj2 (Z.eqb_neq t u)) by congruence. reflexivity.
  - cbn [filter]. fold (of_thread own u (erase o r)). rewrite IH. reflexivity.
Qed.
Lemma filter_push : forall t o l, own o = t -> of_thread own t (l ++ [o]) = of_thread own t l ++ [o].
Proof. intros t o l O. unfold of_thread. rewrite filter_app. cbn. rewrite O, Z.eqb_refl. reflexivity. Qed.
Lemma filter_push_other : forall t u o l, own o = t -> u <> t -> of_thread own u (l ++ [o]) = of_thread own u l.
Proof.
  intros t u o l O U. unfold of_thread. rewrite filter_app. cbn. rewrite O, (proj2 (Z.eqb_neq t u)) by congruence. apply app_nil_r.
Qed.

Lemma agree_stack : forall t s c l l', agree own t s c -> l = of_thread own t l' -> agree own t (set_stack s l) (set_stack c l').
Proof. intros t s c l l' (A & D & K) E. split; [exact A|split; [exact D|exact E]]. Qed.
Lemma frame_stack : forall t c l, (forall u, u <> t -> of_thread own u l = of_thread own u (s_stack c)) -> frame t c (set_stack c l).
Proof. intros t c l H. split; [reflexivity|exact H]. Qed.

Lemma cmp_other : forall t c x i, WF c -> 0 < t -> o_tid x = t -> own i <> t -> cmp x (s_obj c i) = false.
Proof.
  intros t c x i W P T N. unfold cmp. destruct (W i) as [[E|[E _]] _]; rewrite T, E, (proj2 (Z.eqb_neq _ _)); auto; lia.
Qed.

Lemma match_filter : forall t s c x l, agree own t s c -> WF c -> 0 < t -> o_tid x = t ->
  first_match s x (of_thread own t l) = first_match c x l /\ forall i, first_match c x l = Some i -> own i = t.
Proof.
  intros t s c x l A W P T. induction l as [|i r [IH1 IH2]]; [split; [reflexivity|discriminate]|].
  cbn [of_thread filter first_match]. destruct (Z.eqb_spec (own i) t) as [E|N].
  - cbn [first_match]. rewrite (proj1 A i E). destruct (cmp x (s_obj c i)); [split; [reflexivity|intros j J; now injection J as <-]|]. auto.
  - rewrite (cmp_other t c x i) by auto. auto.
Qed.

Lemma scan_filter : forall t s c x l, agree own t s c -> WF c -> 0 < t -> o_tid x = t ->
  forall rs ks w, scan c x l = (rs, ks, w) ->
  scan s x (of_thread own t l) = (rs, of_thread own t ks, w) /\ (forall i, In i rs -> own i = t) /\
  (forall i, w = Some i -> own i = t) /\ forall u, u <> t -> of_thread own u ks = of_thread own u l.
Proof.
  intros t s c x l A W P T. induction l as [|i r IH]; intros rs ks w E; cbn [scan of_thread filter] in *.
  - injection E as <- <- <-. repeat split; try discriminate. intros i [].
  - destruct (Z.eqb_spec (own i) t) as [O|N].
    + cbn [scan]. rewrite (proj1 A i O). destruct (cmp x (s_obj c i)).
      * destruct (o_type (s_obj c i)).
        -- destruct (scan c x r) as [[rs1 ks1] w1]. injection E as <- <- <-.
           destruct (IH _ _ _ eq_refl) as (I1 & I2 & I3 & I4). unfold of_thread in I1. rewrite I1. cbn [of_thread filter].
           rewrite O, Z.eqb_refl. repeat split; auto. intros u U. unfold of_thread in I4.
           rewrite (proj2 (Z.eqb_neq t u)) by congruence. auto.
        -- destruct (scan c x r) as [[rs1 ks1] w1]. injection E as <- <- <-.
           destruct (IH _ _ _ eq_refl) as (I1 & I2 & I3 & I4). unfold of_thread in I1. rewrite I1.
           repeat split; auto; [intros j [<-|J]; auto|]. intros u U. rewrite O, (proj2 (Z.eqb_neq t u)) by congruence. apply I4; auto.
        -- injection E as <- <- <-. cbn [of_thread filter]. rewrite O, Z.eqb_refl.
           repeat split; [intros j []|intros j J; now injection J as <-].
      * destruct (scan c x r) as [[rs1 ks1] w1]. injection E as <- <- <-.
        destruct (IH _ _ _ eq_refl) as (I1 & I2 & I3 & I4). unfold of_thread in I1. rewrite I1. cbn [of_thread filter].
        rewrite O, Z.eqb_refl. repeat split; auto. intros u U. unfold of_thread in I4.
        rewrite (proj2 (Z.eqb_neq t u)) by congruence. auto.
    + rewrite (cmp_other t c x i) in E by auto. destruct (scan c x r) as [[rs1 ks1] w1]. injection E as <- <- <-.
      destruct (IH _ _ _ eq_refl) as (I1 & I2 & I3 & I4). unfold of_thread in I1. rewrite I1. cbn [of_thread filter].
      rewrite (proj2 (Z.eqb_neq _ _) N). repeat split; auto. intros u U. unfold of_thread in I4.
      destruct (own i =? u); [f_equal|]; auto.
Qed.

(** ** Moving pending objects *)
Lemma agree_move : forall t l s c d m, agree own t s c -> WF c -> own d = t -> own m = t -> (forall y, In y l -> own y = t) ->
  agree own t (move_pending s d m l) (move_pending c d m l) /\ WF (move_pending c d m l) /\ frame t c (move_pending c d m l) /\
  (forall x, o_tid (s_obj (move_pending c d m l) x) = o_tid (s_obj c x)).
Proof.
  intros t. induction l as [|y r IH]; intros s c d m A W D M H; [auto using frame_refl|].
  cbn [move_pending]. cbv zeta.
  assert (Y : own y = t) by (apply H; left; reflexivity).
  set (c1 := on c y (fun b => w_master b (Some m))). set (s1 := on s y (fun b => w_master b (Some m))).
  assert (A1 : agree own t s1 c1) by (apply agree_on; auto).
  assert (W1 : WF c1).
  { apply WF_on; [exact W|]. destruct (W y) as (W1 & W2 & W3). split; [exact W1|]. split; [|exact W3].
    intros z Z. cbn in Z. injection Z as <-. congruence. }
  set (c2 := on c1 d (fun b => w_pend b (o_pend b ++ [y]))). set (s2 := on s1 d (fun b => w_pend b (o_pend b ++ [y]))).
  assert (A2 : agree own t s2 c2) by (apply agree_on; auto).
  assert (W2 : WF c2).
  { apply WF_on; [exact W1|]. destruct (W1 d) as (V1 & V2 & V3). split; [exact V1|]. split; [exact V2|].
    intros z Z. cbn in Z. apply in_app_or in Z as [Z|[<-|[]]]; auto. congruence. }
  destruct (IH s2 c2 d m A2 W2 D M (fun z Z => H z (or_intror Z))) as (I1 & I2 & I3 & I4).
  split; [exact I1|]. split; [exact I2|]. split.
  - eapply frame_trans; [|exact I3]. eapply frame_trans; apply frame_on; auto.
  - intros x. rewrite I4. unfold c2, c1. cbn [on set_obj s_obj]. unfold upd.
    destruct (Z.eqb_spec x d) as [->|N1]; [destruct (Z.eqb_spec d y) as [->|N2]; reflexivity|].
    destruct (Z.eqb_spec x y) as [->|N2]; reflexivity.
Qed.

Lemma keeps_move : forall l s d m, keeps false s (move_pending s d m l).
Proof.
  induction l as [|y r IH]; intros s d m; [repeat split; cbn; now rewrite orb_false_r|].
  cbn [move_pending]. cbv zeta. eapply keeps_trans; [|apply IH]. eapply keeps_trans; apply keeps_on.
Qed.

Lemma pick_agree : forall t s c l, agree own t s c -> (forall y, In y l -> own y = t) -> pick s l = pick c l.
Proof.
  intros t s c l A H. unfold pick. assert (E : pick_writer s l = pick_writer c l); [|now rewrite E].
  induction l as [|y r IH]; [reflexivity|]. cbn [pick_writer]. rewrite (proj1 A y) by (apply H; left; reflexivity).
  rewrite IH by (intros z Z; apply H; right; exact Z). reflexivity.
Qed.
Lemma pick_in : forall s l n rest, l <> [] -> pick s l = (n, rest) -> In n l /\ forall y, In y rest -> In y l.
Proof.
  intros s l n rest N E. unfold pick in E. destruct (pick_writer s l) as [[w r]|] eqn:P.
  - injection E as <- <-. clear N. revert w r P. induction l as [|x l IH]; intros w r P; [discriminate P|].
    cbn [pick_writer] in P. destruct (is_wr (o_type (s_obj s x))); [injection P as <- <-; split; [left; auto|right; auto]|].
    destruct (pick_writer s l) as [[w' r']|]; [|discriminate P]. injection P as <- <-.
    destruct (IH _ _ eq_refl) as [I1 I2]. split; [right; exact I1|]. intros y [<-|Y]; [left; reflexivity|right; auto].
  - injection E as <- <-. split.
    + rewrite (app_removelast_last 0 N) at 2. apply in_or_app. right. left. reflexivity.
    + intros y Y. rewrite (app_removelast_last 0 N). apply in_or_app. left. exact Y.
Qed.

(** ** Locality of a program *)
Inductive local (t o : Z) : prog -> Prop :=
| l_ret : forall b L, local t o (PRet b L)
| l_lck : forall k, local t o k -> local t o (PLck k)
| l_ulk : forall k, local t o k -> local t o (PUlk k)
| l_shm : forall L c k, (forall a, local t o (k a)) -> local t o (PShm L c k)
| l_act0 : forall stk g k, (forall s, keeps stk s (g s)) ->
    (forall s c, agree own t s c -> WF c -> o_tid (s_obj c o) = t ->
       agree own t (g s) (g c) /\ k s = k c /\ WF (g c) /\ frame t c (g c) /\
       (o_tid (s_obj (g c) o) = t \/ exists b L, k c = PRet b L)) ->
    (forall s c, agree own t s c -> WF c -> o_tid (s_obj c o) = t -> local t o (k c)) ->
    local t o (PAct stk g k).
Lemma l_act : forall t o stk g k, (forall s, keeps stk s (g s)) ->
    (forall s c, agree own t s c -> WF c -> o_tid (s_obj c o) = t ->
       agree own t (g s) (g c) /\ k s = k c /\ WF (g c) /\ frame t c (g c) /\
       (o_tid (s_obj (g c) o) = t \/ exists b L, k c = PRet b L) /\ local t o (k c)) ->
    local t o (PAct stk g k).
Proof.
  intros t o stk g k K H. apply l_act0; [exact K| |].
  - intros s c A W T. destruct (H s c A W T) as (H1 & H2 & H3 & H4 & H5 & _). auto.
  - intros s c A W T. apply (H s c A W T).
Qed.

Section Thread.
Variables t o : Z.
Hypothesis pos : 0 < t.
Hypothesis mine : own o = t.

Lemma l_plock : forall L k, (forall L, local t o (k L)) -> local t o (plock L k).
Proof. intros L k H. unfold plock. destruct L; [auto|]. now apply l_lck. Qed.
Lemma l_pulk : forall L k, (forall L, local t o (k L)) -> local t o (pulk L k).
Proof. intros L k H. unfold pulk. destruct L; [|auto]. now apply l_ulk. Qed.

(** looking *)
Lemma keeps_refl : forall s, keeps false s s.
Proof. intros s. repeat split. cbn. now rewrite orb_false_r. Qed.
Lemma l_nop : forall k, (forall s c, agree own t s c -> WF c -> o_tid (s_obj c o) = t -> k s = k c /\ local t o (k c)) ->
  local t o (PAct false nop k).
Proof.
  intros k H. apply l_act; [exact keeps_refl|]. intros s c A W T. destruct (H s c A W T) as [E Q]. unfold nop. auto 8 using frame_refl.
Qed.

(** a good change *)
Definition fine (s c s' c' : st) : Prop :=
  agree own t s' c' /\ WF c' /\ frame t c c' /\ forall x, o_tid (s_obj c' x) = o_tid (s_obj c x).
Lemma fine_refl : forall s c, agree own t s c -> WF c -> fine s c s c.
Proof. intros s c A W. repeat split; auto; apply A || apply W. Qed.
Lemma fine_trans : forall s c s1 c1 s2 c2, fine s c s1 c1 -> fine s1 c1 s2 c2 -> fine s c s2 c2.
Proof.
  intros s c s1 c1 s2 c2 (A1 & A2 & A3 & A4) (B1 & B2 & B3 & B4). split; [exact B1|]. split; [exact B2|].
  split; [eapply frame_trans; eauto|]. intros x. now rewrite B4.
Qed.
Lemma fine_on : forall s c s1 c1 x f f', fine s c s1 c1 -> own x = t -> f (s_obj c1 x) = f' (s_obj c1 x) ->
  (wfo x (s_obj c1 x) -> wfo x (f' (s_obj c1 x))) -> (forall b, o_tid (f' b) = o_tid b) -> fine s c (on s1 x f) (on c1 x f').
Proof.
  intros s c s1 c1 x f f' (A & W & F & T) X E V I.
  split; [now apply agree_on|]. split; [apply WF_on; auto|]. split; [eapply frame_trans; [exact F|now apply frame_on]|].
  intros y. rewrite <- T. cbn [on set_obj s_obj]. unfold upd. destruct (Z.eqb_spec y x) as [->|N]; auto.
Qed.
Lemma fine_stack : forall s c s1 c1 l l', fine s c s1 c1 -> l = of_thread own t l' ->
  (forall u, u <> t -> of_thread own u l' = of_thread own u (s_stack c1)) -> fine s c (set_stack s1 l) (set_stack c1 l').
Proof.
  intros s c s1 c1 l l' (A & W & F & T) E U. split; [now apply agree_stack|]. split; [exact W|].
  split; [eapply frame_trans; [exact F|now apply frame_stack]|]. exact T.
Qed.
Lemma fine_move : forall s c s1 c1 d m l, fine s c s1 c1 -> own d = t -> own m = t -> (forall y, In y l -> own y = t) ->
  fine s c (move_pending s1 d m l) (move_pending c1 d m l).
Proof.
  intros s c s1 c1 d m l (A & W & F & T) D M H. destruct (agree_move t l s1 c1 d m A W D M H) as (I1 & I2 & I3 & I4).
  split; [exact I1|]. split; [exact I2|]. split; [eapply frame_trans; eauto|]. intros x. now rewrite I4.
Qed.
Lemma fine_obj : forall s c s1 c1 x, fine s c s1 c1 -> own x = t -> s_obj s1 x = s_obj c1 x.
Proof. intros s c s1 c1 x (A & _) X. now apply A. Qed.

Lemma wfo_state : forall x b l h, wfo x b -> wfo x (w_state b l h).
Proof. intros x b l h H. exact H. Qed.
Lemma wfo_type : forall x b ty, wfo x b -> wfo x (w_type b ty).
Proof. intros x b ty H. exact H. Qed.
Lemma wfo_range : forall x b f g l, wfo x b -> wfo x (w_range b f g l).
Proof. intros x b f g l H. exact H. Qed.
Lemma wfo_master : forall x b m, wfo x b -> (forall y, m = Some y -> own y = own x) -> wfo x (w_master b m).
Proof. intros x b m (H1 & H2 & H3) M. split; [exact H1|]. split; [exact M|exact H3]. Qed.
Lemma wfo_pend : forall x b l, wfo x b -> (forall y, In y l -> own y = own x) -> wfo x (w_pend b l).
Proof. intros x b l (H1 & H2 & H3) M. split; [exact H1|]. split; [exact H2|exact M]. Qed.
Lemma wfo_push : forall x b y, wfo x b -> own y = own x -> wfo x (w_pend b (o_pend b ++ [y])).
Proof.
  intros x b y W Y. apply wfo_pend; [exact W|]. intros z Z. apply in_app_or in Z as [Z|[<-|[]]]; [|exact Y].
  now apply W.
Qed.
Lemma in_erase : forall x y l, In y (erase x l) -> In y l.
Proof.
  intros x y l. induction l as [|z r IH]; [auto|]. cbn. destruct (z =? x); [now right|]. intros [<-|H]; [now left|right; auto].
Qed.

(** an access that is a good change *)
Lemma l_fine : forall stk g k, (forall s, keeps stk s (g s)) ->
  (forall s c, agree own t s c -> WF c -> o_tid (s_obj c o) = t ->
     fine s c (g s) (g c) /\ k s = k c /\ local t o (k c)) -> local t o (PAct stk g k).
Proof.
  intros stk g k K H. apply l_act; [exact K|]. intros s c A W T. destruct (H s c A W T) as ((F1 & F2 & F3 & F4) & E & Q).
  rewrite F4. auto 8.
Qed.
Lemma l_state : forall x l h k, own x = t -> local t o k -> local t o (PAct false (fun s => on s x (fun b => w_state b l h)) (fun _ => k)).
Proof.
  intros x l h k X K. apply l_fine; [intros s; apply keeps_on|]. intros s c A W T. split; [|auto].
  apply fine_on; auto using fine_refl, wfo_state.
Qed.

Lemma keeps_off : forall s, keeps true s (off_stack o s).
Proof.
  intros s. unfold off_stack. cbv zeta. destruct (o_pend (s_obj s o)) as [|z r] eqn:P.
  - destruct (o_has (s_obj s o)); [apply keeps_stack|]. eapply keeps_before; [apply keeps_stack|apply keeps_on].
  - eapply keeps_before; [|apply keeps_on]. unfold pass_on. destruct (pick _ _) as [n rest].
    eapply keeps_twice; [apply keeps_stack|]. eapply keeps_after; [|apply keeps_stack].
    eapply keeps_trans; [|apply keeps_on]. eapply keeps_trans; [|apply keeps_on]. apply keeps_move.
Qed.

Lemma fine_off : forall s c, agree own t s c -> WF c -> fine s c (off_stack o s) (off_stack o c).
Proof.
  intros s c A W. unfold off_stack. cbv zeta.
  assert (F0 : fine s c (set_stack s (erase o (s_stack s))) (set_stack c (erase o (s_stack c)))).
  { apply fine_stack; [now apply fine_refl|rewrite (proj2 (proj2 A)); symmetry; now apply filter_erase|].
    intros u U. now apply (filter_erase_other t). }
  set (s1 := set_stack s _) in *. set (c1 := set_stack c _) in *.
  rewrite (proj1 A o mine). destruct (o_pend (s_obj c o)) as [|z r] eqn:P.
  - destruct (o_has (s_obj c o)); [exact F0|]. apply fine_on; auto using wfo_state.
  - apply fine_on; auto using wfo_state. unfold pass_on. cbv zeta.
    assert (PD : forall y, In y (o_pend (s_obj c1 o)) -> own y = t).
    { intros y Y. now apply (WF_pend c o). }
    rewrite (fine_obj _ _ _ _ o F0 mine). rewrite (pick_agree t s1 c1) by (auto; apply F0).
    destruct (pick c1 (o_pend (s_obj c1 o))) as [n rest] eqn:K.
    apply pick_in in K as [N R]; [|unfold c1; cbn; rewrite P; discriminate].
    apply fine_stack.
    + apply fine_on; auto.
      * apply fine_on; auto; [apply fine_move; auto|]. intros V. apply wfo_pend; [exact V|]. intros y [].
      * intros V. apply wfo_master; [|discriminate]. now apply wfo_type, wfo_state.
    + rewrite filter_push by auto. f_equal.
      assert (F2 : fine s c (on (move_pending s1 n n rest) o (fun b => w_pend b [])) (on (move_pending c1 n n rest) o (fun b => w_pend b []))).
      { apply fine_on; auto; [apply fine_move; auto|]. intros V. apply wfo_pend; [exact V|]. intros y []. }
      apply F2.
    + intros u U. cbn [on set_obj s_stack]. apply (filter_push_other t); auto.
Qed.

Lemma l_unlock : forall L k, (forall b L, local t o (k b L)) -> local t o (pRawUnlock o L k).
Proof.
  intros L k K. unfold pRawUnlock. apply l_nop. intros s c A W T. rewrite (proj1 A o mine). split; [reflexivity|].
  destruct (is_unl (o_type (s_obj c o)) || negb (o_locked (s_obj c o))); [apply K|]. apply l_plock. clear - K pos mine. intros L.
  apply l_nop. intros s c A W T. rewrite (proj1 A o mine). split; [reflexivity|].
  destruct (o_master (s_obj c o)) as [m|] eqn:M.
  - assert (OM : own m = t) by (now apply (WF_master c o)). clear - K pos mine OM.
    apply l_fine; [intros s; eapply keeps_trans; [|apply keeps_on]; eapply keeps_trans; apply keeps_on|].
    intros s c A W T. split; [|auto]. apply fine_on; auto using wfo_state. apply fine_on; auto.
    + apply fine_on; auto using fine_refl. intros V. apply wfo_pend; [exact V|]. intros y Y. destruct V as (_ & _ & V). apply V. eapply in_erase; eauto.
    + intros V. apply wfo_master; [exact V|discriminate].
  - clear - K pos mine. apply l_fine; [exact keeps_off|]. intros s c A W T. split; [now apply fine_off|].
    rewrite (proj1 A o mine). split; [reflexivity|].
    destruct (o_pend (s_obj c o)); [|apply K]. destruct (o_has (s_obj c o)); [|apply K].
    apply l_pulk. intros L1. apply l_shm. intros a. destruct (a =? 0).
    + apply l_state; auto.
    + apply l_plock. intros L2. apply l_fine; [intros; apply keeps_stack|]. intros s1 c1 A1 W1 T1. split; [|auto].
      apply fine_stack; [now apply fine_refl|rewrite filter_push by auto; f_equal; apply A1|]. intros u U. now apply (filter_push_other t).
Qed.

Lemma l_unlock_if : forall b L k, (forall b L, local t o (k b L)) -> local t o (punlock_if b o L k).
Proof. intros [] L k K; [now apply l_unlock|apply K]. Qed.

Lemma keeps_look_read : forall s, keeps true s (look_read o s).
Proof.
  intros s. unfold look_read. cbv zeta. assert (E : keeps true s (as_reader o s)) by (eapply keeps_after; [apply keeps_on|apply keeps_stack]).
  destruct (first_match _ _ _).
  - eapply keeps_before; [|apply keeps_on]. eapply keeps_before; [|apply keeps_on]. exact E.
  - eapply keeps_twice; [exact E|apply keeps_stack].
Qed.
Lemma fine_reader : forall s c, agree own t s c -> WF c -> fine s c (as_reader o s) (as_reader o c).
Proof.
  intros s c A W. unfold as_reader. cbv zeta. apply fine_stack; [|apply A|reflexivity]. apply fine_on; auto using fine_refl, wfo_type.
Qed.
Lemma match_reader : forall s c, agree own t s c -> WF c -> o_tid (s_obj c o) = t ->
  first_match (as_reader o s) (s_obj (as_reader o s) o) (s_stack (as_reader o s)) =
  first_match (as_reader o c) (s_obj (as_reader o c) o) (s_stack (as_reader o c)) /\
  forall i, first_match (as_reader o c) (s_obj (as_reader o c) o) (s_stack (as_reader o c)) = Some i -> own i = t.
Proof.
  intros s c A W T. destruct (fine_reader s c A W) as (A1 & W1 & _ & T1). rewrite (proj1 A1 o mine), (proj2 (proj2 A1)).
  apply match_filter; auto. now rewrite T1.
Qed.
Lemma fine_look_read : forall s c, agree own t s c -> WF c -> o_tid (s_obj c o) = t -> fine s c (look_read o s) (look_read o c).
Proof.
  intros s c A W T. pose proof (fine_reader s c A W) as F. destruct (match_reader s c A W T) as [E O]. unfold look_read. cbv zeta.
  rewrite E. clear E. destruct (first_match (as_reader o c) _ _) as [i|].
  - specialize (O i eq_refl). rewrite (fine_obj _ _ _ _ i F O). apply fine_on; auto.
    + apply fine_on; auto. intros V. apply wfo_master; [exact V|]. intros y Y. injection Y as <-. congruence.
    + intros V. apply wfo_push; [exact V|congruence].
  - apply fine_stack; [exact F|rewrite filter_push by auto; f_equal; apply F|]. intros u U. now apply (filter_push_other t).
Qed.

Lemma keeps_drop : forall s, keeps true s (on (set_stack s (erase o (s_stack s))) o (fun b => w_state b false false)).
Proof. intros s. eapply keeps_before; [apply keeps_stack|apply keeps_on]. Qed.
Lemma fine_erase : forall s c, agree own t s c -> WF c -> fine s c (set_stack s (erase o (s_stack s))) (set_stack c (erase o (s_stack c))).
Proof.
  intros s c A W. apply fine_stack; [now apply fine_refl|rewrite (proj2 (proj2 A)); symmetry; now apply filter_erase|].
  intros u U. now apply (filter_erase_other t).
Qed.

Lemma l_read : forall L k, (forall b L, local t o (k b L)) -> local t o (pRawReadLock o L k).
Proof.
  intros L k K. unfold pRawReadLock. cbv zeta. apply l_nop. intros s c A W T. rewrite (proj1 A o mine). split; [reflexivity|].
  destruct (_ && _); [apply K|]. destruct (_ && _); [apply K|].
  generalize (is_wr (o_type (s_obj c o)) && o_locked (s_obj c o)). clear - K pos mine. intros e.
  apply l_plock. intros L1. apply l_unlock_if. intros [] L2; cbn [negb]; [|apply K].
  apply l_fine; [exact keeps_look_read|]. intros s c A W T. split; [now apply fine_look_read|].
  destruct (match_reader s c A W T) as [E _]. rewrite E, (proj1 A o mine). split; [reflexivity|].
  destruct (first_match (as_reader o c) _ _); [apply K|]. apply l_pulk. intros L3. apply l_shm. intros a. destruct (a =? 0).
  - apply l_state; auto.
  - apply l_plock. intros L4. apply l_fine; [intros; apply keeps_drop|]. intros s1 c1 A1 W1 T1. split; [|auto].
    apply fine_on; auto using fine_erase, wfo_state.
Qed.

Lemma fine_writer : forall s c, agree own t s c -> WF c -> fine s c (as_writer o s) (as_writer o c).
Proof. intros s c A W. unfold as_writer. apply fine_on; auto using fine_refl, wfo_type. Qed.
Lemma look_agree : forall s c, agree own t s c -> WF c -> o_tid (s_obj c o) = t ->
  forall rs ks w, look o c = (rs, ks, w) ->
  look o s = (rs, of_thread own t ks, w) /\ (forall i, In i rs -> own i = t) /\
  (forall i, w = Some i -> own i = t) /\ forall u, u <> t -> of_thread own u ks = of_thread own u (s_stack c).
Proof.
  intros s c A W T rs ks w E. destruct (fine_writer s c A W) as (A1 & W1 & _ & T1). unfold look in *.
  rewrite (proj1 A1 o mine), (proj2 (proj2 A1)). apply (scan_filter t (as_writer o s) (as_writer o c)); auto. now rewrite T1.
Qed.
Lemma keeps_look_write : forall s, keeps true s (look_write o s).
Proof.
  intros s. unfold look_write. destruct (look o s) as [[rs ks] w]. cbv zeta.
  assert (E : keeps true s (set_stack (as_writer o s) ks)) by (eapply keeps_after; [apply keeps_on|apply keeps_stack]).
  destruct w.
  - eapply keeps_before; [|apply keeps_on]. eapply keeps_before; [|apply keeps_on]. exact E.
  - eapply keeps_twice; [exact E|apply keeps_stack].
Qed.
Lemma fine_look_write : forall s c, agree own t s c -> WF c -> o_tid (s_obj c o) = t -> fine s c (look_write o s) (look_write o c).
Proof.
  intros s c A W T. unfold look_write. destruct (look o c) as [[rs ks] w] eqn:E.
  destruct (look_agree s c A W T _ _ _ E) as (-> & R & WO & U). cbv zeta.
  assert (F : fine s c (set_stack (as_writer o s) (of_thread own t ks)) (set_stack (as_writer o c) ks)).
  { apply fine_stack; auto using fine_writer. }
  destruct w as [i|].
  - specialize (WO i eq_refl). apply fine_on; auto.
    + apply fine_on; auto. intros V. apply wfo_master; [exact V|]. intros y Y. injection Y as <-. congruence.
    + intros V. apply wfo_push; [exact V|congruence].
  - apply fine_stack; [exact F|rewrite filter_push by auto; reflexivity|]. intros u Q. now apply (filter_push_other t).
Qed.

Lemma keeps_pend_reader : forall i s, keeps false s (pend_reader o i s).
Proof.
  intros i s. unfold pend_reader. cbv zeta. eapply keeps_trans; [|apply keeps_on]. eapply keeps_trans; [|apply keeps_move].
  eapply keeps_trans; apply keeps_on.
Qed.
Lemma fine_pend_reader : forall i s c, own i = t -> agree own t s c -> WF c -> fine s c (pend_reader o i s) (pend_reader o i c).
Proof.
  intros i s c I A W. unfold pend_reader. cbv zeta.
  assert (F : fine s c (on (on s i (fun b => w_master (w_state b true false) (Some o))) o (fun b => w_pend b (o_pend b ++ [i])))
                       (on (on c i (fun b => w_master (w_state b true false) (Some o))) o (fun b => w_pend b (o_pend b ++ [i])))).
  { apply fine_on; auto.
    - apply fine_on; auto using fine_refl. intros V. apply wfo_master; [exact V|]. intros y Y. injection Y as <-. congruence.
    - intros V. apply wfo_push; [exact V|congruence]. }
  apply fine_on; auto.
  - rewrite (fine_obj _ _ _ _ i F I). apply fine_move; auto. intros y Y. destruct F as (_ & W1 & _). eapply WF_pend; eauto.
  - intros V. apply wfo_pend; [exact V|]. intros y [].
Qed.

Lemma l_take : forall rs L k, (forall i, In i rs -> own i = t) -> (forall L, local t o (k L)) -> local t o (ptake o rs L k).
Proof.
  induction rs as [|i r IH]; intros L k R K; [apply K|]. cbn [ptake].
  assert (I : own i = t) by (apply R; now left).
  assert (N : local t o (PAct false (pend_reader o i) (fun _ => ptake o r L k))).
  { apply l_fine; [apply keeps_pend_reader|]. intros s c A W T. split; [now apply fine_pend_reader|]. split; [reflexivity|].
    apply IH; auto. intros j J. apply R. now right. }
  apply l_nop. intros s c A W T. rewrite (proj1 A i I). split; [reflexivity|]. destruct (_ && _); [|exact N]. apply l_shm. auto.
Qed.

Lemma l_relock : forall l L k, (forall i, In i l -> own i = t) -> (forall L, local t o (k L)) -> local t o (prelock l L k).
Proof.
  induction l as [|i r IH]; intros L k R K; [apply K|]. cbn [prelock].
  assert (I : own i = t) by (apply R; now left).
  assert (N : local t o (prelock r L k)) by (apply IH; auto; intros j J; apply R; now right).
  apply l_fine; [intros s; apply keeps_on|]. intros s c A W T. rewrite (proj1 A i I). split; [|split; [reflexivity|]].
  - apply fine_on; auto using fine_refl. intros V. apply wfo_master; [exact V|discriminate].
  - destruct (is_unl _); [exact N|now apply l_lck].
Qed.

Lemma l_write : forall L k, (forall b L, local t o (k b L)) -> local t o (pRawWriteLock o L k).
Proof.
  intros L k K. unfold pRawWriteLock. cbv zeta. apply l_nop. intros s c A W T. rewrite (proj1 A o mine).
  assert (E : match o_master (s_obj c o) with Some m => is_wr (o_type (s_obj s m)) | None => false end =
              match o_master (s_obj c o) with Some m => is_wr (o_type (s_obj c m)) | None => false end).
  { destruct (o_master (s_obj c o)) as [m|] eqn:M; [|reflexivity].
    rewrite (proj1 A m); [reflexivity|]. now apply (WF_master c o). }
  rewrite E. split; [reflexivity|].
  destruct (_ && _); [apply K|]. destruct (_ && _ && _).
  { apply l_fine; [intros; apply keeps_on|]. intros s1 c1 A1 W1 T1. split; [|auto]. apply fine_on; auto using fine_refl, wfo_type. }
  generalize (is_rd (o_type (s_obj c o)) && o_locked (s_obj c o)). clear - K pos mine. intros e.
  apply l_plock. intros L1. apply l_unlock_if. intros [] L2; cbn [negb]; [|apply K].
  apply l_fine; [exact keeps_look_write|]. intros s c A W T. split; [now apply fine_look_write|].
  destruct (look o c) as [[rs ks] w] eqn:E. destruct (look_agree s c A W T _ _ _ E) as (-> & R & WO & _). split; [reflexivity|].
  destruct w; [apply K|]. apply l_pulk. intros L3. apply l_take; [exact R|]. intros L4. clear - K pos mine.
  apply l_nop. intros s c A W T. rewrite (proj1 A o mine). split; [reflexivity|].
  apply l_shm. intros a. destruct (a =? 0); [apply l_state; auto|].
  apply l_plock. intros L5. apply l_fine; [intros; apply keeps_stack|]. intros s1 c1 A1 W1 T1. split; [now apply fine_erase|].
  rewrite (proj1 A1 o mine). split; [reflexivity|]. apply l_relock; [intros i I; now apply (WF_pend c1 o)|].
  intros L6. apply l_fine; [intros; eapply keeps_trans; apply keeps_on|]. intros s2 c2 A2 W2 T2. split; [|auto].
  apply fine_on; auto using wfo_state. apply fine_on; auto using fine_refl. intros V. apply wfo_pend; [exact V|]. intros y [].
Qed.

Lemma l_rawlock : forall rd L k, (forall b L, local t o (k b L)) -> local t o (pRawLock o rd L k).
Proof. intros [] L k K; [now apply l_read|now apply l_write]. Qed.
Lemma l_fin : forall b L, local t o (pfin b L).
Proof. intros b L. apply l_pulk. intros. constructor. Qed.
End Thread.

Lemma local_prog : forall p t, 0 < t -> own (target p) = t -> local t (target p) (prog_of p).
Proof.
  intros p t P O. destruct p; cbn [prog_of target] in *.
  - constructor.
  - destruct (_ =? _); [constructor|]. apply l_rawlock; auto using l_fin.
  - apply l_unlock; auto. intros b L. apply l_pulk; auto. intros L1. apply l_act.
    + intros s. repeat split. cbn. now rewrite orb_false_r.
    + intros s c A W T. split; [|split; [reflexivity|]].
      * apply (agree_on t s c o (fun _ => dead_obj) (fun _ => dead_obj)); auto.
      * split; [|split; [|split; [right; eauto|constructor]]].
        -- apply (WF_on c o (fun _ => dead_obj)); [exact W|]. split; [right; split; reflexivity|]. split; [discriminate|intros y []].
        -- apply (frame_on t c o (fun _ => dead_obj) O).
  - apply l_unlock; auto. intros [] L; cbn [negb]; [|now apply l_fin]. apply l_fine; auto.
    + intros; apply keeps_on.
    + intros s c A W T. split; [|split; [reflexivity|]]; [|apply l_rawlock; auto using l_fin].
      apply fine_on; auto using fine_refl.
  - apply l_rawlock; auto using l_fin.
  - apply l_nop; auto. intros s c A W T. rewrite (proj1 A o O). split; [reflexivity|].
    destruct (o_type _); [constructor|apply l_read|apply l_write]; auto using l_fin.
  - apply l_read; auto using l_fin.
  - apply l_write; auto using l_fin.
  - apply l_unlock; auto using l_fin.
Qed.
End Own.
