(** Proofs for C162. *)
From Coq Require Import ZArith List Bool Lia.
From Verif Require Import Base Wake_Model Wake_Spec.
Import ListNotations.
Open Scope Z_scope.

Lemma ltb_pos : forall n, (0 <? Z.of_nat n) = true <-> (0 < n)%nat. Proof. intro n. rewrite Z.ltb_lt. lia. Qed.
Lemma ltb_zero : forall n, (0 <? Z.of_nat n) = false <-> n = O. Proof. intro n. rewrite Z.ltb_ge. lia. Qed.

(** an unread event will be read *)
Record J (s : wsys) : Prop := mkJ {
  j_q : (0 < w_q s)%nat -> w_edge s = true \/ w_pc s = WEv \/ w_pc s = WRead \/ w_pc s = WEnd \/ w_flag s = EXIT;
  j_off : w_pc s = WOff -> w_q s = O;
  j_end : w_pc s = WEnd -> w_flag s = EXIT }.
Lemma J_step : forall s x, J s -> reads s x -> J (w_step s x).
Proof.
  intros s x [A B C] OK. destruct x as [fail|f|l|l|pid merged|pid|pid thr|merged|pid]; cbn [w_step].
  - cbn in OK. subst fail. unfold w_work. destruct (w_pc s) as [| | | |[|l r]|] eqn:EP; cbn.
    + constructor; cbn; try discriminate. rewrite (B eq_refl). lia.
    + destruct (w_flag s) eqn:EF; [constructor; rewrite ?EP; auto; try discriminate | | constructor; cbn; try discriminate; auto].
      * rewrite EF. auto.
      * destruct (w_edge s) eqn:EE; [|constructor; rewrite ?EP, ?EF, ?EE; auto; discriminate]. destruct (0 <? Z.of_nat (w_q s)) eqn:Q; constructor; cbn; try discriminate; auto.
        apply ltb_zero in Q. rewrite Q. lia.
    + destruct (w_flag s) eqn:EF; constructor; cbn; rewrite ?EF; try discriminate; auto.
    + destruct (0 <? Z.of_nat (w_q s)) eqn:Q; constructor; cbn; try discriminate; try lia; apply ltb_zero in Q; rewrite Q; lia.
    + constructor; cbn; try discriminate. intro Q. destruct (A Q) as [?|[?|[?|[?|?]]]]; auto; discriminate.
    + destruct (dead s l); constructor; cbn; try discriminate; intro Q; destruct (A Q) as [?|[?|[?|[?|?]]]]; auto; discriminate.
    + constructor; rewrite ?EP; auto; discriminate.
  - destruct (w_flag s) eqn:EF; [| |constructor; auto; rewrite EF; auto]; constructor; cbn; auto; try (intro Q; destruct (A Q) as [?|[?|[?|[?|?]]]]; auto; try discriminate; congruence); intro Q; specialize (C Q); discriminate.
  - destruct (runs s (l_pid l) (l_thr l)); constructor; auto.
  - destruct (_ || _); constructor; auto.
  - destruct (w_life s pid); [|constructor; auto|constructor; auto]. unfold post. cbn. destruct (w_pc s) eqn:EP; try (constructor; cbn; rewrite ?EP; auto; fail); destruct (merged && _); constructor; cbn; rewrite ?EP; auto; try discriminate.
  - destruct (w_life s pid); constructor; auto.
  - destruct (w_life s pid); constructor; auto.
  - unfold post. destruct (w_pc s) eqn:EP; try (constructor; cbn; rewrite ?EP; auto; fail); destruct (merged && _); constructor; cbn; rewrite ?EP; auto; try discriminate.
  - destruct (w_life s pid); constructor; auto.
Qed.
Lemma J_reach : forall (ok : wsys -> wlabel -> Prop) s, (forall s x, ok s x -> reads s x) -> w_reach ok s -> J s.
Proof. intros ok s O R. induction R as [|s x R IH H]; [constructor; cbn; auto; try lia; discriminate | apply J_step; auto]. Qed.

(** ** The worker alone *)
Lemma alone_add : forall n m s, alone (n + m) s = alone m (alone n s).
Proof. induction n; intros m s; cbn; auto. Qed.
Definition quiet (s : wsys) : Prop := w_pc s = WTop /\ w_q s = O /\ w_edge s = false.
Lemma quiet_work : forall s, quiet s -> w_flag s = RUN -> w_work s false = s.
Proof. intros s (A & B & C) F. unfold w_work. rewrite A, F, C. auto. Qed.
Lemma quiet_stays : forall n s, quiet s -> w_flag s = RUN -> alone n s = s.
Proof. induction n; intros s Q F; cbn; auto. rewrite quiet_work by auto. auto. Qed.
Lemma work_frame : forall s fail, w_life (w_work s fail) = w_life s /\ w_thr (w_work s fail) = w_thr s /\ w_flag (w_work s fail) = w_flag s /\ incl (w_locks (w_work s fail)) (w_locks s).
Proof.
  intros s fail. unfold w_work. destruct (w_pc s) as [| | | |[|l r]|]; cbn; try (repeat split; auto using incl_refl; fail).
  - destruct (w_flag s) eqn:F; cbn; repeat split; auto using incl_refl; destruct (w_edge s); cbn; auto using incl_refl.
  - destruct (w_flag s) eqn:F; cbn; repeat split; auto using incl_refl.
  - destruct fail; cbn; repeat split; auto using incl_refl; destruct (0 <? _); cbn; auto using incl_refl.
  - destruct (dead s l); cbn; repeat split; auto using incl_refl. intros x X. apply in_remove in X as [X _]. auto.
Qed.
Lemma dead_frame : forall s s' l, w_life s' = w_life s -> w_thr s' = w_thr s -> dead s' l = dead s l.
Proof. intros s s' l A B. unfold dead. rewrite A, B. auto. Qed.
Lemma alone_frame : forall n s, w_life (alone n s) = w_life s /\ w_thr (alone n s) = w_thr s /\ w_flag (alone n s) = w_flag s /\ incl (w_locks (alone n s)) (w_locks s).
Proof.
  induction n; intro s; cbn; [auto using incl_refl|]. destruct (IHn (w_work s false)) as (A & B & C & D). destruct (work_frame s false) as (A' & B' & C' & D').
  repeat split; try congruence. apply (incl_tran D D').
Qed.
Lemma alone_J : forall n s, J s -> J (alone n s).
Proof. induction n; intros s H; cbn; auto. apply IHn. apply (J_step s (LWork false)); cbn; auto. Qed.
(** a pass removes what it finds dead *)
Lemma pass_runs : forall r s, w_pc s = WPass r -> exists n, w_pc (alone n s) = WTop /\ w_q (alone n s) = w_q s /\ w_edge (alone n s) = w_edge s /\ (forall l, In l r -> dead s l = true -> ~ In l (w_locks (alone n s))).
Proof.
  induction r as [|l r IH]; intros s P.
  - exists 1%nat. cbn. unfold w_work. rewrite P. cbn. repeat split; auto.
  - assert (P1 : w_pc (w_work s false) = WPass r) by (unfold w_work; rewrite P; cbn; destruct (dead s l); auto).
    assert (Q1 : w_q (w_work s false) = w_q s /\ w_edge (w_work s false) = w_edge s) by (unfold w_work; rewrite P; cbn; destruct (dead s l); auto).
    destruct (IH _ P1) as (n & A & B & C & D). destruct (work_frame s false) as (F1 & F2 & _ & F4). exists (S n). cbn. destruct Q1 as [Q1 Q2]. repeat split; try congruence.
    intros l0 [<-|I] DD; [|apply D; auto; rewrite (dead_frame s); auto]. intro X. destruct (alone_frame n (w_work s false)) as (_ & _ & _ & I4). apply I4 in X.
    unfold w_work in X. rewrite P in X. cbn in X. rewrite DD in X. cbn in X. apply in_remove in X as [_ X]. auto.
Qed.
(** from the head of the loop *)
Lemma top_runs : forall s, J s -> w_flag s = RUN -> w_pc s = WTop -> exists n, quiet (alone n s) /\ ((0 < w_q s)%nat -> forall l, In l (w_locks s) -> dead s l = true -> ~ In l (w_locks (alone n s))).
Proof.
  intros s JJ F P. destruct (w_q s) eqn:Q.
  - destruct (w_edge s) eqn:E.
    + exists 1%nat. cbn. unfold w_work. rewrite P, F, E, Q. cbn. split; [|lia]. repeat split.
    + exists O. cbn. split; [repeat split; auto | lia].
  - assert (E : w_edge s = true) by (destruct (j_q s JJ) as [?|[?|[?|[?|?]]]]; auto; try lia; congruence).
    set (s3 := mkW (w_life s) (w_thr s) (w_locks s) (w_flag s) (WPass (w_locks s)) 0 false).
    assert (A3 : alone 3 s = s3).
    { assert (W1 : w_work s false = mkW (w_life s) (w_thr s) (w_locks s) (w_flag s) WEv (w_q s) false) by (unfold w_work; rewrite P, F, E, Q; reflexivity).
      cbn [alone]. rewrite W1, F. unfold s3. rewrite F, Q. reflexivity. }
    destruct (pass_runs (w_locks s) s3 eq_refl) as (k & B1 & B2 & B3 & B4). exists (3 + k)%nat. rewrite alone_add, A3. split; [split; [auto | split; [rewrite B2; auto | rewrite B3; auto]]|].
    intros _ l I D. apply B4; auto.
Qed.
Lemma any_runs : forall s, J s -> w_flag s = RUN -> exists n, quiet (alone n s) /\ ((0 < w_q s)%nat -> forall l, In l (w_locks s) -> dead s l = true -> ~ In l (w_locks (alone n s))).
Proof.
  intros s JJ F.
  (* it is enough to get to the head of the loop, with the event still unread or the pass done *)
  assert (K : forall k, w_pc (alone k s) = WTop -> (w_q (alone k s) = w_q s \/ (forall l, In l (w_locks s) -> dead s l = true -> ~ In l (w_locks (alone k s)))) ->
              exists n, quiet (alone n s) /\ ((0 < w_q s)%nat -> forall l, In l (w_locks s) -> dead s l = true -> ~ In l (w_locks (alone n s)))).
  { intros k P H. destruct (alone_frame k s) as (F1 & F2 & F3 & F4). destruct (top_runs (alone k s) (alone_J k s JJ) (eq_trans F3 F) P) as (n & Q & D). exists (k + n)%nat. rewrite alone_add. split; auto.
    intros QQ l I DD. destruct H as [H|H].
    - intro X. assert (IN : In l (w_locks (alone k s))) by (destruct (alone_frame n (alone k s)) as (_ & _ & _ & G); auto). revert X. apply D; auto; [rewrite H; auto | rewrite (dead_frame s); auto].
    - intro X. destruct (alone_frame n (alone k s)) as (_ & _ & _ & G). apply G in X. revert X. apply H; auto. }
  assert (RD : forall t, w_pc t = WRead -> w_flag t = RUN -> exists k, w_pc (alone k t) = WTop /\ (w_q (alone k t) = w_q t \/ (forall l, In l (w_locks t) -> dead t l = true -> ~ In l (w_locks (alone k t))))).
  { intros t P FT. destruct (w_q t) eqn:Q.
    - exists 1%nat. cbn. unfold w_work. rewrite P, Q. cbn. auto.
    - set (t1 := mkW (w_life t) (w_thr t) (w_locks t) (w_flag t) (WPass (w_locks t)) 0 (w_edge t)).
      assert (A1 : alone 1 t = t1) by (cbn [alone]; unfold w_work; rewrite P, Q; reflexivity).
      destruct (pass_runs (w_locks t) t1 eq_refl) as (k & B1 & B2 & B3 & B4). exists (1 + k)%nat. rewrite alone_add, A1. split; [exact B1|]. right. intros l I D. apply B4; auto. }
  destruct (w_pc s) as [| | | |r|] eqn:EP.
  - apply (K 1%nat); cbn; unfold w_work; rewrite EP; cbn; auto.
  - apply (K O); cbn; auto.
  - assert (E1 : w_work s false = set_pc s WRead) by (unfold w_work; rewrite EP, F; auto). destruct (RD (set_pc s WRead) eq_refl F) as (k & P & H). apply (K (S k)); cbn; rewrite E1; auto.
  - destruct (RD s EP F) as (k & P & H). apply (K k); auto.
  - destruct (pass_runs r s EP) as (n & B1 & B2 & B3 & B4). apply (K n); auto.
  - pose proof (j_end s JJ EP). congruence.
Qed.

(** ** Locks that the close event is enough for *)
(** [by_fd]: only locks that are looked up by descriptor; otherwise all of them *)
Definition sure (by_fd : bool) (l : lck) : Prop := by_fd = true -> l_by l = ByFd.
Record Tr (by_fd : bool) (s : wsys) : Prop := mkTr {
  tr_end : forall l, sure by_fd l -> In l (w_locks s) -> w_life s (l_pid l) <> Running -> (0 < w_q s)%nat \/ (exists r, w_pc s = WPass r /\ In l r) \/ w_pc s = WEnd;
  tr_off : w_pc s = WOff -> forall pid, w_life s pid = Running }.
Lemma Tr_step : forall b s x, Tr b s -> reads s x -> watched s x -> (b = false -> prompt s x) -> Tr b (w_step s x).
Proof.
  intros b s x [A B] OK1 OK2 OK3. destruct x as [fail|f|l|l|pid merged|pid|pid thr|merged|pid]; cbn [w_step].
  - cbn in OK1. subst fail. unfold w_work. destruct (w_pc s) as [| | | |[|l r]|] eqn:EP; cbn.
    + constructor; cbn; try discriminate. intros l _ _ N. destruct N. apply B; auto.
    + destruct (w_flag s) eqn:EF.
      * constructor; rewrite ?EP; auto.
      * destruct (w_edge s) eqn:EE; [|constructor; rewrite ?EP; auto]. constructor; cbn; [|destruct (0 <? _); discriminate].
        intros l S I N. destruct (A l S I N) as [Q|[(r & Q & _)|Q]]; auto; discriminate.
      * constructor; cbn; try discriminate. auto.
    + constructor; [|destruct (w_flag s); cbn; discriminate]. intros l S I N. left. destruct (w_flag s); cbn in *; destruct (A l S I N) as [Q|[(r & Q & _)|Q]]; auto; discriminate.
    + destruct (0 <? Z.of_nat (w_q s)) eqn:Q; constructor; cbn; try discriminate.
      * intros l S I N. right. left. eauto.
      * intros l S I N. left. destruct (A l S I N) as [Q'|[(r & Q' & _)|Q']]; auto; discriminate.
    + constructor; cbn; try discriminate. intros l S I N. destruct (A l S I N) as [Q|[(r & Q & X)|Q]]; auto; [inversion Q; subst r; destruct X | discriminate].
    + destruct (dead s l) eqn:D; constructor; cbn; try discriminate.
      * intros l0 S I N. apply in_remove in I as [I NE]. destruct (A l0 S I N) as [Q|[(r0 & Q & X)|Q]]; auto; [|discriminate]. inversion Q; subst r0. destruct X as [X|X]; [congruence|]. right. left. eauto.
      * intros l0 S I N. destruct (A l0 S I N) as [Q|[(r0 & Q & X)|Q]]; auto; [|discriminate]. inversion Q; subst r0. destruct X as [X|X]; [|right; left; eauto].
        subst l0. exfalso. unfold dead in D. unfold sure in S. destruct b.
        -- rewrite (S eq_refl) in D. destruct (w_life s (l_pid l)); auto; discriminate.
        -- specialize (OK3 eq_refl). cbn in OK3. assert (W : w_life s (l_pid l) <> Closed) by (apply OK3; eauto). destruct (w_life s (l_pid l)); auto. destruct (l_by l); discriminate.
    + constructor; rewrite ?EP; auto; discriminate.
  - destruct (w_flag s); constructor; cbn; auto.
  - destruct (runs s (l_pid l) (l_thr l)) eqn:R; constructor; cbn; auto. intros l0 S [<-|I] N; [|apply (A l0 S I N)]. unfold runs in R. destruct (w_life s (l_pid l)); try discriminate. destruct N. auto.
  - destruct (_ || _); constructor; cbn; auto. intros l0 S I N. apply in_remove in I as [I _]. apply (A l0 S I N).
  - destruct (w_life s pid) eqn:EL; [|constructor; auto|constructor; auto]. cbn in OK2. unfold post. cbn. destruct (w_pc s) eqn:EP; [congruence| | | | |];
      (destruct (merged && (0 <? Z.of_nat (w_q s))) eqn:M; [apply andb_true_iff in M as [_ M]; apply ltb_pos in M|]; constructor; cbn; rewrite ?EP; auto; try discriminate; intros; left; lia).
  - destruct (w_life s pid) eqn:EL; constructor; cbn; auto.
    + intros l S I N. apply (A l S I). destruct (Z.eq_dec (l_pid l) pid) as [E|NE]; [rewrite E, EL; discriminate | rewrite upd_neq in N by auto; auto].
    + intros P q. pose proof (B P pid). congruence.
  - destruct (w_life s pid) eqn:EL; constructor; cbn; auto.
  - unfold post. destruct (w_pc s) eqn:EP; try (constructor; rewrite ?EP; auto; fail);
      (destruct (merged && (0 <? Z.of_nat (w_q s))) eqn:M; [constructor; rewrite ?EP; auto; discriminate|]; constructor; cbn; rewrite ?EP; auto; try discriminate; intros; left; lia).
  - destruct OK2.
Qed.
Lemma Tr_reach : forall b (ok : wsys -> wlabel -> Prop) s, (forall s x, ok s x -> reads s x /\ watched s x /\ (b = false -> prompt s x)) -> w_reach ok s -> Tr b s.
Proof.
  intros b ok s O R. induction R as [|s x R IH H]; [constructor; cbn; auto; intros l _ [] | destruct (O s x H) as (A & B & C); apply Tr_step; auto].
Qed.
Lemma alone_Tr : forall b n s, Tr b s -> (b = false -> forall pid, w_life s pid <> Closed) -> Tr b (alone n s).
Proof.
  induction n; intros s T P; cbn; auto. destruct (work_frame s false) as (F & _). apply IHn.
  - apply (Tr_step b s (LWork false)); cbn; auto.
  - intros B pid. rewrite F. auto.
Qed.
Lemma sure_cleared : forall b s, J s -> Tr b s -> (b = false -> forall pid, w_life s pid <> Closed) -> w_flag s = RUN -> cleared s (fun l => sure b l /\ w_life s (l_pid l) <> Running).
Proof.
  intros b s JJ T P F. destruct (any_runs s JJ F) as (n & Q & _). exists n. intros m l [S N] I. rewrite alone_add in I. destruct (alone_frame n s) as (F1 & _ & F3 & _).
  rewrite quiet_stays in I by (auto; congruence). destruct Q as (Q1 & Q2 & Q3). rewrite <- F1 in N. destruct (tr_end b _ (alone_Tr b n s T P) l S I N) as [X|[(r & X & _)|X]]; [lia|congruence|congruence].
Qed.
(** the next event, whoever it comes from *)
Lemma event_clears : forall s, J s -> w_flag s = RUN -> (0 < w_q s)%nat -> cleared s (fun l => dead s l = true).
Proof.
  intros s JJ F Q. destruct (any_runs s JJ F) as (n & QQ & D). exists n. intros m l DD I. rewrite alone_add in I. destruct (alone_frame n s) as (F1 & _ & F3 & F4).
  rewrite quiet_stays in I by (auto; congruence). assert (X : In l (w_locks s)) by auto. revert I. apply D; auto.
Qed.
