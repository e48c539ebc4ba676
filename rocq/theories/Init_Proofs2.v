(** Content of the file and success of start-up, without crashes and failing system calls. *)
From Coq Require Import ZArith List Bool Lia.
From Verif Require Import Base Init_Model Init_Spec Init_Proofs.
Import ListNotations.
Open Scope Z_scope.

Definition in_init (x : ipc) : Prop := match x with ITrunc | IFill | IMap | IHead | ILists | IDown => True | _ => False end.

Record inv2 (s : istate) : Prop := mkInv2 {
  w_rd : i_rd s <> [] -> i_file s = FReady;
  w_read : forall t n, i_pc s t = IRead n -> i_file s = FReady \/ exists q, i_wr s = Some q;
  w_wr : forall p, i_wr s = Some p -> exists t, proc t = p /\ in_init (i_pc s t);
  w_down : forall t, i_pc s t = IDown -> i_file s = FReady;
  w_no : i_exists s = false -> i_rd s = [] /\ i_wr s = None /\ forall p, i_fd s p = false;
  w_open : forall t, i_pc s t = IOpen -> i_exists s = true
}.

Lemma inv2_init : inv2 i_init.
Proof. constructor; simpl; auto; try discriminate. congruence. Qed.

(** a step that touches neither content nor locks *)
Lemma inv2_quiet : forall s s', inv2 s -> i_rd s' = i_rd s -> i_wr s' = i_wr s -> i_file s' = i_file s -> i_exists s' = i_exists s ->
  (forall t, i_pc s' t = i_pc s t \/ (~ in_init (i_pc s t) /\ i_pc s' t <> IDown /\
     (forall n, i_pc s' t = IRead n -> i_file s = FReady \/ exists q, i_wr s = Some q) /\ (i_pc s' t = IOpen -> i_exists s = true)) \/
     (in_init (i_pc s t) /\ in_init (i_pc s' t) /\ i_pc s' t <> IDown)) ->
  (i_exists s = false -> forall p, i_fd s' p = false) -> inv2 s'.
Proof.
  intros s s' [W1 W2 W3 W4 W5 W6] E1 E2 E3 E4 PC FD. constructor; rewrite ?E1, ?E2, ?E3, ?E4; auto.
  - intros t n H. destruct (PC t) as [X|[(X & Y & Z & O)|(X & Y & Z)]]; eauto; [rewrite X in H; eauto|]. rewrite H in Y. contradiction.
  - intros p H. destruct (W3 p H) as (t & T & I). exists t. split; auto. destruct (PC t) as [X|[(X & Y & Z & O)|(X & Y & Z)]]; auto; [rewrite X; auto | contradiction].
  - intros t H. destruct (PC t) as [X|[(X & Y & Z & O)|(X & Y & Z)]]; [rewrite X in H; eauto | congruence | congruence].
  - intro H. destruct (W5 H) as (A & B & C). auto.
  - intros t H. destruct (PC t) as [X|[(X & Y & Z & O)|(X & Y & Z)]]; [rewrite X in H; eauto | auto | rewrite H in Y; contradiction].
Qed.

Ltac pcs t := let u := fresh "u" in intro u; icbn; destruct (Z.eq_dec u t) as [->|?];
  [rewrite ?upd_eq | rewrite ?upd_neq by auto; left; auto].

Lemma fd_exists : forall s p, inv2 s -> i_fd s p = true -> i_exists s = true.
Proof. intros s p W F. destruct (i_exists s) eqn:E; auto. destruct (w_no s W E) as (_ & _ & H). rewrite H in F. discriminate. Qed.

Lemma inv2_step : forall s x, inv s -> inv2 s -> one_at_a_time s x -> no_deaths s x -> no_failures s x -> inv2 (i_step s x).
Proof.
  intros s x V W OK ND NF. destruct x as [p|p|t q|t c|t fail]; cbn [i_step].
  - destruct (i_alive s p); auto. apply (inv2_quiet s); auto. apply W.
  - contradiction.
  - destruct (i_alive s (proc t)) eqn:A; auto. destruct (negb (i_alive s q)); auto. cbn [andb]. destruct (i_pc s t) eqn:PC; auto.
    apply (inv2_quiet s); auto. icbn. intros E p. destruct (w_no s W E) as (_ & _ & H). destruct (Z.eq_dec p q) as [->|N]; [rewrite upd_eq; auto | rewrite upd_neq by auto; auto].
  - destruct (i_alive s (proc t)); auto. destruct (i_pc s t) eqn:PC; auto.
    assert (Q : forall x, ~ in_init x -> (forall n, x <> IRead n) -> x <> IOpen -> forall s', i_rd s' = i_rd s -> i_wr s' = i_wr s -> i_file s' = i_file s ->
        i_exists s' = i_exists s -> i_fd s' = i_fd s -> i_pc s' = upd (i_pc s) t x -> inv2 s').
    { intros x NI NR NO s' E1 E2 E3 E4 E5 E6. apply (inv2_quiet s); auto.
      - intro u. rewrite E6. destruct (Z.eq_dec u t) as [->|N]; [rewrite upd_eq | rewrite upd_neq by auto; auto]. right. left. rewrite PC.
        split; [auto|]. split; [intros ->; auto|]. split; [intros n R; exfalso; eapply NR; eauto | congruence].
      - rewrite E5. apply W. }
    destruct c as [| |retry]; cbn [i_call]; destruct (i_fd s (proc t)); [apply (Q IIdle) | apply (Q IOpenX) | apply (Q (IDet1 true)) | apply (Q IIdle) | apply (Q IUse) |]; auto; try discriminate.
    destruct retry; [apply (Q IOpenX) | apply (Q IIdle)]; auto; try discriminate.
  - destruct (i_alive s (proc t)) eqn:A; auto. destruct fail; [contradiction|]. clear NF ND OK.
    pose proof (v_pok s V t) as PK. unfold pok in PK. unfold i_run.
    assert (OT : busy (i_pc s t) -> forall u, proc u = proc t -> u <> t -> i_pc s u = IIdle).
    { intros B u U N. apply (v_one s V t u); auto. }
    assert (NW : busy (i_pc s t) -> ~ in_init (i_pc s t) -> i_wr s <> Some (proc t)).
    { intros B NI E. destruct (w_wr s W _ E) as (u & U & I). destruct (Z.eq_dec u t) as [->|N]; auto. rewrite (OT B u U N) in I. contradiction. }
    assert (Q : forall x, ~ in_init (i_pc s t) -> ~ in_init x -> (forall n, x = IRead n -> i_file s = FReady \/ exists q, i_wr s = Some q) ->
        (x = IOpen -> i_exists s = true) -> forall s', i_rd s' = i_rd s -> i_wr s' = i_wr s -> i_file s' = i_file s ->
        i_exists s' = i_exists s -> (i_exists s = false -> forall p, i_fd s' p = false) -> i_pc s' = upd (i_pc s) t x -> inv2 s').
    { intros x NI NX RD OP s' E1 E2 E3 E4 E5 E6. apply (inv2_quiet s); auto.
      intro u. rewrite E6. destruct (Z.eq_dec u t) as [->|N]; [rewrite upd_eq | rewrite upd_neq by auto; auto]. right. left.
      split; [auto|]. split; [intros ->; apply NX; exact I|]. split; auto. }
    assert (NOF : i_fd s (proc t) = true -> i_exists s = false -> forall P, P).
    { intros F E. pose proof (fd_exists s _ W F). congruence. }
    assert (WRL : forall s', i_fd s (proc t) = true -> i_wr s' = Some (proc t) -> i_rd s' = [] -> i_file s' = i_file s -> i_exists s' = i_exists s ->
        i_pc s' = upd (i_pc s) t ITrunc -> inv2 s').
    { intros s' F E1 E2 E3 E4 E5. constructor; rewrite ?E1, ?E2, ?E3, ?E4, ?E5.
      - congruence.
      - intros u m H. right. eauto.
      - intros p H. inversion H; subst. exists t. rewrite upd_eq. split; auto. exact I.
      - intros u H. destruct (Z.eq_dec u t) as [->|N]; [rewrite upd_eq in H; discriminate|]. rewrite upd_neq in H by auto. apply (w_down s W u H).
      - intro E. apply (NOF F E).
      - intros u H. destruct (i_exists s) eqn:E; auto. apply (NOF F eq_refl). }
    assert (INI : forall x s', busy (i_pc s t) -> i_wr s = Some (proc t) -> i_fd s (proc t) = true -> in_init x -> (x = IDown -> i_file s' = FReady) ->
        i_wr s' = i_wr s -> i_rd s' = i_rd s -> i_exists s' = true -> i_pc s' = upd (i_pc s) t x -> inv2 s').
    { intros x s' BT WR F IX DX E1 E2 E3 E4. constructor; rewrite ?E1, ?E2, ?E3, ?E4.
      - intro R. exfalso. apply R. apply (v_excl s V _ WR).
      - intros u m H. right. eauto.
      - intros p H. exists t. rewrite upd_eq. split; auto. congruence.
      - intros u H. destruct (Z.eq_dec u t) as [->|N]; [rewrite upd_eq in H; auto|]. rewrite upd_neq in H by auto. exfalso.
        pose proof (v_pok s V u) as PU. unfold pok in PU. rewrite H in PU. destruct PU as (_ & _ & PU).
        rewrite (OT BT u) in H; [discriminate | congruence | auto].
      - discriminate.
      - auto. }
    assert (DR : forall s', ~ in_init (i_pc s t) -> i_fd s (proc t) = true -> i_wr s <> Some (proc t) -> i_wr s' = (if opt_is (i_wr s) (proc t) then None else i_wr s) ->
        i_rd s' = without (proc t) (i_rd s) -> i_file s' = i_file s -> i_exists s' = i_exists s ->
        (exists x, i_pc s' = upd (i_pc s) t x /\ ~ in_init x /\ x <> IOpen /\ forall n, x <> IRead n) -> inv2 s').
    { intros s' NI F NWR E1 E2 E3 E4 (x & E5 & X1 & X2 & X3).
      assert (E1' : i_wr s' = i_wr s). { rewrite E1. unfold opt_is. destruct (i_wr s) as [w|]; auto. destruct (Z.eqb_spec w (proc t)); congruence. }
      constructor; rewrite ?E1', ?E2, ?E3, ?E4, ?E5.
      - intro R. apply W. intro E. rewrite E in R. apply R. reflexivity.
      - intros u n H. destruct (Z.eq_dec u t) as [->|N]; [rewrite upd_eq in H; destruct (X3 n H)|]. rewrite upd_neq in H by auto. apply (w_read s W u n H).
      - intros p H. destruct (w_wr s W p H) as (u & U & IU). exists u. split; auto. rewrite upd_neq; auto. intros ->. auto.
      - intros u H. destruct (Z.eq_dec u t) as [->|N]; [rewrite upd_eq in H; subst x; destruct (X1 I)|]. rewrite upd_neq in H by auto. apply (w_down s W u H).
      - intro E. apply (NOF F E).
      - intros u H. destruct (i_exists s) eqn:E; auto; apply (NOF F eq_refl). }
    destruct (i_pc s t) eqn:PC; try (specialize (OT I)); try (specialize (NW I (fun z => z))); rewrite ?andb_true_r, ?orb_false_r; cbn [negb].
    + exact W.
    + destruct PK as [F M]. destruct (i_exists s) eqn:E.
      * apply (Q IOpen); icbn; auto; discriminate.
      * destruct (w_no s W E) as (R & WR & FD).
        assert (NF : forall u, i_fd s (proc u) = true -> False) by (intros u H; rewrite FD in H; discriminate).
        constructor; icbn; auto; try congruence.
        -- intros u n H. destruct (Z.eq_dec u t) as [->|N]; [rewrite upd_eq in H; discriminate|]. rewrite upd_neq in H by auto.
           pose proof (v_pok s V u) as PU. unfold pok in PU. rewrite H in PU. exfalso. apply (NF u). tauto.
        -- intros u H. destruct (Z.eq_dec u t) as [->|N]; [rewrite upd_eq in H; discriminate|]. rewrite upd_neq in H by auto.
           pose proof (v_pok s V u) as PU. unfold pok in PU. rewrite H in PU. exfalso. apply (NF u). tauto.
    + destruct PK as [F M]. pose proof (w_open s W t PC) as E. apply (Q (IWrite 0)); icbn; auto; try discriminate. congruence.
    + destruct PK as [F M]. destruct (n <? 100).
      * destruct (can_write s (proc t)) eqn:C.
        -- apply WRL; icbn; auto. apply can_write_rd; auto.
        -- apply (Q (IRead n)); icbn; auto; try discriminate; [|apply W]. intros m _.
           unfold can_write in C. rewrite F in C. cbn [andb] in C. destruct (i_wr s) as [q|] eqn:WR; [right; eauto|]. cbn [andb] in C. left. apply W.
           intro RE. rewrite RE in C. discriminate C.
      * apply (Q (IDet1 false)); icbn; auto; try discriminate. apply W.
    + destruct PK as [F M]. destruct (can_read s (proc t)) eqn:C.
      * assert (FR : i_file s = FReady).
        { destruct (w_read s W t n PC) as [X|(q & X)]; auto. exfalso. apply can_read_spec in C as (_ & [Y|Y]); congruence. }
        assert (WN : i_wr s = None) by (apply can_read_spec in C as (_ & [Y|Y]); congruence).
        constructor; icbn; rewrite ?WN; cbn; auto; try discriminate.
        -- intro E. apply (NOF F E).
        -- intros u H. destruct (i_exists s) eqn:E; auto; apply (NOF F eq_refl).
      * apply (Q (IWrite (n + 1))); icbn; auto; try discriminate. apply W.
    + destruct PK as (F & M & R). rewrite M, F. cbn [negb orb]. assert (FR : i_file s = FReady) by (apply W; intro E; rewrite E in R; auto).
      rewrite FR. apply (Q IWorker); icbn; auto; try discriminate. apply W.
    + destruct PK as [F M]. destruct (can_write s (proc t)) eqn:C.
      * apply WRL; icbn; auto. apply can_write_rd; auto.
      * apply (Q IClose); icbn; auto; try discriminate. apply W.
    + destruct PK as [F M]. apply DR; icbn; auto. exists IIdle. repeat split; auto; discriminate.
    + destruct PK as (F & M & WR). rewrite F. cbn [negb]. apply (INI IFill); icbn; auto; try exact I. discriminate.
    + destruct PK as (F & M & WR). rewrite F. cbn [negb]. apply (INI IMap); icbn; auto; try exact I. discriminate.
    + destruct PK as (F & M & WR). rewrite F. cbn [negb]. apply (INI IHead); icbn; auto; try exact I; try discriminate.
      destruct (i_exists s) eqn:E; auto; apply (NOF F eq_refl).
    + destruct PK as (F & M & WR). apply (INI ILists); icbn; auto; try exact I. discriminate.
    + destruct PK as (F & M & WR). apply (INI IDown); icbn; auto; exact I.
    + destruct PK as (F & M & WR). pose proof (w_down s W t PC) as FR. unfold can_read. rewrite F, WR, Z.eqb_refl. cbn [andb].
      assert (EX : i_exists s = true) by (destruct (i_exists s) eqn:E; auto; apply (NOF F eq_refl)).
      constructor; icbn; rewrite ?WR; cbn [opt_is]; rewrite ?Z.eqb_refl; auto; congruence.
    + destruct PK as (F & M & R). unfold done. destruct (i_use s t).
      * apply (Q IUse); icbn; auto; try discriminate. apply W.
      * apply (Q IIdle); icbn; auto; try discriminate. apply W.
    + apply (Q (IDet2 r)); icbn; auto; try discriminate. apply W.
    + destruct PK as [F M]. rewrite F. apply DR; icbn; auto. exists (IDet3 r). repeat split; auto; discriminate.
    + destruct PK as [F M]. rewrite F. apply DR; icbn; auto. exists IIdle. repeat split; auto; discriminate.
    + destruct PK as [F M]. rewrite M. apply (Q IIdle); icbn; auto; try discriminate. apply W.
Qed.

Definition calm (s : istate) (x : ilabel) : Prop := one_at_a_time s x /\ no_deaths s x /\ no_failures s x.

Lemma reach_inv2 : forall (ok : istate -> ilabel -> Prop) s, (forall s x, ok s x -> calm s x) -> i_reach ok s -> inv s /\ inv2 s.
Proof.
  intros ok s H R. induction R as [|s x R [IH IH2] O]; [split; [apply inv_init | apply inv2_init]|].
  destruct (H _ _ O) as (O1 & O2 & O3). split; [apply inv_step | apply inv2_step]; auto.
Qed.

(** ** Start-up only *)
Definition searching (x : ipc) : Prop :=
  match x with IOpenX | IOpen | IWrite _ | IRead _ | ICWrite | IClose | IDet1 _ | IDet2 _ | IDet3 _ => True | _ => False end.
Definition gave_up (x : ipc) : Prop :=
  match x with IClose | IDet1 _ | IDet2 _ | IDet3 _ => True | IWrite n => n <> 0 | IRead n => n <> 0 | _ => False end.
Definition held (s : istate) : Prop := i_wr s <> None \/ i_rd s <> [].

Record inv3 (s : istate) : Prop := mkInv3 {
  x_fd : forall p, In p (i_rd s) -> i_fd s p = true;
  x_free : forall t, searching (i_pc s t) -> ~ In (proc t) (i_rd s);
  x_held : forall t, gave_up (i_pc s t) \/ i_res s t = Some false -> held s;
  x_inh : forall p, i_inh s p = false;
  x_cnt : forall t n, i_pc s t = IWrite n \/ i_pc s t = IRead n -> 0 <= n
}.

Lemma inv3_init : inv3 i_init.
Proof. constructor; simpl; auto; [intros t [H|H]; [contradiction | discriminate H] | intros t n [H|H]; discriminate H]. Qed.

Lemma inv3_move : forall s s' t x, inv s -> inv3 s -> i_pc s t <> IIdle -> i_pc s t <> IUse ->
  i_pc s' = upd (i_pc s) t x -> (forall u, u <> t -> i_res s' u = i_res s u) ->
  (forall p, i_inh s' p = false) -> (held s -> held s') ->
  (forall p, p <> proc t -> i_fd s' p = i_fd s p /\ (In p (i_rd s') -> In p (i_rd s))) ->
  (In (proc t) (i_rd s') -> i_fd s' (proc t) = true /\ ~ searching x) ->
  (gave_up x \/ i_res s' t = Some false -> held s') ->
  (forall n, x = IWrite n \/ x = IRead n -> 0 <= n) -> inv3 s'.
Proof.
  intros s s' t x V [X1 X2 X3 X4 X5] NI NU PC RES INH HH FR OWN GU CN. constructor; auto.
  - intros p H. destruct (Z.eq_dec p (proc t)) as [->|N]; [apply OWN; auto|]. destruct (FR p N) as (-> & I). auto.
  - intros u S H. rewrite PC in S. destruct (Z.eq_dec u t) as [->|N].
    + rewrite upd_eq in S. destruct (OWN H). contradiction.
    + rewrite upd_neq in S by auto. destruct (Z.eq_dec (proc u) (proc t)) as [E|E].
      * assert (i_pc s u = IIdle). { apply (v_one s V t u); auto. destruct (i_pc s t); try exact I; congruence. } rewrite H0 in S. contradiction.
      * destruct (FR _ E) as (_ & I). apply (X2 u S). auto.
  - intros u H. rewrite PC in H. destruct (Z.eq_dec u t) as [->|N]; [rewrite upd_eq in H; auto|]. rewrite upd_neq, RES in H by auto. apply HH. eauto.
  - intros u n H. rewrite PC in H. destruct (Z.eq_dec u t) as [->|N]; [rewrite upd_eq in H; auto|]. rewrite upd_neq in H by auto. eauto.
Qed.

Lemma held_drop : forall s p, ~ In p (i_rd s) -> i_wr s <> Some p -> held s ->
  (if opt_is (i_wr s) p then None else i_wr s) <> None \/ without p (i_rd s) <> [].
Proof.
  intros s p H1 H2 [H|H]; [left | right; rewrite without_absent; auto].
  unfold opt_is. destruct (i_wr s) as [w|]; auto. destruct (Z.eqb_spec w p); congruence.
Qed.

Ltac fin := try solve
  [ intros ? [?|?]; discriminate
  | intros ? ?; split; auto; rewrite in_without; tauto
  | intros ? ?; split; auto; cbn [In]; rewrite in_without; intuition congruence
  | intros ? ?; rewrite upd_neq by auto; split; auto; rewrite in_without; tauto
  | intros ? ?; rewrite upd_neq; auto
  | rewrite in_without; tauto
  | intros; left; icbn; discriminate
  | intros; left; icbn; congruence
  | intros; right; icbn; discriminate
  | intros; apply held_drop; auto
  | rewrite upd_eq; intros [?|?]; [contradiction | discriminate]
  | intros [X|X]; [destruct (X eq_refl) | auto]
  | match goal with F : True -> ~ _ |- _ => intro; exfalso; apply F; auto end
  | match goal with V : inv ?s, W : i_wr ?s = Some _ |- _ => let H := fresh in intro H; rewrite (v_excl s V _ W) in H; contradiction end
  | let p := fresh in intro p; match goal with |- context [upd _ ?q _ _] => destruct (Z.eq_dec p q) as [->|?]; [rewrite upd_eq | rewrite upd_neq by auto]; auto end ].
Ltac mv x := match goal with |- inv3 ?g => match goal with PC : i_pc ?s ?t = _ |- _ => apply (inv3_move s g t x); icbn; auto; try congruence; fin end end.

Lemma inv3_step : forall s x, inv s -> inv2 s -> inv3 s -> one_at_a_time s x -> no_failures s x -> only_starts s x -> inv3 (i_step s x).
Proof.
  intros s x V W X OK NF OS. destruct x as [p|p|t q|t c|t fail]; cbn [i_step]; try contradiction.
  - destruct (i_alive s p); auto. destruct X as [X1 X2 X3 X4 X5]. constructor; auto.
  - destruct (i_alive s (proc t)) eqn:A; auto. destruct (i_pc s t) eqn:PC; auto. destruct c; try contradiction. cbn [i_call one_at_a_time] in *.
    destruct X as [X1 X2 X3 X4 X5]. destruct (i_fd s (proc t)) eqn:F; constructor; icbn; auto.
    + intros u S. destruct (Z.eq_dec u t) as [->|N]; [rewrite upd_eq in S; contradiction | rewrite upd_neq in S by auto; auto].
    + intros u _. assert (M : i_map s (proc t) = true). { rewrite <- (v_calm s V (proc t)); auto. intros a U. rewrite (OK a U). auto. }
      destruct (v_lock s V _ M) as [H|[H|H]]; [rewrite X4 in H; discriminate | right; intro E; icbn; rewrite E in H; auto | left; icbn; congruence].
    + intros u n H. destruct (Z.eq_dec u t) as [->|N]; [rewrite upd_eq in H; destruct H; discriminate | rewrite upd_neq in H by auto; eauto].
    + intros u S. destruct (Z.eq_dec u t) as [->|N]; [|rewrite upd_neq in S by auto; auto]. intro H. apply X1 in H. congruence.
    + intros u H. apply (X3 u). destruct (Z.eq_dec u t) as [->|N]; [rewrite upd_eq in H; cbn [gave_up] in H; tauto | rewrite upd_neq in H by auto; auto].
    + intros u n H. destruct (Z.eq_dec u t) as [->|N]; [rewrite upd_eq in H; destruct H; discriminate | rewrite upd_neq in H by auto; eauto].
  - destruct (i_alive s (proc t)) eqn:A; auto. destruct fail; [contradiction|]. clear OS NF OK.
    pose proof (v_pok s V t) as PK. unfold pok in PK. unfold i_run. pose proof (x_free s X t) as FREE. pose proof (x_held s X t) as HELD.
    pose proof (x_inh s X) as INH. pose proof (x_cnt s X t) as CNT.
    assert (NW : busy (i_pc s t) -> ~ in_init (i_pc s t) -> i_wr s <> Some (proc t)).
    { intros B NI E. destruct (w_wr s W _ E) as (u & U & I). destruct (Z.eq_dec u t) as [->|N]; auto. rewrite (v_one s V t u) in I; auto. }
    assert (NR : busy (i_pc s t) -> held s -> i_rd s <> [] \/ exists q, i_wr s = Some q).
    { intros _ [H|H]; auto. right. destruct (i_wr s); eauto. congruence. }
    destruct (i_pc s t) eqn:PC; try (specialize (NW I (fun z => z))); rewrite ?andb_true_r, ?orb_false_r; cbn [negb searching gave_up] in *; clear NR.
    + exact X.
    + destruct PK as [F M]. destruct (i_exists s) eqn:E; [mv IOpen | mv ICWrite].
    + mv (IWrite 0); [intros [H|H]; [destruct (H eq_refl) | apply HELD; auto]|]. intros n [H|H]; inversion H; lia.
    + destruct PK as [F M]. destruct (Z.ltb_spec n 100).
      * destruct (can_write s (proc t)) eqn:C; [mv ITrunc | mv (IRead n)]. intros m [H0|H0]; inversion H0; subst; eauto.
      * mv (IDet1 false). intros _. apply HELD. left. lia.
    + destruct PK as [F M]. destruct (can_read s (proc t)) eqn:C; [mv IAttach | mv (IWrite (n + 1))].
      * intros _. left. icbn. unfold can_read in C. rewrite F in C. cbn [andb] in C. destruct (i_wr s); [discriminate|discriminate C].
      * intros m [H|H]; inversion H; subst. specialize (CNT n (or_intror eq_refl)). lia.
    + destruct PK as (F & M & R). rewrite M, F. cbn [negb orb]. assert (FR : i_file s = FReady) by (apply W; intro E; rewrite E in R; auto).
      rewrite FR. mv IWorker.
    + destruct PK as [F M]. destruct (can_write s (proc t)) eqn:C; [mv ITrunc | mv IClose].
      intros _. unfold can_write in C. rewrite F in C. cbn [andb] in C. destruct (i_wr s) as [q|] eqn:WR; [left; icbn; congruence|].
      right. icbn. intro E. rewrite E in C. discriminate C.
    + destruct PK as [F M]. mv IIdle.
    + destruct PK as (F & M & WR). rewrite F. cbn [negb]. mv IFill.
    + destruct PK as (F & M & WR). rewrite F. cbn [negb]. mv IMap.
    + destruct PK as (F & M & WR). rewrite F. cbn [negb]. mv IHead.
    + destruct PK as (F & M & WR). mv ILists.
    + destruct PK as (F & M & WR). mv IDown.
    + destruct PK as (F & M & WR). unfold can_read. rewrite F, WR, Z.eqb_refl. cbn [andb]. mv IWorker.
    + destruct PK as (F & M & R). unfold done. destruct (i_use s t); [mv IUse | mv IIdle].
    + mv (IDet2 r).
    + destruct PK as [F M]. rewrite F. mv (IDet3 r).
    + destruct PK as [F M]. rewrite F. mv IIdle.
    + destruct PK as [F M]. rewrite M. destruct X as [X1 X2 X3 X4 X5]. constructor; icbn; auto.
      * intros u S. destruct (Z.eq_dec u t) as [->|N]; [rewrite upd_eq in S; contradiction | rewrite upd_neq in S by auto; auto].
      * intros u H. apply (X3 u). destruct (Z.eq_dec u t) as [->|N]; [rewrite !upd_eq in H; destruct H; [contradiction | discriminate] | rewrite !upd_neq in H by auto; auto].
      * intros u n H. destruct (Z.eq_dec u t) as [->|N]; [rewrite upd_eq in H; destruct H; discriminate | rewrite upd_neq in H by auto; eauto].
Qed.

Definition starts (s : istate) (x : ilabel) : Prop := one_at_a_time s x /\ no_failures s x /\ only_starts s x.

Lemma reach_inv3 : forall (ok : istate -> ilabel -> Prop) s, (forall s x, ok s x -> starts s x) -> i_reach ok s -> inv s /\ inv2 s /\ inv3 s.
Proof.
  intros ok s H R. induction R as [|s x R (IH & IH2 & IH3) O]; [split; [apply inv_init | split; [apply inv2_init | apply inv3_init]]|].
  destruct (H _ _ O) as (O1 & O2 & O3). split; [apply inv_step; auto | split; [apply inv2_step; auto | apply inv3_step; auto]].
  destruct x as [| | |? [| |]|]; try contradiction; exact I.
Qed.
