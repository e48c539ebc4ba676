(** Properties of what the worker takes and gives back. *)
From Verif Require Import Base Thread_Model Thread_Spec Thread_Proofs Thread_Proofs2 Thread_Proofs3 Thread_Props.
From Verif Require Import Wres_Model Wres_Spec Wres_Proofs Wres_Proofs2 Wres_Proofs3 Wres_Proofs4.
From Coq Require Import ZArith List Bool Lia.
Import ListNotations.
Open Scope Z_scope.

(** ** Running a list of labels in which thread 1 makes all the calls and forks *)
Definition rmine (l : rlabel) : bool := match l with RT l => mine l | RNew => true end.
Definition rbookb (r : rstate) (l : rlabel) : bool :=
  match l with RT l => bookb (r_t r) l | RNew => true end.
(** ... the fork with at most one handler; no fork *)
Definition onlyb (r : rstate) (l : rlabel) : bool := match l with RT (LFork _) => Nat.leb (t_regs (r_t r)) 1 | _ => true end.
Definition noneb (r : rstate) (l : rlabel) : bool := match l with RT (LFork _) => false | _ => true end.
Fixpoint rrun (ck : rstate -> rlabel -> bool) (ls : list rlabel) (r : rstate) : option rstate :=
  match ls with
  | [] => Some r
  | l :: k => if rmine l && rbookb r l && ck r l then match r_step r l with Some r' => rrun ck k r' | None => None end else None
  end.

Lemma rothers_step : forall r l r', others_idle (r_t r) -> rmine l = true -> r_step r l = Some r' -> others_idle (r_t r').
Proof.
  intros r l r' O M E. destruct l as [[t k|t f w|w f|t]|]; cbn [r_step] in E.
  - destruct (t_pc (r_t r) t) eqn:P; try discriminate E. injection E as <-.
    apply (others_step (r_t r) (LCall t k)); auto. cbn [t_step]. rewrite P. reflexivity.
  - destruct (t_step (r_t r) (LCtl t f w)) as [s'|] eqn:S; [|discriminate E]. injection E as <-.
    pose proof (others_step _ _ _ O M S) as H. apply ctl_some in S as (_ & -> & _).
    assert (Y : r_t (r_ctl r t f w) = r_t r \/ r_t (r_ctl r t f w) = t_ctl (r_t r) t f w).
      { unfold r_ctl. cbv zeta. destruct (t_pc (r_t r) t); auto.
        - destruct (r_cs r t); [left; reflexivity|]. destruct f; right; reflexivity.
        - destruct (r_cs r t) as [|[|[|[|m]]]]; auto. destruct (t_bup (r_t r)); auto. }
    destruct Y as [-> | ->]; auto.
  - assert (X : r' = r_work r w f) by (destruct (t_wk (r_t r) w); try discriminate E; injection E as <-; reflexivity). subst r'.
    assert (Y : r_t (r_work r w f) = r_t r \/ exists g, r_t (r_work r w f) = t_work (r_t r) w g).
      { unfold r_work, w_start, w_setup, w_wait, w_clean. cbv zeta.
        destruct (t_wk (r_t r) w);
          repeat match goal with |- context [match r_ws r w with _ => _ end] => destruct (r_ws r w) as [|[|[|[|[|[|[|[|m]]]]]]]] end;
          repeat match goal with |- context [if ?b then _ else _] => destruct b end;
          first [left; reflexivity|right; eexists; reflexivity]. }
    intros x N. destruct Y as [->|[g ->]]; [auto|]. rewrite work_pc. auto.
  - destruct (t_pc (r_t r) t) eqn:P; try discriminate E. injection E as <-.
    apply (others_step (r_t r) (LFork t)); auto. cbn [t_step]. rewrite P. reflexivity.
  - destruct (t_freed (r_t r)) eqn:Fr; [|discriminate E]. injection E as <-. exact O.
Qed.

Lemma rrun_ok : forall (ok : rstate -> rlabel -> Prop) ck ls r0 r r',
  (forall a l, ck a l = true -> book a l -> ok a l) ->
  rsteps ok r0 r -> others_idle (r_t r) -> rrun ck ls r = Some r' -> rsteps ok r0 r' /\ others_idle (r_t r').
Proof.
  intros ok ck ls r0 r r' Q. revert r r'. induction ls as [|l k IH]; intros r r' H O E.
  - injection E as <-. auto.
  - cbn [rrun] in E. destruct (rmine l && rbookb r l && ck r l) eqn:M; [|discriminate E].
    apply andb_true_iff in M as [M D]. apply andb_true_iff in M as [M B].
    destruct (r_step r l) as [x|] eqn:S; [|discriminate E].
    apply (IH x); [|exact (rothers_step _ _ _ O M S)|exact E].
    eapply rsteps_next; [exact H| |exact S]. apply Q; [exact D|].
    destruct l as [l|]; [|exact I]. cbn [rmine rbookb] in M, B. split.
    + destruct l as [t c|t f w|w f|t]; cbn [bookb by_the_book] in *; try exact I.
      * apply andb_true_iff in B as [B B3]. apply andb_true_iff in B as [B1 B2].
        split; [|split].
        -- intros y. destruct (Z.eq_dec y 1) as [->|Y]; [|now apply O]. destruct (t_pc (r_t r) 1); auto; discriminate B1.
        -- now apply negb_true_iff.
        -- intros ->. now apply Z.eqb_eq.
      * destruct (t_pc (r_t r) t); auto. now apply negb_true_iff.
    + destruct l as [t c|t f w|w f|t]; try exact I. cbn [mine] in M. apply Z.eqb_eq in M. subst t.
      intros y X. unfold handling in X. destruct (Z.eq_dec y 1) as [->|Y]; [|rewrite (O y Y) in X; exact X].
      cbn [r_step] in S. destruct (t_pc (r_t r) 1); try discriminate S. exact X.
Qed.

Lemma one_ok : forall a l, onlyb a l = true -> book a l -> one_handler a l.
Proof. intros a l D B. split; [exact B|]. intros t ->. now apply Nat.leb_le. Qed.
Lemma none_ok : forall a l, noneb a l = true -> book a l -> no_forks a l.
Proof. intros a l D B. split; [exact B|]. intros t ->. discriminate D. Qed.

Lemma run_book : forall ls n r, rrun (fun _ _ => true) ls (init_r n) = Some r -> r_reach book n r.
Proof. intros ls n r E. eapply rrun_ok; [|apply rsteps_refl|intros t _; reflexivity|exact E]. auto. Qed.
Lemma run_one : forall ls n r, rrun onlyb ls (init_r n) = Some r -> r_reach one_handler n r /\ others_idle (r_t r).
Proof. intros ls n r E. eapply rrun_ok; [exact one_ok|apply rsteps_refl|intros t _; reflexivity|exact E]. Qed.
Lemma run_none : forall ls n r, rrun noneb ls (init_r n) = Some r -> r_reach no_forks n r /\ others_idle (r_t r).
Proof. intros ls n r E. eapply rrun_ok; [exact none_ok|apply rsteps_refl|intros t _; reflexivity|exact E]. Qed.

(** reading off the state a run ends in *)
Lemma some_map : forall (A B : Type) (g : A -> B) (o : option A) v, option_map g o = Some v ->
  exists r, o = Some r /\ g r = v.
Proof. intros A B g [r|] v H; [|discriminate H]. injection H as H. eauto. Qed.

(** thread 1 goes on, [n] steps; a thread it makes is number 7 *)
Definition ct (n : nat) : list rlabel := repeat (RT (LCtl 1 false 7)) n.
(** so does worker [w] *)
Definition wk (w : Z) (n : nat) : list rlabel := repeat (RT (LWork w false)) n.
(** the worker is started and told to run *)
Definition started : list rlabel := RT (LCall 1 KInit) :: ct 3 ++ RT (LCall 1 KRun) :: ct 3.
(** the object is deleted while its worker waits for events *)
Definition deleted : list rlabel := RT (LCall 1 KDel) :: ct 4 ++ wk 7 12 ++ ct 4.
(** the library was initialised, terminated and initialised again: two fork handlers *)
Definition twice : list rlabel := RT (LCall 1 KDel) :: ct 3 ++ [RNew].
(** the child of such a process in its second handler; the worker of the first handler has begun *)
Definition second (n : nat) : list rlabel := twice ++ started ++ RT (LFork 1) :: ct 8 ++ wk 7 n.

(** ** C133: memory *)
Definition C133_statement : Prop := forall n r, r_reach book n r -> x_bad (r_res r) = false.

(** in the child of a process that was initialised twice, the second handler frees the block of the
    worker that the first one started, and this worker goes on to watch the path in it *)
Definition e133 : list rlabel := second 5 ++ ct 3 ++ wk 7 4.

Theorem C133_no_stale_memory_refuted : ~ C133_statement.
Proof.
  intro H.
  destruct (some_map _ _ (fun r => x_bad (r_res r)) (rrun (fun _ _ => true) e133 (init_r 1)) true) as (r & E & B).
  { vm_compute. reflexivity. }
  apply run_book in E. rewrite (H _ _ E) in B. discriminate B.
Qed.

(** in a process whose forks find at most one handler: no block or path is read, given back or
    written to after it was given back, whatever the library's objects, the workers and any forks do *)
Theorem C133_no_stale_memory_partial : forall n r, r_reach one_handler n r -> x_bad (r_res r) = false.
Proof. intros n r H. destruct (all_reach _ _ H) as [[B _] _]. apply B. Qed.

(** ** C136: descriptors *)
Definition C136_statement : Prop := forall n r, r_reach book n r -> x_badfd (r_res r) = false.

(** with two handlers the second worker resets the static members while the first one waits *)
Definition e136 : list rlabel := second 14 ++ repeat (RT (LCtl 1 false 8)) 8 ++ wk 8 3 ++ wk 7 1.

Theorem C136_open_descriptors_refuted : ~ C136_statement.
Proof.
  intro H.
  destruct (some_map _ _ (fun r => x_badfd (r_res r)) (rrun (fun _ _ => true) e136 (init_r 1)) true) as (r & E & B).
  { vm_compute. reflexivity. }
  apply run_book in E. rewrite (H _ _ E) in B. discriminate B.
Qed.

(** at most one handler: every descriptor the library waits on, reads or closes is open *)
Theorem C136_open_descriptors_partial : forall n r, r_reach one_handler n r -> x_badfd (r_res r) = false.
Proof. intros n r H. destruct (all_reach _ _ H) as [[B _] _]. apply B. Qed.

(** ** C134: what is left *)
Definition C134_statement : Prop := forall n r, r_reach book n r -> ended r ->
  (forall a, ~ kept r a) /\ (forall d, ~ open r d).

Lemma freed_ended : forall n r, r_reach one_handler n r -> t_freed (r_t r) = true -> ended r.
Proof. intros n r H F. destruct (all_reach _ _ H) as [_ K]. exact (ki_freed _ K F). Qed.

(** the parent's worker waits for events at the fork; the child deletes its object and keeps both of
    the parent's descriptors *)
Definition e134 : list rlabel := started ++ wk 7 14 ++ RT (LFork 1) :: ct 11 ++ wk 7 14 ++ deleted.

Lemma one_book : forall n r, r_reach one_handler n r -> r_reach book n r.
Proof. intros n r H. induction H as [|a l b H IH O E]; [apply rsteps_refl|]. eapply rsteps_next; [exact IH|apply O|exact E]. Qed.

Theorem C134_nothing_left_refuted : ~ C134_statement.
Proof.
  intro H.
  destruct (some_map _ _ (fun r => (t_freed (r_t r), existsb (fun d => x_fds (r_res r) d) [3; 4])) (rrun onlyb e134 (init_r 1)) (true, true))
    as (r & E & B).
  { vm_compute. reflexivity. }
  injection B as B1 B2. apply run_one in E as [E _].
  destruct (H _ _ (one_book _ _ E) (freed_ended _ _ E B1)) as [_ D].
  apply orb_true_iff in B2 as [B2|B2]; [exact (D 3 B2)|]. rewrite orb_false_r in B2. exact (D 4 B2).
Qed.

Lemma no_caller : forall r t k, ended r -> t_pc (r_t r) t = CInit2 k -> False.
Proof. intros r t k [I _] P. rewrite (I t) in P. discriminate P. Qed.

(** without forks, however many objects the process makes one after the other: when no call is under
    way and no worker is at work, nothing is left *)
Theorem C134_no_forks_partial : forall n r, r_reach no_forks n r -> ended r ->
  (forall a, ~ kept r a) /\ (forall d, ~ open r d).
Proof.
  intros n r H E. destruct (forks_none _ _ H) as [F O].
  destruct (all_reach _ _ O) as [(_ & L & D & N1 & N2 & M) _].
  rewrite F in N1, N2. destruct L; [|cbn in N1; lia]. destruct D; [|cbn in N2; lia].
  destruct M as [(w & A & _)|(_ & _ & _ & M1 & M2)]; [destruct (proj2 E w A)|].
  split.
  - intros a X. destruct (M1 a X) as [X'|(t & k & P & _)]; [exact X'|exact (no_caller _ _ _ E P)].
  - intros d X. exact (M2 d X).
Qed.

Lemma at_most_list : forall n (P : Z -> Prop) m, (length m <= n)%nat -> (forall a, P a -> In a m) -> at_most n P.
Proof.
  intros n P m N I l D H. apply (Nat.le_trans _ (length m)); [|exact N].
  apply NoDup_incl_length; [exact D|]. intros a X. auto.
Qed.

(** with forks, each finding at most one handler, a process never loses more than two pieces of
    memory and two descriptors per fork *)
Theorem C134_per_fork_partial : forall n r, r_reach one_handler n r ->
  at_most (2 * r_forks r + 2) (kept r) /\ at_most (2 * r_forks r + 2) (open r) /\
  (ended r -> at_most (2 * r_forks r) (kept r) /\ at_most (2 * r_forks r) (open r)).
Proof.
  intros n r H. destruct (all_reach _ _ H) as [(_ & L & D & N1 & N2 & M) K].
  assert (EN : ended r -> at_most (2 * r_forks r) (kept r) /\ at_most (2 * r_forks r) (open r)).
  { intro E. destruct M as [(w & A & _)|(_ & _ & _ & M1 & M2)]; [destruct (proj2 E w A)|].
    split; [apply (at_most_list _ _ L)|apply (at_most_list _ _ D)]; auto.
    intros a X. destruct (M1 a X) as [X'|(t & k & P & _)]; [exact X'|destruct (no_caller _ _ _ E P)]. }
  split; [|split; [|exact EN]].
  - destruct M as [(w & _ & _ & _ & _ & M1 & _)|(_ & _ & _ & M1 & _)].
    + apply (at_most_list _ _ (r_arg r w :: path_of (r_res r) (r_arg r w) :: L)); [cbn [length]; lia|].
      intros a X. destruct (M1 a X) as [Y|[->|Y]]; [right; right; exact Y|left; reflexivity|].
      right; left. unfold path_of. now rewrite Y.
    + intros l ND X.
      assert (V : incl l L \/ exists t k, t_pc (r_t r) t = CInit2 k).
      { clear ND. induction l as [|a l IH]; [left; intros a []|].
        destruct (M1 a (X a (or_introl eq_refl))) as [Y|(t & k & P & _)]; [|right; eauto].
        destruct IH as [IH|IH]; [intros b Z; apply X; right; exact Z| |right; exact IH].
        left. intros b [<-|Z]; auto. }
      destruct V as [V|(t & k & P)]; [pose proof (NoDup_incl_length ND V); lia|].
      assert (V : incl l (r_loc r t :: path_of (r_res r) (r_loc r t) :: L)).
      { intros a I. destruct (M1 a (X a I)) as [Y|(u & m & Q & _ & Y)]; [right; right; exact Y|].
        assert (u = t) as -> by (apply (ki_one _ _ _ K); congruence).
        destruct Y as [->|Y]; [left; reflexivity|]. right; left. unfold path_of. now rewrite Y. }
      pose proof (NoDup_incl_length ND V) as Y. cbn [length] in Y. lia.
  - destruct M as [(w & _ & _ & _ & _ & _ & M2)|(_ & _ & _ & _ & M2)].
    + apply (at_most_list _ _ (x_evt (r_res r) :: x_ino (r_res r) :: D)); [cbn [length]; lia|].
      intros d X. destruct (M2 d X) as [Y|[_ [->| ->]]]; [right; right; exact Y|left; reflexivity|right; left; reflexivity].
    + apply (at_most_list _ _ D); [lia|exact M2].
Qed.

(** the bound is met: the fork comes while the worker waits for events (two descriptors), and while it has not
    noted its block yet (two pieces of memory) *)
Definition e134m : list rlabel := started ++ wk 7 2 ++ RT (LFork 1) :: ct 8 ++ wk 7 14 ++ deleted.
Definition count (f : Z -> bool) : nat := length (filter f [1; 2; 3; 4; 5; 6; 7; 8; 9; 10]).
Definition kept_b (r : rstate) (a : Z) : bool := match x_mem (r_res r) a with Gone => false | _ => true end.

Example C134_descriptors_left : exists r, rrun onlyb e134 (init_r 1) = Some r /\
  (t_freed (r_t r), r_forks r, count (kept_b r), count (x_fds (r_res r))) = (true, 1%nat, 0%nat, 2%nat).
Proof. apply some_map. vm_compute. reflexivity. Qed.
Example C134_memory_left : exists r, rrun onlyb e134m (init_r 1) = Some r /\
  (t_freed (r_t r), r_forks r, count (kept_b r), count (x_fds (r_res r))) = (true, 1%nat, 2%nat, 0%nat).
Proof. apply some_map. vm_compute. reflexivity. Qed.

(** two objects one after the other, each with a worker that opened everything: no forks, ended *)
Example C134_two_objects : exists r, r_reach no_forks 1 r /\ ended r /\ t_regs (r_t r) = 2%nat /\ x_new (r_res r) = 9.
Proof.
  destruct (some_map _ _ (fun r => (t_freed (r_t r), t_regs (r_t r), x_new (r_res r)))
    (rrun noneb (started ++ wk 7 14 ++ deleted ++ RNew ::
       [RT (LCall 1 KInit)] ++ repeat (RT (LCtl 1 false 8)) 3 ++ [RT (LCall 1 KRun)] ++ ct 3 ++ wk 8 14 ++
       [RT (LCall 1 KDel)] ++ ct 4 ++ wk 8 12 ++ ct 4) (init_r 1)) (true, 2%nat, 9)) as (r & E & B).
  { vm_compute. reflexivity. }
  injection B as B1 B2 B3. apply run_none in E as [E _]. exists r. split; [exact E|].
  split; [|auto]. destruct (forks_none _ _ E) as [_ O]. exact (freed_ended _ _ O B1).
Qed.

(** ** C135: the child and the parent's worker *)

(** a process that never forked before has a worker and forks; when the handler is through, the child
    has nothing of what the parent had *)
Definition C135_statement : Prop := forall n r w t r1 r2,
  r_reach one_handler n r -> r_forks r = 0%nat -> up r w -> t_regs (r_t r) = 1%nat ->
  one_handler r (RT (LFork t)) -> r_step r (RT (LFork t)) = Some r1 -> rsteps one_handler r1 r2 -> t_pc (r_t r2) t = CIdle ->
  (forall a, kept r a -> ~ kept r2 a) /\ (forall d, open r d -> ~ open r2 d).

Lemma gone_steps : forall ok r1 r2 a, rsteps ok r1 r2 -> a < x_new (r_res r1) -> x_mem (r_res r1) a = Gone ->
  x_mem (r_res r2) a = Gone.
Proof.
  intros ok r1 r2 a H N G. assert (X : x_mem (r_res r2) a = Gone /\ a < x_new (r_res r2)); [|apply X].
  induction H as [|x l y H IH O E]; [auto|]. destruct IH as [I1 I2]. eapply gone_stays; eauto.
Qed.

(** the handler on its way: block [b] with path [s] *)
Definition resetting (t b s : Z) (r : rstate) : Prop :=
  let x := r_res r in
  (exists n, t_pc (r_t r) t = CReset n) /\ t_bup (r_t r) = true /\ t_freed (r_t r) = false /\
  (forall w, t_wk (r_t r) w = WNone) /\ (forall u, u <> t -> t_pc (r_t r) u = CIdle) /\ b < x_new x /\ s < x_new x /\
  (r_cs r t = 0%nat /\ x_param x = b /\ b <> 0 /\ good x b s \/ r_cs r t = 1%nat /\ r_loc r t = b /\ good x b s \/
   r_cs r t = 2%nat /\ r_loc r t = b /\ x_mem x b = Blk 0 /\ x_mem x s = Gone).
Definition given (b s : Z) (r : rstate) : Prop :=
  x_mem (r_res r) b = Gone /\ x_mem (r_res r) s = Gone /\ b < x_new (r_res r) /\ s < x_new (r_res r).

Lemma resetting_step : forall t b s r l r', resetting t b s r \/ given b s r -> one_handler r l -> r_step r l = Some r' ->
  resetting t b s r' \/ given b s r'.
Proof.
  intros t b s r l r' [H|(G1 & G2 & G3 & G4)] [BK _] E.
  2:{ right. destruct (gone_stays _ _ _ _ E G3 G1). destruct (gone_stays _ _ _ _ E G4 G2). unfold given; auto. }
  destruct H as ([n P] & BU & Fr & WN & OT & NB & NS & H).
  destruct l as [[u k|u f w|w f|u]|]; cbn [r_step] in E.
  - destruct BK as [[I _] _]. rewrite (I t) in P. discriminate P.
  - destruct (Z.eq_dec u t) as [->|N].
    2:{ cbn [t_step] in E. rewrite (OT u N) in E. discriminate E. }
    destruct (t_step _ _); [|discriminate E]. injection E as <-. unfold r_ctl. cbv zeta. rewrite P.
    destruct H as [(C & X & Z & G)|[(C & X & G)|(C & X & G1 & G2)]]; rewrite C.
    + rewrite BU, X, (proj2 (Z.eqb_neq _ _) Z). left. unfold resetting. cbn [set_cs set_loc r_t r_res r_cs r_loc].
      rewrite !upd_eq. repeat (split; [solve [eauto]|]). right; left; auto.
    + rewrite X, (free_good _ _ _ G). left. unfold resetting. cbn [set_cs set_x r_t r_res r_cs r_loc x_mem_ x_mem x_new].
      repeat (split; [solve [eauto]|]). right; right. rewrite !upd_eq.
      pose proof (good_neq _ _ _ G). rewrite (upd_neq _ _ b) by auto. rewrite upd_eq. auto.
    + right. unfold given. cbn [set_cs set_x r_res]. rewrite X. unfold free_blk. rewrite G1. cbn. rewrite upd_eq.
      assert (s <> b) by (intros ->; congruence). rewrite upd_neq by auto. auto.
  - rewrite (WN w) in E. discriminate E.
  - destruct BK as [_ BK]. destruct (BK t). unfold handling. now rewrite P.
  - rewrite Fr in E. discriminate E.
Qed.

(** whatever the process did before, if its worker is past its first lines and not yet at its end,
    then the child gives back the memory of this worker, once *)
Theorem C135_worker_memory_partial : forall n r w t r1 r2 a,
  r_reach one_handler n r -> up r w -> t_regs (r_t r) = 1%nat ->
  one_handler r (RT (LFork t)) -> r_step r (RT (LFork t)) = Some r1 -> rsteps one_handler r1 r2 -> t_pc (r_t r2) t = CIdle ->
  a = r_arg r w \/ x_mem (r_res r) (r_arg r w) = Blk a -> kept r a /\ ~ kept r2 a.
Proof.
  intros n r w t r1 r2 a H U RG OK F S I A.
  assert (LV : live (r_t r) w) by (unfold up in U; unfold live; destruct (t_wk (r_t r) w); auto).
  destruct (all_reach _ _ H) as [(B & L & D & _ & _ & M) K].
  destruct M as [(v & LW & CS & PM & WW & _)|(M & _)]; [|destruct (M w LV)].
  assert (v = w) as -> by (rewrite (ki_cur _ _ K LW), (ki_cur _ _ K LV); reflexivity).
  assert (G : exists s, good (r_res r) (r_arg r w) s /\ x_param (r_res r) = r_arg r w).
  { unfold up in U. destruct (t_wk (r_t r) w); try contradiction; cbn [W] in WW;
      first [destruct WW as (X & Y & _); exists (r_pth r w); split; assumption|destruct WW as ([s X] & Y & _); exists s; split; assumption]. }
  destruct G as (s & G & PR). set (b := r_arg r w) in *.
  destruct B as (B1 & B2 & B3 & B4 & B5 & B6). pose proof G as (G1 & G2 & G3).
  assert (NB : 0 < b < x_new (r_res r)) by (apply B2; congruence).
  assert (NS : 0 < s < x_new (r_res r)) by (apply B2; congruence).
  assert (AA : a = b \/ a = s) by (destruct A as [A|A]; [auto|right; congruence]).
  assert (FR : t_freed (r_t r) = false).
  { destruct (t_freed (r_t r)) eqn:X; [|reflexivity]. destruct (ki_freed _ K X) as [_ Q]. destruct (Q w LV). }
  assert (BU : t_bup (r_t r) = true).
  { destruct (t_bup (r_t r)) eqn:X; [reflexivity|]. destruct (withpath_reach _ _ H X) as [Q _]. destruct (Q w LV). }
  assert (ST : resetting t b s r1 \/ given b s r1).
  { left. cbn [r_step] in F. destruct (t_pc (r_t r) t) eqn:P; try discriminate F. injection F as <-.
    unfold resetting. cbn [r_fork r_t r_res r_cs r_loc fork_t t_pc t_bup t_freed t_wk].
    rewrite Z.eqb_refl, FR, RG. split; [eauto|]. split; [exact BU|]. split; [reflexivity|]. split; [reflexivity|].
    split; [intros u X; now rewrite (proj2 (Z.eqb_neq _ _) X)|]. split; [lia|]. split; [lia|].
    left. repeat split; auto; lia. }
  assert (EN : resetting t b s r2 \/ given b s r2).
  { clear - ST S. induction S as [|x l y S IH O E]; [exact ST|]. eapply resetting_step; eauto. }
  destruct EN as [([m P] & _)|(Q1 & Q2 & _)]; [rewrite P in I; discriminate I|].
  unfold kept. destruct AA as [->| ->]; (split; [congruence|intro X; contradiction]).
Qed.

(** if the process never forked before this is all the memory the child gets *)
Theorem C135_all_memory_partial : forall n r w t r1 r2,
  r_reach one_handler n r -> r_forks r = 0%nat -> up r w -> t_regs (r_t r) = 1%nat ->
  one_handler r (RT (LFork t)) -> r_step r (RT (LFork t)) = Some r1 -> rsteps one_handler r1 r2 -> t_pc (r_t r2) t = CIdle ->
  forall a, kept r a -> ~ kept r2 a.
Proof.
  intros n r w t r1 r2 H F0 U RG OK F S I a A.
  assert (LV : live (r_t r) w) by (unfold up in U; unfold live; destruct (t_wk (r_t r) w); auto).
  destruct (all_reach _ _ H) as [(B & L & D & N1 & _ & M) K].
  destruct M as [(v & LW & CS & PM & WW & M1 & _)|(M & _)]; [|destruct (M w LV)].
  assert (v = w) as -> by (rewrite (ki_cur _ _ K LW), (ki_cur _ _ K LV); reflexivity).
  rewrite F0 in N1. destruct L; [|cbn in N1; lia].
  destruct (M1 a A) as [[]|Y].
  exact (proj2 (C135_worker_memory_partial _ _ _ _ _ _ a H U RG OK F S I Y)).
Qed.

(** the child keeps the parent's descriptors: it never closes them *)
Definition e135 : list rlabel := started ++ wk 7 14.

Theorem C135_child_keeps_nothing_refuted : ~ C135_statement.
Proof.
  intro H.
  destruct (some_map _ _ (fun r => (r_forks r, t_wk (r_t r) 7, t_regs (r_t r), t_pc (r_t r) 1, existsb (fun d => x_fds (r_res r) d) [3]))
    (rrun onlyb e135 (init_r 1)) (0%nat, WWait, 1%nat, CIdle, true)) as (r & E & V).
  { vm_compute. reflexivity. }
  destruct (some_map _ _ (fun r => (t_pc (r_t r) 1, existsb (fun d => x_fds (r_res r) d) [3]))
    (match rrun onlyb e135 (init_r 1) with Some r => match r_step r (RT (LFork 1)) with Some x => rrun onlyb (ct 11) x | None => None end | None => None end)
    (CIdle, true)) as (r2 & E2 & V2).
  { vm_compute. reflexivity. }
  rewrite E in E2. destruct (r_step r (RT (LFork 1))) as [r1|] eqn:F; [|discriminate E2].
  injection V as V1 V3 V4 V5 V6. injection V2 as V7 V8.
  apply run_one in E as [R O].
  assert (OK : one_handler r (RT (LFork 1))).
  { split; [split; [exact I|]|intros t X; injection X as <-; lia].
    intros y X. unfold handling in X. destruct (Z.eq_dec y 1) as [->|Y]; [rewrite V5 in X; exact X|rewrite (O y Y) in X; exact X]. }
  assert (S : rsteps one_handler r1 r2).
  { eapply rrun_ok; [exact one_ok|apply rsteps_refl| |exact E2].
    exact (rothers_step _ (RT (LFork 1)) _ O eq_refl F). }
  assert (U : up r 7) by (unfold up; now rewrite V3).
  destruct (H _ _ 7 1 r1 r2 R V1 U V4 OK F S V7) as [_ D].
  cbn [existsb] in V6, V8. rewrite orb_false_r in V6, V8. exact (D 3 V6 V8).
Qed.

Print Assumptions C133_no_stale_memory_refuted.
Print Assumptions C133_no_stale_memory_partial.
Print Assumptions C134_nothing_left_refuted.
Print Assumptions C134_no_forks_partial.
Print Assumptions C134_per_fork_partial.
Print Assumptions C135_child_keeps_nothing_refuted.
Print Assumptions C135_worker_memory_partial.
Print Assumptions C135_all_memory_partial.
Print Assumptions C136_open_descriptors_refuted.
Print Assumptions C136_open_descriptors_partial.
