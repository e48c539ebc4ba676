(** Proofs for C167. *)
From Coq Require Import ZArith List Bool Lia.
From Verif Require Import Base Time_Model Cset_Model Cset_Spec.
Import ListNotations.
Open Scope Z_scope.

(** where the atomic machine is when the code is at a point *)
Definition rel (p : spc) (a : apc) : Prop :=
  match p with
  | SI => a = AI
  | SLoad v | SCas v _ => a = ACalled (OSet v) false
  | WStart w u => a = ACalled (OWait w (Some u)) false
  | WLook w None => exists b, a = ACalled (OWait w None) b
  | WLook w (Some (_, u)) => exists b, a = ACalled (OWait w (Some u)) b
  | WClock w _ u => a = ACalled (OWait w (Some u)) true
  | SRet r => a = ADone r
  end.
Definition sim (s : sset) (a : aset) : Prop := a_word a = s_word s /\ a_hist a = s_hist s /\ forall t, rel (s_pc s t) (a_pc a t).
Lemma only_upd : forall t a q, only t a q (upd (a_pc a) t q).
Proof. intros t a q. split; [unfold upd; rewrite Z.eqb_refl; auto|]. intros u N. unfold upd. destruct (u =? t) eqn:E; auto. apply Z.eqb_eq in E. congruence. Qed.
Lemma rel_upd : forall s a t p q, (forall u, rel (s_pc s u) (a_pc a u)) -> rel p q -> forall u, rel (upd (s_pc s) t p u) (upd (a_pc a) t q u).
Proof. intros s a t p q R H u. unfold upd. destruct (u =? t); auto. Qed.
(** a step of the code that the atomic machine does not notice *)
Lemma sim_stay : forall s a t p, sim s a -> rel p (a_pc a t) -> sim (at_pc s t p) a.
Proof. intros s a t p (W & H & R) N. split; [auto|split; auto]. intro u. cbn. unfold upd. destruct (u =? t) eqn:E; auto. apply Z.eqb_eq in E. subst. auto. Qed.
Lemma sim_step : forall s a l, sim s a -> exists b, sim (s_step s l) b /\ (b = a \/ a_step a b).
Proof.
  intros s a l SM. pose proof SM as (W & H & R). destruct l as [t o|t clk]; cbn [s_step].
  - pose proof (R t) as Rt. destruct (s_pc s t); cbn [rel] in Rt; try (exists a; auto; fail).
    exists (mkA (a_word a) (upd (a_pc a) t (ACalled o false)) (a_hist a ++ [SCall t o])). split; [|right; apply as_call; auto using only_upd].
    split; [auto|]. split; [cbn; rewrite H; auto|]. cbn. apply rel_upd; auto. destruct o as [v|w [u|]]; cbn; eauto.
  - pose proof (R t) as Rt. destruct (s_pc s t) as [|v|v old|w u|w tm|w st u|r] eqn:P; cbn [rel] in Rt.
    + exists a; auto.
    + exists a. split; auto. apply sim_stay; auto.
    + destruct (Z.eqb_spec (s_word s) old).
      * exists (mkA v (upd (a_pc a) t (ADone 0)) (a_hist a)). split; [|right; eapply as_act; [exact Rt | constructor | apply only_upd]].
        split; [auto|]. split; auto. cbn. apply rel_upd; auto. reflexivity.
      * exists a. split; auto. apply sim_stay; auto.
    + destruct clk as [st|]; [exists a; split; auto; apply sim_stay; cbn; eauto|].
      exists (mkA (a_word a) (upd (a_pc a) t (ADone EBUSY)) (a_hist a)). split; [|right; eapply as_act; [exact Rt | constructor | apply only_upd]].
      split; [auto|]. split; auto. cbn. apply rel_upd; auto. reflexivity.
    + destruct (Z.eqb_spec (s_word s) w) as [E|E].
      * assert (X : exists lim b, a_pc a t = ACalled (OWait w lim) b) by (destruct tm as [[st u]|]; destruct Rt as [b Rt]; eauto). destruct X as (lim & b & X).
        exists (mkA (a_word a) (upd (a_pc a) t (ADone 0)) (a_hist a)).
        split; [|right; eapply as_act; [exact X | rewrite W, E; constructor | apply only_upd]].
        split; [auto|]. split; auto. cbn. apply rel_upd; auto. reflexivity.
      * destruct tm as [[st u]|]; [|exists a; auto]. destruct Rt as [b Rt].
        exists (mkA (a_word a) (upd (a_pc a) t (ACalled (OWait w (Some u)) true)) (a_hist a)).
        split; [|right; apply (as_see a t w (Some u) b); [auto | congruence | apply only_upd]].
        split; [auto|]. split; auto. cbn. apply rel_upd; auto. reflexivity.
    + destruct clk as [now|].
      * destruct (IS_OVER_TIMESPEC st now (limit_of_usec u)).
        -- exists (mkA (a_word a) (upd (a_pc a) t (ADone ETIMEDOUT)) (a_hist a)). split; [|right; eapply as_act; [exact Rt | constructor | apply only_upd]].
           split; [auto|]. split; auto. cbn. apply rel_upd; auto. reflexivity.
        -- exists a. split; auto. apply sim_stay; cbn; eauto.
      * exists (mkA (a_word a) (upd (a_pc a) t (ADone EBUSY)) (a_hist a)). split; [|right; eapply as_act; [exact Rt | constructor | apply only_upd]].
        split; [auto|]. split; auto. cbn. apply rel_upd; auto. reflexivity.
    + exists (mkA (a_word a) (upd (a_pc a) t AI) (a_hist a ++ [SBack t r])). split; [|right; apply as_back; auto using only_upd].
      split; [auto|]. split; [cbn; rewrite H; auto|]. cbn. apply rel_upd; auto. reflexivity.
Qed.
Lemma sim_reach : forall v s, s_reach v s -> exists a, a_reach v a /\ sim s a.
Proof.
  intros v s R. induction R as [|s l R (a & A & S)].
  - exists (mkA v (fun _ => AI) []). split; [constructor; auto|]. repeat split.
  - destruct (sim_step s a l S) as (b & S' & [->|T]); [eauto|]. exists b. split; auto. econstructor; eauto.
Qed.

(** ** Retries *)
Lemma failed_written : forall t ls s, (failed t s ls <= written t s ls + misses s t)%nat.
Proof.
  intros t ls. induction ls as [|l ls IH]; intros s; cbn [failed written]; [lia|]. specialize (IH (s_step s l)).
  assert (K : (misses (s_step s l) t + match l with SStep u _ => if Z.eqb u t then misses s t else 0 | _ => 0 end
               <= misses s t + match l with SStep u _ => if Z.eqb u t then 0 else writes s u | _ => 0 end)%nat); [|lia].
  clear IH. destruct l as [u o|u clk].
  - cbn. unfold misses. destruct (s_pc s u) eqn:P; cbn; try lia. unfold upd. destruct (Z.eqb_spec t u); [subst; destruct o as [|? []]; cbn; lia | lia].
  - destruct (Z.eqb_spec u t) as [->|N].
    + cbn. unfold misses. destruct (s_pc s t) as [|v|v old|w x|w tm|w st x|r] eqn:P; cbn; rewrite ?P; try lia.
      * unfold upd. rewrite Z.eqb_refl, Z.eqb_refl. lia.
      * destruct (s_word s =? old); cbn; unfold upd; rewrite ?Z.eqb_refl; lia.
      * destruct clk; cbn; unfold upd; rewrite Z.eqb_refl; lia.
      * destruct (s_word s =? w); [cbn; unfold upd; rewrite Z.eqb_refl; lia|]. destruct tm as [[st x]|]; cbn; [unfold upd; rewrite Z.eqb_refl; lia | rewrite P; lia].
      * destruct clk; [destruct (IS_OVER_TIMESPEC st t0 (limit_of_usec x))|]; cbn; unfold upd; rewrite Z.eqb_refl; lia.
      * unfold upd. rewrite Z.eqb_refl. lia.
    + assert (O : s_pc (s_step s (SStep u clk)) t = s_pc s t).
      { cbn. destruct (s_pc s u) as [|v|v old|w x|w tm|w st x|r]; auto; try (cbn; unfold upd; destruct (Z.eqb_spec t u); congruence).
        - destruct (s_word s =? old); cbn; unfold upd; destruct (Z.eqb_spec t u); congruence.
        - destruct clk; cbn; unfold upd; destruct (Z.eqb_spec t u); congruence.
        - destruct (s_word s =? w); [cbn; unfold upd; destruct (Z.eqb_spec t u); congruence|]. destruct tm as [[st x]|]; auto. cbn; unfold upd; destruct (Z.eqb_spec t u); congruence.
        - destruct clk; [destruct (IS_OVER_TIMESPEC st t0 (limit_of_usec x))|]; cbn; unfold upd; destruct (Z.eqb_spec t u); congruence. }
      assert (B : (misses (s_step s (SStep u clk)) t <= 1)%nat) by (unfold misses; destruct (s_pc (s_step s (SStep u clk)) t); try lia; destruct (s_word (s_step s (SStep u clk)) =? old); lia).
      destruct (writes s u) eqn:WR; [|lia]. assert (E : s_word (s_step s (SStep u clk)) = s_word s).
      { unfold writes in WR. cbn. destruct (s_pc s u) as [|v|v old|w x|w tm|w st x|r]; auto.
        - destruct (s_word s =? old); [discriminate | auto].
        - destruct clk; auto.
        - destruct (s_word s =? w); auto. destruct tm as [[st x]|]; auto.
        - destruct clk; auto. destruct (IS_OVER_TIMESPEC st t0 (limit_of_usec x)); auto. }
      unfold misses. rewrite O, E. lia.
Qed.

(** ** The history tells where a thread is *)
Definition sure (o : sop) (r : Z) : Prop := match o with OWait _ (Some _) => True | _ => r = 0 end.
Definition place (p : spc) (c : option sop) : Prop :=
  match p with
  | SI => c = None
  | SLoad v | SCas v _ => c = Some (OSet v)
  | WStart w u => c = Some (OWait w (Some u))
  | WLook w None => c = Some (OWait w None)
  | WLook w (Some (_, u)) => c = Some (OWait w (Some u))
  | WClock w _ u => c = Some (OWait w (Some u))
  | SRet r => exists o, c = Some o /\ sure o r
  end.
Definition placed (s : sset) : Prop := forall t, place (s_pc s t) (current t (s_hist s)).
Lemma current_app : forall t h e, current t (h ++ [e]) = match e with SCall u o => if Z.eqb u t then Some o else current t h | SBack u _ => if Z.eqb u t then None else current t h end.
Proof. intros t h e. unfold current. rewrite fold_left_app. auto. Qed.
Lemma placed_at : forall s t p, placed s -> place p (current t (s_hist s)) -> placed (at_pc s t p).
Proof. intros s t p P H u. cbn. unfold upd. destruct (Z.eqb_spec u t); [subst; auto | apply P]. Qed.
Lemma placed_step : forall s l, placed s -> placed (s_step s l).
Proof.
  intros s l P. destruct l as [t o|t clk]; cbn [s_step]; pose proof (P t) as Q.
  - destruct (s_pc s t); auto. intro u. cbn [s_pc s_hist]. rewrite current_app. unfold upd. rewrite (Z.eqb_sym t u). destruct (Z.eqb_spec u t); [|apply P]. destruct o as [v|w [x|]]; cbn; auto.
  - destruct (s_pc s t) as [|v|v old|w x|w tm|w st x|r] eqn:E; cbn [place] in Q; auto.
    + apply placed_at; auto.
    + destruct (s_word s =? old); [|apply placed_at; auto]. intro u. cbn. unfold upd. destruct (Z.eqb_spec u t); [subst; cbn; eexists; split; eauto; reflexivity | apply P].
    + destruct clk; apply placed_at; cbn; eauto. eexists; split; eauto; exact I.
    + destruct (s_word s =? w).
      * apply placed_at; auto. cbn. destruct tm as [[st x]|]; eexists; split; eauto; try exact I; reflexivity.
      * destruct tm as [[st x]|]; auto. apply placed_at; auto.
    + destruct clk; [destruct (IS_OVER_TIMESPEC st t0 (limit_of_usec x))|]; apply placed_at; cbn; eauto; eexists; split; eauto; exact I.
    + intro u. cbn [s_pc s_hist]. rewrite current_app. unfold upd. rewrite (Z.eqb_sym t u). destruct (Z.eqb_spec u t); [cbn; auto | apply P].
Qed.
Lemma placed_reach : forall v s, s_reach v s -> placed s.
Proof. intros v s R. induction R; [intro t; cbn; auto | apply placed_step; auto]. Qed.
