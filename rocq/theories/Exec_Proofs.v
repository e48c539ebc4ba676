(** Proofs for C163, C164 and C166. *)
From Coq Require Import ZArith List Bool Lia.
From Verif Require Import Base Exec_Model Exec_Spec.
Import ListNotations.
Open Scope Z_scope.

Lemma mine_true : forall p t w h, mine p t w h = true <-> x_pid h = p /\ x_tid h = t /\ x_w h = w.
Proof. intros p t w h. unfold mine. rewrite !andb_true_iff, !Z.eqb_eq. destruct (what_eq (x_w h) w); intuition discriminate. Qed.
Lemma same_true : forall w h, same_name w h = true <-> x_w h = w.
Proof. intros w h. unfold same_name. destruct (what_eq (x_w h) w); intuition discriminate. Qed.
Lemma drop_in : forall P l h, In h (drop_one P l) -> In h l.
Proof. induction l as [|a l IH]; cbn; intros h H; auto. destruct (P a); [auto|]. destruct H; auto. Qed.
Lemma drop_keep : forall P l h, In h l -> P h = false -> In h (drop_one P l).
Proof. induction l as [|a l IH]; cbn; intros h H N; auto. destruct (P a) eqn:E; destruct H as [->|H]; auto; [congruence | left; auto | right; auto]. Qed.

(** ** Notes about ends change nothing else *)
Lemma mark_in : forall f l h, In h (mark f l) -> exists g, In g l /\ x_w h = x_w g /\ x_pid h = x_pid g /\ x_tid h = x_tid g /\ x_img h = x_img g.
Proof. intros f l h H. unfold mark in H. apply in_map_iff in H as (g & E & I). exists g. split; auto. destruct (f g); subst h; auto. Qed.
Lemma mark_has : forall f l h, In h l -> exists g, In g (mark f l) /\ x_w g = x_w h /\ x_pid g = x_pid h /\ x_tid g = x_tid h.
Proof. intros f l h H. exists (if f h then mkX (x_w h) (x_pid h) (x_tid h) (x_img h) true else h). split; [unfold mark; apply in_map_iff; eauto|]. destruct (f h); auto. Qed.
Lemma mark_filter : forall f w l, length (filter (same_name w) (mark f l)) = length (filter (same_name w) l).
Proof. intros f w l. induction l as [|a l IH]; auto. cbn. assert (E : same_name w (if f a then mkX (x_w a) (x_pid a) (x_tid a) (x_img a) true else a) = same_name w a) by (destruct (f a); auto). rewrite E. destruct (same_name w a); cbn; auto. Qed.
Lemma runs_thr : forall s p t, e_runs s p t = true -> e_thr s p t = true.
Proof. intros s p t H. unfold e_runs in H. apply andb_true_iff in H as [H _]. auto. Qed.

(** ** A mutex has one holder *)
Definition unique (l : list hold) : Prop := forall n, (length (filter (same_name (Mtx n)) l) <= 1)%nat.
Lemma filter_drop : forall P Q l, (length (filter Q (drop_one P l)) <= length (filter Q l))%nat.
Proof. induction l as [|a l IH]; cbn; auto. destruct (P a); destruct (Q a) eqn:E; cbn; rewrite ?E; cbn; lia. Qed.
Lemma filter_filter_le : forall P Q (l : list hold), (length (filter Q (filter P l)) <= length (filter Q l))%nat.
Proof. induction l as [|a l IH]; cbn; auto. destruct (P a); cbn; destruct (Q a); cbn; lia. Qed.
Lemma find_none_filter : forall P (l : list hold), find P l = None -> filter P l = [].
Proof. induction l as [|a l IH]; cbn; intro H; auto. destruct (P a); [discriminate | auto]. Qed.
Lemma unique_step : forall s x, unique (e_locks s) -> unique (e_locks (e_step s x)).
Proof.
  intros s x U n. specialize (U n). destruct x as [p t w|p t w|p t|p t|p t|p|p q|p fd f c|p fd|]; cbn [e_step].
  - destruct (e_runs s p t); auto. unfold e_lock. destruct w as [m|fd f k].
    + destruct (find (same_name (Mtx m)) (e_locks s)) eqn:F; [destruct (mine p t (Mtx m) h); auto|]. cbn. unfold same_name at 1. cbn [x_w].
      destruct (what_eq (Mtx m) (Mtx n)) as [E|E]; auto. inversion E; subst m. rewrite (find_none_filter _ _ F). cbn. lia.
    + assert (A : (length (filter (same_name (Mtx n)) (mkX (Rng fd f k) p t (e_img s p) false :: e_locks s)) <= 1)%nat) by exact U.
      destruct (fd <? 0); [exact A|]. destruct (e_fd s p fd) as [[g c]|]; auto. destruct (g =? f); auto.
  - destruct (e_runs s p t); auto. unfold e_unlock. destruct w as [m|fd f k].
    + destruct (find (same_name (Mtx m)) (e_locks s)) as [h|] eqn:F; auto. destruct (mine p t (Mtx m) h); auto. cbn. etransitivity; [apply filter_drop | auto].
    + destruct (find (mine p t (Rng fd f k)) (e_locks s)) as [h|] eqn:F; auto. cbn. etransitivity; [apply filter_drop | auto].
  - destruct (e_runs s p t); auto. unfold ends. cbn [set_locks e_locks]. rewrite mark_filter. auto.
  - destruct (e_thr s p p); auto.
  - destruct (negb (e_thr s p t)); auto. unfold ends; cbn [set_locks e_locks]; rewrite mark_filter; destruct (t =? p); auto.
  - unfold ends. cbn [set_locks e_locks]. rewrite mark_filter. auto.
  - destruct (e_thr s p p || negb (e_thr s q q)); auto.
  - destruct (e_thr s p p && (0 <=? fd)); auto.
  - auto.
  - cbn. etransitivity; [apply filter_filter_le | auto].
Qed.
Lemma unique_reach : forall (ok : esys -> elabel -> Prop) s0 s, unique (e_locks s0) -> e_reach ok s0 s -> unique (e_locks s).
Proof. intros ok s0 s U R. induction R; auto. apply unique_step. auto. Qed.
Lemma unique_in : forall l n h, unique l -> In h l -> x_w h = Mtx n -> find (same_name (Mtx n)) l = Some h.
Proof.
  intros l n h U. specialize (U n). induction l as [|a l IH]; intros I E; [destruct I|]. cbn in *. destruct (same_name (Mtx n) a) eqn:A.
  - destruct I as [->|I]; auto. exfalso. cbn in U. assert (Q : In h (filter (same_name (Mtx n)) l)) by (apply filter_In; split; auto; apply same_true; auto).
    destruct (filter (same_name (Mtx n)) l); [destruct Q | cbn in U; lia].
  - destruct I as [->|I]; [|auto]. assert (T : same_name (Mtx n) h = true) by (apply same_true; auto). congruence.
Qed.
Lemma drop_unique : forall l n, unique l -> find (same_name (Mtx n)) (drop_one (same_name (Mtx n)) l) = None.
Proof.
  intros l n U. specialize (U n). induction l as [|a l IH]; cbn in *; auto. destruct (same_name (Mtx n) a) eqn:A.
  - cbn in U. destruct (find (same_name (Mtx n)) l) as [h|] eqn:F; auto. apply find_some in F as [F1 F2]. assert (Q : In h (filter (same_name (Mtx n)) l)) by (apply filter_In; auto).
    destruct (filter (same_name (Mtx n)) l); [destruct Q | cbn in U; lia].
  - cbn. rewrite A. auto.
Qed.

(** ** What an old program leaves *)
Definition kept (s : esys) (h : hold) : Prop :=
  match x_w h with
  | Mtx _ => x_tid h <> x_pid h -> e_thr s (x_pid h) (x_tid h) = false
  | Rng fd file _ => if fd <? 0 then x_tid h <> x_pid h -> e_thr s (x_pid h) (x_tid h) = false
                     else forall c, e_fd s (x_pid h) fd = Some (file, c) -> c = false
  end.
Record EI (s : esys) : Prop := mkEI {
  ei_img : forall h, In h (e_locks s) -> x_img h <= e_img s (x_pid h);
  ei_old : forall h, In h (e_locks s) -> replaced s h -> kept s h;
  ei_main : forall p t, e_thr s p t = true -> e_thr s p p = true }.
Lemma EI_init : forall run, EI (e_init run).
Proof. intro run. constructor; cbn; try contradiction. intros p t H. apply andb_true_iff in H as [-> _]. apply Z.eqb_refl. Qed.
Lemma sub_locks : forall s l, incl l (e_locks s) -> EI s -> EI (set_locks s l).
Proof. intros s l I [A B C]. constructor; cbn; auto. intros h H R. apply (B h (I h H) R). Qed.
Lemma add_lock : forall s w p t, EI s -> EI (set_locks s (mkX w p t (e_img s p) false :: e_locks s)).
Proof.
  intros s w p t [A B C]. constructor; cbn; auto.
  - intros h [<-|H]; cbn; auto. lia.
  - intros h [<-|H] R; [unfold replaced in R; cbn in R; congruence | apply (B h H R)].
Qed.
Lemma EI_ends : forall f s, EI s -> EI (ends f s).
Proof.
  intros f s [A B C]. constructor; cbn; auto.
  - intros h H. destruct (mark_in _ _ _ H) as (g & I & _ & P & _ & M). rewrite M, P. auto.
  - intros h H R. destruct (mark_in _ _ _ H) as (g & I & W & P & T & M). unfold replaced in R. cbn in R. rewrite M, P in R. specialize (B g I R). unfold kept in *. cbn. rewrite W, P, T. auto.
Qed.
Lemma drop_incl : forall P l, incl (drop_one P l) l. Proof. intros P l h. apply drop_in. Qed.
Lemma EI_step : forall s x, EI s -> fresh_numbers s x -> EI (e_step s x).
Proof.
  intros s x E OK. pose proof E as [A B C]. destruct x as [p t w|p t w|p t|p t|p t|p|p q|p fd f c|p fd|]; cbn [e_step].
  - destruct (e_runs s p t); auto. unfold e_lock. destruct w as [m|fd f k].
    + destruct (find (same_name (Mtx m)) (e_locks s)); [destruct (mine p t (Mtx m) h); auto | apply add_lock; auto].
    + destruct (fd <? 0); [apply add_lock; auto|]. destruct (e_fd s p fd) as [[g c]|]; auto. destruct (g =? f); auto. apply add_lock; auto.
  - destruct (e_runs s p t); auto. unfold e_unlock. destruct w as [m|fd f k].
    + destruct (find (same_name (Mtx m)) (e_locks s)); auto. destruct (mine p t (Mtx m) h); auto. apply sub_locks; auto using drop_incl.
    + destruct (find (mine p t (Rng fd f k)) (e_locks s)); auto. apply sub_locks; auto using drop_incl.
  - destruct (e_runs s p t) eqn:T; auto. apply EI_ends. constructor; cbn.
    + intros h H. unfold upd. destruct (x_pid h =? p) eqn:Q; [apply Z.eqb_eq in Q; rewrite <- Q; specialize (A h H); lia | auto].
    + intros h H R. unfold kept. cbn. unfold replaced in R. cbn in R. unfold upd in *. destruct (x_pid h =? p) eqn:Q.
      * apply Z.eqb_eq in Q. rewrite Q. destruct (x_w h) as [m|fd f k].
        -- intro N. apply Z.eqb_neq. auto.
        -- destruct (fd <? 0); [intro N; apply Z.eqb_neq; auto|]. intros c X. destruct (e_fd s p fd) as [[g [|]]|]; congruence.
      * specialize (B h H R). exact B.
    + intros q u. unfold upd. destruct (q =? p) eqn:Q; [intros _; apply Z.eqb_eq in Q; subst q; apply Z.eqb_refl | apply C].
  - destruct (e_thr s p p) eqn:T; auto. cbn in OK. constructor; cbn; auto.
    + intros h H R. specialize (B h H R). unfold kept in *. cbn.
      assert (F : x_tid h <> x_pid h -> e_thr s (x_pid h) (x_tid h) = false -> upd (e_thr s) p (upd (e_thr s p) t true) (x_pid h) (x_tid h) = false).
      { intros _ K. unfold upd at 1. destruct (x_pid h =? p) eqn:Q; auto. apply Z.eqb_eq in Q. unfold upd. destruct (x_tid h =? t) eqn:Q2; [|rewrite Q in K; auto]. apply Z.eqb_eq in Q2. destruct (OK h H Q Q2). }
      destruct (x_w h) as [m|fd f k]; auto. destruct (fd <? 0); auto.
    + intros q u. unfold upd at 1 3. destruct (q =? p) eqn:Q; [|apply C]. intros _. apply Z.eqb_eq in Q. subst q. unfold upd. destruct (p =? t); auto.
  - destruct (negb (e_thr s p t)); auto. apply EI_ends. destruct (t =? p) eqn:TP; [constructor; auto|]. apply Z.eqb_neq in TP. constructor; cbn; auto.
    + intros h H R. specialize (B h H R). unfold kept in *. cbn.
      assert (F : e_thr s (x_pid h) (x_tid h) = false -> upd (e_thr s) p (upd (e_thr s p) t false) (x_pid h) (x_tid h) = false).
      { intro K. unfold upd at 1. destruct (x_pid h =? p) eqn:Q; auto. apply Z.eqb_eq in Q. unfold upd. destruct (x_tid h =? t); auto. rewrite Q in K. auto. }
      destruct (x_w h) as [m|fd f k]; auto. destruct (fd <? 0); auto.
    + intros q u. unfold upd at 1 3. destruct (q =? p) eqn:Q; [|apply C]. apply Z.eqb_eq in Q. subst q. unfold upd. destruct (u =? t); [discriminate|]. intro K.
      destruct (p =? t) eqn:PT; [apply Z.eqb_eq in PT; congruence | eauto].
  - apply EI_ends. constructor; cbn; auto.
    + intros h H R. specialize (B h H R). unfold kept in *. cbn. unfold upd. destruct (x_pid h =? p); auto. destruct (x_w h) as [m|fd f k]; auto. destruct (fd <? 0); auto. intros c X. discriminate.
    + intros q u. unfold upd. destruct (q =? p); [discriminate | apply C].
  - destruct (e_thr s p p || negb (e_thr s q q)) eqn:T; auto. cbn in OK. constructor; cbn.
    + intros h H. unfold upd. destruct (x_pid h =? p) eqn:Q; [apply Z.eqb_eq in Q; destruct (OK h H Q) | auto].
    + intros h H R. pose proof (OK h H) as N. unfold kept, replaced in *. cbn in *. unfold upd in *. apply Z.eqb_neq in N. rewrite N in *. apply (B h H R).
    + intros r u. unfold upd. destruct (r =? p) eqn:Q; [intros _; apply Z.eqb_eq in Q; subst r; apply Z.eqb_refl | apply C].
  - destruct (e_thr s p p && (0 <=? fd)) eqn:T; auto. cbn in OK. constructor; cbn; auto.
    intros h H R. specialize (B h H R). unfold kept in *. cbn. destruct (x_w h) as [m|fd' f' k] eqn:W; auto. destruct (fd' <? 0); auto. intros c0.
    unfold upd at 1. destruct (x_pid h =? p) eqn:Q; [|apply B]. apply Z.eqb_eq in Q. unfold upd. destruct (fd' =? fd) eqn:Q2; [|rewrite <- Q; apply B].
    apply Z.eqb_eq in Q2. subst fd'. intro X. inversion X; subst. destruct (OK h k H eq_refl W).
  - constructor; cbn; auto.
    intros h H R. specialize (B h H R). unfold kept in *. cbn. destruct (x_w h) as [m|fd' f' k] eqn:W; auto. destruct (fd' <? 0); auto. intros c0.
    unfold upd at 1. destruct (x_pid h =? p) eqn:Q; [|apply B]. apply Z.eqb_eq in Q. unfold upd. destruct (fd' =? fd); [discriminate | rewrite <- Q; apply B].
  - apply sub_locks; auto. intros h H. apply filter_In in H as [H _]. auto.
Qed.
Lemma EI_reach : forall (ok : esys -> elabel -> Prop) run s, (forall s x, ok s x -> fresh_numbers s x) -> e_reach ok (e_init run) s -> EI s.
Proof. intros ok run s O R. induction R; [apply EI_init | apply EI_step; auto]. Qed.

(** ** The main thread keeps the mutex of the old program *)
Definition holds_main (s : esys) (p n : Z) : Prop := e_thr s p p = true /\ exists h, In h (e_locks s) /\ x_w h = Mtx n /\ x_pid h = p /\ x_tid h = p.
Lemma main_ends : forall f s p n, holds_main s p n -> holds_main (ends f s) p n.
Proof.
  intros f s p n (T & h & I & W & P & Q). split; auto. destruct (mark_has f _ _ I) as (g & G & GW & GP & GT). exists g. cbn. repeat split; auto; congruence.
Qed.
Lemma main_step : forall s x p n, unique (e_locks s) -> holds_main s p n -> ignores p n s x -> holds_main (e_step s x) p n.
Proof.
  intros s x p n U (T & h & I & W & P & Q) OK. pose proof (unique_in _ _ _ U I W) as FU. destruct x as [q t w|q t w|q t|q t|q t|q|q r|q fd f c|q fd|]; cbn [e_step].
  - assert (K : holds_main s p n) by (split; eauto). assert (K2 : holds_main (set_locks s (mkX w q t (e_img s q) false :: e_locks s)) p n) by (split; auto; exists h; cbn; auto).
    destruct (e_runs s q t); auto. unfold e_lock. destruct w as [m|fd f k].
    + destruct (find (same_name (Mtx m)) (e_locks s)); [destruct (mine q t (Mtx m) h0); auto | auto].
    + destruct (fd <? 0); auto. destruct (e_fd s q fd) as [[g c]|]; auto. destruct (g =? f); auto.
  - assert (K : holds_main s p n) by (split; eauto). destruct (e_runs s q t); auto. unfold e_unlock. destruct w as [m|fd f k].
    + destruct (find (same_name (Mtx m)) (e_locks s)) as [h0|] eqn:F; auto. destruct (mine q t (Mtx m) h0) eqn:M; auto. cbn. split; auto. exists h. cbn. repeat split; auto.
      apply drop_keep; auto. destruct (same_name (Mtx m) h) eqn:SN; auto. exfalso. apply same_true in SN. rewrite W in SN. inversion SN; subst m. rewrite FU in F. inversion F; subst h0.
      apply mine_true in M as (M1 & M2 & _). apply OK. repeat split; congruence.
    + destruct (find (mine q t (Rng fd f k)) (e_locks s)) as [h0|] eqn:F; auto. cbn. split; auto. exists h. cbn. repeat split; auto. apply drop_keep; auto.
      destruct (mine q t (Rng fd f k) h) eqn:M; auto. apply mine_true in M as (_ & _ & M). congruence.
  - assert (K : holds_main s p n) by (split; eauto). destruct (e_runs s q t); auto. apply main_ends. split; [|exists h; cbn; auto]. cbn. unfold upd. destruct (p =? q) eqn:PQ; auto.
  - assert (K : holds_main s p n) by (split; eauto). destruct (e_thr s q q); auto. split; [|exists h; cbn; auto]. cbn. unfold upd at 1. destruct (p =? q) eqn:PQ; auto. unfold upd. destruct (p =? t); auto. apply Z.eqb_eq in PQ. subst q. auto.
  - assert (K : holds_main s p n) by (split; eauto). destruct (negb (e_thr s q t)); auto. apply main_ends. destruct (t =? q) eqn:TQ; [split; [auto | exists h; cbn; auto]|]. split; [|exists h; cbn; auto]. cbn. unfold upd at 1. destruct (p =? q) eqn:PQ; auto. apply Z.eqb_eq in PQ. subst q. unfold upd. rewrite Z.eqb_sym in TQ. rewrite TQ. auto.
  - apply main_ends. split; [|exists h; cbn; auto]. cbn in *. unfold upd. destruct (p =? q) eqn:PQ; auto. apply Z.eqb_eq in PQ. congruence.
  - assert (K : holds_main s p n) by (split; eauto). destruct (e_thr s q q || negb (e_thr s r r)) eqn:QR; auto. apply orb_false_iff in QR as [QR _]. split; [|exists h; cbn; auto].
    cbn. unfold upd. destruct (p =? q) eqn:PQ; auto.
  - assert (K : holds_main s p n) by (split; eauto). destruct (e_thr s q q && (0 <=? fd)); exact K.
  - split; [auto | exists h; cbn; auto].
  - split; [auto|]. exists h. cbn. split; auto. apply filter_In. split; auto. unfold lost. rewrite W, P, Q, T. auto.
Qed.
Lemma main_reach : forall s0 s p n, unique (e_locks s0) -> holds_main s0 p n -> e_reach (ignores p n) s0 s -> unique (e_locks s) /\ holds_main s p n.
Proof. intros s0 s p n U H R. induction R as [|s x R [IU IH] O]; auto. split; [apply unique_step; auto | apply main_step; auto]. Qed.

(** ** Without execve, and process numbers not used while locks are registered, all locks are of present processes or of numbers nobody has *)
Lemma same_ends : forall f s, (forall h, In h (e_locks s) -> x_img h = e_img s (x_pid h)) -> forall h, In h (e_locks (ends f s)) -> x_img h = e_img (ends f s) (x_pid h).
Proof. intros f s A h H. cbn in *. destruct (mark_in _ _ _ H) as (g & I & _ & P & _ & M). rewrite M, P. auto. Qed.
Lemma same_step : forall s x, no_exec s x -> fresh_process s x -> (forall h, In h (e_locks s) -> x_img h = e_img s (x_pid h)) ->
  forall h, In h (e_locks (e_step s x)) -> x_img h = e_img (e_step s x) (x_pid h).
Proof.
  intros s x NE FP A. assert (ADD : forall w p t h, In h (mkX w p t (e_img s p) false :: e_locks s) -> x_img h = e_img s (x_pid h)) by (intros w p t h [<-|H]; auto).
  destruct x as [p t w|p t w|p t|p t|p t|p|p q|p fd f c|p fd|]; cbn [e_step].
  - destruct (e_runs s p t); auto. unfold e_lock. destruct w as [m|fd f k].
    + destruct (find (same_name (Mtx m)) (e_locks s)); [destruct (mine p t (Mtx m) h); auto | apply ADD].
    + destruct (fd <? 0); [apply ADD|]. destruct (e_fd s p fd) as [[g c]|]; auto. destruct (g =? f); auto. apply ADD.
  - destruct (e_runs s p t); auto. unfold e_unlock. destruct w as [m|fd f k].
    + destruct (find (same_name (Mtx m)) (e_locks s)); auto. destruct (mine p t (Mtx m) h); auto. intros h0 H. apply A. apply drop_in in H. auto.
    + destruct (find (mine p t (Rng fd f k)) (e_locks s)); auto. intros h0 H. apply A. apply drop_in in H. auto.
  - destruct NE.
  - destruct (e_thr s p p); auto.
  - destruct (negb (e_thr s p t)); auto. apply same_ends. destruct (t =? p); auto.
  - apply same_ends. auto.
  - cbn in FP. destruct (e_thr s p p || negb (e_thr s q q)); auto. cbn. intros h H. unfold upd. destruct (x_pid h =? p) eqn:Q; [apply Z.eqb_eq in Q; destruct (FP h H Q) | auto].
  - destruct (e_thr s p p && (0 <=? fd)); auto.
  - auto.
  - cbn. intros h H. apply filter_In in H as [H _]. auto.
Qed.

(** ** Processes without main thread have no thread and no descriptor *)
Definition gone_ok (s : esys) : Prop := forall p, e_thr s p p = false -> (forall t, e_thr s p t = false) /\ (forall fd, e_fd s p fd = None).
Lemma gone_init : forall run, gone_ok (e_init run).
Proof. intros run p H. cbn in *. rewrite Z.eqb_refl, andb_true_r in H. split; auto. intro t. rewrite H. auto. Qed.
Lemma gone_step : forall s x, gone_ok s -> gone_ok (e_step s x).
Proof.
  intros s x G. assert (L : forall l, gone_ok (set_locks s l)) by (intros l p H; apply G; auto).
  destruct x as [p t w|p t w|p t|p t|p t|p|p q|p fd f c|p fd|]; cbn [e_step].
  - destruct (e_runs s p t); auto. unfold e_lock. destruct w as [m|fd f k].
    + destruct (find (same_name (Mtx m)) (e_locks s)); [destruct (mine p t (Mtx m) h); auto | auto].
    + destruct (fd <? 0); auto. destruct (e_fd s p fd) as [[g c]|]; auto. destruct (g =? f); auto.
  - destruct (e_runs s p t); auto. unfold e_unlock. destruct w as [m|fd f k].
    + destruct (find (same_name (Mtx m)) (e_locks s)); auto. destruct (mine p t (Mtx m) h); auto.
    + destruct (find (mine p t (Rng fd f k)) (e_locks s)); auto.
  - destruct (e_runs s p t) eqn:T; auto. intros r. cbn. unfold upd. destruct (r =? p) eqn:Q; [|exact (G r)]. apply Z.eqb_eq in Q. subst r. rewrite Z.eqb_refl. discriminate.
  - destruct (e_thr s p p) eqn:T; auto. intros r. cbn. unfold upd. destruct (r =? p) eqn:Q; [|exact (G r)]. apply Z.eqb_eq in Q. subst r. destruct (p =? t); congruence.
  - destruct (negb (e_thr s p t)); auto. destruct (t =? p) eqn:TP; [intros r; cbn; apply G|]. intros r. cbn. unfold upd. destruct (r =? p) eqn:Q; [|exact (G r)]. apply Z.eqb_eq in Q. subst r. rewrite (Z.eqb_sym p t), TP. intro H.
    destruct (G p H) as [G1 G2]. split; auto. intro u. destruct (u =? t); auto.
  - intros r. cbn. unfold upd. destruct (r =? p); [auto | exact (G r)].
  - destruct (e_thr s p p || negb (e_thr s q q)); auto. intros r. cbn. unfold upd. destruct (r =? p) eqn:Q; [|exact (G r)]. apply Z.eqb_eq in Q. subst r. rewrite Z.eqb_refl. discriminate.
  - destruct (e_thr s p p && (0 <=? fd)) eqn:T; auto. apply andb_true_iff in T as [T _]. intros r H. cbn in *. split; [apply G; auto|]. intro d. unfold upd at 1. destruct (r =? p) eqn:Q; [|apply G; auto]. apply Z.eqb_eq in Q. congruence.
  - intros r H. cbn in *. split; [apply G; auto|]. intro d. unfold upd at 1. destruct (r =? p) eqn:Q; [|apply G; auto]. apply Z.eqb_eq in Q. subst r. unfold upd. destruct (d =? fd); auto. apply G; auto.
  - apply L.
Qed.
Lemma gone_reach : forall (ok : esys -> elabel -> Prop) run s, e_reach ok (e_init run) s -> gone_ok s.
Proof. intros ok run s R. induction R; [apply gone_init | apply gone_step; auto]. Qed.

(** ** What an ended thread leaves *)
Definition left (s : esys) (h : hold) : Prop :=
  match x_w h with
  | Mtx _ => x_tid h <> x_pid h -> e_thr s (x_pid h) (x_tid h) = false
  | Rng fd _ _ => fd < 0 -> x_tid h <> x_pid h -> e_thr s (x_pid h) (x_tid h) = false
  end.
Definition over (s : esys) : Prop := forall h, In h (e_locks s) -> x_done h = true -> left s h.
Lemma over_sub : forall s l, incl l (e_locks s) -> over s -> over (set_locks s l).
Proof. intros s l I O h H D. apply (O h (I h H) D). Qed.
Lemma left_thr : forall s s' h, (x_tid h <> x_pid h -> e_thr s (x_pid h) (x_tid h) = false -> e_thr s' (x_pid h) (x_tid h) = false) -> left s h -> left s' h.
Proof. intros s s' h F. unfold left. destruct (x_w h); auto. Qed.
Lemma over_ends : forall f s s', e_locks s' = e_locks s -> over s ->
  (forall h, In h (e_locks s) -> x_tid h <> x_pid h -> e_thr s (x_pid h) (x_tid h) = false -> e_thr s' (x_pid h) (x_tid h) = false) ->
  (forall h, In h (e_locks s) -> f h = true -> x_tid h <> x_pid h -> e_thr s' (x_pid h) (x_tid h) = false) -> over (ends f s').
Proof.
  intros f s s' E O K N h H D. cbn in H. rewrite E in H. unfold mark in H. apply in_map_iff in H as (g & G & I). destruct (f g) eqn:F.
  - subst h. unfold left. cbn. specialize (N g I F). destruct (x_w g); auto.
  - subst h. apply (left_thr s); [apply (K g I) | apply (O g I D)].
Qed.
Lemma over_step : forall s x, over s -> fresh_numbers s x -> over (e_step s x).
Proof.
  intros s x O OK. assert (ADD : forall w p t, over (set_locks s (mkX w p t (e_img s p) false :: e_locks s))).
  { intros w p t h [<-|H] D; [discriminate | apply (O h H D)]. }
  destruct x as [p t w|p t w|p t|p t|p t|p|p q|p fd f c|p fd|]; cbn [e_step].
  - destruct (e_runs s p t); auto. unfold e_lock. destruct w as [m|fd f k].
    + destruct (find (same_name (Mtx m)) (e_locks s)); [destruct (mine p t (Mtx m) h); auto | apply ADD].
    + destruct (fd <? 0); [apply ADD|]. destruct (e_fd s p fd) as [[g c]|]; auto. destruct (g =? f); auto. apply ADD.
  - destruct (e_runs s p t); auto. unfold e_unlock. destruct w as [m|fd f k].
    + destruct (find (same_name (Mtx m)) (e_locks s)); auto. destruct (mine p t (Mtx m) h); auto. apply over_sub; auto using drop_incl.
    + destruct (find (mine p t (Rng fd f k)) (e_locks s)); auto. apply over_sub; auto using drop_incl.
  - destruct (e_runs s p t); auto. apply (over_ends _ s); auto; cbn; intros h I.
    + intros N K. unfold upd. destruct (x_pid h =? p) eqn:Q; auto. apply Z.eqb_eq in Q. apply Z.eqb_neq. congruence.
    + intros Q N. unfold upd. rewrite Q. apply Z.eqb_eq in Q. apply Z.eqb_neq. congruence.
  - destruct (e_thr s p p); auto. cbn in OK. intros h H D. apply (left_thr s); [|apply (O h H D)]. cbn. intros _ K. unfold upd at 1. destruct (x_pid h =? p) eqn:Q; auto.
    apply Z.eqb_eq in Q. unfold upd. destruct (x_tid h =? t) eqn:Q2; [|rewrite Q in K; auto]. apply Z.eqb_eq in Q2. destruct (OK h H Q Q2).
  - destruct (negb (e_thr s p t)); auto. destruct (t =? p) eqn:TP.
    + apply (over_ends _ s); auto; cbn; intros h I.
      intros F N. exfalso. apply andb_true_iff in F as [F1 F2]. apply Z.eqb_eq in F1, F2, TP. congruence.
    + apply (over_ends _ s); auto; cbn; intros h I.
      * intros N K. unfold upd at 1. destruct (x_pid h =? p) eqn:Q; auto. apply Z.eqb_eq in Q. unfold upd. destruct (x_tid h =? t); auto. rewrite Q in K. auto.
      * intros F N. apply andb_true_iff in F as [F1 F2]. unfold upd at 1. rewrite F1. unfold upd. rewrite F2. auto.
  - apply (over_ends _ s); auto; cbn; intros h I.
    + intros N K. unfold upd. destruct (x_pid h =? p); auto.
    + intros Q N. unfold upd. rewrite Q. auto.
  - destruct (e_thr s p p || negb (e_thr s q q)); auto. cbn in OK. intros h H D. apply (left_thr s); [|apply (O h H D)]. cbn. intros _ K. unfold upd.
    destruct (x_pid h =? p) eqn:Q; auto. apply Z.eqb_eq in Q. destruct (OK h H Q).
  - destruct (e_thr s p p && (0 <=? fd)); auto.
  - auto.
  - apply over_sub; auto. intros h H. apply filter_In in H as [H _]. auto.
Qed.
Lemma over_reach : forall run s, e_reach fresh_numbers (e_init run) s -> over s.
Proof. intros run s R. induction R; [intros h [] | apply over_step; auto]. Qed.

(** ** The mutex of an ended main thread *)
Lemma zomb_step : forall s p n x, unique (e_locks s) -> holds_main s p n -> e_zomb s p = true -> goes_on p s x -> holds_main (e_step s x) p n /\ e_zomb (e_step s x) p = true.
Proof.
  intros s p n x U HM Z G.
  assert (K : (exists w, x = EUnlock p p w) \/ ignores p n s x).
  { destruct x as [q t w|q t w|q t|q t|q t|q|q r|q fd f c|q fd|]; cbn; auto.
    destruct (Z.eq_dec q p), (Z.eq_dec t p); subst; [left; eauto | right; intuition | right; intuition | right; intuition]. }
  destruct K as [(w & ->)|K].
  - cbn. unfold e_runs. rewrite Z, Z.eqb_refl. rewrite andb_false_r. auto.
  - split; [apply main_step; auto|]. destruct HM as [T _].
    destruct x as [q t w|q t w|q t|q t|q t|q|q r|q fd f c|q fd|]; cbn in *.
    + destruct (e_runs s q t); auto. unfold e_lock. destruct w as [m|fd f k].
      * destruct (find (same_name (Mtx m)) (e_locks s)); auto. destruct (mine q t (Mtx m) h); auto.
      * destruct (fd <? 0); auto. destruct (e_fd s q fd) as [[g c]|]; auto. destruct (g =? f); auto.
    + destruct (e_runs s q t); auto. unfold e_unlock. destruct w as [m|fd f k].
      * destruct (find (same_name (Mtx m)) (e_locks s)); auto. destruct (mine q t (Mtx m) h); auto.
      * destruct (find (mine q t (Rng fd f k)) (e_locks s)); auto.
    + destruct (e_runs s q t); auto. cbn. unfold upd. destruct (p =? q) eqn:Q; auto. apply Z.eqb_eq in Q. congruence.
    + destruct (e_thr s q q); auto.
    + destruct (negb (e_thr s q t)); auto. cbn. destruct (t =? q); auto. cbn. unfold upd. destruct (p =? q); auto.
    + unfold upd. destruct (p =? q) eqn:Q; auto. apply Z.eqb_eq in Q. congruence.
    + destruct (e_thr s q q) eqn:TQ; cbn; auto. destruct (negb (e_thr s r r)); auto. cbn. unfold upd. destruct (p =? q) eqn:Q; auto. apply Z.eqb_eq in Q. congruence.
    + destruct (e_thr s q q && (0 <=? fd)); auto.
    + auto.
    + auto.
Qed.
Lemma zomb_reach : forall s0 s p n, unique (e_locks s0) -> holds_main s0 p n -> e_zomb s0 p = true -> e_reach (goes_on p) s0 s -> unique (e_locks s) /\ holds_main s p n /\ e_zomb s p = true.
Proof.
  intros s0 s p n U H Z R. induction R as [|s x R (U1 & H1 & Z1) O]; auto. split; [apply unique_step; auto|]. apply zomb_step; auto.
Qed.
