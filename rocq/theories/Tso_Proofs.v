(** Data under a lock is seen as if there were no store buffers. *)
From Coq Require Import ZArith List Bool Lia.
From Verif Require Import Base Guard_Model Guard_Proofs Mutex_Model Mutex_Spec Mutex_Proofs Mutex_Proofs2 RwWord_Model RwApi_Model Tso_Model Tso_Spec.
Import ListNotations.
Open Scope Z_scope.

Section Generic.
Variables State Label Loc : Type.
Variable loc_eq : forall a b : Loc, {a = b} + {a <> b}.
Variable start : State.
Variable step : State -> Label -> State.
Variable can : State -> Label -> Prop.
Variable atomic : State -> Label -> Z -> Prop.
Variable live : State -> Z -> bool.
Variables may_write may_read : State -> Z -> Loc -> Prop.
(** the state of the lock machine; [hw], [hr]: the thread has the place for writing, for reading *)
Variable good : State -> Prop.
Variables hw hr : State -> Z -> Loc -> Prop.
Hypothesis good_start : good start.
Hypothesis good_step : forall s l, good s -> can s l -> good (step s l).
Hypothesis write_hw : forall s t x, good s -> live s t = true -> may_write s t x -> hw s t x /\ hr s t x.
Hypothesis read_hr : forall s t x, good s -> live s t = true -> may_read s t x -> hr s t x.
Hypothesis excl : forall s t u x, good s -> live s t = true -> live s u = true -> hw s t x -> hr s u x -> t = u.
Hypothesis keep : forall s l t x, good s -> can s l -> live s t = true -> hw s t x ->
  atomic s l t \/ hw (step s l) t x \/ live (step s l) t = false.

Notation X := (xstate State Loc).
Notation reach := (x_reach State Label Loc loc_eq start step can atomic live may_write).
Notation load := (x_load State Loc loc_eq).
Notation last := (last_stored loc_eq).
Notation buf := (x_buf State Loc).
Notation lk := (x_lock State Loc).

Definition pending (s : X) (t : Z) (x : Loc) : Prop := newest Loc loc_eq x (buf s t) <> None.
(** for every place one thread whose loads are right, the only one that may have stores pending there *)
Definition tinv (s : X) : Prop := good (lk s) /\ forall x, exists h,
  (forall t, t <> h -> ~ pending s t x) /\ (pending s h x -> live (lk s) h = true /\ hw (lk s) h x) /\ load s h x = last (x_log State Loc s) x.

Lemma newest_app : forall x b y v, newest Loc loc_eq x (b ++ [(y, v)]) = match newest Loc loc_eq x b with Some w => Some w | None => if loc_eq x y then Some v else None end.
Proof. induction b as [|[z w] b IH]; intros y v; cbn; [reflexivity|]. destruct (loc_eq x z); auto. Qed.

Lemma tinv_init : tinv (x_init State Loc start).
Proof. split; [exact good_start|]. intro x. exists 0. split; [intros t _ P; apply P; reflexivity|]. split; [intro P; exfalso; apply P; reflexivity | reflexivity]. Qed.

Lemma tinv_step : forall s s', tinv s -> x_step State Label Loc loc_eq step can atomic live may_write s s' -> tinv s'.
Proof.
  intros s s' [G I] D. destruct D as [s l C A DD|s t y v LV MW|s t y v b B].
  - split; [cbn; apply good_step; auto|]. intro x. destruct (I x) as (h & O & P & L). exists h. split; [exact O|]. split; [|exact L].
    intro Q. change (pending s h x) in Q. destruct (P Q) as [LV HW]. assert (NE : buf s h <> []). { intro E. apply Q. rewrite E. reflexivity. }
    destruct (keep _ l h x G C LV HW) as [K|[K|K]].
    + exfalso. apply NE, A, K.
    + split; [|exact K]. cbn. destruct (live (step (lk s) l) h) eqn:E; [reflexivity | exfalso; apply NE, DD; auto].
    + exfalso. apply NE, DD; auto.
  - split; [exact G|]. intro x. destruct (I x) as (h & O & P & L). destruct (loc_eq x y) as [->|N].
    + exists t. split; [|split].
      * intros u U Q. unfold pending in Q. cbn in Q. rewrite upd_neq in Q by auto. assert (u = h). { destruct (Z.eq_dec u h); auto. exfalso. eapply O; eauto. }
        subst u. destruct (P Q) as [LH HW]. destruct (write_hw _ _ _ G LV MW) as [_ HR]. apply U. eapply excl; eauto.
      * intros _. split; [exact LV|]. apply (write_hw _ _ _ G LV MW).
      * unfold x_load. cbn. rewrite upd_eq. cbn. destruct (loc_eq y y); [reflexivity | congruence].
    + assert (E : forall u, newest Loc loc_eq x (upd (buf s) t ((y, v) :: buf s t) u) = newest Loc loc_eq x (buf s u)).
      { intro u. destruct (Z.eq_dec u t) as [->|U]; [rewrite upd_eq; cbn; destruct (loc_eq x y); congruence | rewrite upd_neq; auto]. }
      exists h. split; [|split].
      * intros u U. unfold pending. cbn. rewrite E. exact (O u U).
      * unfold pending. cbn. rewrite E. exact P.
      * unfold x_load. cbn. rewrite E. destruct (loc_eq x y); [congruence|]. exact L.
  - split; [exact G|]. intro x. destruct (I x) as (h & O & P & L). exists h.
    assert (E : forall u, u <> t -> newest Loc loc_eq x (upd (buf s) t b u) = newest Loc loc_eq x (buf s u)) by (intros u U; rewrite upd_neq; auto).
    assert (T : newest Loc loc_eq x (buf s t) = match newest Loc loc_eq x b with Some w => Some w | None => if loc_eq x y then Some v else None end) by (rewrite B; apply newest_app).
    split; [|split].
    * intros u U. unfold pending. cbn. destruct (Z.eq_dec u t) as [->|UT].
      -- rewrite upd_eq. intro Q. apply (O t U). unfold pending. rewrite T. destruct (newest Loc loc_eq x b); congruence.
      -- rewrite E by auto. exact (O u U).
    * unfold pending. cbn. intro Q. apply P. unfold pending. destruct (Z.eq_dec h t) as [->|UT].
      -- rewrite upd_eq in Q. rewrite T. destruct (newest Loc loc_eq x b); congruence.
      -- rewrite E in Q by auto. exact Q.
    * unfold x_load in *. cbn. unfold put. destruct (Z.eq_dec h t) as [->|UT].
      -- rewrite upd_eq. rewrite T in L. destruct (newest Loc loc_eq x b); auto. destruct (loc_eq x y); auto.
      -- rewrite E by auto. destruct (newest Loc loc_eq x (buf s h)) eqn:N; auto. destruct (loc_eq x y) as [->|]; auto.
         exfalso. apply (O t); auto. unfold pending. rewrite T. destruct (newest Loc loc_eq y b); [discriminate|]. destruct (loc_eq y y); congruence.
Qed.
Lemma tinv_reach : forall s, reach s -> tinv s.
Proof. intros s R. induction R; [apply tinv_init | eapply tinv_step; eauto]. Qed.

Theorem loads_right : forall s t x, reach s -> live (lk s) t = true -> may_read (lk s) t x -> load s t x = last (x_log State Loc s) x.
Proof.
  intros s t x R LV MR. destruct (tinv_reach s R) as [G I]. destruct (I x) as (h & O & P & L). destruct (Z.eq_dec t h) as [->|N]; auto.
  assert (T : newest Loc loc_eq x (buf s t) = None). { destruct (newest Loc loc_eq x (buf s t)) eqn:E; auto. exfalso. apply (O t N). unfold pending. rewrite E. discriminate. }
  assert (H : newest Loc loc_eq x (buf s h) = None).
  { destruct (newest Loc loc_eq x (buf s h)) eqn:E; auto. exfalso. destruct P as [LH HW]; [unfold pending; rewrite E; discriminate|]. apply N. symmetry. eapply excl; eauto. }
  unfold x_load in *. rewrite T. rewrite H in L. exact L.
Qed.
End Generic.

(** ** Executable schedules, for concrete cases *)
Section Exec.
Variables State Label Loc : Type.
Variable loc_eq : forall a b : Loc, {a = b} + {a <> b}.
Variable start : State.
Variable step : State -> Label -> State.
Variable can : State -> Label -> Prop.
Variable atomic : State -> Label -> Z -> Prop.
Variable live : State -> Z -> bool.
Variable may_write : State -> Z -> Loc -> Prop.
Inductive event := ELock (l : Label) | EStore (t : Z) (x : Loc) (v : Z) | EDrain (t : Z).
Variable okb : State -> Label -> bool.
Variable need : State -> Label -> list Z.
Variable mwb : State -> Z -> Loc -> bool.
Hypothesis okb_can : forall s l, okb s l = true -> can s l.
Hypothesis need_atomic : forall s l t, atomic s l t -> In t (need s l).
Hypothesis need_dead : forall s l t, okb s l = true -> live s t = true -> live (step s l) t = false -> In t (need s l).
Hypothesis mwb_ok : forall s t x, mwb s t x = true -> may_write s t x.
Definition isnil {A} (l : list A) : bool := match l with [] => true | _ => false end.
(** an event that is not possible is skipped *)
Definition x_do (s : xstate State Loc) (e : event) : xstate State Loc :=
  match e with
  | ELock l => if okb (x_lock _ _ s) l && forallb (fun t => isnil (x_buf _ _ s t)) (need (x_lock _ _ s) l)
               then mkX _ _ (step (x_lock _ _ s) l) (x_mem _ _ s) (x_buf _ _ s) (x_log _ _ s) else s
  | EStore t x v => if live (x_lock _ _ s) t && mwb (x_lock _ _ s) t x
               then mkX _ _ (x_lock _ _ s) (x_mem _ _ s) (upd (x_buf _ _ s) t ((x, v) :: x_buf _ _ s t)) ((x, v) :: x_log _ _ s) else s
  | EDrain t => match rev (x_buf _ _ s t) with
               | [] => s
               | (x, v) :: b => mkX _ _ (x_lock _ _ s) (put Loc loc_eq (x_mem _ _ s) x v) (upd (x_buf _ _ s) t (rev b)) (x_log _ _ s)
               end
  end.
Definition x_run (es : list event) : xstate State Loc := fold_left x_do es (x_init State Loc start).
Lemma x_run_reach : forall es, x_reach State Label Loc loc_eq start step can atomic live may_write (x_run es).
Proof.
  intro es. unfold x_run. assert (G : forall s, x_reach State Label Loc loc_eq start step can atomic live may_write s -> x_reach State Label Loc loc_eq start step can atomic live may_write (fold_left x_do es s)).
  { induction es as [|e es IH]; intros s R; cbn [fold_left]; auto. apply IH. destruct e as [l|t x v|t]; cbn [x_do].
    - destruct (okb (x_lock State Loc s) l) eqn:O; auto. destruct (forallb _ _) eqn:F; auto. rewrite forallb_forall in F.
      assert (N : forall t, In t (need (x_lock State Loc s) l) -> x_buf State Loc s t = []). { intros t I. specialize (F t I). cbn in F. destruct (x_buf State Loc s t); auto. discriminate. }
      apply (xr_step _ _ _ _ _ _ _ _ _ _ s); auto. apply xs_lock; auto.
    - destruct (live (x_lock State Loc s) t) eqn:LV; auto. destruct (mwb _ t x) eqn:M; auto.
      apply (xr_step _ _ _ _ _ _ _ _ _ _ s); auto. apply xs_store; auto.
    - destruct (rev (x_buf State Loc s t)) as [|[x v] b] eqn:E; auto.
      apply (xr_step _ _ _ _ _ _ _ _ _ _ s); auto. apply xs_drain. rewrite <- (rev_involutive (x_buf State Loc s t)), E. reflexivity. }
  apply G. apply xr_init.
Qed.
End Exec.
Arguments ELock {Label Loc}.
Arguments EStore {Label Loc}.
Arguments EDrain {Label Loc}.

(** ** The internal lock of a list *)
Lemma g_reach_apply : forall s l, g_reach s -> g_can s l -> g_reach (g_apply s l).
Proof.
  intros s [t|t] R C; cbn in *.
  - destruct C as [T A]. apply (gr_step s (GRun t)); [exact R | apply g_run; auto].
  - apply (gr_step s (GDie t)); [exact R | apply g_die; auto].
Qed.
Lemma g_keep : forall s l t (x : Z), g_reach s -> g_can s l -> g_alive s t = true -> (g_word s = t /\ t <> 0) ->
  g_atomic s l t \/ (g_word (g_apply s l) = t /\ t <> 0) \/ g_alive (g_apply s l) t = false.
Proof.
  intros s l t x R C A [W T]. destruct (g_reach_inv s R) as (I1 & I2 & _). destruct l as [u|u]; [|right; left; auto].
  destruct C as [U AU]. cbn [g_apply]. destruct (Z.eq_dec u t) as [->|N].
  - destruct (g_pc s t) eqn:P; try (left; split; [reflexivity | rewrite P; exact I]); right; left; split; auto; unfold g_step; rewrite P; cbn;
      repeat match goal with |- context [if ?b then _ else _] => destruct b end; auto.
  - right. left. split; auto. pose proof (I2 u AU) as TD. pose proof (I1 u AU) as OW. unfold g_step. destruct (g_pc s u) eqn:P; cbn [g_owns g_target_dead] in *;
      repeat match goal with |- context [if ?b then _ else _] => destruct b eqn:? end; cbn [g_word]; auto;
      repeat match goal with H : (_ =? _) = true |- _ => apply Z.eqb_eq in H end; try congruence; try (exfalso; specialize (OW I); congruence);
      exfalso; destruct TD as [TD _]; congruence.
Qed.

(** ** A named mutex *)
Lemma m_keep : forall s l t (x : Z), minv s -> m_enabled s l -> m_alive s t = true -> (m_val s = t /\ t <> 0) ->
  m_atomic s l t \/ (m_val (m_step s l) = t /\ t <> 0) \/ m_alive (m_step s l) t = false.
Proof.
  intros s l t x I En A [V T]. assert (K : (forall b, l <> MRun t b) -> m_val (m_step s l) = t) by (intro N; eapply val_kept; eauto; split; auto).
  destruct l as [u c|u b|u]; try (right; left; split; [apply K; discriminate | auto]).
  destruct (Z.eq_dec u t) as [->|N]; [|right; left; split; [apply K; congruence | auto]].
  cbn [m_step]. destruct (m_pc s t) eqn:P; try (left; exists b; split; [reflexivity | rewrite P; exact Logic.I]); right; left; split; auto; unfold m_run; rewrite P; m_expose;
    repeat match goal with |- context [if ?b then _ else _] => destruct b end; auto.
Qed.
