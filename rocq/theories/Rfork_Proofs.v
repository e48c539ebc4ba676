(** When threads fork only before their first call, the read/write lock machine sees only threads that /proc knows. *)
From Coq Require Import ZArith List Bool Lia.
From Verif Require Import Base Pid_Model Pid_Proofs Mutex_Model Fchild_Model Fchild_Proofs RwWord_Model RwApi_Model RwApi_Spec RwApi_Proofs RwApi_Proofs2 RwApi_Proofs3 RwApi_Proofs5 Rfork_Model Rfork_Spec.
Import ListNotations.
Open Scope Z_scope.

(** ** Running one thread on two states that look the same to it *)
Definition same_r (a b : rstate) : Prop := r_h a = r_h b /\ r_guard a = r_guard b /\ r_pc a = r_pc b /\ r_res a = r_res b.

Lemma same_check : forall a b priv exc dev o k l, r_h a = r_h b ->
  probe_dead a priv (l_tid (h_l (r_h a) l)) (l_fd (h_l (r_h a) l)) dev = probe_dead b priv (l_tid (h_l (r_h a) l)) (l_fd (h_l (r_h a) l)) dev ->
  check_locker a priv exc dev o k l = check_locker b priv exc dev o k l.
Proof. intros a b priv exc dev o k l H P. unfold check_locker. rewrite <- H, P. reflexivity. Qed.

Lemma view_run_r : forall a b t race gu, same_r a b -> (forall u, r_guard a = Some u -> alive a u = alive b u) ->
  (forall l priv dev, probe_dead a priv (l_tid (h_l (r_h a) l)) (l_fd (h_l (r_h a) l)) dev = probe_dead b priv (l_tid (h_l (r_h a) l)) (l_fd (h_l (r_h a) l)) dev) ->
  r_mode a (proc_of_thread t) = r_mode b (proc_of_thread t) -> same_r (r_run a t race gu) (r_run b t race gu).
Proof.
  intros a b t race gu (E1 & E2 & E3 & E4) G P M.
  assert (FF : my_free_fd b t = my_free_fd a t) by (unfold my_free_fd; rewrite M; auto).
  assert (FO : my_free_off b t = my_free_off a t) by (unfold my_free_off; rewrite M; auto).
  assert (CK : forall priv exc dev o k l, check_locker b priv exc dev o k l = check_locker a priv exc dev o k l) by (intros; symmetry; apply same_check; auto).
  unfold r_run, pass_step, after_f1, after_f2. rewrite <- E1, <- E2, <- E3, FF, FO.
  destruct (r_pc a t) as [ |p|p|e|x|x f|x f o|x f o l|x f o l|x f o l|x f o l ls|x f o e|x f e|x e|x|x f o k l|x f o k l|x f o|x f|x|priv|priv fs os ls] eqn:PC;
    try (match type of ls with list _ => destruct ls as [|[k y] ls] end); rewrite ?CK;
    try (destruct (r_guard a) as [u|] eqn:GU; [rewrite <- (G u eq_refl)|]);
    repeat match goal with |- context [match ?z with _ => _ end] => match type of z with rstate => fail 1 | _ => destruct z eqn:? end end;
    unfold same_r, goto, ret, set_h, set_guard; cbn [r_h r_guard r_pc r_res]; rewrite <- ?E1, <- ?E2, <- ?E3, <- ?E4; rewrite ?CK; auto; try congruence.
Qed.

Lemma view_call_r : forall a b t c, same_r a b -> (forall fd, dev_of a t fd = dev_of b t fd) -> r_allow a (proc_of_thread t) = r_allow b (proc_of_thread t) ->
  same_r (r_call a t c) (r_call b t c).
Proof.
  intros a b t c (E1 & E2 & E3 & E4) D A. unfold r_call. destruct c; rewrite <- ?D, <- ?A; try (destruct (dev_of a t fd)); repeat split; cbn; congruence.
Qed.
Lemma call_env : forall s t c, let s' := r_call s t c in
  r_h s' = r_h s /\ r_guard s' = r_guard s /\ r_talive s' = r_talive s /\ r_palive s' = r_palive s /\ r_fd s' = r_fd s /\ r_mode s' = r_mode s /\ r_allow s' = r_allow s /\
  (forall u, u <> t -> r_pc s' u = r_pc s u).
Proof.
  intros s t c. unfold r_call. destruct c; try destruct (dev_of s t fd); cbn; repeat split; auto; intros u N; apply upd_neq; auto.
Qed.

(** ** Which threads the shared memory and the program points mention *)
Record says (ids : Z -> Prop) (r : rstate) : Prop := mkSays {
  n_tid : forall l, l_tid (h_l (r_h r) l) = 0 \/ ids (l_tid (h_l (r_h r) l));
  n_grd : forall u, r_guard r = Some u -> ids u;
  n_act : forall t, r_pc r t <> RIdle -> ids t
}.
Lemma says_mono : forall (a b : Z -> Prop) r, (forall id, a id -> b id) -> says a r -> says b r.
Proof. intros a b r H [A B C]. constructor; auto. intro l. destruct (A l); auto. Qed.
Lemma says_same : forall ids a b, same_r a b -> says ids a -> says ids b.
Proof. intros ids a b (E1 & E2 & E3 & _) [A B C]. constructor; [rewrite <- E1 | rewrite <- E2 | rewrite <- E3]; auto. Qed.

Lemma free_offs_l : forall h f, h_l (free_offs h f) = h_l h.
Proof.
  intros h f. unfold free_offs. cbn. generalize (f_offs (h_f h f)). intro os. revert h.
  induction os as [|o os IH]; intro h; cbn; auto. rewrite IH. reflexivity.
Qed.
Lemma check_l : forall s priv exc dev o k l, h_l (check_locker s priv exc dev o k l) = h_l (r_h s).
Proof.
  intros s priv exc dev o k l. unfold check_locker. cbv zeta.
  repeat match goal with |- context [if ?z then _ else _] => destruct z | |- context [match ?z with Some _ => _ | None => _ end] => destruct z as [[? ?]|] end; reflexivity.
Qed.
Lemma run_tid : forall s t race gu l, l_tid (h_l (r_h (r_run s t race gu)) l) = l_tid (h_l (r_h s) l) \/ l_tid (h_l (r_h (r_run s t race gu)) l) = t.
Proof.
  intros s t race gu l. unfold r_run, pass_step.
  assert (SL : forall h x b, h = r_h s -> l_tid (upd (h_l h) x (l_set_locked (h_l h x) b) l) = l_tid (h_l (r_h s) l)).
  { intros h x b ->. destruct (Z.eq_dec l x) as [->|N]; [rewrite upd_eq; auto | rewrite upd_neq by auto; auto]. }
  destruct (r_pc s t) eqn:PC;
    repeat match goal with |- context [match ?z with _ => _ end] => match type of z with rstate => fail 1 | _ => destruct z eqn:? end end;
    cbn -[check_locker free_offs]; rewrite ?check_l, ?free_offs_l; auto;
    match goal with
    | |- context [upd (h_l (r_h s)) ?x (mkL t ?fd false) l] => destruct (Z.eq_dec l x) as [->|N]; [rewrite upd_eq; auto | rewrite upd_neq by auto; auto]
    | |- context [upd (h_l (r_h s)) ?x (l_set_locked _ _) l] => left; apply SL; auto
    | _ => idtac
    end.
Qed.
Lemma run_grd : forall s t race gu u, r_guard (r_run s t race gu) = Some u -> r_guard s = Some u \/ u = t.
Proof.
  intros s t race gu u. unfold r_run, pass_step. destruct (r_pc s t) eqn:PC;
    repeat match goal with |- context [match ?z with _ => _ end] => match type of z with rstate => fail 1 | _ => destruct z eqn:? end end;
    cbn; intro H; first [left; congruence | right; congruence].
Qed.
Lemma says_run : forall ids s t race gu, says ids s -> ids t -> says ids (r_run s t race gu).
Proof.
  intros ids s t race gu [A B C] I. constructor.
  - intro l. destruct (run_tid s t race gu l) as [->| ->]; auto.
  - intros u H. destruct (run_grd s t race gu u H) as [H'| ->]; auto.
  - intros u H. destruct (Z.eq_dec u t) as [->|N]; auto. apply C. destruct (run_other s t race gu u N) as [Q _]. rewrite <- Q. exact H.
Qed.
Lemma says_call : forall ids s t c, says ids s -> ids t -> says ids (r_call s t c).
Proof.
  intros ids s t c [A B C] I. destruct (call_env s t c) as (E1 & E2 & _ & _ & _ & _ & _ & E3). constructor.
  - rewrite E1. auto.
  - rewrite E2. auto.
  - intros u H. destruct (Z.eq_dec u t) as [->|N]; auto. apply C. rewrite <- E3; auto.
Qed.
