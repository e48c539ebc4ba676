(** Named mutexes: every registered entry behaves as the mutex of Mutex_Model.v. *)
From Coq Require Import ZArith List Bool Lia.
From Verif Require Import Base Name_Model Name_Spec Name_Proofs Mutex_Model Mutex_Spec Mutex_Proofs Mutex_Proofs2 Mutex_Props
  Lin_Spec Lin_Proofs Nmtx_Model Nmtx_Spec.
Import ListNotations.
Open Scope Z_scope.

(** ** A step depends on the entry and the own program point only *)
Definition takes (p : mpc) : bool := match p with MUGuard | MKGuard _ => true | _ => false end.
Definition drops (p : mpc) : bool := match p with MURel _ | MKRel _ => true | _ => false end.

Record agree (s1 s2 : mstate) (t : Z) : Prop := {
  ag_val : m_val s1 = m_val s2;
  ag_cnt : m_cnt s1 = m_cnt s2;
  ag_pc : m_pc s1 t = m_pc s2 t
}.

Ltac m_cases Ep :=
  unfold m_take_guard, m_drop_guard, m_unlock_end, m_failed, m_locked, m_unlocked, m_return, m_goto, m_set in *;
  repeat (match goal with
          | |- context [if ?c then _ else _] => let E := fresh "E" in destruct c eqn:E
          | |- context [match ?x with _ => _ end] => is_var x; destruct x
          end; simpl; rewrite ?upd_eq, ?Ep; auto).

Lemma run_local : forall s1 s2 t b, agree s1 s2 t -> (forall u, m_alive s1 u = m_alive s2 u) -> takes (m_pc s1 t) = false ->
  agree (m_run s1 t b) (m_run s2 t b) t.
Proof.
  intros s1 s2 t b [V C P] A T. unfold m_run. rewrite P in *. destruct (m_pc s2 t) as [ |k|k|k|k|k|k| |g|g|g|g old|g|g|r|ret|ret|ret v|ret|ret c|ret|ret v|ret] eqn:Ep;
    try discriminate; rewrite ?V, ?C, ?A;
  unfold m_take_guard, m_drop_guard, m_unlock_end, m_failed, m_locked, m_unlocked, m_return, m_goto, m_set;
  repeat (match goal with
          | |- context [if ?c then _ else _] => let E := fresh "E" in destruct c eqn:E
          | |- context [match ?x with _ => _ end] => is_var x; destruct x
          end; simpl);
  constructor; simpl; rewrite ?upd_eq, ?V, ?C; auto; congruence.
Qed.
Lemma run_guard : forall s t b, takes (m_pc s t) = false ->
  m_guard (m_run s t b) = if drops (m_pc s t) then (if m_guard s =? t then 0 else m_guard s) else m_guard s.
Proof.
  intros s t b T. unfold m_run. destruct (m_pc s t) as [ |k|k|k|k|k|k| |g|g|g|g old|g|g|r|ret|ret|ret v|ret|ret c|ret|ret v|ret] eqn:Ep;
    try discriminate; simpl; m_cases Ep; try reflexivity; try congruence; simpl; auto.
Qed.
(** a call that ends has a result, which depends on the program point only *)
Lemma run_ends : forall s t b, m_pc s t <> MIdle -> m_pc (m_run s t b) t = MIdle -> exists r, m_res (m_run s t b) t = Some r.
Proof.
  intros s t b N. unfold m_run. destruct (m_pc s t) as [ |k|k|k|k|k|k| |g|g|g|g old|g|g|r|ret|ret|ret v|ret|ret c|ret|ret v|ret] eqn:Ep;
    try congruence;
  unfold m_take_guard, m_drop_guard, m_unlock_end, m_failed, m_locked, m_unlocked, m_return, m_goto, m_set;
  repeat (match goal with
          | |- context [if ?c then _ else _] => let E := fresh "E" in destruct c eqn:E
          | |- context [match ?x with _ => _ end] => is_var x; destruct x
          end; simpl);
  simpl; rewrite ?upd_eq, ?Ep; intro X; first [discriminate X | eexists; reflexivity].
Qed.
Lemma run_res : forall s1 s2 t b, agree s1 s2 t -> (forall u, m_alive s1 u = m_alive s2 u) -> takes (m_pc s1 t) = false ->
  m_pc s1 t <> MIdle -> m_pc (m_run s1 t b) t = MIdle -> m_res (m_run s1 t b) t = m_res (m_run s2 t b) t.
Proof.
  intros s1 s2 t b [V C P] A T N. unfold m_run. rewrite P in *.
  destruct (m_pc s2 t) as [ |k|k|k|k|k|k| |g|g|g|g old|g|g|r|ret|ret|ret v|ret|ret c|ret|ret v|ret] eqn:Ep;
    try discriminate; try congruence; rewrite ?V, ?C, ?A;
  unfold m_take_guard, m_drop_guard, m_unlock_end, m_failed, m_locked, m_unlocked, m_return, m_goto, m_set;
  repeat (match goal with
          | |- context [if ?c then _ else _] => let E := fresh "E" in destruct c eqn:E
          | |- context [match ?x with _ => _ end] => is_var x; destruct x
          end; simpl);
  simpl; rewrite ?upd_eq; auto; intro X; discriminate X.
Qed.
Lemma run_keeps_guard : forall s t b, in_guard (m_pc s t) -> drops (m_pc s t) = false -> in_guard (m_pc (m_run s t b) t).
Proof.
  intros s t b G D. unfold m_run. destruct (m_pc s t) as [ |k|k|k|k|k|k| |g|g|g|g old|g|g|r|ret|ret|ret v|ret|ret c|ret|ret v|ret] eqn:Ep;
    try discriminate; try (destruct G; fail); try (destruct g; [|destruct G]);
    m_cases Ep; simpl; rewrite ?upd_eq; simpl; auto.
Qed.

Lemma run_guard_back : forall s t b, takes (m_pc s t) = false -> in_guard (m_pc (m_run s t b) t) -> in_guard (m_pc s t).
Proof.
  intros s t b T. unfold m_run. destruct (m_pc s t) as [ |k|k|k|k|k|k| |g|g|g|g old|g|g|r|ret|ret|ret v|ret|ret x|ret|ret v|ret] eqn:Ep;
    try discriminate; try (simpl; auto; fail); try destruct g; try (simpl; auto; fail);
  unfold m_take_guard, m_drop_guard, m_unlock_end, m_failed, m_locked, m_unlocked, m_return, m_goto, m_set;
  repeat (match goal with
          | |- context [if ?c then _ else _] => let E := fresh "E" in destruct c eqn:E
          | |- context [match ?x with _ => _ end] => is_var x; destruct x
          end; simpl); simpl; rewrite ?upd_eq, ?Ep; simpl; auto.
Qed.

(** ** What entry [e] sees of a thread *)
Definition memz (e : Z) (l : list Z) : bool := existsb (Z.eqb e) l.
Lemma memz_in : forall e l, memz e l = true <-> In e l.
Proof.
  intros e l. unfold memz. rewrite existsb_exists. split.
  - intros (x & X & E). apply Z.eqb_eq in E. subst. auto.
  - intro H. exists e. split; auto. apply Z.eqb_refl.
Qed.
Lemma memz_out : forall e l, memz e l = false <-> ~ In e l.
Proof. intros. rewrite <- memz_in. destruct (memz e l); split; intros; congruence. Qed.

Definition pass_proj (w : option (ncall * Z)) (es : list Z) (e : Z) : mpc :=
  match w with
  | Some (_, x) => if x =? e then (if memz e es then MKGuard (Some MBlock) else MRead MBlock) else MIdle
  | None => MIdle
  end.
Fixpoint mproj (e : Z) (p : npc) : mpc :=
  match p with
  | NWait q => mproj e q
  | NOp _ x q => if x =? e then q else MIdle
  | NPEnter w | NPStart w => pass_proj w [e] e
  | NPass w es => pass_proj w es e
  | NPAt w es x q => if x =? e then q else pass_proj w es e
  | NPRel w => pass_proj w [] e
  | _ => MIdle
  end.

Record R (s : nstate) (e : Z) (m : mstate) : Prop := {
  R_val : m_val m = n_val s e;
  R_cnt : m_cnt m = n_cnt s e;
  R_alive : forall t, m_alive m t = n_alive s t;
  R_pc : forall t, m_pc m t = mproj e (n_pc s t);
  R_guard : forall u, u <> 0 -> m_guard m = u -> n_alive s u = true -> n_guard s = u /\ in_guard (m_pc m u)
}.

(** ** Invariant of the registry *)
Definition guarded (p : npc) : Prop :=
  match p with
  | NFind _ | NInit _ _ | NIns _ _ | NRelOp _ _ | NRelRet _ | NPStart _ | NPass _ _ | NPAt _ _ _ _ | NPRel _ => True
  | NOp _ _ q => in_guard q
  | _ => False
  end.
Definition ename (s : nstate) (e : Z) : list Z := n_name (n_key s e).
Lemma canon_about : forall c, canon (about c) = firstn 63 (str_of (name_of c)).
Proof. intros [[n|] k|[n|]|[n|]|]; reflexivity. Qed.
Lemma canon_str : forall n, canon n = firstn 63 (str_of n).
Proof. intros [n|]; reflexivity. Qed.
Lemma proper_str : forall c, proper_name c <-> is_cstring (str_of (name_of c)).
Proof. intros [[n|] k|[n|]|[n|]|]; simpl; split; auto; constructor. Qed.
Definition entry_of (s : nstate) (c : ncall) (e : Z) : Prop := In e (n_list s) /\ ename s e = canon (about c).

Section Waits.
Variable d : sched.
Definition mok : mstate -> mlabel -> Prop :=
  match d with AnyTime => any_schedule | NoExitInWindow => no_exit_in_window | NoWait => no_cond_wait end.
Lemma mok_inv : forall m, d <> AnyTime -> m_reach mok m -> minv m.
Proof. unfold mok. intros m N. destruct d; [congruence | apply inv_window | apply inv_nowait]. Qed.
Lemma mok_guard : forall m, m_reach mok m -> forall t, m_alive m t = true -> in_guard (m_pc m t) -> m_guard m = t.
Proof.
  intros m H. cut (m_pc m 0 = MIdle /\ forall t, m_alive m t = true -> in_guard (m_pc m t) -> m_guard m = t); [tauto|].
  induction H as [|m l H [Z0 IH] EN O].
  - split; auto. intros t _ [].
  - destruct l as [t c|t b|t]; simpl in EN.
    + destruct EN as [T0 AL]. simpl. unfold m_call. destruct (m_pc m t) eqn:Ep; auto. split.
      * destruct c; simpl; rewrite upd_neq; auto.
      * intros u AU GU. assert (AU' : m_alive m u = true) by (destruct c; auto). clear AU.
        assert (GU' : in_guard (m_pc m u)).
        { destruct (Z.eq_dec u t) as [->|N]; [exfalso; destruct c; simpl in GU; rewrite upd_eq in GU; exact GU|].
          destruct c; simpl in GU; rewrite upd_neq in GU; auto. }
        destruct c; simpl; auto.
    + destruct EN as [T0 AL]. simpl. split.
      * destruct (run_other m t 0 b) as [-> _]; auto.
      * intros u AU GU. rewrite alive_run in AU. destruct (takes (m_pc m t)) eqn:TK.
        -- assert (TG : exists p, m_run m t b = m_take_guard m t p) by (unfold m_run; destruct (m_pc m t); try discriminate; eexists; reflexivity).
           destruct TG as (p & TG). rewrite TG in *. unfold m_take_guard in *.
           destruct ((m_guard m =? 0) || (m_guard m =? t) || negb (m_alive m (m_guard m))) eqn:E; auto. simpl in *.
           destruct (Z.eq_dec u t) as [->|N]; auto. rewrite upd_neq in GU by auto. pose proof (IH u AU GU) as X.
           rewrite !orb_true_iff, !Z.eqb_eq, negb_true_iff in E. destruct E as [[E|E]|E]; try congruence.
           rewrite X in E. subst u. rewrite Z0 in GU. destruct GU.
        -- rewrite run_guard by auto. destruct (Z.eq_dec u t) as [->|N].
           ++ destruct (drops (m_pc m t)) eqn:DR.
              ** exfalso. revert GU. unfold m_run. destruct (m_pc m t) eqn:Ep; try discriminate;
                 unfold m_drop_guard, m_return, m_goto, m_set;
                 repeat (match goal with
                         | |- context [if ?c then _ else _] => destruct c
                         | |- context [match ?x with _ => _ end] => is_var x; destruct x
                         end; simpl); rewrite ?upd_eq; simpl; auto.
              ** apply IH; auto. apply (run_guard_back m t b); auto.
           ++ destruct (run_other m t u b) as [E _]; auto. rewrite E in GU. pose proof (IH u AU GU) as X. rewrite X.
              destruct (Z.eqb_spec u t); [contradiction|]. destruct (drops (m_pc m t)); auto.
    + simpl. split; auto. intros u AU. apply IH. revert AU. unfold upd. destruct (u =? t); auto. discriminate.
Qed.

(** calls that get past the check of the name *)
Definition fine (c : ncall) : Prop :=
  proper_name c /\ accepted c /\ (forall n, c = NWaitUnlock n -> d <> NoWait).
Definition lock_call (c : ncall) : Prop := exists n k, c = NLock (Some n) k.
Definition op_shape (c : ncall) (p : mpc) : Prop :=
  match p with
  | MRead k | MAdd k | MConfirm k | MSub k | MCas k | MAdd2 k => exists n, c = NLock (Some n) k
  | MU0 g | MU1 g | MU2 g | MU3 g _ | MU4 g | MU5 g => if g then exists n, c = NUnlock (Some n) else exists n, c = NWaitUnlock n
  | MURel r => r <> ENOLCK /\ exists n, c = NUnlock (Some n)
  | _ => False
  end.
Definition ret_at (w : option (ncall * Z)) (e : Z) : option mkind :=
  match w with Some (_, x) => if x =? e then Some MBlock else None | None => None end.
Definition pass_shape (w : option (ncall * Z)) (e : Z) (p : mpc) : Prop :=
  match p with
  | MK0 r | MK1 r _ | MF0 r | MF1 r _ | MF2 r | MF3 r _ => r = ret_at w e
  | _ => False
  end.
Definition pass_ok (s : nstate) (w : option (ncall * Z)) : Prop :=
  match w with Some (c, e) => fine c /\ (exists n, c = NLock (Some n) MBlock) /\ entry_of s c e | None => True end.
Definition pc_ok (s : nstate) (p : npc) : Prop :=
  match p with
  | NIdle | NRelRet _ => True
  | NWait (NFind c) | NFind c => fine c
  | NWait (NPStart w) | NPEnter w | NPStart w | NPRel w => pass_ok s w
  | NWait _ => False
  | NInit c e => fine c /\ lock_call c /\ ~ In e (n_list s) /\ ~ In e (n_free s)
  | NIns c e => fine c /\ lock_call c /\ ~ In e (n_list s) /\ ~ In e (n_free s) /\
                n_key s e = ckey c /\ n_val s e = 0 /\ n_cnt s e = 0
  | NRelOp c e => fine c /\ entry_of s c e /\ (lock_call c \/ exists n, c = NWaitUnlock n)
  | NOp c e q => fine c /\ entry_of s c e /\ op_shape c q
  | NPass w es => pass_ok s w /\ NoDup es /\ incl es (n_list s)
  | NPAt w es e q => pass_ok s w /\ NoDup (e :: es) /\ incl (e :: es) (n_list s) /\ pass_shape w e q
  end.
Definition holds_entry (p : npc) (e : Z) : Prop := exists c, p = NInit c e \/ p = NIns c e.
Definition new_of (p : npc) : option ncall := match p with NInit c _ | NIns c _ => Some c | _ => None end.

Record ninv (s : nstate) : Prop := {
  ni_zero : n_pc s 0 = NIdle /\ n_alive s 0 = true;
  ni_nodup : NoDup (n_list s ++ n_free s);
  ni_pc : forall t, pc_ok s (n_pc s t);
  ni_held : forall t u e, holds_entry (n_pc s t) e -> holds_entry (n_pc s u) e -> t = u;
  ni_guard : forall t, n_alive s t = true -> guarded (n_pc s t) -> n_guard s = t;
  ni_key : forall e, In e (n_list s) -> exists n, is_cstring n /\ n_key s e = key_of n;
  ni_one : forall e f, In e (n_list s) -> In f (n_list s) -> ename s e = ename s f -> e = f;
  ni_new : forall t c, n_alive s t = true -> new_of (n_pc s t) = Some c -> forall e, In e (n_list s) -> ename s e <> canon (about c);
  ni_virgin : exists m, m_reach mok m /\ m_val m = 0 /\ m_cnt m = 0 /\ m_guard m = 0 /\ (forall t, m_pc m t = MIdle) /\
              (forall t, m_alive m t = n_alive s t);
  ni_ent : forall e, In e (n_list s) -> exists m, m_reach mok m /\ R s e m
}.

(** ** Steps of a live thread *)
Section Step.
Variables (s s' : nstate) (t : Z).
Hypothesis T0 : t <> 0.
Hypothesis AL : n_alive s t = true.
Hypothesis ALIVE : forall u, n_alive s' u = n_alive s u.
Hypothesis OTHER : forall u, u <> t -> n_pc s' u = n_pc s u.
(** the guard is left alone, taken or dropped *)
Definition takeable : Prop := n_guard s = 0 \/ n_guard s = t \/ n_alive s (n_guard s) = false.
Definition guard_move : Prop :=
  (n_guard s' = n_guard s /\ (guarded (n_pc s' t) -> guarded (n_pc s t))) \/ (n_guard s' = t /\ takeable) \/
  (n_guard s' = 0 /\ n_guard s = t /\ ~ guarded (n_pc s' t)).
Hypothesis GUARD : guard_move.

Lemma R_move : forall e m m', R s e m -> m_val m' = n_val s' e -> m_cnt m' = n_cnt s' e -> (forall u, m_alive m' u = m_alive m u) ->
  (forall u, u <> t -> m_pc m' u = m_pc m u) -> m_pc m' t = mproj e (n_pc s' t) ->
  (m_guard m' = m_guard m /\ (in_guard (m_pc m t) -> m_guard m = t -> in_guard (m_pc m' t) /\ n_guard s' = n_guard s) \/
   m_guard m' = t /\ in_guard (m_pc m' t) /\ n_guard s' = t \/ m_guard m' = 0) -> R s' e m'.
Proof.
  intros e m m' [V C A P G] V' C' A' O' P' G'. constructor; auto.
  - intro u. rewrite A', A, ALIVE. auto.
  - intro u. destruct (Z.eq_dec u t) as [->|N]; auto. rewrite O', P, OTHER; auto.
  - intros u U0 EU AU. rewrite ALIVE in AU. destruct G' as [[E K]|[(E & I & E')|E]]; [|clear G; rewrite E in EU; rewrite <- EU; split; [congruence | exact I]|congruence].
    + rewrite E in EU. destruct (G u U0 EU AU) as [NG IG]. destruct (Z.eq_dec u t) as [->|N].
      * destruct (K IG EU) as [I E2]. split; auto. congruence.
      * rewrite O' by auto. split; auto. destruct GUARD as [[E2 _]|[(E2 & TK)|(E2 & X & _)]]; try congruence.
        destruct TK as [TK|[TK|TK]]; congruence.
Qed.
(** entries the step does not touch *)
Lemma R_keep : forall e m, R s e m -> n_val s' e = n_val s e -> n_cnt s' e = n_cnt s e -> mproj e (n_pc s' t) = mproj e (n_pc s t) ->
  (n_guard s' = 0 -> n_guard s = t -> ~ in_guard (mproj e (n_pc s t))) -> R s' e m.
Proof.
  intros e m R0 V C P G. apply (R_move e m m); auto; try (destruct R0; congruence).
  destruct GUARD as [[E2 _]|[(E2 & TK)|(E2 & X & _)]].
  - left. auto.
  - left. split; auto. intros I E. split; auto. destruct (R_guard _ _ _ R0 t T0 E AL). congruence.
  - left. split; auto. intros I E. exfalso. apply (G E2 X). rewrite <- (R_pc _ _ _ R0). auto.
Qed.

Hypothesis I : ninv s.
Hypothesis H_list : incl (n_list s) (n_list s').
Hypothesis H_key : forall e, In e (n_list s) -> n_key s' e = n_key s e.
Hypothesis H_held : forall u e, u <> t -> holds_entry (n_pc s u) e ->
  ~ In e (n_list s') /\ ~ In e (n_free s') /\ n_key s' e = n_key s e /\ n_val s' e = n_val s e /\ n_cnt s' e = n_cnt s e.

Lemma entry_mono : forall c e, entry_of s c e -> entry_of s' c e.
Proof. intros c e [IN E]. split; auto. unfold ename. rewrite H_key; auto. Qed.
Lemma pass_mono : forall w, pass_ok s w -> pass_ok s' w.
Proof. intros [[c e]|]; simpl; auto. intros (F & L & E). auto using entry_mono. Qed.
Lemma pc_other : forall u, u <> t -> pc_ok s' (n_pc s' u).
Proof.
  intros u N. rewrite OTHER by auto. pose proof (ni_pc _ I u) as P. pose proof (H_held u) as HE.
  destruct (n_pc s u) as [ |p|c|c e|c e|c e|r|c e q|w|w|w es|w es e q|w]; simpl in *; auto using pass_mono.
  - destruct p; auto using pass_mono.
  - destruct P as (F & L & _). destruct (HE e N (ex_intro _ c (or_introl eq_refl))) as (A & B & _). auto.
  - destruct P as (F & L & _ & _ & K & V & C). destruct (HE e N (ex_intro _ c (or_intror eq_refl))) as (A & B & K' & V' & C').
    rewrite K', V', C'. auto 10.
  - destruct P as (F & E & L). auto using entry_mono.
  - destruct P as (F & E & L). auto using entry_mono.
  - destruct P as (F & E & L). split; auto using pass_mono. split; auto. eapply incl_tran; eauto.
  - destruct P as (F & E & L & Q). split; auto using pass_mono. split; auto. split; auto. eapply incl_tran; eauto.
Qed.

Lemma ninv_step : pc_ok s' (n_pc s' t) -> NoDup (n_list s' ++ n_free s') ->
  (forall e, holds_entry (n_pc s' t) e -> forall u, u <> t -> ~ holds_entry (n_pc s u) e) ->
  (forall e, In e (n_list s') -> In e (n_list s) \/ exists n, is_cstring n /\ n_key s' e = key_of n) ->
  (forall e f, In e (n_list s') -> In f (n_list s') -> ename s' e = ename s' f -> e = f) ->
  (forall c, new_of (n_pc s' t) = Some c -> forall e, In e (n_list s') -> ename s' e <> canon (about c)) ->
  (n_list s' = n_list s \/ n_guard s = t) ->
  (forall e, In e (n_list s') -> exists m, m_reach mok m /\ R s' e m) -> ninv s'.
Proof.
  intros PC ND HD KEY ONE NEW LG ENT. constructor; auto.
  - destruct (ni_zero _ I) as [Z1 Z2]. rewrite OTHER, ALIVE by auto. auto.
  - intro u. destruct (Z.eq_dec u t) as [->|N]; auto. apply pc_other; auto.
  - intros u v e HU HV. destruct (Z.eq_dec u t) as [->|NU]; destruct (Z.eq_dec v t) as [->|NV]; auto.
    + rewrite OTHER in HV by auto. destruct (HD e HU v NV HV).
    + rewrite OTHER in HU by auto. destruct (HD e HV u NU HU).
    + rewrite OTHER in * by auto. apply (ni_held _ I u v e); auto.
  - intros u AU GU. rewrite ALIVE in AU. destruct (Z.eq_dec u t) as [->|NU].
    + destruct GUARD as [[E K]|[(E & TK)|(E & X & NG)]]; auto; [|contradiction]. rewrite E. apply (ni_guard _ I); auto.
    + rewrite OTHER in GU by auto. pose proof (ni_guard _ I u AU GU) as E0.
      assert (U0 : u <> 0). { intros ->. destruct (ni_zero _ I) as [Z1 _]. rewrite Z1 in GU. exact GU. }
      destruct GUARD as [[E K]|[(E & TK)|(E & X & NG)]]; try congruence. destruct TK as [TK|[TK|TK]]; congruence.
  - intros e IN. destruct (KEY e IN) as [IN'|X]; auto. destruct (ni_key _ I e IN') as (n & N1 & N2).
    exists n. rewrite H_key; auto.
  - intros u c AU NU. rewrite ALIVE in AU. destruct (Z.eq_dec u t) as [->|N]; auto. rewrite OTHER in NU by auto.
    intros e IN. destruct LG as [E|E].
    + rewrite E in IN. pose proof (ni_new _ I u c AU NU e IN) as X. unfold ename in *. rewrite H_key; auto.
    + exfalso. assert (GU : guarded (n_pc s u)) by (destruct (n_pc s u); try discriminate; simpl; auto).
      pose proof (ni_guard _ I u AU GU). congruence.
  - destruct (ni_virgin _ I) as (m & M1 & M2 & M3 & M4 & M5 & M6). exists m. repeat split; auto. intro u. rewrite ALIVE. auto.
Qed.
End Step.
End Waits.
