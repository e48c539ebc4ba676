(** Proofs for C158, C159. *)
From Coq Require Import ZArith List Bool Lia.
From Verif Require Import Base Tkey_Model Tkey_Spec.
Import ListNotations.
Open Scope Z_scope.

Lemma put_len : forall A n (x : A) l, length (put n x l) = length l.
Proof. intros A n x l. revert n. induction l as [|a l IH]; intros [|n]; cbn; auto. Qed.
Lemma put_same : forall A n (x : A) l, (n < length l)%nat -> nth_error (put n x l) n = Some x.
Proof. intros A n x l. revert n. induction l as [|a l IH]; intros [|n] L; cbn in *; try lia; auto. apply IH. lia. Qed.
Lemma put_other : forall A n (x : A) l j, j <> n -> nth_error (put n x l) j = nth_error l j.
Proof. intros A n x l. revert n. induction l as [|a l IH]; intros [|n] [|j] N; cbn; auto; try lia. Qed.
Lemma put_in : forall A n (x : A) l y, In y (put n x l) -> y = x \/ In y l.
Proof. intros A n x l. revert n. induction l as [|a l IH]; intros [|n] y Y; cbn in *; auto; destruct Y as [Y|Y]; auto. destruct (IH n y Y); auto. Qed.
Lemma app_nth : forall A (l : list A) x i y, nth_error (l ++ [x]) i = Some y -> nth_error l i = Some y \/ (i = length l /\ y = x).
Proof.
  intros A l x i y E. destruct (Nat.lt_ge_cases i (length l)) as [L|L]; [rewrite nth_error_app1 in E by auto; auto|]. rewrite nth_error_app2 in E by auto.
  destruct (i - length l)%nat eqn:D; cbn in E; [inversion E; subst; right; split; auto; lia|destruct n; discriminate].
Qed.
Lemma nth_lt : forall A (l : list A) i y, nth_error l i = Some y -> (i < length l)%nat.
Proof. intros A l i y E. apply nth_error_Some. congruence. Qed.

Lemma bump_eq : forall q k, bump q k k = q k + 1. Proof. intros. apply upd_eq. Qed.
Lemma bump_neq : forall q k j, j <> k -> bump q k j = q j. Proof. intros. apply upd_neq. auto. Qed.
Lemma odd_bump : forall n, Z.odd (n + 1) = negb (Z.odd n).
Proof. intro n. rewrite Z.odd_add. cbn. destruct (Z.odd n); auto. Qed.

Record PK (p : kproc) : Prop := mkPK {
  pk_seq : forall k, 0 <= p_seq p k;
  pk_other : forall k, p_other p k = true -> in_use (p_seq p) k = true;
  pk_key : forall k, p_cache p = Key k -> p_down p = false -> in_use (p_seq p) k = true /\ p_other p k = false;
  pk_gone : forall k, p_cache p = Key k -> p_down p = true -> in_use (p_seq p) k = false;
  pk_not : p_cache p = NotYet -> p_down p = false }.
Record TK (p : kproc) (t : kthread) : Prop := mkTK {
  tk_gen : forall k, fst (kt_v t k) <= p_seq p k;
  tk_odd : forall k, snd (kt_v t k) <> 0 -> Z.odd (fst (kt_v t k)) = true;
  tk_tid : 0 < kt_tid t;
  tk_exp : forall k, p_other p k = true -> get_spec (p_seq p) (kt_v t) k = kt_exp t k }.

Lemma spec_bump : forall q v k j, j <> k -> get_spec (bump q k) v j = get_spec q v j.
Proof. intros q v k j N. unfold get_spec. rewrite bump_neq by auto. auto. Qed.
Lemma spec_fresh : forall q v k, fst (v k) <= q k -> get_spec (bump q k) v k = 0.
Proof. intros q v k L. unfold get_spec. rewrite bump_eq. destruct (Z.eqb_spec (fst (v k)) (q k + 1)); auto. lia. Qed.
Lemma spec_zero : forall q k, get_spec q (fun _ => (0, 0)) k = 0.
Proof. intros q k. unfold get_spec. cbn [fst snd]. destruct (0 =? q k); auto. Qed.
Lemma key_not_other : forall p k, PK p -> p_cache p = Key k -> p_other p k = false.
Proof.
  intros p k P E. destruct (p_down p) eqn:D; [|apply (pk_key p P k E D)]. destruct (p_other p k) eqn:O; auto.
  pose proof (pk_other p P k O). pose proof (pk_gone p P k E D). congruence.
Qed.

Lemma PK_construct : forall p got, PK p -> PK (construct p got).
Proof.
  intros p got P. unfold construct. destruct (p_cache p) eqn:EC; auto. assert (D : p_down p = false) by (apply (pk_not p P EC)).
  destruct got as [k|]; [destruct (in_use (p_seq p) k) eqn:U|].
  - constructor; cbn; try discriminate; try apply P.
  - constructor; cbn; try discriminate; auto.
    + intro j. destruct (Z.eq_dec j k) as [->|N]; [rewrite bump_eq | rewrite bump_neq by auto]; pose proof (pk_seq p P); [specialize (H k)|specialize (H j)]; lia.
    + intros j J. pose proof (pk_other p P j J) as Q. unfold in_use in *. rewrite bump_neq; auto. intros ->. congruence.
    + intros j E _. inversion E; subst j. unfold in_use in *. rewrite bump_eq, odd_bump, U. split; auto. destruct (p_other p k) eqn:O; auto. pose proof (pk_other p P k O) as Q. unfold in_use in Q. congruence.
    + rewrite D. discriminate.
  - constructor; cbn; try discriminate; try apply P.
Qed.
Lemma TK_construct : forall p got t, PK p -> TK p t -> TK (construct p got) t.
Proof.
  intros p got t P [A B C D]. unfold construct. destruct (p_cache p) eqn:EC; try (constructor; auto; fail).
  destruct got as [k|]; [destruct (in_use (p_seq p) k) eqn:U|]; constructor; cbn; auto.
  - intro j. destruct (Z.eq_dec j k) as [->|N]; [rewrite bump_eq; specialize (A k); lia | rewrite bump_neq by auto; auto].
  - intros j J. rewrite spec_bump; auto. intros ->. rewrite (pk_other p P k J) in U. discriminate.
Qed.
Lemma TK_get : forall p t fail, PK p -> TK p t -> TK p (snd (get_threadid p t fail)).
Proof.
  intros p t fail P [A B C D]. unfold get_threadid. destruct (p_cache p) as [| |k] eqn:EC; try (constructor; auto; fail).
  cbv zeta. destruct (_ =? 0); [|constructor; auto]. cbn. constructor; cbn; auto; unfold set_spec.
  - intro j. destruct (_ && _); auto. destruct (Z.eq_dec j k) as [->|N]; [rewrite upd_eq; cbn; lia | rewrite upd_neq by auto; auto].
  - intro j. destruct (in_use (p_seq p) k && negb fail) eqn:U; auto. destruct (Z.eq_dec j k) as [->|N]; [rewrite upd_eq; cbn | rewrite upd_neq by auto; auto]. intros _. apply andb_true_iff in U as [U _]. exact U.
  - intros j J. destruct (_ && _); auto. assert (N : j <> k) by (intros ->; rewrite (key_not_other p k P EC) in J; discriminate).
    unfold get_spec. rewrite upd_neq by auto. apply (D j J).
Qed.
Lemma get_same : forall p t fail, kt_pid (snd (get_threadid p t fail)) = kt_pid t /\ kt_tid (snd (get_threadid p t fail)) = kt_tid t.
Proof. intros p t fail. unfold get_threadid. destruct (p_cache p); auto. cbv zeta. destruct (_ =? 0); auto. Qed.

(** ** Invariant *)
Record BI (s : ksys) : Prop := mkBI {
  bi_p : forall pid, PK (ks_pr s pid);
  bi_t : forall t, In t (ks_th s) -> TK (ks_pr s (kt_pid t)) t;
  bi_r : others_intact s;
  bi_i : forall i r, In (i, r) (ks_ids s) -> exists t, nth_error (ks_th s) i = Some t /\ p_cache (ks_pr s (kt_pid t)) <> NotYet }.

Lemma BI_proc : forall s pid p', BI s -> PK p' -> (forall t, In t (ks_th s) -> kt_pid t = pid -> TK p' t) -> (p_cache (ks_pr s pid) <> NotYet -> p_cache p' <> NotYet) ->
  BI (mkKS (ks_th s) (upd (ks_pr s) pid p') (ks_ids s) (ks_reads s)).
Proof.
  intros s pid p' [A B C D] P T N. constructor; cbn; auto.
  - intro q. destruct (Z.eq_dec q pid) as [->|NE]; [rewrite upd_eq | rewrite upd_neq by auto]; auto.
  - intros t I. destruct (Z.eq_dec (kt_pid t) pid) as [E|NE]; [rewrite E, upd_eq; auto | rewrite upd_neq by auto; auto].
  - intros i r I. destruct (D i r I) as (t & E1 & E2). exists t. split; auto. destruct (Z.eq_dec (kt_pid t) pid) as [E|NE]; [rewrite E, upd_eq; rewrite E in E2; auto | rewrite upd_neq by auto; auto].
Qed.

Lemma BI_step : forall s x, BI s -> no_late_key s x -> BI (k_step s x).
Proof.
  intros s x B OK. pose proof B as [A T R D]. destruct x as [i got fail|pid|i tid|i pid|i k|i k|i k x fail|i k]; cbn [k_step].
  - destruct (nth_error (ks_th s) i) as [t|] eqn:EN; auto. set (p := construct (ks_pr s (kt_pid t)) got). assert (IT : In t (ks_th s)) by (eapply nth_error_In; eauto).
    destruct (get_threadid p t fail) as [r t'] eqn:EG. pose proof (get_same p t fail) as [G1 G2]. rewrite EG in G1, G2. cbn in G1, G2.
    assert (CN : p_cache p <> NotYet) by (unfold p, construct; destruct (p_cache (ks_pr s (kt_pid t))) eqn:EC; [destruct got as [k|]; [destruct (in_use _ k)|]; discriminate | congruence | congruence]).
    assert (TP : forall u, In u (ks_th s) -> kt_pid u = kt_pid t -> TK p u) by (intros u U E; apply TK_construct; auto; rewrite <- E; auto).
    constructor; cbn; auto.
    + intro q. destruct (Z.eq_dec q (kt_pid t)) as [->|NE]; [rewrite upd_eq; apply PK_construct; auto | rewrite upd_neq by auto; auto].
    + intros u U. apply put_in in U as [->|U].
      * rewrite G1, upd_eq. pose proof (TK_get p t fail) as Q. rewrite EG in Q. apply Q; [apply PK_construct; auto | apply TP; auto].
      * destruct (Z.eq_dec (kt_pid u) (kt_pid t)) as [E|NE]; [rewrite E, upd_eq; auto | rewrite upd_neq by auto; auto].
    + intros j q [E|I].
      * inversion E; subst j q. exists t'. rewrite put_same by (eapply nth_lt; eauto). split; auto. rewrite G1, upd_eq. auto.
      * destruct (D j q I) as (u & E1 & E2). destruct (Nat.eq_dec j i) as [->|NJ].
        -- exists t'. rewrite put_same by (eapply nth_lt; eauto). split; auto. rewrite G1, upd_eq. auto.
        -- exists u. rewrite put_other by auto. split; auto. destruct (Z.eq_dec (kt_pid u) (kt_pid t)) as [E|NE]; [rewrite E, upd_eq; auto | rewrite upd_neq by auto; auto].
  - destruct (p_down (ks_pr s pid)) eqn:DN; auto. pose proof (A pid) as P. destruct (p_cache (ks_pr s pid)) as [| |k] eqn:EC; unfold destruct_cache; rewrite EC; (apply BI_proc; [exact B | | | rewrite EC; cbn; congruence]).
    + exact P.
    + intros t I E. rewrite <- E. auto.
    + constructor; cbn; try discriminate; try apply P.
    + intros t I E. specialize (T t I). rewrite E in T. destruct T. constructor; auto.
    + destruct (pk_key _ P k EC DN) as [U O]. rewrite U. constructor; cbn; try discriminate.
      * intro j. pose proof (pk_seq _ P j). pose proof (pk_seq _ P k). destruct (Z.eq_dec j k) as [->|N]; [rewrite bump_eq | rewrite bump_neq by auto]; lia.
      * intros j J. pose proof (pk_other _ P j J) as Q. unfold in_use in *. rewrite bump_neq; auto. intros ->. congruence.
      * intros j E _. inversion E; subst j. unfold in_use in *. rewrite bump_eq, odd_bump, U. auto.
    + intros t I E. specialize (T t I). rewrite E in T. destruct (pk_key _ P k EC DN) as [U O]. rewrite U. destruct T as [T1 T2 T3 T4]. constructor; cbn; auto.
      * intro j. destruct (Z.eq_dec j k) as [->|N]; [rewrite bump_eq; specialize (T1 k); lia | rewrite bump_neq by auto; auto].
      * intros j J. rewrite spec_bump; auto. intros ->. congruence.
  - destruct (nth_error (ks_th s) i) as [t|] eqn:EN; auto. destruct (Z.ltb_spec 0 tid); auto. constructor; cbn; auto.
    + intros u U. apply in_app_iff in U as [U|[<-|[]]]; auto. constructor; cbn; auto.
      * intro k. apply (pk_seq _ (A (kt_pid t)) k).
      * intros k _. apply spec_zero.
    + intros j r I. destruct (D j r I) as (u & E1 & E2). exists u. rewrite nth_error_app1 by (eapply nth_lt; eauto). auto.
  - destruct (nth_error (ks_th s) i) as [t|] eqn:EN; auto. destruct ((0 <? pid) && forallb (fun u => negb (kt_pid u =? pid)) (ks_th s)) eqn:NP; auto.
    apply andb_true_iff in NP as [NP FR]. apply Z.ltb_lt in NP. rewrite forallb_forall in FR. assert (IT : In t (ks_th s)) by (eapply nth_error_In; eauto).
    assert (NE : forall u, In u (ks_th s) -> kt_pid u <> pid) by (intros u U; specialize (FR u U); apply negb_true_iff, Z.eqb_neq in FR; auto).
    constructor; cbn; auto.
    + intro q. destruct (Z.eq_dec q pid) as [->|NQ]; [rewrite upd_eq | rewrite upd_neq by auto]; auto.
    + intros u U. apply in_app_iff in U as [U|[<-|[]]]; [rewrite upd_neq by auto; auto|]. cbn. rewrite upd_eq. destruct (T t IT) as [T1 T2 T3 T4]. constructor; auto.
    + intros j r I. destruct (D j r I) as (u & E1 & E2). exists u. rewrite nth_error_app1 by (eapply nth_lt; eauto). split; auto. rewrite upd_neq; auto. apply NE. eapply nth_error_In; eauto.
  - destruct (nth_error (ks_th s) i) as [t|] eqn:EN; auto. cbv zeta. set (p := ks_pr s (kt_pid t)). destruct (in_use (p_seq p) k) eqn:U; auto. pose proof (A (kt_pid t)) as P. fold p in P.
    assert (DN : p_down p = false) by (apply (OK t EN)).
    set (f := fun u => if kt_pid u =? kt_pid t then set_exp u (upd (kt_exp u) k 0) else u).
    assert (FS : forall u, kt_pid (f u) = kt_pid u /\ kt_v (f u) = kt_v u /\ kt_tid (f u) = kt_tid u) by (intro u; unfold f; destruct (_ =? _); auto).
    constructor; cbn; auto.
    + intro q. destruct (Z.eq_dec q (kt_pid t)) as [->|NQ]; [rewrite upd_eq | rewrite upd_neq by auto; auto]. constructor; cbn; try apply P.
      * intro j. pose proof (pk_seq _ P j). pose proof (pk_seq _ P k). destruct (Z.eq_dec j k) as [->|N]; [rewrite bump_eq | rewrite bump_neq by auto]; lia.
      * intros j J. unfold in_use. destruct (Z.eq_dec j k) as [->|N]; [rewrite bump_eq, odd_bump; unfold in_use in U; rewrite U; auto | rewrite bump_neq by auto; rewrite upd_neq in J by auto; apply (pk_other _ P j J)].
      * intros j E _. destruct (pk_key _ P j E DN) as [Q1 Q2]. assert (N : j <> k) by (intros ->; congruence). unfold in_use. rewrite bump_neq, upd_neq by auto. auto.
      * intros j E Q. congruence.
    + intros u I. apply in_map_iff in I as (w & <- & W). destruct (FS w) as (F1 & F2 & F3). rewrite F1. specialize (T w W). destruct T as [T1 T2 T3 T4].
      destruct (Z.eq_dec (kt_pid w) (kt_pid t)) as [E|NQ].
      * rewrite E, upd_eq. rewrite E in T1, T4. constructor; rewrite ?F2, ?F3; cbn; auto.
        -- intro j. destruct (Z.eq_dec j k) as [->|N]; [rewrite bump_eq; specialize (T1 k); fold p in T1; lia | rewrite bump_neq by auto; apply T1].
        -- intros j J. unfold f. rewrite E, Z.eqb_refl. cbn. destruct (Z.eq_dec j k) as [->|N]; [rewrite upd_eq; apply spec_fresh; apply T1 |].
           rewrite (upd_neq _ (kt_exp w)) by auto. rewrite spec_bump by auto. rewrite upd_neq in J by auto. apply (T4 j J).
      * rewrite upd_neq by auto. unfold f. destruct (Z.eqb_spec (kt_pid w) (kt_pid t)); [contradiction|]. constructor; auto.
    + intros j r I. destruct (D j r I) as (u & E1 & E2). exists (f u). rewrite nth_error_map, E1. split; auto. destruct (FS u) as (F1 & _). rewrite F1.
      destruct (Z.eq_dec (kt_pid u) (kt_pid t)) as [E|NQ]; [rewrite E, upd_eq; rewrite E in E2; auto | rewrite upd_neq by auto; auto].
  - destruct (nth_error (ks_th s) i) as [t|] eqn:EN; auto. cbv zeta. set (p := ks_pr s (kt_pid t)). destruct (p_other p k) eqn:O; auto. pose proof (A (kt_pid t)) as P. fold p in P.
    pose proof (pk_other _ P k O) as U. apply BI_proc; auto.
    + constructor; cbn; try apply P.
      * intro j. pose proof (pk_seq _ P j). pose proof (pk_seq _ P k). destruct (Z.eq_dec j k) as [->|N]; [rewrite bump_eq | rewrite bump_neq by auto]; lia.
      * intros j J. destruct (Z.eq_dec j k) as [->|N]; [rewrite upd_eq in J; discriminate|]. rewrite upd_neq in J by auto. unfold in_use. rewrite bump_neq by auto. apply (pk_other _ P j J).
      * intros j E DN. destruct (pk_key _ P j E DN) as [Q1 Q2]. assert (N : j <> k) by (intros ->; congruence). unfold in_use. rewrite bump_neq, upd_neq by auto. auto.
      * intros j E DN. pose proof (pk_gone _ P j E DN) as Q. assert (N : j <> k) by (intros ->; congruence). unfold in_use. rewrite bump_neq by auto. auto.
    + intros u I E. specialize (T u I). rewrite E in T. destruct T as [T1 T2 T3 T4]. constructor; cbn; auto.
      * intro j. destruct (Z.eq_dec j k) as [->|N]; [rewrite bump_eq; specialize (T1 k); fold p in T1; lia | rewrite bump_neq by auto; apply T1].
      * intros j J. destruct (Z.eq_dec j k) as [->|N]; [rewrite upd_eq in J; discriminate|]. rewrite upd_neq in J by auto. rewrite spec_bump by auto. apply (T4 j J).
  - destruct (nth_error (ks_th s) i) as [t|] eqn:EN; auto. cbv zeta. destruct (p_other (ks_pr s (kt_pid t)) k && negb fail) eqn:O; auto. apply andb_true_iff in O as [O _].
    assert (IT : In t (ks_th s)) by (eapply nth_error_In; eauto). pose proof (pk_other _ (A (kt_pid t)) k O) as U.
    constructor; cbn; auto.
    + intros u I. apply put_in in I as [->|I]; auto. cbn. destruct (T t IT) as [T1 T2 T3 T4]. unfold set_spec. rewrite U. cbn. constructor; cbn; auto.
      * intro j. destruct (Z.eq_dec j k) as [->|N]; [rewrite upd_eq; cbn; lia | rewrite upd_neq by auto; auto].
      * intro j. destruct (Z.eq_dec j k) as [->|N]; [rewrite upd_eq; cbn | rewrite upd_neq by auto; auto]. intros _. exact U.
      * intros j J. unfold get_spec. destruct (Z.eq_dec j k) as [->|N]; [rewrite !upd_eq; cbn; rewrite Z.eqb_refl; auto | rewrite !upd_neq by auto; apply (T4 j J)].
    + intros j r I. destruct (D j r I) as (u & E1 & E2). destruct (Nat.eq_dec j i) as [->|NJ].
      * eexists. rewrite put_same by (eapply nth_lt; eauto). split; [reflexivity|]. cbn. assert (u = t) by congruence. subst u. auto.
      * exists u. rewrite put_other by auto. auto.
  - destruct (nth_error (ks_th s) i) as [t|] eqn:EN; auto. cbv zeta. destruct (p_other (ks_pr s (kt_pid t)) k) eqn:O; auto.
    assert (IT : In t (ks_th s)) by (eapply nth_error_In; eauto). constructor; cbn; auto. intros g st [E|I]; [|apply (R g st I)]. inversion E; subst. apply (tk_exp _ _ (T t IT) k O).
Qed.
Lemma BI_reach : forall pid (ok : ksys -> klabel -> Prop) s, 0 < pid -> (forall s x, ok s x -> no_late_key s x) -> k_reach pid ok s -> BI s.
Proof.
  intros pid ok s POS OKK R. induction R as [|s x R IH O]; [|apply BI_step; auto]. constructor; cbn; try contradiction.
  - intro q. constructor; cbn; try discriminate; auto; try (intro; lia).
  - intros t [<-|[]]. constructor; cbn; try discriminate; auto; try lia.
  - intros g st [].
Qed.

(** ** The number a call is made under *)
Definition ident (p : kproc) (t : kthread) : Z :=
  match p_cache p with Key k => let x := get_spec (p_seq p) (kt_v t) k in if x =? 0 then kt_tid t else x | _ => kt_tid t end.
Lemma get_ident : forall p t fail, fst (get_threadid p t fail) = ident p t.
Proof. intros p t fail. unfold get_threadid, ident. destruct (p_cache p); auto. cbv zeta. destruct (_ =? 0); auto. Qed.
Lemma spec_set : forall q v k x fail, get_spec q (set_spec q v k x fail) k = x \/ get_spec q (set_spec q v k x fail) k = get_spec q v k.
Proof. intros q v k x fail. unfold set_spec, get_spec. destruct (_ && _); auto. rewrite upd_eq. cbn. rewrite Z.eqb_refl. auto. Qed.
Lemma ident_get : forall p t fail, TK p t -> ident p (snd (get_threadid p t fail)) = ident p t.
Proof.
  intros p t fail K. unfold get_threadid, ident. destruct (p_cache p) as [| |k]; auto. cbv zeta. destruct (get_spec (p_seq p) (kt_v t) k =? 0) eqn:E; cbn.
  - pose proof (tk_tid _ _ K). destruct (spec_set (p_seq p) (kt_v t) k (kt_tid t) fail) as [->| ->]; [destruct (kt_tid t =? 0); auto | rewrite E; auto].
  - rewrite E. auto.
Qed.
(** only the key of the object counts *)
Lemma ident_ext : forall p p' t t', kt_tid t' = kt_tid t -> p_cache p' = p_cache p ->
  (forall k, p_cache p = Key k -> get_spec (p_seq p') (kt_v t') k = get_spec (p_seq p) (kt_v t) k) -> ident p' t' = ident p t.
Proof. intros p p' t t' E C H. unfold ident. rewrite E, C. destruct (p_cache p) as [| |k]; auto. rewrite (H k eq_refl). auto. Qed.

Record NI (s : ksys) : Prop := mkNI {
  ni_up : forall pid, p_down (ks_pr s pid) = false;
  ni_id : forall i r t, In (i, r) (ks_ids s) -> nth_error (ks_th s) i = Some t -> ident (ks_pr s (kt_pid t)) t = r }.

Lemma construct_done : forall p got, p_cache p <> NotYet -> construct p got = p.
Proof. intros p got N. unfold construct. destruct (p_cache p); auto. congruence. Qed.
Lemma construct_down : forall p got, p_down (construct p got) = p_down p.
Proof. intros p got. unfold construct. destruct (p_cache p); auto. destruct got as [k|]; auto. destruct (in_use _ k); auto. Qed.

Lemma NI_step : forall s x, BI s -> NI s -> no_exit s x -> NI (k_step s x).
Proof.
  intros s x B N OK. pose proof B as [A T R D]. pose proof N as [U ID]. destruct x as [i got fail|pid|i tid|i pid|i k|i k|i k x fail|i k]; cbn [k_step].
  - destruct (nth_error (ks_th s) i) as [t|] eqn:EN; auto. set (p := construct (ks_pr s (kt_pid t)) got). assert (IT : In t (ks_th s)) by (eapply nth_error_In; eauto).
    destruct (get_threadid p t fail) as [r t'] eqn:EG. pose proof (get_same p t fail) as [G1 G2]. rewrite EG in G1, G2. cbn in G1, G2.
    assert (KP : TK p t) by (apply TK_construct; auto).
    pose proof (get_ident p t fail) as GI. rewrite EG in GI. cbn in GI. pose proof (ident_get p t fail KP) as IG. rewrite EG in IG. cbn in IG.
    constructor; cbn.
    + intro q. destruct (Z.eq_dec q (kt_pid t)) as [->|NE]; [rewrite upd_eq; unfold p; rewrite construct_down; auto | rewrite upd_neq by auto; auto].
    + intros j q u I E. destruct (Nat.eq_dec j i) as [->|NJ].
      * rewrite put_same in E by (eapply nth_lt; eauto). inversion E; subst u. rewrite G1, upd_eq, IG. destruct I as [I|I]; [inversion I; congruence|].
        destruct (D i q I) as (w & E1 & E2). assert (w = t) by congruence. subst w. pose proof (ID i q t I EN) as Q. unfold p. rewrite construct_done by auto. auto.
      * rewrite put_other in E by auto. destruct I as [I|I]; [inversion I; congruence|]. pose proof (ID j q u I E) as Q.
        destruct (Z.eq_dec (kt_pid u) (kt_pid t)) as [EP|NE]; [rewrite EP, upd_eq | rewrite upd_neq by auto; auto].
        destruct (D j q I) as (w & E1 & E2). assert (w = u) by congruence. subst w. unfold p. rewrite construct_done; [|rewrite <- EP; auto]. rewrite <- EP. auto.
  - destruct OK.
  - destruct (nth_error (ks_th s) i) as [t|] eqn:EN; auto. destruct (Z.ltb_spec 0 tid); auto. constructor; cbn; auto.
    intros j r u I E. destruct (app_nth _ _ _ _ _ E) as [E'|[-> ->]]; [eapply ID; eauto|]. destruct (D _ r I) as (w & E1 & E2). apply nth_lt in E1. lia.
  - destruct (nth_error (ks_th s) i) as [t|] eqn:EN; auto. destruct ((0 <? pid) && forallb (fun u => negb (kt_pid u =? pid)) (ks_th s)) eqn:NP; auto.
    apply andb_true_iff in NP as [NP FR]. rewrite forallb_forall in FR.
    assert (NE : forall u, In u (ks_th s) -> kt_pid u <> pid) by (intros u W; specialize (FR u W); apply negb_true_iff, Z.eqb_neq in FR; auto).
    constructor; cbn; auto.
    + intro q. destruct (Z.eq_dec q pid) as [->|NQ]; [rewrite upd_eq | rewrite upd_neq by auto]; auto.
    + intros j r u I E. destruct (D j r I) as (w & E1 & E2). destruct (app_nth _ _ _ _ _ E) as [E'|[-> ->]]; [|apply nth_lt in E1; lia].
      rewrite upd_neq by (apply NE; eapply nth_error_In; eauto). eapply ID; eauto.
  - destruct (nth_error (ks_th s) i) as [t|] eqn:EN; auto. cbv zeta. set (p := ks_pr s (kt_pid t)). destruct (in_use (p_seq p) k) eqn:F; auto.
    constructor; cbn; auto.
    + intro q. destruct (Z.eq_dec q (kt_pid t)) as [->|NQ]; [rewrite upd_eq; apply U | rewrite upd_neq by auto; auto].
    + intros j r u I E. rewrite nth_error_map in E. destruct (nth_error (ks_th s) j) as [w|] eqn:EJ; [|discriminate]. cbn in E. inversion E; subst u. clear E. pose proof (ID j r w I EJ) as Q.
      destruct (Z.eqb_spec (kt_pid w) (kt_pid t)) as [E|NQ]; [|rewrite upd_neq by auto; auto]. cbn. rewrite E, upd_eq. rewrite <- Q, E. apply ident_ext; auto. cbn. intros j' C.
      apply spec_bump. intros ->. destruct (pk_key _ (A (kt_pid t)) k C (U _)) as [W _]. unfold p in F. congruence.
  - destruct (nth_error (ks_th s) i) as [t|] eqn:EN; auto. cbv zeta. set (p := ks_pr s (kt_pid t)). destruct (p_other p k) eqn:O; auto. constructor; cbn; auto.
    + intro q. destruct (Z.eq_dec q (kt_pid t)) as [->|NQ]; [rewrite upd_eq; apply U | rewrite upd_neq by auto; auto].
    + intros j r u I E. pose proof (ID j r u I E) as Q. destruct (Z.eq_dec (kt_pid u) (kt_pid t)) as [EP|NQ]; [rewrite EP, upd_eq | rewrite upd_neq by auto; auto].
      rewrite <- Q, EP. apply ident_ext; auto. cbn. intros j' C. apply spec_bump. intros ->. pose proof (key_not_other _ k (A (kt_pid t)) C) as W. unfold p in O. congruence.
  - destruct (nth_error (ks_th s) i) as [t|] eqn:EN; auto. cbv zeta. destruct (p_other (ks_pr s (kt_pid t)) k && negb fail) eqn:O; auto. apply andb_true_iff in O as [O _].
    constructor; cbn; auto. intros j r u I E. destruct (Nat.eq_dec j i) as [->|NJ].
    + rewrite put_same in E by (eapply nth_lt; eauto). inversion E; subst u. cbn. rewrite <- (ID i r t I EN). apply ident_ext; auto. cbn. intros j' C.
      assert (NK : j' <> k) by (intros ->; pose proof (key_not_other _ k (A (kt_pid t)) C) as W; congruence).
      unfold set_spec. destruct (_ && _); auto. unfold get_spec. rewrite upd_neq by auto. auto.
    + rewrite put_other in E by auto. eapply ID; eauto.
  - destruct (nth_error (ks_th s) i) as [t|] eqn:EN; auto. cbv zeta. destruct (p_other (ks_pr s (kt_pid t)) k); auto. constructor; auto.
Qed.

Lemma no_exit_ok : forall pid s, 0 < pid -> k_reach pid no_exit s -> BI s /\ NI s.
Proof.
  intros pid s POS R. induction R as [|s x R [B N] O].
  - split; [apply (BI_reach pid no_late_key); auto; constructor | constructor; cbn; auto; contradiction].
  - split; [|apply NI_step; auto]. apply BI_step; auto. destruct x; cbn; auto. intros t _. apply (ni_up s N).
Qed.
Lemma one_number_without_exit : forall pid s, 0 < pid -> k_reach pid no_exit s -> one_number s.
Proof.
  intros pid s POS R i r1 r2 I1 I2. destruct (no_exit_ok pid s POS R) as [B N]. destruct (bi_i s B i r1 I1) as (t & E & _).
  rewrite <- (ni_id s N i r1 t I1 E). apply (ni_id s N i r2 t I2 E).
Qed.

(** ** The number of the thread itself *)
Record OI (s : ksys) : Prop := mkOI {
  oi_val : forall i t k, nth_error (ks_th s) i = Some t -> p_cache (ks_pr s (kt_pid t)) = Key k ->
             let x := get_spec (p_seq (ks_pr s (kt_pid t))) (kt_v t) k in (x = 0 \/ x = kt_tid t) /\ ((forall r, ~ In (i, r) (ks_ids s)) -> x = 0);
  oi_own : own_number s }.

(** a change of a process that leaves what its threads have under the key, or makes it empty *)
Lemma OI_proc : forall s pid p', OI s -> (forall t k, In t (ks_th s) -> kt_pid t = pid -> p_cache p' = Key k ->
    get_spec (p_seq p') (kt_v t) k = 0 \/ (p_cache (ks_pr s pid) = Key k /\ get_spec (p_seq p') (kt_v t) k = get_spec (p_seq (ks_pr s pid)) (kt_v t) k)) ->
  OI (mkKS (ks_th s) (upd (ks_pr s) pid p') (ks_ids s) (ks_reads s)).
Proof.
  intros s pid p' [V W] H. constructor; [|exact W]. intros i t k E C. cbn in *. destruct (Z.eq_dec (kt_pid t) pid) as [EP|NE].
  - rewrite EP, upd_eq in C |- *. destruct (H t k (nth_error_In _ _ E) EP C) as [-> |[C' ->]]; auto. subst pid. apply (V i t k E C').
  - rewrite upd_neq in C |- * by auto. apply (V i t k E C).
Qed.

Lemma OI_step : forall s x, BI s -> OI s -> fork_first s x -> no_late_key s x -> OI (k_step s x).
Proof.
  intros s x B N OK1 OK2. pose proof B as [A T R D]. pose proof N as [V W]. destruct x as [i got fail|pid|i tid|i pid|i k|i k|i k x fail|i k]; cbn [k_step].
  - destruct (nth_error (ks_th s) i) as [t|] eqn:EN; auto. set (p := construct (ks_pr s (kt_pid t)) got). assert (IT : In t (ks_th s)) by (eapply nth_error_In; eauto).
    destruct (get_threadid p t fail) as [r t'] eqn:EG. pose proof (get_same p t fail) as [G1 G2]. rewrite EG in G1, G2. cbn in G1, G2.
    pose proof (get_ident p t fail) as GI. rewrite EG in GI. cbn in GI.
    assert (S1 : OI (mkKS (ks_th s) (upd (ks_pr s) (kt_pid t) p) (ks_ids s) (ks_reads s))).
    { apply OI_proc; auto. intros u k I E C. specialize (T u I). rewrite E in T. unfold p in *. unfold construct in *. destruct (p_cache (ks_pr s (kt_pid t))) as [| |k0] eqn:EC.
      - destruct got as [k1|]; [|discriminate]. destruct (in_use (p_seq (ks_pr s (kt_pid t))) k1); [discriminate|]. cbn in *. inversion C; subst k1. left. apply spec_fresh. apply (tk_gen _ _ T).
      - congruence.
      - right. split; auto. congruence. }
    destruct S1 as [V1 _]. cbn in V1.
    assert (VT : forall k, p_cache p = Key k -> get_spec (p_seq p) (kt_v t) k = 0 \/ get_spec (p_seq p) (kt_v t) k = kt_tid t).
    { intros k C. specialize (V1 i t k EN). rewrite upd_eq in V1. apply (V1 C). }
    constructor; cbn.
    + intros j u k E C. destruct (Nat.eq_dec j i) as [->|NJ].
      * rewrite put_same in E by (eapply nth_lt; eauto). inversion E; subst u. rewrite G1, upd_eq in C |- *. split; [|intro Q; destruct (Q r); auto]. rewrite G2.
        unfold get_threadid in EG. rewrite C in EG. cbv zeta in EG. destruct (_ =? 0); inversion EG; subst t'; [|apply VT; auto]. cbn. destruct (spec_set (p_seq p) (kt_v t) k (kt_tid t) fail) as [->| ->]; auto.
      * rewrite put_other in E by auto. destruct (V1 j u k E C) as [Q1 Q2]. split; [exact Q1|]. intro Q. apply Q2. intros r0 I. apply (Q r0). auto.
    + intros j q u I E. cbn in E. destruct (Nat.eq_dec j i) as [->|NJ].
      * rewrite put_same in E by (eapply nth_lt; eauto). inversion E; subst u. rewrite G2. destruct I as [I|I]; [|apply (W i q t I EN)]. inversion I; subst q. rewrite GI. unfold ident.
        destruct (p_cache p) as [| |k] eqn:EC; auto. cbv zeta. destruct (VT k eq_refl) as [->| ->]; [reflexivity | destruct (kt_tid t =? 0); auto].
      * rewrite put_other in E by auto. destruct I as [I|I]; [inversion I; congruence|]. apply (W j q u I E).
  - destruct (p_down (ks_pr s pid)) eqn:DN; auto. apply OI_proc; auto. intros t k I E C. specialize (T t I). rewrite E in T. unfold destruct_cache in *. destruct (p_cache (ks_pr s pid)) as [| |k0] eqn:EC; [congruence|discriminate|].
    cbn in *. inversion C; subst k0. destruct (pk_key _ (A pid) k EC DN) as [U _]. rewrite U. left. apply spec_fresh. apply (tk_gen _ _ T).
  - destruct (nth_error (ks_th s) i) as [t|] eqn:EN; auto. destruct (Z.ltb_spec 0 tid); auto. constructor; cbn.
    + intros j u k E C. destruct (app_nth _ _ _ _ _ E) as [E'|[-> ->]]; [apply (V j u k E' C)|]. cbn. rewrite spec_zero. auto.
    + intros j r u I E. cbn in I, E. destruct (D _ r I) as (w & E1 & _). destruct (app_nth _ _ _ _ _ E) as [E'|[-> ->]]; [apply (W j r u I E')|]. apply nth_lt in E1. lia.
  - destruct (nth_error (ks_th s) i) as [t|] eqn:EN; auto. destruct ((0 <? pid) && forallb (fun u => negb (kt_pid u =? pid)) (ks_th s)) eqn:NP; auto.
    apply andb_true_iff in NP as [NP FR]. rewrite forallb_forall in FR.
    assert (NE : forall u, In u (ks_th s) -> kt_pid u <> pid) by (intros u X; specialize (FR u X); apply negb_true_iff, Z.eqb_neq in FR; auto).
    constructor; cbn.
    + intros j u k E C. destruct (app_nth _ _ _ _ _ E) as [E'|[-> ->]]; [rewrite upd_neq in C |- * by (apply NE; eapply nth_error_In; eauto); apply (V j u k E' C)|].
      cbn in *. rewrite upd_eq in C |- *. destruct (V i t k EN C) as [_ Q]. rewrite (Q OK1). auto.
    + intros j r u I E. cbn in I, E. destruct (D _ r I) as (w & E1 & _). destruct (app_nth _ _ _ _ _ E) as [E'|[-> ->]]; [apply (W j r u I E')|]. apply nth_lt in E1. lia.
  - destruct (nth_error (ks_th s) i) as [t|] eqn:EN; auto. cbv zeta. set (p := ks_pr s (kt_pid t)). destruct (in_use (p_seq p) k) eqn:F; auto. constructor; cbn.
    + intros j u k' E C. rewrite nth_error_map in E. destruct (nth_error (ks_th s) j) as [w|] eqn:EJ; [|discriminate]. cbn in E. inversion E; subst u. clear E.
      destruct (Z.eqb_spec (kt_pid w) (kt_pid t)) as [E|NQ]; [|rewrite upd_neq in C |- * by auto; apply (V j w k' EJ C)]. cbn in *. rewrite E, upd_eq in C |- *. cbn in *.
      rewrite spec_bump; [pose proof (V j w k' EJ) as Q; rewrite E in Q; apply (Q C)|]. intros ->. destruct (pk_key _ (A (kt_pid t)) k C (OK2 t EN)) as [X _]. unfold p in F. congruence.
    + intros j r u I E. cbn in I, E. rewrite nth_error_map in E. destruct (nth_error (ks_th s) j) as [w|] eqn:EJ; [|discriminate]. cbn in E. inversion E; subst u. rewrite (W j r w I EJ). destruct (_ =? _); auto.
  - destruct (nth_error (ks_th s) i) as [t|] eqn:EN; auto. cbv zeta. set (p := ks_pr s (kt_pid t)). destruct (p_other p k) eqn:O; auto. apply OI_proc; auto. cbn. intros u k' I E C. right. split; auto.
    apply spec_bump. intros ->. pose proof (key_not_other _ k (A (kt_pid t)) C) as X. unfold p in O. congruence.
  - destruct (nth_error (ks_th s) i) as [t|] eqn:EN; auto. cbv zeta. destruct (p_other (ks_pr s (kt_pid t)) k && negb fail) eqn:O; auto. apply andb_true_iff in O as [O _]. constructor; cbn.
    + intros j u k' E C. destruct (Nat.eq_dec j i) as [->|NJ].
      * rewrite put_same in E by (eapply nth_lt; eauto). inversion E; subst u. cbn in *. assert (NK : k' <> k) by (intros ->; pose proof (key_not_other _ k (A (kt_pid t)) C) as X; congruence).
        assert (EQ : get_spec (p_seq (ks_pr s (kt_pid t))) (set_spec (p_seq (ks_pr s (kt_pid t))) (kt_v t) k x false) k' = get_spec (p_seq (ks_pr s (kt_pid t))) (kt_v t) k').
        { unfold set_spec. destruct (_ && _); auto. unfold get_spec. rewrite upd_neq by auto. auto. }
        rewrite EQ. apply (V i t k' EN C).
      * rewrite put_other in E by auto. apply (V j u k' E C).
    + intros j r u I E. cbn in I, E. destruct (Nat.eq_dec j i) as [->|NJ]; [rewrite put_same in E by (eapply nth_lt; eauto); inversion E; subst u; apply (W i r t I EN) | rewrite put_other in E by auto; apply (W j r u I E)].
  - destruct (nth_error (ks_th s) i) as [t|] eqn:EN; auto. cbv zeta. destruct (p_other (ks_pr s (kt_pid t)) k); auto. constructor; auto.
Qed.
Lemma own_number_reach : forall pid s, 0 < pid -> k_reach pid (both_k fork_first no_late_key) s -> own_number s.
Proof.
  intros pid s POS R. apply oi_own. assert (G : BI s /\ OI s); [|apply G]. induction R as [|s x R [B N] [O1 O2]].
  - split; [apply (BI_reach pid no_late_key); auto; constructor|]. constructor; cbn; [|intros i r t []]. intros i t k _ C. discriminate.
  - split; [apply BI_step | apply OI_step]; auto.
Qed.
Lemma others_reach : forall pid s, 0 < pid -> k_reach pid no_late_key s -> others_intact s.
Proof. intros pid s POS R. apply bi_r. apply (BI_reach pid no_late_key); auto. Qed.
