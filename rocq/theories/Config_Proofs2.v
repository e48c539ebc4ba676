(** Invariants of the configuration. *)
From Coq Require Import List Bool Ascii String ZArith Lia.
From Verif Require Import Base Path_Model Path_Spec Path_Proofs Layout_Model Layout_Spec Config_Model Config_Spec Config_Proofs.
Import ListNotations.
Open Scope Z_scope.

Definition load_result (e : env) (c : cfg) (d : text) : cfg :=
  let rb := env_robust (e "FLCKROBUSTMODE"%string) (k_robust c) in
  mkCfg (env_auto (e "FLCKAUTOINIT"%string) (k_auto c)) rb (env_nomap (e "FLCKNOMAPMODE"%string) (k_nomap c))
        (env_free (e "FLCKFREEUNITMODE"%string) (k_free c)) (env_umask (e "FLCKUMASK"%string) (k_umask c))
        (env_loop (e "FLCKROBUSTCHKCNT"%string) rb (k_loop c)) (env_counts e (k_cnt c))
        d (env_name (e "FLCKFILENAME"%string) (k_name c)) (k_path c) (k_att c).
Lemma load_shape : forall e cwd fs c c' fs', LoadEnv e cwd fs c = ROk (c', fs') -> exists d, env_dir cwd (e "FLCKDIRPATH"%string) fs (k_dir c) = ROk (d, fs') /\ c' = load_result e c d.
Proof.
  intros e cwd fs c c' fs' H. unfold LoadEnv in H. destruct (env_dir cwd (e "FLCKDIRPATH"%string) fs (k_dir c)) as [| |[d f]]; [discriminate H|discriminate H|].
  injection H as <- <-. exists d. auto.
Qed.
Lemma load_not_fail : forall e cwd fs c, LoadEnv e cwd fs c <> RFail.
Proof.
  intros e cwd fs c H. unfold LoadEnv in H. destruct (env_dir cwd (e "FLCKDIRPATH"%string) fs (k_dir c)) as [| |[d f]] eqn:E; [|discriminate H|discriminate H].
  exact (env_dir_not_fail _ _ _ _ E).
Qed.

(** the invariant of reachable configurations *)
Definition no_slash (s : text) : Prop := ~ In "/"%char s.
Lemma has_slash_false : forall s, has_slash s = false <-> no_slash s.
Proof.
  intro s. unfold has_slash, no_slash. split.
  - intros H I. assert (X : existsb is_slash s = true) by (apply existsb_exists; exists "/"%char; split; auto). congruence.
  - intro H. destruct (existsb is_slash s) eqn:E; auto. apply existsb_exists in E as (x & I & X). unfold is_slash in X. apply Ascii.eqb_eq in X. subst. contradiction.
Qed.
Record cinv (c : cfg) : Prop := {
  ci_loop : 50 <= k_loop c;
  ci_umask : 0 <= k_umask c < 511;
  ci_name : no_slash (k_name c);
  ci_path : k_path c = [] \/ k_path c = k_dir c ++ tx "/" ++ k_name c;
  ci_att : k_att c = true -> k_path c <> []
}.
(** what holds while a start is under way: no path yet *)
Definition cinv0 (c : cfg) : Prop := 50 <= k_loop c /\ 0 <= k_umask c < 511 /\ no_slash (k_name c).

Lemma env_umask_range : forall v old, 0 <= old < 511 -> 0 <= env_umask v old < 511.
Proof.
  intros [s|] old H; cbn [env_umask]; auto. destruct (CvtNumberStringToLong s) as [n|]; auto.
  destruct (Z.ltb_spec n 0); cbn [orb]; auto. destruct (Z.leb_spec 511 n); auto; lia.
Qed.
Lemma default_name_ok : no_slash (tx "fullock.shm").
Proof. apply has_slash_false. vm_compute. reflexivity. Qed.
Lemma env_name_ok : forall v old, no_slash old -> no_slash (env_name v old).
Proof.
  intros [s|] old H; cbn [env_name]; [|exact default_name_ok]. destruct (has_slash (trim s)) eqn:E; auto. apply has_slash_false; auto.
Qed.
Lemma load_cinv0 : forall e c d, cinv0 c -> cinv0 (load_result e c d).
Proof.
  intros e c d (A & B & D). unfold load_result, cinv0. cbn [k_loop k_umask k_name]. split; [apply env_loop_min; auto|]. split; [apply env_umask_range; auto|].
  apply env_name_ok; auto.
Qed.

Lemma init_shm_cases : forall ok c c' r, InitializeShm ok c = (c', r) -> (c' = c /\ r = false) \/ (c' = w_att true c /\ r = true /\ k_path c <> [] /\ k_att c = false).
Proof.
  intros ok c c' r H. unfold InitializeShm in H. destruct (k_att c) eqn:A; [injection H as <- <-; auto|].
  destruct (k_path c) eqn:P; [injection H as <- <-; auto|]. destruct ok; injection H as <- <-; [right|left]; auto. split; [auto|]. split; [auto|]. split; [discriminate | auto].
Qed.

Lemma init_object_shape : forall load e cwd ok fs c c' fs' r, InitializeObject load e cwd ok fs c = ROk (c', fs', r) -> exists c1 fs1,
  (if load then exists d, env_dir cwd (e "FLCKDIRPATH"%string) fs (k_dir c) = ROk (d, fs1) /\ c1 = load_result e (w_path [] c) d else c1 = w_path [] c /\ fs1 = fs) /\
  ((load = true /\ k_auto c1 = false /\ c' = c1 /\ fs' = fs1 /\ r = true) \/
   exists c2, c2 = match k_dir c1 with [] => w_dir (default_dir fs1) c1 | _ => c1 end /\
     ((MakeWorkDirectory cwd fs1 (k_dir c2) = ROk (fs', false) /\ c' = c2 /\ r = false) \/
      (MakeWorkDirectory cwd fs1 (k_dir c2) = ROk (fs', true) /\ InitializeShm ok (w_path (k_dir c2 ++ tx "/" ++ k_name c2) c2) = (c', r)))).
Proof.
  intros load e cwd ok fs c c' fs' r H. unfold InitializeObject in H.
  destruct (if load then LoadEnv e cwd fs (w_path [] c) else ROk (w_path [] c, fs)) as [| |[c1 fs1]] eqn:L; [discriminate H|discriminate H|].
  exists c1, fs1. split.
  - destruct load; [|injection L as <- <-; auto]. destruct (load_shape _ _ _ _ _ _ L) as (d & D & ->). exists d. auto.
  - destruct (load && negb (k_auto c1)) eqn:A.
    + left. injection H as <- <- <-. apply andb_true_iff in A as [A B]. apply negb_true_iff in B. auto.
    + right. eexists. split; [reflexivity|]. set (c2 := match k_dir c1 with [] => _ | _ => _ end) in *.
      destruct (MakeWorkDirectory cwd fs1 (k_dir c2)) as [| |[fs2 [|]]]; [discriminate H|discriminate H| |].
      * right. destruct (InitializeShm ok (w_path (k_dir c2 ++ tx "/" ++ k_name c2) c2)) as [c4 r4]. injection H as <- <- <-. auto.
      * left. injection H as <- <- <-. auto.
Qed.

(** a start, with or without reading the environment, of a detached object *)
Lemma init_object_cinv : forall load e cwd ok fs c c' fs' r, cinv0 c -> k_att c = false -> InitializeObject load e cwd ok fs c = ROk (c', fs', r) -> cinv c'.
Proof.
  intros load e cwd ok fs c c' fs' r I A H. destruct (init_object_shape _ _ _ _ _ _ _ _ _ H) as (c1 & fs1 & L & R).
  assert (I1 : cinv0 c1 /\ k_path c1 = [] /\ k_att c1 = false).
  { destruct load.
    - destruct L as (d & D & ->). split; [apply load_cinv0; exact I|]. split; [reflexivity | exact A].
    - destruct L as [-> ->]. split; [exact I|]. split; [reflexivity | exact A]. }
  destruct I1 as ((I1 & I2 & I3) & P1 & A1).
  destruct R as [(_ & _ & -> & -> & ->)|(c2 & E2 & R)].
  - constructor; auto. intro X. congruence.
  - assert (I2' : cinv0 c2 /\ k_path c2 = [] /\ k_att c2 = false) by (rewrite E2; destruct (k_dir c1); cbn; repeat split; auto; apply I2).
    destruct I2' as ((J1 & J2 & J3) & P2 & A2).
    destruct R as [(_ & -> & ->)|(_ & R)].
    + constructor; auto. intro X. congruence.
    + destruct (init_shm_cases _ _ _ _ R) as [(-> & _)|(-> & _ & NE & _)]; constructor; auto; cbn [k_att k_path w_path w_att].
      intro X. cbn in X. congruence.
Qed.

(** re-initialisation: refused before anything happens, or detached and started again *)
Lemma reinit_rest_shape : forall e cwd ok f q c top fs0 c' fs' r, reinit_rest e cwd ok f q c top fs0 = ROk (c', fs', r) ->
  (c' = c /\ r = false) \/
  exists dd fs1,
    match given f with Some fn => has_slash (trim fn) = false | None => True end /\
    let n := k_cnt c in
    let c2 := w_cnt (mkCnt 128 8192 8192 256 (n_ncond n) (n_waiter n)) (w_name (tx "fullock.shm") (w_dir (default_dir fs0) (w_att false c))) in
    env_dir cwd (e "FLCKDIRPATH"%string) fs0 (k_dir c2) = ROk (dd, fs1) /\
    let c4 := w_auto true (load_result e c2 dd) in
    let c5 := match top with Some t => w_dir t c4 | None => c4 end in
    let c6 := match given f with Some fn => w_name (trim fn) c5 | None => c5 end in
    let n6 := k_cnt c6 in
    InitializeObject false e cwd ok fs1 (w_cnt (mkCnt (over (n_file q) (n_file n6)) (over (n_off q) (n_off n6)) (over (n_locker q) (n_locker n6))
                                   (over (n_nmtx q) (n_nmtx n6)) (over (n_ncond q) (n_ncond n6)) (over (n_waiter q) (n_waiter n6))) c6) = ROk (c', fs', r).
Proof.
  intros e cwd ok f q c top fs0 c' fs' r B. unfold reinit_rest in B. cbv zeta in *.
  destruct (match given f with Some f0 => has_slash (trim f0) | None => false end) eqn:S; [left; injection B as <- _ <-; auto|].
  right.
  match type of B with match LoadEnv _ _ _ ?x with _ => _ end = _ => set (c2 := x) in * end.
  destruct (LoadEnv e cwd fs0 c2) as [| |[c3 fs1]] eqn:L; [discriminate B|discriminate B|].
  destruct (load_shape _ _ _ _ _ _ L) as (dd & D & ->). exists dd, fs1. split.
  - destruct (given f); auto.
  - split; [exact D | exact B].
Qed.
Lemma reinit_shape : forall e cwd ok d f q fs c c' fs' r, ReInitializeObject e cwd ok d f q fs c = ROk (c', fs', r) ->
  (c' = c /\ r = false /\ (reinit_refuses q = true -> fs' = fs)) \/
  (reinit_refuses q = false /\ exists top fs0,
    match given d with Some dn => exists tp, GetRealPath cwd dn = ROk tp /\ MakeWorkDirectory cwd fs tp = ROk (fs0, true) /\ top = Some tp | None => top = None /\ fs0 = fs end /\
    reinit_rest e cwd ok f q c top fs0 = ROk (c', fs', r)).
Proof.
  intros e cwd ok d f q fs c c' fs' r H. unfold ReInitializeObject in H. destruct (reinit_refuses q) eqn:RQ.
  - left. injection H as <- <- <-. auto.
  - destruct (given d) as [dn|] eqn:Gd.
    + destruct (GetRealPath cwd dn) as [| |tp] eqn:GR; [left; injection H as <- <- <-; auto|discriminate H|].
      destruct (MakeWorkDirectory cwd fs tp) as [| |[fs0 [|]]] eqn:MW; [discriminate H|discriminate H| |].
      * right. split; auto. exists (Some tp), fs0. split; auto. exists tp. auto.
      * left. injection H as <- <- <-. split; auto. split; auto. intro X; discriminate X.
    + right. split; auto. exists None, fs. auto.
Qed.

Lemma attach_or_cases : forall ok c f c' r, attach_or ok c f = (c', r) -> c' = c \/ (c' = w_att true c /\ k_path c <> []).
Proof.
  intros ok c f c' r H. unfold attach_or, CheckAttach in H. destruct (k_att c) eqn:A; [injection H as <- _; auto|].
  destruct (k_nomap c); try (injection H as <- _; auto); destruct (InitializeShm ok c) as [c1 b] eqn:E; injection H as <- _;
  destruct (init_shm_cases _ _ _ _ E) as [(-> & _)|(-> & _ & NE & _)]; auto.
Qed.
Lemma call_head_cases : forall ok dev a c, fst (call_head ok dev a c) = c \/ (fst (call_head ok dev a c) = w_att true c /\ k_path c <> []).
Proof.
  intros ok dev a c. destruct a as [l [n|] t|k fd of' ln t|fd of' ln|[n|] m t|[n|] b]; cbn [call_head]; auto;
  match goal with |- context [attach_or ?x ?y ?z] => destruct (attach_or x y z) as [c' r] eqn:E; cbn [fst]; exact (attach_or_cases _ _ _ _ _ E) end.
Qed.

Theorem reach_cinv : forall P c, reach P c -> cinv c.
Proof.
  intros P c H. induction H as [e cwd ok fs fs' c r H|e cwd ok d f q fs fs' c c' r PQ _ I H|c v _ I|c v _ I|c v _ I|c v _ I|c ok dev a _ I].
  - apply (init_object_cinv _ _ _ _ _ _ _ _ _) with (3 := H); [|reflexivity]. unfold cinv0, cfg0. cbn. split; [lia|]. split; [lia|]. intro X; exact X.
  - destruct (reinit_shape _ _ _ _ _ _ _ _ _ _ _ H) as [(-> & _)|(_ & top & fs0 & _ & H')]; [exact I|].
    destruct (reinit_rest_shape _ _ _ _ _ _ _ _ _ _ _ H') as [(-> & _)|(dd & fs1 & F & D & R)]; [exact I|].
    apply (init_object_cinv _ _ _ _ _ _ _ _ _) with (3 := R).
    + destruct I as [I1 I2 I3 _ _]. unfold cinv0. cbn [k_loop k_umask k_name w_cnt].
      assert (G : forall x, cinv0 x -> match given f with Some fn => has_slash (trim fn) = false | None => True end -> cinv0 (match given f with Some fn => w_name (trim fn) x | None => x end)).
      { intros x (X1 & X2 & X3) S. destruct (given f); [|exact (conj X1 (conj X2 X3))]. split; [exact X1|]. split; [exact X2|]. cbn. apply has_slash_false; auto. }
      apply (G _); [|exact F].
      assert (G2 : forall x, cinv0 x -> cinv0 (match top with Some t => w_dir t x | None => x end)) by (intros x X; destruct top; exact X).
      apply G2. apply load_cinv0. unfold cinv0. cbn. split; [exact I1|]. split; [exact I2|]. exact default_name_ok.
    + destruct (given f), top; reflexivity.
  - unfold SetRobustMode, FLCK_ROBUST_CHKCNT_MIN. destruct I as [I1 I2 I3 I4 I5]. destruct v; try (constructor; assumption). cbn [k_loop w_robust].
    destruct (Z.ltb_spec (k_loop c) 50); [lia|]. cbn [fst]. constructor; assumption.
  - destruct I. constructor; assumption.
  - destruct I. constructor; assumption.
  - unfold SetRobustLoopCnt, FLCK_ROBUST_CHKCNT_MIN. destruct I as [I1 I2 I3 I4 I5]. destruct (k_robust c) eqn:E; try (constructor; assumption).
    destruct (Z.ltb_spec v 50); cbn [fst]; constructor; cbn; auto.
  - destruct I as [I1 I2 I3 I4 I5]. destruct (call_head_cases ok dev a c) as [->|(-> & NE)]; constructor; auto.
Qed.

(** ** Counts *)
Lemma load_permitted : forall e n, permitted n -> permitted (env_counts e n).
Proof.
  intros e n (A & B & C & D & E & F). unfold permitted, env_counts. cbn [n_file n_off n_locker n_nmtx n_ncond n_waiter].
  repeat (split; [apply env_count_range; assumption|]). apply env_count_range; assumption.
Qed.
Lemma init_object_cnt : forall load e cwd ok fs c c' fs' r, InitializeObject load e cwd ok fs c = ROk (c', fs', r) ->
  k_cnt c' = if load then env_counts e (k_cnt c) else k_cnt c.
Proof.
  intros load e cwd ok fs c c' fs' r H. destruct (init_object_shape _ _ _ _ _ _ _ _ _ H) as (c1 & fs1 & L & R).
  assert (E1 : k_cnt c1 = if load then env_counts e (k_cnt c) else k_cnt c).
  { destruct load; [destruct L as (d & _ & ->); reflexivity | destruct L as [-> _]; reflexivity]. }
  rewrite <- E1. destruct R as [(_ & _ & -> & _)|(c2 & E2 & R)]; [reflexivity|].
  assert (E3 : k_cnt c2 = k_cnt c1) by (rewrite E2; destruct (k_dir c1); reflexivity). rewrite <- E3.
  destruct R as [(_ & -> & _)|(_ & R)]; [reflexivity|]. destruct (init_shm_cases _ _ _ _ R) as [(-> & _)|(-> & _)]; reflexivity.
Qed.
Lemma reinit_cnt : forall e cwd ok d f q fs c c' fs' r, ReInitializeObject e cwd ok d f q fs c = ROk (c', fs', r) ->
  (c' = c /\ r = false) \/
  (reinit_refuses q = false /\ k_cnt c' = let n := env_counts e (mkCnt 128 8192 8192 256 (n_ncond (k_cnt c)) (n_waiter (k_cnt c))) in
     mkCnt (over (n_file q) (n_file n)) (over (n_off q) (n_off n)) (over (n_locker q) (n_locker n))
           (over (n_nmtx q) (n_nmtx n)) (over (n_ncond q) (n_ncond n)) (over (n_waiter q) (n_waiter n))).
Proof.
  intros e cwd ok d f q fs c c' fs' r H. destruct (reinit_shape _ _ _ _ _ _ _ _ _ _ _ H) as [(-> & -> & _)|(RQ & top & fs0 & _ & H')]; [auto|].
  destruct (reinit_rest_shape _ _ _ _ _ _ _ _ _ _ _ H') as [(-> & ->)|(dd & fs1 & F & D & R)]; [auto|].
  right. split; auto. rewrite (init_object_cnt _ _ _ _ _ _ _ _ _ R). cbn [k_cnt w_cnt]. destruct (given f), top; reflexivity.
Qed.
Lemma refuses_spec : forall q, reinit_refuses q = false ->
  (n_file q = 0 \/ 1 <= n_file q <= 2048) /\ (n_off q = 0 \/ 4 <= n_off q <= 16384) /\ (n_locker q = 0 \/ 4 <= n_locker q <= 16384) /\
  (n_nmtx q = 0 \/ 1 <= n_nmtx q <= 8192) /\ (n_ncond q = 0 \/ 1 <= n_ncond q <= 8192) /\ (n_locker q = 0 \/ 4 <= n_waiter q <= 16384).
Proof.
  intros q H. unfold reinit_refuses, bad_count in H. repeat rewrite orb_false_iff in H. destruct H as (((((A & B) & C) & D) & E) & F).
  assert (G : forall a lo hi n, negb (a =? 0) && ((n <? lo) || (hi <? n)) = false -> a = 0 \/ lo <= n <= hi).
  { intros a lo hi n X. destruct (Z.eqb_spec a 0); auto. right. cbn [negb andb] in X. apply orb_false_iff in X as [X1 X2]. apply Z.ltb_ge in X1, X2. lia. }
  split; [eapply G; eauto|]. split; [eapply G; eauto|]. split; [eapply G; eauto|]. split; [eapply G; eauto|]. split; eapply G; eauto.
Qed.
Lemma over_range : forall lo hi q n, lo <= n <= hi -> q = 0 \/ lo <= q <= hi -> lo <= over q n <= hi.
Proof. intros lo hi q n N Q. unfold over. destruct (Z.eqb_spec q 0); [auto|]. destruct Q; [contradiction | auto]. Qed.

Definition waiter_ok (q : counts) : Prop := n_waiter q = 0 \/ 4 <= n_waiter q <= 16384.
Theorem reach_permitted : forall c, reach waiter_ok c -> permitted (k_cnt c).
Proof.
  intros c H. induction H as [e cwd ok fs fs' c r H|e cwd ok d f q fs fs' c c' r PQ _ I H|c v _ I|c v _ I|c v _ I|c v _ I|c ok dev a _ I].
  - rewrite (init_object_cnt _ _ _ _ _ _ _ _ _ H). apply load_permitted. unfold permitted. cbn. lia.
  - destruct (reinit_cnt _ _ _ _ _ _ _ _ _ _ _ H) as [(-> & _)|(RQ & ->)]; [exact I|]. cbv zeta.
    assert (N : permitted (env_counts e (mkCnt 128 8192 8192 256 (n_ncond (k_cnt c)) (n_waiter (k_cnt c))))).
    { apply load_permitted. destruct I as (_ & _ & _ & _ & I5 & I6). unfold permitted. cbn [n_file n_off n_locker n_nmtx n_ncond n_waiter]. lia. }
    revert N. generalize (env_counts e (mkCnt 128 8192 8192 256 (n_ncond (k_cnt c)) (n_waiter (k_cnt c)))). intros n (N1 & N2 & N3 & N4 & N5 & N6).
    destruct (refuses_spec q RQ) as (Q1 & Q2 & Q3 & Q4 & Q5 & _). unfold permitted. cbn [n_file n_off n_locker n_nmtx n_ncond n_waiter].
    repeat (split; [apply over_range; assumption|]). apply over_range; assumption.
  - unfold SetRobustMode. destruct v; try exact I. cbn [fst]. destruct (k_loop (w_robust ROBUST_HIGH c) <? FLCK_ROBUST_CHKCNT_MIN); exact I.
  - exact I.
  - exact I.
  - unfold SetRobustLoopCnt. destruct (k_robust c); try exact I. destruct (v <? FLCK_ROBUST_CHKCNT_MIN); exact I.
  - destruct (call_head_cases ok dev a c) as [->|(-> & _)]; exact I.
Qed.

(** success of a start does not depend on the counts *)
Lemma init_object_indep : forall e cwd ok fs c n, InitializeObject false e cwd ok fs (w_cnt n c) =
  match InitializeObject false e cwd ok fs c with ROk (c', fs', r) => ROk (w_cnt n c', fs', r) | RFail => RFail | RUndef => RUndef end.
Proof.
  intros e cwd ok fs c n. unfold InitializeObject. cbn [andb].
  destruct (k_dir (w_path [] (w_cnt n c))) as [|x dd] eqn:D; cbn in D; cbn [k_dir w_path]; rewrite D.
  - cbn [k_dir w_dir]. destruct (MakeWorkDirectory cwd fs (default_dir fs)) as [| |[fs2 [|]]]; auto.
    unfold InitializeShm. cbn. destruct (k_att c); auto. destruct (default_dir fs ++ "/"%char :: k_name c); auto. destruct ok; auto.
  - cbn [k_dir w_path w_cnt]. rewrite D. destruct (MakeWorkDirectory cwd fs (x :: dd)) as [| |[fs2 [|]]]; auto.
    unfold InitializeShm. cbn. destruct (k_att c); auto. destruct ok; auto.
Qed.

(** ** Making the same directory twice *)
Lemma make_dirs_err : forall r fs full fs' b, make_dirs fs full r = (fs', b) -> (forall p, fs_staterr fs' p = fs_staterr fs p) /\ (forall p, fs_mkerr fs' p = fs_mkerr fs p) /\
  (forall p k, fs_node fs p = Some k -> fs_node fs' p = Some k).
Proof.
  induction r as [|x r IH]; intros fs full fs' b H; cbn [make_dirs] in H; [injection H as <- <-; auto|].
  destruct (fs_staterr fs (full ++ "/"%char :: x)) eqn:S; [injection H as <- <-; auto|].
  destruct (fs_node fs (full ++ "/"%char :: x)) as [k|] eqn:N.
  - destruct (looks_dir k); [eapply IH; eauto | injection H as <- <-; auto].
  - cbn [fs_mkerr fs_mask] in H. destruct (fs_mkerr fs (full ++ "/"%char :: x)) eqn:M; [injection H as <- <-; cbn; auto|].
    destruct (IH _ _ _ _ H) as (A & B & C). cbn [fs_staterr fs_mkerr fs_node fs_mask fs_add] in A, B, C. split; auto. split; auto.
    intros p k P. apply C. destruct (text_eqb p (full ++ "/"%char :: x)) eqn:Q; auto. apply text_eqb_eq in Q. congruence.
Qed.
Lemma make_dirs_again : forall r fs full fs', make_dirs fs full r = (fs', false) -> exists fs'', make_dirs fs' full r = (fs'', false).
Proof.
  induction r as [|x r IH]; intros fs full fs' H; pose proof H as H0; cbn [make_dirs] in H; [discriminate H|].
  destruct (make_dirs_err _ _ _ _ _ H0) as (E1 & E2 & E3). cbn [make_dirs]. rewrite E1.
  destruct (fs_staterr fs (full ++ "/"%char :: x)) eqn:S; [eauto|].
  destruct (fs_node fs (full ++ "/"%char :: x)) as [k|] eqn:N.
  - rewrite (E3 _ _ N). destruct (looks_dir k) eqn:K; [eapply IH; eauto | eauto].
  - cbn [fs_mkerr fs_mask] in H. destruct (fs_mkerr fs (full ++ "/"%char :: x)) eqn:M.
    + injection H as <-. cbn [fs_node fs_mask]. rewrite N. cbn [fs_mkerr fs_mask]. rewrite M. eauto.
    + destruct (make_dirs_err _ _ _ _ _ H) as (_ & _ & C). rewrite (C (full ++ "/"%char :: x) NDir).
      * change (looks_dir NDir) with true. cbv iota. eapply IH; eauto.
      * cbn [fs_node fs_mask fs_add]. rewrite (proj2 (text_eqb_eq _ _) eq_refl). reflexivity.
Qed.
Lemma make_work_again : forall cwd fs p fs', MakeWorkDirectory cwd fs p = ROk (fs', false) -> exists fs'', MakeWorkDirectory cwd fs' p = ROk (fs'', false).
Proof.
  intros cwd fs [|c p] fs' H; cbn [MakeWorkDirectory] in *; [eauto|].
  destruct (GetRealPath cwd (c :: p)) as [| |full]; [eauto|discriminate H|].
  destruct (make_dirs fs [] (fst (split_path full))) as [f b] eqn:E. injection H as -> ->. destruct (make_dirs_again _ _ _ _ E) as (f2 & E2). rewrite E2. eauto.
Qed.

(** ** lib/flckutil.h:81-103 *)
Lemma space_white : forall c, is_space c = true <-> white c.
Proof. intro c. unfold is_space, white. cbn [existsb]. rewrite !orb_true_iff, !Ascii.eqb_eq. intuition discriminate. Qed.
Lemma ltrim_spec : forall s, exists a, s = a ++ ltrim s /\ Forall white a /\ (forall c r, ltrim s = c :: r -> ~ white c).
Proof.
  induction s as [|c s (a & E & F & N)]; cbn [ltrim]; [exists []; repeat split; auto; discriminate|]. destruct (is_space c) eqn:S.
  - exists (c :: a). cbn. rewrite <- E. repeat split; auto. constructor; auto. apply space_white; auto.
  - exists []. repeat split; auto. intros d r X W. injection X as -> ->. apply space_white in W. congruence.
Qed.
Lemma rtrim_spec : forall s, exists b, s = rtrim s ++ b /\ Forall white b /\ (forall c r, rtrim s = r ++ [c] -> ~ white c).
Proof.
  intro s. destruct (ltrim_spec (rev s)) as (a & E & F & N). exists (rev a). unfold rtrim. rewrite <- rev_app_distr, <- E, rev_involutive. repeat split; auto.
  - apply Forall_rev. auto.
  - intros c r X. apply (N c (rev r)). rewrite <- (rev_involutive (ltrim (rev s))), X, rev_app_distr. auto.
Qed.
Lemma trim_spec : forall s, trimmed s (trim s).
Proof.
  intro s. destruct (rtrim_spec s) as (b & E & F & N). destruct (ltrim_spec (rtrim s)) as (a & E2 & F2 & N2). exists a, b. unfold trim. rewrite app_assoc, <- E2. repeat split; auto.
  intros c r X. apply (N c (a ++ r)). rewrite E2, X, app_assoc. auto.
Qed.
Lemma trim_slash : forall s, In "/"%char s -> In "/"%char (trim s).
Proof.
  intros s H. destruct (trim_spec s) as (a & b & E & A & B & _). rewrite Forall_forall in A, B.
  assert (W : ~ white "/"%char) by (unfold white; intuition discriminate). rewrite E in H. apply in_app_or in H as [H|H]; [destruct (W (A _ H))|]. apply in_app_or in H as [H|H]; [auto | destruct (W (B _ H))].
Qed.
Lemma trim_slash_back : forall s, In "/"%char (trim s) -> In "/"%char s.
Proof. intros s H. destruct (trim_spec s) as (a & b & E & _). rewrite E. apply in_or_app. right. apply in_or_app. auto. Qed.
