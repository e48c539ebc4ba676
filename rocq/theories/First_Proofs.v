(** First use: the file that is open, and the settings. *)
From Coq Require Import List Bool Ascii String ZArith Lia.
From Verif Require Import Base Path_Model Layout_Model Config_Model Config_Spec Config_Proofs Config_Proofs2 Config_Props First_Model First_Spec.
Import ListNotations.
Open Scope Z_scope.

(** with the helper the functions are those of [Config_Model] *)
Lemma start_built : forall e cwd ok fs s, f_built s = true -> f_start e cwd ok fs s = ROk (s, fs).
Proof. intros e cwd ok fs s B. unfold f_start. rewrite B. auto. Qed.

Definition drop {A} (r : outcome (fstate * fsys * A)) : outcome (cfg * fsys * A) :=
  match r with RFail => RFail | RUndef => RUndef | ROk (s, fs, x) => ROk (f_cfg s, fs, x) end.
Lemma reinit_rest_built : forall e cwd ok1 ok2 f q s top fs, f_built s = true ->
  drop (f_reinit_rest e cwd ok1 ok2 f q s top fs) = reinit_rest e cwd ok2 f q (f_cfg s) top fs.
Proof.
  intros e cwd ok1 ok2 f q s top fs B. unfold f_reinit_rest, reinit_rest.
  destruct (match given f with Some f0 => has_slash (trim f0) | None => false end); auto.
  rewrite start_built by auto. cbv zeta. cbn [f_cfg f_built f_file].
  change (k_cnt (w_att false (f_cfg s))) with (k_cnt (f_cfg s)).
  match goal with |- context [LoadEnv e cwd fs ?x] => destruct (LoadEnv e cwd fs x) as [| |[c3 fs2]]; auto end.
  match goal with |- context [InitializeObject false e cwd ok2 fs2 ?x] => destruct (InitializeObject false e cwd ok2 fs2 x) as [| |[[c' fs3] r]]; auto end.
Qed.
Lemma reinit_built : forall e cwd ok1 ok2 d f q fs s, f_built s = true ->
  drop (f_reinit e cwd ok1 ok2 d f q fs s) = ReInitializeObject e cwd ok2 d f q fs (f_cfg s).
Proof.
  intros e cwd ok1 ok2 d f q fs s B. unfold f_reinit, ReInitializeObject. destruct (reinit_refuses q); auto.
  destruct (given d) as [x|]; [|apply reinit_rest_built; auto]. destruct (GetRealPath cwd x) as [| |top]; auto.
  destruct (MakeWorkDirectory cwd fs top) as [| |[fs' [|]]]; auto. apply reinit_rest_built; auto.
Qed.

(** ** The open file *)
Definition filed (s : fstate) : Prop := (k_att (f_cfg s) = true <-> f_file s <> None).
Lemma opened_filed : forall f c c' b w, (k_att c = true <-> f <> None) -> (k_att c = true -> k_att c' = true) -> filed (mkF c' b (opened f c c') w).
Proof.
  intros f c c' b w F M. unfold filed, opened. cbn. destruct (k_att c').
  - destruct (k_att c); [split; auto; intro; apply F; auto | split; auto; discriminate].
  - split; [discriminate | congruence].
Qed.
Lemma init_object_att : forall load e cwd ok fs c c' fs' r, InitializeObject load e cwd ok fs c = ROk (c', fs', r) -> k_att c = true -> k_att c' = true /\ (load = false -> r = false).
Proof.
  intros load e cwd ok fs c c' fs' r H A. destruct (init_object_shape _ _ _ _ _ _ _ _ _ H) as (c1 & fs1 & L & R).
  assert (A1 : k_att c1 = true). { destruct load; [destruct L as (d & _ & ->); exact A | destruct L as [-> _]; exact A]. }
  destruct R as [(X & _ & -> & _ & _)|(c2 & E2 & R)]; [split; auto; congruence|].
  assert (A2 : k_att c2 = true) by (rewrite E2; destruct (k_dir c1); exact A1).
  destruct R as [(_ & -> & ->)|(_ & R)]; [auto|]. destruct (init_shm_cases _ _ _ _ R) as [(-> & ->)|(_ & _ & _ & X)]; [auto | cbn in X; congruence].
Qed.
Lemma start_makes : forall e cwd ok fs s s' fs', f_start e cwd ok fs s = ROk (s', fs') -> f_built s' = true.
Proof.
  intros e cwd ok fs s s' fs' H. unfold f_start in H. destruct (f_built s) eqn:B; [injection H as <- _; auto|].
  destruct (InitializeObject true e cwd ok fs (f_cfg s)) as [| |[[c fs1] r]]; try discriminate H. injection H as <- _. auto.
Qed.
Lemma start_filed : forall e cwd ok fs s s' fs', filed s -> f_start e cwd ok fs s = ROk (s', fs') -> filed s' /\ f_built s' = true.
Proof.
  intros e cwd ok fs s s' fs' F H. unfold f_start in H. destruct (f_built s) eqn:B; [injection H as <- <-; auto|].
  destruct (InitializeObject true e cwd ok fs (f_cfg s)) as [| |[[c fs1] r]] eqn:I; try discriminate H. injection H as <- <-. split; auto.
  apply opened_filed; auto. intro A. apply (init_object_att _ _ _ _ _ _ _ _ _ I A).
Qed.

(** what a re-initialisation does: nothing, or detach, start if never started, and initialise *)
Lemma f_reinit_shape : forall e cwd ok1 ok2 d f q fs s s' fs' r, f_reinit e cwd ok1 ok2 d f q fs s = ROk (s', fs', r) ->
  (s' = s /\ r = false) \/
  exists top fs0 s1 fs1 c7 c' fs2 , 
    match given d with Some dn => exists tp, GetRealPath cwd dn = ROk tp /\ MakeWorkDirectory cwd fs tp = ROk (fs0, true) /\ top = Some tp | None => top = None /\ fs0 = fs end /\
    f_start e cwd ok1 fs0 (mkF (w_att false (f_cfg s)) (f_built s) None false) = ROk (s1, fs1) /\
    k_att c7 = k_att (f_cfg s1) /\ k_robust c7 = env_robust (e "FLCKROBUSTMODE"%string) (k_robust (f_cfg s1)) /\ (forall tp, top = Some tp -> k_dir c7 = tp) /\ (forall fn, given f = Some fn -> k_name c7 = trim fn) /\
    InitializeObject false e cwd ok2 fs2 c7 = ROk (c', fs', r) /\ s' = mkF c' true (opened (f_file s1) c7 c') (working (f_worker s1) c7 c').
Proof.
  assert (RR : forall e cwd ok1 ok2 f q s top fs0 s' fs' r, f_reinit_rest e cwd ok1 ok2 f q s top fs0 = ROk (s', fs', r) ->
    (s' = s /\ r = false) \/ exists s1 fs1 c7 c' fs2,
    f_start e cwd ok1 fs0 (mkF (w_att false (f_cfg s)) (f_built s) None false) = ROk (s1, fs1) /\
    k_att c7 = k_att (f_cfg s1) /\ k_robust c7 = env_robust (e "FLCKROBUSTMODE"%string) (k_robust (f_cfg s1)) /\ (forall tp, top = Some tp -> k_dir c7 = tp) /\ (forall fn, given f = Some fn -> k_name c7 = trim fn) /\
    InitializeObject false e cwd ok2 fs2 c7 = ROk (c', fs', r) /\ s' = mkF c' true (opened (f_file s1) c7 c') (working (f_worker s1) c7 c')).
  { intros e cwd ok1 ok2 f q s top fs0 s' fs' r H. unfold f_reinit_rest in H.
    destruct (match given f with Some f0 => has_slash (trim f0) | None => false end); [left; injection H as <- _ <-; auto|].
    destruct (f_start e cwd ok1 fs0 (mkF (w_att false (f_cfg s)) (f_built s) None false)) as [| |[s1 fs1]] eqn:ST; try discriminate H. cbv zeta in H.
    match type of H with context [LoadEnv e cwd fs1 ?x] => set (c2 := x) in * end.
    destruct (LoadEnv e cwd fs1 c2) as [| |[c3 fs2]] eqn:L; try discriminate H.
    match type of H with context [InitializeObject false e cwd ok2 fs2 ?x] => set (c7 := x) in * end.
    destruct (InitializeObject false e cwd ok2 fs2 c7) as [| |[[c' fs3] r']] eqn:I; try discriminate H. injection H as <- <- <-.
    right. exists s1, fs1, c7, c', fs2. split; auto.
    destruct (load_shape _ _ _ _ _ _ L) as (dd & _ & E3).
    split; [|split; [|split; [|split; [|split; auto]]]].
    - unfold c7. destruct (given f), top; cbn; rewrite E3; reflexivity.
    - unfold c7. destruct (given f), top; cbn; rewrite E3; reflexivity.
    - intros tp G. unfold c7. rewrite G. destruct (given f); reflexivity.
    - intros fn G. unfold c7. rewrite G. reflexivity.
    - rewrite (start_makes _ _ _ _ _ _ _ ST). reflexivity. }
  intros e cwd ok1 ok2 d f q fs s s' fs' r H. unfold f_reinit in H. destruct (reinit_refuses q); [left; injection H as <- _ <-; auto|].
  destruct (given d) as [dn|] eqn:GD.
  - destruct (GetRealPath cwd dn) as [| |tp] eqn:GR; [left; injection H as <- _ <-; auto | discriminate H|].
    destruct (MakeWorkDirectory cwd fs tp) as [| |[fs0 [|]]] eqn:MW; [discriminate H | discriminate H | | left; injection H as <- _ <-; auto].
    destruct (RR _ _ _ _ _ _ _ _ _ _ _ _ H) as [X|(s1 & fs1 & c7 & c' & fs2 & X)]; [auto|]. right. exists (Some tp), fs0, s1, fs1, c7, c', fs2. split; [exists tp; auto | exact X].
  - destruct (RR _ _ _ _ _ _ _ _ _ _ _ _ H) as [X|(s1 & fs1 & c7 & c' & fs2 & X)]; [auto|]. right. exists None, fs, s1, fs1, c7, c', fs2. split; auto.
Qed.

(** ** Invariants of all programs *)
Record finv (s : fstate) : Prop := mkFI {
  i_file : filed s;
  i_new : f_built s = false -> k_att (f_cfg s) = false /\ k_auto (f_cfg s) = true /\ k_path (f_cfg s) = [];
  i_loop : 50 <= k_loop (f_cfg s);
  i_work : f_worker s = true -> k_att (f_cfg s) = true
}.
Lemma working_att : forall w c c', working w c c' = true -> k_att c' = true.
Proof. intros w c c' H. unfold working in H. destruct (k_att c'); auto. Qed.
Lemma head_opened : forall ok dev a s w, filed s -> filed (mkF (fst (call_head ok dev a (f_cfg s))) (f_built s) (opened (f_file s) (f_cfg s) (fst (call_head ok dev a (f_cfg s)))) w).
Proof. intros ok dev a s w F. apply opened_filed; auto. intro A. destruct (call_head_cases ok dev a (f_cfg s)) as [->|[-> _]]; auto. Qed.
Lemma init_object_loop : forall load e cwd ok fs c c' fs' r, InitializeObject load e cwd ok fs c = ROk (c', fs', r) -> 50 <= k_loop c -> 50 <= k_loop c'.
Proof.
  intros load e cwd ok fs c c' fs' r H A. destruct (init_object_shape _ _ _ _ _ _ _ _ _ H) as (c1 & fs1 & L & R).
  assert (A1 : 50 <= k_loop c1). { destruct load; [destruct L as (d & _ & ->); apply env_loop_min; exact A | destruct L as [-> _]; exact A]. }
  destruct R as [(X & _ & -> & _ & _)|(c2 & E2 & R)]; [auto|].
  assert (A2 : 50 <= k_loop c2) by (rewrite E2; destruct (k_dir c1); exact A1).
  destruct R as [(_ & -> & ->)|(_ & R)]; [auto|]. destruct (init_shm_cases _ _ _ _ R) as [(-> & ->)|(-> & _)]; exact A2.
Qed.
Lemma start_inv : forall e cwd ok fs s s' fs', finv s -> f_start e cwd ok fs s = ROk (s', fs') -> finv s' /\ f_built s' = true.
Proof.
  intros e cwd ok fs s s' fs' [F N L WK] H. destruct (start_filed _ _ _ _ _ _ _ F H) as [F' B']. split; auto.
  unfold f_start in H. destruct (f_built s) eqn:B; [injection H as <- _; constructor; auto; congruence|].
  destruct (InitializeObject true e cwd ok fs (f_cfg s)) as [| |[[c fs1] r]] eqn:I; try discriminate H. injection H as <- _. constructor; auto; [cbn; congruence | apply (init_object_loop _ _ _ _ _ _ _ _ _ I L) | apply working_att].
Qed.
Lemma set_inv : forall x c, 50 <= k_loop c -> 50 <= k_loop (set_cfg x c) /\ k_att (set_cfg x c) = k_att c /\ k_auto (set_cfg x c) = k_auto c /\ k_path (set_cfg x c) = k_path c.
Proof.
  intros x c L. destruct x as [v|v|v|v]; cbn [set_cfg].
  - unfold SetRobustMode, FLCK_ROBUST_CHKCNT_MIN. destruct v; auto. cbn [k_loop w_robust]. destruct (Z.ltb_spec (k_loop c) 50); [lia|]. auto.
  - auto.
  - auto.
  - unfold fullock_set_robust_check_count, SetRobustLoopCnt, FLCK_ROBUST_CHKCNT_MIN. destruct (k_robust c); auto. destruct (Z.ltb_spec v 50); auto.
Qed.
Lemma reinit_inv : forall e cwd ok1 ok2 d f q fs s s' fs' r, finv s -> f_reinit e cwd ok1 ok2 d f q fs s = ROk (s', fs', r) -> finv s'.
Proof.
  intros e cwd ok1 ok2 d f q fs s s' fs' r I H. pose proof H as H0.
  destruct (f_reinit_shape _ _ _ _ _ _ _ _ _ _ _ _ H) as [(-> & _)|(top & fs0 & s1 & fs1 & c7 & c' & fs2 & _ & ST & AT & RB & _ & _ & IO & ->)]; auto.
  assert (I0 : finv (mkF (w_att false (f_cfg s)) (f_built s) None false)).
  { destruct I as [F N L WK]. constructor; auto. - unfold filed. cbn. split; congruence. - intro B. destruct (N B) as (_ & X & Y). auto. }
  destruct (start_inv _ _ _ _ _ _ _ I0 ST) as [[F1 N1 L1 W1] B1]. constructor; [|cbn; congruence| | apply working_att].
  - apply opened_filed; [rewrite AT; auto|]. intro A. apply (init_object_att _ _ _ _ _ _ _ _ _ IO A).
  - cbn [f_cfg].
    assert (L' : forall e cwd ok1 ok2 f q s top fs0 s' fs' r, 50 <= k_loop (f_cfg s) -> f_reinit_rest e cwd ok1 ok2 f q s top fs0 = ROk (s', fs', r) -> 50 <= k_loop (f_cfg s')).
    { clear. intros e cwd ok1 ok2 f q s top fs0 s' fs' r L H. unfold f_reinit_rest in H.
      destruct (match given f with Some f0 => has_slash (trim f0) | None => false end); [injection H as <- _ _; auto|].
      destruct (f_start e cwd ok1 fs0 _) as [| |[s1 fs1]] eqn:ST; try discriminate H.
      assert (L1 : 50 <= k_loop (f_cfg s1)).
      { unfold f_start in ST. cbn [f_built f_cfg f_file] in ST. destruct (f_built s); [injection ST as <- _; exact L|].
        destruct (InitializeObject true e cwd ok1 fs0 _) as [| |[[c fs3] r']] eqn:I; try discriminate ST. injection ST as <- _. apply (init_object_loop _ _ _ _ _ _ _ _ _ I). exact L. }
      cbv zeta in H. match type of H with context [LoadEnv e cwd fs1 ?x] => destruct (LoadEnv e cwd fs1 x) as [| |[c3 fs2]] eqn:LE; try discriminate H end.
      destruct (load_shape _ _ _ _ _ _ LE) as (dd & _ & ->).
      match type of H with context [InitializeObject false e cwd ok2 fs2 ?x] => set (c7 := x) in * end.
      destruct (InitializeObject false e cwd ok2 fs2 c7) as [| |[[c' fs3] r']] eqn:I; try discriminate H. injection H as <- _ _. apply (init_object_loop _ _ _ _ _ _ _ _ _ I).
      unfold c7. destruct (given f), top; cbn; apply env_loop_min; exact L1. }
    destruct I as [_ _ LI _]. unfold f_reinit in H0. destruct (reinit_refuses q); [injection H0 as E _ _; rewrite E in LI; exact LI|].
    destruct (given d) as [dn|]; [|exact (L' _ _ _ _ _ _ _ _ _ _ _ _ LI H0)].
    destruct (GetRealPath cwd dn) as [| |tp]; [injection H0 as E _ _; rewrite E in LI; exact LI | discriminate H0|].
    destruct (MakeWorkDirectory cwd fs tp) as [| |[fs9 [|]]]; [discriminate H0 | discriminate H0 | exact (L' _ _ _ _ _ _ _ _ _ _ _ _ LI H0) | injection H0 as E _ _; rewrite E in LI; exact LI].
Qed.
Lemma reach_inv : forall s, f_reach s -> finv s.
Proof.
  intros s R. induction R as [|o s s' R IH D].
  - constructor; cbn; auto; [unfold filed; cbn; split; congruence | lia].
  - destruct D as [e cwd ok1 ok2 dev a fs s s' fs' r H|x s|e cwd ok1 ok2 d f q fs s s' fs' r H].
    + unfold f_call in H. destruct (f_start e cwd ok1 fs s) as [| |[s1 fs1]] eqn:ST; try discriminate H.
      destruct (start_inv _ _ _ _ _ _ _ IH ST) as [[F1 N1 L1 W1] B1]. pose proof (fun w => head_opened ok2 dev a s1 w F1) as HO. pose proof (call_head_cases ok2 dev a (f_cfg s1)) as HC.
      destruct (call_head ok2 dev a (f_cfg s1)) as [c x] eqn:CH. cbn [fst] in *. injection H as <- _ _. constructor; auto.
      * cbn. congruence.
      * cbn. destruct HC as [->|[-> _]]; auto.
      * apply working_att.
    + destruct IH as [F N L WK]. destruct (set_inv x (f_cfg s) L) as (P1 & P2 & P3 & P4). constructor; cbn; auto.
      * unfold filed. cbn. rewrite P2. exact F.
      * rewrite P2, P3, P4. exact N.
      * rewrite P2. exact WK.
    + eapply reinit_inv; eauto.
Qed.

(** the first start opens nothing when the environment forbids it or the file cannot be opened *)
Lemma start_none : forall e cwd ok fs s s' fs', finv s -> (f_built s = false -> no_auto e \/ ok = false) -> k_att (f_cfg s) = false ->
  f_start e cwd ok fs s = ROk (s', fs') -> k_att (f_cfg s') = false.
Proof.
  intros e cwd ok fs s s' fs' [F N L WK] C A H. unfold f_start in H. destruct (f_built s) eqn:B; [injection H as <- _; auto|].
  destruct (InitializeObject true e cwd ok fs (f_cfg s)) as [| |[[c fs1] r]] eqn:I; try discriminate H. injection H as <- _. cbn [f_cfg].
  destruct (init_object_shape _ _ _ _ _ _ _ _ _ I) as (c1 & fs2 & (d & _ & E1) & R). assert (A1 : k_att c1 = false) by (rewrite E1; exact A).
  destruct R as [(_ & _ & -> & _)|(c2 & E2 & R)]; auto.
  assert (A2 : k_att c2 = false) by (rewrite E2; destruct (k_dir c1); exact A1).
  destruct R as [(_ & -> & _)|(_ & R)]; auto. destruct (C eq_refl) as [(t & E & W)| ->].
  - exfalso. unfold InitializeObject in I.
    destruct (LoadEnv e cwd fs (w_path [] (f_cfg s))) as [| |[c3 fs3]] eqn:LE; try discriminate I.
    assert (AU : k_auto c1 = false).
    { rewrite E1. unfold load_result. cbn [k_auto]. unfold env_auto. rewrite E. destruct (is_word t "YES") eqn:Y.
      - exfalso. apply is_word_iff in Y. apply is_word_iff in W. revert W. apply is_word_iff in Y. revert Y. unfold is_word. destruct t as [|x t]; cbn; [discriminate|].
        intros Y W. apply andb_true_iff in Y as [Y _]. apply andb_true_iff in W as [W _]. apply Z.eqb_eq in Y. apply Z.eqb_eq in W. rewrite Y in W. vm_compute in W. discriminate W.
      - apply is_word_iff in W. rewrite W. reflexivity. }
    destruct (load_shape _ _ _ _ _ _ LE) as (d' & D' & E3). cbn [andb] in I.
    assert (AU3 : k_auto c3 = false) by (rewrite E3, <- AU, E1; reflexivity). rewrite AU3 in I. cbn [negb] in I. injection I as <- _ _.
    destruct (init_shm_cases _ _ _ _ R) as [(X & _)|(X & _)].
    + assert (Y : k_path c3 = k_path (w_path (k_dir c2 ++ tx "/" ++ k_name c2) c2)) by (rewrite X; reflexivity).
      rewrite E3 in Y. cbn in Y. destruct (k_dir c2); discriminate Y.
    + assert (Y : k_att c3 = true) by (rewrite X; reflexivity). rewrite E3 in Y. cbn in Y. congruence.
  - destruct (init_shm_cases _ _ _ _ R) as [(-> & _)|(_ & _ & _ & _)]; auto.
    unfold InitializeShm in R. cbn [k_att w_path k_path] in R. rewrite A2 in R. destruct (k_dir c2 ++ tx "/" ++ k_name c2); injection R as <- _; auto.
Qed.

(** ** What a re-initialisation opens *)
Lemma work_empty : forall cwd fs, MakeWorkDirectory cwd fs [] <> ROk (fs, true) /\ forall fs', MakeWorkDirectory cwd fs [] <> ROk (fs', true).
Proof. intros cwd fs. split; [|intro fs']; unfold MakeWorkDirectory, GetRealPath; discriminate. Qed.
Lemma given_some : forall d x, d = Some x -> x <> [] -> given d = Some x.
Proof. intros d [|c x] -> N; [congruence | reflexivity]. Qed.
Lemma given_nonempty : forall d x, given d = Some x -> x <> [].
Proof. intros [[|a t]|] x G; cbn in G; try discriminate G. injection G as <-. discriminate. Qed.

Lemma init_opens : forall e cwd ok fs c c' fs' r, k_att c = false -> InitializeObject false e cwd ok fs c = ROk (c', fs', r) ->
  (r = false /\ k_att c' = false) \/
  (r = true /\ k_att c' = true /\ exists dir, k_path c' = dir ++ tx "/" ++ k_name c /\ (k_dir c <> [] -> dir = k_dir c)).
Proof.
  intros e cwd ok fs c c' fs' r A H. destruct (init_object_shape _ _ _ _ _ _ _ _ _ H) as (c1 & fs1 & [-> ->] & R).
  destruct R as [(X & _)|(c2 & E2 & R)]; [discriminate X|].
  assert (A2 : k_att c2 = false /\ k_name c2 = k_name c) by (rewrite E2; cbn [k_dir w_path]; destruct (k_dir c); auto). destruct A2 as [A2 N2].
  destruct R as [(_ & -> & ->)|(_ & R)]; [auto|].
  destruct (init_shm_cases _ _ _ _ R) as [(-> & ->)|(-> & -> & _)]; [auto|]. right. split; [auto|]. split; [auto|].
  exists (k_dir c2). cbn [k_path w_att w_path]. rewrite N2. split; [auto|]. intro D. rewrite E2. cbn [k_dir w_path]. destruct (k_dir c) eqn:K; [congruence|]. rewrite <- K. reflexivity.
Qed.
Lemma detached_inv : forall s, finv s -> finv (mkF (w_att false (f_cfg s)) (f_built s) None false).
Proof.
  intros s [F N L WK]. constructor; auto. - unfold filed. cbn. split; congruence. - intro B. destruct (N B) as (_ & X & Y). auto.
Qed.
(** success always means the file asked for; failure leaves no file open when the start opened none *)
Lemma reinit_opens : forall s e cwd ok1 ok2 d f q fs s' fs' r, finv s -> f_reinit e cwd ok1 ok2 d f q fs s = ROk (s', fs', r) ->
  (r = true -> exists p, f_file s' = Some p /\ asked cwd d f p) /\
  (f_built s = true \/ no_auto e \/ ok1 = false -> r = false -> f_file s' = None \/ s' = s).
Proof.
  intros s e cwd ok1 ok2 d f q fs s' fs' r I H.
  destruct (f_reinit_shape _ _ _ _ _ _ _ _ _ _ _ _ H) as [(-> & ->)|(top & fs0 & s1 & fs1 & c7 & c' & fs2 & G & ST & AT & RB & TP & NM & IO & ->)]; [split; [discriminate | auto]|].
  pose proof (detached_inv s I) as I0. split.
  - intros ->. destruct (k_att c7) eqn:A7. { destruct (init_object_att _ _ _ _ _ _ _ _ _ IO A7) as [_ X]. discriminate (X eq_refl). }
    destruct (init_opens _ _ _ _ _ _ _ _ A7 IO) as [[X _]|(_ & A' & dir & P & D)]; [discriminate X|].
    exists (k_path c'). cbn [f_file]. unfold opened. rewrite A', A7. split; auto. exists dir, (k_name c7). split; auto. split.
    + intros x Dx Nx. rewrite (given_some _ _ Dx Nx) in G. destruct G as (tp & GR & MW & ->). rewrite GR. f_equal. rewrite <- (TP tp eq_refl). symmetry. apply D. rewrite (TP tp eq_refl).
      intro E. rewrite E in MW. eapply (proj2 (work_empty cwd fs)). exact MW.
    + intros x Dx Nx. rewrite (NM _ (given_some _ _ Dx Nx)). apply trim_spec.
  - intros C ->. left. cbn [f_file]. unfold opened.
    assert (A1 : k_att (f_cfg s1) = false).
    { eapply start_none; [exact I0 | | | exact ST]; [|reflexivity]. cbn [f_built]. intro B. destruct C as [C|C]; [congruence | auto]. }
    rewrite A1 in AT. destruct (init_opens _ _ _ _ _ _ _ _ AT IO) as [[_ ->]|(X & _)]; [auto | discriminate X].
Qed.
(** the first use: the file the start opens stays *)
Lemma reinit_first : forall s e cwd ok1 ok2 d f q fs s' fs' r s1 fs1 p, finv s -> f_built s = false -> given d = None ->
  f_start e cwd ok1 fs s = ROk (s1, fs1) -> f_file s1 = Some p ->
  f_reinit e cwd ok1 ok2 d f q fs s = ROk (s', fs', r) -> f_built s' = true -> r = false /\ f_file s' = Some p.
Proof.
  intros s e cwd ok1 ok2 d f q fs s' fs' r s1 fs1 p I B GD S1 FP H B'. pose proof I as [F N L WK]. destruct (N B) as (A & _ & _).
  destruct (f_reinit_shape _ _ _ _ _ _ _ _ _ _ _ _ H) as [(-> & _)|(top & fs0 & s2 & fs3 & c7 & c' & fs2 & G & ST & AT & RB & TP & NM & IO & ->)]; [congruence|].
  rewrite GD in G. destruct G as [-> ->].
  assert (E : mkF (w_att false (f_cfg s)) (f_built s) None false = s).
  { destruct s as [c b fl w]. cbn in *. f_equal; [destruct c; cbn in *; subst; reflexivity| |].
    - unfold filed in F. cbn in F. rewrite A in F. destruct fl; auto. destruct F as [_ F]. exfalso. assert (false = true) by (apply F; discriminate). discriminate.
    - destruct w; auto. specialize (WK eq_refl). congruence. }
  rewrite E, S1 in ST. injection ST as <- <-. destruct (start_filed _ _ _ _ _ _ _ F S1) as [F1 _].
  assert (A1 : k_att (f_cfg s1) = true) by (apply F1; congruence). rewrite <- AT in A1.
  destruct (init_object_att _ _ _ _ _ _ _ _ _ IO A1) as [A' R]. split; [auto|]. cbn [f_file]. unfold opened. rewrite A', A1. auto.
Qed.

(** ** Settings *)
Lemma by_words_silent : forall A (ws : list (string * A)) v old new, by_words ws v old new -> (forall s w x, v = Some s -> In (w, x) ws -> ~ same_word s w) -> new = old.
Proof.
  intros A ws v old new B Q. unfold by_words in B. destruct v as [s|]; [|exact B]. destruct B as [(w & W & IN)|[E _]]; [|exact E]. exfalso. eapply Q; eauto.
Qed.
Lemma start_in_force : forall x e cwd ok fs s s' fs', finv s -> f_built s = true \/ silent x e -> in_force x (f_cfg s) -> f_start e cwd ok fs s = ROk (s', fs') -> in_force x (f_cfg s').
Proof.
  intros x e cwd ok fs s s' fs' [F N L WK] C IF H. unfold f_start in H. destruct (f_built s) eqn:B; [injection H as <- _; auto|].
  destruct C as [C|C]; [discriminate C|].
  destruct (InitializeObject true e cwd ok fs (f_cfg s)) as [| |[[c fs1] r]] eqn:IO; try discriminate H. injection H as <- _. cbn [f_cfg].
  destruct (init_object_shape _ _ _ _ _ _ _ _ _ IO) as (c1 & fs2 & (d & D & E1) & R).
  assert (LE : LoadEnv e cwd fs (w_path [] (f_cfg s)) = ROk (c1, fs2)). { unfold LoadEnv. cbn [k_dir w_path]. rewrite D, E1. reflexivity. }
  destruct (C50_modes _ _ _ _ _ _ LE) as (_ & MN & MR & MF). cbn [k_nomap k_robust k_free w_path] in MN, MR, MF.
  assert (IF1 : in_force x c1).
  { destruct x as [v|v|v|v]; cbn [in_force silent] in *.
    - rewrite <- IF. exact (by_words_silent _ _ _ _ _ MR C).
    - rewrite <- IF. exact (by_words_silent _ _ _ _ _ MN C).
    - rewrite <- IF. exact (by_words_silent _ _ _ _ _ MF C).
    - rewrite E1. unfold load_result. cbn [k_loop w_path k_robust]. unfold env_loop, FLCK_ROBUST_CHKCNT_MIN.
      assert (X : match e "FLCKROBUSTCHKCNT"%string with Some s0 => if atoi s0 <? 50 then k_loop (f_cfg s) else atoi s0 | None => k_loop (f_cfg s) end = v).
      { destruct (e "FLCKROBUSTCHKCNT"%string) as [t|] eqn:E; auto. destruct (C t eq_refl) as (n & RD & I32 & LT). rewrite (atoi_reads _ _ RD I32).
        destruct (Z.ltb_spec n 50); [auto | lia]. }
      rewrite X. destruct (env_robust _ _); auto. destruct (Z.ltb_spec v 50); [lia | auto]. }
  destruct R as [(_ & _ & -> & _)|(c2 & E2 & R)]; auto.
  assert (IF2 : in_force x c2) by (rewrite E2; destruct (k_dir c1), x; exact IF1).
  destruct R as [(_ & -> & _)|(_ & R)]; auto. destruct (init_shm_cases _ _ _ _ R) as [(-> & _)|(-> & _)]; destruct x; exact IF2.
Qed.
Lemma set_in_force : forall x s, finv s -> set_says x (f_cfg s) = true -> in_force x (f_cfg (f_set x s)).
Proof.
  intros [v|v|v|v] s [F N L WK] SS; cbn [f_cfg f_set set_cfg in_force set_says] in *.
  - unfold SetRobustMode, FLCK_ROBUST_CHKCNT_MIN. destruct v; auto. cbn. destruct (Z.ltb_spec (k_loop (f_cfg s)) 50); auto.
  - reflexivity.
  - reflexivity.
  - unfold fullock_set_robust_check_count, SetRobustLoopCnt, FLCK_ROBUST_CHKCNT_MIN in *. destruct (k_robust (f_cfg s)); try discriminate SS. destruct (Z.ltb_spec v 50); [discriminate SS | reflexivity].
Qed.
Lemma set_other : forall x y c, 50 <= k_loop c -> ~ same_kind x y -> in_force x c -> in_force x (set_cfg y c).
Proof.
  intros x y c L D IF. destruct y as [v|v|v|v]; cbn [set_cfg].
  - unfold SetRobustMode, FLCK_ROBUST_CHKCNT_MIN. destruct (Z.ltb_spec (k_loop (w_robust v c)) 50); [cbn in *; lia|]. destruct x; cbn in *; try (exfalso; apply D; exact I); destruct v; exact IF.
  - destruct x; cbn in *; try (exfalso; apply D; exact I); exact IF.
  - destruct x; cbn in *; try (exfalso; apply D; exact I); exact IF.
  - unfold fullock_set_robust_check_count, SetRobustLoopCnt. destruct x; cbn in *; try (exfalso; apply D; exact I); destruct (k_robust c) eqn:K; auto; destruct (v <? FLCK_ROBUST_CHKCNT_MIN); cbn; rewrite ?K; auto.
Qed.
Lemma later_reach : forall x (ok : fstate -> fop -> Prop) s s', f_reach s -> later x ok s s' -> f_reach s'.
Proof. intros x ok s s' R Q. induction Q as [s|o s s' s'' Q IH OK D K]; [exact R|]. eapply fr_step; [apply IH; exact R | exact D]. Qed.
Lemma later_in_force : forall x s s', f_reach s -> in_force x (f_cfg s) -> later x (settled x) s s' -> in_force x (f_cfg s').
Proof.
  intros x s s' R IF Q. induction Q as [s|o s s' s'' Q IH OK D K]; auto. pose proof (reach_inv _ (later_reach _ _ _ _ R Q)) as I. specialize (IH R IF).
  destruct D as [e cwd ok1 ok2 dev a fs s0 s1 fs' r H|y s0|]; [| |contradiction].
  - unfold f_call in H. destruct (f_start e cwd ok1 fs s0) as [| |[s2 fs2]] eqn:ST; try discriminate H.
    assert (IF2 : in_force x (f_cfg s2)) by (exact (start_in_force x e cwd ok1 fs s0 s2 fs2 I OK IH ST)).
    pose proof (call_head_cases ok2 dev a (f_cfg s2)) as HC. destruct (call_head ok2 dev a (f_cfg s2)) as [c z]. injection H as <- _ _. cbn [f_cfg fst] in *.
    destruct HC as [->|[-> _]]; [exact IF2 | destruct x; exact IF2].
  - cbn [f_set f_cfg]. apply set_other; auto. apply I.
Qed.
