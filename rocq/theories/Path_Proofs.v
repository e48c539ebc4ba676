(** Lemmas on paths. *)
From Coq Require Import List Bool Ascii String ZArith.
From Verif Require Import Base Path_Model Path_Spec.
Import ListNotations.

Lemma text_eqb_eq : forall a b, text_eqb a b = true <-> a = b.
Proof.
  induction a as [|x a IH]; intros [|y b]; simpl; split; intro H; try discriminate; auto.
  - apply andb_true_iff in H as [H1 H2]. apply Ascii.eqb_eq in H1. apply IH in H2. congruence.
  - inversion H; subst. rewrite Ascii.eqb_refl. simpl. apply IH. auto.
Qed.
Lemma text_eqb_dec : forall a b, text_eqb a b = if list_eq_dec ascii_dec a b then true else false.
Proof.
  intros a b. destruct (list_eq_dec ascii_dec a b) as [E|N]; [apply text_eqb_eq; auto|]. destruct (text_eqb a b) eqn:T; auto. apply text_eqb_eq in T. contradiction.
Qed.

Definition nonempty (c : text) : bool := match c with [] => false | _ => true end.

Lemma split_read : forall c cur r, component c -> split_go cur (c ++ r) = split_go (cur ++ c) r.
Proof.
  induction c as [|a c IH]; intros cur r H; [rewrite app_nil_r; auto|]. simpl. unfold is_slash. destruct (Ascii.eqb_spec a "/").
  - subst. exfalso. apply H. left. auto.
  - rewrite IH; [rewrite <- app_assoc; auto|]. intro I. apply H. right. auto.
Qed.

Lemma split_spec : forall cs cur, Forall component cs -> 
  split_go cur (path_of cs) = (filter nonempty (cur :: cs), negb (nonempty (last (cur :: cs) []))).
Proof.
  induction cs as [|c cs IH]; intros cur H; simpl.
  - destruct cur; auto.
  - inversion H; subst. unfold path_of in *. rewrite split_read by auto. simpl. rewrite IH by auto.
    destruct cur as [|a cur]; simpl; auto.
Qed.

Lemma removelast_rev : forall (A : Type) (d : list A), removelast d = rev (tl (rev d)).
Proof.
  intros A d. destruct (rev d) as [|x l] eqn:E; simpl.
  - assert (d = []) by (rewrite <- (rev_involutive d), E; auto). subst. auto.
  - assert (D : d = rev l ++ [x]) by (rewrite <- (rev_involutive d), E; auto). rewrite D. apply removelast_last.
Qed.

Lemma norm_walk : forall cs d, norm (filter nonempty cs) d = match walk d cs with Some d' => ROk d' | None => RUndef end.
Proof.
  induction cs as [|c cs IH]; intro d; [reflexivity|]. cbn [filter walk].
  destruct (list_eq_dec ascii_dec c (tx "")) as [->|N]; [simpl; apply IH|].
  assert (E : nonempty c = true) by (destruct c; [exfalso; apply N; reflexivity | reflexivity]). rewrite E. cbn [norm].
  rewrite !text_eqb_dec. destruct (list_eq_dec ascii_dec c (tx ".")); [apply IH|].
  destruct (list_eq_dec ascii_dec c (tx "..")); [|apply IH].
  rewrite removelast_rev. destruct d as [|x d']; [reflexivity|]. destruct (rev (x :: d')) eqn:R; [|apply IH].
  exfalso. assert (Q : x :: d' = []) by (rewrite <- (rev_involutive (x :: d')), R; auto). discriminate Q.
Qed.

Lemma walk_proper : forall cs d d', Forall component cs -> Forall proper d -> walk d cs = Some d' -> Forall proper d'.
Proof.
  induction cs as [|c cs IH]; intros d d' C P H; [inversion H; subst; auto|]; cbn [walk] in H. inversion C; subst.
  destruct (list_eq_dec ascii_dec c (tx "")); [eauto|]. destruct (list_eq_dec ascii_dec c (tx ".")); [eauto|].
  destruct (list_eq_dec ascii_dec c (tx "..")).
  - destruct (rev d) as [|x up] eqn:R; [discriminate H|]. apply (IH (rev up) d'); auto.
    apply Forall_rev. apply Forall_rev in P. rewrite R in P. inversion P; auto.
  - apply (IH (d ++ [c]) d'); auto. apply Forall_app. split; auto. constructor; auto. repeat split; auto.
Qed.

Lemma path_of_build : forall d b, build d b = path_of d ++ (if b then tx "/" else []).
Proof. reflexivity. Qed.

Lemma real_absolute : forall cwd cs, cs <> [] -> Forall component cs ->
  GetRealPath cwd (path_of cs) =
  match walk [] cs with Some d => ROk (path_of d ++ (if nonempty (last cs []) then [] else tx "/")) | None => RUndef end.
Proof.
  intros cwd cs N C. destruct cs as [|c cs]; [congruence|]. unfold GetRealPath. cbn [path_of flat_map app]. change (is_slash "/") with true. cbv iota.
  change ("/"%char :: c ++ flat_map (cons "/"%char) cs) with (path_of (c :: cs)).
  unfold split_path. rewrite split_spec by auto. cbn [filter nonempty]. change (last ([] :: c :: cs) []) with (last (c :: cs) ([] : text)).
  fold (filter nonempty (c :: cs)). replace (if nonempty c then c :: filter nonempty cs else filter nonempty cs) with (filter nonempty (c :: cs)) by reflexivity.
  rewrite norm_walk. destruct (walk [] (c :: cs)); auto. rewrite path_of_build. destruct (nonempty (last (c :: cs) [])); auto.
Qed.

(** every absolute path is a sequence of components *)
Lemma decompose : forall p, exists c cs, p = c ++ path_of cs /\ component c /\ Forall component cs.
Proof.
  induction p as [|a p (c & cs & E & C & F)].
  - exists [], []. split; [auto|]. split; [intros [] | auto].
  - destruct (ascii_dec a "/") as [->|N].
    + exists [], (c :: cs). subst p. split; [auto|]. split; [intros [] | auto].
    + exists (a :: c), cs. subst p. split; [auto|]. split; [intros [H|H]; auto | auto].
Qed.
Lemma absolute_components : forall p, exists cs, "/"%char :: p = path_of cs /\ Forall component cs /\ cs <> [].
Proof. intro p. destruct (decompose p) as (c & cs & E & C & F). exists (c :: cs). subst p. repeat split; auto. discriminate. Qed.

Lemma path_of_app : forall a b, path_of (a ++ b) = path_of a ++ path_of b.
Proof. intros. unfold path_of. apply flat_map_app. Qed.

(** ** directories *)
Lemma split_proper : forall d (b : bool), Forall proper d -> fst (split_path (path_of d ++ (if b then tx "/" else ([] : text)))) = d.
Proof.
  intros d b P. assert (C : Forall component d) by (eapply Forall_impl; [|exact P]; intros c H; apply H).
  assert (F : filter nonempty d = d).
  { clear C. induction P as [|c d Pc P IH]; auto. simpl. destruct Pc as (N & _). destruct c; [congruence|]. simpl. f_equal. auto. }
  unfold split_path. destruct b.
  - replace (path_of d ++ tx "/") with (path_of (d ++ [[]])) by (rewrite path_of_app; auto).
    rewrite split_spec by (apply Forall_app; split; auto; constructor; auto; intros []). simpl fst. rewrite filter_app, F. simpl. apply app_nil_r.
  - rewrite app_nil_r, split_spec by auto. simpl. auto.
Qed.

Lemma make_dirs_spec : forall leaves fs full fs' ok, make_dirs fs full leaves = (fs', ok) ->
  fs_umask fs' = fs_umask fs /\
  (forall p k, fs_node fs p = Some k -> fs_node fs' p = Some k) /\
  (forall p, fs_node fs' p <> fs_node fs p -> fs_node fs p = None /\ fs_node fs' p = Some NDir /\ exists a, ancestor a leaves /\ p = full ++ path_of a) /\
  (ok = true -> forall a, ancestor a leaves -> exists k, fs_node fs' (full ++ path_of a) = Some k /\ looks_dir k = true).
Proof.
  induction leaves as [|x r IH]; intros fs full fs' ok H; cbn [make_dirs] in H.
  - inversion H; subst. split; [auto|]. split; [auto|]. split; [intros; congruence|].
    intros _ a (q & E & N). destruct a; [congruence | discriminate].
  - assert (BASE : forall f, fs_node f = fs_node fs -> fs_umask f = fs_umask fs -> (f, false) = (fs', ok) ->
       fs_umask fs' = fs_umask fs /\ (forall p k, fs_node fs p = Some k -> fs_node fs' p = Some k) /\
       (forall p, fs_node fs' p <> fs_node fs p -> fs_node fs p = None /\ fs_node fs' p = Some NDir /\ exists a, ancestor a (x :: r) /\ p = full ++ path_of a) /\
       (ok = true -> forall a, ancestor a (x :: r) -> exists k, fs_node fs' (full ++ path_of a) = Some k /\ looks_dir k = true)).
    { intros f E1 E2 E. inversion E; subst. rewrite E1. split; [auto|]. split; [auto|]. split; [intros; congruence | discriminate]. }
    assert (STEP : forall f, fs_umask f = fs_umask fs -> (forall p k, fs_node fs p = Some k -> fs_node f p = Some k) ->
       (forall p, fs_node f p <> fs_node fs p -> fs_node fs p = None /\ fs_node f p = Some NDir /\ p = full ++ "/"%char :: x) ->
       (exists k, fs_node f (full ++ "/"%char :: x) = Some k /\ looks_dir k = true) -> make_dirs f (full ++ "/"%char :: x) r = (fs', ok) ->
       fs_umask fs' = fs_umask fs /\ (forall p k, fs_node fs p = Some k -> fs_node fs' p = Some k) /\
       (forall p, fs_node fs' p <> fs_node fs p -> fs_node fs p = None /\ fs_node fs' p = Some NDir /\ exists a, ancestor a (x :: r) /\ p = full ++ path_of a) /\
       (ok = true -> forall a, ancestor a (x :: r) -> exists k, fs_node fs' (full ++ path_of a) = Some k /\ looks_dir k = true)).
    { intros f U K O D M. destruct (IH _ _ _ _ M) as (M1 & M2 & M3 & M4). split; [congruence|]. split; [eauto|].
      assert (A1 : ancestor [x] (x :: r)) by (exists r; split; [auto | discriminate]).
      split.
      - intros p N. destruct (option_map (fun k => k) (fs_node f p)) eqn:Q.
        + assert (FP : fs_node f p = Some n) by (destruct (fs_node f p); simpl in Q; congruence). pose proof (M2 _ _ FP) as FP'.
          assert (N' : fs_node f p <> fs_node fs p) by congruence. destruct (O p N') as (O1 & O2 & ->). split; auto. split; [eauto|].
          exists [x]. split; auto. simpl. rewrite app_nil_r. auto.
        + assert (FP : fs_node f p = None) by (destruct (fs_node f p); simpl in Q; congruence).
          assert (FS : fs_node fs p = None) by (destruct (fs_node fs p) eqn:Z; auto; rewrite (K _ _ Z) in FP; discriminate).
          assert (N' : fs_node fs' p <> fs_node f p) by congruence. destruct (M3 p N') as (_ & O2 & a & (q & E & Na) & ->). split; auto. split; auto.
          exists (x :: a). split; [exists q; split; [simpl; congruence | discriminate]|]. simpl. rewrite <- app_assoc. auto.
      - intros OK a (q & E & Na). destruct a as [|y a]; [congruence|]. simpl in E. inversion E; subst y r.
        assert (Q : full ++ path_of (x :: a) = (full ++ "/"%char :: x) ++ path_of a) by (rewrite <- app_assoc; auto). rewrite Q. clear Q.
        destruct a as [|z a]; [simpl; rewrite app_nil_r; destruct D as (k & D1 & D2); exists k; split; auto|]. apply M4; auto. exists q. split; auto. discriminate. }
    destruct (fs_staterr fs (full ++ "/"%char :: x)); [apply (BASE fs); auto|].
    destruct (fs_node fs (full ++ "/"%char :: x)) as [k|] eqn:ND.
    + destruct (looks_dir k) eqn:L; [apply (STEP fs); eauto; congruence | apply (BASE fs); auto].
    + destruct (fs_mkerr (fs_mask fs 0) (full ++ "/"%char :: x)); [apply (BASE (fs_mask (fs_mask fs 0) (fs_umask fs))); auto|].
      eapply (STEP); [| | | |exact H]; simpl; auto.
      * intros p k P. destruct (text_eqb p (full ++ "/"%char :: x)) eqn:T; auto. apply text_eqb_eq in T. subst p. congruence.
      * intros p N. destruct (text_eqb p (full ++ "/"%char :: x)) eqn:T; [|congruence]. apply text_eqb_eq in T. subst p. auto.
      * rewrite (proj2 (text_eqb_eq _ _) eq_refl). exists NDir. auto.
Qed.

Lemma make_work : forall cwd fs cs d fs' ok, cs <> [] -> Forall component cs -> walk [] cs = Some d ->
  MakeWorkDirectory cwd fs (path_of cs) = ROk (fs', ok) ->
  fs_umask fs' = fs_umask fs /\
  (forall p k, fs_node fs p = Some k -> fs_node fs' p = Some k) /\
  (forall p, fs_node fs' p <> fs_node fs p -> fs_node fs p = None /\ fs_node fs' p = Some NDir /\ exists a, ancestor a d /\ p = [] ++ path_of a) /\
  (ok = true -> forall a, ancestor a d -> exists k, fs_node fs' ([] ++ path_of a) = Some k /\ looks_dir k = true).
Proof.
  intros cwd fs cs d fs' ok N C W H. unfold MakeWorkDirectory in H. destruct cs as [|c cs]; [congruence|].
  assert (E : exists x y, path_of (c :: cs) = x :: y) by (cbn; eauto). destruct E as (x & y & E). rewrite E in H. rewrite <- E in H.
  rewrite (real_absolute cwd (c :: cs) N C), W in H.
  assert (P : Forall proper d) by (apply (walk_proper (c :: cs) [] d); auto).
  assert (S : fst (split_path (path_of d ++ (if nonempty (last (c :: cs) []) then [] else tx "/"))) = d).
  { pose proof (split_proper d (negb (nonempty (last (c :: cs) []))) P) as S. destruct (nonempty (last (c :: cs) [])); exact S. }
  rewrite S in H. injection H as H. exact (make_dirs_spec d fs [] fs' ok H).
Qed.
