(** Properties of paths: C54, C55, C75. *)
From Coq Require Import List Bool Ascii String ZArith.
From Verif Require Import Base Path_Model Path_Spec Path_Proofs.
Import ListNotations.

(** ** C54: normalisation of an absolute path *)
Definition C54_statement : Prop := forall cwd cs d, cs <> [] -> Forall component cs -> walk [] cs = Some d ->
  exists q slash, GetRealPath cwd (path_of cs) = ROk q /\ normalised q d slash.

(** "/a/.." becomes the empty string instead of "/". *)
Theorem C54_normalises_refuted : ~ C54_statement.
Proof.
  intro H. destruct (H None [tx "a"; tx ".."] []) as (q & b & E & _ & _ & r & Q).
  - discriminate.
  - repeat constructor; unfold component, tx; simpl; intuition discriminate.
  - vm_compute. reflexivity.
  - subst q. vm_compute in E. discriminate E.
Qed.

(** Everything but that case: the result is the directory reached from the root, and a final slash is kept. *)
Theorem C54_normalises_partial : forall cwd cs d, cs <> [] -> Forall component cs -> walk [] cs = Some d -> d <> [] \/ last cs [] = [] ->
  exists q slash, GetRealPath cwd (path_of cs) = ROk q /\ normalised q d slash /\ (slash = true <-> last cs [] = []).
Proof.
  intros cwd cs d N C W X. rewrite (real_absolute cwd cs N C), W. eexists. exists (negb (nonempty (last cs []))). split; [reflexivity|].
  assert (P : Forall proper d) by (apply (walk_proper cs [] d); auto).
  split; [split; [destruct (nonempty (last cs [])); reflexivity|split; auto]|].
  - destruct d as [|c d]; [|simpl; eauto]. destruct X as [X|X]; [congruence|]. rewrite X. simpl. eauto.
  - destruct (last cs []); simpl; split; intro; auto; discriminate.
Qed.
Example C54_case : let cs := [tx "var"; tx ""; tx "."; tx "lib"; tx ".."; tx "run"; tx ""] in
  cs <> [] /\ Forall component cs /\ walk [] cs = Some [tx "var"; tx "run"] /\ path_of cs = tx "/var//./lib/../run/" /\
  GetRealPath None (path_of cs) = ROk (tx "/var/run/").
Proof.
  split; [discriminate|]. split; [repeat constructor; unfold component, tx; simpl; intuition discriminate|]. split; [vm_compute; reflexivity|].
  split; vm_compute; reflexivity.
Qed.

(** Every absolute path is of this form, and a relative one is taken from the current directory. *)
Theorem C54_every_path_partial : forall cwd r, exists cs, "/"%char :: r = path_of cs /\ cs <> [] /\ Forall component cs /\
  forall d, walk [] cs = Some d -> exists q, GetRealPath cwd ("/"%char :: r) = ROk q /\ (q <> [] -> exists slash, normalised q d slash).
Proof.
  intros cwd r. destruct (absolute_components r) as (cs & E & C & N). exists cs. split; auto. split; auto. split; auto. intros d W.
  rewrite E, (real_absolute cwd cs N C), W. eexists. split; [reflexivity|]. intro NE. exists (negb (nonempty (last cs []))).
  split; [destruct (nonempty (last cs [])); reflexivity|]. split; [apply (walk_proper cs [] d); auto|].
  destruct d as [|c d]; [|simpl; eauto]. destruct (nonempty (last cs [])); simpl in *; [congruence | eauto].
Qed.
Theorem C54_relative_partial : forall d p c r, p = c :: r -> c <> "/"%char -> GetRealPath (Some ("/"%char :: d)) p = GetRealPath None (("/"%char :: d) ++ tx "/" ++ p).
Proof. intros d p c r -> N. unfold GetRealPath. cbn [app]. unfold is_slash at 1. destruct (Ascii.eqb_spec c "/"); [congruence|]. reflexivity. Qed.
Example C54_relative_case : GetRealPath (Some (tx "/home/u")) (tx "../v/./w") = ROk (tx "/home/v/w").
Proof. vm_compute. reflexivity. Qed.

(** ** C55: above the root *)
Definition C55_statement : Prop := forall cwd r cs, "/"%char :: r = path_of cs -> Forall component cs -> walk [] cs = None ->
  GetRealPath cwd ("/"%char :: r) = RFail.
(** "/..": the check looks at the wrong list and an element is removed from an empty one. *)
Theorem C55_above_root_refuted : ~ C55_statement.
Proof.
  intro H. assert (E : GetRealPath None (tx "/..") = RFail).
  { apply (H None (tx "..") [tx ".."]); [reflexivity | repeat constructor; unfold component, tx; simpl; intuition discriminate | vm_compute; reflexivity]. }
  vm_compute in E. discriminate E.
Qed.
(** Undefined behaviour is met exactly by the paths that climb above the root; no other absolute path is refused. *)
Theorem C55_only_above_root_partial : forall cwd cs, cs <> [] -> Forall component cs ->
  (GetRealPath cwd (path_of cs) = RUndef <-> walk [] cs = None) /\ GetRealPath cwd (path_of cs) <> RFail.
Proof.
  intros cwd cs N C. rewrite (real_absolute cwd cs N C). destruct (walk [] cs); repeat split; intro; try discriminate; auto.
Qed.
Example C55_case : walk [] [tx "a"; tx ".."; tx ".."; tx "b"] = None /\ GetRealPath None (tx "/a/../../b") = RUndef.
Proof. split; vm_compute; reflexivity. Qed.

(** ** C75: making the working directory *)
(** [d]: the directory the path names.  Whatever [stat] and [mkdir] answer: the umask is restored, nothing that exists changes and only
    directories leading to [d] appear. *)
Theorem C75_nothing_else_changes : forall cwd fs cs d fs' ok, cs <> [] -> Forall component cs -> walk [] cs = Some d ->
  MakeWorkDirectory cwd fs (path_of cs) = ROk (fs', ok) ->
  fs_umask fs' = fs_umask fs /\
  (forall p k, fs_node fs p = Some k -> fs_node fs' p = Some k) /\
  (forall p, fs_node fs' p <> fs_node fs p -> fs_node fs' p = Some NDir /\ exists a, ancestor a d /\ p = path_of a).
Proof.
  intros cwd fs cs d fs' ok N C W H. destruct (make_work cwd fs cs d fs' ok N C W H) as (M1 & M2 & M3 & M4).
  split; auto. split; auto. intros p Q. destruct (M3 p Q) as (_ & A & a & B & ->). split; auto. exists a. auto.
Qed.

Definition C75_statement : Prop := forall cwd fs cs d fs', cs <> [] -> Forall component cs -> walk [] cs = Some d ->
  MakeWorkDirectory cwd fs (path_of cs) = ROk (fs', true) -> forall a, ancestor a d -> fs_node fs' (path_of a) = Some NDir.

(** A socket (or a block device) at the place of the directory is taken for a directory. *)
Definition fs_sock : fsys := mkFs (fun p => if text_eqb p (tx "/tmp") then Some NDir else if text_eqb p (tx "/tmp/s") then Some NSock else None) (fun _ => false) (fun _ => false) 18.
Theorem C75_work_directory_refuted : ~ C75_statement.
Proof.
  intro H. assert (E : fs_node fs_sock (path_of [tx "tmp"; tx "s"]) = Some NDir).
  { apply (H None fs_sock [tx "tmp"; tx "s"] [tx "tmp"; tx "s"] fs_sock).
    - discriminate.
    - repeat constructor; unfold component, tx; simpl; intuition discriminate.
    - vm_compute. reflexivity.
    - vm_compute. reflexivity.
    - exists []. split; [reflexivity | discriminate]. }
  vm_compute in E. discriminate E.
Qed.
Theorem C75_work_directory_partial : forall cwd fs cs d fs', cs <> [] -> Forall component cs -> walk [] cs = Some d ->
  (forall a, ancestor a d -> fs_node fs (path_of a) <> Some NSock /\ fs_node fs (path_of a) <> Some NBlk) ->
  MakeWorkDirectory cwd fs (path_of cs) = ROk (fs', true) -> forall a, ancestor a d -> fs_node fs' (path_of a) = Some NDir.
Proof.
  intros cwd fs cs d fs' N C W NS H a A. destruct (make_work cwd fs cs d fs' true N C W H) as (M1 & M2 & M3 & M4).
  destruct (M4 eq_refl a A) as (k & K & L). cbn [app] in K. rewrite K. destruct (NS a A) as [S1 S2].
  destruct (fs_node fs (path_of a)) as [k0|] eqn:E.
  - simpl in K. rewrite (M2 _ _ E) in K. injection K as <-. destruct k0; try congruence; vm_compute in L; discriminate L.
  - assert (NE : fs_node fs' (path_of a) <> fs_node fs (path_of a)) by congruence. destruct (M3 _ NE) as (_ & D & _). congruence.
Qed.

(** It succeeds whenever the calls it makes succeed and nothing but directories is in the way. *)
Theorem C75_makes_it : forall cwd fs cs d, cs <> [] -> Forall component cs -> walk [] cs = Some d ->
  (forall a, ancestor a d -> fs_staterr fs (path_of a) = false /\ fs_mkerr fs (path_of a) = false /\ (fs_node fs (path_of a) = None \/ fs_node fs (path_of a) = Some NDir)) ->
  exists fs', MakeWorkDirectory cwd fs (path_of cs) = ROk (fs', true).
Proof.
  intros cwd fs cs d N C W A. unfold MakeWorkDirectory. destruct cs as [|c cs]; [congruence|].
  assert (E : exists x y, path_of (c :: cs) = x :: y) by (cbn; eauto). destruct E as (x & y & E). rewrite E. rewrite <- E.
  rewrite (real_absolute cwd (c :: cs) N C), W.
  assert (P : Forall proper d) by (apply (walk_proper (c :: cs) [] d); auto).
  assert (S : fst (split_path (path_of d ++ (if nonempty (last (c :: cs) []) then [] else tx "/"))) = d).
  { pose proof (split_proper d (negb (nonempty (last (c :: cs) []))) P) as S. destruct (nonempty (last (c :: cs) [])); exact S. }
  rewrite S. clear -A.
  assert (G : forall r full fs, (forall a, ancestor a r -> fs_staterr fs (full ++ path_of a) = false /\ fs_mkerr fs (full ++ path_of a) = false /\ (fs_node fs (full ++ path_of a) = None \/ fs_node fs (full ++ path_of a) = Some NDir)) ->
     exists fs', make_dirs fs full r = (fs', true)).
  { clear. induction r as [|x r IH]; intros full fs A; [exists fs; reflexivity|]. cbn [make_dirs].
    assert (A1 : ancestor [x] (x :: r)) by (exists r; split; [auto | discriminate]). destruct (A _ A1) as (B1 & B2 & B3). cbn [path_of flat_map] in B1, B2, B3.
    rewrite app_nil_r in B1, B2, B3. rewrite B1.
    assert (UP : forall a, ancestor a r -> ancestor (x :: a) (x :: r)) by (intros a (q & E & Na); exists q; split; [simpl; congruence | discriminate]).
    assert (AS : forall a, (full ++ "/"%char :: x) ++ path_of a = full ++ path_of (x :: a)) by (intro a; rewrite <- app_assoc; reflexivity).
    destruct B3 as [ND|ND]; rewrite ND.
    - cbn [fs_mkerr fs_mask]. rewrite B2. apply IH. intros a Q. rewrite AS. destruct (A _ (UP a Q)) as (D1 & D2 & D3). cbn [fs_staterr fs_mkerr fs_node fs_mask fs_add]. split; auto. split; auto.
      destruct (text_eqb (full ++ path_of (x :: a)) (full ++ "/"%char :: x)); auto.
    - change (looks_dir NDir) with true. cbv iota. apply IH. intros a Q. rewrite AS. auto. }
  destruct (G d [] fs A) as (fs' & F). exists fs'. rewrite F. reflexivity.
Qed.
Definition fs0 : fsys := mkFs (fun p => if text_eqb p (tx "/tmp") then Some NDir else None) (fun _ => false) (fun _ => false) 18.
Example C75_case : exists fs', MakeWorkDirectory None fs0 (path_of [tx "tmp"; tx "x"; tx ".."; tx ".fullock"]) = ROk (fs', true) /\
  fs_node fs0 (tx "/tmp/.fullock") = None /\ fs_node fs' (tx "/tmp/.fullock") = Some NDir /\ fs_node fs' (tx "/tmp/x") = None /\ fs_umask fs' = 18%Z.
Proof. eexists. split; [vm_compute; reflexivity|]. repeat split; vm_compute; reflexivity. Qed.

Print Assumptions C54_normalises_refuted.
Print Assumptions C54_normalises_partial.
Print Assumptions C54_every_path_partial.
Print Assumptions C54_relative_partial.
Print Assumptions C55_above_root_refuted.
Print Assumptions C55_only_above_root_partial.
Print Assumptions C75_nothing_else_changes.
Print Assumptions C75_work_directory_refuted.
Print Assumptions C75_work_directory_partial.
Print Assumptions C75_makes_it.
