(** Read/write locks: linearizability (C112). *)
From Coq Require Import ZArith List Bool Lia.
From Verif Require Import Base Range_Model RwWord_Model RwApi_Model RwApi_Spec RwApi_Proofs RwApi_Proofs2 RwApi_Props RwLin_Spec RwLin_Proofs.
Import ListNotations.
Open Scope Z_scope.

(** ** C112: whatever programs can see of read/write locks, an atomic lock table could have shown *)
Definition proper_ranges (fam : Z -> Z -> Z -> Prop) : Prop :=
  forall d off len, fam d off len -> 0 <= off < two63 /\ 0 < len /\ off + len < two64.
Definition C112_statement : Prop := forall UF UO UL fds mode allow fam s h, NoDup UF -> NoDup UO -> NoDup UL -> proper_ranges fam ->
  r_history (r_init UF UO UL fds mode allow) (regular fam) s h -> exists a, tb_history fds a h.

Section Linearizable.
Variables UF UO UL : list Z.
Hypothesis UF_nd : NoDup UF.
Hypothesis UO_nd : NoDup UO.
Hypothesis UL_nd : NoDup UL.
Variable fds : Z -> Z -> option Z.
Variable mode : Z -> fmode.
Variable allow : Z -> bool.
Notation init := (r_init UF UO UL fds mode allow).

(** ranges equal or disjoint; the table has all locks of the shared memory *)
Theorem C112_linearizable_partial : forall fam s h, equal_or_disjoint fam -> r_history init (regular fam) s h ->
  exists a, tb_history fds a h /\ (forall l g, holds s l g -> tb_held a l = Some g).
Proof.
  intros fam s h E R. destruct (simulation UF UO UL UF_nd UO_nd UL_nd fam E fds mode allow s h R) as (a & T & [_ _ _ SM]).
  exists a. split; auto. intros l g L. apply (sm_held _ _ SM). left. exact L.
Qed.

(** read off the history alone: two locks that were granted, not given up and whose holders are there do
    not conflict *)
Theorem C112_no_conflict_in_history_partial : forall fam s h g1 g2, equal_or_disjoint fam -> r_history init (regular fam) s h ->
  has_lock fds h g1 -> has_lock fds h g2 -> g1 <> g2 -> ~ conflict g1 g2.
Proof.
  intros fam s h g1 g2 E R H1 H2 N. destruct (C112_linearizable_partial fam s h E R) as (a & T & _).
  destruct (td_has _ _ _ _ (told_history fds g1 a h T) H1) as (_ & [i I] & _).
  destruct (td_has _ _ _ _ (told_history fds g2 a h T) H2) as (_ & [j J] & _).
  apply (table_excl fds a h T i j); auto. intros ->. congruence.
Qed.
End Linearizable.

(** ** Concrete histories *)
Fixpoint hist (s : rstate) (ls : list rlabel) : list event :=
  match ls with [] => [] | x :: r => r_events s x ++ hist (r_step s x) r end.
Definition proper_b (famb : Z -> Z -> Z -> bool) (s : rstate) (x : rlabel) : bool :=
  match x with
  | LCall t (CLock k fd off len w) => match file_of s t fd with Some d => famb d off len | None => false end
  | LCall t (CUnlockRw fd off len) => match file_of s t fd with Some d => famb d off len | None => false end
  | LCall t (CIsLocked fd off len) => match file_of s t fd with Some d => true | None => false end
  | LRun t true gu => false
  | _ => true
  end.
Lemma hist_exec : forall acts famb (fam : Z -> Z -> Z -> Prop), (forall d off len, famb d off len = true -> fam d off len) ->
  forall s0 ls s h, others_idle acts s -> r_history s0 (regular fam) s h ->
  check (fun s x => careful_b acts s x && proper_b famb s x) s ls = true -> r_history s0 (regular fam) (r_exec s ls) (h ++ hist s ls).
Proof.
  intros acts famb fam F s0 ls. induction ls as [|x ls IH]; intros s h OI R C; [simpl; rewrite app_nil_r; exact R|].
  cbn [check] in C. apply andb_true_iff in C as [C C2]. apply andb_true_iff in C as [C0 C1].
  cbn [hist]. rewrite app_assoc. change (r_exec s (x :: ls)) with (r_exec (r_step s x) ls).
  apply IH; [eapply others_idle_step; eauto | | exact C2]. constructor; [exact R|]. split; [eapply careful_b_ok; eauto|].
  destruct x as [t c|t race gu| | | |]; simpl in *; auto.
  - split; auto. destruct c as [k fd off len w|fd off len|fd off len|priv]; auto;
      (destruct (file_of s t fd) as [d|]; [|discriminate]); eauto.
  - split; auto. destruct race; [discriminate | exact I].
Qed.
Lemma hist_init : forall acts famb (fam : Z -> Z -> Z -> Prop) UF UO UL fds mode allow ls, (forall d off len, famb d off len = true -> fam d off len) ->
  let s0 := r_init UF UO UL fds mode allow in
  check (fun s x => careful_b acts s x && proper_b famb s x) s0 ls = true ->
  r_history s0 (regular fam) (r_exec s0 ls) (hist s0 ls).
Proof.
  intros acts famb fam UF UO UL fds mode allow ls F s0 C.
  exact (hist_exec acts famb fam F s0 ls s0 [] (others_idle_init acts UF UO UL fds mode allow) (rh_init s0 (regular fam)) C).
Qed.

(** T1 and T2 read [0,10), T3 is refused writing, T1 unlocks, T2 dies with its process, a pass of T3 takes
    its lock away, T3 writes *)
Definition ex112 : list rlabel :=
  does T1 (lock_r 3 0 10) ++ does T2 (lock_r 3 0 10) ++ does T3 (lock_w 3 0 10) ++ does T1 (CUnlockRw 3 0 10) ++
  [LDieProc (proc_of_thread T2)] ++ does T3 (CPass true) ++ does T3 (lock_w 3 0 10).
Definition hist112 : list event :=
  [ECall T1 (lock_r 3 0 10); ERet T1 OK; ECall T2 (lock_r 3 0 10); ERet T2 OK; ECall T3 (lock_w 3 0 10); ERet T3 EBUSY;
   ECall T1 (CUnlockRw 3 0 10); ERet T1 OK; EDieProc (proc_of_thread T2); ECall T3 (CPass true); ERet T3 OK;
   ECall T3 (lock_w 3 0 10); ERet T3 OK].
Example C112_case : r_history s0 (regular ex_fam) (r_exec s0 ex112) hist112 /\ equal_or_disjoint ex_fam /\
  has_lock ex_fds hist112 (G T3 3 0 10 Wr).
Proof.
  split; [|split; [exact ex_fam_ok|]].
  - assert (E : hist112 = hist s0 ex112) by (vm_compute; reflexivity). rewrite E. clear E.
    apply (hist_init everyone ex_famb ex_fam); [auto|]. vm_compute. reflexivity.
  - exists (firstn 11 hist112), WTry, [], []. split; [reflexivity|]. split; [simpl; auto|]. split; [simpl; auto|].
    split; [reflexivity|]. split; [|simpl; auto]. repeat split; simpl; auto. intros fd off len [].
Qed.

(** ** C112 for arbitrary ranges: false, the writer of C19 *)
Definition any_fam (d off len : Z) : Prop := 0 <= off < 100 /\ 0 < len < 100.
Definition any_famb (d off len : Z) : bool := (0 <=? off) && (off <? 100) && (0 <? len) && (len <? 100).
Definition ex112b : list rlabel := does T1 (lock_w 3 0 10) ++ does T2 (lock_r 3 20 10) ++ does T3 (lock_r 3 5 20).
Definition hist112b : list event :=
  [ECall T1 (lock_w 3 0 10); ERet T1 OK; ECall T2 (lock_r 3 20 10); ERet T2 OK; ECall T3 (lock_r 3 5 20); ERet T3 OK].
Theorem C112_linearizable_refuted : ~ C112_statement.
Proof.
  intro H.
  assert (R : r_history s0 (regular any_fam) (r_exec s0 ex112b) hist112b).
  { assert (E : hist112b = hist s0 ex112b) by (vm_compute; reflexivity). rewrite E. clear E.
    apply (hist_init everyone any_famb any_fam).
    - intros d off len E. unfold any_famb in E. unfold any_fam. rewrite !andb_true_iff, !Z.leb_le, !Z.ltb_lt in E. lia.
    - vm_compute. reflexivity. }
  assert (PR : proper_ranges any_fam) by (intros d off len [A B]; unfold two63, two64; lia).
  destruct (H [1;2;3] [11;12;13;14] [21;22;23;24;25] ex_fds (fun _ => FREE_FD) (fun _ => true) any_fam (r_exec s0 ex112b) hist112b nd1 nd2 nd3 PR R) as (a & T).
  clear R H.
  assert (L1 : has_lock ex_fds hist112b (G T1 3 0 10 Wr)).
  { exists [], WTry, [], (skipn 2 hist112b). split; [reflexivity|]. split; [simpl; auto|]. split; [simpl; auto|].
    split; [reflexivity|]. split.
    - unfold stays. repeat split; [| |intros _ d]; simpl; intuition discriminate.
    - intros fd off len. simpl. intuition discriminate. }
  assert (L2 : has_lock ex_fds hist112b (G T3 3 5 20 Rd)).
  { exists (firstn 4 hist112b), WTry, [], []. split; [reflexivity|]. split; [simpl; auto|]. split; [simpl; auto|].
    split; [reflexivity|]. split; [|simpl; auto]. repeat split; simpl; auto. intros fd off len []. }
  destruct (td_has _ _ _ _ (told_history ex_fds _ a _ T) L1) as (_ & [i I] & _).
  destruct (td_has _ _ _ _ (told_history ex_fds _ a _ T) L2) as (_ & [j J] & _).
  apply (table_excl ex_fds a _ T i j _ _ I J).
  - intros ->. rewrite I in J. discriminate J.
  - split; [reflexivity|]. split; [|left; reflexivity]. exists 7. unfold byte_in, G; simpl. lia.
Qed.

Print Assumptions C112_linearizable_partial.
Print Assumptions C112_no_conflict_in_history_partial.
Print Assumptions C112_linearizable_refuted.
