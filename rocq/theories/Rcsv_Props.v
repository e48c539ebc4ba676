(** Theorems about the recursive lock objects (FLRwlRcsv). *)
From Verif Require Import Base Rcsv_Model Rcsv_Spec Rcsv_Proofs Rcsv_Proofs2 Rcsv_Proofs3 Rcsv_Proofs4 Rcsv_Proofs5
  Rcsv_Proofs6 Rcsv_Proofs7 Rcsv_Proofs8 Rcsv_Proofs9.
From Coq Require Import ZArith List Bool Lia Permutation.
Import ListNotations.
Open Scope Z_scope.

(** ** Executions for examples and witnesses *)
Lemma some_inj : forall A (a b : A), Some a = Some b -> a = b.
Proof. intros A a b E. injection E as E. exact E. Qed.
Fixpoint run (l : list (op * list Z)) (s : st) : option st :=
  match l with
  | [] => Some s
  | (p, answers) :: r =>
      if allowed p s then match call p (set_ans s answers) with Ret _ _ s' => run r s' | _ => None end else None
  end.
Lemma run_reach : forall l s s', run l s = Some s' -> reach anything s -> reach anything s'.
Proof.
  induction l as [|[p a] r IH]; intros s s' E R; cbn in E; [injection E as <-; exact R|].
  destruct (allowed p s) eqn:A; [|discriminate E].
  destruct (call p (set_ans s a)) as [b L s1|c L s1|s1] eqn:C; try discriminate E.
  apply (IH s1 s' E). exact (reach_call anything s p a b L s1 R A C Logic.I).
Qed.

(** with ranges of a list, checked *)
Definition famb (l : list key) (s : st) (p : op) : bool :=
  match p with
  | ONewLock _ tid fd off len _ => existsb (key_eq (Key tid fd off len)) l
  | OLockAt o fd off len _ => existsb (key_eq (Key (o_tid (s_obj s o)) fd off len)) l
  | OLockAs o _ | OLock o | ORead o | OWrite o => existsb (key_eq (key_of (s_obj s o))) l
  | ONew _ _ _ _ _ | ODel _ | OUnlock _ => true
  end.
Definition delb (p : op) (b : bool) : bool := match p with ODel _ => b | _ => true end.
Fixpoint runF (fam : list key) (l : list (op * list Z)) (s : st) : option st :=
  match l with
  | [] => Some s
  | (p, answers) :: r =>
      if allowed p s && famb fam s p then
        match call p (set_ans s answers) with
        | Ret b _ s' => if delb p b then runF fam r s' else None
        | _ => None
        end
      else None
  end.
Lemma existsb_key : forall k l, existsb (key_eq k) l = true -> In k l.
Proof. intros k l H. apply existsb_exists in H as (x & I & E). apply key_eq_spec in E as ->. exact I. Qed.
Lemma famb_ok : forall l s p b s', famb l s p = true -> in_family (fun k => In k l) s p b s'.
Proof. intros l s p b s' H. destruct p; cbn in *; auto; now apply existsb_key. Qed.
Lemma runF_reach : forall fam l s s', runF fam l s = Some s' -> reach (orderly (fun k => In k fam)) s ->
  reach (orderly (fun k => In k fam)) s'.
Proof.
  induction l as [|[p a] r IH]; intros s s' E R; cbn in E; [injection E as <-; exact R|].
  destruct (allowed p s && famb fam s p) eqn:A; [|discriminate E]. apply andb_true_iff in A as [A B].
  destruct (call p (set_ans s a)) as [b L s1|c L s1|s1] eqn:C; try discriminate E.
  destruct (delb p b) eqn:D; [|discriminate E].
  apply (IH s1 s' E). apply (reach_call _ s p a b L s1 R A C). split; [now apply famb_ok|].
  destruct p; cbn in *; auto.
Qed.
Lemma reach_weak : forall (ok ok' : st -> op -> bool -> st -> Prop) s,
  (forall s p b s', ok s p b s' -> ok' s p b s') -> reach ok s -> reach ok' s.
Proof. intros ok ok' s H R. induction R; [constructor|eapply reach_call; eauto]. Qed.

Definition kA : key := Key 1 3 0 10.
Definition kB : key := Key 1 3 10 10.
Lemma fam2 : separate (fun k => In k [kA; kB]).
Proof.
  split.
  - intros k [<-|[<-|[]]]; cbn; unfold two63; lia.
  - intros a b [<-|[<-|[]]] [<-|[<-|[]]] (_ & _ & p & A & B); cbn in *; auto; exfalso; lia.
Qed.

Lemma others_un : forall o s s', others o (s_obj s) (s_obj s') -> unaffected o s s'.
Proof.
  intros o s s' H z N. destruct (H z N) as (A & B & C & D). unfold locked, kind. rewrite C. split; [auto|].
  split; [auto|]. split; [tauto|auto].
Qed.

Lemma orderly_inv : forall F s, separate F -> reach (orderly F) s -> Inv True F (s_obj s) (s_stack s) (s_log s).
Proof. intros F s SEP R. apply (reach_TG F s SEP). exact R. Qed.

(** ** C61, first part: a range that is locked is locked again without the shared lock layer *)
Theorem C61_nested : forall F s p t x, separate F -> reach (orderly F) s -> allowed p s = true ->
  asks s p = Some t -> in_family F s p true s ->
  x <> target p -> locked s x -> key_of (s_obj s x) = wanted s p -> (t = WR -> kind s x = WR) ->
  match p with OLockAt o _ _ _ _ => ~ locked s o | _ => True end ->
  exists s', call p (set_ans s []) = Ret true false s' /\ s_log s' = s_log s /\
    locked s' (target p) /\ (t = WR -> kind s' (target p) = WR) /\ unaffected (target p) s s'.
Proof.
  intros F s p t x SEP R AL AS FAM NX LX KX WX LA.
  pose proof (reach_mtx _ _ R) as M. pose proof (orderly_inv F s SEP R) as I.
  set (s0 := set_ans s []).
  assert (Q : quiet_ok (s_log s) (call p s0)).
  { assert (H0 : forall o, o = target p -> makes p = false -> key_of (s_obj s o) = wanted s p -> held_by F o x s0).
    { intros o -> NM K. unfold held_by, s0. cbn. split; [exact I|]. unfold allowed in AL. rewrite NM in AL.
      split; [exact AL|]. split; [exact LX|congruence]. }
    assert (RL : forall o rd L s1, s_mtx s1 = L -> o <> x -> held_by F o x s1 -> (ty rd = WR -> o_type (s_obj s1 x) = WR) ->
      quiet_ok (s_log s1) (RawLock o rd L s1)).
    { intros o [|] L s1 M1 N H W; cbn [RawLock]; [apply (read_quiet F SEP o x); auto|apply (write_quiet F SEP o x); auto]. }
    destruct p as [o tid fd off len|o tid fd off len rd|o|o fd off len rd|o rd|o|o|o|o]; cbn [asks target wanted] in *;
      try discriminate AS; cbn [call].
    - destruct (fd =? FLCK_INVALID_HANDLE); [discriminate AS|]. injection AS as <-. cbv zeta. apply finish_quiet.
      change (s_log s) with (s_log (set_obj s0 o (mkO true tid fd off len (ty rd) false false [] None))).
      cbn in AL. apply negb_true_iff in AL.
      apply RL; auto.
      + unfold held_by. cbn. rewrite upd_eq. rewrite upd_neq by auto. split; [|split; [reflexivity|split; [exact LX|auto]]].
        apply (Inv_other True F (s_obj s) _ _ _ o I).
        * destruct I as [HG _]. apply (free_of _ (s_stack s)); [exact HG|].
          destruct (o_locked (s_obj s o)) eqn:L; [|reflexivity]. exfalso.
          destruct (g_lo _ _ HG o L) as [(X & _)|(y & (X & _) & _)]; congruence.
        * unfold free. rewrite upd_eq. cbn. auto.
        * intros z N. now apply upd_neq.
      + cbn. rewrite upd_neq by auto. auto.
    - injection AS as <-. apply finish_quiet. unfold RawUnlock.
      assert (LO : o_locked (s_obj s o) = false) by (unfold locked in LA; destruct (o_locked (s_obj s o)); congruence).
      change (s_obj s0) with (s_obj s). rewrite LO. cbn [negb]. rewrite orb_true_r. cbn [bind negb].
      set (s1 := on s0 o _). change (s_log s) with (s_log s1).
      assert (Eo : s_obj s1 o = w_type (w_range (s_obj s o) fd off len) (ty rd)) by (unfold s1, on, set_obj; cbn [s_obj]; apply upd_eq).
      assert (Ez : forall z, z <> o -> s_obj s1 z = s_obj s z) by (intros z N; unfold s1, on, set_obj; cbn [s_obj]; now apply upd_neq).
      assert (F1 : free (s_obj s) o) by (apply (free_of _ (s_stack s)); [apply I|exact LO]).
      apply RL; auto.
      + unfold held_by. rewrite Eo, Ez by auto. split; [|split; [exact AL|split; [exact LX|unfold key_of; cbn; symmetry; exact KX]]].
        apply (Inv_other True F (s_obj s) _ _ _ o I F1); [|exact Ez]. unfold free. rewrite Eo. exact F1.
      + rewrite Ez by auto. auto.
    - injection AS as <-. apply finish_quiet. change (s_log s) with (s_log s0). apply RL; auto.
    - change (o_type (s_obj s0 o)) with (kind s o). destruct (kind s o); [discriminate AS|injection AS as <-|injection AS as <-].
      + apply finish_quiet. change (s_log s) with (s_log s0). apply (RL o true); auto.
      + apply finish_quiet. change (s_log s) with (s_log s0). apply (RL o false); auto.
    - injection AS as <-. apply finish_quiet. change (s_log s) with (s_log s0). apply (RL o true); auto.
    - injection AS as <-. apply finish_quiet. change (s_log s) with (s_log s0). apply (RL o false); auto. }
  pose proof (call_i True F (fun _ => SEP) p s0 M I AL (fun _ => FAM)) as C.
  pose proof (call_f p s0 M) as FF.
  destruct (call p s0) as [b L s'|c L s'|s']; try (destruct Q; fail). destruct Q as [-> LG].
  destruct FF as [-> _]. destruct C as (_ & OT & (P & _)).
  assert (AS0 : asks s0 p = Some t) by exact AS. rewrite AS0 in P. destruct P as [P1 P2].
  exists s'. split; [reflexivity|]. split; [exact LG|]. split; [exact P1|]. split; [exact P2|]. exact (others_un _ s s' OT).
Qed.

(** ** C61, second part *)
(** what the process holds is what its locked objects need: one shared lock for every range with a
    locked object, for writing if one of the objects is locked for writing, and no other *)
Definition matched (s : st) : Prop :=
  (forall k w, In (k, w) (held (s_log s)) <->
     (exists o, locked s o /\ key_of (s_obj s o) = k) /\
     (w = true <-> exists o, locked s o /\ key_of (s_obj s o) = k /\ kind s o = WR)) /\
  NoDup (map fst (held (s_log s))).

Lemma matched_of : forall F s, separate F -> Inv True F (s_obj s) (s_stack s) (s_log s) -> honest (s_log s) -> matched s.
Proof.
  intros F s SEP [HG HT] R. destruct (HT Logic.I) as [T1 H1]. destruct (H1 R) as [C P].
  assert (KD : forall l, (forall x y, In x l -> In y l -> key_of (s_obj s x) = key_of (s_obj s y) -> x = y) -> NoDup l ->
    NoDup (map fst (map (desc (s_obj s)) l))).
  { induction l as [|a l IH]; intros U N; cbn; [constructor|]. inversion N; subst. constructor.
    - intros X. apply in_map_iff in X as (h & E & X). apply in_map_iff in X as (z & <- & Z). cbn in E.
      assert (z = a) by (apply U; [now right|now left|exact E]). subst. auto.
    - apply IH; auto. intros x y X Y. apply U; now right. }
  split.
  - intros k w. split.
    + intros I. apply (Permutation_in _ P) in I. apply in_map_iff in I as (o & E & I). injection E as <- <-.
      pose proof (g_st _ _ HG o I) as RO. split; [exists o; split; [apply RO|reflexivity]|]. split.
      * intros W. exists o. split; [apply RO|]. split; [reflexivity|]. unfold kind.
        destruct (o_type (s_obj s o)); try discriminate W; reflexivity.
      * intros (z & L & K & W). destruct (root_of F _ _ z HG T1 L) as (r & IR & _ & KR & WR').
        assert (r = o) by (apply (t_one _ _ _ _ T1); auto; congruence). subst r. rewrite (WR' W). reflexivity.
    + intros [(o & L & K) W]. destruct (root_of F _ _ o HG T1 L) as (r & IR & RR & KR & _).
      apply (Permutation_in _ (Permutation_sym P)). apply in_map_iff. exists r. split; [|exact IR].
      unfold desc. rewrite KR, K. f_equal. destruct w.
      * destruct (proj1 W eq_refl) as (z & L' & K' & W'). destruct (root_of F _ _ z HG T1 L') as (r' & IR' & _ & KR' & WR').
        assert (r' = r) by (apply (t_one _ _ _ _ T1); auto; congruence). subst r'. rewrite (WR' W'). reflexivity.
      * destruct (is_wr (o_type (s_obj s r))) eqn:E; [|reflexivity]. exfalso.
        assert (false = true); [|discriminate]. apply W. exists r. split; [apply RR|]. split; [congruence|].
        unfold kind. destruct (o_type (s_obj s r)); try discriminate E; reflexivity.
  - apply (Permutation_NoDup (l := map fst (map (desc (s_obj s)) (s_stack s)))).
    + apply Permutation_map. symmetry. exact P.
    + apply KD; [apply (t_one _ _ _ _ T1)|apply (g_nd _ _ HG)].
Qed.

(** every request is in order, and what is held is matched, if held locks can be released *)
Theorem C61_balanced_partial : forall F s, separate F -> reach (in_family F) s -> honest (s_log s) ->
  clean (s_log s) /\ matched s /\ ((forall o, ~ locked s o) -> held (s_log s) = []).
Proof.
  intros F s SEP R RO. pose proof (reach_T F s SEP R RO) as I.
  pose proof (matched_of F s SEP I RO) as MT. split; [|split; [exact MT|]].
  - destruct I as [_ HT]. destruct (HT Logic.I) as [_ H1]. apply (H1 RO).
  - intros N. destruct (held (s_log s)) as [|[k w] r] eqn:E; [reflexivity|exfalso].
    destruct MT as [MT _]. destruct (proj1 (MT k w)) as [(o & L & _) _]; [rewrite E; now left|]. exact (N o L).
Qed.
(** also inside a call: no thread asks for a range it has a part of, and it releases only what it has *)
Theorem C61_waiting_partial : forall F s p answers c L s', separate F -> reach (in_family F) s -> allowed p s = true ->
  in_family F s p true s -> call p (set_ans s answers) = Wait c L s' -> honest (s_log s') ->
  clean (s_log s') /\ proper (held (s_log s')) c.
Proof.
  intros F s p answers c L s' SEP R A FAM E RO.
  pose proof (call_l p (set_ans s answers)) as GR. rewrite E in GR. cbn in GR.
  pose proof (reach_T F s SEP R (honest_grow _ _ GR RO)) as I.
  pose proof (call_i True F (fun _ => SEP) p (set_ans s answers) (reach_mtx _ _ R) I A (fun _ => FAM)) as C.
  rewrite E in C. exact (C Logic.I RO).
Qed.

(** ** C61: with a release that fails the balance is lost *)
Definition C61_balanced_statement : Prop :=
  forall F s, separate F -> reach (in_family F) s -> (forall o, ~ locked s o) -> held (s_log s) = [].

(** locked objects among the first numbers, the others not touched *)
Lemma run_rest : forall fam l s s' z, runF fam l s = Some s' -> reach (orderly (fun k => In k fam)) s ->
  separate (fun k => In k fam) -> (forall q, In q (map fst l) -> target q <> z) -> locked s' z -> locked s z.
Proof.
  induction l as [|[p a] r IH]; intros s s' z E R SEP N L; cbn in E; [injection E as <-; exact L|].
  destruct (allowed p s && famb fam s p) eqn:A; [|discriminate E]. apply andb_true_iff in A as [A B].
  destruct (call p (set_ans s a)) as [b L0 s1|c L0 s1|s1] eqn:C; try discriminate E.
  destruct (delb p b) eqn:D; [|discriminate E].
  assert (R1 : reach (orderly (fun k => In k fam)) s1).
  { apply (reach_call _ s p a b L0 s1 R A C). split; [now apply famb_ok|]. destruct p; cbn in *; auto. }
  assert (L1 : locked s1 z) by (apply (IH s1 s' z E R1 SEP); auto; intros q Q; apply N; now right).
  pose proof (call_i True (fun k => In k fam) (fun _ => SEP) p (set_ans s a) (reach_mtx _ _ R)
    (orderly_inv _ s SEP R) A (fun _ => famb_ok fam s p true s B)) as CI.
  rewrite C in CI. destruct CI as (_ & OT & _).
  assert (NZ : z <> target p) by (intros ->; apply (N p); [now left|reflexivity]).
  destruct (OT z NZ) as (_ & _ & X & _). unfold locked in *. cbn in X. congruence.
Qed.

Definition lost_release : list (op * list Z) :=
  [(ONew 1 1 3 0 10, []); (ONew 2 1 3 0 10, []);
   (ORead 1, [0]); (OWrite 2, [1; 0]); (OUnlock 2, []); (OUnlock 1, [0])].

Theorem C61_balanced_refuted : ~ C61_balanced_statement.
Proof.
  intros H. destruct (runF [kA; kB] lost_release init_s) as [s|] eqn:E.
  2:{ assert (X : match runF [kA; kB] lost_release init_s with Some _ => true | None => false end = true) by (vm_compute; reflexivity).
      rewrite E in X. discriminate X. }
  pose proof (runF_reach _ _ _ _ E (reach_init _)) as R.
  assert (HD : held (s_log s) <> []).
  { assert (X : option_map (fun s => held (s_log s)) (runF [kA; kB] lost_release init_s) = Some [(kA, false)]) by (vm_compute; reflexivity).
    rewrite E in X. cbn [option_map] in X. injection X as X. rewrite X. intro Q; discriminate Q. }
  apply HD. apply (H (fun k => In k [kA; kB]) s fam2).
  - apply (reach_weak (orderly (fun k => In k [kA; kB]))); [|exact R]. intros a b c d [Q _]. exact Q.
  - intros o L.
    assert (X : option_map (fun s => (o_locked (s_obj s 1), o_locked (s_obj s 2))) (runF [kA; kB] lost_release init_s) = Some (false, false))
      by (vm_compute; reflexivity).
    rewrite E in X. cbn [option_map] in X. injection X as X1 X2.
    destruct (Z.eq_dec o 1) as [->|N1]; [unfold locked in L; congruence|].
    destruct (Z.eq_dec o 2) as [->|N2]; [unfold locked in L; congruence|].
    assert (Q : locked init_s o); [|discriminate Q].
    apply (run_rest [kA; kB] lost_release init_s s o E (reach_init _) fam2); [|exact L].
    intros q I. cbn in I. destruct I as [<-|[<-|[<-|[<-|[<-|[<-|[]]]]]]]; cbn; auto.
Qed.

(** ** C62 *)
Definition C62_statement : Prop :=
  forall s o, reach anything s -> honest (s_log s) -> locked s o ->
    exists k w, In (k, w) (held (s_log s)) /\ covers k (key_of (s_obj s o)).

Definition nested_ranges : list (op * list Z) :=
  [(ONew 1 1 3 0 10, []); (ONew 2 1 3 5 20, []); (ORead 1, [0]); (ORead 2, [])].

(** [5,25) is locked through an object whose shared lock ends at 10 *)
Theorem C62_refuted : ~ C62_statement.
Proof.
  intros H. destruct (run nested_ranges init_s) as [s|] eqn:E.
  2:{ assert (X : match run nested_ranges init_s with Some _ => true | None => false end = true) by (vm_compute; reflexivity).
      rewrite E in X. discriminate X. }
  assert (X : option_map (fun s => (s_log s, o_locked (s_obj s 2), key_of (s_obj s 2))) (run nested_ranges init_s) =
    Some ([(SRead 1 3 0 10, 0)], true, Key 1 3 5 20)) by (vm_compute; reflexivity).
  rewrite E in X. cbn [option_map] in X. injection X as X1 X2 X3 X4 X5 X6.
  destruct (H s 2 (run_reach _ _ _ E (reach_init _))) as (k & w & I & C).
  - rewrite X1. cbn. auto.
  - exact X2.
  - rewrite X1 in I. cbn in I. destruct I as [I|[]]. injection I as <- <-.
    destruct C as (_ & _ & C). specialize (C 15). cbn in C. rewrite X5, X6 in C. lia.
Qed.

(** with equal or disjoint ranges: held, and for writing if locked so *)
Theorem C62_partial : forall F s o, separate F -> reach (in_family F) s -> honest (s_log s) -> locked s o ->
  exists w, In (key_of (s_obj s o), w) (held (s_log s)) /\ covers (key_of (s_obj s o)) (key_of (s_obj s o)) /\
            (kind s o = WR -> w = true).
Proof.
  intros F s o SEP R RO L. pose proof (reach_T F s SEP R RO) as I.
  destruct I as [HG HT]. destruct (HT Logic.I) as [T1 H1]. destruct (H1 RO) as [C P].
  destruct (root_of F _ _ o HG T1 L) as (r & IR & RR & KR & WR').
  exists (is_wr (o_type (s_obj s r))). split; [|split].
  - apply (Permutation_in _ (Permutation_sym P)). apply in_map_iff. exists r. split; [unfold desc; rewrite KR; reflexivity|exact IR].
  - split; [reflexivity|]. split; [reflexivity|]. auto.
  - intros W. unfold kind in W. rewrite (WR' W). reflexivity.
Qed.

(** ** C88: a call gets stuck on the mutex of its own process *)
Definition C88_statement : Prop :=
  forall s p answers s', reach anything s -> allowed p s = true -> call p (set_ans s answers) <> Hang s'.

Definition one_reader : list (op * list Z) := [(ONew 1 1 3 0 10, []); (ONew 2 1 3 0 10, []); (ORead 1, [0])].

(** object 1 reads; object 2 asks for writing: the reader's lock is given up, the write lock refused *)
Theorem C88_stuck_refuted : ~ C88_statement.
Proof.
  intros H. destruct (run one_reader init_s) as [s|] eqn:E.
  2:{ assert (X : match run one_reader init_s with Some _ => true | None => false end = true) by (vm_compute; reflexivity).
      rewrite E in X. discriminate X. }
  assert (A : option_map (allowed (OWrite 2)) (run one_reader init_s) = Some true) by (vm_compute; reflexivity).
  rewrite E in A. cbn [option_map] in A. apply some_inj in A.
  assert (X : option_map (fun s => match call (OWrite 2) (set_ans s [0; 1]) with Hang _ => true | _ => false end)
    (run one_reader init_s) = Some true) by (vm_compute; reflexivity).
  rewrite E in X. cbn [option_map] in X. apply some_inj in X.
  destruct (call (OWrite 2) (set_ans s [0; 1])) as [b L s'|c L s'|s'] eqn:C; try discriminate X.
  exact (H s (OWrite 2) [0; 1] s' (run_reach _ _ _ E (reach_init _)) A C).
Qed.

(** only after a write request was refused by the shared lock layer *)
Theorem C88_stuck_partial : forall ok s p answers s', reach ok s ->
  call p (set_ans s answers) = Hang s' -> write_refused (s_log s').
Proof.
  intros ok s p answers s' R E. pose proof (call_f p (set_ans s answers) (reach_mtx _ _ R)) as H. rewrite E in H. exact H.
Qed.
(** and a call that gets stuck was asked for a write lock *)
Lemma reads_dont_hang : forall o L s s', s_mtx s = L -> finish (RawReadLock o L s) <> Hang s'.
Proof.
  intros o L s s' M E. pose proof (finish_f (fun _ => False) _ (rawread_m o L s M)) as H. rewrite E in H. exact H.
Qed.
Theorem C88_readers_never_stuck : forall ok s p answers s', reach ok s -> asks s p <> Some WR ->
  call p (set_ans s answers) <> Hang s'.
Proof.
  intros ok s p answers s' R A E. pose proof (reach_mtx _ _ R) as M.
  assert (U : forall o s s', s_mtx s = false -> finish (RawUnlock o false s) <> Hang s').
  { intros o s0 s0' M0 E0. pose proof (finish_f (fun _ => False) _ (rawunlock_m o false s0 M0)) as H. rewrite E0 in H. exact H. }
  destruct p as [o tid fd off len|o tid fd off len rd|o|o fd off len rd|o rd|o|o|o|o]; cbn [call asks] in *.
  - discriminate E.
  - destruct (fd =? FLCK_INVALID_HANDLE); [discriminate E|]. destruct rd; [|elim A; reflexivity].
    cbv zeta in E. cbn [RawLock] in E. refine (reads_dont_hang _ _ _ _ _ E). exact M.
  - destruct (finish (RawUnlock o false (set_ans s answers))) as [b L s1|c L s1|s1] eqn:X; cbn [bind] in E; try discriminate E.
    exact (U o (set_ans s answers) _ M X).
  - destruct rd; [|elim A; reflexivity]. cbn [RawLock] in E.
    pose proof (rawunlock_m o false (set_ans s answers) M) as MU.
    destruct (RawUnlock o false (set_ans s answers)) as [b L s1|c L s1|s1]; cbn [bind] in E.
    + destruct b; cbn [negb] in E.
      * refine (reads_dont_hang _ _ _ _ _ E). exact MU.
      * unfold finish in E. cbn [bind] in E. unfold stack_unlock in E. destruct L; discriminate E.
    + discriminate E.
    + exact MU.
  - destruct rd; [|elim A; reflexivity]. cbn [RawLock] in E. refine (reads_dont_hang _ _ _ _ _ E). exact M.
  - change (o_type (s_obj (set_ans s answers) o)) with (kind s o) in E. destruct (kind s o).
    + discriminate E.
    + refine (reads_dont_hang _ _ _ _ _ E). exact M.
    + elim A; reflexivity.
  - refine (reads_dont_hang _ _ _ _ _ E). exact M.
  - elim A; reflexivity.
  - exact (U o (set_ans s answers) _ M E).
Qed.

(** ** C89: destroyed objects *)
Definition C89_statement : Prop := forall s o, reach anything s -> refers s o -> o_alive (s_obj s o) = true.
Definition failed_destructor : list (op * list Z) := [(ONew 1 1 3 0 10, []); (ORead 1, [0]); (ODel 1, [1])].

Theorem C89_dangling_refuted : ~ C89_statement.
Proof.
  intros H. destruct (run failed_destructor init_s) as [s|] eqn:E.
  2:{ assert (X : match run failed_destructor init_s with Some _ => true | None => false end = true) by (vm_compute; reflexivity).
      rewrite E in X. discriminate X. }
  assert (X : option_map (fun s => (s_stack s, o_alive (s_obj s 1))) (run failed_destructor init_s) = Some ([1], false)) by (vm_compute; reflexivity).
  rewrite E in X. cbn [option_map] in X. injection X as X1 X2.
  assert (D : o_alive (s_obj s 1) = true); [|congruence].
  apply (H s 1 (run_reach _ _ _ E (reach_init _))). left. rewrite X1. now left.
Qed.

Theorem C89_dangling_partial : forall s o, reach clean_destruction s -> refers s o -> o_alive (s_obj s o) = true.
Proof.
  intros s o R H. pose proof (reach_G s R) as HG. destruct H as [I|(x & A & [I|E])].
  - apply (g_st _ _ HG o I).
  - destruct (g_pe _ _ HG x o I) as [_ C]. apply C.
  - destruct (o_locked (s_obj s x)) eqn:L.
    + destruct (g_lo _ _ HG x L) as [(_ & _ & _ & X & _)|(y & (_ & _ & _ & X & _) & J)]; [congruence|].
      assert (y = o) by congruence. subst y. apply (g_pe _ _ HG o x J).
    + destruct (g_un _ _ HG x L) as (_ & _ & X & _). congruence.
Qed.

(** ** C90: the list of lock objects is accessed under its mutex only *)
Definition C90_statement : Prop :=
  forall s p answers, reach anything s -> allowed p s = true -> s_race (reached (call p (set_ans s answers))) = false.
Definition reader_alone : list (op * list Z) := [(ONew 1 1 3 0 10, []); (ORead 1, [0])].

Theorem C90_race_refuted : ~ C90_statement.
Proof.
  intros H. destruct (run reader_alone init_s) as [s|] eqn:E.
  2:{ assert (X : match run reader_alone init_s with Some _ => true | None => false end = true) by (vm_compute; reflexivity).
      rewrite E in X. discriminate X. }
  assert (A : option_map (allowed (OWrite 1)) (run reader_alone init_s) = Some true) by (vm_compute; reflexivity).
  rewrite E in A. cbn [option_map] in A. apply some_inj in A.
  assert (X : option_map (fun s => s_race (reached (call (OWrite 1) (set_ans s [0; 0])))) (run reader_alone init_s) = Some true) by (vm_compute; reflexivity).
  rewrite E in X. cbn [option_map] in X. apply some_inj in X.
  rewrite (H s (OWrite 1) [0; 0] (run_reach _ _ _ E (reach_init _)) A) in X. discriminate X.
Qed.

Definition plain (s : st) (p : op) (b : bool) (s' : st) : Prop := no_conversion s p.
Theorem C90_race_partial : forall s p answers, reach plain s -> no_conversion s p ->
  s_race (reached (call p (set_ans s answers))) = false.
Proof.
  assert (Q : forall s, reach plain s -> s_race s = false).
  { intros s R. induction R as [|s p answers b L s' R IH A E O]; [reflexivity|].
    pose proof (call_r p (set_ans s answers) (reach_mtx _ _ R) O) as H. rewrite E in H. cbn in H. congruence. }
  intros s p answers R NC. rewrite (call_r p (set_ans s answers) (reach_mtx _ _ R) NC). exact (Q s R).
Qed.

(** ** C91: nobody waits for a shared lock, or leaves a call, with the mutex held *)
Theorem C91_mutex_free : forall ok s p answers, reach ok s ->
  match call p (set_ans s answers) with
  | Ret _ _ s' | Wait _ _ s' => s_mtx s' = false
  | Hang _ => True
  end.
Proof.
  intros ok s p answers R. pose proof (call_f p (set_ans s answers) (reach_mtx _ _ R)) as H.
  destruct (call p (set_ans s answers)); [apply H|apply H|exact Logic.I].
Qed.

(** ** C92: a refused change of the kind of lock *)
Definition C92_statement : Prop :=
  forall s p t answers L s', reach anything s -> allowed p s = true -> asks s p = Some t ->
    match p with ONewLock _ _ _ _ _ _ | OLockAt _ _ _ _ _ => False | _ => True end ->
    locked s (target p) -> call p (set_ans s answers) = Ret false L s' -> locked s' (target p).

Theorem C92_upgrade_refuted : ~ C92_statement.
Proof.
  intros H. destruct (run reader_alone init_s) as [s|] eqn:E.
  2:{ assert (X : match run reader_alone init_s with Some _ => true | None => false end = true) by (vm_compute; reflexivity).
      rewrite E in X. discriminate X. }
  assert (A : option_map (fun s => (allowed (OWrite 1) s, o_locked (s_obj s 1))) (run reader_alone init_s) = Some (true, true)) by (vm_compute; reflexivity).
  rewrite E in A. cbn [option_map] in A. injection A as A1 A2.
  assert (X : option_map (fun s => match call (OWrite 1) (set_ans s [0; 1]) with Ret false _ s' => Some (o_locked (s_obj s' 1)) | _ => None end)
    (run reader_alone init_s) = Some (Some false)) by (vm_compute; reflexivity).
  rewrite E in X. cbn [option_map] in X. apply some_inj in X.
  destruct (call (OWrite 1) (set_ans s [0; 1])) as [[|] L s'|c L s'|s'] eqn:C; try discriminate X. apply some_inj in X.
  assert (Q : locked s' 1); [|unfold locked in Q; congruence].
  exact (H s (OWrite 1) WR [0; 1] L s' (run_reach _ _ _ E (reach_init _)) A1 eq_refl Logic.I A2 C).
Qed.

Lemma call_any : forall s p answers, reach clean_destruction s -> allowed p s = true ->
  cres False (fun _ => True) p (set_ans s answers) (call p (set_ans s answers)).
Proof.
  intros s p answers R A. apply call_i.
  - intros [].
  - exact (reach_mtx _ _ R).
  - split; [exact (reach_G s R)|intros []].
  - exact A.
  - intros [].
Qed.

(** a failing lock call leaves its object unlocked, unless a release failed *)
Theorem C92_upgrade_partial : forall s p t answers L s', reach clean_destruction s -> allowed p s = true ->
  asks s p = Some t -> call p (set_ans s answers) = Ret false L s' ->
  (~ locked s' (target p) \/ ~ releases_ok (s_log s')) /\ unaffected (target p) s s'.
Proof.
  intros s p t answers L s' R A AS E. pose proof (call_any s p answers R A) as C. rewrite E in C.
  destruct C as (_ & OT & (P & _)).
  assert (AS0 : asks (set_ans s answers) p = Some t) by exact AS. rewrite AS0 in P.
  split; [|exact (others_un _ s s' OT)]. destruct P as [P|[P _]]; auto.
Qed.

(** ** C93: calls on one object leave the others alone *)
Theorem C93_others : forall s p answers b L s', reach clean_destruction s -> allowed p s = true ->
  call p (set_ans s answers) = Ret b L s' -> unaffected (target p) s s'.
Proof.
  intros s p answers b L s' R A E. pose proof (call_any s p answers R A) as C. rewrite E in C.
  destruct C as (_ & OT & _). exact (others_un _ s s' OT).
Qed.

(** ** C94: the results of the calls *)
Theorem C94_lock_result : forall s p t answers L s', reach clean_destruction s -> allowed p s = true ->
  asks s p = Some t -> call p (set_ans s answers) = Ret true L s' ->
  locked s' (target p) /\ (t = WR -> kind s' (target p) = WR).
Proof.
  intros s p t answers L s' R A AS E. pose proof (call_any s p answers R A) as C. rewrite E in C.
  destruct C as (_ & _ & (P & _)).
  assert (AS0 : asks (set_ans s answers) p = Some t) by exact AS. rewrite AS0 in P. exact P.
Qed.
Theorem C94_unlock_result : forall s o answers b L s', reach clean_destruction s -> allowed (OUnlock o) s = true ->
  call (OUnlock o) (set_ans s answers) = Ret b L s' ->
  (b = true -> ~ locked s' o) /\ (releases_ok (s_log s') -> b = true).
Proof.
  intros s o answers b L s' R A E. pose proof (call_any s (OUnlock o) answers R A) as C. rewrite E in C.
  destruct C as (_ & _ & (_ & P & _)). cbn in P. destruct b.
  - split; auto.
  - split; [intro X; discriminate X|]. intros Q. elim (proj1 P Q).
Qed.

(** where held locks can be released and the ranges are equal or disjoint, unlocking succeeds *)
Theorem C94_unlock_honest : forall F s o answers b L s', separate F -> reach (in_family F) s -> allowed (OUnlock o) s = true ->
  call (OUnlock o) (set_ans s answers) = Ret b L s' -> honest (s_log s') -> b = true.
Proof.
  intros F s o answers b L s' SEP R A E RO.
  pose proof (call_l (OUnlock o) (set_ans s answers)) as GR. rewrite E in GR. cbn in GR.
  pose proof (reach_T F s SEP R (honest_grow _ _ GR RO)) as I.
  pose proof (call_i True F (fun _ => SEP) (OUnlock o) (set_ans s answers) (reach_mtx _ _ R) I A (fun _ => Logic.I)) as C.
  rewrite E in C. destruct C as (_ & _ & (_ & P & _)). cbn in P. destruct b; [reflexivity|].
  elim (proj2 P Logic.I RO).
Qed.

(** ** C95: whatever the ranges, an object can be unlocked and only held locks are released *)
Definition C95_statement : Prop :=
  forall s o answers b L s', reach clean_destruction s -> allowed (OUnlock o) s = true ->
    call (OUnlock o) (set_ans s answers) = Ret b L s' -> honest (s_log s') -> b = true /\ clean (s_log s').

(** objects 1 and 2 read [0,10) and [20,30), object 3 writes [5,25) and is unlocked first *)
Definition crossing : list (op * list Z) :=
  [(ONew 1 1 3 0 10, []); (ONew 2 1 3 20 10, []); (ONew 3 1 3 5 20, []);
   (ORead 1, [0]); (ORead 2, [0]); (OWrite 3, [0; 0; 0]); (OUnlock 3, []); (OUnlock 1, [])].

Lemma run_reach_c : forall l s s', run l s = Some s' -> (forall q, In q (map fst l) -> match q with ODel _ => False | _ => True end) ->
  reach clean_destruction s -> reach clean_destruction s'.
Proof.
  induction l as [|[p a] r IH]; intros s s' E N R; cbn in E; [injection E as <-; exact R|].
  destruct (allowed p s) eqn:A; [|discriminate E].
  destruct (call p (set_ans s a)) as [b L s1|c L s1|s1] eqn:C; try discriminate E.
  apply (IH s1 s' E); [intros q Q; apply N; now right|].
  apply (reach_call _ s p a b L s1 R A C). specialize (N p (or_introl eq_refl)). destruct p; cbn; auto; destruct N.
Qed.

(** object 2 has become the holder of the write lock of [5,25) and asks to release [20,30), which is not
    held; the layer says EINVAL, and no object can release [5,25) any more *)
Theorem C95_crossing_refuted : ~ C95_statement.
Proof.
  intros H. destruct (run crossing init_s) as [s|] eqn:E.
  2:{ assert (X : match run crossing init_s with Some _ => true | None => false end = true) by (vm_compute; reflexivity).
      rewrite E in X. discriminate X. }
  assert (ND : forall q, In q (map fst crossing) -> match q with ODel _ => False | _ => True end).
  { intros q I. cbn in I. repeat (destruct I as [<-|I]; [exact Logic.I|]). destruct I. }
  assert (A : option_map (allowed (OUnlock 2)) (run crossing init_s) = Some true) by (vm_compute; reflexivity).
  rewrite E in A. cbn [option_map] in A. apply some_inj in A.
  assert (X : option_map (fun s => match call (OUnlock 2) (set_ans s [EINVAL]) with Ret b _ s' => Some (b, s_log s') | _ => None end)
    (run crossing init_s) = Some (Some (false, [(SUnlock 1 3 20 10, EINVAL); (SWrite 1 3 5 20, 0); (SUnlock 1 3 20 10, 0);
      (SUnlock 1 3 0 10, 0); (SRead 1 3 20 10, 0); (SRead 1 3 0 10, 0)]))) by (vm_compute; reflexivity).
  rewrite E in X. cbn [option_map] in X. apply some_inj in X.
  destruct (call (OUnlock 2) (set_ans s [EINVAL])) as [b L s'|c L s'|s'] eqn:C; try discriminate X. apply some_inj in X.
  assert (X1 : b = false) by exact (f_equal fst X). pose proof (f_equal snd X) as X2. cbn [snd] in X2.
  destruct (H s 2 [EINVAL] b L s' (run_reach_c _ _ _ E ND (reach_init _)) A C) as [Q _]; [|congruence].
  rewrite X2. cbn -[EINVAL]. repeat split. intros (w & [I|[]]). discriminate I.
Qed.

(** with equal or disjoint ranges *)
Theorem C95_crossing_partial : forall F s o answers b L s', separate F -> reach (in_family F) s -> allowed (OUnlock o) s = true ->
  call (OUnlock o) (set_ans s answers) = Ret b L s' -> honest (s_log s') -> b = true /\ clean (s_log s').
Proof.
  intros F s o answers b L s' SEP R A E RO. split; [exact (C94_unlock_honest F s o answers b L s' SEP R A E RO)|].
  apply (C61_balanced_partial F s'); auto. apply (reach_call _ s (OUnlock o) answers b L s' R A E). exact Logic.I.
Qed.

(** ** Cases *)
Ltac exec l s E :=
  destruct (runF [kA; kB] l init_s) as [s|] eqn:E;
  [|exfalso; assert (X0 : match runF [kA; kB] l init_s with Some _ => true | None => false end = true) by (vm_compute; reflexivity);
    rewrite E in X0; discriminate X0].
Ltac look l E f v X :=
  assert (X : option_map f (runF [kA; kB] l init_s) = Some v) by (vm_compute; reflexivity);
  rewrite E in X; cbn [option_map] in X; apply some_inj in X.
Ltac byrun E := exact (runF_reach _ _ _ _ E (reach_init _)).
Notation two := (fun k => In k [kA; kB]).

(** writer on A, then a reader on A and a writer on A: no further request; unlocking the writer hands
    its shared lock on *)
Definition case1 : list (op * list Z) :=
  [(ONew 1 1 3 0 10, []); (ONew 2 1 3 0 10, []); (ONew 3 1 3 10 10, []); (OWrite 1, [0]); (ORead 3, [0])].
Definition case2 : list (op * list Z) := case1 ++ [(ORead 2, []); (OUnlock 1, [])].

Example C61_nested_case : exists s, reach (orderly two) s /\ allowed (ORead 2) s = true /\ asks s (ORead 2) = Some RD /\
  in_family two s (ORead 2) true s /\ locked s 1 /\ kind s 1 = WR /\ key_of (s_obj s 1) = wanted s (ORead 2) /\
  held (s_log s) = [(kB, false); (kA, true)] /\
  exists s', call (ORead 2) (set_ans s []) = Ret true false s' /\ s_log s' = s_log s.
Proof.
  exec case1 s E. exists s.
  look case1 E (fun s => (allowed (ORead 2) s, o_locked (s_obj s 1), o_type (s_obj s 1), key_of (s_obj s 1), key_of (s_obj s 2), held (s_log s)))
    (true, true, WR, kA, kA, [(kB, false); (kA, true)]) X.
  assert (R : reach (orderly two) s) by byrun E.
  assert (X1 : allowed (ORead 2) s = true) by exact (f_equal (fun x => fst (fst (fst (fst (fst x))))) X).
  assert (X2 : locked s 1) by exact (f_equal (fun x => snd (fst (fst (fst (fst x))))) X).
  assert (X3 : kind s 1 = WR) by exact (f_equal (fun x => snd (fst (fst (fst x)))) X).
  assert (X4 : key_of (s_obj s 1) = kA) by exact (f_equal (fun x => snd (fst (fst x))) X).
  assert (X5 : key_of (s_obj s 2) = kA) by exact (f_equal (fun x => snd (fst x)) X).
  assert (X6 : held (s_log s) = [(kB, false); (kA, true)]) by exact (f_equal (fun x => snd x) X).
  assert (FA : in_family two s (ORead 2) true s) by (cbn; left; symmetry; exact X5).
  assert (KW : key_of (s_obj s 1) = wanted s (ORead 2)) by (rewrite X4; symmetry; exact X5).
  repeat (split; [assumption || reflexivity|]).
  assert (N : 1 <> 2) by (intro Q; discriminate Q). assert (W : RD = WR -> kind s 1 = WR) by (intros _; exact X3).
  destruct (C61_nested two s (ORead 2) RD 1 fam2 R X1 eq_refl FA N X2 KW W Logic.I) as (s' & C & LG & _).
  exists s'. split; assumption.
Qed.

(** object 2, a reader, is left with the shared write lock of A *)
Example C61_balanced_case : exists s, reach (orderly two) s /\ honest (s_log s) /\ locked s 2 /\ ~ locked s 1 /\
  kind s 2 = WR /\ held (s_log s) = [(kB, false); (kA, true)].
Proof.
  exec case2 s E. exists s.
  look case2 E (fun s => (s_log s, o_locked (s_obj s 2), o_locked (s_obj s 1), o_type (s_obj s 2)))
    ([(SRead 1 3 10 10, 0); (SWrite 1 3 0 10, 0)], true, false, WR) X.
  assert (X1 : s_log s = [(SRead 1 3 10 10, 0); (SWrite 1 3 0 10, 0)]) by exact (f_equal (fun x => fst (fst (fst x))) X).
  assert (X2 : locked s 2) by exact (f_equal (fun x => snd (fst (fst x))) X).
  assert (X3 : o_locked (s_obj s 1) = false) by exact (f_equal (fun x => snd (fst x)) X).
  assert (X4 : kind s 2 = WR) by exact (f_equal (fun x => snd x) X).
  rewrite X1. split; [byrun E|]. split; [cbn; auto|]. split; [exact X2|]. split; [unfold locked; congruence|].
  split; [exact X4|reflexivity].
Qed.

(** after everything is unlocked nothing is held; four requests were made *)
Example C61_given_back_case : exists s, reach (orderly two) s /\ honest (s_log s) /\ length (s_log s) = 4%nat /\
  held (s_log s) = [] /\ s_stack s = [].
Proof.
  exec (case2 ++ [(OUnlock 3, [0]); (OUnlock 2, [0])]) s E. exists s.
  look (case2 ++ [(OUnlock 3, [0]); (OUnlock 2, [0])]) E (fun s => (s_log s, s_stack s))
    ([(SUnlock 1 3 0 10, 0); (SUnlock 1 3 10 10, 0); (SRead 1 3 10 10, 0); (SWrite 1 3 0 10, 0)], @nil Z) X.
  assert (X1 : s_log s = _) by exact (f_equal fst X). assert (X2 : s_stack s = _) by exact (f_equal snd X). cbn in X1, X2.
  rewrite X1, X2. split; [byrun E|]. split; [cbn; auto|]. auto.
Qed.

(** a call inside the shared layer: asking for B while A is held *)
Example C61_waiting_case : exists s c L s', reach (orderly two) s /\ allowed (OWrite 3) s = true /\
  call (OWrite 3) (set_ans s []) = Wait c L s' /\ c = SWrite 1 3 10 10 /\ held (s_log s') = [(kA, false)] /\ s_mtx s' = false.
Proof.
  pose (l := [(ONew 1 1 3 0 10, []); (ONew 3 1 3 10 10, []); (ORead 1, [0])] : list (op * list Z)).
  exec l s E.
  look l E (fun s => (allowed (OWrite 3) s, match call (OWrite 3) (set_ans s []) with Wait c L s' => Some (c, held (s_log s'), s_mtx s') | _ => None end))
    (true, Some (SWrite 1 3 10 10, [(kA, false)], false)) X.
  assert (X1 : allowed (OWrite 3) s = true) by exact (f_equal fst X). pose proof (f_equal snd X) as X2. cbn [snd] in X2.
  destruct (call (OWrite 3) (set_ans s [])) as [b L s'|c L s'|s'] eqn:C; try discriminate X2. apply some_inj in X2.
  exists s, c, L, s'. split; [byrun E|]. split; [exact X1|]. split; [exact C|].
  split; [exact (f_equal (fun x => fst (fst x)) X2)|]. split; [exact (f_equal (fun x => snd (fst x)) X2)|].
  exact (f_equal snd X2).
Qed.

(** a refused upgrade in orderly use: the object has lost its read lock, the other reader kept its own *)
Example C92_case : exists s s', reach (orderly two) s /\ locked s 1 /\ locked s 3 /\
  call (OWrite 1) (set_ans s [0; EAGAIN]) = Ret false false s' /\ ~ locked s' 1 /\ locked s' 3 /\ releases_ok (s_log s').
Proof.
  pose (l := [(ONew 1 1 3 0 10, []); (ONew 3 1 3 10 10, []); (ORead 3, [0]); (ORead 1, [0])] : list (op * list Z)).
  exec l s E.
  look l E (fun s => (o_locked (s_obj s 1), o_locked (s_obj s 3), match call (OWrite 1) (set_ans s [0; EAGAIN]) with
      Ret b L s' => Some (b, L, o_locked (s_obj s' 1), o_locked (s_obj s' 3), s_log s') | _ => None end))
    (true, true, Some (false, false, false, true, [(SWrite 1 3 0 10, EAGAIN); (SUnlock 1 3 0 10, 0); (SRead 1 3 0 10, 0); (SRead 1 3 10 10, 0)])) X.
  assert (X1 : locked s 1) by exact (f_equal (fun x => fst (fst x)) X).
  assert (X2 : locked s 3) by exact (f_equal (fun x => snd (fst x)) X). pose proof (f_equal snd X) as X3. cbn [snd] in X3.
  destruct (call (OWrite 1) (set_ans s [0; EAGAIN])) as [b L s'|c L s'|s'] eqn:C; try discriminate X3. apply some_inj in X3.
  assert (Y1 : b = false) by exact (f_equal (fun x => fst (fst (fst (fst x)))) X3).
  assert (Y2 : L = false) by exact (f_equal (fun x => snd (fst (fst (fst x)))) X3).
  assert (Y3 : o_locked (s_obj s' 1) = false) by exact (f_equal (fun x => snd (fst (fst x))) X3).
  assert (Y4 : locked s' 3) by exact (f_equal (fun x => snd (fst x)) X3).
  pose proof (f_equal snd X3) as Y5. cbn [snd] in Y5. subst b L.
  exists s, s'. split; [byrun E|]. split; [exact X1|]. split; [exact X2|]. split; [exact C|].
  split; [unfold locked; congruence|]. split; [exact Y4|]. rewrite Y5. intros t f o n a I. cbn in I.
  destruct I as [I|[I|[I|[I|[]]]]]; congruence.
Qed.

(** an upgrade through a second object: two requests, then both objects are served by the write lock *)
Example C94_case : exists s s', reach (orderly two) s /\ asks s (OWrite 2) = Some WR /\ locked s 1 /\ kind s 1 = RD /\
  call (OWrite 2) (set_ans s [0; 0]) = Ret true false s' /\ locked s' 1 /\ locked s' 2 /\ kind s' 2 = WR /\
  held (s_log s') = [(kA, true)] /\ refers s' 1 /\ o_alive (s_obj s' 1) = true.
Proof.
  pose (l := [(ONew 1 1 3 0 10, []); (ONew 2 1 3 0 10, []); (ORead 1, [0])] : list (op * list Z)).
  exec l s E.
  look l E (fun s => (o_locked (s_obj s 1), o_type (s_obj s 1), match call (OWrite 2) (set_ans s [0; 0]) with
      Ret b L s' => Some (b, L, o_locked (s_obj s' 1), o_locked (s_obj s' 2), o_type (s_obj s' 2), held (s_log s'),
                          (s_stack s', o_pend (s_obj s' 2), o_alive (s_obj s' 1), o_alive (s_obj s' 2))) | _ => None end))
    (true, RD, Some (true, false, true, true, WR, [(kA, true)], ([2], [1], true, true))) X.
  assert (X1 : locked s 1) by exact (f_equal (fun x => fst (fst x)) X).
  assert (X2 : kind s 1 = RD) by exact (f_equal (fun x => snd (fst x)) X). pose proof (f_equal snd X) as X3. cbn [snd] in X3.
  destruct (call (OWrite 2) (set_ans s [0; 0])) as [b L s'|c L s'|s'] eqn:C; try discriminate X3. apply some_inj in X3.
  assert (Y1 : b = true) by exact (f_equal (fun x => fst (fst (fst (fst (fst (fst x)))))) X3).
  assert (Y2 : L = false) by exact (f_equal (fun x => snd (fst (fst (fst (fst (fst x)))))) X3).
  assert (Y3 : locked s' 1) by exact (f_equal (fun x => snd (fst (fst (fst (fst x))))) X3).
  assert (Y4 : locked s' 2) by exact (f_equal (fun x => snd (fst (fst (fst x)))) X3).
  assert (Y5 : kind s' 2 = WR) by exact (f_equal (fun x => snd (fst (fst x))) X3).
  assert (Y6 : held (s_log s') = [(kA, true)]) by exact (f_equal (fun x => snd (fst x)) X3).
  pose proof (f_equal snd X3) as Y7. cbn [snd] in Y7.
  assert (Z1 : o_pend (s_obj s' 2) = [1]) by exact (f_equal (fun x => snd (fst (fst x))) Y7).
  assert (Z2 : o_alive (s_obj s' 1) = true) by exact (f_equal (fun x => snd (fst x)) Y7).
  assert (Z3 : o_alive (s_obj s' 2) = true) by exact (f_equal (fun x => snd x) Y7). subst b L.
  exists s, s'. split; [byrun E|]. repeat (split; [assumption || reflexivity|]). split; [|exact Z2].
  right. exists 2. split; [exact Z3|]. left. rewrite Z1. now left.
Qed.

(** nested reading and unlocking without conversions touches the list under the mutex only *)
Example C90_case : exists s, reach plain s /\ no_conversion s (OUnlock 1) /\ s_stack s = [1] /\
  s_race (reached (call (OUnlock 1) (set_ans s [0]))) = false.
Proof.
  pose (l := [(ONew 1 1 3 0 10, []); (ORead 1, [0])] : list (op * list Z)).
  assert (R : forall l s s', (forall q, In q (map fst l) -> match q with ONew _ _ _ _ _ | OUnlock _ => True | _ => False end) ->
    run l s = Some s' -> reach plain s -> reach plain s').
  { induction l0 as [|[p a] r IH]; intros s s' N E R; cbn in E; [injection E as <-; exact R|].
    destruct (allowed p s) eqn:A; [|discriminate E].
    destruct (call p (set_ans s a)) as [b L s1|c L s1|s1] eqn:C; try discriminate E.
    apply (IH s1 s'); [intros q Q; apply N; now right|exact E|].
    apply (reach_call plain s p a b L s1 R A C). specialize (N p (or_introl eq_refl)). unfold plain, no_conversion. destruct p; auto; destruct N. }
  destruct (run [(ONew 1 1 3 0 10, [])] init_s) as [s0|] eqn:E0; [|discriminate E0].
  assert (X0 : option_map (fun s => (allowed (ORead 1) s, o_locked (s_obj s 1))) (run [(ONew 1 1 3 0 10, [])] init_s) = Some (true, false)) by (vm_compute; reflexivity).
  rewrite E0 in X0. cbn [option_map] in X0. apply some_inj in X0.
  assert (A0 : allowed (ORead 1) s0 = true) by exact (f_equal fst X0).
  assert (U0 : o_locked (s_obj s0 1) = false) by exact (f_equal snd X0).
  assert (X1 : option_map (fun s => match call (ORead 1) (set_ans s [0]) with
     Ret b _ s' => Some (b, s_stack s', s_race (reached (call (OUnlock 1) (set_ans s' [0])))) | _ => None end) (run [(ONew 1 1 3 0 10, [])] init_s) =
     Some (Some (true, [1], false))) by (vm_compute; reflexivity).
  rewrite E0 in X1. cbn [option_map] in X1. apply some_inj in X1.
  destruct (call (ORead 1) (set_ans s0 [0])) as [b L s'|c L s'|s'] eqn:C; try discriminate X1. apply some_inj in X1.
  exists s'. split; [|split; [exact Logic.I|split; [exact (f_equal (fun x => snd (fst x)) X1)|exact (f_equal snd X1)]]].
  apply (reach_call plain s0 (ORead 1) [0] b L s'); auto.
  - apply (R [(ONew 1 1 3 0 10, [])] init_s); auto; [|constructor]. intros q [<-|[]]. exact Logic.I.
  - unfold plain, no_conversion, locked. intros Q. congruence.
Qed.

Print Assumptions C61_nested.
Print Assumptions C61_balanced_partial.
Print Assumptions C61_waiting_partial.
Print Assumptions C61_balanced_refuted.
Print Assumptions C62_refuted.
Print Assumptions C62_partial.
Print Assumptions C88_stuck_refuted.
Print Assumptions C88_stuck_partial.
Print Assumptions C88_readers_never_stuck.
Print Assumptions C89_dangling_refuted.
Print Assumptions C89_dangling_partial.
Print Assumptions C90_race_refuted.
Print Assumptions C90_race_partial.
Print Assumptions C91_mutex_free.
Print Assumptions C92_upgrade_refuted.
Print Assumptions C92_upgrade_partial.
Print Assumptions C93_others.
Print Assumptions C94_lock_result.
Print Assumptions C94_unlock_result.
Print Assumptions C94_unlock_honest.
Print Assumptions C95_crossing_refuted.
Print Assumptions C95_crossing_partial.
