(** Read/write locks with the real list lock and lock words: programs cannot tell them from atomic ones (C124), and
    calls that run alone return within a bounded number of steps (C125). *)
From Coq Require Import ZArith List Bool Lia Arith.
From Verif Require Import Base Range_Model RwWord_Model RwApi_Model RwApi_Spec RwApi_Proofs RwApi_Proofs2 RwApi_Proofs3 RwApi_Props
  RwLin_Spec RwLin_Proofs RwLin_Props Guard_Model Rspin_Model Rspin_Proofs Rspin_Proofs2 Rspin_Proofs3.
Import ListNotations.
Open Scope Z_scope.

Lemma history_reach : forall s0 ok s h, r_history s0 ok s h -> r_reach s0 ok s.
Proof. intros s0 ok s h H. induction H; [constructor | constructor; auto]. Qed.

Section Rspin.
Variables UF UO UL : list Z.
Hypothesis UF_nd : NoDup UF.
Hypothesis UO_nd : NoDup UO.
Hypothesis UL_nd : NoDup UL.
Variable fds : Z -> Z -> option Z.
Variable mode : Z -> fmode.
Variable allow : Z -> bool.
Notation init := (r_init UF UO UL fds mode allow).

(** ** C124 *)
(** on every schedule, every history is one of the machine with atomic primitives, reached in the same state *)
Theorem C124_primitives_not_seen : forall ok z h, z_history init ok z h -> r_history init ok (z_r z) h.
Proof. intros ok z h H. exact (proj1 (spin_sim UF UO UL fds mode allow ok z h H)). Qed.
(** so histories are those of an atomic lock table *)
Theorem C124_linearizable_partial : forall fam z h, equal_or_disjoint fam -> z_history init (regular fam) z h ->
  exists a, tb_history fds a h.
Proof.
  intros fam z h E H. destruct (C112_linearizable_partial UF UO UL UF_nd UO_nd UL_nd fds mode allow fam (z_r z) h E (C124_primitives_not_seen _ z h H)) as (a & A & _).
  exists a. exact A.
Qed.
(** read off the history: locks that are held do not conflict *)
Theorem C124_no_conflict_partial : forall fam z h g1 g2, equal_or_disjoint fam -> z_history init (regular fam) z h ->
  has_lock fds h g1 -> has_lock fds h g2 -> g1 <> g2 -> ~ conflict g1 g2.
Proof.
  intros fam z h g1 g2 E H. apply (C112_no_conflict_in_history_partial UF UO UL UF_nd UO_nd UL_nd fds mode allow fam (z_r z) h g1 g2 E).
  exact (C124_primitives_not_seen _ z h H).
Qed.
(** read off the memory, also with disturbed compare-and-swaps *)
Theorem C124_exclusion : forall fam z h l1 g1 l2 g2, equal_or_disjoint fam ->
  z_history init (both careful (in_family fam)) z h -> holds (z_r z) l1 g1 -> holds (z_r z) l2 g2 -> l1 <> l2 -> ~ conflict g1 g2.
Proof.
  intros fam z h l1 g1 l2 g2 E H. apply (C18_exclusion_equal_or_disjoint UF UO UL UF_nd UO_nd UL_nd fds mode allow fam (z_r z) l1 g1 l2 g2 E).
  exact (history_reach _ _ _ _ (C124_primitives_not_seen _ z h H)).
Qed.
(** locks of holders that are there are not taken away *)
Theorem C124_present_holder_keeps_lock : forall z h ls z' l g,
  z_history init careful z h -> holds (z_r z) l g -> z_path (both careful (keeps g)) z ls z' -> holds (z_r z') l g.
Proof.
  intros z h ls z' l g H HL P. destruct (spin_sim UF UO UL fds mode allow careful z h H) as [R ZI].
  destruct (path_sim _ z ls z' P ZI) as (_ & ls' & P' & _).
  exact (C29_present_holder_keeps_lock UF UO UL UF_nd UO_nd UL_nd fds mode allow (z_r z) ls' (z_r z') l g (history_reach _ _ _ _ R) HL P').
Qed.
(** on every schedule, of the threads that have not died at most one is inside the guarded sections *)
Theorem C124_one_inside : forall ok z h t u, z_history init ok z h -> alive (z_r z) t = true -> alive (z_r z) u = true ->
  crit (r_pc (z_r z) t) = true -> crit (r_pc (z_r z) u) = true -> t = u.
Proof.
  intros ok z h t u H AT AU CT CU. destruct (spin_sim UF UO UL fds mode allow ok z h H) as [_ ZI].
  pose proof (gi_crit _ (zi_gi _ ZI) t AT CT). pose proof (gi_crit _ (zi_gi _ ZI) u AU CU). congruence.
Qed.

(** ** C125 *)
(** thread [t] makes call [c] and runs alone for as many steps as there are decisions about timeouts *)
Definition z_solo (z : zstate) (t : Z) (c : rcall) (cs : list bool) : zstate :=
  fold_left (fun z gu => z_step z (LRun t false gu)) cs (z_step z (LCall t c)).
(** everybody who has not died is outside the library *)
Definition all_quiet (s : rstate) : Prop := forall u, alive s u = true -> idle s u.
Definition returned (s : rstate) (t e : Z) : Prop := idle s t /\ r_res s t = Some e.

(** what a call may need: entries a recovery pass looks at, each file and range twice *)
Definition entries (s : rstate) : nat :=
  list_sum (map (fun f => (2 + list_sum (map (fun o => (2 + (length (o_rd (h_o (r_h s) o)) + length (o_wr (h_o (r_h s) o))))%nat) (f_offs (h_f (r_h s) f))))%nat)
                (h_flist (r_h s))).
(** calls that do not wait for a lock; a timed call counts if its timeouts expire *)
Definition steps_of (s : rstate) (c : rcall) : nat :=
  match c with CLock _ _ _ _ _ => 16 | CUnlockRw _ _ _ => 8 | CIsLocked _ _ _ => 4 | CPass _ => (5 + entries s)%nat end.
Definition does_not_wait (c : rcall) (cs : list bool) : Prop :=
  match c with
  | CLock _ _ _ _ WBlock => False
  | CLock _ _ _ _ WTimed => Forall (fun b => b = true) cs
  | _ => True
  end.

Lemma osz_sum : forall h os, osz h os = list_sum (map (fun o => (2 + (length (o_rd (h_o h o)) + length (o_wr (h_o h o))))%nat) os).
Proof. intros h os. induction os as [|o os IH]; simpl; auto. rewrite IH, lk_len. reflexivity. Qed.
Lemma fsz_sum : forall s, fsz (r_h s) (h_flist (r_h s)) = entries s.
Proof.
  intros s. unfold entries. induction (h_flist (r_h s)) as [|f fs IH]; simpl; auto. rewrite IH, osz_sum. reflexivity.
Qed.

Lemma alive_run : forall s t race gu u, alive (r_run s t race gu) u = alive s u.
Proof. intros. destruct (run_env s t race gu) as (E1 & E2 & _). unfold alive. rewrite E1, E2. reflexivity. Qed.
Lemma alive_zrun : forall z t gu, zinv z -> t <> 0 -> alive (z_r z) t = true -> z_g (z_run z t gu) t <> GUB -> alive (z_r (z_run z t gu)) t = true.
Proof.
  intros z t gu ZI T0 AL NU. destruct (z_run_cases z t gu T0 AL ZI NU) as [(E & _)|(E & _)]; rewrite E; auto. rewrite alive_run. exact AL.
Qed.
(** who is alive does not depend on runs *)
Lemma zrun_env : forall z t gu u, alive (z_r (z_run z t gu)) u = alive (z_r z) u.
Proof.
  intros z t gu u. unfold z_run.
  repeat match goal with |- context [match ?x with _ => _ end] => destruct x end; cbn [z_r]; try reflexivity; try apply alive_run.
Qed.
Lemma z_solo_alone : forall cs z t, alive (z_r z) t = true -> fold_left (fun z gu => z_step z (LRun t false gu)) cs z = z_alone z t cs.
Proof.
  induction cs as [|b cs IH]; intros z t AL; auto. unfold z_alone. cbn [fold_left]. cbn [z_step]. rewrite AL.
  apply IH. rewrite zrun_env. exact AL.
Qed.
Lemma r_alone_path : forall cs s t, alive s t = true -> exists ls, r_path (only t) s ls (r_alone s t cs) /\ length ls = length cs /\ (forall c, ~ In (LCall t c) ls).
Proof.
  induction cs as [|b cs IH]; intros s t AL.
  - exists []. repeat split; auto. constructor.
  - destruct (IH (r_run s t false b) t) as (ls & P & L & NC); [rewrite alive_run; auto|].
    exists (LRun t false b :: ls). repeat split.
    + constructor; [exists b; reflexivity|]. cbn [r_step]. rewrite AL. exact P.
    + simpl. congruence.
    + intros c [X|X]; [discriminate | apply (NC c X)].
Qed.

Lemma call_alive : forall s t c u, alive (r_step s (LCall t c)) u = alive s u.
Proof.
  intros s t c u. cbn [r_step]. destruct (alive s t); auto. destruct (r_pc s t); auto. destruct (call_env s t c) as (E1 & E2 & _). unfold alive. rewrite E1, E2. reflexivity.
Qed.
Lemma call_rest : forall s t c u, u <> t -> r_pc (r_step s (LCall t c)) u = r_pc s u.
Proof. intros s t c u N. cbn [r_step]. destruct (alive s t); auto. destruct (r_pc s t); auto. apply call_other; auto. Qed.

Lemma alone_alive : forall bs s t u, alive (r_alone s t bs) u = alive s u.
Proof. unfold r_alone. induction bs as [|b bs IH]; intros s t u; auto. cbn [fold_left]. rewrite IH, alive_run. reflexivity. Qed.
Lemma alone_words : forall bs s t, words (r_h s) -> words (r_h (r_alone s t bs)).
Proof. unfold r_alone. induction bs as [|b bs IH]; intros s t W; auto. cbn [fold_left]. apply IH. apply words_run. exact W. Qed.
Lemma alone_rest : forall bs s t u, u <> t -> r_pc (r_alone s t bs) u = r_pc s u.
Proof.
  unfold r_alone. induction bs as [|b bs IH]; intros s t u N; auto. cbn [fold_left]. rewrite IH by auto. apply (proj1 (run_other _ _ _ _ _ N)).
Qed.

(** what histories give *)
Definition settled (z : zstate) : Prop := zinv z /\ words (r_h (z_r z)) /\ z_no_overflow z.
Lemma history_settled : forall ok z h, z_history init ok z h -> settled z.
Proof.
  intros ok z h H. destruct (spin_sim UF UO UL fds mode allow ok z h H) as [R ZI]. split; [exact ZI|].
  split; [exact (words_reach UF UO UL fds mode allow ok _ _ R)|]. inversion H; subst; auto. intro; discriminate.
Qed.

(** a call alone does what it does alone with atomic primitives *)
Lemma solo_lift : forall (okb : bool -> Prop) z t c N (P : rstate -> Prop), settled z -> all_quiet (z_r z) -> t <> 0 -> alive (z_r z) t = true ->
  (forall s, P s -> r_pc s t = RIdle) -> within okb N (r_step (z_r z) (LCall t c)) t P ->
  forall cs, (1005 * N <= length cs)%nat -> Forall okb cs -> P (z_r (z_solo z t c cs)) /\ zinv (z_solo z t c cs).
Proof.
  intros okb z t c N P (ZI & WD & NV) Q T0 AL PI W cs L F.
  unfold z_solo. rewrite z_solo_alone by (cbn [z_step z_r]; rewrite call_alive; exact AL).
  assert (NOV : z_no_overflow (z_step z (LCall t c))) by exact NV.
  destruct (zinv_step z (LCall t c) ZI I NOV) as [ZI' _].
  apply (lift okb N); auto.
  - cbn [z_step z_r]. apply words_step. exact WD.
  - cbn [z_step z_r]. rewrite call_alive. exact AL.
  - intros u NU A. cbn [z_step z_r] in A |- *. rewrite call_alive in A. rewrite call_rest by auto. apply (Q u A).
  - cbn [z_step z_g]. pose proof (zi_spot _ ZI t AL) as SP. rewrite (Q t AL) in SP. eapply spot_idle; [exact SP | discriminate | discriminate].
  - cbn [z_step z_w]. pose proof (zi_load _ ZI t AL) as LD. rewrite (Q t AL) in LD. eapply load_none; [exact LD | discriminate | discriminate].
Qed.

(** the call in RwApi_Model.v *)
Lemma atomic_returns : forall z t c, settled z -> all_quiet (z_r z) -> alive (z_r z) t = true ->
  forall tm, match c with CLock _ _ _ _ w => quickw tm w | _ => True end ->
  within (okb tm) (steps_of (z_r z) c) (r_step (z_r z) (LCall t c)) t
    (fun s' => idle s' t /\ (exists e, r_res s' t = Some e) /\ exists bs, Forall (okb tm) bs /\ s' = r_alone (r_step (z_r z) (LCall t c)) t bs).
Proof.
  intros z t c (ZI & _) Q AL tm QW bs LB FB.
  set (sc := r_step (z_r z) (LCall t c)).
  assert (ES : sc = r_call (z_r z) t c) by (unfold sc; cbn [r_step]; rewrite AL, (Q t AL); reflexivity).
  assert (GO : r_pc sc t = RIdle /\ (exists e, r_res sc t = Some e) \/
    (r_pc sc t <> RIdle /\ quick tm (r_pc sc t) /\ (rank (r_h sc) (r_pc sc t) <= steps_of (z_r z) c)%nat)).
  { rewrite ES. unfold r_call. destruct c as [k fd off len w|fd off len|fd off len|priv]; cbn [steps_of];
      try (destruct (dev_of (z_r z) t fd) as [d|]; [right|left; cbn; rewrite !upd_eq; eauto]).
    4: right. all: cbn [r_pc r_h goto]; rewrite upd_eq; (split; [discriminate|]); split; cbn [quick a_wait]; auto; cbn [rank]; auto; try lia.
    rewrite fsz_sum. lia. }
  destruct GO as [[PI RS]|(NI & QK & RK)].
  - assert (E : r_alone sc t bs = sc).
    { clear -PI. unfold r_alone. induction bs as [|b bs IH]; auto. cbn [fold_left]. replace (r_run sc t false b) with sc; auto. unfold r_run. rewrite PI. reflexivity. }
    rewrite E. split; auto. split; auto. exists []. split; auto.
  - destruct (runs_out tm (steps_of (z_r z) c) sc t bs) as [A B]; auto; try lia.
    + unfold sc. apply GI_step. apply (zi_gi _ ZI).
    + unfold sc. rewrite call_alive. exact AL.
    + intros u N A. unfold sc in A |- *. rewrite call_alive in A. rewrite call_rest by auto. apply (Q u A).
    + split; [exact A|]. split; [exact B|]. exists bs. split; auto.
Qed.

Definition timed (c : rcall) : bool := match c with CLock _ _ _ _ WTimed => true | _ => false end.
Lemma waits_ok : forall c cs, does_not_wait c cs -> match c with CLock _ _ _ _ w => quickw (timed c) w | _ => True end /\ Forall (okb (timed c)) cs.
Proof.
  intros c cs H. split.
  - destruct c as [k fd off len []| | |]; simpl in *; auto.
  - destruct c as [k fd off len []| | |]; simpl in *; try contradiction; apply Forall_forall; intros b I;
      try (intro X; discriminate X). intros _. rewrite Forall_forall in H. auto.
Qed.

(** the state after a call: settled again, and a run of the thread alone in RwApi_Model.v *)
Lemma solo_returns : forall z t c cs, settled z -> all_quiet (z_r z) -> t <> 0 -> alive (z_r z) t = true -> does_not_wait c cs ->
  (1005 * steps_of (z_r z) c <= length cs)%nat ->
  let z' := z_solo z t c cs in let s' := z_r z' in
  idle s' t /\ (exists e, r_res s' t = Some e) /\ alive s' t = true /\ settled z' /\ all_quiet s' /\
  exists bs, s' = r_alone (r_step (z_r z) (LCall t c)) t bs.
Proof.
  intros z t c cs ST Q T0 AL DW L z' s'. destruct (waits_ok c cs DW) as [QW FO].
  destruct (solo_lift (okb (timed c)) z t c (steps_of (z_r z) c)
    (fun s' => idle s' t /\ (exists e, r_res s' t = Some e) /\ exists bs, Forall (okb (timed c)) bs /\ s' = r_alone (r_step (z_r z) (LCall t c)) t bs)) with (cs := cs)
    as [(A & B & bs & _ & ES) ZI']; auto.
  - intros s (A & _). exact A.
  - apply atomic_returns; auto.
  - fold z' in ZI', ES. fold s' in ES. split; [exact A|]. split; [exact B|]. split; [rewrite ES, alone_alive, call_alive; exact AL|].
    assert (AQ : all_quiet s').
    { intros u AU. destruct (Z.eq_dec u t) as [->|N]; [exact A|]. rewrite ES in AU |- *. rewrite alone_alive, call_alive in AU.
      unfold idle. rewrite alone_rest, call_rest by auto. apply (Q u AU). }
    split; [|split; [exact AQ | exists bs; exact ES]].
    split; [exact ZI'|]. split.
    + fold s'. rewrite ES. apply alone_words. apply words_step. apply ST.
    + intros u. destruct (Z.eq_dec u t) as [->|N].
      * pose proof (zi_spot _ ZI' t) as SP. unfold idle in A. fold z' in A, SP. rewrite A in SP.
        assert (X : z_g z' t = GIdle); [|rewrite X; discriminate].
        eapply spot_idle; [apply SP; change (alive s' t = true); rewrite ES, alone_alive, call_alive; exact AL | discriminate | discriminate].
      * unfold z', z_solo. rewrite z_solo_alone by (cbn [z_step z_r]; rewrite call_alive; exact AL).
        rewrite (proj1 (alone_other cs (z_step z (LCall t c)) t u N)). apply (proj2 (proj2 ST)).
Qed.
Lemma solo_path : forall z t c cs bs s', alive (z_r z) t = true -> s' = z_r (z_solo z t c cs) -> s' = r_alone (r_step (z_r z) (LCall t c)) t bs ->
  exists ls, r_path (only t) (r_step (z_r z) (LCall t c)) ls s' /\ one_call t ls.
Proof.
  intros z t c cs bs s' AL _ ->. destruct (r_alone_path bs (r_step (z_r z) (LCall t c)) t) as (ls & P & _ & NC); [rewrite call_alive; auto|].
  exists ls. split; [exact P | exact NC].
Qed.

(** a pass can only return [OK] *)
Definition passing (s : rstate) (t : Z) : Prop :=
  match r_pc s t with
  | RWait (P0 _) | P0 _ | PP _ _ _ _ | RDrop (RRet 0) | RRet 0 => True
  | RIdle => r_res s t = Some OK
  | _ => False
  end.
Lemma passing_run : forall s t gu, passing s t -> passing (r_run s t false gu) t.
Proof.
  intros s t gu H. unfold passing in H |- *. unfold r_run. destruct (r_pc s t) eqn:E; try contradiction; try (rewrite E; exact H).
  - destruct r; try contradiction. destruct (r_guard s) as [u|]; [destruct (alive s u)|]; try (rewrite E; exact I); cbn; rewrite upd_eq; exact I.
  - destruct r; try contradiction. destruct e; try contradiction. cbn. rewrite upd_eq. exact I.
  - destruct e; try contradiction. cbn. rewrite !upd_eq. reflexivity.
  - cbn. rewrite upd_eq. exact I.
  - unfold pass_step. destruct fs as [|f fs]; [cbn; rewrite upd_eq; exact I|].
    destruct os as [[|o os]|]; [|destruct ls as [[|[k l] ls]|]|]; cbn [goto r_pc]; rewrite upd_eq; exact I.
Qed.
Lemma passing_alone : forall bs s t, passing s t -> passing (r_alone s t bs) t.
Proof. unfold r_alone. induction bs as [|b bs IH]; intros s t H; auto. cbn [fold_left]. apply IH, passing_run, H. Qed.

(** every call that does not wait for a lock returns *)
Theorem C125_calls_return : forall ok z h t c cs, z_history init ok z h -> all_quiet (z_r z) -> t <> 0 -> alive (z_r z) t = true -> does_not_wait c cs ->
  (1005 * steps_of (z_r z) c <= length cs)%nat -> exists e, returned (z_r (z_solo z t c cs)) t e.
Proof.
  intros ok z h t c cs H Q T0 AL DW L. destruct (solo_returns z t c cs (history_settled _ _ _ H) Q T0 AL DW L) as (A & [e B] & _). exists e. split; auto.
Qed.
(** every lock call without a conflicting lock, with entries in the pools, succeeds *)
Theorem C125_free_lock_granted : forall fam z h t k fd off len w d cs, equal_or_disjoint fam ->
  z_history init (both careful (in_family fam)) z h -> all_quiet (z_r z) -> t <> 0 -> alive (z_r z) t = true ->
  file_of (z_r z) t fd = Some d -> fam d off len -> (forall l g, holds (z_r z) l g -> ~ conflict (RwApi_Model.mkG t fd d off len k) g) ->
  h_ffree (r_h (z_r z)) <> [] -> h_ofree (r_h (z_r z)) <> [] -> h_lfree (r_h (z_r z)) <> [] -> (1005 * 7 <= length cs)%nat ->
  let s' := z_r (z_solo z t (CLock k fd off len w) cs) in returned s' t OK /\ exists l, holds s' l (RwApi_Model.mkG t fd d off len k).
Proof.
  intros fam z h t k fd off len w d cs E H Q T0 AL DV FM NC PF PO PL L. cbv zeta.
  pose proof (history_reach _ _ _ _ (C124_primitives_not_seen _ z h H)) as R.
  apply (solo_lift (fun _ => True) z t (CLock k fd off len w) 7 (fun s' => returned s' t OK /\ exists l, holds s' l (RwApi_Model.mkG t fd d off len k)) (history_settled _ _ _ H) Q T0 AL); auto.
  - intros s [[A _] _]. exact A.
  - intros bs LB _. destruct (r_alone_path bs (r_step (z_r z) (LCall t (CLock k fd off len w))) t) as (ls & P & LL & _); [rewrite call_alive; auto|].
    destruct (C110_free_lock_granted UF UO UL UF_nd UO_nd UL_nd fds mode allow fam (z_r z) t k fd off len w d ls _ E R AL Q DV FM NC PF PO PL P ltac:(lia)) as (A & B & C).
    split; [split; auto | exact C].
  - apply Forall_forall. auto.
Qed.
(** unlocking what one holds succeeds and gives up one lock with these arguments *)
Theorem C125_holder_unlocks : forall fam z h l g cs, equal_or_disjoint fam ->
  z_history init (both careful (in_family fam)) z h -> all_quiet (z_r z) -> gr_t g <> 0 -> holds (z_r z) l g -> present (z_r z) g ->
  (1005 * 8 <= length cs)%nat ->
  let s' := z_r (z_solo z (gr_t g) (CUnlockRw (gr_fd g) (gr_off g) (gr_len g)) cs) in
  returned s' (gr_t g) OK /\ exists l' g', same_args g' g /\ holds (z_r z) l' g' /\ ~ holds s' l' g'.
Proof.
  intros fam z h l g cs E H Q T0 HL PR L. cbv zeta.
  pose proof (history_reach _ _ _ _ (C124_primitives_not_seen _ z h H)) as R.
  assert (AL : alive (z_r z) (gr_t g) = true) by apply PR.
  destruct (solo_returns z (gr_t g) (CUnlockRw (gr_fd g) (gr_off g) (gr_len g)) cs (history_settled _ _ _ H) Q T0 AL I L) as (A & _ & AL' & _ & _ & bs & ES).
  destruct (solo_path z _ _ cs bs _ AL eq_refl ES) as (ls & P & NC).
  revert A AL' P. generalize (z_r (z_solo z (gr_t g) (CUnlockRw (gr_fd g) (gr_off g) (gr_len g)) cs)). intros s' A AL' P.
  assert (P' : r_path (both (both careful (in_family fam)) (keeps_fd (gr_t g) (gr_fd g))) (r_step (z_r z) (LCall (gr_t g) (CUnlockRw (gr_fd g) (gr_off g) (gr_len g)))) ls s').
  { clear -P. induction P as [s|s x ls s' [gu ->] P IH]; constructor; auto. repeat split. }
  destruct (C21_granted_can_be_released UF UO UL UF_nd UO_nd UL_nd fds mode allow fam (z_r z) l g ls _ E R HL PR (Q _ AL) P' NC AL' A) as (RS & l' & g' & SA & _ & H1 & H2).
  split; [split; auto|]. exists l', g'. auto.
Qed.
(** one recovery pass takes away every lock whose holder is gone *)
Theorem C125_pass_releases : forall z h t priv cs, z_history init careful z h -> all_quiet (z_r z) -> t <> 0 -> alive (z_r z) t = true ->
  (1005 * (5 + entries (z_r z)) <= length cs)%nat ->
  let s' := z_r (z_solo z t (CPass priv) cs) in returned s' t OK /\ forall l g, gone (z_r z) priv g -> ~ holds s' l g.
Proof.
  intros z h t priv cs H Q T0 AL L. cbv zeta.
  pose proof (history_reach _ _ _ _ (C124_primitives_not_seen _ z h H)) as R.
  destruct (solo_returns z t (CPass priv) cs (history_settled _ _ _ H) Q T0 AL I L) as (A & _ & AL' & _ & _ & bs & ES).
  destruct (solo_path z _ _ cs bs _ AL eq_refl ES) as (ls & P & NC).
  revert A AL' P ES. generalize (z_r (z_solo z t (CPass priv) cs)). intros s' A AL' P ES. split.
  - split; [exact A|].
    assert (X : passing s' t).
    { rewrite ES. apply passing_alone. unfold passing. cbn [r_step]. rewrite AL, (Q t AL). cbn. rewrite upd_eq. exact I. }
    unfold passing in X. rewrite A in X. exact X.
  - intros l g GN. apply (C27_pass_releases UF UO UL UF_nd UO_nd UL_nd fds mode allow priv (z_r z) t ls _ l g R (Q t AL)); auto.
    assert (GS : forall s x, (exists gu, x = LRun t false gu) \/ (exists c, x = LCall t c) -> gone s priv g -> gone (r_step s x) priv g).
    { intros s x D G0. assert (EA : r_talive (r_step s x) = r_talive s /\ r_palive (r_step s x) = r_palive s /\ r_fd (r_step s x) = r_fd s).
      { destruct D as [[gu ->]|[c ->]]; cbn [r_step]; destruct (alive s t); auto.
        - destruct (run_env s t false gu) as (X1 & X2 & X3 & _). auto.
        - destruct (r_pc s t); auto. destruct (call_env s t c) as (X1 & X2 & X3 & _). auto. }
      destruct EA as (X1 & X2 & X3). unfold gone, alive in *. rewrite X1, X2, X3. exact G0. }
    constructor; [split; [exact I | split; [exact GN | apply GS; eauto]]|].
    assert (GN' : gone (r_step (z_r z) (LCall t (CPass priv))) priv g) by (apply GS; eauto).
    clear -P GN' GS. revert GN'. induction P as [s|s x ls s' [gu ->] P IH]; intro GN'; constructor; auto.
    + split; [exact I|]. split; auto. apply GS; eauto.
    + apply IH. apply GS; eauto.
Qed.
(** a pass and then a try lock, after all holders have gone: granted, or no entry is left *)
Theorem C125_pass_then_lock : forall z h t k fd off len d cs1 cs2, z_history init careful z h -> all_quiet (z_r z) -> t <> 0 -> alive (z_r z) t = true ->
  (forall l g, holds (z_r z) l g -> gr_dev g = d -> gone (z_r z) true g) -> file_of (z_r z) t fd = Some d ->
  (1005 * (5 + entries (z_r z)) <= length cs1)%nat -> (1005 * 16 <= length cs2)%nat ->
  let s2 := z_r (z_solo (z_solo z t (CPass true) cs1) t (CLock k fd off len WTry) cs2) in returned s2 t OK \/ returned s2 t ENOLCK.
Proof.
  intros z h t k fd off len d cs1 cs2 H Q T0 AL GN DV L1 L2. cbv zeta.
  pose proof (history_reach _ _ _ _ (C124_primitives_not_seen _ z h H)) as R.
  destruct (solo_returns z t (CPass true) cs1 (history_settled _ _ _ H) Q T0 AL I L1) as (A1 & _ & AL1 & S1 & Q1 & bs1 & ES1).
  destruct (solo_path z _ _ cs1 bs1 _ AL eq_refl ES1) as (ls1 & P1 & _).
  set (z1 := z_solo z t (CPass true) cs1) in *.
  destruct (solo_returns z1 t (CLock k fd off len WTry) cs2 S1 Q1 T0 AL1 I L2) as (A2 & [e B2] & AL2 & _ & _ & bs2 & ES2).
  destruct (solo_path z1 _ _ cs2 bs2 _ AL1 eq_refl ES2) as (ls2 & P2 & _).
  destruct (C30_recovery_restores_partial UF UO UL UF_nd UO_nd UL_nd fds mode allow (z_r z) ls1 (z_r z1) ls2 _ t k fd off len WTry d e R Q GN DV ltac:(discriminate) P1 A1 P2 A2 AL2 B2) as [->| ->];
    [left|right]; split; auto.
Qed.
End Rspin.

(** ** Executions *)
Fixpoint z_exec (z : zstate) (ls : list rlabel) : zstate := match ls with [] => z | x :: r => z_exec (z_step z x) r end.
Fixpoint z_hist (z : zstate) (ls : list rlabel) : list event :=
  match ls with [] => [] | x :: r => z_events z x ++ z_hist (z_step z x) r end.
Definition sane (g : gpc) : bool := match g with GUB => false | _ => true end.
Fixpoint z_possible (b : rstate -> rlabel -> bool) (z : zstate) (ls : list rlabel) : bool :=
  match ls with
  | [] => true
  | x :: r => b (z_r z) (z_label z x) && match x with LRun t _ gu => negb (t =? 0) && sane (z_g (z_step z x) t) | _ => true end && z_possible b (z_step z x) r
  end.
Lemma z_run_pc_other : forall z t gu u, u <> t -> r_pc (z_r (z_run z t gu)) u = r_pc (z_r z) u.
Proof.
  intros z t gu u N. pose proof (fun r b => proj1 (run_other (z_r z) t r b u N)) as X. unfold z_run.
  repeat match goal with |- context [match ?x with _ => _ end] => destruct x end; cbn [z_r]; try reflexivity; try apply X;
    cbn [goto set_guard r_pc]; rewrite upd_neq by auto; reflexivity.
Qed.
Lemma z_idle_step : forall acts z x, others_idle acts (z_r z) -> careful_b acts (z_r z) (z_label z x) = true -> others_idle acts (z_r (z_step z x)).
Proof.
  intros acts z x H C. destruct x as [t c|t race gu|p fd d|p m|t|p]; try exact (others_idle_step acts (z_r z) _ H C).
  cbn [z_label careful_b] in C. cbn [z_step]. destruct (alive (z_r z) t); auto. intros u N.
  assert (NU : u <> t) by (intros ->; apply N, mem_in, C). rewrite (z_run_pc_other z t gu u NU). auto.
Qed.
Lemma z_hist_exec : forall acts b ok, (forall s x, others_idle acts s -> b s x = true -> ok s x /\ careful_b acts s x = true) ->
  forall s0 ls z h, others_idle acts (z_r z) -> z_no_overflow z -> z_history s0 ok z h -> z_possible b z ls = true ->
  z_history s0 ok (z_exec z ls) (h ++ z_hist z ls) /\ others_idle acts (z_r (z_exec z ls)).
Proof.
  intros acts b ok B s0 ls. induction ls as [|x ls IH]; intros z h OI NV H P; cbn [z_exec z_hist]; [rewrite app_nil_r; auto|].
  cbn [z_possible] in P. apply andb_true_iff in P as [P P2]. apply andb_true_iff in P as [P0 P1]. destruct (B _ _ OI P0) as [O C].
  assert (NV' : z_no_overflow (z_step z x)).
  { destruct x as [t c|t race gu|p fd d|p m|t|p]; try exact NV. apply andb_true_iff in P1 as [_ P1]. cbn [z_step] in P1 |- *. destruct (alive (z_r z) t); auto.
    intro u. destruct (Z.eq_dec u t) as [->|N]; [intro X; rewrite X in P1; discriminate|]. rewrite (proj1 (z_run_other z t gu u N)). apply NV. }
  rewrite app_assoc. apply IH; auto.
  - apply (z_idle_step acts); auto.
  - constructor; auto. destruct x as [t c|t race gu|p fd d|p m|t|p]; cbn; auto. apply andb_true_iff in P1 as [P1 _]. apply negb_true_iff in P1. apply Z.eqb_neq, P1.
Qed.
Lemma z_hist_init : forall acts b ok UF UO UL fds mode allow ls, let s0 := r_init UF UO UL fds mode allow in
  (forall s x, others_idle acts s -> b s x = true -> ok s x /\ careful_b acts s x = true) -> z_possible b (z_init s0) ls = true ->
  z_history s0 ok (z_exec (z_init s0) ls) (z_hist (z_init s0) ls) /\ others_idle acts (z_r (z_exec (z_init s0) ls)).
Proof.
  intros acts b ok UF UO UL fds mode allow ls s0 B P. apply (z_hist_exec acts b ok B s0 ls (z_init s0) []); auto.
  - apply others_idle_init.
  - intros t X. discriminate X.
  - constructor.
Qed.

(** conditions of C124, decided *)
Definition quiet_refusal_b (s : rstate) (x : rlabel) : bool :=
  match x with LRun t true _ => match r_pc s t with AT a _ _ _ => match a_wait a with WBlock => true | _ => false end | _ => true end | _ => true end.
Definition proper_call_b (famb : Z -> Z -> Z -> bool) (s : rstate) (x : rlabel) : bool := match x with LCall _ _ => proper_b famb s x | _ => true end.
Definition regular_b (acts : list Z) famb s x := careful_b acts s x && proper_call_b famb s x && quiet_refusal_b s x.
Lemma regular_b_ok : forall acts famb (fam : Z -> Z -> Z -> Prop), (forall d off len, famb d off len = true -> fam d off len) ->
  forall s x, others_idle acts s -> regular_b acts famb s x = true -> regular fam s x /\ careful_b acts s x = true.
Proof.
  intros acts famb fam F s x OI B. unfold regular_b in B. apply andb_true_iff in B as [B B3]. apply andb_true_iff in B as [B1 B2].
  split; auto. split; [eapply careful_b_ok; eauto|]. destruct x as [t c|t race gu| | | |]; simpl in *; auto.
  - split; auto. destruct c as [k fd off len w|fd off len|fd off len|priv]; auto;
      (destruct (file_of s t fd) as [d|]; [|discriminate]); eauto.
  - split; auto. destruct race; auto. destruct (r_pc s t); auto. destruct (a_wait a); auto; discriminate.
Qed.
Definition z0 : zstate := z_init s0.
Definition many (t : Z) (n : nat) : list rlabel := repeat (LRun t false false) n.
Definition calls (t : Z) (c : rcall) : list rlabel := LCall t c :: many t 80.
Definition T1b := th 1 12.

Definition all5 := T1b :: everyone.
(** T1 reads.  T1b dies while it holds the list lock.  T2 asks for a read lock, takes the list lock over after a thousand
    turns and has loaded the lock word when T1 unlocks: its compare-and-swap fails, and it looks again *)
Definition ex124 : list rlabel :=
  calls T1 (lock_r 3 0 10) ++ [LCall T1b (lock_w 3 10 20)] ++ many T1b 3 ++ [LDieThread T1b] ++
  [LCall T2 (CLock Rd 3 0 10 WBlock)] ++ many T2 1011 ++ calls T1 (CUnlockRw 3 0 10) ++ many T2 30.
Definition hist124 : list event :=
  [ECall T1 (lock_r 3 0 10); ERet T1 OK; ECall T1b (lock_w 3 10 20); EDie T1b; ECall T2 (CLock Rd 3 0 10 WBlock);
   ECall T1 (CUnlockRw 3 0 10); ERet T1 OK; ERet T2 OK].
Definition z124 := z_exec z0 ex124.
Example C124_case :
  z_history s0 (regular ex_fam) z124 hist124 /\ equal_or_disjoint ex_fam /\ has_lock ex_fds hist124 (G T2 3 0 10 Rd) /\
  (exists l, holds (z_r z124) l (G T2 3 0 10 Rd)) /\
  (let z := z_exec z0 (firstn 86 ex124) in r_guard (z_r z) = Some T1b /\ crit (r_pc (z_r z) T1b) = true /\ alive (z_r z) T1b = false).
Proof.
  split; [|split; [exact ex_fam_ok|split; [|split]]].
  - assert (E : hist124 = z_hist z0 ex124) by (vm_compute; reflexivity). rewrite E. clear E.
    apply (z_hist_init all5 (regular_b all5 ex_famb) (regular ex_fam)); [apply regular_b_ok; auto | vm_compute; reflexivity].
  - exists (firstn 4 hist124), WBlock, [ECall T1 (CUnlockRw 3 0 10); ERet T1 OK], []. split; [reflexivity|]. split; [simpl; intuition discriminate|]. split; [simpl; intuition discriminate|].
    split; [reflexivity|]. split; [|intros fd off len []]. unfold stays. repeat split; simpl; intuition discriminate.
  - exists 22. vm_compute. reflexivity.
  - cbv zeta. repeat split; vm_compute; reflexivity.
Qed.
(** a try read that is disturbed is refused although only readers were there; exclusion includes this execution *)
Definition ex124b : list rlabel :=
  calls T1 (lock_r 3 0 10) ++ calls T3 (lock_r 3 0 10) ++ [LCall T2 (lock_r 3 0 10)] ++ many T2 8 ++ calls T1 (CUnlockRw 3 0 10) ++ many T2 80 ++
  calls T4 (lock_w 3 10 20).
Example C124_disturbed :
  z_history s0 (both careful (in_family ex_fam)) (z_exec z0 ex124b)
    [ECall T1 (lock_r 3 0 10); ERet T1 OK; ECall T3 (lock_r 3 0 10); ERet T3 OK; ECall T2 (lock_r 3 0 10); ECall T1 (CUnlockRw 3 0 10); ERet T1 OK;
     ERet T2 EBUSY; ECall T4 (lock_w 3 10 20); ERet T4 OK] /\
  (exists l, holds (z_r (z_exec z0 ex124b)) l (G T3 3 0 10 Rd)) /\ exists l, holds (z_r (z_exec z0 ex124b)) l (G T4 3 10 20 Wr).
Proof.
  split; [|split; [exists 22|exists 23]; vm_compute; reflexivity].
  match goal with |- z_history _ _ _ ?h => assert (E : h = z_hist z0 ex124b) by (vm_compute; reflexivity) end. rewrite E. clear E.
  apply (z_hist_init everyone (fun s x => careful_b everyone s x && family_b ex_famb s x) (both careful (in_family ex_fam))); [|vm_compute; reflexivity].
  intros s x OI B. apply andb_true_iff in B as [B1 B2]. split; [split; [eapply careful_b_ok; eauto | eapply family_b_ok; eauto; auto] | exact B1].
Qed.

(** C125: T1b died with the list lock, T2 holds a read lock, all others are outside *)
Lemma z124_history : z_history s0 (both careful (in_family ex_fam)) z124 hist124 /\ z_history s0 careful z124 hist124 /\ others_idle all5 (z_r z124).
Proof.
  assert (E : hist124 = z_hist z0 ex124) by (vm_compute; reflexivity). rewrite E. clear E. split; [|split].
  - apply (z_hist_init all5 (fun s x => careful_b all5 s x && family_b ex_famb s x) (both careful (in_family ex_fam))); [|vm_compute; reflexivity].
    intros s x OI B. apply andb_true_iff in B as [B1 B2]. split; [split; [eapply careful_b_ok; eauto | eapply family_b_ok; eauto; auto] | exact B1].
  - apply (z_hist_init all5 (careful_b all5) careful); [|vm_compute; reflexivity]. intros s x OI B. split; auto. eapply careful_b_ok; eauto.
  - apply (z_hist_init all5 (careful_b all5) careful); [|vm_compute; reflexivity]. intros s x OI B. split; auto. eapply careful_b_ok; eauto.
Qed.
Lemma z124_quiet : all_quiet (z_r z124).
Proof.
  intros u A. destruct z124_history as (_ & _ & OI). unfold idle. destruct (in_dec Z.eq_dec u all5) as [I|N]; [|apply OI; exact N].
  destruct I as [<-|[<-|[<-|[<-|[<-|[]]]]]]; [vm_compute in A; discriminate | | | |]; vm_compute; reflexivity.
Qed.
Definition nots (n : nat) : list bool := repeat false n.
Example C125_case :
  returned (z_r (z_solo z124 T3 (lock_w 3 0 10) (nots 200))) T3 EBUSY /\
  returned (z_r (z_solo z124 T3 (lock_r 3 0 10) (nots 200))) T3 OK /\
  returned (z_r (z_solo z124 T2 (CUnlockRw 3 0 10) (nots 200))) T2 OK /\
  returned (z_r (z_solo z124 T3 (CIsLocked 3 0 10) (nots 200))) T3 1 /\
  returned (z_r (z_solo z124 T3 (CPass true) (nots 200))) T3 OK /\ entries (z_r z124) = 5%nat.
Proof. repeat split; vm_compute; reflexivity. Qed.
Lemma held_known : forall UF UO UL fds mode allow s l g, NoDup UF -> NoDup UO -> NoDup UL -> r_reach (r_init UF UO UL fds mode allow) careful s ->
  holds s l g -> In l UL.
Proof.
  intros UF UO UL fds mode allow s l g N1 N2 N3 R HL. assert (H : SI UF UO UL s) by (eapply SI_reach; eauto).
  destruct (hi_held _ _ _ _ (si_h _ _ _ _ H) l g HL) as (o & U & I).
  apply (hi_lk_used _ _ _ _ (si_h _ _ _ _ H) o l U). unfold lks. apply in_app_iff. destruct (gr_kind g); auto.
Qed.
Lemma z124_held : forall l g, holds (z_r z124) l g -> g = G T2 3 0 10 Rd.
Proof.
  intros l g HL. destruct z124_history as (_ & H & _).
  pose proof (held_known _ _ _ _ _ _ _ l g nd1 nd2 nd3 (history_reach _ _ _ _ (C124_primitives_not_seen _ _ _ _ _ _ _ _ _ H)) HL) as I.
  unfold holds in HL. destruct I as [<-|[<-|[<-|[<-|[<-|[]]]]]]; vm_compute in HL; try discriminate HL. inversion HL. vm_compute. reflexivity.
Qed.
(** the theorems at this state *)
Example C125_case_granted :
  returned (z_r (z_solo z124 T3 (lock_r 3 0 10) (nots (1005 * 7)))) T3 OK /\ exists l, holds (z_r (z_solo z124 T3 (lock_r 3 0 10) (nots (1005 * 7)))) l (G T3 3 0 10 Rd).
Proof.
  destruct z124_history as (H & _ & _).
  apply (C125_free_lock_granted _ _ _ nd1 nd2 nd3 _ _ _ ex_fam z124 hist124 T3 Rd 3 0 10 WTry 103 (nots (1005 * 7)) ex_fam_ok H z124_quiet).
  - vm_compute. discriminate.
  - vm_compute. reflexivity.
  - vm_compute. reflexivity.
  - vm_compute. reflexivity.
  - intros l g HL C. rewrite (z124_held l g HL) in C. destruct C as (_ & _ & C). cbn in C. destruct C; discriminate.
  - vm_compute. discriminate.
  - vm_compute. discriminate.
  - vm_compute. discriminate.
  - unfold nots. rewrite repeat_length. lia.
Qed.
Lemma quiet_die : forall s p, all_quiet s -> careful s (LDieProc p).
Proof. intros s p Q t _ A W. pose proof (Q t A) as X. unfold idle in X. rewrite X in W. exact W. Qed.
Lemma quiet_die_history : forall UF UO UL fds mode allow z h p, all_quiet (z_r z) -> z_history (r_init UF UO UL fds mode allow) careful z h ->
  z_history (r_init UF UO UL fds mode allow) careful (z_step z (LDieProc p)) (h ++ z_events z (LDieProc p)).
Proof.
  intros UF UO UL fds mode allow z h p Q H. apply zh_step; [exact H | exact I | exact (quiet_die _ _ Q)|].
  exact (proj2 (proj2 (history_settled _ _ _ _ _ _ _ _ _ H))).
Qed.
Lemma died_holds : forall z p l g, holds (z_r (z_step z (LDieProc p))) l g -> holds (z_r z) l g.
Proof. intros z p l g H. exact H. Qed.
Lemma quiet_died : forall z p, all_quiet (z_r z) -> all_quiet (z_r (z_step z (LDieProc p))).
Proof.
  intros z p Q u A. apply (Q u). cbn [z_step z_r r_step] in A. unfold alive in A |- *. cbn [r_talive r_palive] in A.
  apply andb_true_iff in A as [A1 A2]. apply andb_true_iff. split; auto. unfold upd in A1. destruct (_ =? _); [discriminate | exact A1].
Qed.
Example C125_case_pass_then_lock : forall cs1 cs2, (1005 * 10 <= length cs1)%nat -> (1005 * 16 <= length cs2)%nat ->
  let s2 := z_r (z_solo (z_solo (z_step z124 (LDieProc (proc_of_thread T2))) T3 (CPass true) cs1) T3 (lock_w 3 0 10) cs2) in
  returned s2 T3 OK \/ returned s2 T3 ENOLCK.
Proof.
  intros cs1 cs2 L1 L2. destruct z124_history as (_ & H & OI).
  pose proof (quiet_die_history _ _ _ _ _ _ _ _ (proc_of_thread T2) z124_quiet H) as HD.
  refine (C125_pass_then_lock _ _ _ nd1 nd2 nd3 _ _ _ _ _ T3 Wr 3 0 10 103 cs1 cs2 HD (quiet_died _ _ z124_quiet) _ _ _ _ _ L2).
  - vm_compute. discriminate.
  - vm_compute. reflexivity.
  - intros l g HL _. rewrite (z124_held l g (died_holds _ _ _ _ HL)). left. vm_compute. reflexivity.
  - vm_compute. reflexivity.
  - replace (entries (z_r (z_step z124 (LDieProc (proc_of_thread T2))))) with 5%nat by (vm_compute; reflexivity). exact L1.
Qed.

Example C125_case_unlock : forall cs, (1005 * 8 <= length cs)%nat ->
  let s' := z_r (z_solo z124 T2 (CUnlockRw 3 0 10) cs) in
  returned s' T2 OK /\ exists l' g', same_args g' (G T2 3 0 10 Rd) /\ holds (z_r z124) l' g' /\ ~ holds s' l' g'.
Proof.
  intros cs L. destruct z124_history as (H & _ & _).
  refine (C125_holder_unlocks _ _ _ nd1 nd2 nd3 _ _ _ ex_fam z124 hist124 22 (G T2 3 0 10 Rd) cs ex_fam_ok H z124_quiet _ _ _ L).
  - vm_compute. discriminate.
  - vm_compute. reflexivity.
  - split; vm_compute; reflexivity.
Qed.
(** T1b inside, alive, with T2 at the door *)
Example C124_case_inside : let z := z_exec z0 (firstn 85 ex124 ++ [LCall T2 (CLock Rd 3 0 10 WBlock)] ++ many T2 500) in
  crit (r_pc (z_r z) T1b) = true /\ alive (z_r z) T1b = true /\ crit (r_pc (z_r z) T2) = false /\ alive (z_r z) T2 = true /\ z_no_overflow z.
Proof.
  cbv zeta. repeat split; try (vm_compute; reflexivity).
  apply (history_settled [1;2;3] [11;12;13;14] [21;22;23;24;25] ex_fds (fun _ => FREE_FD) (fun _ => true) careful _
    (z_hist z0 (firstn 85 ex124 ++ [LCall T2 (CLock Rd 3 0 10 WBlock)] ++ many T2 500))).
  apply (z_hist_init all5 (careful_b all5) careful); [|vm_compute; reflexivity]. intros s x OI B. split; auto. eapply careful_b_ok; eauto.
Qed.
(** T2 keeps its lock while T3 makes a pass and is refused *)
Definition present_b (s : rstate) (g : grant) : bool :=
  alive s (gr_t g) && match file_of s (gr_t g) (gr_fd g) with Some d => d =? gr_dev g | None => false end.
Definition keep_b (acts : list Z) (g : grant) (s : rstate) (x : rlabel) : bool :=
  careful_b acts s x && present_b s g && present_b (r_step s x) g &&
  match x with LRun t _ _ => negb (t =? gr_t g) | LCall t _ => negb (t =? gr_t g) | LSetFd _ _ _ => false | _ => true end.
Lemma present_b_ok : forall s g, present_b s g = true -> present s g.
Proof.
  intros s g B. unfold present_b in B. apply andb_true_iff in B as [B1 B2]. split; auto.
  destruct (file_of s (gr_t g) (gr_fd g)) as [d|]; [|discriminate]. apply Z.eqb_eq in B2. congruence.
Qed.
Lemma keeps_path : forall acts g ls z, others_idle acts (z_r z) -> z_no_overflow z ->
  z_possible (keep_b acts g) z ls = true -> z_path (both careful (keeps g)) z ls (z_exec z ls).
Proof.
  intros acts g ls. induction ls as [|x ls IH]; intros z OI NV P; [constructor|].
  cbn [z_possible] in P. apply andb_true_iff in P as [P P2]. apply andb_true_iff in P as [P0 P1].
  unfold keep_b in P0. apply andb_true_iff in P0 as [P0 P5]. apply andb_true_iff in P0 as [P0 P4]. apply andb_true_iff in P0 as [P0 P3].
  assert (NV' : z_no_overflow (z_step z x)).
  { destruct x as [t c|t race gu|p fd d|p m|t|p]; try exact NV. apply andb_true_iff in P1 as [_ P1]. cbn [z_step] in P1 |- *. destruct (alive (z_r z) t); auto.
    intro u. destruct (Z.eq_dec u t) as [->|N]; [intro X; rewrite X in P1; discriminate|]. rewrite (proj1 (z_run_other z t gu u N)). apply NV. }
  cbn [z_exec]. apply zp_cons; auto.
  - destruct x as [t c|t race gu|p fd d|p m|t|p]; cbn; auto. apply andb_true_iff in P1 as [P1 _]. apply negb_true_iff in P1. apply Z.eqb_neq, P1.
  - split; [eapply careful_b_ok; eauto|]. split; [apply present_b_ok, P3|]. split; [apply present_b_ok, P4|]. intro X. exfalso.
    destruct x as [t c|t race gu|p fd d|p m|t|p]; cbn in X, P5; inversion X; subst; rewrite Z.eqb_refl in P5; discriminate.
  - apply IH; auto. apply (z_idle_step acts); auto.
Qed.
Example C124_case_keeps : holds (z_r (z_exec z124 (calls T3 (CPass true) ++ calls T3 (lock_w 3 0 10)))) 22 (G T2 3 0 10 Rd).
Proof.
  destruct z124_history as (_ & H & OI).
  refine (C124_present_holder_keeps_lock _ _ _ nd1 nd2 nd3 _ _ _ z124 hist124 (calls T3 (CPass true) ++ calls T3 (lock_w 3 0 10)) _ 22 (G T2 3 0 10 Rd) H _ _).
  - vm_compute. reflexivity.
  - refine (keeps_path all5 _ _ _ OI (proj2 (proj2 (history_settled _ _ _ _ _ _ _ _ _ H))) _). vm_compute. reflexivity.
Qed.

Print Assumptions C124_primitives_not_seen.
Print Assumptions C124_linearizable_partial.
Print Assumptions C124_no_conflict_partial.
Print Assumptions C124_exclusion.
Print Assumptions C124_present_holder_keeps_lock.
Print Assumptions C124_one_inside.
Print Assumptions C125_calls_return.
Print Assumptions C125_free_lock_granted.
Print Assumptions C125_holder_unlocks.
Print Assumptions C125_pass_releases.
Print Assumptions C125_pass_then_lock.
