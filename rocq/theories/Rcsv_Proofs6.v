(** The structure is kept by every method: reading, writing, whole calls. *)
From Verif Require Import Base Rcsv_Model Rcsv_Spec Rcsv_Proofs Rcsv_Proofs3 Rcsv_Proofs4 Rcsv_Proofs5.
From Coq Require Import ZArith List Bool Lia Permutation.
Import ListNotations.
Open Scope Z_scope.

Section Run.
  Variables (tidy : Prop) (F : key -> Prop).
  Hypothesis SEP : tidy -> separate F.
  Local Notation Inv := (Inv tidy F).
  Local Notation ires := (ires tidy F).
  Local Notation fails := (fails tidy).

  Lemma unlock_if_i : forall c o L s, s_mtx s = L -> Inv (s_obj s) (s_stack s) (s_log s) ->
    (c = false -> o_locked (s_obj s o) = false) ->
    ires o (s_obj s) (fun b s' => if b then o_locked (s_obj s' o) = false else fails (s_log s')) (unlock_if c o L s).
  Proof.
    intros [|] o L s M I C; cbn [unlock_if].
    - eapply ires_post; [apply rawunlock_i; auto|]. intros b s' [A _]. exact A.
    - cbn. split; [exact M|]. split; [exact I|]. split; [apply keeps_refl|auto].
  Qed.

  Lemma locked_type : forall f k o, G f k -> o_locked (f o) = true -> o_type (f o) <> UNL.
  Proof.
    intros f k o H L. destruct (g_lo _ _ H o L) as [(_ & _ & _ & _ & X)|(x & (_ & _ & _ & _ & X) & _)]; exact X.
  Qed.

  (** nothing held meets the range of an object that matches nothing in the stack *)
  Lemma apart : forall f k log x, tidy -> T F [] f k -> Permutation (held log) (map (desc f) k) ->
    G f k -> F (key_of x) -> (forall i, In i k -> cmp x (f i) = false) ->
    forall h, In h (held log) -> ~ meets (fst h) (key_of x).
  Proof.
    intros f k log x TD HT P HG FO N h I ME. apply (Permutation_in _ P) in I. apply in_map_iff in I as (i & <- & J).
    cbn in ME. destruct (SEP TD) as [_ S].
    assert (FI : F (key_of (f i))) by (apply (t_fam _ _ _ _ HT); apply (g_st _ _ HG); exact J).
    assert (E : key_of x = key_of (f i)) by (symmetry; apply S; auto).
    apply (cmp_family F x (f i) (SEP TD) FO FI) in E. rewrite N in E by auto. discriminate E.
  Qed.

  Lemma free_of : forall f k o, G f k -> o_locked (f o) = false -> free f o.
  Proof. intros f k o H L. exact (g_un _ _ H o L). Qed.

  Lemma rawread_i : forall o L s, s_mtx s = L -> Inv (s_obj s) (s_stack s) (s_log s) ->
    o_alive (s_obj s o) = true -> (tidy -> F (key_of (s_obj s o))) ->
    ires o (s_obj s) (fun b s' => if b then o_locked (s_obj s' o) = true
                                  else o_locked (s_obj s' o) = false \/ fails (s_log s')) (RawReadLock o L s).
  Proof.
    intros o L s M I A FO. unfold RawReadLock. cbv zeta.
    destruct (o_locked (s_obj s o) && is_rd (o_type (s_obj s o))) eqn:C1.
    { cbn. apply andb_true_iff in C1 as [C1 _]. split; [exact M|]. split; [exact I|]. split; [apply keeps_refl|exact C1]. }
    destruct (o_locked (s_obj s o) && is_wr (o_type (s_obj s o)) && negb (match o_pend (s_obj s o) with [] => true | _ => false end)) eqn:C2.
    { cbn. apply andb_true_iff in C2 as [C2 _]. apply andb_true_iff in C2 as [C2 _].
      split; [exact M|]. split; [exact I|]. split; [apply keeps_refl|exact C2]. }
    destruct (stack_lock_ok L s M) as (s1 & -> & M1 & E1 & E2 & _ & E3 & _). cbn [bind].
    assert (I1 : Inv (s_obj s1) (s_stack s1) (s_log s1)) by (rewrite E1, E2, E3; exact I).
    eapply (ires_bind tidy F o (s_obj s1)).
    { apply unlock_if_i; [exact M1|exact I1|]. rewrite E1. intros X.
      destruct (o_locked (s_obj s o)) eqn:LK; [|reflexivity]. exfalso.
      destruct I as [HG _]. pose proof (locked_type _ _ o HG LK) as TY.
      destruct (o_type (s_obj s o)); [congruence|discriminate C1|discriminate X]. }
    rewrite E1. intros b L2 s2 M2 I2 K2 Q2. destruct b; cbn [negb].
    2:{ cbn [ires]. split; [exact M2|]. split; [exact I2|]. split; [exact K2|]. now right. }
    destruct K2 as [ID2 K2]. destruct (ID2 o) as [A2 KY2]. rewrite A in A2.
    set (s3 := set_stack (on s2 o (fun b => w_type b RD)) (s_stack (on s2 o (fun b => w_type b RD)))).
    assert (Eo : s_obj s3 o = w_type (s_obj s2 o) RD).
    { unfold s3, set_stack, on, set_obj. cbn [s_obj]. apply upd_eq. }
    assert (Ez : forall z, z <> o -> s_obj s3 z = s_obj s2 z).
    { intros z N. unfold s3, set_stack, on, set_obj. cbn [s_obj]. now apply upd_neq. }
    assert (F2 : free (s_obj s2) o) by (apply (free_of _ (s_stack s2)); [apply I2|exact Q2]).
    assert (F3 : free (s_obj s3) o) by (unfold free; rewrite Eo; exact F2).
    assert (I3 : Inv (s_obj s3) (s_stack s3) (s_log s3)).
    { change (s_stack s3) with (s_stack s2). change (s_log s3) with (s_log s2).
      exact (Inv_other tidy F _ _ _ _ o I2 F2 F3 Ez). }
    assert (K3 : keeps o (s_obj s) (s_obj s3)).
    { apply (keeps_trans _ _ (s_obj s2)); [split; auto|]. apply keeps_own; [rewrite Eo; reflexivity|rewrite Eo; reflexivity|exact Ez]. }
    assert (M3 : s_mtx s3 = L2) by exact M2.
    assert (A3 : o_alive (s_obj s3 o) = true) by (rewrite Eo; exact A2).
    assert (KY3 : key_of (s_obj s3 o) = key_of (s_obj s o)) by (rewrite Eo; exact KY2).
    assert (T3 : o_type (s_obj s3 o) = RD) by (rewrite Eo; reflexivity).
    clearbody s3. clear Eo Ez F2 I2 K2 ID2 A2 KY2 Q2 M2 s2 I1 M1 E1 E2 E3 s1.
    pose proof (first_match_spec s3 (s_obj s3 o) (s_stack s3)) as FM.
    destruct I3 as [HG HT].
    destruct (first_match s3 (s_obj s3 o) (s_stack s3)) as [i|].
    - destruct FM as [IN CM]. pose proof (g_st _ _ HG i IN) as HR.
      assert (NQ : i <> o) by (intros ->; destruct F3 as (X & _); destruct HR as (_ & Y & _); congruence).
      assert (LI : o_locked (s_obj s3 i) = true) by apply HR. rewrite LI.
      set (s' := on _ i _).
      assert (Eo : s_obj s' o = w_master (w_state (s_obj s3 o) true false) (Some i)).
      { unfold s', on, set_obj. cbn [s_obj]. rewrite upd_neq by auto. apply upd_eq. }
      assert (Ei : s_obj s' i = w_pend (s_obj s3 i) (o_pend (s_obj s3 i) ++ [o])).
      { unfold s', on, set_obj. cbn [s_obj]. rewrite upd_eq. rewrite upd_neq by auto. reflexivity. }
      assert (Ez : forall z, z <> o -> z <> i -> s_obj s' z = s_obj s3 z).
      { intros z Z1 Z2. unfold s', on, set_obj. cbn [s_obj]. now rewrite !upd_neq by auto. }
      cbn [Rcsv_Proofs5.ires]. split; [exact M3|]. split; [|split].
      + change (s_stack s') with (s_stack s3). change (s_log s') with (s_log s3). split.
        * apply (G_join (s_obj s3) _ _ o i); auto; rewrite T3; intro X; discriminate X.
        * intros TD. destruct (HT TD) as [T1 H1]. split.
          -- apply (T_join (s_obj s3) _ _ o i); auto.
             apply (cmp_family F); [auto|rewrite KY3; auto| |exact CM]. apply (t_fam _ _ _ _ T1). exact LI.
          -- intros R. destruct (H1 R) as [C P]. split; [exact C|]. rewrite P.
             rewrite (desc_map (s_obj s3) (s_obj s')); [reflexivity|]. intros x X. split.
             ++ apply (join_key (s_obj s3) _ o i); auto.
             ++ apply (join_type (s_obj s3) _ o i); auto.
      + apply (keeps_trans _ _ (s_obj s3)); [exact K3|]. split.
        * intros z. split; [|apply (join_key (s_obj s3) _ o i); auto].
          destruct (Z.eq_dec z o) as [->|N]; [rewrite Eo; reflexivity|].
          destruct (Z.eq_dec z i) as [->|N']; [rewrite Ei; reflexivity|now rewrite Ez].
        * intros z N. destruct (Z.eq_dec z i) as [->|N']; [rewrite Ei; auto|rewrite Ez; auto].
      + rewrite Eo. reflexivity.
    - destruct (stack_unlock_ok L2 (set_stack s3 (s_stack s3 ++ [o])) M3) as (s4 & -> & M4 & E4 & E5 & _ & E6 & _).
      cbn [bind]. cbn [set_stack s_obj s_stack s_log] in E4, E5, E6.
      assert (NI : ~ In o (s_stack s3)) by (apply (free_not_in _ _ _ HG); apply F3).
      assert (AP : tidy -> honest (s_log s3) -> forall h, In h (held (s_log s3)) -> ~ meets (fst h) (key_of (s_obj s3 o))).
      { intros TD R. destruct (HT TD) as [T1 H1]. destruct (H1 R) as [C P].
        apply (apart (s_obj s3) (s_stack s3)); auto. rewrite KY3. auto. }
      assert (PO : o_pend (s_obj s3 o) = []) by apply F3.
      destruct (shm (read_of (s_obj s4 o)) false s4) as [a L5 s5|c L5 s5|s5] eqn:SH; cbn [bind].
      + rewrite E4 in SH. apply shm_ret in SH as (-> & E7 & E8 & E9 & M5 & _). rewrite M4 in M5. rewrite E4 in E8.
        rewrite E5 in E9. rewrite E6 in E7.
        destruct (Z.eqb_spec a 0) as [->|NA].
        * set (s' := on s5 o (fun b => w_state b true true)).
          assert (Eo : s_obj s' o = w_state (s_obj s3 o) true true).
          { unfold s', on, set_obj. cbn [s_obj]. rewrite upd_eq, E8. reflexivity. }
          assert (Ez : forall z, z <> o -> s_obj s' z = s_obj s3 z).
          { intros z Z1. unfold s', on, set_obj. cbn [s_obj]. rewrite upd_neq by auto. now rewrite E8. }
          cbn [Rcsv_Proofs5.ires]. split; [exact M5|]. split; [|split].
          -- change (s_stack s') with (s_stack s5). change (s_log s') with (s_log s5). rewrite E9, E7. split.
             ++ apply (G_enter (s_obj s3)); auto. rewrite T3. intro X; discriminate X.
             ++ intros TD. destruct (HT TD) as [T1 H1]. split.
                ** apply (T_enter (s_obj s3)); auto; [rewrite KY3; auto|].
                   intros x X Q. symmetry in Q. apply (cmp_family F) in Q.
                   --- rewrite (FM x X) in Q. discriminate Q.
                   --- auto.
                   --- rewrite KY3. auto.
                   --- apply (t_fam _ _ _ _ T1). apply (g_st _ _ HG). exact X.
                ** intros R. pose proof (honest_tail _ _ R) as R'. destruct (H1 R') as [C P]. split.
                   --- cbn. split; [|exact C]. exact (AP TD R').
                   --- cbn [held read_of Z.eqb]. rewrite map_app. cbn [map]. rewrite <- Permutation_cons_append.
                       assert (D : desc (s_obj s') o = (key_of (s_obj s3 o), false)).
                       { unfold desc. rewrite Eo. cbn. rewrite T3. reflexivity. }
                       rewrite D. apply perm_skip. rewrite P. rewrite (desc_map (s_obj s3) (s_obj s')); [reflexivity|].
                       intros x X. rewrite Ez; auto. intros ->. auto.
          -- apply (keeps_trans _ _ (s_obj s3)); [exact K3|].
             apply keeps_own; [rewrite Eo; reflexivity|rewrite Eo; reflexivity|exact Ez].
          -- rewrite Eo. reflexivity.
        * destruct (stack_lock_ok false s5 M5) as (s6 & -> & M6 & E10 & E11 & _ & E12 & _). cbn [bind].
          set (s' := on _ o (fun b => w_state b false false)).
          assert (Eo : s_obj s' o = w_state (s_obj s3 o) false false).
          { unfold s', on, set_obj, set_stack. cbn [s_obj]. rewrite upd_eq, E10, E8. reflexivity. }
          assert (Ez : forall z, z <> o -> s_obj s' z = s_obj s3 z).
          { intros z Z1. unfold s', on, set_obj, set_stack. cbn [s_obj]. rewrite upd_neq by auto. now rewrite E10, E8. }
          assert (SK : erase o (s_stack s3 ++ [o]) = s_stack s3).
          { clear - NI. induction (s_stack s3) as [|x r IH]; cbn; [now rewrite Z.eqb_refl|].
            destruct (Z.eqb_spec x o) as [->|N]; [elim NI; now left|]. f_equal. apply IH. intro; apply NI; now right. }
          cbn [Rcsv_Proofs5.ires]. split; [exact M6|]. split; [|split].
          -- change (s_stack s') with (erase o (s_stack s6)). change (s_log s') with (s_log s6). rewrite E11, E9, E12, E7, SK.
             apply (Inv_log tidy F); [|exact NA|].
             ++ apply (Inv_other tidy F (s_obj s3) _ _ _ o); auto; [split; auto|]. unfold free. rewrite Eo. cbn.
                destruct F3 as (_ & _ & X & Y). auto.
             ++ intros TD R _ _. exact (AP TD R).
          -- apply (keeps_trans _ _ (s_obj s3)); [exact K3|].
             apply keeps_own; [rewrite Eo; reflexivity|rewrite Eo; reflexivity|exact Ez].
          -- left. rewrite Eo. reflexivity.
      + unfold shm in SH. destruct (s_ans s4); [|discriminate SH]. injection SH as <- <- <-.
        cbn [Rcsv_Proofs5.ires]. rewrite E6, E4. intros TD R. destruct (HT TD) as [T1 H1]. destruct (H1 R) as [C P].
        split; [exact C|]. exact (AP TD R).
      + exact Logic.I.
  Qed.

  (** *** The readers give way *)
  Definition lift (f : Z -> obj) (o : Z) : Z -> obj := upd f o (w_state (f o) true true).

  Definition TK (o : Z) (ks rs : list Z) (s : st) : Prop :=
    G (lift (s_obj s) o) (ks ++ [o]) /\
    o_locked (s_obj s o) = false /\ o_has (s_obj s o) = false /\
    s_stack s = ks ++ [o] /\ o_type (s_obj s o) = WR /\ o_alive (s_obj s o) = true /\
    NoDup (ks ++ rs) /\ ~ In o (ks ++ rs) /\
    (forall i, In i rs -> root (s_obj s) i) /\
    (tidy -> F (key_of (s_obj s o)) /\ T F rs (lift (s_obj s) o) (ks ++ [o]) /\
       (forall i, In i rs -> key_of (s_obj s i) = key_of (s_obj s o)) /\
       (forall x y, In x (ks ++ rs) -> In y (ks ++ rs) -> key_of (s_obj s x) = key_of (s_obj s y) -> x = y) /\
       (honest (s_log s) -> Hd (s_obj s) (ks ++ rs) (s_log s))).

  Lemma lift_neq : forall f o z, z <> o -> lift f o z = f z.
  Proof. intros. unfold lift. now apply upd_neq. Qed.
  Lemma lift_eq : forall f o, lift f o o = w_state (f o) true true.
  Proof. intros. unfold lift. apply upd_eq. Qed.
  Lemma lift_key : forall f o z, key_of (lift f o z) = key_of (f z).
  Proof. intros f o z. destruct (Z.eq_dec z o) as [->|N]; [rewrite lift_eq; reflexivity|now rewrite lift_neq]. Qed.
  Lemma lift_type : forall f o z, o_type (lift f o z) = o_type (f z).
  Proof. intros f o z. destruct (Z.eq_dec z o) as [->|N]; [rewrite lift_eq; reflexivity|now rewrite lift_neq]. Qed.
  Lemma lift_pend : forall f o z, o_pend (lift f o z) = o_pend (f z).
  Proof. intros f o z. destruct (Z.eq_dec z o) as [->|N]; [rewrite lift_eq; reflexivity|now rewrite lift_neq]. Qed.

  Definition tres (o : Z) (f : Z -> obj) (ks : list Z) (r : res unit) : Prop :=
    match r with
    | Ret _ L s' => L = false /\ s_mtx s' = false /\ TK o ks [] s' /\ keeps o f (s_obj s')
    | Wait c L s' => tidy -> honest (s_log s') -> clean (s_log s') /\ proper (held (s_log s')) c
    | Hang _ => False
    end.

  Lemma take_over_i : forall o ks rs s, s_mtx s = false -> TK o ks rs s -> tres o (s_obj s) ks (take_over o rs false s).
  Proof.
    induction rs as [|i r IH]; intros s M H; cbn [take_over].
    { cbn. split; [reflexivity|]. split; [exact M|]. split; [exact H|apply keeps_refl]. }
    cbv zeta. destruct H as (HG & L0 & H0 & SK & TY & AL & ND & NI & RT & HT).
    assert (HI : root (s_obj s) i) by (apply RT; now left).
    assert (NQ : i <> o) by (intros ->; destruct HI as (_ & X & _); congruence).
    assert (LH : o_locked (s_obj s i) && o_has (s_obj s i) = true).
    { destruct HI as (_ & X & Y & _). now rewrite X, Y. }
    rewrite LH.
    assert (NK : ~ In i (ks ++ [o])).
    { intros X. apply in_app_iff in X as [X|[X|[]]]; [|congruence].
      apply NoDup_remove_2 in ND. apply ND. apply in_app_iff. now left. }
    assert (ND' : NoDup (ks ++ r)) by (apply NoDup_remove_1 in ND; exact ND).
    assert (NI' : ~ In o (ks ++ r)).
    { intros X. apply NI. apply in_app_iff. apply in_app_iff in X as [X|X]; [now left|right; now right]. }
    assert (NIr : ~ In i (ks ++ r)) by (apply NoDup_remove_2 in ND; exact ND).
    assert (RO : root (lift (s_obj s) o) o).
    { apply (g_st _ _ HG). apply in_app_iff. right. now left. }
    assert (RI : root (lift (s_obj s) o) i) by (unfold root; rewrite lift_neq by auto; exact HI).
    destruct (shm (unlock_of (s_obj s i)) false s) as [a L1 s1|c L1 s1|s1] eqn:SH; cbn [bind].
    - apply shm_ret in SH as (-> & E1 & E2 & E3 & M1 & _). rewrite M in M1.
      set (sa := on s1 i (fun b => w_master (w_state b true false) (Some o))).
      set (sb := on sa o (fun b => w_pend b (o_pend b ++ [i]))).
      assert (Pi : o_pend (s_obj sb i) = o_pend (s_obj s i)).
      { unfold sb, sa, on, set_obj. cbn [s_obj]. rewrite upd_neq by auto. rewrite upd_eq, E2. reflexivity. }
      rewrite Pi.
      destruct (take_no (lift (s_obj s) o) _ o i HG RO RI) as (NO & Nself & _ & _).
      rewrite lift_pend in NO, Nself.
      destruct (move_obj (o_pend (s_obj s i)) sb o o NO) as (V1 & V2 & V3).
      set (sm := move_pending sb o o (o_pend (s_obj s i))) in *.
      set (s' := on sm i (fun b => w_pend b [])).
      assert (Bo : s_obj sb o = w_pend (s_obj s o) (o_pend (s_obj s o) ++ [i])).
      { unfold sb, sa, on, set_obj. cbn [s_obj]. rewrite upd_eq. rewrite upd_neq by auto. now rewrite E2. }
      assert (Bi : s_obj sb i = w_master (w_state (s_obj s i) true false) (Some o)).
      { unfold sb, sa, on, set_obj. cbn [s_obj]. rewrite upd_neq by auto. rewrite upd_eq. now rewrite E2. }
      assert (Bz : forall z, z <> o -> z <> i -> s_obj sb z = s_obj s z).
      { intros z Z1 Z2. unfold sb, sa, on, set_obj. cbn [s_obj]. rewrite !upd_neq by auto. now rewrite E2. }
      assert (Eo : s_obj s' o = w_pend (s_obj s o) (o_pend (s_obj s o) ++ i :: o_pend (s_obj s i))).
      { unfold s', on, set_obj. cbn [s_obj]. rewrite upd_neq by auto. rewrite V1, Bo. cbn. now rewrite <- app_assoc. }
      assert (Ei : s_obj s' i = w_pend (w_master (w_state (s_obj s i) true false) (Some o)) []).
      { unfold s', on, set_obj. cbn [s_obj]. rewrite upd_eq. rewrite V3 by auto. now rewrite Bi. }
      assert (Er : forall z, In z (o_pend (s_obj s i)) -> s_obj s' z = w_master (s_obj s z) (Some o)).
      { intros z Z. assert (z <> o) by (intros ->; auto). assert (z <> i) by (intros ->; auto).
        unfold s', on, set_obj. cbn [s_obj]. rewrite upd_neq by auto. rewrite V2 by auto. now rewrite Bz. }
      assert (Ez : forall z, z <> o -> z <> i -> ~ In z (o_pend (s_obj s i)) -> s_obj s' z = s_obj s z).
      { intros z Z1 Z2 Z3. unfold s', on, set_obj. cbn [s_obj]. rewrite upd_neq by auto. rewrite V3 by auto. now apply Bz. }
      assert (LG : s_log s' = (unlock_of (s_obj s i), a) :: s_log s).
      { unfold s'. cbn [on set_obj s_log]. unfold sm. rewrite move_log. exact E1. }
      assert (ST : s_stack s' = ks ++ [o]).
      { unfold s'. cbn [on set_obj s_stack]. unfold sm. rewrite move_stack. cbn. now rewrite E3. }
      assert (M' : s_mtx s' = false).
      { unfold s'. cbn [on set_obj s_mtx]. unfold sm. rewrite move_mtx. exact M1. }
      (* the lifted functions *)
      assert (Lo : lift (s_obj s') o o = w_pend (lift (s_obj s) o o) (o_pend (lift (s_obj s) o o) ++ i :: o_pend (lift (s_obj s) o i))).
      { rewrite !lift_eq, (lift_neq _ _ i) by auto. rewrite Eo. reflexivity. }
      assert (Li : lift (s_obj s') o i = w_pend (w_master (w_state (lift (s_obj s) o i) true false) (Some o)) []).
      { rewrite !lift_neq by auto. exact Ei. }
      assert (Lr : forall z, In z (o_pend (lift (s_obj s) o i)) -> lift (s_obj s') o z = w_master (lift (s_obj s) o z) (Some o)).
      { intros z Z. rewrite lift_pend in Z. assert (z <> o) by (intros ->; auto). rewrite !lift_neq by auto. auto. }
      assert (Lz : forall z, z <> o -> z <> i -> ~ In z (o_pend (lift (s_obj s) o i)) -> lift (s_obj s') o z = lift (s_obj s) o z).
      { intros z Z1 Z2 Z3. rewrite lift_pend in Z3. rewrite !lift_neq by auto. auto. }
      assert (TL : o_type (lift (s_obj s) o o) = WR) by (rewrite lift_type; exact TY).
      assert (KE : forall z, key_of (s_obj s' z) = key_of (s_obj s z)).
      { intros z. pose proof (take_key (lift (s_obj s) o) (lift (s_obj s') o) o i Lo Li Lr Lz z) as X.
        now rewrite !lift_key in X. }
      assert (TE : forall z, o_type (s_obj s' z) = o_type (s_obj s z)).
      { intros z. pose proof (take_type (lift (s_obj s) o) (lift (s_obj s') o) o i Lo Li Lr Lz z) as X.
        now rewrite !lift_type in X. }
      assert (AE : forall z, o_alive (s_obj s' z) = o_alive (s_obj s z)).
      { intros z. destruct (Z.eq_dec z o) as [->|N]; [rewrite Eo; reflexivity|].
        destruct (Z.eq_dec z i) as [->|N']; [rewrite Ei; reflexivity|].
        destruct (in_dec Z.eq_dec z (o_pend (s_obj s i))) as [N2|N2]; [now rewrite Er|now rewrite Ez]. }
      assert (K1 : keeps o (s_obj s) (s_obj s')).
      { split; [intros z; auto|]. intros z N. rewrite TE. split; [|auto].
        destruct (Z.eq_dec z i) as [->|N']; [rewrite Ei; cbn; symmetry; apply HI|].
        destruct (in_dec Z.eq_dec z (o_pend (s_obj s i))) as [N2|N2]; [now rewrite Er|now rewrite Ez]. }
      assert (RR : forall j, In j r -> root (s_obj s) j /\ j <> o /\ j <> i /\ ~ In j (o_pend (s_obj s i))).
      { intros j J. assert (RJ : root (s_obj s) j) by (apply RT; now right). split; [exact RJ|].
        assert (Nj : j <> o) by (intros ->; apply NI'; apply in_app_iff; now right).
        split; [exact Nj|]. split; [intros ->; apply NIr; apply in_app_iff; now right|].
        intros X. destruct (g_pe _ _ HG i j) as [_ C]; [now rewrite lift_pend|].
        unfold child in C. rewrite lift_neq in C by auto. exact (root_child _ _ _ RJ C). }
      assert (H' : TK o ks r s').
      { split.
        { apply (G_take (lift (s_obj s) o) _ _ o i); auto. }
        rewrite TE, AE, Eo. cbn [w_pend o_locked o_has].
        split; [exact L0|]. split; [exact H0|]. split; [exact ST|]. split; [exact TY|]. split; [exact AL|].
        split; [exact ND'|]. split; [exact NI'|]. split.
        { intros j J. destruct (RR j J) as (R1 & R2 & R3 & R4). unfold root. rewrite Ez by auto. exact R1. }
        intros TD. destruct (HT TD) as (FO & T1 & KR & UN & H1).
        assert (KI : key_of (s_obj s i) = key_of (s_obj s o)) by (apply KR; now left).
        split; [change (F (key_of (s_obj s o))); exact FO|]. split; [|split; [|split]].
        - apply (T_take (lift (s_obj s) o) _ _ o i); auto. rewrite !lift_key. exact KI.
        - intros j J. rewrite KE. apply KR. now right.
        - assert (SUB : forall x, In x (ks ++ r) -> In x (ks ++ i :: r)).
          { intros x X. apply in_app_iff. apply in_app_iff in X as [X|X]; [now left|right; now right]. }
          intros x y X Y. rewrite !KE. apply UN; auto.
        - rewrite LG. intros R. pose proof (honest_tail _ _ R) as R'.
          destruct (H1 R') as [C P]. rewrite map_app in P. cbn [map] in P.
          assert (P' : Permutation (held (s_log s)) (desc (s_obj s) i :: map (desc (s_obj s)) (ks ++ r))).
          { rewrite P, map_app. symmetry. apply Permutation_middle. }
          assert (a = 0) as ->.
          { apply (honest_head _ _ _ _ _ _ (is_wr (o_type (s_obj s i))) R).
            apply (Permutation_in _ (Permutation_sym P')). now left. }
          split.
          + cbn. split; [|exact C]. exists (is_wr (o_type (s_obj s i))).
            apply (Permutation_in _ (Permutation_sym P')). now left.
          + cbn [held unlock_of Z.eqb]. rewrite (drop_perm _ _ _ _ P').
            * rewrite (desc_map (s_obj s) (s_obj s')); [reflexivity|]. auto.
            * intros x X Q. apply in_map_iff in X as (z & <- & Z). cbn in Q. 
              assert (z = i).
              { apply UN; [|apply in_app_iff; right; now left|exact Q].
                apply in_app_iff. apply in_app_iff in Z as [Z|Z]; [now left|right; now right]. }
              congruence. }
      specialize (IH s' M' H').
      destruct (take_over o r false s') as [u L2 s2|c L2 s2|s2]; cbn [tres] in *; auto.
      destruct IH as (B1 & B2 & B3 & B4). split; [auto|]. split; [auto|]. split; [auto|].
      exact (keeps_trans _ _ _ _ K1 B4).
    - unfold shm in SH. destruct (s_ans s); [|discriminate SH]. injection SH as <- <- <-. cbn [tres].
      intros TD R. destruct (HT TD) as (_ & _ & _ & _ & H1). destruct (H1 R) as [C P]. split; [exact C|].
      exists (is_wr (o_type (s_obj s i))). apply (Permutation_in _ (Permutation_sym P)).
      apply (in_map (desc (s_obj s)) _ i). apply in_app_iff. right. now left.
    - unfold shm in SH. destruct (s_ans s); discriminate SH.
  Qed.
End Run.
