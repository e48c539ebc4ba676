(** The structure is kept by every method: writing, whole calls, reachable states. *)
From Verif Require Import Base Rcsv_Model Rcsv_Spec Rcsv_Proofs Rcsv_Proofs3 Rcsv_Proofs4 Rcsv_Proofs5 Rcsv_Proofs6.
From Coq Require Import ZArith List Bool Lia Permutation.
Import ListNotations.
Open Scope Z_scope.

Lemma erase_last : forall o l, ~ In o l -> erase o (l ++ [o]) = l.
Proof.
  intros o l NI. induction l as [|x r IH]; cbn; [now rewrite Z.eqb_refl|].
  destruct (Z.eqb_spec x o) as [->|N]; [elim NI; now left|]. f_equal. apply IH. intro; apply NI; now right.
Qed.

Section Run.
  Variables (tidy : Prop) (F : key -> Prop).
  Hypothesis SEP : tidy -> separate F.
  Local Notation Inv := (Inv tidy F).
  Local Notation ires := (ires tidy F).
  Local Notation fails := (fails tidy).

  (** recovery with pending objects does not come back *)
  Lemma relock_hang : forall i r s, s_mtx s = true -> o_type (s_obj s i) <> UNL -> exists s', relock (i :: r) true s = Hang s'.
  Proof.
    intros i r s M T. cbn [relock]. cbv zeta.
    assert (E : is_unl (o_type (s_obj (on s i (fun b => w_master (w_state b false false) None)) i)) = false).
    { unfold on, set_obj. cbn [s_obj]. rewrite upd_eq. cbn. destruct (o_type (s_obj s i)); [elim T; reflexivity|reflexivity|reflexivity]. }
    rewrite E. rewrite on_mtx, M. eexists. reflexivity.
  Qed.

  Lemma rawwrite_i : forall o L s, s_mtx s = L -> Inv (s_obj s) (s_stack s) (s_log s) ->
    o_alive (s_obj s o) = true -> (tidy -> F (key_of (s_obj s o))) ->
    ires o (s_obj s) (fun b s' => if b then o_locked (s_obj s' o) = true /\ o_type (s_obj s' o) = WR
                                  else o_locked (s_obj s' o) = false \/ fails (s_log s')) (RawWriteLock o L s).
  Proof.
    intros o L s M I A FO. unfold RawWriteLock. cbv zeta.
    destruct (o_locked (s_obj s o) && is_wr (o_type (s_obj s o))) eqn:C1.
    { cbn. apply andb_true_iff in C1 as [C1 C1']. split; [exact M|]. split; [exact I|]. split; [apply keeps_refl|].
      split; [exact C1|]. destruct (o_type (s_obj s o)); try discriminate C1'; reflexivity. }
    destruct (o_locked (s_obj s o) && is_rd (o_type (s_obj s o)) &&
              match o_master (s_obj s o) with Some m => is_wr (o_type (s_obj s m)) | None => false end) eqn:C2.
    { apply andb_true_iff in C2 as [C2 C3]. apply andb_true_iff in C2 as [C2 C2'].
      destruct (o_master (s_obj s o)) as [m|] eqn:MS; [|discriminate C3].
      destruct I as [HG HT].
      destruct (g_lo _ _ HG o C2) as [(_ & _ & _ & X & _)|(x & C & J)]; [congruence|].
      assert (x = m) by (destruct C as (_ & _ & _ & X & _); congruence). subst x.
      assert (TM : o_type (s_obj s m) = WR) by (destruct (o_type (s_obj s m)); try discriminate C3; reflexivity).
      set (s' := on s o (fun b => w_type b WR)).
      assert (Eo : s_obj s' o = w_type (s_obj s o) WR) by (unfold s', on, set_obj; cbn [s_obj]; apply upd_eq).
      assert (Ez : forall z, z <> o -> s_obj s' z = s_obj s z) by (intros z N; unfold s', on, set_obj; cbn [s_obj]; now apply upd_neq).
      cbn [Rcsv_Proofs5.ires]. split; [exact M|]. split; [|split].
      - change (s_stack s') with (s_stack s). change (s_log s') with (s_log s). split.
        + exact (G_retype _ _ _ o m HG C TM Eo Ez).
        + intros TD. destruct (HT TD) as [T1 H1]. split; [exact (T_retype _ _ _ _ _ o m T1 C Eo Ez)|].
          intros R. destruct (H1 R) as [K P]. split; [exact K|]. rewrite P.
          rewrite (desc_map (s_obj s) (s_obj s')); [reflexivity|]. intros x X. rewrite Ez; auto.
          intros ->. apply (g_st _ _ HG) in X. exact (root_child _ _ _ X C).
      - apply keeps_own; [rewrite Eo; reflexivity|rewrite Eo; reflexivity|exact Ez].
      - rewrite Eo. split; [exact C2|reflexivity]. }
    destruct (stack_lock_ok L s M) as (s1 & -> & M1 & E1 & E2 & _ & E3 & _). cbn [bind].
    assert (I1 : Inv (s_obj s1) (s_stack s1) (s_log s1)) by (rewrite E1, E2, E3; exact I).
    eapply (ires_bind tidy F o (s_obj s1)).
    { apply unlock_if_i; [exact M1|exact I1|]. rewrite E1. intros X.
      destruct (o_locked (s_obj s o)) eqn:LK; [|reflexivity]. exfalso.
      destruct I as [HG _]. pose proof (locked_type _ _ o HG LK) as TY.
      destruct (o_type (s_obj s o)); [congruence|discriminate X|discriminate C1]. }
    rewrite E1. intros b L2 s2 M2 I2 K2 Q2. destruct b; cbn [negb].
    2:{ cbn [ires]. split; [exact M2|]. split; [exact I2|]. split; [exact K2|]. now right. }
    destruct K2 as [ID2 K2]. destruct (ID2 o) as [A2 KY2]. rewrite A in A2.
    set (s3 := on s2 o (fun b => w_type b WR)).
    assert (Eo : s_obj s3 o = w_type (s_obj s2 o) WR).
    { unfold s3, on, set_obj. cbn [s_obj]. apply upd_eq. }
    assert (Ez : forall z, z <> o -> s_obj s3 z = s_obj s2 z).
    { intros z N. unfold s3, on, set_obj. cbn [s_obj]. now apply upd_neq. }
    assert (F2 : free (s_obj s2) o) by (apply (free_of _ (s_stack s2)); [apply I2|exact Q2]).
    assert (F3 : free (s_obj s3) o) by (unfold free; rewrite Eo; exact F2).
    assert (I3 : Inv (s_obj s3) (s_stack s3) (s_log s3)).
    { change (s_stack s3) with (s_stack s2). change (s_log s3) with (s_log s2).
      exact (Inv_other tidy F _ _ _ _ o I2 F2 F3 Ez). }
    assert (K3 : keeps o (s_obj s) (s_obj s3)).
    { apply (keeps_trans _ _ (s_obj s2)); [split; auto|]. apply keeps_own; [rewrite Eo; reflexivity|rewrite Eo; reflexivity|exact Ez]. }
    assert (M3 : s_mtx s3 = L2) by exact M2.
    assert (A3 : o_alive (s_obj s3 o) = true) by (rewrite Eo; exact A2).
    assert (KY3 : key_of (s_obj s3 o) = key_of (s_obj s o)) by (rewrite Eo; exact KY2).
    assert (T3 : o_type (s_obj s3 o) = WR) by (rewrite Eo; reflexivity).
    clearbody s3. clear Eo Ez F2 I2 K2 ID2 A2 KY2 Q2 M2 s2 I1 M1 E1 E2 E3 s1.
    destruct (scan s3 (s_obj s3 o) (s_stack s3)) as [[rs ks] w] eqn:SC.
    apply scan_spec in SC as (PM & RS & WS). destruct I3 as [HG HT].
    assert (NI : ~ In o (s_stack s3)) by (apply (free_not_in _ _ _ HG); apply F3).
    assert (NIk : ~ In o (ks ++ rs)) by (intros X; apply NI; exact (Permutation_in _ (Permutation_sym PM) X)).
    assert (ND : NoDup (ks ++ rs)) by (exact (Permutation_NoDup PM (g_nd _ _ HG))).
    assert (SUB : forall x, In x (ks ++ rs) -> In x (s_stack s3)) by (intros x X; exact (Permutation_in _ (Permutation_sym PM) X)).
    assert (NDk : NoDup ks) by (clear - ND; induction ks as [|a l IH]; [constructor|inversion ND; subst; constructor; [intro; apply H1; apply in_app_iff; auto|auto]]).
    assert (SUBk : forall x, In x ks -> In x (s_stack s3)) by (intros x X; apply SUB; apply in_app_iff; auto).
    destruct w as [i|].
    - destruct WS as (IN & CM & TI). pose proof (g_st _ _ HG i (SUBk i IN)) as HR.
      assert (NQ : i <> o) by (intros ->; destruct F3 as (X & _); destruct HR as (_ & Y & _); congruence).
      set (s' := on _ i _).
      assert (Eo : s_obj s' o = w_master (w_state (s_obj s3 o) true false) (Some i)).
      { unfold s', on, set_obj, set_stack. cbn [s_obj]. rewrite upd_neq by auto. apply upd_eq. }
      assert (Ei : s_obj s' i = w_pend (s_obj s3 i) (o_pend (s_obj s3 i) ++ [o])).
      { unfold s', on, set_obj, set_stack. cbn [s_obj]. rewrite upd_eq. rewrite upd_neq by auto. reflexivity. }
      assert (Ez : forall z, z <> o -> z <> i -> s_obj s' z = s_obj s3 z).
      { intros z Z1 Z2. unfold s', on, set_obj, set_stack. cbn [s_obj]. now rewrite !upd_neq by auto. }
      assert (GK : G (s_obj s3) ks).
      { apply (G_stack _ _ _ HG NDk). intros x X. apply (g_st _ _ HG). auto. }
      cbn [Rcsv_Proofs5.ires]. split; [exact M3|]. split; [|split].
      + change (s_stack s') with ks. change (s_log s') with (s_log s3). split.
        * apply (G_join (s_obj s3) _ _ o i); auto. rewrite T3; intro X; discriminate X.
        * intros TD. destruct (HT TD) as [T1 H1].
          assert (KI : key_of (s_obj s3 o) = key_of (s_obj s3 i)).
          { apply (cmp_family F); [auto|rewrite KY3; auto| |exact CM]. apply (t_fam _ _ _ _ T1). apply HR. }
          assert (RN : rs = []).
          { destruct rs as [|j r]; [reflexivity|exfalso].
            assert (J : In j (s_stack s3)) by (apply SUB; apply in_app_iff; right; now left).
            destruct (RS j (or_introl eq_refl)) as [CJ TJ].
            assert (KJ : key_of (s_obj s3 o) = key_of (s_obj s3 j)).
            { apply (cmp_family F); [auto|rewrite KY3; auto| |exact CJ]. apply (t_fam _ _ _ _ T1).
              apply (g_st _ _ HG). exact J. }
            assert (i = j) by (apply (t_one _ _ _ _ T1); auto; congruence). subst j. congruence. }
          subst rs. rewrite app_nil_r in PM. split.
          -- apply (T_join (s_obj s3) _ _ o i); auto. apply (T_perm _ _ _ (s_stack s3)); auto.
          -- intros R. destruct (H1 R) as [C P]. split; [exact C|]. rewrite P.
             rewrite (desc_map (s_obj s3) (s_obj s')).
             ++ rewrite PM. reflexivity.
             ++ intros x X. split.
                ** apply (join_key (s_obj s3) _ o i); auto.
                ** apply (join_type (s_obj s3) _ o i); auto.
      + apply (keeps_trans _ _ (s_obj s3)); [exact K3|]. split.
        * intros z. split; [|apply (join_key (s_obj s3) _ o i); auto].
          destruct (Z.eq_dec z o) as [->|N]; [rewrite Eo; reflexivity|].
          destruct (Z.eq_dec z i) as [->|N']; [rewrite Ei; reflexivity|now rewrite Ez].
        * intros z N. destruct (Z.eq_dec z i) as [->|N']; [rewrite Ei; auto|rewrite Ez; auto].
      + rewrite Eo. cbn. auto.
    - cbn [set_stack s_stack].
      match goal with |- context [stack_unlock L2 ?x] =>
        destruct (stack_unlock_ok L2 x M3) as (s4 & -> & M4 & E4 & E5 & _ & E6 & _) end.
      cbn [bind]. cbn [set_stack s_obj s_stack s_log] in E4, E5, E6.
      assert (NIks : ~ In o ks) by (intros X; apply NI; auto).
      assert (UNL_NO : forall j, In j ks -> cmp (s_obj s3 o) (s_obj s3 j) = false).
      { intros j J. destruct (WS j J) as [X|X]; [exact X|]. destruct (g_st _ _ HG j (SUBk j J)) as (_ & _ & _ & _ & Y). congruence. }
      assert (TK4 : TK tidy F o ks rs s4).
      { unfold TK. rewrite E4, E5, E6.
        assert (LG : G (lift (s_obj s3) o) (s_stack s3 ++ [o])).
        { apply (G_enter (s_obj s3)); auto; [rewrite T3; intro X; discriminate X|apply lift_eq|].
          intros z N. now apply lift_neq. }
        split; [|split; [apply F3|split; [apply F3|split; [reflexivity|split; [exact T3|split; [exact A3|split; [exact ND|split; [exact NIk|split]]]]]]]].
        - apply (G_stack _ _ _ LG).
          + apply (Permutation_NoDup (l := o :: ks)); [apply Permutation_cons_append|]. constructor; auto.
          + intros x X. apply (g_st _ _ LG). apply in_app_iff. apply in_app_iff in X as [X|X]; [left; auto|now right].
        - intros j J. apply (g_st _ _ HG). apply SUB. apply in_app_iff. now right.
        - intros TD. destruct (HT TD) as [T1 H1].
          assert (FO3 : F (key_of (s_obj s3 o))) by (rewrite KY3; auto).
          assert (FS : forall j, In j (s_stack s3) -> F (key_of (s_obj s3 j))).
          { intros j J. apply (t_fam _ _ _ _ T1). apply (g_st _ _ HG). exact J. }
          split; [exact FO3|]. split; [|split; [|split]].
          + apply (T_enter (s_obj s3)); auto.
            * apply lift_eq.
            * intros z N. now apply lift_neq.
            * apply (T_out _ [] _ _ (s_stack s3)); [rewrite app_nil_r; exact PM|exact SUBk|exact T1].
            * intros x X Q. symmetry in Q. apply (cmp_family F) in Q; auto. rewrite (UNL_NO x X) in Q. discriminate Q.
          + intros j J. symmetry. apply (cmp_family F); auto.
            * apply FS. apply SUB. apply in_app_iff. now right.
            * apply RS. exact J.
          + intros x y X Y. apply (t_one _ _ _ _ T1); auto.
          + intros R. destruct (H1 R) as [C P]. split; [exact C|]. rewrite P, PM. reflexivity. }
      pose proof (take_over_i tidy F o ks rs s4 M4 TK4) as TV.
      destruct (take_over o rs false s4) as [u L5 s5|c L5 s5|s5]; cbn [bind tres] in *; [|exact TV|exact Logic.I].
      destruct TV as (-> & M5 & (HG5 & LK5 & H5 & SK5 & TY5 & AL5 & ND5 & NI5 & _ & HT5) & K5).
      assert (K05 : keeps o (s_obj s) (s_obj s5)).
      { apply (keeps_trans _ _ (s_obj s4)); [rewrite E4; exact K3|exact K5]. }
      rewrite app_nil_r in HT5.
      assert (AP : tidy -> honest (s_log s5) -> clean (s_log s5) /\
                   forall h, In h (held (s_log s5)) -> ~ meets (fst h) (key_of (s_obj s5 o))).
      { intros TD R. destruct (HT5 TD) as (FO5 & T5 & _ & _ & H6). destruct (H6 R) as [C P]. split; [exact C|].
        intros h IH ME. apply (Permutation_in _ P) in IH. apply in_map_iff in IH as (j & <- & J). cbn in ME.
        destruct (SEP TD) as [_ S].
        assert (RJ : root (lift (s_obj s5) o) j) by (apply (g_st _ _ HG5); apply in_app_iff; now left).
        assert (Nj : j <> o) by (intros ->; auto).
        assert (FJ : F (key_of (s_obj s5 j))).
        { rewrite <- (lift_key (s_obj s5) o). apply (t_fam _ _ _ _ T5). apply RJ. }
        assert (Q : key_of (s_obj s5 j) = key_of (s_obj s5 o)) by (apply S; auto).
        apply Nj. apply (t_one _ _ _ _ T5).
        - apply in_app_iff; now left.
        - apply in_app_iff; right; now left.
        - now rewrite !lift_key. }
      destruct (shm (write_of (s_obj s5 o)) false s5) as [a L6 s6|c L6 s6|s6] eqn:SH; cbn [bind].
      + apply shm_ret in SH as (-> & E7 & E8 & E9 & M6 & _). rewrite M5 in M6.
        destruct (Z.eqb_spec a 0) as [->|NA].
        * set (s' := on s6 o (fun b => w_state b true true)).
          assert (EF : s_obj s' = lift (s_obj s5) o).
          { unfold s', on, set_obj, lift. cbn [s_obj]. rewrite E8. reflexivity. }
          cbn [Rcsv_Proofs5.ires]. split; [exact M6|]. split; [|split].
          -- rewrite EF. change (s_stack s') with (s_stack s6). change (s_log s') with (s_log s6). rewrite E9, E7, SK5.
             split; [exact HG5|]. intros TD. destruct (HT5 TD) as (FO5 & T5 & _ & _ & H6).
             split; [exact T5|]. intros R. pose proof (honest_tail _ _ R) as R'. destruct (H6 R') as [C P].
             split.
             ++ cbn. split; [|exact C]. exact (proj2 (AP TD R')).
             ++ cbn [held write_of Z.eqb]. rewrite map_app. cbn [map]. rewrite <- Permutation_cons_append.
                assert (D : desc (lift (s_obj s5) o) o = (key_of (s_obj s5 o), true)).
                { unfold desc. rewrite lift_key, lift_type, TY5. reflexivity. }
                rewrite D. apply perm_skip. rewrite P. rewrite (desc_map (s_obj s5) (lift (s_obj s5) o)); [reflexivity|].
                intros x X. rewrite lift_key, lift_type. auto.
          -- apply (keeps_trans _ _ (s_obj s5)); [exact K05|]. rewrite EF.
             apply keeps_own; [rewrite lift_eq; reflexivity|apply lift_key|intros z N; now apply lift_neq].
          -- rewrite EF, lift_type. split; [rewrite lift_eq; reflexivity|exact TY5].
        * destruct (stack_lock_ok false s6 M6) as (s7 & -> & M7 & E10 & E11 & _ & E12 & _). cbn [bind].
          cbn [set_stack s_obj]. rewrite E10, E8.
          destruct (o_pend (s_obj s5 o)) as [|i r] eqn:PO.
          -- cbn [relock bind]. set (s' := on _ o (fun b => w_state b false false)).
             assert (Eo : s_obj s' o = w_state (s_obj s5 o) false false).
             { unfold s', on, set_obj, set_stack. cbn [s_obj]. rewrite !upd_eq, E10, E8. rewrite (w_pend_nil _ PO). reflexivity. }
             assert (Ez : forall z, z <> o -> s_obj s' z = s_obj s5 z).
             { intros z Z1. unfold s', on, set_obj, set_stack. cbn [s_obj]. rewrite !upd_neq by auto. now rewrite E10, E8. }
             assert (RO : root (lift (s_obj s5) o) o) by (apply (g_st _ _ HG5); apply in_app_iff; right; now left).
             assert (Lo : s_obj s' o = w_state (lift (s_obj s5) o o) false false) by (rewrite Eo, lift_eq; reflexivity).
             assert (Lz : forall z, z <> o -> s_obj s' z = lift (s_obj s5) o z) by (intros z N; rewrite lift_neq by auto; auto).
             assert (PL : o_pend (lift (s_obj s5) o o) = []) by (rewrite lift_pend; exact PO).
             pose proof (G_release _ _ _ o HG5 RO PL Lo Lz) as G6. rewrite (erase_last o ks NIks) in G6.
             cbn [Rcsv_Proofs5.ires]. split; [exact M7|]. split; [|split].
             ++ change (s_stack s') with (erase o (s_stack s7)). change (s_log s') with (s_log s7).
                rewrite E11, E9, E12, E7, SK5, (erase_last o ks NIks).
                apply (Inv_log tidy F); [|exact NA|].
                ** split; [exact G6|]. intros TD. destruct (HT5 TD) as (FO5 & T5 & _ & _ & H6). split.
                   --- pose proof (T_release _ _ _ o RO PL Lo Lz F [] T5) as X. rewrite (erase_last o ks NIks) in X. exact X.
                   --- intros R. destruct (H6 R) as [C P]. split; [exact C|]. rewrite P.
                       rewrite (desc_map (s_obj s5) (s_obj s')); [reflexivity|]. intros x X. rewrite Ez; auto. intros ->. auto.
                ** intros TD R _ _. exact (proj2 (AP TD R)).
             ++ apply (keeps_trans _ _ (s_obj s5)); [exact K05|].
                apply keeps_own; [rewrite Eo; reflexivity|rewrite Eo; reflexivity|exact Ez].
             ++ left. rewrite Eo. reflexivity.
          -- match goal with |- context [relock (i :: r) true ?x] =>
               destruct (relock_hang i r x) as (sh & ->) end.
             ++ exact M7.
             ++ cbn [set_stack s_obj]. rewrite E10, E8.
                destruct (g_pe _ _ HG5 o i) as [_ (_ & _ & _ & _ & X)]; [rewrite lift_pend, PO; now left|].
                now rewrite lift_type in X.
             ++ exact Logic.I.
      + unfold shm in SH. destruct (s_ans s5); [|discriminate SH]. injection SH as <- <- <-.
        cbn [Rcsv_Proofs5.ires]. exact AP.
      + exact Logic.I.
  Qed.
End Run.
