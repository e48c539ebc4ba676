(** The structure is kept by every method. *)
From Verif Require Import Base Rcsv_Model Rcsv_Spec Rcsv_Proofs Rcsv_Proofs3 Rcsv_Proofs4.
From Coq Require Import ZArith List Bool Lia Permutation.
Import ListNotations.
Open Scope Z_scope.

(** what a call on [o] leaves alone *)
Definition keeps (o : Z) (f f' : Z -> obj) : Prop :=
  same_id f f' /\
  forall z, z <> o -> o_locked (f' z) = o_locked (f z) /\
            (o_locked (f z) = true -> o_type (f z) = WR -> o_type (f' z) = WR).

Lemma keeps_refl : forall o f, keeps o f f.
Proof. intros o f. split; [intros z; auto|auto]. Qed.
Lemma keeps_trans : forall o f g h, keeps o f g -> keeps o g h -> keeps o f h.
Proof.
  intros o f g h [A B] [C D]. split.
  - intros z. destruct (A z), (C z). split; congruence.
  - intros z N. destruct (B z N) as [B1 B2], (D z N) as [D1 D2]. split; [congruence|].
    intros L W. apply D2; [congruence|auto].
Qed.
(** changes of [o] only *)
Lemma keeps_own : forall o f f', o_alive (f' o) = o_alive (f o) -> key_of (f' o) = key_of (f o) ->
  (forall z, z <> o -> f' z = f z) -> keeps o f f'.
Proof.
  intros o f f' A K E. split.
  - intros z. destruct (Z.eq_dec z o) as [->|N]; [auto|rewrite (E z N); auto].
  - intros z N. rewrite (E z N). auto.
Qed.

Section Run.
  Variables (tidy : Prop) (F : key -> Prop).
  Hypothesis SEP : tidy -> separate F.

  Definition Hd (f : Z -> obj) (k : list Z) (log : list (scall * Z)) : Prop :=
    clean log /\ Permutation (held log) (map (desc f) k).
  Definition Inv (f : Z -> obj) (k : list Z) (log : list (scall * Z)) : Prop :=
    G f k /\ (tidy -> T F [] f k /\ (honest log -> Hd f k log)).

  (** a release was refused; of a held lock where the ranges are separate *)
  Definition fails (log : list (scall * Z)) : Prop := ~ releases_ok log /\ (tidy -> ~ honest log).

  Definition ires (o : Z) (f : Z -> obj) (post : bool -> st -> Prop) (r : res bool) : Prop :=
    match r with
    | Ret b L s' => s_mtx s' = L /\ Inv (s_obj s') (s_stack s') (s_log s') /\ keeps o f (s_obj s') /\ post b s'
    | Wait c L s' => tidy -> honest (s_log s') -> clean (s_log s') /\ proper (held (s_log s')) c
    | Hang s' => True
    end.

  Lemma ires_bind : forall o f g P Q (r : res bool) (k : bool -> bool -> st -> res bool),
    ires o f Q r ->
    (forall b L s, s_mtx s = L -> Inv (s_obj s) (s_stack s) (s_log s) -> keeps o f (s_obj s) -> Q b s ->
       ires o g P (k b L s)) ->
    ires o g P (bind r k).
  Proof.
    intros o f g P Q [b L s|c L s|s] k H K; cbn in *; auto. destruct H as (A & B & C & D). auto.
  Qed.

  Lemma ires_post : forall o f (P Q : bool -> st -> Prop) r, ires o f P r -> (forall b s, P b s -> Q b s) -> ires o f Q r.
  Proof. intros o f P Q [b L s|c L s|s] H K; cbn in *; auto. destruct H as (A & B & C & D). auto. Qed.

  Lemma ires_from : forall o f g P r, keeps o g f -> ires o f P r -> ires o g P r.
  Proof.
    intros o f g P [b L s|c L s|s] K H; cbn in *; auto. destruct H as (A & B & C & D).
    split; [auto|]. split; [auto|]. split; [exact (keeps_trans _ _ _ _ K C)|auto].
  Qed.

  Lemma desc_map : forall f f' k, (forall x, In x k -> key_of (f' x) = key_of (f x) /\ o_type (f' x) = o_type (f x)) ->
    map (desc f') k = map (desc f) k.
  Proof.
    intros f f' k H. apply map_ext_in. intros x I. destruct (H x I) as [A B]. unfold desc. now rewrite A, B.
  Qed.

  (** a failed call to the shared lock layer that is not a release *)
  Lemma Inv_log : forall f k log c a, Inv f k log -> a <> 0 ->
    (tidy -> honest log -> clean log -> Permutation (held log) (map (desc f) k) -> proper (held log) c) ->
    Inv f k ((c, a) :: log).
  Proof.
    intros f k log c a [A B] N P. split; [exact A|]. intros TD. destruct (B TD) as [B1 B2]. split; [exact B1|].
    intros R. destruct (B2 (honest_tail _ _ R)) as [C D]. split.
    - cbn. split; [|exact C]. apply P; auto. exact (honest_tail _ _ R).
    - cbn. destruct (Z.eqb_spec a 0); [congruence|exact D].
  Qed.

  (** changes of the unlocked object [o] *)
  Lemma Inv_other : forall f f' k log o, Inv f k log -> free f o -> free f' o -> (forall z, z <> o -> f' z = f z) ->
    Inv f' k log.
  Proof.
    intros f f' k log o [A B] FR FR' E. split; [exact (G_other _ _ _ _ A FR FR' E)|].
    intros TD. destruct (B TD) as [B1 B2]. split; [exact (T_other _ _ _ _ _ _ B1 A FR FR' E)|].
    intros R. destruct (B2 R) as [C D]. split; [exact C|]. rewrite D, (desc_map f f'); [reflexivity|].
    intros x I. rewrite E; auto. intros ->. destruct FR as (L & _). exact (free_not_in _ _ _ A L I).
  Qed.

  Lemma unl_false : forall t, is_unl t = false -> t <> UNL.
  Proof. intros [| |] H; try discriminate H; intro X; discriminate X. Qed.

  Lemma rawunlock_i : forall o L s, s_mtx s = L -> Inv (s_obj s) (s_stack s) (s_log s) ->
    ires o (s_obj s) (fun b s' => (if b then o_locked (s_obj s' o) = false else fails (s_log s')) /\
                                  o_type (s_obj s' o) = o_type (s_obj s o)) (RawUnlock o L s).
  Proof.
    intros o L s M I. unfold RawUnlock. cbv zeta.
    destruct (is_unl (o_type (s_obj s o)) || negb (o_locked (s_obj s o))) eqn:U.
    { cbn. split; [exact M|]. split; [exact I|]. split; [apply keeps_refl|]. split; [|reflexivity].
      destruct (o_locked (s_obj s o)) eqn:LK; [|reflexivity]. rewrite orb_false_r in U.
      destruct I as [HG _]. destruct (g_lo _ _ HG o LK) as [(_ & _ & _ & _ & X)|(x & (_ & _ & _ & _ & X) & _)];
        destruct (o_type (s_obj s o)); try discriminate U; congruence. }
    apply orb_false_iff in U as [U1 U2]. apply negb_false_iff in U2. apply unl_false in U1.
    destruct (stack_lock_ok L s M) as (s1 & -> & M1 & E1 & E2 & _ & E3 & _). cbn [bind].
    destruct I as [HG HT].
    destruct (o_master (s_obj s o)) as [m|] eqn:MS.
    - (* pending *)
      destruct (g_lo _ _ HG o U2) as [R|(x & C & J)]; [destruct R as (_ & _ & _ & X & _); congruence|].
      assert (x = m) by (destruct C as (_ & _ & _ & X & _); congruence). subst x.
      set (s' := on _ o (fun b => w_state b false false)).
      assert (NQ : m <> o) by (apply (leave_neq (s_obj s) (s_stack s) o m HG J)).
      assert (Eo : s_obj s' o = w_state (w_master (s_obj s o) None) false false).
      { unfold s', on, set_obj. cbn [s_obj]. rewrite !upd_eq. rewrite upd_neq by auto. rewrite E1. reflexivity. }
      assert (Em : s_obj s' m = w_pend (s_obj s m) (erase o (o_pend (s_obj s m)))).
      { unfold s', on, set_obj. cbn [s_obj]. rewrite !(upd_neq _ _ o) by auto. rewrite upd_eq, E1. reflexivity. }
      assert (Ez : forall z, z <> o -> z <> m -> s_obj s' z = s_obj s z).
      { intros z Z1 Z2. unfold s', on, set_obj. cbn [s_obj]. rewrite !upd_neq by auto. now rewrite E1. }
      assert (G1 : G (s_obj s') (s_stack s)) by (apply (G_leave (s_obj s) _ _ o m); auto).
      assert (KE : forall z, key_of (s_obj s' z) = key_of (s_obj s z)) by (apply (leave_key _ _ o m); auto).
      assert (TE : forall z, o_type (s_obj s' z) = o_type (s_obj s z)) by (apply (leave_type _ _ o m); auto).
      cbn [ires]. split; [exact M1|]. split; [|split].
      + change (s_stack s') with (s_stack s1). change (s_log s') with (s_log s1). rewrite E2, E3.
        split; [exact G1|]. intros TD. destruct (HT TD) as [T1 H1]. split.
        * apply (T_leave (s_obj s) _ _ o m); auto.
        * intros R. destruct (H1 R) as [C1 P1]. split; [exact C1|].
          rewrite P1, (desc_map (s_obj s) (s_obj s')); [reflexivity|auto].
      + split.
        * intros z. split; [|auto]. destruct (Z.eq_dec z o) as [->|N]; [rewrite Eo; reflexivity|].
          destruct (Z.eq_dec z m) as [->|N']; [rewrite Em; reflexivity|]. now rewrite Ez.
        * intros z N. rewrite TE. split; [|auto].
          destruct (Z.eq_dec z m) as [->|N']; [rewrite Em; reflexivity|]. now rewrite Ez.
      + rewrite TE. split; [rewrite Eo; reflexivity|reflexivity].
    - (* root *)
      assert (HR : root (s_obj s) o).
      { destruct (g_lo _ _ HG o U2) as [R|(x & (_ & _ & _ & X & _) & _)]; [exact R|congruence]. }
      destruct (o_pend (s_obj s o)) as [|y r] eqn:PE.
      + (* release *)
        assert (HH : o_has (s_obj s o) = true) by apply HR. rewrite HH.
        destruct (stack_unlock_ok true (set_stack s1 (erase o (s_stack s1))) M1) as (s2 & -> & M2 & E4 & E5 & _ & E6 & _).
        cbn [bind]. cbn [set_stack s_obj s_stack s_log] in E4, E5, E6. rewrite E1 in E4. rewrite E2 in E5. rewrite E3 in E6.
        destruct (shm (unlock_of (s_obj s o)) false s2) as [a L3 s3|c L3 s3|s3] eqn:SH; cbn [bind].
        * apply shm_ret in SH as (-> & E7 & E8 & E9 & M3 & _). rewrite M2 in M3. rewrite E4 in E8. rewrite E5 in E9. rewrite E6 in E7.
          assert (PR : tidy -> honest (s_log s) -> Permutation (held (s_log s)) (desc (s_obj s) o :: map (desc (s_obj s)) (erase o (s_stack s))) /\
              forall x, In x (map (desc (s_obj s)) (erase o (s_stack s))) -> fst x <> key_of (s_obj s o)).
          { intros TD R. destruct (HT TD) as [T1 H1]. destruct (H1 R) as [C1 P1].
            assert (IO : In o (s_stack s)) by (destruct (t_in _ _ _ _ T1 o HR) as [X|[]]; exact X).
            split.
            - rewrite P1. rewrite (erase_perm o (s_stack s) IO) at 1. reflexivity.
            - intros x X Q. apply in_map_iff in X as (z & <- & Z). cbn in Q.
              destruct (erase_nd o _ (g_nd _ _ HG)) as [_ NI].
              assert (z = o) by (apply (t_one _ _ _ _ T1); auto; exact (erase_in _ _ _ Z)). congruence. }
          destruct (Z.eqb_spec a 0) as [->|NA].
          -- set (s' := on s3 o (fun b => w_state b false false)).
             assert (Eo : s_obj s' o = w_state (s_obj s o) false false).
             { unfold s', on, set_obj. cbn [s_obj]. rewrite upd_eq, E8. reflexivity. }
             assert (Ez : forall z, z <> o -> s_obj s' z = s_obj s z).
             { intros z Z1. unfold s', on, set_obj. cbn [s_obj]. rewrite upd_neq by auto. now rewrite E8. }
             cbn [ires]. split; [exact M3|]. split; [|split].
             ++ change (s_stack s') with (s_stack s3). change (s_log s') with (s_log s3). rewrite E9, E7.
                split; [apply (G_release (s_obj s)); auto|]. intros TD. destruct (HT TD) as [T1 H1].
                split; [apply (T_release (s_obj s)); auto|]. intros R. pose proof (honest_tail _ _ R) as R'.
                destruct (PR TD R') as (P & N). destruct (H1 R') as [C1 _].
                split.
                ** cbn. split; [|exact C1]. exists (is_wr (o_type (s_obj s o))).
                   apply (Permutation_in _ (Permutation_sym P)). now left.
                ** cbn [held unlock_of]. cbn [Z.eqb]. rewrite (drop_perm _ _ _ _ P N).
                   rewrite (desc_map (s_obj s) (s_obj s')); [reflexivity|]. intros x X. rewrite Ez; auto.
                   intros ->. destruct (erase_nd o _ (g_nd _ _ HG)) as [_ NI]. auto.
             ++ apply keeps_own; [rewrite Eo; reflexivity|rewrite Eo; reflexivity|exact Ez].
             ++ rewrite Eo. split; reflexivity.
          -- destruct (stack_lock_ok false s3 M3) as (s4 & -> & M4 & E10 & E11 & _ & E12 & _). cbn [bind].
             set (s' := set_stack s4 (s_stack s4 ++ [o])).
             assert (EO : s_obj s' = s_obj s) by (unfold s'; cbn [set_stack s_obj]; rewrite E10; exact E8).
             assert (NR : fails (s_log s')).
             { unfold s'. cbn [set_stack s_log]. rewrite E12, E7. split; [intros R; apply releases_head in R; congruence|].
               intros TD R. pose proof (honest_tail _ _ R) as R'. destruct (PR TD R') as (P & _).
               apply (honest_head _ _ _ _ _ _ (is_wr (o_type (s_obj s o)))) in R; [congruence|].
               apply (Permutation_in _ (Permutation_sym P)). now left. }
             destruct (erase_nd o _ (g_nd _ _ HG)) as [ND NI].
             cbn [ires]. split; [exact M4|]. split; [|split].
             ++ rewrite EO. change (s_stack s') with (s_stack s4 ++ [o]). rewrite E11, E9. split.
                ** apply (G_stack _ _ _ HG).
                   --- apply (Permutation_NoDup (l := o :: erase o (s_stack s))); [apply Permutation_cons_append|].
                       constructor; auto.
                   --- intros x X. apply in_app_iff in X as [X|[<-|[]]]; [|exact HR]. apply (g_st _ _ HG).
                       exact (erase_in _ _ _ X).
                ** intros TD. destruct (HT TD) as [T1 _]. split; [|intros R; elim (proj2 NR TD R)].
                   assert (IO : In o (s_stack s)) by (destruct (t_in _ _ _ _ T1 o HR) as [X|[]]; exact X).
                   apply (T_perm _ _ _ (s_stack s)); [|exact T1]. rewrite (erase_perm o _ IO) at 1.
                   apply Permutation_cons_append.
             ++ rewrite EO. apply keeps_refl.
             ++ rewrite EO. split; [exact NR|reflexivity].
        * unfold shm in SH. destruct (s_ans s2); [|discriminate SH]. injection SH as <- <- <-.
          cbn [ires]. rewrite E6. intros TD R. destruct (HT TD) as [T1 H1]. destruct (H1 R) as [C1 P1]. split; [exact C1|].
          exists (is_wr (o_type (s_obj s o))). apply (Permutation_in _ (Permutation_sym P1)).
          apply (in_map (desc (s_obj s)) _ o). destruct (t_in _ _ _ _ T1 o HR) as [X|[]]; exact X.
        * exact Logic.I.
      + (* pass on *)
        unfold pass_on. cbn [set_stack s_obj]. rewrite E1, PE. 
        destruct (pick (set_stack s1 (erase o (s_stack s1))) (y :: r)) as [n rest] eqn:PK.
        assert (P : Permutation (o_pend (s_obj s o)) (n :: rest)).
        { rewrite PE. apply (pick_perm (set_stack s1 (erase o (s_stack s1)))); [intro X; discriminate X|exact PK]. }
        set (sa := set_stack s1 (erase o (s_stack s1))) in *.
        assert (EA : s_obj sa = s_obj s) by (unfold sa; cbn; exact E1).
        destruct (pass_no (s_obj s) (s_stack s) o n rest HG P) as [NO NR].
        destruct (pass_nd (s_obj s) (s_stack s) o n rest HG P) as [Nn Nr].
        assert (CN : child (s_obj s) o n) by (apply (pass_child (s_obj s) (s_stack s) o n rest HG P); auto).
        destruct (move_obj rest sa n n Nn) as (V1 & V2 & V3). rewrite EA in V1, V2, V3.
        rewrite (child_pend _ _ _ _ HG CN) in V1. cbn [app] in V1.
        set (sm := move_pending sa n n rest) in *.
        set (s' := on _ o (fun b => w_state b false false)).
        assert (Eo : s_obj s' o = w_state (w_pend (s_obj s o) []) false false).
        { unfold s', set_stack, on, set_obj. cbn [s_obj]. rewrite !upd_eq. rewrite upd_neq by auto. rewrite upd_eq.
          rewrite V3; auto. }
        assert (En : s_obj s' n = w_master (w_type (w_state (w_pend (s_obj s n) rest) true true) (o_type (s_obj s o))) None).
        { unfold s', set_stack, on, set_obj. cbn [s_obj]. rewrite (upd_neq _ _ o) by auto. rewrite upd_eq.
          rewrite (upd_neq _ _ o) by auto. rewrite V1. reflexivity. }
        assert (Er : forall z, In z rest -> s_obj s' z = w_master (s_obj s z) (Some n)).
        { intros z Z. assert (z <> o) by (intros ->; auto). assert (z <> n) by (intros ->; auto).
          unfold s', set_stack, on, set_obj. cbn [s_obj]. rewrite !upd_neq by auto. auto. }
        assert (Ez : forall z, z <> o -> z <> n -> ~ In z rest -> s_obj s' z = s_obj s z).
        { intros z Z1 Z2 Z3. unfold s', set_stack, on, set_obj. cbn [s_obj]. rewrite !upd_neq by auto. auto. }
        assert (ST : s_stack s' = erase o (s_stack s) ++ [n]).
        { unfold s'. cbn [on set_obj set_stack s_stack]. unfold sm. rewrite move_stack. unfold sa. cbn [set_stack s_stack]. now rewrite E2. }
        assert (LG : s_log s' = s_log s).
        { unfold s'. cbn [on set_obj set_stack s_log]. unfold sm. rewrite move_log. exact E3. }
        assert (KE : forall z, key_of (s_obj s' z) = key_of (s_obj s z)).
        { apply (pass_key (s_obj s) _ o n rest (o_type (s_obj s o))); auto. }
        cbn [ires]. split; [unfold s'; cbn [on set_obj set_stack s_mtx]; unfold sm; rewrite move_mtx; exact M1|].
        split; [|split].
        * rewrite ST, LG. split; [apply (G_pass (s_obj s) _ _ o n rest (o_type (s_obj s o))); auto|].
          intros TD. destruct (HT TD) as [T1 H1].
          assert (IO : In o (s_stack s)) by (destruct (t_in _ _ _ _ T1 o HR) as [X|[]]; exact X).
          split; [apply (T_pass (s_obj s) _ _ o n rest (o_type (s_obj s o))); auto|].
          intros R. destruct (H1 R) as [C1 P1]. split; [exact C1|]. rewrite P1.
          rewrite (erase_perm o (s_stack s) IO) at 1. cbn [map]. rewrite map_app. cbn [map].
          rewrite <- Permutation_cons_append.
          assert (D : desc (s_obj s') n = desc (s_obj s) o).
          { unfold desc. rewrite KE, En. cbn. rewrite (t_pe _ _ _ _ T1 o n); [reflexivity|].
            apply (Permutation_in _ (Permutation_sym P)). now left. }
          rewrite D. apply perm_skip. rewrite (desc_map (s_obj s) (s_obj s')); [reflexivity|].
          intros x X. split; [apply KE|]. rewrite Ez; auto.
          -- intros ->. destruct (erase_nd o _ (g_nd _ _ HG)) as [_ NI]. auto.
          -- intros ->. apply erase_in in X. apply (g_st _ _ HG) in X. exact (root_child _ _ _ X CN).
          -- intros Q. apply erase_in in X. apply (g_st _ _ HG) in X.
             apply (root_child _ o x X). apply (pass_child (s_obj s) (s_stack s) o n rest HG P); auto.
        * split.
          -- intros z. split; [|auto]. destruct (Z.eq_dec z o) as [->|N]; [rewrite Eo; reflexivity|].
             destruct (Z.eq_dec z n) as [->|N']; [rewrite En; reflexivity|].
             destruct (in_dec Z.eq_dec z rest) as [N2|N2]; [now rewrite Er|now rewrite Ez].
          -- intros z N. destruct (Z.eq_dec z n) as [->|N'].
             ++ rewrite En. cbn. split; [symmetry; apply CN|]. intros _ W. apply (g_wr _ _ HG o n); [|exact W].
                apply (Permutation_in _ (Permutation_sym P)). now left.
             ++ destruct (in_dec Z.eq_dec z rest) as [N2|N2]; [rewrite Er by auto; auto|rewrite Ez; auto].
        * rewrite Eo. split; reflexivity.
  Qed.
End Run.
