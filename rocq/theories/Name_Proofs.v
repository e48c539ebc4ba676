(** Proofs about names and the registry. *)
From Coq Require Import ZArith List Bool Lia.
From Verif Require Import Base Name_Model Name_Spec.
Import ListNotations.
Open Scope Z_scope.

Lemma strncmp_zero : forall n a b, is_cstring a -> is_cstring b ->
  (strncmp n a b = 0 <-> firstn n a = firstn n b).
Proof.
  induction n; cbn [strncmp firstn]; intros a b Ha Hb; [tauto|].
  inversion Ha as [|x a' Hx Ha' E1]; inversion Hb as [|y b' Hy Hb' E2]; subst.
  - tauto.
  - split; intros H; [lia|discriminate].
  - split; intros H; [lia|discriminate].
  - destruct (Z.eqb_spec x y).
    + subst. rewrite IHn by auto. split; intros H; congruence.
    + split; intros H; [lia|congruence].
Qed.

Lemma is_cstring_firstn : forall n a, is_cstring a -> is_cstring (firstn n a).
Proof.
  intros n a H. unfold is_cstring in *. rewrite Forall_forall in *. intros x Hx. apply H.
  rewrite <- (firstn_skipn n a). apply in_or_app; auto.
Qed.

Lemma key_name : forall a, n_name (key_of a) = firstn 63 a.
Proof. destruct a; reflexivity. Qed.

Lemma key_hash_eq : forall a b, firstn 63 a = firstn 63 b -> n_hash (key_of a) = n_hash (key_of b).
Proof.
  intros a b H. destruct a as [|x a]; destruct b as [|y b]; try discriminate H; auto.
  unfold key_of, n_hash, strncpy63, MAXLENGTH. now rewrite H.
Qed.

Lemma compare_name_zero : forall a b, is_cstring a -> is_cstring b ->
  (compare_name (key_of a) (key_of b) = 0 <-> same_name a b).
Proof.
  intros a b Ha Hb. unfold compare_name, same_name. rewrite !key_name.
  assert (S : strncmp MAXLENGTH (firstn 63 a) (firstn 63 b) = 0 <-> firstn 63 a = firstn 63 b).
  { unfold MAXLENGTH. rewrite strncmp_zero by (now apply is_cstring_firstn).
    now rewrite !firstn_firstn, Nat.min_id. }
  split.
  - destruct (Z.ltb_spec (n_hash (key_of a)) (n_hash (key_of b))); [discriminate|].
    destruct (Z.ltb_spec (n_hash (key_of b)) (n_hash (key_of a))); [discriminate|].
    apply S.
  - intros H. rewrite (key_hash_eq _ _ H), Z.ltb_irrefl. now apply S.
Qed.

Lemma same_nameb_spec : forall a b, same_nameb a b = true <-> same_name a b.
Proof. intros. unfold same_nameb, same_name. destruct list_eq_dec; split; intros; auto; discriminate. Qed.

Lemma same_name_refl : forall a, same_name a a. Proof. reflexivity. Qed.
Lemma same_name_sym : forall a b, same_name a b -> same_name b a. Proof. unfold same_name; auto. Qed.
Lemma same_name_trans : forall a b c, same_name a b -> same_name b c -> same_name a c.
Proof. unfold same_name; intros; congruence. Qed.

Section Refinement.
  Variable M : Type.
  Variable m0 : M.

  (** the list [l] of registry entries represents the partial function [f] *)
  Inductive represents : list (ment M) -> (cstring -> option M) -> Prop :=
  | rep_nil : forall f, (forall n, f n = None) -> represents [] f
  | rep_cons : forall n m l f g, is_cstring n ->
      represents l g -> g n = None ->
      (forall x, f x = if same_nameb x n then Some m else g x) ->
      (forall x y, same_name x y -> g x = g y) ->
      represents (mkM M (key_of n) m :: l) f.

  Lemma represents_ext : forall l f g, represents l f -> (forall x, g x = f x) -> represents l g.
  Proof.
    intros l f g H. destruct H as [f H|n m l f h Hn Hr Hnone Hf Hsame]; intros E.
    - constructor. intros. rewrite E. auto.
    - econstructor; eauto. intros. rewrite E. auto.
  Qed.

  Lemma represents_same : forall l f, represents l f -> forall x y, same_name x y -> f x = f y.
  Proof.
    intros l f H. destruct H as [f H|n m l f h Hn Hr Hnone Hf Hsame]; intros x y E.
    - now rewrite !H.
    - rewrite !Hf. rewrite (Hsame x y E).
      assert (A : same_nameb x n = same_nameb y n).
      { apply eq_true_iff_eq. rewrite !same_nameb_spec. unfold same_name in *. now rewrite E. }
      now rewrite A.
  Qed.

  Lemma on_first_spec : forall l f, represents l f -> forall name op, is_cstring name ->
    match f name with
    | None => on_first M (key_of name) op l = None
    | Some m => exists l', on_first M (key_of name) op l = Some (l', snd (op m))
                           /\ represents l' (s_set M f name (fst (op m)))
    end.
  Proof.
    intros l f H. induction H as [f Hf|n m l f g Hn Hr IH Hnone Hf Hsame]; intros name op Hname.
    - rewrite Hf. reflexivity.
    - cbn [on_first m_key m_st]. rewrite (Hf name).
      destruct (same_nameb name n) eqn:E.
      + assert (C : compare_name (key_of n) (key_of name) = 0).
        { apply compare_name_zero; auto. apply same_name_sym. now apply same_nameb_spec. }
        rewrite C. cbn [Z.eqb]. destruct (op m) as [m' res] eqn:Eop. cbn [fst snd].
        eexists. split; [reflexivity|].
        econstructor; eauto. intros x. unfold s_set. rewrite Hf.
        assert (A : same_nameb x name = same_nameb x n).
        { apply eq_true_iff_eq. rewrite !same_nameb_spec. apply same_nameb_spec in E.
          unfold same_name in *. now rewrite E. }
        rewrite A. destruct (same_nameb x n); auto.
      + assert (C : compare_name (key_of n) (key_of name) <> 0).
        { intros C. apply compare_name_zero in C; auto. apply same_name_sym, same_nameb_spec in C. congruence. }
        apply Z.eqb_neq in C. rewrite C. specialize (IH name op Hname).
        destruct (g name) as [mm|] eqn:Eg.
        * destruct IH as (l' & A & B). rewrite A. eexists. split; [reflexivity|].
          econstructor; eauto.
          -- unfold s_set. destruct (same_nameb n name) eqn:En; auto.
             apply same_nameb_spec, same_name_sym, same_nameb_spec in En. congruence.
          -- intros x. unfold s_set. rewrite Hf.
             destruct (same_nameb x name) eqn:Ex; auto.
             destruct (same_nameb x n) eqn:Exn; auto.
             apply same_nameb_spec in Ex, Exn.
             assert (same_nameb name n = true); [|congruence].
             apply same_nameb_spec. eapply same_name_trans; [apply same_name_sym; eassumption|assumption].
          -- eapply represents_same. exact B.
        * now rewrite IH.
  Qed.

  Definition refines (g : registry M) (s : store M) : Prop :=
    represents (r_list M g) (s_get M s) /\ r_free M g = s_room M s.

  Lemma step_refines : forall g s o, refines g s -> is_cstring (op_name M o) ->
    snd (reg_step M m0 g o) = snd (spec_step M m0 s o) /\
    refines (fst (reg_step M m0 g o)) (fst (spec_step M m0 s o)).
  Proof.
    intros [l fr] [sg room] o [Hr Hfr] Hn. cbn in *. subst.
    destruct o as [n f|n f]; cbn [op_name] in *; pose proof (on_first_spec l sg Hr n f Hn) as S; cbn.
    - unfold reg_lock. cbn. destruct (sg n) as [m|] eqn:E.
      + destruct S as (l' & A & B). rewrite A. cbn. split; auto. split; auto.
      + rewrite S. destruct room; cbn.
        * split; auto. split; auto.
        * destruct (f m0) as [m' res] eqn:Ef. cbn. split; auto. split; auto. cbn.
          econstructor; eauto. eapply represents_same; eauto.
    - unfold reg_unlock. cbn. destruct (sg n) as [m|] eqn:E.
      + destruct S as (l' & A & B). rewrite A. cbn. split; auto. split; auto.
      + rewrite S. cbn. split; auto. split; auto.
  Qed.

  Lemma run_refines : forall h g s, refines g s -> Forall (fun o => is_cstring (op_name M o)) h ->
    snd (reg_run M m0 g h) = snd (spec_run M m0 s h) /\
    refines (fst (reg_run M m0 g h)) (fst (spec_run M m0 s h)).
  Proof.
    induction h as [|o h IH]; intros g s R F; cbn; auto.
    inversion F; subst. destruct (step_refines g s o R H1) as [A B].
    destruct (reg_step M m0 g o) as [g1 r1]. destruct (spec_step M m0 s o) as [s1 r2]. cbn in A, B. subst.
    destruct (IH g1 s1 B H2) as [C D].
    destruct (reg_run M m0 g1 h), (spec_run M m0 s1 h). cbn in *. subst. auto.
  Qed.

  Lemma init_refines : forall c, refines (reg_init M c) (spec_init M c).
  Proof. intros. split; cbn; auto. constructor. auto. Qed.

  (** ** Facts about the specification itself *)

  Lemma spec_keeps : forall h s n, s_get M s n <> None -> s_get M (fst (spec_run M m0 s h)) n <> None.
  Proof.
    induction h as [|o h IH]; intros s n H; cbn; auto.
    assert (A : s_get M (fst (spec_step M m0 s o)) n <> None).
    { destruct o as [x f|x f]; cbn; destruct (s_get M s x) eqn:E; cbn; auto.
      - unfold s_set. destruct (same_nameb n x); [discriminate|auto].
      - destruct (s_room M s); cbn; auto. unfold s_set. destruct (same_nameb n x); [discriminate|auto].
      - unfold s_set. destruct (same_nameb n x); [discriminate|auto]. }
    destruct (spec_step M m0 s o) as [s1 r1]. specialize (IH s1 n A).
    cbn in A. destruct (spec_run M m0 s1 h). cbn in *. auto.
  Qed.
End Refinement.
