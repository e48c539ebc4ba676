(** Proofs about owner identities. *)
From Coq Require Import ZArith List Bool Lia.
From Verif Require Import Base Pid_Model.
Import ListNotations.
Open Scope Z_scope.

Lemma lor_high_low : forall a b, 0 <= a -> 0 <= b < 2 ^ 32 ->
  Z.lor (a * 2 ^ 32) b = a * 2 ^ 32 + b.
Proof.
  intros a b Ha Hb.
  assert (Z.land (a * 2 ^ 32) b = 0).
  { apply Z.bits_inj'. intros n Hn. rewrite Z.land_spec, Z.bits_0.
    destruct (Z.ltb_spec n 32).
    - rewrite Z.mul_pow2_bits_low by lia. reflexivity.
    - rewrite andb_comm. destruct (Z.eq_dec b 0) as [->|].
      + now rewrite Z.bits_0.
      + rewrite Z.bits_above_log2; auto; try lia.
        assert (Z.log2 b < 32) by (apply Z.log2_lt_pow2; lia). lia. }
  rewrite Z.add_nocarry_lxor by auto. now rewrite Z.lxor_lor.
Qed.

Lemma land_mask32 : forall x, Z.land x 4294967295 = x mod 2 ^ 32.
Proof. intros. change 4294967295 with (Z.ones 32). now rewrite Z.land_ones by lia. Qed.

Lemma compose_arith : forall pid tid,
  compose_flckpid pid tid = (pid mod 2 ^ 32) * 2 ^ 32 + (tid mod 2 ^ 32).
Proof.
  intros. unfold compose_flckpid, u64. rewrite land_mask32.
  rewrite Z.shiftl_mul_pow2 by lia.
  change two64 with (2 ^ 32 * 2 ^ 32).
  rewrite Z.mul_mod_distr_r by lia.
  rewrite (Z.rem_mul_r pid) by lia. rewrite (Z.rem_mul_r tid) by lia.
  rewrite (Z.mul_comm (2 ^ 32) ((pid / 2 ^ 32) mod 2 ^ 32)), Z_mod_plus_full, Zmod_mod.
  rewrite (Z.mul_comm (2 ^ 32) ((tid / 2 ^ 32) mod 2 ^ 32)), Z_mod_plus_full, Zmod_mod.
  apply lor_high_low.
  - apply Z.mod_pos_bound; lia.
  - apply Z.mod_pos_bound; lia.
Qed.

Lemma s32_mod : forall x, is_int32 x -> s32 (x mod 2 ^ 32) = x.
Proof.
  unfold is_int32, s32, INT_MIN, INT_MAX, two32. intros.
  change (2 ^ 32) with 4294967296. rewrite Zmod_mod.
  destruct (Z.ltb_spec (x mod 4294967296) 2147483648).
  - assert (0 <= x \/ x < 0) as [?|?] by lia.
    + rewrite Z.mod_small in *; lia.
    + rewrite <- (Z_mod_plus_full x 1) in *. rewrite Z.mod_small in *; lia.
  - assert (0 <= x \/ x < 0) as [?|?] by lia.
    + rewrite Z.mod_small in *; lia.
    + rewrite <- (Z_mod_plus_full x 1) in *. rewrite Z.mod_small in *; lia.
Qed.

Lemma decompose_pid_compose : forall pid tid, is_int32 pid ->
  decompose_pid (compose_flckpid pid tid) = pid.
Proof.
  intros. unfold decompose_pid. rewrite compose_arith, land_mask32, Z.shiftr_div_pow2 by lia.
  rewrite Z.div_add_l by lia.
  rewrite (Z.div_small (tid mod 2 ^ 32)) by (apply Z.mod_pos_bound; lia).
  rewrite Z.add_0_r, Zmod_mod. now apply s32_mod.
Qed.

Lemma decompose_tid_compose : forall pid tid, is_int32 tid ->
  decompose_tid (compose_flckpid pid tid) = tid.
Proof.
  intros. unfold decompose_tid. rewrite compose_arith, land_mask32.
  rewrite Z.add_comm, Z_mod_plus_full, Zmod_mod. now apply s32_mod.
Qed.

Lemma compose_nonzero : forall pid tid, is_int32 pid -> is_int32 tid ->
  (pid <> 0 \/ tid <> 0) -> compose_flckpid pid tid <> 0.
Proof.
  intros pid tid Hp Ht Hne H0.
  pose proof (decompose_pid_compose pid tid Hp) as A.
  pose proof (decompose_tid_compose pid tid Ht) as B.
  rewrite H0 in *. change (decompose_pid 0) with 0 in A. change (decompose_tid 0) with 0 in B. lia.
Qed.

Lemma compose_range : forall pid tid, is_u64 (compose_flckpid pid tid).
Proof.
  intros. rewrite compose_arith. unfold is_u64, two64.
  pose proof (Z.mod_pos_bound pid (2 ^ 32) ltac:(lia)).
  pose proof (Z.mod_pos_bound tid (2 ^ 32) ltac:(lia)).
  change (2 ^ 32) with 4294967296 in *. lia.
Qed.

(** ** Fork *)

(** what the identity must name *)
Definition names_itself (t : uthread) : Prop := fst (get_threadid t) = t_tid t.

Lemma names_itself_iff : forall t, names_itself t <-> (t_cache t = 0 \/ t_cache t = t_tid t).
Proof.
  intros. unfold names_itself, get_threadid. destruct (Z.eqb_spec (t_cache t) 0); cbn; intuition lia.
Qed.

Lemma query_keeps : forall t, names_itself t -> names_itself (snd (get_flckpid t)).
Proof.
  intros t H. apply names_itself_iff. apply names_itself_iff in H.
  unfold get_flckpid, get_threadid. destruct (Z.eqb_spec (t_cache t) 0); cbn; auto.
Qed.

Lemma In_replace_nth : forall A (l : list A) n x y, In y (replace_nth n x l) -> y = x \/ In y l.
Proof.
  induction l; destruct n; cbn; intros; intuition eauto.
  - apply IHl in H0. intuition.
Qed.

(** threads that queried before; used to state the fork discipline *)
Definition cached (sys : list uthread) (i : nat) : Prop :=
  exists t, nth_error sys i = Some t /\ t_cache t <> 0.

(** a history in which threads only fork before their first library call *)
Fixpoint fork_before_use (sys : list uthread) (h : list pid_event) : Prop :=
  match h with
  | [] => True
  | e :: r => (forall i np, e = EvFork i np -> ~ cached sys i) /\ fork_before_use (pid_step sys e) r
  end.

Lemma pid_step_ok : forall sys e, (forall t, In t sys -> names_itself t) ->
  (forall i np, e = EvFork i np -> ~ cached sys i) ->
  forall t, In t (pid_step sys e) -> names_itself t.
Proof.
  intros sys e H Hf t Hin. destruct e as [i|i np]; cbn in Hin.
  - destruct (nth_error sys i) as [u|] eqn:E; auto.
    apply In_replace_nth in Hin as [->|Hin]; auto.
    apply query_keeps, H. eapply nth_error_In; eauto.
  - destruct (nth_error sys i) as [u|] eqn:E; auto.
    apply in_app_or in Hin as [Hin|[<-|[]]]; auto.
    apply names_itself_iff. cbn. left.
    destruct (Z.eq_dec (t_cache u) 0); auto.
    exfalso. apply (Hf i np eq_refl). exists u; auto.
Qed.

Lemma pid_run_ok : forall h sys, (forall t, In t sys -> names_itself t) ->
  fork_before_use sys h -> forall t, In t (pid_run sys h) -> names_itself t.
Proof.
  unfold pid_run. induction h as [|e h IH]; cbn; intros sys H Hf t Hin; auto.
  destruct Hf as [Hf1 Hf2]. eapply IH; [|eassumption|eassumption].
  intros u Hu. eapply pid_step_ok; eauto.
Qed.

Lemma names_itself_found : forall sys t, In t sys -> names_itself t ->
  is_int32 (t_pid t) -> is_int32 (t_tid t) ->
  let id := fst (get_flckpid t) in
  FindThreadProcess (proc_of sys) (decompose_pid id) (decompose_tid id) = true.
Proof.
  intros sys t Hin Hn Hp Ht id. subst id.
  assert (E : fst (get_flckpid t) = compose_flckpid (t_pid t) (t_tid t)).
  { unfold get_flckpid. unfold names_itself in Hn. destruct (get_threadid t); cbn in *. congruence. }
  rewrite E, decompose_pid_compose, decompose_tid_compose by auto.
  unfold FindThreadProcess. apply existsb_exists. exists (t_pid t, t_tid t). split.
  - unfold proc_of. now apply (in_map (fun t => (t_pid t, t_tid t))).
  - cbn. now rewrite !Z.eqb_refl.
Qed.
