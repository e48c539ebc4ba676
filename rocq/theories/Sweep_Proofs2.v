(** The whole pass as filters, and what follows. *)
From Verif Require Import Base Cache_Model Cache_Spec Cache_Proofs RwApi_Model Sweep_Model Sweep_Spec Sweep_Proofs.
From Coq Require Import ZArith List Bool Lia.
Import ListNotations.
Open Scope Z_scope.

(** a locker of that thread without descriptor, with the number -1 *)
Definition shadow (s : shr) (p t : Z) : Prop :=
  exists d i l, in_files s d i l /\ l_pid l = p /\ l_tid l = t /\ l_fd l = -1.

Definition pass_result (w : nat -> os) (s s' : shr) (ver : Z -> Z -> lk -> bool) (run : Z -> Z -> bool) : Prop :=
  (forall d i l, in_files s d i l -> exists n, ver d i l = true <-> live (w n) d i l) /\
  (forall p t, in_names s p t -> (shadow s p t /\ run p t = true) \/ exists n, run p t = true <-> there (w n) p t) /\
  g_files s' = keep_files ver (g_files s) /\
  g_mtx s' = map (keep_mtx run) (g_mtx s) /\
  g_cond s' = map (keep_cond run) (g_cond s) /\
  nfiles s' + p_file s' = nfiles s + p_file s /\ noffs s' + p_off s' = noffs s + p_off s /\
  nlockers s' + p_lk s' = nlockers s + p_lk s /\ nwaiters s' + p_wait s' = nwaiters s + p_wait s.

Lemma pass_filters : forall w s, (forall n, table_ok (w n)) -> ids_ok s ->
  exists ver run, pass_result w s (CheckProcessDead w s) ver run.
Proof.
  intros w s T (I1 & I2). assert (W : forall n, os_ok (w n)) by (intro n; apply T).
  pose (A := fun k => exists d i l, in_files s d i l /\ kk l = k).
  assert (MAY : Forall (fun f => Forall (may_off A no_ex) (n_offs f)) (g_files s)).
  { apply Forall_forall. intros f F. apply Forall_forall. intros o O x IX _. exists (n_dev f), (n_ino f), x.
    split; auto. exists f, o. auto. }
  unfold CheckProcessDead. destruct (sweep_files w pass0 (g_files s)) as [[[[k nf] no] nl] pf] eqn:S1.
  destruct (sweep_files_spec w W A _ _ _ _ _ _ _ (good0 w A) MAY S1) as (G1 & X1 & Q1 & K1 & F1 & N1 & L1).
  destruct (sweep_mtx w pf (g_mtx s)) as [ms pm] eqn:S2.
  destruct (sweep_mtx_spec w pf _ _ _ _ (goodr0 w A pf G1) (fun m a t IM O => I2 a t (or_introl (ex_intro _ m (conj IM O)))) S2)
    as (G2 & X2 & K2 & N2).
  destruct (sweep_conds w pm (g_cond s)) as [[cs nw] pc] eqn:S3.
  destruct (sweep_conds_spec w pf _ _ _ _ _ G2 (fun c a t IC J => I2 a t (or_intror (ex_intro _ c (conj IC J)))) S3)
    as (G3 & X3 & K3 & N3 & Q3).
  exists (kp pf), (run_of pc). unfold pass_result, nfiles, noffs, nlockers, nwaiters. cbn [g_files g_mtx g_cond p_file p_off p_lk p_wait].
  split; [|split; [|sp; auto; try lia]].
  - intros d i l IN. destruct (I1 _ _ _ IN) as [FD NZ].
    destruct IN as (f & o & IF & <- & <- & IO & IL). rewrite Forall_forall in Q1. pose proof (Q1 _ IF) as Q. unfold seen_file in Q.
    rewrite Forall_forall in Q. pose proof (Q _ IO _ IL) as S.
    assert (NE : exempt no_ex l = false) by (cbn; now rewrite (proj2 (Z.eqb_neq (l_pid l) 0) NZ)).
    destruct S as [S|(v & V)]; [congruence|]. destruct (G1 _ _ V) as (_ & _ & n & TR). exists n.
    unfold kp, kept. rewrite NE. cbn [orb]. unfold verd. apply judge_truth; auto.
  - intros p t NM. assert (KN : known pc (rkey p t)).
    { destruct NM as [(m & IM & O)|(c & IC & J)]; [|eauto].
      eapply ext_known; [exact X3|]. eapply N2; eauto. }
    destruct KN as (v & V). destruct G3 as (_ & G3). unfold run_of. rewrite V.
    destruct (G3 _ _ _ V) as [((u & U) & R)|R]; [left|right; exact R]. split; auto.
    destruct (G1 _ _ U) as ((d & i & l & IN & E) & _). exists d, i, l. split; auto.
    unfold kk, rkey in E. injection E. auto.
  - rewrite K2. apply map_ext_in. intros m IM. unfold keep_mtx. destruct (m_own m) as [[a t]|] eqn:O; auto.
    rewrite (run_ext pm pc); auto. eapply N2; eauto.
Qed.

(** ** lists *)
Lemma in_keep : forall ver l f o, In f l -> In o (n_offs f) ->
  used_off (keep_off (ver (n_dev f) (n_ino f)) o) = true ->
  exists f', In f' (keep_files ver l) /\ n_dev f' = n_dev f /\ n_ino f' = n_ino f /\
    In (keep_off (ver (n_dev f) (n_ino f)) o) (n_offs f').
Proof.
  intros ver l f o F O U. exists (keep_file ver f). unfold keep_files. rewrite filter_In, in_map_iff.
  assert (I : In (keep_off (ver (n_dev f) (n_ino f)) o) (n_offs (keep_file ver f))).
  { cbn [keep_file n_offs]. rewrite filter_In, in_map_iff. eauto. }
  sp; auto. 1: eauto. unfold used_file. apply orb_true_iff. right. apply existsb_exists. eauto.
Qed.

Lemma in_kept : forall ver l f', In f' (keep_files ver l) ->
  exists f, In f l /\ n_dev f' = n_dev f /\ n_ino f' = n_ino f /\ n_prot f' = n_prot f /\ used_file f' = true /\
    forall o', In o' (n_offs f') -> used_off o' = true /\ exists o, In o (n_offs f) /\ o' = keep_off (ver (n_dev f) (n_ino f)) o.
Proof.
  intros ver l f' I. unfold keep_files in I. apply filter_In in I. destruct I as [I U]. apply in_map_iff in I.
  destruct I as (f & <- & I). exists f. sp; auto. intros o' O. cbn in O. apply filter_In in O. destruct O as [O U'].
  apply in_map_iff in O. destruct O as (o & <- & O). eauto.
Qed.

Lemma used_rd : forall k o l, In l (e_rd o) -> k l = true -> used_off (keep_off k o) = true.
Proof.
  intros k o l I K. unfold used_off, keep_off. cbn [e_rd e_wr e_prot].
  assert (X : In l (filter k (e_rd o))) by (apply filter_In; auto). destruct (filter k (e_rd o)); [destruct X|].
  cbn. now rewrite orb_true_r.
Qed.
Lemma used_wr : forall k o l, In l (e_wr o) -> k l = true -> used_off (keep_off k o) = true.
Proof.
  intros k o l I K. unfold used_off, keep_off. cbn [e_rd e_wr e_prot].
  assert (X : In l (filter k (e_wr o))) by (apply filter_In; auto). destruct (filter k (e_wr o)); [destruct X|].
  cbn. now rewrite orb_true_r.
Qed.

(** ** lock words *)
Lemma nlocked_split : forall k l, nlocked l = (nlocked (filter k l) + lost k l)%nat.
Proof.
  intros k l. unfold nlocked, lost. induction l as [|x l IH]; cbn; auto.
  destruct (k x) eqn:K; cbn; destruct (l_locked x) eqn:L; cbn; rewrite ?K, ?L; cbn; lia.
Qed.

Lemma unlock_readers : forall n m, (n <= m)%nat -> unlocked n (Z.of_nat m) = Z.of_nat (m - n).
Proof.
  induction n; intros m H; [now rewrite Nat.sub_0_r|]. rewrite unlocked_S. unfold unlock_word, RwWord_Model.RW_UNLOCK, RwWord_Model.RW_WLOCK.
  destruct (Z.eqb_spec (Z.of_nat m) 0); [lia|]. destruct (Z.leb_spec (Z.of_nat m) (-1)); [lia|].
  replace (Z.of_nat m - 1) with (Z.of_nat (m - 1)) by lia. rewrite IHn by lia. f_equal. lia.
Qed.

Lemma fits_keep : forall k o, fits o -> fits (keep_off k o).
Proof.
  intros k o F. unfold fits, keep_off in *. cbn [e_rd e_wr e_word].
  pose proof (nlocked_split k (e_rd o)) as R. pose proof (nlocked_split k (e_wr o)) as V.
  destruct F as [(A & B)|(A & B & C)].
  - left. assert (lost k (e_wr o) = 0%nat) as -> by lia. assert (nlocked (filter k (e_wr o)) = 0%nat) as -> by lia.
    split; auto. rewrite Nat.add_0_r, B, unlock_readers by lia. f_equal. lia.
  - assert (lost k (e_rd o) = 0%nat) as -> by lia. assert (nlocked (filter k (e_rd o)) = 0%nat) as -> by lia.
    cbn [plus]. rewrite C. destruct (lost k (e_wr o)) as [|[|n]] eqn:L; [right|left|lia].
    + repeat split; auto. lia.
    + split; [lia|reflexivity].
Qed.

Lemma fits_in_keep : forall ver l, (forall f o, In f l -> In o (n_offs f) -> fits o) ->
  forall f o, In f (keep_files ver l) -> In o (n_offs f) -> fits o.
Proof.
  intros ver l H f o F O. destruct (in_kept _ _ _ F) as (f0 & F0 & _ & _ & _ & _ & K).
  destruct (K _ O) as (_ & o0 & O0 & ->). apply fits_keep. eauto.
Qed.

(** what a pass leaves was there before *)
Lemma in_files_keep : forall ver s s' d i l, g_files s' = keep_files ver (g_files s) -> in_files s' d i l ->
  in_files s d i l /\ ver d i l = true.
Proof.
  intros ver s s' d i l E (f & o & F & <- & <- & O & L). rewrite E in F.
  destruct (in_kept _ _ _ F) as (f0 & F0 & D & I & _ & _ & K). destruct (K _ O) as (_ & o0 & O0 & ->). rewrite D, I in *.
  unfold in_entry in L. cbn [e_rd e_wr keep_off] in L. rewrite !filter_In in L.
  assert (V : ver (n_dev f0) (n_ino f0) l = true) by tauto. split; auto.
  exists f0, o0. unfold in_entry. sp; auto. tauto.
Qed.
