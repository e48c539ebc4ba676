(** C160, C161: mutexes of programs that re-initialise the library. *)
From Coq Require Import ZArith List Bool Lia.
From Verif Require Import Base Refile_Model Refile_Spec Refile_Proofs.
Import ListNotations.
Open Scope Z_scope.

Fixpoint along_f (procs : list Z) (ok : fsys -> flabel -> Prop) (s : fsys) (ls : list flabel) : Prop :=
  match ls with [] => True | x :: r => ok s x /\ along_f procs ok (f_step procs s x) r end.
Lemma f_reach_from : forall procs (ok : fsys -> flabel -> Prop) s0 ls s, f_reach procs ok s0 s -> along_f procs ok s ls -> f_reach procs ok s0 (f_exec procs s ls).
Proof. intros procs ok s0 ls. induction ls as [|x r IH]; intros s R A; [exact R|]. destruct A as [O A]. apply (IH (f_step procs s x)); auto. constructor; auto. Qed.
Lemma along_whatever : forall procs ls s, along_f procs whatever s ls.
Proof. induction ls; intro s; cbn; auto. split; [exact I | auto]. Qed.

(** ** C160 A mutex is had by one thread at most, also when processes re-initialise the library *)
Definition C160_statement : Prop := forall procs t s, f_reach procs whatever (f_init t) s -> exclusive s.
(** The only process that uses the file locks a mutex and re-initialises the library with the same file, which empties it; a second
    process then locks the same mutex. *)
Definition w160 : list flabel := [FReinit 1 70 true; FLock (1, 1) 5; FReinit 1 70 true; FReinit 2 70 true; FLock (2, 2) 5].
Theorem C160_exclusion_refuted : ~ C160_statement.
Proof.
  intro H. pose proof (f_reach_from [1; 2] whatever (f_init (fun _ => fresh)) w160 _ (fr_refl _ _ _) (along_whatever _ _ _)) as R.
  specialize (H _ _ _ R (1, 1) (2, 2) 70 5). assert (E : (1, 1) = (2, 2)); [|discriminate]. apply H; vm_compute; auto.
Qed.
(** The same happens through a third file: the holder goes elsewhere and the last user of the file leaves. *)
Example C160_elsewhere_case : let s := f_exec [1; 2; 3] (f_init (fun _ => fresh))
    [FReinit 1 70 true; FReinit 2 70 true; FLock (1, 1) 5; FReinit 1 71 true; FDie 2; FReinit 3 70 true; FLock (3, 3) 5] in
  has s (1, 1) 70 5 /\ has s (3, 3) 70 5.
Proof. split; vm_compute; auto. Qed.

(** True as long as nobody leaves a file as its last user while somebody has a mutex of it. *)
Theorem C160_exclusion_partial : forall procs t s, f_reach procs (stays procs) (f_init t) s -> exclusive s.
Proof. intros procs t s R. apply (FI_excl procs). apply (FI_reach procs (stays procs) (f_init t)); auto. apply FI_init. Qed.

(** ** C161 A thread can unlock every mutex it has, also after re-initialisation *)
Definition C161_statement : Prop := forall procs t s u f n, f_reach procs whatever (f_init t) s -> has s u f n ->
  snd (f_unlock s u n) = 0 /\ ~ has (fst (f_unlock s u n)) u f n /\ forall v, fst v <> fst u -> f_att s (fst v) = Some f -> snd (f_lock (fst (f_unlock s u n)) v n) = 0.
Definition w161 : list flabel := [FReinit 1 70 true; FReinit 2 70 true; FLock (1, 1) 5; FReinit 1 71 true].
Theorem C161_can_unlock_refuted : ~ C161_statement.
Proof.
  intro H. pose proof (f_reach_from [1; 2] whatever (f_init (fun _ => fresh)) w161 _ (fr_refl _ _ _) (along_whatever _ _ _)) as R.
  assert (Q : has (f_exec [1; 2] (f_init (fun _ => fresh)) w161) (1, 1) 70 5) by (vm_compute; auto).
  destruct (H _ _ _ (1, 1) 70 5 R Q) as [E _]. vm_compute in E. discriminate.
Qed.
(** While the process is (again) at the file of the mutex the unlock works, whatever files it has been at in between, if the file never
    lost its last user; and then everybody else can lock it. *)
Theorem C161_can_unlock_partial : forall procs t s u f n, f_reach procs (stays procs) (f_init t) s -> has s u f n -> f_att s (fst u) = Some f ->
  snd (f_unlock s u n) = 0 /\ ~ has (fst (f_unlock s u n)) u f n /\ forall v, fst v <> fst u -> f_att s (fst v) = Some f -> snd (f_lock (fst (f_unlock s u n)) v n) = 0.
Proof.
  intros procs t s u f n R H A. assert (F : FI procs s) by (apply (FI_reach procs (stays procs) (f_init t)); auto; apply FI_init).
  pose proof (fi_own procs s F u f n H) as T. destruct (unlock_cases s u n f A) as [(_ & _ & _ & N)|(E0 & E1 & E2 & E3 & E4 & E5 & E6)]; [contradiction|].
  split; auto. split; [unfold has; rewrite E3, drop_in; intros [_ Q]; auto|]. intros v NV AV. unfold f_lock. rewrite E1, AV, E4. auto.
Qed.
(** While it is elsewhere (or has no file) nothing helps: as long as the process lives and does not come back, and the file does not
    lose its last user, nobody else gets the mutex, whatever is unlocked and whichever recovery passes run. *)
Theorem C161_stuck_partial : forall procs t s0 s u f n, f_reach procs (stays procs) (f_init t) s0 -> has s0 u f n -> f_att s0 (fst u) <> Some f ->
  f_reach procs (both_f (stays procs) (away (fst u) f)) s0 s -> forall v, v <> u -> f_att s (fst v) = Some f -> snd (f_lock s v n) = EBUSY_F.
Proof.
  intros procs t s0 s u f n R H NA R' v NV AV. assert (F : FI procs s0) by (apply (FI_reach procs (stays procs) (f_init t)); auto; apply FI_init).
  destruct (away_reach procs s0 u f n s F H NA R') as (F' & H' & N'). pose proof (fi_own procs s F' u f n H') as T. unfold f_lock. rewrite AV, T.
  destruct (who_eqb u v) eqn:E; auto. apply who_eqb_eq in E. congruence.
Qed.

(** Process 1 locks mutex 5 of file 70, goes to file 71, where the unlock is refused; process 2 stays, runs a pass and is refused; process 1
    comes back and unlocks; process 2 gets the mutex. *)
Definition e161 : list flabel := [FReinit 1 70 true; FReinit 2 70 true; FLock (1, 1) 5; FReinit 1 71 true].
Definition e161b : list flabel := [FUnlock (1, 1) 5; FPass 2; FLock (2, 2) 5; FLock (1, 1) 6].
Definition e161c : list flabel := [FUnlock (1, 1) 6; FReinit 1 70 true].
Example C161_case : let i := f_init (fun _ => fresh) in let p := [1; 2] in
  f_reach p (stays p) i (f_exec p i e161) /\ has (f_exec p i e161) (1, 1) 70 5 /\ f_att (f_exec p i e161) 1 = Some 71 /\
  f_reach p (both_f (stays p) (away 1 70)) (f_exec p i e161) (f_exec p (f_exec p i e161) e161b) /\
  snd (f_lock (f_exec p (f_exec p i e161) e161b) (2, 2) 5) = EBUSY_F /\ snd (f_unlock (f_exec p i e161) (1, 1) 5) = EINVAL_F /\
  f_reach p (stays p) i (f_exec p i (e161 ++ e161b ++ e161c)) /\ has (f_exec p i (e161 ++ e161b ++ e161c)) (1, 1) 70 5 /\
  snd (f_unlock (f_exec p i (e161 ++ e161b ++ e161c)) (1, 1) 5) = 0.
Proof.
  cbv zeta. assert (L : forall s x, match x with FReinit _ _ _ | FDie _ => False | _ => True end -> stays [1; 2] s x) by (intros s x X; destruct x; cbn; auto; contradiction).
  assert (L1 : stays [1; 2] (f_init (fun _ => fresh)) (FReinit 1 70 true)) by (intros f [_ A]; discriminate).
  assert (ST : along_f [1; 2] (stays [1; 2]) (f_init (fun _ => fresh)) (e161 ++ e161b ++ e161c)).
  { cbn [app e161 e161b e161c along_f]. repeat split; try (apply L; exact I).
    - exact L1.
    - intros f [_ A]. vm_compute in A. discriminate.
    - intros f [_ A]. vm_compute in A. inversion A; subst f. left. exists 2. split; [cbn; auto|]. split; [discriminate|]. split; reflexivity.
    - intros f [_ A]. vm_compute in A. inversion A; subst f. right. intros u n Q. vm_compute in Q. destruct Q as [Q|[]]. inversion Q. }
  repeat split; try (vm_compute; auto; fail).
  - apply f_reach_from; [constructor|]. destruct ST as (A & B & C & D & _). repeat split; auto.
  - apply f_reach_from; [constructor|]. cbn [e161b along_f]. repeat split; try (apply L; exact I).
  - apply f_reach_from; [constructor | exact ST].
Qed.
(** The execution of C161_case as one for C160: a mutex is had through two re-initialisations while another process stays. *)
Example C160_case : let i := f_init (fun _ => fresh) in let p := [1; 2] in
  f_reach p (stays p) i (f_exec p i (e161 ++ e161b ++ e161c)) /\ has (f_exec p i (e161 ++ e161b ++ e161c)) (1, 1) 70 5 /\
  snd (f_lock (f_exec p i (e161 ++ e161b ++ e161c)) (2, 2) 5) = EBUSY_F.
Proof. pose proof C161_case as (_ & _ & _ & _ & _ & _ & A & B & _). split; [exact A|]. split; [exact B | reflexivity]. Qed.

Print Assumptions C160_exclusion_refuted.
Print Assumptions C160_exclusion_partial.
Print Assumptions C161_can_unlock_refuted.
Print Assumptions C161_can_unlock_partial.
Print Assumptions C161_stuck_partial.
