(** Proofs for what the worker takes and gives back: the invariant. *)
From Verif Require Import Base Thread_Model Thread_Spec Thread_Proofs Thread_Proofs2 Thread_Proofs3 Wres_Model Wres_Spec.
From Coq Require Import ZArith List Bool Lia.
Import ListNotations.
Open Scope Z_scope.

(** ** The control, whatever the number of handlers *)
Definition reg1 (s : tstate) : tstate :=
  mkT (t_flag s) (t_init s) (t_cur s) (t_wk s) (t_cancel s) (t_pc s) (t_res s) 1 (t_bup s) (t_freed s) (t_bad s).

Lemma reg1_fin : forall s t k b, reg1 (fin_call s t k b) = fin_call (reg1 s) t k b.
Proof. intros s t k b. destruct k as [| | |n|[|n]]; reflexivity. Qed.

Lemma reg1_ctl : forall s t f w, reg1 (t_ctl s t f w) = t_ctl (reg1 s) t f w.
Proof.
  intros s t f w. unfold t_ctl. cbv zeta. change (t_pc (reg1 s) t) with (t_pc s t).
  change (touch (reg1 s)) with (reg1 (touch s)). set (z := touch s).
  destruct (t_pc s t) as [|k|k|k|k| | |k o n|k|k|k|k o|k|k|k|k| | |n];
    change (t_init (reg1 z)) with (t_init z); change (t_flag (reg1 z)) with (t_flag z);
    change (t_wk (reg1 z)) with (t_wk z); change (t_cur (reg1 z)) with (t_cur z); change (t_bup (reg1 z)) with (t_bup z);
    try (destruct (cas _ _ _) as [v r]);
    repeat match goal with |- context [if ?b then _ else _] => destruct b end;
    repeat match goal with |- context [match t_wk ?a ?b with _ => _ end] => destruct (t_wk a b) end;
    rewrite ?reg1_fin; reflexivity.
Qed.

Lemma reg1_work : forall s w f, reg1 (t_work s w f) = t_work (reg1 s) w f.
Proof.
  intros s w f. unfold t_work. change (t_cancel (reg1 s)) with (t_cancel s). change (t_wk (reg1 s)) with (t_wk s).
  destruct (_ && _); [reflexivity|].
  destruct (t_wk s w); cbv zeta; change (touch (reg1 s)) with (reg1 (touch s));
    change (t_flag (reg1 (touch s))) with (t_flag (touch s)); try (destruct (cas _ _ _) as [v r]);
    repeat match goal with |- context [if ?b then _ else _] => destruct b end; reflexivity.
Qed.

Lemma reg1_step : forall s l s', (forall t, l <> LFork t) -> t_step s l = Some s' -> t_step (reg1 s) l = Some (reg1 s').
Proof.
  intros s l s' N E. destruct l as [t k|t f w|w f|t].
  - cbn [t_step] in *. change (t_pc (reg1 s) t) with (t_pc s t). destruct (t_pc s t); try discriminate E. injection E as <-.
    destruct k; reflexivity.
  - pose proof (ctl_some _ _ _ _ _ E) as (_ & -> & _). cbn [t_step] in *.
    change (t_pc (reg1 s) t) with (t_pc s t). change (t_wk (reg1 s) w) with (t_wk s w).
    rewrite reg1_ctl.
    destruct (t_pc s t); try discriminate E; try reflexivity. destruct (t_wk s w); try discriminate E; reflexivity.
  - pose proof (work_some _ _ _ _ E) as (_ & _ & ->). cbn [t_step] in *. change (t_wk (reg1 s) w) with (t_wk s w).
    rewrite reg1_work. destruct (t_wk s w); try discriminate E; reflexivity.
  - now elim (N t).
Qed.

(** what the control guarantees *)
Record KI (s : tstate) : Prop := mkKI { ki : invj (reg1 s) }.

Lemma ki_cur : forall s w, KI s -> live s w -> w = t_cur s.
Proof.
  intros s w [(t & p & _ & _ & K)] L. destruct K as (_ & _ & D & _).
  destruct (Z.eq_dec w (t_cur s)); auto. elim (D w); auto.
Qed.
Lemma ki_quiet : forall s w t, KI s -> live s w ->
  match t_pc s t with CInit2 _ | CReset _ => False | _ => True end.
Proof.
  intros s w t H L. pose proof (ki_cur _ _ H L) as ->. destruct H as [(t0 & p & P & O & K)].
  destruct (Z.eq_dec t t0) as [->|N]; [|change (t_pc s t) with (t_pc (reg1 s) t); rewrite (O t N); exact I].
  destruct K as (_ & _ & _ & E & _ & _ & _ & H). change (t_pc s t0) with (t_pc (reg1 s) t0). rewrite P.
  destruct p; auto; cbn [pc_inv] in H.
  - destruct H as (_ & _ & H). exact (E H L).
  - exact (proj2 H L).
Qed.
Lemma ki_one : forall s t u, KI s -> t_pc s t <> CIdle -> t_pc s u <> CIdle -> t = u.
Proof.
  intros s t u [(t0 & p & P & O & K)] A B. change (t_pc s) with (t_pc (reg1 s)) in A, B.
  destruct (Z.eq_dec t t0) as [->|N]; [|elim A; now apply O].
  destruct (Z.eq_dec u t0) as [->|M]; [reflexivity|elim B; now apply O].
Qed.
Lemma ki_freed : forall s, KI s -> t_freed s = true -> (forall t, t_pc s t = CIdle) /\ forall w, ~ live s w.
Proof.
  intros s [(t0 & p & P & O & K)] F. destruct K as (_ & G & D & _). destruct (G F) as [-> C].
  split.
  - intro t. destruct (Z.eq_dec t t0) as [->|N]; [exact P|exact (O t N)].
  - intros w L. destruct (Z.eq_dec w (t_cur s)) as [->|N]; [exact (C L)|exact (D w N L)].
Qed.

Lemma KI_init : forall n, KI (init_t n).
Proof. intro n. constructor. apply (invj_reach 1); auto. apply steps_refl. Qed.

Lemma KI_step : forall s l s', KI s -> by_the_book s l -> (forall t, l <> LFork t) -> t_step s l = Some s' -> KI s'.
Proof.
  intros s l s' [H] B N E. constructor. apply (invj_step (reg1 s) l); auto. now apply reg1_step.
Qed.

Lemma KI_still : forall s, (forall t, t_pc s t = CIdle) -> (forall w, ~ live s w) -> t_bad s = false -> KI s.
Proof.
  intros s P L B. constructor. exists 0, CIdle. split; [exact (P 0)|]. split; [intros; exact (P x)|].
  split; [exact B|]. split; [intros _; split; [reflexivity|apply L]|]. split; [intros; apply L|].
  split; [intros; apply L|]. split; [intros; apply L|]. split; [intros _ Q; elim (L _ Q)|]. split; [apply le_n|exact I].
Qed.

Lemma KI_fork : forall s t, KI s -> (t_regs s <= 1)%nat -> t_pc s t = CIdle -> KI (fork_t s t).
Proof.
  intros s t [H] R P. assert (X : t_bad s = false) by (destruct H as (? & ? & _ & _ & K); exact (proj1 K)).
  destruct (t_regs s) as [|[|n]] eqn:E; [| |lia].
  - apply KI_still; auto. intro x. cbn [fork_t t_pc].
    destruct (x =? t); [|reflexivity]. rewrite E. destruct (t_freed s); reflexivity.
  - constructor. replace (reg1 (fork_t s t)) with (fork_t (reg1 s) t).
    + apply (invj_step (reg1 s) (LFork t)); [exact H|exact I|]. cbn [t_step].
      change (t_pc (reg1 s) t) with (t_pc s t). rewrite P. reflexivity.
    + unfold fork_t, reg1. cbn. rewrite E. reflexivity.
Qed.

Lemma KI_new : forall s, KI s -> t_freed s = true -> KI (new_obj s).
Proof.
  intros s H F. destruct (ki_freed _ H F) as [P L]. apply KI_still; auto.
  destruct H as [(? & ? & _ & _ & K)]. exact (proj1 K).
Qed.

(** ** The resources *)
Definition good (x : res) (b s : Z) : Prop := x_mem x b = Blk s /\ s <> 0 /\ x_mem x s = Str.
Definition hold (x : res) (b : Z) : Prop := exists s, good x b s.
Definition opened (x : res) (d : Z) : Prop := x_fds x d = true.

Definition base (x : res) : Prop :=
  0 < x_new x /\ (forall a, x_mem x a <> Gone -> 0 < a < x_new x) /\ (forall d, x_fds x d = true -> 0 < d < x_new x) /\
  x_bad x = false /\ x_badfd x = false /\ (forall b s, x_mem x b = Blk s -> s < x_new x).

Definition both (x : res) : Prop := opened x (x_evt x) /\ opened x (x_ino x) /\ x_evt x <> x_ino x.

(** the worker at [p], [k] accesses further, with block [b] and path [s] *)
Definition W (p : wpc) (k : nat) (x : res) (b s : Z) : Prop :=
  match p with
  | WStart => hold x b /\ (k <= 4)%nat /\ ((1 <= k)%nat -> x_ino x = 0) /\ ((2 <= k)%nat -> x_watch x = 0) /\
              ((3 <= k)%nat -> x_evt x = 0) /\ ((4 <= k)%nat -> x_param x = b)
  | WSetup => good x b s /\ x_param x = b /\ (k <= 5)%nat /\
              ((k <= 1)%nat -> x_evt x = 0) /\ ((2 <= k)%nat -> opened x (x_evt x)) /\
              ((k <= 2)%nat -> x_ino x = 0) /\ ((3 <= k)%nat -> both x) /\ ((k <= 3)%nat -> x_watch x = 0)
  | WLoop | WStop | WSleep | WRun | WWait => hold x b /\ x_param x = b /\ k = 0%nat /\ both x
  | WClean =>
      (k <= 8)%nat /\ ((k <= 2)%nat -> hold x b) /\ (k = 3%nat -> x_mem x b = Blk 0) /\ ((4 <= k)%nat -> x_mem x b = Gone) /\
      ((2 <= k)%nat -> x_param x = 0) /\
      ((k <= 4)%nat -> x_watch x <> 0 -> x_ino x <> 0) /\
      ((k <= 5)%nat -> x_ino x = 0 \/ opened x (x_ino x) /\ x_ino x <> x_evt x) /\
      (k = 6%nat -> x_fds x (x_ino x) = false) /\ ((7 <= k)%nat -> x_ino x = 0) /\
      ((k <= 7)%nat -> x_evt x = 0 \/ opened x (x_evt x)) /\ (k = 8%nat -> x_fds x (x_evt x) = false)
  | WFin _ => x_mem x b = Gone /\ x_ino x = 0 /\ x_evt x = 0 /\ x_param x = 0
  | _ => False
  end.

(** a caller at [p], [k] accesses further, with local pointer [b] *)
Definition C (p : cpc) (k : nat) (x : res) (b : Z) : Prop :=
  match p with
  | CInit2 _ => k = 0%nat \/ k = 1%nat /\ b <> x_param x /\ (exists s, good x b s /\ forall c, x_mem x c = Blk s -> c = b)
  | CReset _ => k = 0%nat \/ k = 1%nat /\ hold x b \/ k = 2%nat /\ x_mem x b = Blk 0 \/ k = 3%nat \/ k = 4%nat /\ x_param x = 0
  | _ => k = 0%nat
  end.

(** a caller that gives back the block of pThreadParam *)
Definition clearing (r : rstate) : Prop :=
  exists t n, t_pc (r_t r) t = CReset n /\ (r_cs r t = 2%nat \/ r_cs r t = 3%nat).

Definition modeA (r : rstate) (w : Z) (L F : list Z) : Prop :=
  let x := r_res r in
  live (r_t r) w /\ (forall t, r_cs r t = 0%nat) /\ (x_param x <> 0 -> hold x (x_param x)) /\
  W (t_wk (r_t r) w) (r_ws r w) x (r_arg r w) (r_pth r w) /\
  (forall a, x_mem x a <> Gone -> In a L \/ a = r_arg r w \/ x_mem x (r_arg r w) = Blk a) /\
  (forall d, x_fds x d = true -> In d F \/ t_wk (r_t r) w <> WStart /\ (d = x_evt x \/ d = x_ino x)).

Definition modeB (r : rstate) (L F : list Z) : Prop :=
  let x := r_res r in
  (forall w, ~ live (r_t r) w) /\ (forall t, C (t_pc (r_t r) t) (r_cs r t) x (r_loc r t)) /\
  (~ clearing r -> x_param x <> 0 -> hold x (x_param x)) /\
  (forall a, x_mem x a <> Gone -> In a L \/ exists t k, t_pc (r_t r) t = CInit2 k /\ r_cs r t = 1%nat /\
     (a = r_loc r t \/ x_mem x (r_loc r t) = Blk a)) /\
  (forall d, x_fds x d = true -> In d F).

Definition RI (r : rstate) : Prop :=
  base (r_res r) /\ exists L F, (length L <= 2 * r_forks r)%nat /\ (length F <= 2 * r_forks r)%nat /\
    ((exists w, modeA r w L F) \/ modeB r L F).

Lemma RI_init : forall n, RI (init_r n).
Proof.
  intro n. split.
  - split; [reflexivity|]. split; [intros a H; now elim H|]. split; [intros d H; discriminate H|]. split; [reflexivity|]. split; [reflexivity|]. intros b s H. discriminate H.
  - exists [], []. split; [apply le_n|]. split; [apply le_n|]. right.
    split; [intros w H; exact H|]. split; [reflexivity|]. split; [intros _ H; now elim H|].
    split; [intros a H; now elim H|]. intros d H. discriminate H.
Qed.
