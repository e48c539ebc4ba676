(** Executions of the attach machine used as witnesses, with a checker for their schedules; and one start on its own. *)
From Coq Require Import ZArith List Bool Lia.
From Verif Require Import Base Init_Model Init_Spec Init_Proofs Init_Proofs2.
Import ListNotations.
Open Scope Z_scope.

Definition actor (x : ilabel) : list Z := match x with ICall t _ | IRun t _ => [t] | _ => [] end.
Definition threads_of (ls : list ilabel) : list Z := flat_map actor ls.

Lemma untouched_step : forall s x u, ~ In u (actor x) -> i_pc s u = IIdle -> i_pc (i_step s x) u = IIdle.
Proof.
  intros s x u N H. destruct x as [p|p|t q|t c|t f]; cbn [i_step actor] in *.
  - destruct (i_alive s p); auto.
  - destruct (i_alive s p); auto. cbn. destruct (proc u =? p); auto.
  - destruct (i_alive s (proc t) && negb (i_alive s q)); auto. destruct (i_pc s t); auto.
  - assert (u <> t) by (intros ->; apply N; left; auto). destruct (i_alive s (proc t)); auto. destruct (i_pc s t); auto. unfold i_call.
    destruct c as [| |[|]]; destruct (i_fd s (proc t)); icbn; rewrite upd_neq by auto; auto.
  - assert (X : u <> t) by (intros ->; apply N; left; auto). destruct (i_alive s (proc t)); auto. unfold i_run, done.
    destruct (i_pc s t); auto;
    repeat match goal with
    | |- context [if ?b then _ else _] => destruct b
    | |- context [match i_file s with _ => _ end] => destruct (i_file s)
    end; icbn; rewrite ?upd_neq by auto; auto; unfold die; cbn; destruct (proc u =? proc t); auto.
Qed.

Lemma untouched : forall ls s u, ~ In u (threads_of ls) -> i_pc s u = IIdle -> i_pc (i_exec s ls) u = IIdle.
Proof.
  induction ls as [|x ls IH]; intros s u N H; [exact H|]. unfold threads_of in N. cbn in N. rewrite in_app_iff in N. cbn. apply IH; [tauto|].
  apply untouched_step; auto.
Qed.

Definition is_idle (x : ipc) : bool := match x with IIdle => true | _ => false end.
Definition idle_or_use (x : ipc) : bool := match x with IIdle | IUse => true | _ => false end.
Definition procb (ls : list ilabel) (f : ipc -> bool) (p : Z) : bool :=
  forallb (fun t => implb (proc t =? p) (f (i_pc (i_exec i_init ls) t))) (threads_of ls).

Lemma procb_all : forall ls f p, f IIdle = true -> procb ls f p = true -> forall u, proc u = p -> f (i_pc (i_exec i_init ls) u) = true.
Proof.
  intros ls f p F H u U. unfold procb in H. rewrite forallb_forall in H. destruct (in_dec Z.eq_dec u (threads_of ls)) as [I|N].
  - specialize (H u I). rewrite U, Z.eqb_refl in H. auto.
  - rewrite (untouched ls i_init u N eq_refl). auto.
Qed.

(** [one_at_a_time], decided for the state after [ls] *)
Definition one_b (ls : list ilabel) (x : ilabel) : bool :=
  match x with
  | ICall t (CUse retry) =>
      if i_fd (i_exec i_init ls) (proc t) then procb ls idle_or_use (proc t) else implb retry (procb ls is_idle (proc t))
  | ICall t _ => procb ls is_idle (proc t)
  | IFork t q => procb ls is_idle (proc t)
  | _ => true
  end.

Lemma one_b_spec : forall ls x, one_b ls x = true -> one_at_a_time (i_exec i_init ls) x.
Proof.
  intros ls x H. destruct x as [p|p|t q|t c|t f]; cbn [one_b one_at_a_time] in *; auto.
  - intros u U. pose proof (procb_all ls is_idle _ eq_refl H u U) as I. unfold idle. destruct (i_pc (i_exec i_init ls) u); auto; discriminate I.
  - assert (Q : procb ls is_idle (proc t) = true -> all_idle (i_exec i_init ls) (proc t)).
    { intros B u U. pose proof (procb_all ls is_idle _ eq_refl B u U) as I. unfold idle. destruct (i_pc (i_exec i_init ls) u); auto; discriminate I. }
    destruct c as [| |retry]; auto. destruct (i_fd (i_exec i_init ls) (proc t)).
    + intros u U. pose proof (procb_all ls idle_or_use _ eq_refl H u U) as I. unfold idle. destruct (i_pc (i_exec i_init ls) u); auto; discriminate I.
    + intros ->. auto.
Qed.

Fixpoint sched_b (ok : list ilabel -> ilabel -> bool) (pre ls : list ilabel) : bool :=
  match ls with [] => true | x :: r => ok pre x && sched_b ok (pre ++ [x]) r end.

Lemma sched_reach : forall (ok : istate -> ilabel -> Prop) okb ls pre,
  (forall l x, okb l x = true -> ok (i_exec i_init l) x) -> i_reach ok (i_exec i_init pre) -> sched_b okb pre ls = true ->
  i_reach ok (i_exec i_init (pre ++ ls)).
Proof.
  intros ok okb. induction ls as [|x ls IH]; intros pre H R C; [rewrite app_nil_r; auto|]. cbn in C. apply andb_true_iff in C as [C1 C2].
  assert (E : pre ++ x :: ls = (pre ++ [x]) ++ ls) by (rewrite <- app_assoc; auto). rewrite E. apply IH; auto.
  assert (E2 : i_exec i_init (pre ++ [x]) = i_step (i_exec i_init pre) x) by (unfold i_exec; rewrite fold_left_app; auto). rewrite E2. constructor; auto.
Qed.

Lemma exec_reach : forall (ok : istate -> ilabel -> Prop) okb ls,
  (forall l x, okb l x = true -> ok (i_exec i_init l) x) -> sched_b okb [] ls = true -> i_reach ok (i_exec i_init ls).
Proof. intros ok okb ls H C. apply (sched_reach ok okb ls []); auto. constructor. Qed.

Definition nofork_b (ls : list ilabel) (x : ilabel) : bool := match x with IFork _ _ => false | _ => true end.
Definition nodeath_b (ls : list ilabel) (x : ilabel) : bool := match x with IDie _ => false | _ => true end.
Definition nofail_b (ls : list ilabel) (x : ilabel) : bool := match x with IRun _ true => false | _ => true end.
Definition starts_b (ls : list ilabel) (x : ilabel) : bool := match x with ISpawn _ | ICall _ CInit | IRun _ _ => true | _ => false end.

(** main thread of process [p], and a second thread of it *)
Definition main (p : Z) : Z := p * two32 + p.
Definition second (p : Z) : Z := p * two32 + (p + 1).
Fixpoint runs (t : Z) (n : nat) : list ilabel := match n with O => [] | S n => IRun t false :: runs t n end.

(** ** One start, undisturbed *)
Lemma exec_run : forall s t n, i_exec s (runs t (S n)) = i_exec (i_step s (IRun t false)) (runs t n).
Proof. reflexivity. Qed.
Lemma step_run : forall s t, i_alive s (proc t) = true -> i_step s (IRun t false) = i_run s t false.
Proof. intros s t H. cbn [i_step]. rewrite H. auto. Qed.

Definition started (s : istate) (t : Z) : Prop :=
  i_res s t = Some true /\ i_pc s t = IIdle /\ attached s (proc t) /\ i_file s = FReady /\ In (proc t) (i_rd s).

Ltac one := rewrite exec_run, step_run by (icbn; rewrite ?upd_eq; auto); unfold i_run at 1; icbn; rewrite ?upd_eq;
  repeat match goal with H : i_fd ?s ?p = _ |- _ => progress rewrite ?H end; cbn [negb orb andb].

Lemma initialise : forall s t, i_alive s (proc t) = true -> i_fd s (proc t) = true -> i_wr s = Some (proc t) -> i_use s t = false ->
  i_pc s t = ITrunc -> started (i_exec s (runs t 7)) t.
Proof.
  intros s t A F W U PC. one. rewrite PC. cbn [negb orb]. one. one. one. one. one. unfold can_read at 1. icbn. rewrite F, W, Z.eqb_refl. cbn [andb negb].
  one. unfold done. icbn. rewrite U. unfold started, attached. cbn [runs i_exec fold_left]. icbn. rewrite !upd_eq. repeat split; auto. left; auto.
Qed.

(** nobody else holds a lock: the start initialises the file *)
Lemma solo_fresh : forall s t, i_alive s (proc t) = true -> i_pc s t = IIdle -> i_fd s (proc t) = false -> i_wr s = None -> without (proc t) (i_rd s) = [] ->
  exists n, (n <= 10)%nat /\ started (i_exec s (ICall t CInit :: runs t n)) t.
Proof.
  intros s t A PC F W R. exists (if i_exists s then 10 else 9)%nat. split; [destruct (i_exists s); lia|].
  cbn [i_exec fold_left]. fold (i_exec (i_step s (ICall t CInit)) (runs t (if i_exists s then 10 else 9))). cbn [i_step]. rewrite A, PC. cbn [i_call]. rewrite F.
  destruct (i_exists s) eqn:E.
  - one. rewrite E. one. one. replace (0 <? 100) with true by reflexivity. unfold can_write at 1. icbn. rewrite upd_eq, W, R. cbn [andb negb].
    apply initialise; icbn; rewrite ?upd_eq; auto.
  - one. rewrite E. one. unfold can_write at 1. icbn. rewrite upd_eq, W, R. cbn [andb negb]. apply initialise; icbn; rewrite ?upd_eq; auto.
Qed.

(** the file is complete and others are attached: the start joins them and leaves the content alone *)
Lemma solo_join : forall s t, i_alive s (proc t) = true -> i_pc s t = IIdle -> i_fd s (proc t) = false -> i_map s (proc t) = false ->
  i_exists s = true -> i_file s = FReady -> i_wr s = None -> (exists q, In q (i_rd s) /\ q <> proc t) ->
  started (i_exec s (ICall t CInit :: runs t 6)) t.
Proof.
  intros s t A PC F M E FR W (q & Q & N).
  cbn [i_exec fold_left]. fold (i_exec (i_step s (ICall t CInit)) (runs t 6)). cbn [i_step]. rewrite A, PC. cbn [i_call]. rewrite F.
  assert (NE : exists a l, without (proc t) (i_rd s) = a :: l).
  { assert (I : In q (without (proc t) (i_rd s))) by (apply in_without; auto). destruct (without (proc t) (i_rd s)) as [|a l]; [contradiction | eauto]. }
  destruct NE as (a & l & NE).
  one. rewrite E. one. one. replace (0 <? 100) with true by reflexivity. unfold can_write at 1. icbn. rewrite upd_eq, W, NE. cbn [andb negb].
  one. unfold can_read at 1. icbn. rewrite upd_eq, W. cbn [andb negb]. one. rewrite M, FR. cbn [negb orb]. one. unfold done. icbn. rewrite upd_eq.
  unfold started, attached. cbn [runs i_exec fold_left]. icbn. rewrite !upd_eq. repeat split; auto. left; auto.
Qed.

(** ** Who may change the content *)
Lemma inh_step : forall s x, no_forks s x -> (forall q, i_inh s q = false) -> forall q, i_inh (i_step s x) q = false.
Proof.
  intros s x O H q.
  assert (U : forall p, upd (i_inh s) p false q = false). { intro p. destruct (Z.eq_dec q p) as [->|N]; [rewrite upd_eq | rewrite upd_neq by auto]; auto. }
  destruct x as [p|p|t u|t c|t f]; cbn [i_step]; try contradiction.
  - destruct (i_alive s p); cbn; auto.
  - destruct (i_alive s p); cbn; auto.
  - destruct (i_alive s (proc t)); auto. destruct (i_pc s t); auto. unfold i_call. destruct c as [| |[|]]; destruct (i_fd s (proc t)); cbn; auto.
  - destruct (i_alive s (proc t)); auto. unfold i_run, done. destruct (i_pc s t); auto;
    repeat match goal with
    | |- context [if ?b then _ else _] => destruct b
    | |- context [match i_file s with _ => _ end] => destruct (i_file s)
    end; cbn; auto.
Qed.
Lemma no_inh : forall (ok : istate -> ilabel -> Prop) s, (forall s x, ok s x -> no_forks s x) -> i_reach ok s -> forall q, i_inh s q = false.
Proof. intros ok s H R. induction R; [reflexivity|]. apply inh_step; auto. Qed.

Lemma absent_step : forall s x, (i_exists s = false -> i_file s = FEmpty) -> i_exists (i_step s x) = false -> i_file (i_step s x) = FEmpty.
Proof.
  intros s x H. destruct x as [p|p|t u|t c|t f]; cbn [i_step].
  - destruct (i_alive s p); cbn; auto.
  - destruct (i_alive s p); cbn; auto.
  - destruct (i_alive s (proc t) && negb (i_alive s u)); auto. destruct (i_pc s t); cbn; auto.
  - destruct (i_alive s (proc t)); auto. destruct (i_pc s t); auto. unfold i_call. destruct c as [| |[|]]; destruct (i_fd s (proc t)); cbn; auto.
  - destruct (i_alive s (proc t)); auto. unfold i_run, done. destruct (i_pc s t); auto;
    repeat match goal with
    | |- context [if ?b then _ else _] => destruct b eqn:?
    | |- context [match i_file s with _ => _ end] => destruct (i_file s) eqn:?
    end; cbn; auto; try (intro X; discriminate X); intro Z0; try congruence; specialize (H Z0); congruence.
Qed.
Lemma absent_empty : forall (ok : istate -> ilabel -> Prop) s, i_reach ok s -> i_exists s = false -> i_file s = FEmpty.
Proof. intros ok s R. induction R; [reflexivity|]. apply absent_step; auto. Qed.

Lemma rewriter : forall s t fail, inv s -> (i_exists s = false -> i_file s = FEmpty) -> rewrites s (IRun t fail) -> i_wr s = Some (proc t).
Proof.
  intros s t fail V AB RW. unfold rewrites in RW. cbn [i_step] in RW. destruct (i_alive s (proc t)) eqn:A; [|congruence].
  pose proof (v_pok s V t) as PK. unfold pok in PK. unfold i_run, done in RW. destruct (i_pc s t) eqn:PC; try tauto; exfalso; apply RW.
  - destruct fail; auto. destruct (i_exists s) eqn:E; auto. symmetry. auto.
  - destruct fail; auto.
  - destruct (n <? 100); [destruct (can_write s (proc t) && negb fail)|]; auto.
  - destruct (can_read s (proc t) && negb fail); auto.
  - destruct (i_map s (proc t)); auto. destruct (negb (i_fd s (proc t)) || fail); auto. destruct (i_file s) eqn:F; cbn; auto.
  - destruct (can_write s (proc t) && negb fail); auto.
  - destruct fail; auto. destruct (i_use s t); auto.
  - destruct (i_fd s (proc t)); auto.
  - destruct (i_fd s (proc t)); auto.
  - destruct (i_map s (proc t)); auto.
Qed.

Lemma rewriter_alone : forall s t fail q, inv s -> (i_exists s = false -> i_file s = FEmpty) -> rewrites s (IRun t fail) -> attached s q ->
  q = proc t \/ i_inh s q = true.
Proof.
  intros s t fail q V AB RW [A M]. pose proof (rewriter s t fail V AB RW) as W. destruct (v_lock s V q M) as [H|[H|H]]; auto.
  - rewrite (v_excl s V _ W) in H. contradiction.
  - left. congruence.
Qed.
