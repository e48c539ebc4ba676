(** C167: a waiting call is woken at one moment. *)
From Coq Require Import ZArith List Bool Lia.
From Verif Require Import Base Time_Model Cset_Model Cset_Spec Cset_Proofs.
Import ListNotations.
Open Scope Z_scope.

(** Calls, results and their order, and the word, are those of executions in which every call acts at one moment: a set call writes then; a wait call that
    returns 0 finds the value then; one that times out has found another value at some moment. *)
Theorem C167_atomic : forall v s, s_reach v s -> exists a, a_reach v a /\ a_hist a = s_hist s /\ a_word a = s_word s.
Proof. intros v s R. destruct (sim_reach v s R) as (a & A & W & H & _). eauto. Qed.
(** Whatever the others do and wherever they stop, a set call tries again at most once for every write of another thread since it was made. *)
Theorem C167_retries : forall v s t, s_reach v s -> current t (s_hist s) = None -> forall ls, (failed t s ls <= written t s ls)%nat.
Proof.
  intros v s t R C ls. pose proof (failed_written t ls s) as F. assert (M : misses s t = 0%nat); [|lia].
  pose proof (placed_reach v s R t) as P. unfold misses. destruct (s_pc s t) as [|x|x old|w x|w tm|w st x|r]; auto. cbn in P. congruence.
Qed.
(** A set call that runs alone returns 0 with its third step at the latest, whatever the others have left undone. *)
Theorem C167_set_returns : forall v s t x, s_reach v s -> current t (s_hist s) = Some (OSet x) ->
  exists n, (n <= 3)%nat /\ forall clks, length clks = n -> s_hist (alone t clks s) = s_hist s ++ [SBack t 0].
Proof.
  intros v s t x R C. pose proof (placed_reach v s R t) as P. rewrite C in P.
  assert (UP : forall A (f : Z -> A) q, upd f t q t = q) by (intros; unfold upd; rewrite Z.eqb_refl; auto).
  destruct (s_pc s t) as [|y|y old|w y|w tm|w st y|r] eqn:E; cbn in P; try discriminate.
  - exists 3%nat. split; [lia|]. intros clks L. do 3 (destruct clks as [|? clks]; [discriminate|]). destruct clks; [|discriminate].
    cbn. rewrite E. cbn. rewrite !UP. cbn. rewrite Z.eqb_refl. cbn. rewrite !UP. auto.
  - destruct (s_word s =? old) eqn:EQ.
    + exists 2%nat. split; [lia|]. intros clks L. do 2 (destruct clks as [|? clks]; [discriminate|]). destruct clks; [|discriminate].
      cbn. rewrite E, EQ. cbn. rewrite !UP. auto.
    + exists 3%nat. split; [lia|]. intros clks L. do 3 (destruct clks as [|? clks]; [discriminate|]). destruct clks; [|discriminate].
      cbn. rewrite E, EQ. cbn. rewrite !UP. cbn. rewrite Z.eqb_refl. cbn. rewrite !UP. auto.
  - destruct tm as [[]|]; discriminate.
  - destruct P as (o & O & S). injection O as <-. cbn in S. subst r. exists 1%nat. split; [lia|]. intros clks L. destruct clks as [|? clks]; [discriminate|]. destruct clks; [|discriminate].
    cbn. rewrite E. auto.
Qed.
(** A wait call without a limit that runs alone while the word has the value returns 0 with its second step at the latest. *)
Theorem C167_woken_returns : forall v s t w, s_reach v s -> current t (s_hist s) = Some (OWait w None) -> s_word s = w ->
  exists n, (n <= 2)%nat /\ forall clks, length clks = n -> s_hist (alone t clks s) = s_hist s ++ [SBack t 0].
Proof.
  intros v s t w R C W. pose proof (placed_reach v s R t) as P. rewrite C in P.
  assert (UP : forall A (f : Z -> A) q, upd f t q t = q) by (intros; unfold upd; rewrite Z.eqb_refl; auto).
  destruct (s_pc s t) as [|y|y old|x y|x tm|x st y|r] eqn:E; cbn in P; try discriminate.
  - destruct tm as [[]|]; [discriminate|]. injection P as <-. exists 2%nat. split; [lia|]. intros clks L. do 2 (destruct clks as [|? clks]; [discriminate|]). destruct clks; [|discriminate].
    cbn. rewrite E, W, Z.eqb_refl. cbn. rewrite !UP. auto.
  - destruct P as (o & O & S). injection O as <-. cbn in S. subst r. exists 1%nat. split; [lia|]. intros clks L. destruct clks as [|? clks]; [discriminate|]. destruct clks; [|discriminate].
    cbn. rewrite E. auto.
Qed.

(** Thread 1 waits (with a limit), 2 and 3 set the word at once: 3's compare-and-swap fails as 2 has written, and is made again; 1 looked before that and finds its time over afterwards. *)
Definition e167 : list slabel :=
  [SEnter 1 (OWait 7 (Some 5)); SStep 1 (Some (mkTS 10 0)); SStep 1 None; SEnter 2 (OSet 7); SEnter 3 (OSet 8); SStep 2 None; SStep 3 None; SStep 2 None;
   SStep 3 None; SStep 1 (Some (mkTS 12 0)); SStep 1 None; SStep 2 None; SStep 3 None; SStep 3 None].
Example C167_case : s_reach 0 (s_exec (s_init 0) e167) /\
  s_hist (s_exec (s_init 0) e167) = [SCall 1 (OWait 7 (Some 5)); SCall 2 (OSet 7); SCall 3 (OSet 8); SBack 1 ETIMEDOUT; SBack 2 0; SBack 3 0] /\ s_word (s_exec (s_init 0) e167) = 8 /\
  failed 3 (s_init 0) e167 = 1%nat /\ written 3 (s_init 0) e167 = 1%nat /\
  current 3 (s_hist (s_exec (s_init 0) (firstn 9 e167))) = Some (OSet 8) /\ current 3 (s_hist (s_exec (s_init 0) e167)) = None.
Proof. split; [|vm_compute; auto 10]. unfold e167, s_exec. cbn [fold_left]. repeat apply sr_step. constructor. Qed.
(** A wait without a limit for a value that is there. *)
Example C167_woken_case : let s := s_exec (s_init 0) [SEnter 2 (OSet 7); SStep 2 None; SStep 2 None; SEnter 1 (OWait 7 None)] in
  s_reach 0 s /\ current 1 (s_hist s) = Some (OWait 7 None) /\ s_word s = 7.
Proof. cbv zeta. split; [|vm_compute; auto]. unfold s_exec. cbn [fold_left]. repeat apply sr_step. constructor. Qed.

Print Assumptions C167_atomic.
Print Assumptions C167_retries.
Print Assumptions C167_set_returns.
Print Assumptions C167_woken_returns.
