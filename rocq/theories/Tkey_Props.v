(** C158, C159: the number a thread is known by, and the thread-specific data of other libraries. *)
From Coq Require Import ZArith List Bool Lia.
From Verif Require Import Base Tkey_Model Tkey_Spec Tkey_Proofs.
Import ListNotations.
Open Scope Z_scope.

Fixpoint along (ok : ksys -> klabel -> Prop) (s : ksys) (ls : list klabel) : Prop :=
  match ls with [] => True | x :: r => ok s x /\ along ok (k_step s x) r end.
Lemma reach_from : forall pid (ok : ksys -> klabel -> Prop) ls s, k_reach pid ok s -> along ok s ls -> k_reach pid ok (k_exec s ls).
Proof. intros pid ok ls. induction ls as [|x r IH]; intros s R A; [exact R|]. destruct A as [O A]. apply (IH (k_step s x)); auto. constructor; auto. Qed.
Lemma reach_exec : forall pid (ok : ksys -> klabel -> Prop) ls, along ok (k_init pid) ls -> k_reach pid ok (k_exec (k_init pid) ls).
Proof. intros. apply reach_from; auto. constructor. Qed.
Lemma along_any : forall ls s, along anything s ls.
Proof. induction ls; intro s; cbn; auto. split; [exact I | auto]. Qed.

(** ** C158 A thread is known by one number in all its calls *)
Definition C158_statement : Prop := forall pid s, 0 < pid -> k_reach pid anything s -> one_number s.
(** A thread that has called the library forks.  The child calls the library (under the number of its parent), the child exits, and
    while it exits the library is called again, by then under the child's own number. *)
Definition w158 : list klabel := [KGet 0 (Some 5) false; KFork 0 200; KGet 1 None false; KExit 200; KGet 1 None false].
Theorem C158_one_number_refuted : ~ C158_statement.
Proof.
  intro H. assert (R : k_reach 100 anything (k_exec (k_init 100) w158)) by (apply reach_exec, along_any).
  specialize (H 100 _ eq_refl R 1%nat 200 100).
  assert (E : 200 = 100); [|discriminate]. apply H; vm_compute; auto.
Qed.
(** Without forks: the key of an exiting process is given to another library, whose value is then taken for the number. *)
Definition w158b : list klabel := [KGet 0 (Some 5) false; KExit 100; KCreate 0 5; KSet 0 5 777 false; KGet 0 None false].
Example C158_no_fork_case : ks_ids (k_exec (k_init 100) w158b) = [(0%nat, 777); (0%nat, 100)].
Proof. reflexivity. Qed.

(** As long as no process exits: whatever is forked, whether or not a key is obtained and values can be stored, and whatever other
    libraries do with keys of theirs. *)
Theorem C158_one_number_partial : forall pid s, 0 < pid -> k_reach pid no_exit s -> one_number s.
Proof. exact one_number_without_exit. Qed.
Definition e158 : list klabel :=
  [KCreate 0 4; KSet 0 4 31 false; KGet 0 (Some 5) true; KGet 0 None false; KNew 0 101; KGet 1 None true; KFork 0 200; KGet 2 None false; KCreate 2 6; KGet 2 None true;
   KDelete 0 4; KCreate 0 4; KGet 1 None false; KGet 0 None false].
Example C158_case : k_reach 100 no_exit (k_exec (k_init 100) e158) /\
  ks_ids (k_exec (k_init 100) e158) = [(0%nat, 100); (1%nat, 101); (2%nat, 100); (2%nat, 100); (1%nat, 101); (0%nat, 100); (0%nat, 100)].
Proof. split; [|reflexivity]. apply reach_exec. repeat (split; [exact I|]). exact I. Qed.

(** Processes may exit while their threads go on, if threads fork only before their first call and no library creates a key in a
    process that is exiting: then the number is the thread's own. *)
Theorem C158_own_number_partial : forall pid s, 0 < pid -> k_reach pid (both_k fork_first no_late_key) s -> own_number s.
Proof. exact own_number_reach. Qed.
Definition e158o : list klabel :=
  [KFork 0 200; KGet 0 (Some 5) false; KNew 1 201; KGet 1 (Some 7) true; KGet 1 None false; KGet 2 None false; KExit 200; KGet 1 None false; KGet 2 None false].
Example C158_own_case : k_reach 100 (both_k fork_first no_late_key) (k_exec (k_init 100) e158o) /\
  ks_ids (k_exec (k_init 100) e158o) = [(2%nat, 201); (1%nat, 200); (2%nat, 201); (1%nat, 200); (1%nat, 200); (0%nat, 100)].
Proof.
  split; [|reflexivity]. apply reach_exec. cbn [e158o along]. repeat (split; [split; cbn [fork_first no_late_key]; [try exact I | exact I]|]); try exact I.
  intros r [].
Qed.
(** Each of the two conditions is needed. *)
Example C158_own_fork_needed : In (1%nat, 100) (ks_ids (k_exec (k_init 100) [KGet 0 (Some 5) false; KFork 0 200; KGet 1 None false])).
Proof. vm_compute. auto. Qed.

(** ** C159 Other libraries find in their thread-specific data what they stored *)
Definition C159_statement : Prop := forall pid s, 0 < pid -> k_reach pid anything s -> others_intact s.
(** The key is deleted when the process exits, but the object goes on using it: another library that is given the number finds the
    number of the thread in a key that it has just created. *)
Definition w159 : list klabel := [KGet 0 (Some 5) false; KExit 100; KCreate 0 5; KGet 0 None false; KRead 0 5].
Theorem C159_others_intact_refuted : ~ C159_statement.
Proof.
  intro H. assert (R : k_reach 100 anything (k_exec (k_init 100) w159)) by (apply reach_exec, along_any).
  specialize (H 100 _ eq_refl R 100 0). assert (E : 100 = 0); [|discriminate]. apply H. vm_compute. auto.
Qed.
(** True of all programs in which no key is created in a process that is exiting. *)
Theorem C159_others_intact_partial : forall pid s, 0 < pid -> k_reach pid no_late_key s -> others_intact s.
Proof. exact others_reach. Qed.
Definition e159 : list klabel :=
  [KCreate 0 5; KSet 0 5 31 false; KGet 0 (Some 6) false; KNew 0 101; KSet 1 5 32 false; KGet 1 None false; KRead 0 5; KRead 1 5; KFork 1 200; KGet 2 None true; KRead 2 5;
   KExit 200; KGet 2 None false; KSet 2 5 33 false; KRead 2 5; KDelete 0 5; KCreate 0 5; KRead 0 5; KGet 0 None false; KRead 0 5].
Example C159_case : k_reach 100 no_late_key (k_exec (k_init 100) e159) /\
  ks_reads (k_exec (k_init 100) e159) = [(0, 0); (0, 0); (33, 33); (32, 32); (32, 32); (31, 31)].
Proof.
  split; [|reflexivity]. apply reach_exec. cbn [e159 along]. repeat (split; [cbn [no_late_key]; first [exact I | intros t E; vm_compute in E; inversion E; reflexivity]|]). exact I.
Qed.

Print Assumptions C158_one_number_refuted.
Print Assumptions C158_one_number_partial.
Print Assumptions C158_own_number_partial.
Print Assumptions C159_others_intact_refuted.
Print Assumptions C159_others_intact_partial.
