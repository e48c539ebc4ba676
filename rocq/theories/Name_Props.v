(** C03, C04: names and the registry of named mutexes. *)
From Coq Require Import ZArith List Bool Lia.
From Verif Require Import Base Name_Model Name_Spec Name_Proofs.
Import ListNotations.
Open Scope Z_scope.

(** C03: the comparison used to find a mutex or condition succeeds exactly for names with the same
    first 63 bytes, whatever the hash function gives. *)
Theorem C03_names_by_first_63_bytes : forall a b, is_cstring a -> is_cstring b ->
  (compare_name (key_of a) (key_of b) = 0 <-> firstn 63 a = firstn 63 b).
Proof. exact compare_name_zero. Qed.

(** ... and it would even with colliding hashes: entries with equal hashes are told apart by name. *)
Theorem C03_hash_collision_harmless : forall h a b, is_cstring a -> is_cstring b ->
  (compare_name (mkN h (firstn 63 a)) (mkN h (firstn 63 b)) = 0 <-> firstn 63 a = firstn 63 b).
Proof.
  intros. unfold compare_name. cbn [n_hash n_name]. rewrite Z.ltb_irrefl. unfold MAXLENGTH.
  rewrite strncmp_zero by (now apply is_cstring_firstn). now rewrite !firstn_firstn, Nat.min_id.
Qed.

Example C03_example : is_cstring [200; 65; 66] /\
  compare_name (key_of [200; 65; 66]) (key_of [200; 65; 67]) <> 0 /\
  compare_name (key_of (repeat 65 63 ++ [66])) (key_of (repeat 65 63 ++ [67; 68])) = 0.
Proof.
  split; [|split].
  - unfold is_cstring. repeat constructor; lia.
  - vm_compute. discriminate.
  - vm_compute. reflexivity.
Qed.

(** C04: for every history of lock and unlock calls, the registry answers exactly like a map from
    63-byte names to independent mutexes with room for [capacity] names: unknown names give EINVAL on
    unlock, new names give ENOLCK exactly when the room is used up, and the state of a name changes
    only through calls on that name. *)
Theorem C04_registry_is_a_map : forall M m0 capacity (h : list (reg_op M)),
  Forall (fun o => is_cstring (op_name M o)) h ->
  snd (reg_run M m0 (reg_init M capacity) h) = snd (spec_run M m0 (spec_init M capacity) h).
Proof. intros. apply run_refines; auto. apply init_refines. Qed.

(** ... a name once registered stays registered for ever: after any further history an unlock call
    on it is not answered "unknown name" by the registry, and a lock call on it never fails for lack
    of room; both reach the mutex of that name. *)
Theorem C04_registered_for_ever : forall M m0 capacity (h1 h2 : list (reg_op M)) name f,
  Forall (fun o => is_cstring (op_name M o)) (h1 ++ h2) -> is_cstring name ->
  s_get M (fst (spec_run M m0 (spec_init M capacity) h1)) name <> None ->
  exists m, forall g, g = fst (reg_run M m0 (fst (reg_run M m0 (reg_init M capacity) h1)) h2) ->
     snd (reg_lock M m0 g name f) = snd (f m) /\ snd (reg_unlock M g name f) = snd (f m).
Proof.
  intros M m0 cap h1 h2 name f HF Hn Hreg.
  apply Forall_app in HF as [F1 F2].
  destruct (run_refines M m0 h1 _ _ (init_refines M cap) F1) as [_ R1].
  destruct (run_refines M m0 h2 _ _ R1 F2) as [_ R2].
  pose proof (spec_keeps M m0 h2 _ name Hreg) as K.
  destruct (s_get M (fst (spec_run M m0 (fst (spec_run M m0 (spec_init M cap) h1)) h2)) name) as [m|] eqn:E; [|congruence].
  exists m. intros g ->. destruct R2 as [R2 _].
  pose proof (on_first_spec M _ _ R2 name f Hn) as S. rewrite E in S. destruct S as (l' & A & _).
  unfold reg_lock, reg_unlock. rewrite A. auto.
Qed.

Example C04_example :
  let lock := RLock Z in let inc := fun m : Z => (m + 1, m) in
  snd (reg_run Z 0 (reg_init Z 2) [lock [65] inc; lock [66] inc; lock [67] inc; lock [65] inc; RUnlock Z [67] inc])
  = [0; 0; ENOLCK; 1; EINVAL].
Proof. vm_compute. reflexivity. Qed.

Print Assumptions C03_names_by_first_63_bytes.
Print Assumptions C03_hash_collision_harmless.
Print Assumptions C04_registry_is_a_map.
Print Assumptions C04_registered_for_ever.
