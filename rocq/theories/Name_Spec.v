(** Specification of named mutexes: a finite map from (63-byte) names to independent mutexes. *)
From Coq Require Import ZArith List Bool Lia.
From Verif Require Import Base Name_Model.
Import ListNotations.
Open Scope Z_scope.

(** two API names denote the same object *)
Definition same_name (a b : cstring) : Prop := firstn 63 a = firstn 63 b.
Definition same_nameb (a b : cstring) : bool := if list_eq_dec Z.eq_dec (firstn 63 a) (firstn 63 b) then true else false.

Section Spec.
  Variable M : Type.
  Variable m0 : M.

  (** A store is a partial function from names to mutex states together with how many new names it
      may still accept. *)
  Record store := mkStore { s_get : cstring -> option M; s_room : nat }.

  Definition s_set (f : cstring -> option M) (n : cstring) (m : M) : cstring -> option M :=
    fun x => if same_nameb x n then Some m else f x.

  Definition spec_step (s : store) (o : reg_op M) : store * Z :=
    match o with
    | RUnlock _ n f => match s_get s n with
                       | None => (s, EINVAL)
                       | Some m => (mkStore (s_set (s_get s) n (fst (f m))) (s_room s), snd (f m))
                       end
    | RLock _ n f => match s_get s n, s_room s with
                     | Some m, _ => (mkStore (s_set (s_get s) n (fst (f m))) (s_room s), snd (f m))
                     | None, O => (s, ENOLCK)
                     | None, S k => (mkStore (s_set (s_get s) n (fst (f m0))) k, snd (f m0))
                     end
    end.

  Fixpoint spec_run (s : store) (h : list (reg_op M)) : store * list Z :=
    match h with
    | [] => (s, [])
    | o :: r => let (s1, res) := spec_step s o in
                let (s2, rs) := spec_run s1 r in (s2, res :: rs)
    end.

  Definition spec_init (capacity : nat) : store := mkStore (fun _ => None) capacity.

  Definition op_name (o : reg_op M) : cstring := match o with RLock _ n _ => n | RUnlock _ n _ => n end.
End Spec.
