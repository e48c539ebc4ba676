(** C160, C161: mutexes of programs that re-initialise the library. *)
From Coq Require Import ZArith List Bool.
From Verif Require Import Base Refile_Model.
Import ListNotations.
Open Scope Z_scope.

Inductive f_reach (procs : list Z) (ok : fsys -> flabel -> Prop) (s0 : fsys) : fsys -> Prop :=
| fr_refl : f_reach procs ok s0 s0
| fr_step : forall s x, f_reach procs ok s0 s -> ok s x -> f_reach procs ok s0 (f_step procs s x).
Definition whatever (s : fsys) (x : flabel) : Prop := True.

Definition has (s : fsys) (u : who) (f n : Z) : Prop := In (u, f, n) (f_got s).
(** a mutex of a file is had by one thread at most *)
Definition exclusive (s : fsys) : Prop := forall u v f n, has s u f n -> has s v f n -> u = v.

(** [pid] uses file [f] *)
Definition at_file (s : fsys) (pid f : Z) : Prop := f_live s pid = true /\ f_att s pid = Some f.
(** somebody stays: who leaves a file is not the last user of it while somebody has a mutex of it (who dies has none) *)
Definition stays (procs : list Z) (s : fsys) (x : flabel) : Prop :=
  match x with
  | FReinit pid _ _ => forall f, at_file s pid f -> (exists q, In q procs /\ q <> pid /\ at_file s q f) \/ (forall u n, ~ has s u f n)
  | FDie pid => forall f, at_file s pid f -> (exists q, In q procs /\ q <> pid /\ at_file s q f) \/ (forall u n, has s u f n -> fst u = pid)
  | _ => True
  end.
(** the process [pid] goes on living and does not come back to [f] *)
Definition away (pid f : Z) (s : fsys) (x : flabel) : Prop :=
  match x with FReinit q g _ => q = pid -> g <> f | FDie q => q <> pid | _ => True end.
Definition both_f (P Q : fsys -> flabel -> Prop) s x := P s x /\ Q s x.
