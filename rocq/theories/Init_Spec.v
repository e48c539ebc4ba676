(** Vocabulary for the properties of attaching to the shared file. *)
From Coq Require Import ZArith List Bool Lia.
From Verif Require Import Base Init_Model.
Import ListNotations.
Open Scope Z_scope.

(** the process has the shared file mapped *)
Definition attached (s : istate) (p : Z) : Prop := i_alive s p = true /\ i_map s p = true.
(** the step changes the content of the file: truncation or a step of the initialisation *)
Definition rewrites (s : istate) (x : ilabel) : Prop := i_file (i_step s x) <> i_file s.
Definition idle (s : istate) (t : Z) : Prop := i_pc s t = IIdle.
Definition all_idle (s : istate) (p : Z) : Prop := forall u, proc u = p -> idle s u.

(** ** Schedules *)
Definition any_schedule (s : istate) (x : ilabel) : Prop := True.
Definition no_forks (s : istate) (x : ilabel) : Prop := match x with IFork _ _ => False | _ => True end.
(** inside one process, initialisation and destruction do not overlap with other calls or with fork:
    all threads of the process are idle when it begins, and a call that finds the file attached begins only when no other
    thread is initialising *)
Definition one_at_a_time (s : istate) (x : ilabel) : Prop :=
  match x with
  | ICall t (CUse retry) =>
      if i_fd s (proc t) then forall u, proc u = proc t -> idle s u \/ i_pc s u = IUse
      else retry = true -> all_idle s (proc t)
  | ICall t _ => all_idle s (proc t)
  | IFork t q => all_idle s (proc t)
  | _ => True
  end.
Definition no_deaths (s : istate) (x : ilabel) : Prop := match x with IDie _ => False | _ => True end.
Definition no_failures (s : istate) (x : ilabel) : Prop := match x with IRun _ true => False | _ => True end.
Definition no_destroy (s : istate) (x : ilabel) : Prop := match x with ICall _ CDestroy => False | _ => True end.
Definition both (f g : istate -> ilabel -> Prop) (s : istate) (x : ilabel) : Prop := f s x /\ g s x.

Inductive i_path (ok : istate -> ilabel -> Prop) : istate -> list ilabel -> istate -> Prop :=
| ip_nil : forall s, i_path ok s [] s
| ip_cons : forall s x ls s', ok s x -> i_path ok (i_step s x) ls s' -> i_path ok s (x :: ls) s'.

(** only starts of the library: processes begin and initialise, none dies, forks or detaches *)
Definition only_starts (s : istate) (x : ilabel) : Prop :=
  match x with ISpawn _ => True | ICall _ CInit => True | IRun _ _ => True | _ => False end.
(** the call of thread [t] that began when its process was not attached has returned false *)
Definition failed (s : istate) (t : Z) : Prop := i_res s t = Some false.

(** the process holds nothing of the shared file: no mapping, no descriptor, no lock *)
Definition detached (s : istate) (p : Z) : Prop :=
  i_map s p = false /\ i_fd s p = false /\ ~ In p (i_rd s) /\ i_wr s <> Some p.
(** the process has everything: mapping, descriptor and (unless it inherited the mapping by fork) the shared lock *)
Definition fully_attached (s : istate) (p : Z) : Prop :=
  i_map s p = true /\ i_fd s p = true /\ i_wr s <> Some p /\ (In p (i_rd s) \/ i_inh s p = true).
(** something that happens in another process *)
Definition elsewhere (p : Z) (x : ilabel) : Prop :=
  match x with
  | ISpawn q | IDie q => q <> p
  | IFork u q => proc u <> p /\ q <> p
  | ICall u _ | IRun u _ => proc u <> p
  end.
