(** Vocabulary for the first use of the library. *)
From Coq Require Import List Bool Ascii String ZArith.
From Verif Require Import Base Path_Model Layout_Model Config_Model Config_Spec First_Model.
Import ListNotations.
Open Scope Z_scope.

(** one call of the program; environment, working directory and file system are those at the moment of the call *)
Inductive fop :=
| OCall (e : env) (cwd : option text) (ok1 ok2 dev : bool) (a : api) (fs : fsys)
| OSet (x : fset)
| OReinit (e : env) (cwd : option text) (ok1 ok2 : bool) (d f : option text) (q : counts) (fs : fsys).
Inductive f_does : fop -> fstate -> fstate -> Prop :=
| fd_call : forall e cwd ok1 ok2 dev a fs s s' fs' r, f_call e cwd ok1 ok2 dev a fs s = ROk (s', fs', r) -> f_does (OCall e cwd ok1 ok2 dev a fs) s s'
| fd_set : forall x s, f_does (OSet x) s (f_set x s)
| fd_reinit : forall e cwd ok1 ok2 d f q fs s s' fs' r, f_reinit e cwd ok1 ok2 d f q fs s = ROk (s', fs', r) -> f_does (OReinit e cwd ok1 ok2 d f q fs) s s'.
Inductive f_reach : fstate -> Prop :=
| fr_init : f_reach f_init
| fr_step : forall o s s', f_reach s -> f_does o s s' -> f_reach s'.

(** the file a re-initialisation asks for: in the directory given and with the name given (less the white space around it), if they are *)
Definition asked (cwd d f : option text) (p : text) : Prop :=
  exists dir name, p = dir ++ tx "/" ++ name /\ (forall x, d = Some x -> x <> [] -> GetRealPath cwd x = ROk dir) /\ (forall x, f = Some x -> x <> [] -> trimmed x name).
(** the environment forbids the automatic start *)
Definition no_auto (e : env) : Prop := exists s, e "FLCKAUTOINIT"%string = Some s /\ same_word s "NO".

(** a setting is in force *)
Definition in_force (x : fset) (c : cfg) : Prop :=
  match x with SetR v => k_robust c = v | SetN v => k_nomap c = v | SetF v => k_free c = v | SetC v => k_loop c = v end.
Definition same_kind (x y : fset) : Prop :=
  match x, y with SetR _, SetR _ | SetN _, SetN _ | SetF _, SetF _ | SetC _, SetC _ => True | _, _ => False end.
(** afterwards: lock calls and other settings, no re-initialisation *)
Inductive later (x : fset) (ok : fstate -> fop -> Prop) : fstate -> fstate -> Prop :=
| la_refl : forall s, later x ok s s
| la_step : forall o s s' s'', later x ok s s' -> ok s' o -> f_does o s' s'' ->
    match o with OCall _ _ _ _ _ _ _ => True | OSet y => ~ same_kind x y | OReinit _ _ _ _ _ _ _ _ => False end -> later x ok s s''.
(** the environment says nothing about the setting *)
Definition silent (x : fset) (e : env) : Prop :=
  match x with
  | SetR _ => forall s w v, e "FLCKROBUSTMODE"%string = Some s -> In (w, v) robust_words -> ~ same_word s w
  | SetN _ => forall s w v, e "FLCKNOMAPMODE"%string = Some s -> In (w, v) nomap_words -> ~ same_word s w
  | SetF _ => forall s w v, e "FLCKFREEUNITMODE"%string = Some s -> In (w, v) free_words -> ~ same_word s w
  | SetC _ => forall s, e "FLCKROBUSTCHKCNT"%string = Some s -> exists v, reads s v /\ is_int32 v /\ v < 50
  end.
Definition anyop (s : fstate) (o : fop) : Prop := True.
(** the library is in use already, or the environment is silent *)
Definition settled (x : fset) (s : fstate) (o : fop) : Prop :=
  f_built s = true \/ match o with OCall e _ _ _ _ _ _ => silent x e | _ => True end.
