(** C162: the worker releases what ended processes and threads had locked. *)
From Coq Require Import ZArith List Bool.
From Verif Require Import Base Wake_Model.
Import ListNotations.
Open Scope Z_scope.

Inductive w_reach (ok : wsys -> wlabel -> Prop) : wsys -> Prop :=
| wr_init : w_reach ok w_init
| wr_step : forall s x, w_reach ok s -> ok s x -> w_reach ok (w_step s x).

(** the worker alone, nothing failing *)
Fixpoint alone (n : nat) (s : wsys) : wsys := match n with O => s | S m => alone m (w_work s false) end.
(** the owner of a lock has ended *)
Definition ended (s : wsys) (l : lck) : Prop := w_life s (l_pid l) = Gone \/ w_thr s (l_pid l) (l_thr l) = true.
(** left to itself, the worker gets to a point after which no lock of [P] is there *)
Definition cleared (s : wsys) (P : lck -> Prop) : Prop := exists n, forall m, forall l, P l -> ~ In l (w_locks (alone (n + m) s)).

(** the events are read without failure *)
Definition reads (s : wsys) (x : wlabel) : Prop := match x with LWork fail => fail = false | _ => True end.
(** processes end only while the worker watches the file, and are the last ones to close their open file *)
Definition watched (s : wsys) (x : wlabel) : Prop := match x with LClose _ _ => w_pc s <> WOff | LShared _ => False | _ => True end.
(** the worker looks only when every process that has closed its descriptors has gone altogether *)
Definition prompt (s : wsys) (x : wlabel) : Prop :=
  match x with LWork _ => (exists l, w_pc s = WPass l) -> forall pid, w_life s pid <> Closed | _ => True end.
Definition both_w (P Q : wsys -> wlabel -> Prop) s x := P s x /\ Q s x.
