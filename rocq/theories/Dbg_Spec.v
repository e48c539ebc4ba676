(** What debug messages should do, said with the events seen outside. *)
From Verif Require Import Base Path_Model Config_Model Dbg_Model.
From Coq Require Import ZArith List Bool Ascii String.
Import ListNotations.
Open Scope Z_scope.

Definition a_mode (m : Z) : Prop := m = 0 \/ m = 1 \/ m = 3 \/ m = 7.
Definition next_mode (m m' : Z) : Prop := In (m, m') [(0, 1); (1, 3); (3, 7); (7, 0)].

(** stream [f] is open after [log] (newest first) *)
Definition usable (log : list ev) (f : Z) : Prop :=
  (exists p, In (EOpen f p) log) /\ forall ok, ~ In (EClose f ok) log.
(** messages are written to open streams only, only open streams are closed *)
Fixpoint orderly (log : list ev) : Prop :=
  match log with
  | [] => True
  | EPrint (Some f) _ :: r => usable r f /\ orderly r
  | EClose f _ :: r => usable r f /\ orderly r
  | _ :: r => orderly r
  end.
(** the same, but a message right after a failed close of the stream may be written to it *)
Fixpoint nearly (log : list ev) : Prop :=
  match log with
  | [] => True
  | EPrint (Some f) lv :: r => (usable r f \/ (lv = 1 /\ exists r', r = EClose f false :: r')) /\ nearly r
  | EClose f _ :: r => usable r f /\ nearly r
  | _ :: r => nearly r
  end.

(** the words of FLCKDBGMODE, upper and lower case alike *)
Definition small (c : ascii) : Z := let n := Z.of_nat (nat_of_ascii c) in if (65 <=? n) && (n <=? 90) then n + 32 else n.
Definition same_word (a b : text) : Prop := map small a = map small b.
Definition mode_word (v : text) (m : Z) : Prop :=
  (same_word v (tx "silent") /\ m = 0) \/ (same_word v (tx "err") /\ m = 1) \/
  (same_word v (tx "wan") /\ m = 3) \/ (same_word v (tx "info") /\ m = 7).

Definition set_modes_ok (l : list (denv * dcall)) : Prop := forall e m, In (e, DSet m) l -> a_mode m.

(** events of a call: what it adds to the log *)
Definition adds (s s' : dst) (l : list ev) : Prop := t_log s' = l ++ t_log s.
Definition only_prints (l : list ev) : Prop := forall x, In x l -> exists to lv, x = EPrint to lv.
