(** Vocabulary of Cond_Spec.v for executions with the real list lock. *)
From Coq Require Import ZArith List Bool Lia.
From Verif Require Import Base Cond_Model Cond_Spec Guard_Model Cspin_Model.
Import ListNotations.
Open Scope Z_scope.

(** [ws] lists the entries that the steps of thread [t] wake along [ls] *)
Inductive y_wakes (t : Z) : ystate -> list clabel -> list Z -> Prop :=
| yw_nil : forall y, y_wakes t y [] []
| yw_other : forall y x ls ws, actor x <> Some t -> y_wakes t (y_step y x) ls ws -> y_wakes t y (x :: ls) ws
| yw_same : forall y x ls ws, actor x = Some t ->
    (forall w, w_wait (c_w (y_c y) w) = true -> w_wait (c_w (y_c (y_step y x)) w) = true) ->
    y_wakes t (y_step y x) ls ws -> y_wakes t y (x :: ls) ws
| yw_woke : forall y x ls ws w, actor x = Some t -> w_wait (c_w (y_c y) w) = true -> w_wait (c_w (y_c (y_step y x)) w) = false ->
    (forall w', w' <> w -> w_wait (c_w (y_c y) w') = true -> w_wait (c_w (y_c (y_step y x)) w') = true) ->
    y_wakes t (y_step y x) ls ws -> y_wakes t y (x :: ls) (w :: ws).

(** some state on the way satisfies [P] *)
Definition y_moment (ok : cstate -> clabel -> Prop) (y : ystate) (ls : list clabel) (y2 : ystate) (P : cstate -> Prop) : Prop :=
  exists l1 l2 y1, ls = l1 ++ l2 /\ y_path ok y l1 y1 /\ y_path ok y1 l2 y2 /\ P (y_c y1).
(** a step of a signal or broadcast call on [c] wakes the wait call of [t] on the way *)
Definition y_woken (ok : cstate -> clabel -> Prop) (y : ystate) (ls : list clabel) (c t : Z) : Prop :=
  exists l1 x l2 y1 u w, ls = l1 ++ x :: l2 /\ y_path ok y l1 y1 /\ actor x = Some u /\ signalling (y_c y1) c u /\
    (entering (y_c y1) c t w \/ released (y_c y1) c t w) /\
    w_wait (c_w (y_c y1) w) = true /\ w_wait (c_w (y_c (y_step y1 x)) w) = false.

(** thread [t] lives and is between taking and releasing the list lock *)
Definition in_list (y : ystate) (t : Z) : Prop :=
  c_alive (y_c y) t = true /\
  match c_pc (y_c y) t with
  | WN _ | WR _ | WI _ _ | WD _ _ | WC _ _ _ | WP _ _ _ | CX _ | SF _ _ | SS _ _ _ | SW _ _ | SB _ _ | SU _ _ _ | RP _ _ => True
  | _ => False
  end.

(** calls that may wait without limit *)
Definition unlimited (cc : ccall) : Prop := match cc with CLockM _ KBlock | CWait _ _ KBlock => True | _ => False end.
(** calls that never wait, whatever the clock says *)
Definition immediate (cc : ccall) : Prop := match cc with CUnlockM _ | CSignal _ | CBroadcast _ | CRecover => True | _ => False end.
(** turns that suffice for a call: taking over the list lock costs 1005 turns, all else less *)
Definition enough (s : cstate) (cc : ccall) : nat :=
  1005 * match cc with
         | CLockM _ _ | CUnlockM _ => 1
         | CWait _ _ _ => 13
         | CSignal c | CBroadcast c => 2 * length (c_wl s c) + 5
         | CRecover => list_sum (map (fun c => length (c_wl s c) + 2) (c_conds s)) + 3
         end%nat.
