(** Vocabulary of the condition variable properties. *)
From Coq Require Import ZArith List Bool Lia.
From Verif Require Import Base Cond_Model.
Import ListNotations.
Open Scope Z_scope.

(** ** Schedules *)
Definition any_schedule (s : cstate) (x : clabel) : Prop := True.
Definition no_deaths (s : cstate) (x : clabel) : Prop := match x with XDie _ => False | _ => True end.
(** all wait calls on condition [c] are made with mutex [m] by a thread that owns it *)
Definition waits_with (c m : Z) (s : cstate) (x : clabel) : Prop :=
  match x with XCall t (CWait c' m' k) => c' = c -> m' = m /\ c_m s m = t | _ => True end.
(** every wait call on condition [c] is made by a thread that owns the mutex it passes *)
Definition owners_wait (c : Z) (s : cstate) (x : clabel) : Prop :=
  match x with XCall t (CWait c' m' k) => c' = c -> c_m s m' = t | _ => True end.
Definition proper (c m : Z) (s : cstate) (x : clabel) : Prop := no_deaths s x /\ waits_with c m s x.
(** no timeout expires *)
Definition no_timeouts (s : cstate) (x : clabel) : Prop :=
  match x with
  | XRun _ g => g = false
  | XCall _ (CWait _ _ k) => k <> KTry
  | _ => True
  end.
Definition both (P Q : cstate -> clabel -> Prop) s x := P s x /\ Q s x.

Inductive c_path (ok : cstate -> clabel -> Prop) : cstate -> list clabel -> cstate -> Prop :=
| cp_nil : forall s, c_path ok s [] s
| cp_cons : forall s x ls s', ok s x -> c_path ok (c_step s x) ls s' -> c_path ok s (x :: ls) s'.

Definition idle (s : cstate) (t : Z) : Prop := c_pc s t = CIdle.
Definition actor (x : clabel) : option Z := match x with XCall t _ | XRun t _ => Some t | _ => None end.
Definition one_call (t : Z) (ls : list clabel) : Prop := forall c, ~ In (XCall t c) ls.

(** ** Waiting *)
(** entry [w] is counted as waiting on condition [c] *)
Definition counted (s : cstate) (c w : Z) : Prop := In w (c_wl s c) /\ w_wait (c_w s w) = true.
(** the wait call of thread [u] on [c] has released the mutex; [w] is its entry *)
Definition released (s : cstate) (c u w : Z) : Prop :=
  match c_pc s u with
  | WW a x | WL a x _ | WJ a x _ | WC a x _ => a_c a = c /\ x = w
  | _ => False
  end.
(** ... has registered and still has the mutex *)
Definition entering (s : cstate) (c u w : Z) : Prop :=
  match c_pc s u with WD a x | WS a x | WU a x => a_c a = c /\ x = w | _ => False end.
(** ... waits for a signal *)
Definition blocked (s : cstate) (c u w : Z) : Prop :=
  match c_pc s u with WW a x => a_c a = c /\ x = w /\ w_wait (c_w s w) = true | _ => False end.
(** [w] was registered before all other entries that are counted as waiting on [c] *)
Definition longest (s : cstate) (c w : Z) : Prop :=
  counted s c w /\ forall w', counted s c w' -> w' <> w -> c_seq s w < c_seq s w'.

(** [ws] lists the entries that the steps of thread [t] wake (change from waiting to woken) along [ls] *)
Inductive own_wakes (t : Z) : cstate -> list clabel -> list Z -> Prop :=
| ow_nil : forall s, own_wakes t s [] []
| ow_other : forall s x ls ws, actor x <> Some t -> own_wakes t (c_step s x) ls ws -> own_wakes t s (x :: ls) ws
| ow_same : forall s x ls ws, actor x = Some t ->
    (forall w, w_wait (c_w s w) = true -> w_wait (c_w (c_step s x) w) = true) ->
    own_wakes t (c_step s x) ls ws -> own_wakes t s (x :: ls) ws
| ow_woke : forall s x ls ws w, actor x = Some t -> w_wait (c_w s w) = true -> w_wait (c_w (c_step s x) w) = false ->
    (forall w', w' <> w -> w_wait (c_w s w') = true -> w_wait (c_w (c_step s x) w') = true) ->
    own_wakes t (c_step s x) ls ws -> own_wakes t s (x :: ls) (w :: ws).

(** the steps of thread [t] along [ls] change no mutex *)
Inductive mutexes_untouched (t : Z) : cstate -> list clabel -> Prop :=
| mu_nil : forall s, mutexes_untouched t s []
| mu_other : forall s x ls, actor x <> Some t -> mutexes_untouched t (c_step s x) ls -> mutexes_untouched t s (x :: ls)
| mu_same : forall s x ls, actor x = Some t -> (forall m, c_m (c_step s x) m = c_m s m) ->
    mutexes_untouched t (c_step s x) ls -> mutexes_untouched t s (x :: ls).

(** ** Effects of calls *)
(** some state on the path from [s] by [ls] to [s2] satisfies [P] *)
Definition at_some_moment (ok : cstate -> clabel -> Prop) (s : cstate) (ls : list clabel) (s2 : cstate) (P : cstate -> Prop) : Prop :=
  exists l1 l2 s1, ls = l1 ++ l2 /\ c_path ok s l1 s1 /\ c_path ok s1 l2 s2 /\ P s1.
(** [wk] is what a signal on [c] has to wake in state [s1]: the longest waiter, nobody if there is none *)
Definition woke_one (c : Z) (s1 : cstate) (wk : list Z) : Prop :=
  (wk = [] /\ forall w, ~ counted s1 c w) \/ (exists w, wk = [w] /\ longest s1 c w).
(** the wait call that owns entry [w] of [c] fails (its thread does not own the mutex) and takes the mark off itself *)
Definition withdraws (s : cstate) (x : clabel) (c w : Z) : Prop :=
  exists u g, x = XRun u g /\ c_alive s u = true /\ match c_pc s u with WB a w' _ => a_c a = c /\ w' = w | _ => False end.
Definition withdrawn (ok : cstate -> clabel -> Prop) (s : cstate) (ls : list clabel) (c w : Z) : Prop :=
  exists l1 x l2 s1, ls = l1 ++ x :: l2 /\ c_path ok s l1 s1 /\ withdraws s1 x c w.
(** [wk] is what a broadcast has to wake: everybody counted as waiting unless their own call fails meanwhile, and nobody else
    except calls that are still registering; [ls]: the rest of the call *)
Definition woke_all (ok : cstate -> clabel -> Prop) (c : Z) (s1 : cstate) (ls : list clabel) (wk : list Z) : Prop :=
  NoDup wk /\ (forall w, counted s1 c w -> In w wk \/ withdrawn ok s1 ls c w) /\
  (forall w, In w wk -> In w (c_wl s1 c) /\ (w_wait (c_w s1 w) = true \/ exists u, entering s1 c u w)).

(** thread [u] is about to wake an entry inside a signal or broadcast call on [c] *)
Definition signalling (s : cstate) (c u : Z) : Prop :=
  match c_pc s u with SW c' _ | SU c' _ _ => c' = c | _ => False end.
(** step [x] wakes the wait call of thread [t] on [c] *)
Definition wakes (s : cstate) (x : clabel) (c t : Z) : Prop :=
  exists u w, actor x = Some u /\ signalling s c u /\ (entering s c t w \/ released s c t w) /\
    w_wait (c_w s w) = true /\ w_wait (c_w (c_step s x) w) = false.
Definition woken_on_the_way (ok : cstate -> clabel -> Prop) (s : cstate) (ls : list clabel) (c t : Z) : Prop :=
  exists l1 x l2 s1, ls = l1 ++ x :: l2 /\ c_path ok s l1 s1 /\ wakes s1 x c t.
Definition held_by_other (m t : Z) (s : cstate) : Prop := c_m s m <> 0 /\ c_m s m <> t.
