(** Named mutexes with the real list lock: the machine of Nmtx_Model.v in which named_mutex_lockid is taken
    and released by the loops of Guard_Model.v (lib/flckbaselist.tcc:59-127), one step per compare-and-swap
    or /proc probe, instead of in one step. *)
From Coq Require Import ZArith List Bool Lia.
From Verif Require Import Base Name_Model Mutex_Model Nmtx_Model Guard_Model.
Import ListNotations.
Open Scope Z_scope.

Record qstate := mkQ {
  q_n : nstate;               (** memory and program points of Nmtx_Model.v *)
  q_g : Z -> gpc              (** where each thread is inside the loops; GIdle: not inside *)
}.
Definition q_init (s : nstate) : qstate := mkQ s (fun _ => GIdle).

(** points at which the lock of the list is released: lib/flckshm.cc:684, 692, 702, 719, 926, 929, 590 *)
Definition releases (p : npc) : bool :=
  match p with NRelOp _ _ | NRelRet _ | NPRel _ | NOp _ _ (MURel _) => true | _ => false end.

(** the word and the loops as Guard_Model.v sees them; [x] is the point of thread [t] *)
Definition q_view (q : qstate) (t : Z) (x : gpc) : gstate :=
  mkG (n_guard (q_n q)) (n_alive (q_n q)) (upd (q_g q) t x).

Definition q_run (q : qstate) (t : Z) (b : bool) : qstate :=
  let s := q_n q in
  if releases (n_pc s t) then
    (* fl_unlock_lockid, whose first step is the call; when it is through, the rest of the step of
       Nmtx_Model.v, which finds the word not to be [t] and leaves it alone *)
    let g := Guard_Model.g_step (q_view q t (match q_g q t with GIdle => GIn | x => x end)) t in
    match g_pc g t with
    | GIdle => mkQ (n_run (n_set_guard s (g_word g)) t b) (upd (q_g q) t GIdle)
    | x => mkQ (n_set_guard s (g_word g)) (upd (q_g q) t x)
    end
  else
    match n_pc s t with
    | NWait p =>
        (* fl_lock_lockid, whose first step is the call *)
        let g := Guard_Model.g_step (q_view q t (q_g q t)) t in
        match g_pc g t with
        | GIn => mkQ (n_goto (n_set_guard s (g_word g)) t p) (upd (q_g q) t GIdle)
        | x => mkQ (n_set_guard s (g_word g)) (upd (q_g q) t x)
        end
    | _ => mkQ (n_run s t b) (q_g q)
    end.

Definition q_step (q : qstate) (l : nlabel) : qstate :=
  match l with
  | NRun t b => q_run q t b
  | _ => mkQ (n_step (q_n q) l) (q_g q)
  end.

(** what programs see of a step *)
Definition q_events (q : qstate) (l : nlabel) : list nevent :=
  match l with
  | NRun t b => match n_pc (q_n q) t, n_pc (q_n (q_run q t b)) t, n_res (q_n (q_run q t b)) t with
                | NIdle, _, _ => []
                | _, NIdle, Some r => [VRet t r]
                | _, _, _ => []
                end
  | _ => n_events (q_n q) l
  end.

(** no thread spins so long that its loop counter overflows (C34) *)
Definition no_overflow (q : qstate) : Prop := forall t, q_g q t <> GUB.

Inductive q_history (s0 : nstate) (ok : nstate -> nlabel -> Prop) : qstate -> list nevent -> Prop :=
| qh_init : q_history s0 ok (q_init s0) []
| qh_step : forall q l h, q_history s0 ok q h -> n_enabled (q_n q) l -> ok (q_n q) l -> no_overflow (q_step q l) ->
    q_history s0 ok (q_step q l) (h ++ q_events q l).
