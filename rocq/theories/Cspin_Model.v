(** Condition variables with the real list lock: the machine of Cond_Model.v in which named_cond_lockid is taken
    and released by the loops of Guard_Model.v (lib/flckbaselist.tcc:59-127), one step per compare-and-swap or
    /proc probe, instead of in one step. *)
From Coq Require Import ZArith List Bool Lia.
From Verif Require Import Base Cond_Model Cond_Spec Guard_Model.
Import ListNotations.
Open Scope Z_scope.

(** named_cond_lockid as a word: lib/flckstructure.h FLCK_INVALID_ID is 0 *)
Definition word_of (g : option Z) : Z := match g with Some u => u | None => 0 end.
Definition guard_of (w : Z) : option Z := if w =? 0 then None else Some w.

Record ystate := mkY {
  y_c : cstate;               (** memory and program points of Cond_Model.v *)
  y_g : Z -> gpc              (** where each thread is inside the loops of the list lock; GIdle: not inside *)
}.
Definition y_init (s : cstate) : ystate := mkY s (fun _ => GIdle).

(** points at which the list lock is taken, with the point reached then: lib/flckshm.cc:934, 890, 610, lib/flcklistncond.cc:137 *)
Definition entry (s : cstate) (p : cpc) : option cpc :=
  match p with
  | WG a => Some (WN a)
  | WJ a w r => Some (WC a w r)
  | SG c b => Some (SF c b)
  | RG => Some (RP (c_conds s) None)
  | _ => None
  end.
(** points at which it is released: lib/flcklistncond.cc:131, 141, lib/flckshm.cc:896, 906, 912, 620, 945, 959 *)
Definition leaves (p : cpc) : bool := match p with WD _ _ | CX _ => true | _ => false end.

(** the word and the loops as Guard_Model.v sees them; [x] is the point of thread [t] *)
Definition y_view (y : ystate) (t : Z) (x : gpc) : gstate :=
  mkG (word_of (c_guard (y_c y))) (c_alive (y_c y)) (upd (y_g y) t x).

Definition y_run (y : ystate) (t : Z) (gu : bool) : ystate :=
  let s := y_c y in
  match entry s (c_pc s t) with
  | Some p =>
      (* fl_lock_lockid, whose first step is the call *)
      let g := Guard_Model.g_step (y_view y t (y_g y t)) t in
      match g_pc g t with
      | GIn => mkY (goto (set_guard s (guard_of (g_word g))) t p) (upd (y_g y) t GIdle)
      | x => mkY (set_guard s (guard_of (g_word g))) (upd (y_g y) t x)
      end
  | None =>
      if leaves (c_pc s t) then
        (* fl_unlock_lockid, whose first step is the call; when it is through, the rest of the step of Cond_Model.v *)
        let g := Guard_Model.g_step (y_view y t (match y_g y t with GIdle => GIn | x => x end)) t in
        match g_pc g t with
        | GIdle => mkY (c_run (set_guard s (guard_of (g_word g))) t gu) (upd (y_g y) t GIdle)
        | x => mkY (set_guard s (guard_of (g_word g))) (upd (y_g y) t x)
        end
      else mkY (c_run s t gu) (y_g y)
  end.

Definition y_step (y : ystate) (x : clabel) : ystate :=
  match x with
  | XRun t g => if c_alive (y_c y) t && negb (t =? 0) then y_run y t g else y
  | _ => mkY (c_step (y_c y) x) (y_g y)
  end.

(** no thread spins so long that its loop counter overflows (C34) *)
Definition y_no_overflow (y : ystate) : Prop := forall t, y_g y t <> GUB.

(** executions; a condition on schedules of Cond_Model.v is read at every step *)
Inductive y_path (ok : cstate -> clabel -> Prop) : ystate -> list clabel -> ystate -> Prop :=
| yp_nil : forall y, y_path ok y [] y
| yp_cons : forall y x ls y', ok (y_c y) x -> y_no_overflow (y_step y x) -> y_path ok (y_step y x) ls y' -> y_path ok y (x :: ls) y'.

(** what programs see of an execution: calls, returns, deaths *)
Inductive cevent := VCall (t : Z) (c : ccall) | VRet (t r : Z) | VDie (t : Z).
(** seen of a step [x] that leads from [s] to [s'] *)
Definition seen (s : cstate) (x : clabel) (s' : cstate) : list cevent :=
  match x with
  | XCall t c => if c_alive s t && negb (t =? 0) then
                   match c_pc s t, c_pc s' t, c_res s' t with
                   | CIdle, CIdle, Some r => [VCall t c; VRet t r]
                   | CIdle, _, _ => [VCall t c]
                   | _, _, _ => []
                   end
                 else []
  | XRun t _ => if c_alive s t && negb (t =? 0) then
                  match c_pc s t, c_pc s' t, c_res s' t with
                  | CIdle, _, _ => []
                  | _, CIdle, Some r => [VRet t r]
                  | _, _, _ => []
                  end
                else []
  | XDie t => if t =? 0 then [] else [VDie t]
  | XRecM _ => []
  end.
Fixpoint c_hist (s : cstate) (ls : list clabel) : list cevent :=
  match ls with [] => [] | x :: r => seen s x (c_step s x) ++ c_hist (c_step s x) r end.
Fixpoint y_hist (y : ystate) (ls : list clabel) : list cevent :=
  match ls with [] => [] | x :: r => seen (y_c y) x (y_c (y_step y x)) ++ y_hist (y_step y x) r end.

(** the steps that are steps of Cond_Model.v: all but the turns in the loops of the list lock *)
Definition counts (y : ystate) (x : clabel) : bool :=
  match x with XRun t _ => match y_g (y_step y x) t with GIdle => true | _ => false end | _ => true end.
Fixpoint shadow (y : ystate) (ls : list clabel) : list clabel :=
  match ls with [] => [] | x :: r => if counts y x then x :: shadow (y_step y x) r else shadow (y_step y x) r end.

Fixpoint y_exec (y : ystate) (ls : list clabel) : ystate := match ls with [] => y | x :: r => y_exec (y_step y x) r end.
