(** The list guard ("lockid"): a spin lock word holding the owner's identity, with takeover from dead
    owners. Fine-grained machine: one step per access to the shared word (or per /proc probe). *)
From Coq Require Import ZArith List Bool Lia.
From Verif Require Import Base.
Import ListNotations.
Open Scope Z_scope.

(** lib/flckbaselist.tcc:32 FLCK_FLCKPID_TRYLOCK_LIMIT *)
Definition TRYLOCK_LIMIT : Z := 1000.

(** Thread identities are the non-zero 64-bit words of [get_flckpid]; 0 is FLCK_INVALID_ID. *)
Inductive gpc :=
| GIdle                              (** outside *)
| GLock (cnt old2 : Z)               (** about to do the CAS of the for-condition, line 63 *)
| GLockProbe (cnt old1 : Z)          (** line 74: about to probe /proc for [old1] *)
| GLockTake (cnt old1 : Z)           (** line 79: about to CAS [old1] -> own id *)
| GIn                                (** returned from fl_lock_lockid: inside the critical section *)
| GUnlock (cnt old2 : Z)             (** line 98: about to do the CAS own id -> 0 *)
| GUnlockProbe (cnt old1 : Z)        (** line 109 *)
| GUnlockTake (cnt old1 : Z)         (** line 114: about to CAS [old1] -> 0 *)
| GUB.                               (** signed overflow of [cnt] *)

Record gstate := mkG { g_word : Z; g_alive : Z -> bool; g_pc : Z -> gpc }.

Definition g_init : gstate := mkG 0 (fun _ => true) (fun _ => GIdle).

(** [++cnt] of the for loop; overflow of the signed counter is undefined behaviour *)
Definition g_next (mk : Z -> Z -> gpc) (cnt old : Z) : gpc :=
  if cnt =? INT_MAX then GUB else mk (cnt + 1) old.

(** One step of thread [t] (lib/flckbaselist.tcc:59-92 [fl_lock_lockid], 94-127 [fl_unlock_lockid]).
    In [GIdle] the thread calls lock, in [GIn] it calls unlock.  *)
Definition g_step (s : gstate) (t : Z) : gstate :=
  let goto p := mkG (g_word s) (g_alive s) (upd (g_pc s) t p) in
  let write w p := mkG w (g_alive s) (upd (g_pc s) t p) in
  match g_pc s t with
  | GIdle => goto (GLock 0 0)                                     (* 61-63: oldval2 = 0, cnt = 0 *)
  | GLock cnt old2 =>
      if g_word s =? 0 then write t GIn                           (* 63: CAS 0 -> newid succeeded *)
      else let old1 := g_word s in
        if old1 =? t then goto GIn                                (* 64-66 *)
        else if negb (old1 =? old2) then goto (g_next GLock 0 old1)   (* 67-68, 85, ++cnt *)
        else if TRYLOCK_LIMIT <? cnt then goto (GLockProbe cnt old1)  (* 69 *)
        else goto (g_next GLock cnt old1)
  | GLockProbe cnt old1 =>
      if g_alive s old1 then goto (g_next GLock cnt old1)          (* 74 false: 85, ++cnt *)
      else goto (GLockTake cnt old1)
  | GLockTake cnt old1 =>
      if g_word s =? old1 then write t GIn                         (* 79-82 *)
      else goto (g_next GLock cnt (g_word s))                      (* 83, 85 *)
  | GIn => goto (GUnlock 0 0)                                      (* 96-98 *)
  | GUnlock cnt old2 =>
      if g_word s =? t then write 0 GIdle                          (* 98: CAS oldid -> 0 succeeded *)
      else let old1 := g_word s in
        if old1 =? 0 then goto GIdle                               (* 99-101 *)
        else if negb (old1 =? old2) then goto (g_next GUnlock 0 old1)
        else if TRYLOCK_LIMIT <? cnt then goto (GUnlockProbe cnt old1)
        else goto (g_next GUnlock cnt old1)
  | GUnlockProbe cnt old1 =>
      if g_alive s old1 then goto (g_next GUnlock cnt old1)
      else goto (GUnlockTake cnt old1)
  | GUnlockTake cnt old1 =>
      if g_word s =? old1 then write 0 GIdle                       (* 114-117 *)
      else goto (g_next GUnlock cnt (g_word s))
  | GUB => s
  end.

(** Labels of an execution: a thread runs one step, or dies (is killed, exits) at any point. *)
Inductive glabel := GRun (t : Z) | GDie (t : Z).

(** Dead threads do not run; identities are not reused; identity 0 is not a thread. *)
Inductive g_trans : gstate -> glabel -> gstate -> Prop :=
| g_run : forall s t, t <> 0 -> g_alive s t = true -> g_trans s (GRun t) (g_step s t)
| g_die : forall s t, t <> 0 -> g_trans s (GDie t) (mkG (g_word s) (upd (g_alive s) t false) (g_pc s)).

Inductive g_reach : gstate -> Prop :=
| gr_init : g_reach g_init
| gr_step : forall s l s', g_reach s -> g_trans s l s' -> g_reach s'.

(** [n] consecutive steps of one thread *)
Fixpoint g_solo (n : nat) (s : gstate) (t : Z) : gstate :=
  match n with O => s | S m => g_solo m (g_step s t) t end.
