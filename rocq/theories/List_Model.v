(** Shared memory lists: pointer-level model of [fl_list_base] (lib/flckbaselist.tcc:498-702).
    Memory is the shared file: a map from file offsets (relative addresses) of pointer-sized cells to the
    relative pointers stored there; 0 is NULL.  A process has the file mapped at [base] and handles absolute
    pointers.  [noff] is the offset of the [next] member in the entry type.
    Simplified: pointer arithmetic does not wrap (the mapping is a proper address interval); all list
    operations run inside the guard of their lists (C32), so a compare-and-swap is a test and a write of one
    thread; a crash can happen between any two writes, so operations deliver the sequence of their writes. *)
From Coq Require Import ZArith List Bool Lia.
From Verif Require Import Base.
Import ListNotations.
Open Scope Z_scope.

Definition mem := Z -> Z.
Notation write := (Z * Z)%type (only parsing).         (** (relative address of the cell, value) *)

(** memory after some writes *)
Fixpoint apply_writes (m : mem) (ws : list write) : mem :=
  match ws with [] => m | (a, v) :: r => apply_writes (upd m a v) r end.

(** lib/flckshm.h:210-211, lib/flckutil.h:51-59: to_rel, to_abs *)
Definition to_rel (base a : Z) : Z := if a =? 0 then 0 else a - base.
Definition to_abs (base r : Z) : Z := if r =? 0 then 0 else r + base.

(** the cell of member [next] of the entry at absolute address p, as a file offset *)
Definition next_cell (base noff p : Z) : Z := (p + noff) - base.

(** lib/flckbaselist.tcc:576-593: insert_list; [cur] absolute, [top] the list head's cell.
    The loop around the compare-and-swap runs once (nobody else changes the head inside the guard). *)
Definition insert_list (base noff : Z) (m : mem) (top cur : Z) : bool * list write :=
  if cur =? 0 then (false, [])
  else (true, [(next_cell base noff cur, m top); (top, to_rel base cur)]).

(** lib/flckbaselist.tcc:597-621: retrieve_list; returns the new current pointer (absolute) *)
Definition retrieve_list (base noff : Z) (m : mem) (top : Z) : bool * Z * list write :=
  let oldtop := m top in
  if oldtop =? 0 then (false, 0, [])
  else let newtop := m (next_cell base noff (to_abs base oldtop)) in
       let cur := to_abs base oldtop in
       if cur =? 0 then (false, 0, [(top, newtop)])
       else (true, cur, [(top, newtop); (next_cell base noff cur, 0)]).

(** lib/flckbaselist.tcc:636-660: the search loop of cutoff_list.  None = the loop did not end within fuel
    rounds; [Some None] = not found; [Some (Some c)] = found, [c] is the cell pointing to it. *)
Fixpoint cutoff_loop (fuel : nat) (base noff : Z) (m : mem) (top cur prevcell target : Z) : option (option Z) :=
  match fuel with
  | O => None
  | S f =>
      if target =? 0 then Some None
      else if target =? cur then
        if m prevcell =? to_rel base cur then Some (Some prevcell)
        else cutoff_loop f base noff m top cur top (to_abs base (m top))            (* restart from top *)
      else cutoff_loop f base noff m top cur (next_cell base noff target) (to_abs base (m (next_cell base noff target)))
  end.

(** lib/flckbaselist.tcc:623-662: cutoff_list *)
Definition cutoff_list (fuel : nat) (base noff : Z) (m : mem) (top cur : Z) : option (bool * list write) :=
  if (cur =? 0) || (m top =? 0) then Some (false, [])
  else match cutoff_loop fuel base noff m top cur top (to_abs base (m top)) with
       | None => None
       | Some None => Some (false, [])
       | Some (Some c) => Some (true, [(c, m (next_cell base noff cur)); (next_cell base noff cur, 0)])
       end.

(** lib/flckbaselist.tcc:664-680: find; [eqv r] = the comparison function says "equal" for the entry at
    file offset r.  Returns the found absolute pointer or 0. *)
Fixpoint find_loop (fuel : nat) (base noff : Z) (m : mem) (eqv : Z -> bool) (target : Z) : option Z :=
  match fuel with
  | O => None
  | S f =>
      if target =? 0 then Some 0
      else if eqv (to_rel base target) then Some target
      else find_loop f base noff m eqv (to_abs base (m (next_cell base noff target)))
  end.
Definition find (fuel : nat) (base noff : Z) (m : mem) (eqv : Z -> bool) (top : Z) : option Z :=
  if m top =? 0 then Some 0 else find_loop fuel base noff m eqv (to_abs base (m top)).

(** lib/flckbaselist.tcc:682-702: rfind *)
Fixpoint rfind_loop (fuel : nat) (base noff : Z) (m : mem) (eqv : Z -> bool) (target last : Z) : option Z :=
  match fuel with
  | O => None
  | S f =>
      if target =? 0 then Some last
      else rfind_loop f base noff m eqv (to_abs base (m (next_cell base noff target)))
             (if eqv (to_rel base target) then target else last)
  end.
Definition rfind (fuel : nat) (base noff : Z) (m : mem) (eqv : Z -> bool) (top : Z) : option Z :=
  if m top =? 0 then Some 0 else rfind_loop fuel base noff m eqv (to_abs base (m top)) 0.

(** lib/flckbaselist.tcc:547-564: initialize(ptr, count) chains [count] consecutive entries of [size] bytes *)
Fixpoint init_loop (base noff size : Z) (ptr prev : Z) (count : nat) : list write :=
  match count with
  | O => []
  | S n => (if prev =? 0 then [] else [(next_cell base noff prev, to_rel base ptr)])
             ++ [(next_cell base noff ptr, 0)] ++ init_loop base noff size (ptr + size) ptr n
  end.
Definition init_list (base noff size : Z) (ptr : Z) (count : nat) : bool * list write :=
  if (ptr =? 0) || (Nat.eqb count 0) then (false, []) else (true, init_loop base noff size ptr 0 count).

(** The two composite movements that the library performs with an entry:
    release (e.g. lib/flcklistofflock.cc:106-111, lib/flckshm.cc:540-545): cut it off its list, then insert it
    into the free list; *)
Definition release (fuel : nat) (base noff : Z) (m : mem) (list_top free_top cur : Z) : option (bool * list write) :=
  match cutoff_list fuel base noff m list_top cur with
  | Some (true, ws) => let m' := apply_writes m ws in
                       let (ok, ws') := insert_list base noff m' free_top cur in Some (ok, ws ++ ws')
  | r => r
  end.
(** acquire (e.g. lib/flckshm.cc:700-712, lib/flcklistofflock.cc:118-127): take the first entry of the free
    list, initialise it (its [next] stays NULL), insert it into the list.  [init] are the writes of the
    initialisation, to cells of the entry other than [next]. *)
Definition acquire (base noff : Z) (m : mem) (free_top list_top : Z) (init : Z -> list write) : bool * Z * list write :=
  match retrieve_list base noff m free_top with
  | (true, cur, ws) => let m' := apply_writes m (ws ++ init cur) in
                       let (ok, ws') := insert_list base noff m' list_top cur in (ok, cur, ws ++ init cur ++ ws')
  | (false, _, ws) => (false, 0, ws)
  end.
