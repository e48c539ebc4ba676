(** The dump of the shared memory: FlShm::Dump (lib/flckshmdump.cc:39-140) and the [dump] methods of the list
    classes.  The text is modelled as a list of lines, each with its indentation; what a line says is a
    constructor with its numbers, the digits and the key strings are not modelled.
    Memory is that of [List_Model]: cells at file offsets, the file mapped at [base].  The offsets of members
    are those of a 64-bit build (lib/flckstructure.h:49-145; sizes as in [Layout_Model]).
    Simplified: a name buffer is one cell. [fuel] bounds each loop; None = some loop did not end within it. *)
From Coq Require Import ZArith List Bool Lia.
From Verif Require Import Base List_Model Layout_Model.
Import ListNotations.
Open Scope Z_scope.

(** kinds of entries, sections of the dump, member lines, sub-lists *)
Inductive kind := KFile | KOff | KLocker | KMtx | KCond | KWaiter.
Inductive section_name :=
| SFile | SMtx | SCond | SFileFree | SOffFree | SLockerFree | SMtxFree | SCondFree | SWaiterFree.
Inductive field :=
| FVersion | FSzver | FLength | FFileList | FMtxList | FFileFree | FOffFree | FLockerFree | FMtxFree
| FDev | FIno | FProtect | FOffset | FLen | FLockval | FPid | FFd | FLocked | FHash | FName | FStatus.
Inductive sub := UOffs | UReaders | UWriters | UWaiters | UMtx.
Inductive text :=
| TTitle | TNotInit | TSection (s : section_name) | TOpen (k : kind) (p : Z) | TNext (v : Z)
| TField (f : field) (v : Z) | TSub (u : sub) | TEnd.
Notation line := (Z * text)%type (only parsing).

(** member cells (lib/flckstructure.h:49-121) *)
Definition l_pid := 8. Definition l_fd := 16. Definition l_locked := 20.
Definition o_lockval := 8. Definition o_offset := 16. Definition o_length := 24.
Definition o_readers := 32. Definition o_writers := 40. Definition o_protect := 48.
Definition f_dev := 8. Definition f_ino := 16. Definition f_offs := 24. Definition f_protect := 32.
Definition m_hash := 24. Definition m_name := 32.
Definition c_waiters := 8. Definition c_hash := 16. Definition c_name := 24.
Definition w_pid := 8. Definition w_status := 16. Definition w_mutex := 24.

(** the value of the member at offset o of the entry at absolute address p *)
Definition at_ (base : Z) (m : mem) (p o : Z) : Z := m (p + o - base).

(** the loops [for(ptmp = to_abs(head); ptmp; ptmp = to_abs(ptmp->next))] *)
Fixpoint each (fuel : nat) (base : Z) (m : mem) (body : Z -> option (list line)) (p : Z) : option (list line) :=
  match fuel with
  | O => None
  | S f =>
      if p =? 0 then Some []
      else match body p with
           | None => None
           | Some a => match each f base m body (to_abs base (m (next_cell base 0 p))) with
                       | None => None
                       | Some b => Some (a ++ b)
                       end
           end
  end.

(** lib/flckbaselist.tcc:705-713: fl_list_base::dump *)
Definition dump_base (base : Z) (m : mem) (lvl p : Z) : list line :=
  if p =? 0 then [] else [(lvl, TNext (at_ base m p 0))].

(** lib/flcklistlocker.cc:28-44 *)
Definition dump_locker (base : Z) (m : mem) (lvl p : Z) : list line :=
  if p =? 0 then []
  else [(lvl, TOpen KLocker p)] ++ dump_base base m (lvl + 1) p ++
       [(lvl + 1, TField FPid (at_ base m p l_pid)); (lvl + 1, TField FFd (at_ base m p l_fd));
        (lvl + 1, TField FLocked (at_ base m p l_locked)); (lvl, TEnd)].

(** lib/flcklistofflock.cc:31-65 *)
Definition dump_off (fuel : nat) (base : Z) (m : mem) (lvl p : Z) : option (list line) :=
  if p =? 0 then Some []
  else
    match each fuel base m (fun q => Some (dump_locker base m (lvl + 2) q)) (to_abs base (at_ base m p o_readers)),
          each fuel base m (fun q => Some (dump_locker base m (lvl + 2) q)) (to_abs base (at_ base m p o_writers)) with
    | Some rs, Some ws =>
        Some ([(lvl, TOpen KOff p)] ++ dump_base base m (lvl + 1) p ++
              [(lvl + 1, TField FOffset (at_ base m p o_offset)); (lvl + 1, TField FLen (at_ base m p o_length));
               (lvl + 1, TField FLockval (at_ base m p o_lockval)); (lvl + 1, TField FProtect (at_ base m p o_protect));
               (lvl + 1, TSub UReaders)] ++ rs ++ [(lvl + 1, TEnd); (lvl + 1, TSub UWriters)] ++ ws ++
              [(lvl + 1, TEnd); (lvl, TEnd)])
    | _, _ => None
    end.

(** lib/flcklistfilelock.cc:33-59 *)
Definition dump_file (fuel : nat) (base : Z) (m : mem) (lvl p : Z) : option (list line) :=
  if p =? 0 then Some []
  else
    match each fuel base m (fun q => dump_off fuel base m (lvl + 2) q) (to_abs base (at_ base m p f_offs)) with
    | Some os =>
        Some ([(lvl, TOpen KFile p)] ++ dump_base base m (lvl + 1) p ++
              [(lvl + 1, TField FDev (at_ base m p f_dev)); (lvl + 1, TField FIno (at_ base m p f_ino));
               (lvl + 1, TField FProtect (at_ base m p f_protect)); (lvl + 1, TSub UOffs)] ++ os ++
              [(lvl + 1, TEnd); (lvl, TEnd)])
    | None => None
    end.

(** lib/flcklistnmtx.cc:31-47: the owner (lockval) and the lock counter are not printed *)
Definition dump_mtx (base : Z) (m : mem) (lvl p : Z) : list line :=
  if p =? 0 then []
  else [(lvl, TOpen KMtx p)] ++ dump_base base m (lvl + 1) p ++
       [(lvl + 1, TField FHash (at_ base m p m_hash)); (lvl + 1, TField FName (at_ base m p m_name)); (lvl, TEnd)].

(** lib/flcklistwaiter.cc:29-50 *)
Definition dump_waiter (base : Z) (m : mem) (lvl p : Z) : list line :=
  if p =? 0 then []
  else [(lvl, TOpen KWaiter p)] ++ dump_base base m (lvl + 1) p ++
       [(lvl + 1, TField FPid (at_ base m p w_pid)); (lvl + 1, TField FStatus (at_ base m p w_status));
        (lvl + 1, TSub UMtx)] ++ dump_mtx base m (lvl + 2) (to_abs base (at_ base m p w_mutex)) ++
       [(lvl + 1, TEnd); (lvl, TEnd)].

(** lib/flcklistncond.cc:32-57 *)
Definition dump_cond (fuel : nat) (base : Z) (m : mem) (lvl p : Z) : option (list line) :=
  if p =? 0 then Some []
  else
    match each fuel base m (fun q => Some (dump_waiter base m (lvl + 2) q)) (to_abs base (at_ base m p c_waiters)) with
    | Some ws =>
        Some ([(lvl, TOpen KCond p)] ++ dump_base base m (lvl + 1) p ++
              [(lvl + 1, TField FHash (at_ base m p c_hash)); (lvl + 1, TField FName (at_ base m p c_name));
               (lvl + 1, TSub UWaiters)] ++ ws ++ [(lvl + 1, TEnd); (lvl, TEnd)])
    | None => None
    end.

(** one section: its title, the lines, the closing brace *)
Definition sect (s : section_name) (ls : list line) : list line := [(0, TSection s)] ++ ls ++ [(0, TEnd)].

(** lib/flckshmdump.cc:64-68 (and 72-76, 80-84): a list in use is dumped by ONE call of dump on its head *)
Definition head_only (m : mem) (base cell : Z) (body : Z -> option (list line)) : option (list line) :=
  if m cell =? 0 then Some [] else body (to_abs base (m cell)).

Fixpoint all_some (l : list (option (list line))) : option (list line) :=
  match l with
  | [] => Some []
  | None :: _ => None
  | Some a :: r => match all_some r with None => None | Some b => Some (a ++ b) end
  end.

(** lib/flckshmdump.cc:50-59: the header lines; the condition lists and the waiter list have none *)
Definition dump_head (m : mem) : list line :=
  [(0, TField FVersion (m h_version)); (0, TField FSzver (m 8)); (0, TField FLength (m h_flength));
   (0, TField FFileList (m h_file_lock_list)); (0, TField FMtxList (m h_named_mutex_list));
   (0, TField FFileFree (m h_file_lock_free)); (0, TField FOffFree (m h_offset_lock_free));
   (0, TField FLockerFree (m h_locker_free)); (0, TField FMtxFree (m h_named_mutex_free))].

Definition osect (s : section_name) (o : option (list line)) : option (list line) :=
  match o with None => None | Some l => Some (sect s l) end.

(** lib/flckshmdump.cc:39-140: Dump(out, is_free_list); [inited] = ShmFd is a valid handle *)
Definition Dump (fuel : nat) (inited : bool) (base : Z) (m : mem) (is_free_list : bool) : option (list line) :=
  if negb inited then Some [(0, TTitle); (0, TNotInit)]
  else all_some
    ([Some ((0, TTitle) :: dump_head m);
      osect SFile (head_only m base h_file_lock_list (dump_file fuel base m 1));
      osect SMtx (head_only m base h_named_mutex_list (fun p => Some (dump_mtx base m 1 p)));
      osect SCond (head_only m base h_named_cond_list (dump_cond fuel base m 1))] ++
     if is_free_list then
       [osect SFileFree (each fuel base m (dump_file fuel base m 1) (to_abs base (m h_file_lock_free)));
        osect SOffFree (each fuel base m (dump_off fuel base m 1) (to_abs base (m h_offset_lock_free)));
        osect SLockerFree (each fuel base m (fun p => Some (dump_locker base m 1 p)) (to_abs base (m h_locker_free)));
        osect SMtxFree (each fuel base m (fun p => Some (dump_mtx base m 1 p)) (to_abs base (m h_named_mutex_free)));
        osect SCondFree (each fuel base m (dump_cond fuel base m 1) (to_abs base (m h_named_cond_free)));
        osect SWaiterFree (each fuel base m (fun p => Some (dump_waiter base m 1 p)) (to_abs base (m h_waiter_free)))]
     else []).

(** ** The walk over one list while other threads work on it.
    A dump takes no list lock (lib/flckshmdump.cc has no fl_lock_lockid), so other threads change the lists
    between its reads.  They do so under the list lock, one operation at a time: put the first free entry
    into the list in use ([List_Model.acquire], lib/flckshm.cc:787-796 and alike; the writes to members other
    than [next] are left out), or release an entry ([List_Model.release], lib/flckshm.cc:771-778 and alike),
    write by write. *)
Record wstate := { w_mem : mem; w_todo : list write;     (* writes the running operation has still to do *)
                   w_cur : option Z;                      (* ptmp, None before the head is read *)
                   w_next : bool;                         (* the entry at ptmp has been shown, next is to be read *)
                   w_out : list Z }.                      (* entries shown, newest first *)

(** what another thread, or the dump, does next *)
Inductive wlabel := LAcquire | LRelease (p : Z) (fuel : nat) | LWrite | LDump.

Definition w_step (base noff top free : Z) (s : wstate) (a : wlabel) : option wstate :=
  match a with
  | LAcquire =>
      match w_todo s with
      | [] => Some {| w_mem := w_mem s; w_todo := snd (acquire base noff (w_mem s) free top (fun _ => []));
                      w_cur := w_cur s; w_next := w_next s; w_out := w_out s |}
      | _ => None
      end
  | LRelease p fuel =>
      match w_todo s, release fuel base noff (w_mem s) top free p with
      | [], Some (_, ws) => Some {| w_mem := w_mem s; w_todo := ws;
                                    w_cur := w_cur s; w_next := w_next s; w_out := w_out s |}
      | _, _ => None
      end
  | LWrite =>
      match w_todo s with
      | [] => None
      | (a, v) :: r => Some {| w_mem := upd (w_mem s) a v; w_todo := r;
                               w_cur := w_cur s; w_next := w_next s; w_out := w_out s |}
      end
  | LDump =>
      match w_cur s with
      | None => Some {| w_mem := w_mem s; w_todo := w_todo s; w_cur := Some (to_abs base (w_mem s top));
                        w_next := false; w_out := w_out s |}
      | Some p =>
          if p =? 0 then None
          else if w_next s then
            Some {| w_mem := w_mem s; w_todo := w_todo s;
                    w_cur := Some (to_abs base (w_mem s (next_cell base noff p))); w_next := false; w_out := w_out s |}
          else
            Some {| w_mem := w_mem s; w_todo := w_todo s; w_cur := Some p; w_next := true; w_out := p :: w_out s |}
      end
  end.

Definition w_start (m : mem) : wstate := {| w_mem := m; w_todo := []; w_cur := None; w_next := false; w_out := [] |}.
