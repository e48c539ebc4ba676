(** Lengths of the shared file and of its mappings: the machine of Init_Model.v together with the configured area counts,
    the size of the file, the length that its header gives, and the length with which each process has mapped it.
    Simplified, besides what Init_Model.v leaves out: a zero fill that fails leaves the size 0 (lib/flckutil.cc:470-505 may
    have written a part).  What a process does after an unmapping with a wrong length is not modelled: the machine goes on as
    if the length had been right, so only the first such unmapping of an execution says something about the code. *)
From Coq Require Import ZArith List Bool Lia.
From Verif Require Import Base List_Model Layout_Model Init_Model.
Import ListNotations.
Open Scope Z_scope.

Record mstate := mkM {
  m_i : istate;
  m_cnt : Z -> counts;                    (** configured area counts of a process, lib/flckshm.cc:183-188 *)
  m_loc : Z -> counts;                    (** by thread: the counts from which InitializeShmFile computed its sizes, lib/flckshminit.cc:245-260 *)
  m_by : counts;                          (** the counts with which the header of the file was written *)
  m_size : Z;                             (** size of the file *)
  m_head : Z;                             (** [flength] in the header *)
  m_len : Z -> Z;                         (** by process: length of its mapping *)
  m_unmap : list (Z * option Z * Z)       (** observation, newest first: process, length passed to munmap ([None]: the header could
                                              not be read, the file is empty), length of the mapping *)
}.

(** every process has its own configuration *)
Definition m_init (cnt : Z -> counts) : mstate :=
  mkM i_init cnt (fun _ => mkCnt 0 0 0 0 0 0) (mkCnt 0 0 0 0 0 0) 0 0 (fun _ => 0) [].

Definition m_setlen (s : mstate) p n := mkM (m_i s) (m_cnt s) (m_loc s) (m_by s) (m_size s) (m_head s) (upd (m_len s) p n) (m_unmap s).
Definition m_setfile (s : mstate) size head := mkM (m_i s) (m_cnt s) (m_loc s) (m_by s) size head (m_len s) (m_unmap s).
Definition m_seti (s : mstate) i := mkM i (m_cnt s) (m_loc s) (m_by s) (m_size s) (m_head s) (m_len s) (m_unmap s).

(** what a step of thread [t] does to the lengths; the first component is as in [i_run] *)
Definition m_run (s : mstate) (t : Z) (fail : bool) : mstate :=
  let p := proc t in
  let i := m_i s in
  match i_pc i t with
  | IOpenX => if fail || i_exists i then s else m_setfile s 0 0        (* 125: a new file *)
  | IAttach =>                                                         (* 48-86: [length] is read from the header *)
      if i_map i p || negb (i_fd i p) || fail then s
      else match i_file i with FEmpty | FZero => s | _ => m_setlen s p (m_head s) end
  | ITrunc =>                                                          (* 239, 245-260 *)
      if negb (i_fd i p) || fail then s
      else mkM i (m_cnt s) (upd (m_loc s) t (m_cnt s p)) (m_by s) 0 0 (m_len s) (m_unmap s)
  | IFill => if negb (i_fd i p) || fail then s else m_setfile s (sz_total (m_loc s t)) 0                  (* 263 *)
  | IMap => if negb (i_fd i p) || fail then s else m_setlen s p (sz_total (m_loc s t))                    (* 269 *)
  | IHead => mkM i (m_cnt s) (m_loc s) (m_loc s t) (m_size s) (sz_total (m_loc s t)) (m_len s) (m_unmap s) (* 280 *)
  | IDet1 _ =>                                                         (* 97: munmap(pShmBase, pFlHead->flength) *)
      if i_map i p
      then mkM i (m_cnt s) (m_loc s) (m_by s) (m_size s) (m_head s) (m_len s)
             ((p, match i_file i with FEmpty => None | _ => Some (m_head s) end, m_len s p) :: m_unmap s)
      else s
  | _ => s
  end.

Inductive mlabel :=
| MStep (x : ilabel)
| MCfg (p : Z) (c : counts).     (** the configuration of a process changes: lib/flckshm.cc:452-492, 347-398 *)

Definition m_step (s : mstate) (x : mlabel) : mstate :=
  match x with
  | MCfg p c => mkM (m_i s) (upd (m_cnt s) p c) (m_loc s) (m_by s) (m_size s) (m_head s) (m_len s) (m_unmap s)
  | MStep x =>
      let i' := i_step (m_i s) x in
      match x with
      | IRun t fail => m_seti (if i_alive (m_i s) (proc t) then m_run s t fail else s) i'
      | IFork t q =>                                  (* configuration and mapping are copied *)
          if i_alive (m_i s) (proc t) && negb (i_alive (m_i s) q)
          then mkM i' (upd (m_cnt s) q (m_cnt s (proc t))) (m_loc s) (m_by s) (m_size s) (m_head s) (upd (m_len s) q (m_len s (proc t))) (m_unmap s)
          else s
      | _ => m_seti s i'
      end
  end.

Inductive m_reach (ok : istate -> ilabel -> Prop) : mstate -> Prop :=
| mr_init : forall cnt, m_reach ok (m_init cnt)
| mr_step : forall s x, m_reach ok s -> ok (m_i s) x -> m_reach ok (m_step s (MStep x))
| mr_cfg : forall s p c, m_reach ok s -> m_reach ok (m_step s (MCfg p c)).

Definition m_exec (s : mstate) (ls : list ilabel) : mstate := fold_left (fun s x => m_step s (MStep x)) ls s.
