(** What a recovery pass should do, said with the process table and plain filters. *)
From Verif Require Import Base Cache_Model Cache_Spec Sweep_Model.
From Coq Require Import ZArith List Bool.
Import ListNotations.
Open Scope Z_scope.

(** the process table: as in C59; no real file has the all-ones identifiers *)
Definition table_ok (o : os) : Prop :=
  os_ok o /\ forall p f d i, o_fd o p f = SOk d i -> d <> two64 - 1 /\ i <> two64 - 1.

Definition there (o : os) (p t : Z) : Prop := exists d i, o_task o p t = SOk d i.

(** the holder is there and its descriptor is open on the file; a lock without descriptor lives with its
    thread; where looking is forbidden the thread counts *)
Definition live (o : os) (dev ino : Z) (l : lk) : Prop :=
  if l_fd l <? 0 then there o (l_pid l) (l_tid l)
  else o_fd o (l_pid l) (l_fd l) = SOk dev ino \/
       (o_fd o (l_pid l) (l_fd l) = SErr EACCES /\ there o (l_pid l) (l_tid l)).

(** lockers in the lists *)
Definition in_entry (o : oent) (l : lk) : Prop := In l (e_rd o) \/ In l (e_wr o).
Definition in_files (s : shr) (d i : Z) (l : lk) : Prop :=
  exists f o, In f (g_files s) /\ n_dev f = d /\ n_ino f = i /\ In o (n_offs f) /\ in_entry o l.
(** thread [p]/[t] owns a mutex or waits *)
Definition in_names (s : shr) (p t : Z) : Prop :=
  (exists m, In m (g_mtx s) /\ m_own m = Some (p, t)) \/ (exists c, In c (g_cond s) /\ In (p, t) c).

(** identifiers as the system gives them *)
Definition ids_ok (s : shr) : Prop :=
  (forall d i l, in_files s d i l -> is_int32 (l_fd l) /\ l_pid l <> 0) /\
  (forall p t, in_names s p t -> p <> 0).

(** filters *)
Definition used_off (o : oent) : bool :=
  e_prot o || negb (length (e_rd o) =? 0)%nat || negb (length (e_wr o) =? 0)%nat.
Definition used_file (f : fent) : bool := n_prot f || existsb used_off (n_offs f).
(** the lock word (-1: locked for writing, otherwise the number of readers) after [n] unlocks *)
Definition unlocked (n : nat) (v : Z) : Z := match n with O => v | _ => Z.max 0 (v - Z.of_nat n) end.
Definition lost (k : lk -> bool) (l : list lk) : nat := length (filter (fun x => l_locked x && negb (k x)) l).
Definition keep_off (k : lk -> bool) (o : oent) : oent :=
  OE (e_off o) (e_len o) (e_prot o) (unlocked (lost k (e_rd o) + lost k (e_wr o)) (e_word o))
     (filter k (e_rd o)) (filter k (e_wr o)).
Definition keep_file (k : Z -> Z -> lk -> bool) (f : fent) : fent :=
  FE (n_dev f) (n_ino f) (n_prot f) (filter used_off (map (keep_off (k (n_dev f) (n_ino f))) (n_offs f))).
Definition keep_files (k : Z -> Z -> lk -> bool) (l : list fent) : list fent :=
  filter used_file (map (keep_file k) l).
Definition keep_mtx (run : Z -> Z -> bool) (m : ment) : ment :=
  match m_own m with Some (p, t) => if run p t then m else ME None 0 | None => m end.
Definition keep_cond (run : Z -> Z -> bool) (c : cent) : cent := filter (fun x => run (fst x) (snd x)) c.

(** numbers of entries in the lists *)
Definition total {A} (f : A -> Z) (l : list A) : Z := fold_right (fun x n => f x + n) 0 l.
Definition len {A} (l : list A) : Z := Z.of_nat (length l).
Definition off_lockers (o : oent) : Z := len (e_rd o) + len (e_wr o).
Definition nfiles (s : shr) : Z := len (g_files s).
Definition noffs (s : shr) : Z := total (fun f => len (n_offs f)) (g_files s).
Definition nlockers (s : shr) : Z := total (fun f => total off_lockers (n_offs f)) (g_files s).
Definition nwaiters (s : shr) : Z := total len (g_cond s).

(** the lock word counts the locked lockers *)
Definition nlocked (l : list lk) : nat := length (filter l_locked l).
Definition fits (o : oent) : Prop :=
  (nlocked (e_wr o) = 0%nat /\ e_word o = Z.of_nat (nlocked (e_rd o))) \/
  (nlocked (e_wr o) = 1%nat /\ nlocked (e_rd o) = 0%nat /\ e_word o = -1).
