(** Vocabulary of the read/write lock properties: who holds what, and which schedules are considered. *)
From Coq Require Import ZArith List Bool Lia.
From Verif Require Import Base RwWord_Model RwApi_Model.
Import ListNotations.
Open Scope Z_scope.

(** descriptors: a negative one stands for no file (one lock space, number -1), the others for what the
    process has open *)
Definition file_of (s : rstate) (t fd : Z) : option Z := if fd <? 0 then Some (-1) else r_fd s (t / two32) fd.


(** Thread [gr_t g] was told that it has the lock [g] (a lock call returned 0) and has not released it.
    [l] tells several grants of the same arguments apart. *)
Definition holds (s : rstate) (l : Z) (g : grant) : Prop := h_st (r_h s) l = LHeld g.

(** two grants share a byte of the same file *)
Definition byte_in (off len x : Z) : Prop := off <= x < off + len.
Definition conflict (g1 g2 : grant) : Prop :=
  gr_dev g1 = gr_dev g2 /\
  (exists x, byte_in (gr_off g1) (gr_len g1) x /\ byte_in (gr_off g2) (gr_len g2) x) /\
  (gr_kind g1 = Wr \/ gr_kind g2 = Wr).

(** ** Conditions on schedules *)

(** the two windows in which the lock word and the [locked] flag of the caller's entry disagree *)
Definition in_window (p : rpc) : Prop :=
  match p with AS _ _ _ _ => True | B3 _ _ _ _ _ => True | _ => False end.

(** descriptor and file of a running lock call, until it returns or its entry is removed again *)
Fixpoint lock_fd (p : rpc) : option (Z * Z) :=
  match p with
  | RWait q => lock_fd q
  | RDrop q => lock_fd q
  | A2 a | A3 a _ | A4 a _ _ | AT a _ _ _ | AS a _ _ _ | AD0 a _ _ _ | AD a _ _ _ _ | F1 a _ _ _ => Some (a_fd a, a_dev a)
  | _ => None
  end.

(** Nobody dies inside a window, and a descriptor is not closed or replaced while a lock call on it runs.
    Everything else is allowed: any interleaving, deaths at any other point (also while holding the list
    guard), closing descriptors of held locks, recovery passes at any time. *)
Definition careful (s : rstate) (x : rlabel) : Prop :=
  match x with
  | LDieThread t => ~ in_window (r_pc s t)
  | LDieProc p => forall t, proc_of_thread t = p -> alive s t = true -> ~ in_window (r_pc s t)
  | LSetFd p fd d => forall t dev, proc_of_thread t = p -> alive s t = true -> lock_fd (r_pc s t) <> Some (fd, dev)
  | _ => True
  end.

(** the ranges used on each file come from a family *)
Definition in_family (fam : Z -> Z -> Z -> Prop) (s : rstate) (x : rlabel) : Prop :=
  match x with
  | LCall t (CLock k fd off len w) => forall d, file_of s t fd = Some d -> fam d off len
  | _ => True
  end.

(** ranges of the family are proper and pairwise equal or disjoint *)
Definition equal_or_disjoint (fam : Z -> Z -> Z -> Prop) : Prop :=
  (forall d off len, fam d off len -> 0 <= off < two63 /\ 0 < len /\ off + len < two64) /\
  (forall d o1 l1 o2 l2, fam d o1 l1 -> fam d o2 l2 ->
     (o1 = o2 /\ l1 = l2) \/ (forall x, byte_in o1 l1 x -> byte_in o2 l2 x -> False)).

(** no thread or process dies *)
Definition no_deaths (s : rstate) (x : rlabel) : Prop :=
  match x with LDieThread _ | LDieProc _ => False | _ => True end.
(** every process uses the default free mode all the time *)
Definition no_mode_change (s : rstate) (x : rlabel) : Prop :=
  match x with LSetMode _ m => m = FREE_FD | _ => True end.

Definition both (P Q : rstate -> rlabel -> Prop) s x := P s x /\ Q s x.

(** ** Executions *)
Inductive r_path (ok : rstate -> rlabel -> Prop) : rstate -> list rlabel -> rstate -> Prop :=
| rp_nil : forall s, r_path ok s [] s
| rp_cons : forall s x ls s', ok s x -> r_path ok (r_step s x) ls s' -> r_path ok s (x :: ls) s'.

Definition any_schedule (s : rstate) (x : rlabel) : Prop := True.
Definition idle (s : rstate) (t : Z) : Prop := r_pc s t = RIdle.
Definition actor (x : rlabel) : option Z := match x with LCall t _ | LRun t _ _ => Some t | _ => None end.
(** thread [t] starts no further call *)
Definition one_call (t : Z) (ls : list rlabel) : Prop := forall c, ~ In (LCall t c) ls.

(** [rel] lists the grants that the steps of thread [t] take away along [ls]; no step of [t] adds one *)
Inductive own_effect (t : Z) : rstate -> list rlabel -> list (Z * grant) -> Prop :=
| oe_nil : forall s, own_effect t s [] []
| oe_other : forall s x ls rel, actor x <> Some t -> own_effect t (r_step s x) ls rel -> own_effect t s (x :: ls) rel
| oe_same : forall s x ls rel, actor x = Some t ->
    (forall l g, holds (r_step s x) l g <-> holds s l g) ->
    own_effect t (r_step s x) ls rel -> own_effect t s (x :: ls) rel
| oe_released : forall s x ls rel l g, actor x = Some t -> holds s l g ->
    (forall l' g', holds (r_step s x) l' g' <-> holds s l' g' /\ l' <> l) ->
    own_effect t (r_step s x) ls rel -> own_effect t s (x :: ls) ((l, g) :: rel).

(** The holder is gone: its process has ended, or (if the observer may look into /proc/<pid>/fd) its
    descriptor does not refer to the file any more, or (descriptor-less lock, or no permission) its thread
    has ended. *)
Definition gone (s : rstate) (priv : bool) (g : grant) : Prop :=
  r_palive s (proc_of_thread (gr_t g)) = false \/
  (0 <= gr_fd g /\ priv = true /\
     match r_fd s (proc_of_thread (gr_t g)) (gr_fd g) with Some d => d <> gr_dev g /\ d <> -1 | None => True end) \/
  ((gr_fd g < 0 \/ priv = false) /\ alive s (gr_t g) = false).

(** the holder is there: it runs and its descriptor still refers to the file *)
Definition present (s : rstate) (g : grant) : Prop :=
  alive s (gr_t g) = true /\ file_of s (gr_t g) (gr_fd g) = Some (gr_dev g).

(** unlock calls *)
Fixpoint in_unlock (p : rpc) : Prop :=
  match p with
  | RWait q => in_unlock q
  | B2 _ | B3 _ _ _ _ _ | B4 _ _ _ _ _ | B5 _ _ _ | B6 _ _ => True
  | _ => False
  end.

(** the holder stays present and does not unlock *)
Definition keeps (g : grant) (s : rstate) (x : rlabel) : Prop :=
  present s g /\ present (r_step s x) g /\ (actor x = Some (gr_t g) -> ~ in_unlock (r_pc s (gr_t g))).
(** the holder does not come back (its descriptor is not opened on the file again) *)
Definition stays_gone (priv : bool) (g : grant) (s : rstate) (x : rlabel) : Prop :=
  gone s priv g /\ gone (r_step s x) priv g.
(** descriptor [fd] of the process of thread [t] is not touched *)
Definition keeps_fd (t fd : Z) (s : rstate) (x : rlabel) : Prop :=
  match x with LSetFd p fd' _ => ~ (p = proc_of_thread t /\ fd' = fd) | _ => True end.

(** same caller, descriptor, file and range *)
Definition same_args (g1 g2 : grant) : Prop :=
  gr_t g1 = gr_t g2 /\ gr_fd g1 = gr_fd g2 /\ gr_dev g1 = gr_dev g2 /\ gr_off g1 = gr_off g2 /\ gr_len g1 = gr_len g2.
(** only thread [t] runs, and no compare-and-swap of it is disturbed *)
Definition only (t : Z) (s : rstate) (x : rlabel) : Prop := exists gu, x = LRun t false gu.

(** ** Resources *)
(** files in use with their ranges, lock words and registered lockers, and the three pools *)
Definition same_resources (h0 h : heap) : Prop :=
  h_flist h = h_flist h0 /\ h_ffree h = h_ffree h0 /\ h_ofree h = h_ofree h0 /\ h_lfree h = h_lfree h0 /\
  (forall f, f_dev (h_f h f) = f_dev (h_f h0 f) /\ f_offs (h_f h f) = f_offs (h_f h0 f)) /\
  (forall o, o_off (h_o h o) = o_off (h_o h0 o) /\ o_len (h_o h o) = o_len (h_o h0 o) /\ o_val (h_o h o) = o_val (h_o h0 o) /\
             o_rd (h_o h o) = o_rd (h_o h0 o) /\ o_wr (h_o h o) = o_wr (h_o h0 o)) /\
  (forall l, ~ In l (h_lfree h0) -> h_l h l = h_l h0 l /\ h_st h l = h_st h0 l).

(** ** Conditions under which no entry is lost (C25) *)
(** a lock call that needs a range or locker entry finds one *)
Definition pools_suffice (s : rstate) (x : rlabel) : Prop :=
  match x with
  | LRun t _ _ => match r_pc s t with
                  | A3 a f => find_off (r_h s) f (a_off a) (a_len a) = None -> h_ofree (r_h s) <> []
                  | A4 _ _ _ => h_lfree (r_h s) <> []
                  | _ => True
                  end
  | _ => True
  end.
(** when a failed lock call removes its entry, somebody else is still registered on the range *)
Definition busy_cleanup (s : rstate) (x : rlabel) : Prop :=
  match x with
  | LRun t _ _ => match r_pc s t with
                  | F1 _ _ o _ => (2 <= length (o_rd (h_o (r_h s) o) ++ o_wr (h_o (r_h s) o)))%nat
                  | _ => True
                  end
  | _ => True
  end.

(** ** Refused calls *)
(** somebody has the lock [g]: a call was told so, or one step of its thread is missing until it is *)
Definition taken (s : rstate) (g : grant) : Prop :=
  exists l, holds s l g \/
    exists u, gr_t g = u /\ alive s u = true /\ ~ holds s l g /\ holds (r_step s (LRun u false false)) l g.
(** a lock that conflicts with [g] is taken *)
Definition obstructed (s : rstate) (g : grant) : Prop := exists g', taken s g' /\ conflict g g'.
(** no read attempt of thread [t] is disturbed between its load and its compare-and-swap *)
Definition undisturbed (t : Z) (s : rstate) (x : rlabel) : Prop := forall gu, x <> LRun t true gu.
