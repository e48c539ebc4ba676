(** Specification of read/write locks on files as an atomic object, and histories of calls and returns.
    Nothing here refers to program points or to the lists in shared memory: a call waits, takes effect at
    one instant, then returns. *)
From Coq Require Import ZArith List Bool Lia.
From Verif Require Import Base RwApi_Model RwApi_Spec.
Import ListNotations.
Open Scope Z_scope.

(** ** Histories: what programs using the library can see *)
Inductive event :=
| ECall (t : Z) (c : rcall)
| ERet (t r : Z)
| EFd (p fd : Z) (d : option Z)
| EDie (t : Z)
| EDieProc (p : Z).

(** events of one step of the machine of RwApi_Model *)
Definition r_events (s : rstate) (x : rlabel) : list event :=
  match x with
  | LCall t c => if alive s t then match r_pc s t with RIdle => [ECall t c] | _ => [] end else []
  | LRun t race gu => if alive s t then
                        match r_pc s t, r_pc (r_run s t race gu) t, r_res (r_run s t race gu) t with
                        | RIdle, _, _ => []
                        | _, RIdle, Some r => [ERet t r]
                        | _, _, _ => []
                        end
                      else []
  | LSetFd p fd d => [EFd p fd d]
  | LSetMode _ _ => []
  | LDieThread t => [EDie t]
  | LDieProc p => [EDieProc p]
  end.

(** [r_history s0 ok s h]: some execution from [s0] reaches [s] and shows the history [h] *)
Inductive r_history (s0 : rstate) (ok : rstate -> rlabel -> Prop) : rstate -> list event -> Prop :=
| rh_init : r_history s0 ok s0 []
| rh_step : forall s x h, r_history s0 ok s h -> ok s x -> r_history s0 ok (r_step s x) (h ++ r_events s x).

(** ** Conditions on schedules *)
(** calls name an open descriptor, and lock and unlock calls a range of the family *)
Definition proper_calls (fam : Z -> Z -> Z -> Prop) (s : rstate) (x : rlabel) : Prop :=
  match x with
  | LCall t (CLock k fd off len w) => exists d, file_of s t fd = Some d /\ fam d off len
  | LCall t (CUnlockRw fd off len) => exists d, file_of s t fd = Some d /\ fam d off len
  | LCall t (CIsLocked fd off len) => exists d, file_of s t fd = Some d
  | _ => True
  end.
(** the last attempt of a try or timed call is not disturbed between load and compare-and-swap *)
Definition no_spurious_refusal (s : rstate) (x : rlabel) : Prop :=
  match x with
  | LRun t true gu => match r_pc s t with
                      | AT a _ _ _ => a_wait a = WBlock \/ (a_wait a = WTimed /\ gu = false)
                      | _ => True
                      end
  | _ => True
  end.
Definition regular (fam : Z -> Z -> Z -> Prop) (s : rstate) (x : rlabel) : Prop :=
  careful s x /\ proper_calls fam s x /\ no_spurious_refusal s x.

(** ** The atomic lock table *)
Inductive op_state := OIdle | OWaits (c : rcall) (d : Z) | ODone (r : Z).
Record table := mkT {
  tb_held : Z -> option grant;       (** locks held, under arbitrary numbers *)
  tb_talive : Z -> bool;
  tb_palive : Z -> bool;
  tb_fd : Z -> Z -> option Z;
  tb_op : Z -> op_state
}.
Definition tb_init (fds : Z -> Z -> option Z) : table :=
  mkT (fun _ => None) (fun _ => true) (fun _ => true) fds (fun _ => OIdle).
Definition tb_alive (a : table) (t : Z) : bool := tb_palive a (proc_of_thread t) && tb_talive a t.
Definition tb_dev (a : table) (t fd : Z) : option Z :=
  if fd <? 0 then Some (-1) else tb_fd a (proc_of_thread t) fd.
Definition tb_present (a : table) (g : grant) : Prop :=
  tb_alive a (gr_t g) = true /\ tb_dev a (gr_t g) (gr_fd g) = Some (gr_dev g).

(** the effect of a call of thread [t] on file [d] at its instant: new table and result *)
Inductive effect (held : Z -> option grant) (t d : Z) : rcall -> (Z -> option grant) -> Z -> Prop :=
| ef_lock : forall k fd off len w i, held i = None ->
    (forall j g, held j = Some g -> ~ conflict (mkG t fd d off len k) g) ->
    effect held t d (CLock k fd off len w) (upd held i (Some (mkG t fd d off len k))) OK
| ef_busy : forall k fd off len j g, held j = Some g -> conflict (mkG t fd d off len k) g ->
    effect held t d (CLock k fd off len WTry) held EBUSY
| ef_timeout : forall k fd off len j g, held j = Some g -> conflict (mkG t fd d off len k) g ->
    effect held t d (CLock k fd off len WTimed) held ETIMEDOUT
(** the pools of the shared memory are empty *)
| ef_nolck : forall k fd off len w, effect held t d (CLock k fd off len w) held ENOLCK
| ef_unlock : forall fd off len i k, held i = Some (mkG t fd d off len k) ->
    effect held t d (CUnlockRw fd off len) (upd held i None) OK
| ef_inval : forall fd off len, (forall j k, held j <> Some (mkG t fd d off len k)) ->
    effect held t d (CUnlockRw fd off len) held EINVAL
| ef_free : forall fd off len, (forall j g, held j = Some g -> gr_dev g <> d) ->
    effect held t d (CIsLocked fd off len) held 0
(** nothing is said here of the answer 1, see C22 *)
| ef_locked : forall fd off len, effect held t d (CIsLocked fd off len) held 1
| ef_pass : forall priv, effect held t d (CPass priv) held OK.

Definition call_dev (a : table) (t : Z) (c : rcall) : option Z :=
  match c with
  | CLock _ fd _ _ _ | CUnlockRw fd _ _ | CIsLocked fd _ _ => tb_dev a t fd
  | CPass _ => Some 0
  end.
Definition reaps (c : rcall) : Prop :=
  match c with CPass _ => True | CLock _ _ _ _ WBlock => True | _ => False end.

Inductive tb_step : table -> list event -> table -> Prop :=
| ts_call : forall a t c d, tb_alive a t = true -> tb_op a t = OIdle -> call_dev a t c = Some d ->
    tb_step a [ECall t c] (mkT (tb_held a) (tb_talive a) (tb_palive a) (tb_fd a) (upd (tb_op a) t (OWaits c d)))
| ts_effect : forall a t c d held' r, tb_alive a t = true -> tb_op a t = OWaits c d ->
    effect (tb_held a) t d c held' r ->
    tb_step a [] (mkT held' (tb_talive a) (tb_palive a) (tb_fd a) (upd (tb_op a) t (ODone r)))
| ts_ret : forall a t r, tb_alive a t = true -> tb_op a t = ODone r ->
    tb_step a [ERet t r] (mkT (tb_held a) (tb_talive a) (tb_palive a) (tb_fd a) (upd (tb_op a) t OIdle))
(** a recovery pass, or a blocking lock call, takes away a lock whose holder is not there any more *)
| ts_reap : forall a t c d i g, tb_alive a t = true -> tb_op a t = OWaits c d -> reaps c ->
    tb_held a i = Some g -> ~ tb_present a g ->
    tb_step a [] (mkT (upd (tb_held a) i None) (tb_talive a) (tb_palive a) (tb_fd a) (tb_op a))
| ts_fd : forall a p fd d,
    tb_step a [EFd p fd d] (mkT (tb_held a) (tb_talive a) (tb_palive a)
      (fun p' fd' => if (p' =? p) && (fd' =? fd) then d else tb_fd a p' fd') (tb_op a))
| ts_die : forall a t, tb_step a [EDie t] (mkT (tb_held a) (upd (tb_talive a) t false) (tb_palive a) (tb_fd a) (tb_op a))
| ts_die_proc : forall a p, tb_step a [EDieProc p] (mkT (tb_held a) (tb_talive a) (upd (tb_palive a) p false) (tb_fd a) (tb_op a)).

Inductive tb_history (fds : Z -> Z -> option Z) : table -> list event -> Prop :=
| th_init : tb_history fds (tb_init fds) []
| th_step : forall a h e a', tb_history fds a h -> tb_step a e a' -> tb_history fds a' (h ++ e).

(** ** Reading histories *)
(** descriptor [fd] of process [p] after [h] *)
Fixpoint fd_after (p fd : Z) (h : list event) (acc : option Z) : option Z :=
  match h with
  | [] => acc
  | EFd p' fd' d :: r => fd_after p fd r (if (p =? p') && (fd =? fd') then d else acc)
  | _ :: r => fd_after p fd r acc
  end.
Definition dev_after (fds : Z -> Z -> option Z) (h : list event) (t fd : Z) : option Z :=
  if fd <? 0 then Some (-1) else fd_after (proc_of_thread t) fd h (fds (proc_of_thread t) fd).
(** neither [t] nor its process dies, and descriptor [fd] of its process is left alone *)
Definition stays (t fd : Z) (h : list event) : Prop :=
  ~ In (EDie t) h /\ ~ In (EDieProc (proc_of_thread t)) h /\ (0 <= fd -> forall d, ~ In (EFd (proc_of_thread t) fd d) h).
(** [t] starts no unlock *)
Definition no_unlock (t : Z) (h : list event) : Prop := forall fd off len, ~ In (ECall t (CUnlockRw fd off len)) h.
(** after [h], [t] has the lock [g]: a lock call of it returned success, its thread and descriptor are
    still there and it has not started an unlock since *)
Definition has_lock (fds : Z -> Z -> option Z) (h : list event) (g : grant) : Prop :=
  exists h1 w h2 h3, h = h1 ++ ECall (gr_t g) (CLock (gr_kind g) (gr_fd g) (gr_off g) (gr_len g) w) :: h2 ++ ERet (gr_t g) OK :: h3 /\
    (forall c, ~ In (ECall (gr_t g) c) h2) /\ (forall r, ~ In (ERet (gr_t g) r) h2) /\
    dev_after fds h1 (gr_t g) (gr_fd g) = Some (gr_dev g) /\
    stays (gr_t g) (gr_fd g) (h2 ++ h3) /\ no_unlock (gr_t g) h3.
