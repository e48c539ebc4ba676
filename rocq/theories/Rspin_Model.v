(** Read/write locks with the real primitives: the machine of RwApi_Model.v in which file_lock_lockid is taken
    and released by the loops of Guard_Model.v (lib/flckbaselist.tcc:59-127), and in which a read attempt and
    an unlock of a lock word load the word in one step and compare-and-swap it in another
    (lib/flckbaselist.tcc:145-204, 246-263). *)
From Coq Require Import ZArith List Bool Lia.
From Verif Require Import Base RwWord_Model RwApi_Model RwApi_Spec RwLin_Spec Guard_Model.
Import ListNotations.
Open Scope Z_scope.

(** file_lock_lockid as a word: lib/flckstructure.h FLCK_INVALID_ID is 0 *)
Definition word_of (g : option Z) : Z := match g with Some u => u | None => 0 end.
Definition guard_of (w : Z) : option Z := if w =? 0 then None else Some w.

Record zstate := mkZ {
  z_r : rstate;               (** memory and program points of RwApi_Model.v *)
  z_g : Z -> gpc;             (** where each thread is inside the loops of the list lock; GIdle: not inside *)
  z_w : Z -> option Z         (** the value [beforeval] that each thread has loaded from a lock word *)
}.
Definition z_init (s : rstate) : zstate := mkZ s (fun _ => GIdle) (fun _ => None).

(** the list lock and the loops as Guard_Model.v sees them; [x] is the point of thread [t] *)
Definition z_view (z : zstate) (t : Z) (x : gpc) : gstate :=
  Guard_Model.mkG (word_of (r_guard (z_r z))) (alive (z_r z)) (upd (z_g z) t x).

(** the range entry whose word an unlock call changes (lib/flckshm.cc:754, lib/flcklistfilelock.cc:75,
    lib/flcklistofflock.cc:84-97).  It is looked up under the list lock; here it is looked up again at every
    step of the loop. *)
Definition unlock_target (h : heap) (t : Z) (a : rargs) : option Z :=
  match find_file h (a_dev a) with
  | None => None
  | Some f =>
      match find_off h f (a_off a) (a_len a) with
      | None => None
      | Some o =>
          match find_locker h (o_wr (h_o h o)) t (a_fd a) true, find_locker h (o_rd (h_o h o)) t (a_fd a) true with
          | None, None => None
          | _, _ => Some o
          end
      end
  end.

(** did the word change since it was loaded: then the compare-and-swap of a read attempt fails *)
Definition raced (z : zstate) (t : Z) : bool :=
  match r_pc (z_r z) t, z_w z t with
  | AT a f o l, Some v => negb (o_val (h_o (r_h (z_r z)) o) =? v)
  | _, _ => false
  end.

Definition z_run (z : zstate) (t : Z) (gu : bool) : zstate :=
  let s := z_r z in
  match r_pc s t with
  | RWait p =>
      (* fl_lock_lockid, whose first step is the call *)
      let g := Guard_Model.g_step (z_view z t (z_g z t)) t in
      match g_pc g t with
      | GIn => mkZ (goto (set_guard s (guard_of (g_word g))) t p) (upd (z_g z) t GIdle) (z_w z)
      | x => mkZ (set_guard s (guard_of (g_word g))) (upd (z_g z) t x) (z_w z)
      end
  | RDrop p =>
      (* fl_unlock_lockid, whose first step is the call *)
      let g := Guard_Model.g_step (z_view z t (match z_g z t with GIdle => GIn | x => x end)) t in
      match g_pc g t with
      | GIdle => mkZ (goto (set_guard s (guard_of (g_word g))) t p) (upd (z_g z) t GIdle) (z_w z)
      | x => mkZ (set_guard s (guard_of (g_word g))) (upd (z_g z) t x) (z_w z)
      end
  | AT a f o l =>
      match a_kind a with
      | Wr => mkZ (r_run s t false gu) (z_g z) (z_w z)                       (* 215, 221, 233: one CAS *)
      | Rd =>
          match z_w z t with
          | None =>                                                          (* 156, 164, 188: load *)
              if o_val (h_o (r_h s) o) <? RW_UNLOCK then mkZ (r_run s t false gu) (z_g z) (z_w z)
              else mkZ s (z_g z) (upd (z_w z) t (Some (o_val (h_o (r_h s) o))))
          | Some v => mkZ (r_run s t (raced z t) gu) (z_g z) (upd (z_w z) t None)   (* 158, 169, 191: CAS *)
          end
      end
  | B2 a =>
      match unlock_target (r_h s) t a with
      | None => mkZ (r_run s t false gu) (z_g z) (upd (z_w z) t None)
      | Some o =>
          match z_w z t with
          | None =>                                                          (* 251-260: load *)
              let v := o_val (h_o (r_h s) o) in
              if v =? RW_UNLOCK then mkZ (r_run s t false gu) (z_g z) (z_w z)
              else mkZ s (z_g z) (upd (z_w z) t (Some (if v <=? RW_WLOCK then RW_WLOCK else v)))
          | Some b =>                                                        (* 261: CAS *)
              if o_val (h_o (r_h s) o) =? b then mkZ (r_run s t false gu) (z_g z) (upd (z_w z) t None)
              else mkZ s (z_g z) (upd (z_w z) t None)
          end
      end
  | _ => mkZ (r_run s t false gu) (z_g z) (z_w z)
  end.

(** labels are those of RwApi_Model.v; whether a read attempt is disturbed is now determined *)
Definition z_label (z : zstate) (x : rlabel) : rlabel :=
  match x with LRun t _ gu => LRun t (raced z t) gu | _ => x end.

Definition z_step (z : zstate) (x : rlabel) : zstate :=
  match x with
  | LRun t _ gu => if alive (z_r z) t then z_run z t gu else z
  | _ => mkZ (r_step (z_r z) x) (z_g z) (z_w z)
  end.

(** what programs see of a step *)
Definition z_events (z : zstate) (x : rlabel) : list event :=
  match x with
  | LRun t _ gu => if alive (z_r z) t then
                     match r_pc (z_r z) t, r_pc (z_r (z_run z t gu)) t, r_res (z_r (z_run z t gu)) t with
                     | RIdle, _, _ => []
                     | _, RIdle, Some r => [ERet t r]
                     | _, _, _ => []
                     end
                   else []
  | _ => r_events (z_r z) x
  end.

(** thread identities are not zero (C02) *)
Definition no_thread_zero (x : rlabel) : Prop := match x with LRun t _ _ => t <> 0 | _ => True end.
(** no thread spins so long that its loop counter overflows (C34) *)
Definition z_no_overflow (z : zstate) : Prop := forall t, z_g z t <> GUB.

(** a condition on schedules of RwApi_Model.v is read at every step *)
Inductive z_history (s0 : rstate) (ok : rstate -> rlabel -> Prop) : zstate -> list event -> Prop :=
| zh_init : z_history s0 ok (z_init s0) []
| zh_step : forall z x h, z_history s0 ok z h -> no_thread_zero x -> ok (z_r z) (z_label z x) -> z_no_overflow (z_step z x) ->
    z_history s0 ok (z_step z x) (h ++ z_events z x).
(** the rest of an execution *)
Inductive z_path (ok : rstate -> rlabel -> Prop) : zstate -> list rlabel -> zstate -> Prop :=
| zp_nil : forall z, z_path ok z [] z
| zp_cons : forall z x ls z', no_thread_zero x -> ok (z_r z) (z_label z x) -> z_no_overflow (z_step z x) ->
    z_path ok (z_step z x) ls z' -> z_path ok z (x :: ls) z'.
