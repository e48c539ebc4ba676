(** Model of the debug messages: lib/flckdbg.cc and lib/flckdbg.h.

    Streams are numbers given out by fopen(3); what fopen and fclose answer comes from outside, as a
    function of the number of such calls so far.  The text of a message is left out, only its level
    and the stream it is written to are recorded.  One thread; several threads are at the end. *)
From Verif Require Import Base Path_Model Config_Model.
From Coq Require Import ZArith List Bool Ascii String.
Import ListNotations.
Open Scope Z_scope.

(** lib/flckdbg.h:29-34 *)
Definition SILENT : Z := 0.
Definition ERR : Z := 1.
Definition WARN : Z := 3.
Definition MSG : Z := 7.

(** what happens outside; [None] is stderr *)
Inductive ev := EOpen (f : Z) (path : text) | EClose (f : Z) (ok : bool) | EPrint (to : option Z) (level : Z).

(** environment: FLCKDBGMODE, FLCKDBGFILE *)
Record denv := DEnv { d_mode : option text; d_file : option text }.

(** lib/flckdbg.cc:31-32; whether the singleton (76-80) exists; calls of fopen/fclose so far; streams
    given out so far; events, newest first *)
Record dst := DSt { t_mode : Z; t_fp : option Z; t_built : bool; t_no : nat; t_next : Z; t_log : list ev }.
Definition dst0 : dst := DSt SILENT None false 0 1 [].

Section Calls.
Variable ans : nat -> bool.

Definition emit (s : dst) (e : ev) : dst := DSt (t_mode s) (t_fp s) (t_built s) (t_no s) (t_next s) (e :: t_log s).

(** lib/flckdbg.h:57-66 *)
Definition FLCKPRINT (s : dst) (level : Z) : dst :=
  if Z.land (t_mode s) level =? level then emit s (EPrint (t_fp s) level) else s.

(** lib/flckdbg.cc:142-147 *)
Definition SetMode (s : dst) (m : Z) : Z * dst :=
  (t_mode s, DSt m (t_fp s) (t_built s) (t_no s) (t_next s) (t_log s)).
(** lib/flckdbg.cc:149-163 *)
Definition Bumpup (s : dst) : Z * dst :=
  SetMode s (if t_mode s =? SILENT then ERR else if t_mode s =? ERR then WARN else if t_mode s =? WARN then MSG else SILENT).
(** lib/flckdbg.cc:165-168 *)
Definition GetMode (s : dst) : Z := t_mode s.

Definition set_fp (s : dst) (f : option Z) : dst := DSt (t_mode s) f (t_built s) (t_no s) (t_next s) (t_log s).
Definition asked (s : dst) : dst := DSt (t_mode s) (t_fp s) (t_built s) (S (t_no s)) (t_next s) (t_log s).

(** lib/flckdbg.cc:190-201 *)
Definition UnsetFile (s : dst) : bool * dst :=
  match t_fp s with
  | None => (true, s)
  | Some f =>
      let ok := ans (t_no s) in
      let s := emit (asked s) (EClose f ok) in
      if ok then (true, set_fp s None)
      else (false, set_fp (FLCKPRINT s ERR) None)
  end.

(** lib/flckdbg.cc:170-188; [None]: NULL *)
Definition SetFile (s : dst) (path : option text) : bool * dst :=
  match path with
  | None | Some [] => (false, FLCKPRINT s ERR)
  | Some p =>
      let '(ok, s) := UnsetFile s in
      if ok then
        if ans (t_no s) then
          let f := t_next s in
          let s := asked s in
          (true, DSt (t_mode s) (Some f) (t_built s) (t_no s) (f + 1) (EOpen f p :: t_log s))
        else (false, FLCKPRINT (asked s) ERR)
      else (false, s)
  end.

(** lib/flckdbg.cc:103-124 *)
Definition LoadEnvName (e : denv) (s : dst) : bool * dst :=
  match d_mode e with
  | None => (true, FLCKPRINT s MSG)
  | Some v =>
      if strcasecmp_eq v (tx "SILENT") then (true, snd (SetMode s SILENT))
      else if strcasecmp_eq v (tx "ERR") then (true, snd (SetMode s ERR))
      else if strcasecmp_eq v (tx "WAN") then (true, snd (SetMode s WARN))
      else if strcasecmp_eq v (tx "INFO") then (true, snd (SetMode s MSG))
      else (false, FLCKPRINT s MSG)
  end.
(** lib/flckdbg.cc:126-140 *)
Definition LoadEnvFile (e : denv) (s : dst) : bool * dst :=
  match d_file e with
  | None => (true, FLCKPRINT s MSG)
  | Some v => let '(ok, s) := SetFile s (Some v) in if ok then (true, s) else (false, FLCKPRINT s MSG)
  end.
(** lib/flckdbg.cc:95-101 *)
Definition LoadEnv (e : denv) (s : dst) : bool * dst :=
  let '(ok, s) := LoadEnvName e s in
  if ok then LoadEnvFile e s else (false, s).

(** lib/flckdbg.cc:76-80 and the constructor 51-56 *)
Definition Singleton (e : denv) (s : dst) : dst :=
  if t_built s then s
  else snd (LoadEnv e (DSt SILENT None true (t_no s) (t_next s) (t_log s))).

(** lib/flckdbg.cc:206-234; a message of the library; the end of the process (58-61) *)
Inductive dcall := DSet (m : Z) | DBump | DGet | DLoad | DFile (path : option text) | DUnset | DPrint (level : Z) | DExit.
Inductive dret := RMode (m : Z) | RBool (b : bool) | RNone.
Definition dstep (e : denv) (c : dcall) (s : dst) : dret * dst :=
  match c with
  | DSet m => let '(r, s) := SetMode (Singleton e s) m in (RMode r, s)
  | DBump => let '(r, s) := Bumpup (Singleton e s) in (RMode r, s)
  | DGet => let s := Singleton e s in (RMode (GetMode s), s)
  | DLoad => let '(r, s) := LoadEnv e (Singleton e s) in (RBool r, s)
  | DFile p => let '(r, s) := SetFile (Singleton e s) p in (RBool r, s)
  | DUnset => let '(r, s) := UnsetFile (Singleton e s) in (RBool r, s)
  | DPrint l => (RNone, FLCKPRINT s l)
  | DExit => (RNone, if t_built s then snd (UnsetFile s) else s)
  end.

Fixpoint drun (l : list (denv * dcall)) (s : dst) : dst :=
  match l with [] => s | (e, c) :: r => drun r (snd (dstep e c s)) end.
End Calls.

(** ** Several threads
    A message reads the mode, then the stream pointer twice (the conditional operator of
    lib/flckdbg.h:58), then writes.  Changing the file closes, clears, opens, sets. *)
Inductive dpc :=
| PIdle
| PTest (level : Z)             (** lib/flckdbg.h:61 *)
| PFp1 (level : Z)              (** 58: condition *)
| PFp2 (level : Z)              (** 58: value *)
| PWrite (to : option Z) (level : Z)   (** fprintf; [Some 0] is NULL *)
| UTest (path : option text)    (** lib/flckdbg.cc:192 *)
| UClose (path : option text)   (** 193: reads the pointer and closes *)
| UClear (path : option text)   (** 198 *)
| UOpen (path : text)           (** 181 *)
| USet (f : Z).                 (** 185 *)

(** result of a write *)
Inductive wr := WFine | WClosed | WNull.
Record cst := CSt { c_mode : Z; c_fp : option Z; c_next : Z; c_open : Z -> bool; c_pc : Z -> dpc; c_bad : list wr }.
Definition cst0 (m : Z) (fp : option Z) : cst :=
  CSt m fp 2 (fun f => match fp with Some g => f =? g | None => false end) (fun _ => PIdle) [].

Inductive clab := CStart (t : Z) (p : dpc) | CStep (t : Z) (ok : bool).
(** a call starts with a message or with a change of the file *)
Definition start_ok (p : dpc) : bool := match p with PTest _ => true | UTest (Some _) => true | UTest None => true | _ => false end.

Definition cgo (s : cst) (t : Z) (p : dpc) : cst := CSt (c_mode s) (c_fp s) (c_next s) (c_open s) (upd (c_pc s) t p) (c_bad s).
Definition after_unset (path : option text) : dpc := match path with Some p => UOpen p | None => PIdle end.

(** fclose succeeds here (its failure is above); [ok] is the answer of fopen *)
Definition cstep (l : clab) (s : cst) : option cst :=
  match l with
  | CStart t p => match c_pc s t with PIdle => if start_ok p then Some (cgo s t p) else None | _ => None end
  | CStep t ok =>
      match c_pc s t with
      | PIdle => None
      | PTest lv => Some (cgo s t (if Z.land (c_mode s) lv =? lv then PFp1 lv else PIdle))
      | PFp1 lv => Some (cgo s t (match c_fp s with Some _ => PFp2 lv | None => PWrite None lv end))
      | PFp2 lv => Some (cgo s t (PWrite (match c_fp s with Some f => Some f | None => Some 0 end) lv))
      | PWrite to lv =>
          let r := match to with None => WFine | Some f => if f =? 0 then WNull else if c_open s f then WFine else WClosed end in
          Some (CSt (c_mode s) (c_fp s) (c_next s) (c_open s) (upd (c_pc s) t PIdle) (r :: c_bad s))
      | UTest p => Some (cgo s t (match c_fp s with Some _ => UClose p | None => after_unset p end))
      | UClose p =>
          match c_fp s with
          | Some f =>
              Some (CSt (c_mode s) (c_fp s) (c_next s) (upd (c_open s) f false) (upd (c_pc s) t (UClear p))
                        ((if c_open s f then WFine else WClosed) :: c_bad s))
          | None => Some (CSt (c_mode s) (c_fp s) (c_next s) (c_open s) (upd (c_pc s) t (UClear p)) (WNull :: c_bad s))
          end
      | UClear p => Some (CSt (c_mode s) None (c_next s) (c_open s) (upd (c_pc s) t (after_unset p)) (c_bad s))
      | UOpen p =>
          if ok then Some (CSt (c_mode s) (c_fp s) (c_next s + 1) (upd (c_open s) (c_next s) true) (upd (c_pc s) t (USet (c_next s))) (c_bad s))
          else Some (cgo s t PIdle)
      | USet f => Some (CSt (c_mode s) (Some f) (c_next s) (c_open s) (upd (c_pc s) t PIdle) (c_bad s))
      end
  end.
Fixpoint cruns (l : list clab) (s : cst) : option cst :=
  match l with [] => Some s | x :: r => match cstep x s with Some s' => cruns r s' | None => None end end.
