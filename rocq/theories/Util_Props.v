(** C56, C57, C58, C79-C82: file helpers, event buffer, event scan. *)
From Verif Require Import Base Util_Model Util_Spec Util_Proofs Util_Proofs2 Util_Proofs3.
From Coq Require Import ZArith List Bool Lia.
Import ListNotations.
Open Scope Z_scope.

(** ** C56: a transfer that succeeds moves exactly the requested bytes *)

(** The positional read of [count] bytes at [offset] of a file of [size] bytes, whatever short
    counts the system produces: either the system reported an error and the call returns -1, or
    it returns as many bytes as the file has there (all of [count] unless the file ends), the
    buffer holds exactly these bytes of the file, and nothing else was stored. *)
Theorem C56_pread : forall size file buf count offset l r buf' log rest,
  0 <= count -> 0 <= offset ->
  flck_pread file buf count offset l = Some (r, buf', log, rest) ->
  Forall (os_read_ok size) log ->
  Forall (in_buffer count) log /\
  (r = -1 /\ Exists failed log /\ same_outside buf' buf 0 count \/
   r = Z.min count (Z.max 0 (size - offset)) /\ Forall (fun y => ~ failed y) log /\
   copies buf' 0 file offset r /\ same_outside buf' buf 0 r).
Proof.
  intros size file buf count offset l r buf' log rest C O E F. unfold flck_pread in E.
  destruct (pread_loop_spec size _ _ _ _ _ _ _ _ _ _ E ltac:(lia) O ltac:(auto) F)
    as [B [(V & X & S)|(V & X & K & S & G & H)]]; split; auto.
  - left. split; auto. split; auto. intros x Hx. apply S. lia.
  - right. split; [lia|]. split; auto. rewrite Z.add_0_r, Z.sub_0_r in *. auto.
Qed.

(** The positional write: an error of the system and -1, or [count] and exactly these bytes are
    in the file; outside the region the file is as before in both cases. *)
Theorem C56_pwrite : forall file buf count offset l r file' log rest,
  0 <= count ->
  flck_pwrite file buf count offset l = Some (r, file', log, rest) ->
  Forall os_write_ok log ->
  Forall (in_buffer count) log /\ same_outside file' file offset count /\
  (r = -1 /\ Exists failed log \/
   r = count /\ Forall (fun y => ~ failed y) log /\ copies file' offset buf 0 count).
Proof.
  intros file buf count offset l r file' log rest C E F. unfold flck_pwrite in E.
  destruct (pwrite_loop_spec _ _ _ _ _ _ _ _ _ _ E ltac:(lia) F) as [B [(V & X & S)|(V & X & K & S)]];
    rewrite Z.add_0_r, Z.sub_0_r in *; auto 6.
Qed.

(** Filling with zeros: [true] exactly when no system call failed, and then the region is clear;
    outside the region the file is as before in both cases. *)
Theorem C56_fill_zero : forall file count offset l b file' log rest,
  0 <= count ->
  flck_fill_zero file count offset l = Some (b, file', log, rest) ->
  Forall os_write_ok log ->
  Forall (in_buffer 4096) log /\ same_outside file' file offset count /\
  (b = false /\ Exists failed log \/
   b = true /\ Forall (fun y => ~ failed y) log /\
   forall x, offset <= x < offset + count -> file' x = 0).
Proof.
  intros file count offset l b file' log rest C E F. unfold flck_fill_zero in E.
  destruct (fill_loop_spec _ _ _ _ _ _ _ _ _ _ E ltac:(lia) F) as (B & S & Q).
  rewrite Z.add_0_r, Z.sub_0_r in *. split; [exact B|]. split; [exact S|].
  destruct Q as [Q|(Q1 & Q2 & Q3)]; [now left|right]. split; auto. split; auto.
  intros x Hx. specialize (Q3 (x - offset)). replace (offset + (x - offset)) with x in Q3 by lia.
  apply Q3. lia.
Qed.

(** cases: short counts, end of file, an error in the middle, a fill of several chunks *)
Example C56_pread_case :
  exists b log, flck_pread (fun x => x) (fun _ => 7) 10 100 [Did 3; Did 1; Did 6] =
    Some (10, b, log, []) /\ Forall (os_read_ok 500) log /\ map b [-1; 0; 9; 10] = [7; 100; 109; 7].
Proof.
  eexists; eexists. split; [vm_compute; reflexivity|]. split; [|reflexivity].
  repeat constructor; unfold os_read_ok; cbn; lia.
Qed.

Example C56_pread_end_case :
  exists b log, flck_pread (fun x => x) (fun _ => 7) 10 100 [Did 3; Did 0] =
    Some (3, b, log, []) /\ Forall (os_read_ok 103) log.
Proof.
  eexists; eexists. split; [vm_compute; reflexivity|].
  repeat constructor; unfold os_read_ok; cbn; lia.
Qed.

Example C56_pwrite_case :
  exists f log, flck_pwrite (fun _ => 7) (fun x => x) 5 100 [Did 2; Did 0; Did 3] =
    Some (5, f, log, []) /\ Forall os_write_ok log /\ map f [99; 100; 104; 105] = [7; 0; 4; 7].
Proof.
  eexists; eexists. split; [vm_compute; reflexivity|]. split; [|reflexivity].
  repeat constructor; unfold os_write_ok; cbn; lia.
Qed.

Example C56_pwrite_error_case :
  exists f log, flck_pwrite (fun _ => 7) (fun x => x) 5 100 [Did 2; Err 28] =
    Some (-1, f, log, []) /\ Forall os_write_ok log.
Proof.
  eexists; eexists. split; [vm_compute; reflexivity|].
  repeat constructor; unfold os_write_ok; cbn; lia.
Qed.

Example C56_fill_case :
  exists f log, flck_fill_zero (fun _ => 7) 10000 100 [Did 4096; Did 1000; Did 3096; Did 1808] =
    Some (true, f, log, []) /\ Forall os_write_ok log /\ map f [99; 100; 10099; 10100] = [7; 0; 0; 7].
Proof.
  eexists; eexists. split; [vm_compute; reflexivity|]. split; [|reflexivity].
  repeat constructor; unfold os_write_ok; cbn; lia.
Qed.

(** ** C80: the helpers return *)

(** full statement: as many answers as there are bytes are always enough *)
Definition C80_statement : Prop :=
  (forall file buf count offset l,
     (forall k, In (Did k) l -> 0 <= k) -> count <= Z.of_nat (length l) ->
     flck_pread file buf count offset l <> None) /\
  (forall file buf count offset l,
     (forall k, In (Did k) l -> 0 <= k) -> count <= Z.of_nat (length l) ->
     flck_pwrite file buf count offset l <> None) /\
  (forall file count offset l,
     (forall k, In (Did k) l -> 0 <= k) -> count <= Z.of_nat (length l) ->
     flck_fill_zero file count offset l <> None).

(** a device that takes no byte and reports no error keeps the write loop going for ever: there
    is no number of calls after which it gives up *)
Theorem C80_write_spins : forall file buf count offset n,
  0 < count -> flck_pwrite file buf count offset (repeat (Did 0) n) = None.
Proof. intros. unfold flck_pwrite. now apply pwrite_zero_spins. Qed.

Theorem C80_returns_refuted : ~ C80_statement.
Proof.
  intros (_ & H & _). apply (H (fun _ => 0) (fun _ => 0) 1 0 (repeat (Did 0) 1)).
  - intros k [X|[]]. injection X as <-. lia.
  - cbn. lia.
  - now apply C80_write_spins.
Qed.

(** what holds: the read always returns; writes return when no answer is a count of 0 *)
Theorem C80_returns_partial :
  (forall file buf count offset l,
     (forall k, In (Did k) l -> 0 <= k) -> count <= Z.of_nat (length l) ->
     flck_pread file buf count offset l <> None) /\
  (forall file buf count offset l,
     ~ In (Did 0) l -> (forall k, In (Did k) l -> 0 <= k) -> count <= Z.of_nat (length l) ->
     flck_pwrite file buf count offset l <> None) /\
  (forall file count offset l,
     ~ In (Did 0) l -> (forall k, In (Did k) l -> 0 <= k) -> count <= Z.of_nat (length l) ->
     flck_fill_zero file count offset l <> None).
Proof.
  split; [|split].
  - intros. apply pread_returns; auto. lia.
  - intros file buf count offset l N P L. apply pwrite_returns; auto; [|lia].
    intros a Ha ->. contradiction.
  - intros file count offset l N P L. apply fill_returns; auto; try lia.
    intros a Ha ->. contradiction.
Qed.

Example C80_case :
  flck_fill_zero (fun _ => 7) 3 0 [Did 1; Did 2; Did 5] <> None /\
  ~ In (Did 0) [Did 1; Did 2; Did 5].
Proof.
  split; [vm_compute; intro X; discriminate X|].
  intros [X|[X|[X|[]]]]; discriminate X.
Qed.

(** ** C81: an interrupted transfer is resumed *)

(** full statement: an interruption is as if the call had not been made *)
Definition C81_statement : Prop :=
  (forall file buf count offset l r buf' log rest,
     flck_pread file buf count offset (Err EINTR :: l) = Some (r, buf', log, rest) ->
     exists log', flck_pread file buf count offset l = Some (r, buf', log', rest)) /\
  (forall file buf count offset l r file' log rest,
     flck_pwrite file buf count offset (Err EINTR :: l) = Some (r, file', log, rest) ->
     exists log', flck_pwrite file buf count offset l = Some (r, file', log', rest)) /\
  (forall sysconf mem l1 l2,
     flck_read sysconf mem (l1 ++ RErr EINTR :: l2) = flck_read sysconf mem (l1 ++ l2)).

Theorem C81_interrupted_refuted : ~ C81_statement.
Proof.
  intros (H & _).
  destruct (H (fun x => x) (fun _ => 0) 4 0 [Did 4] (-1) (fun _ => 0) [Sys 0 4 0 (Err EINTR)] [Did 4] eq_refl)
    as [log' X].
  vm_compute in X. discriminate X.
Qed.

Lemma read_loop_eintr : forall page l1 l2 buf size pos mem,
  read_loop page buf size pos mem (l1 ++ RErr EINTR :: l2) =
  read_loop page buf size pos mem (l1 ++ l2).
Proof.
  intros page. induction l1 as [|a l1 IH]; intros l2 buf size pos mem; [reflexivity|].
  cbn [app read_loop]. destruct a as [bs|e].
  - destruct (put buf pos bs); auto. destruct (_ <? page); auto.
    destruct (size <? _); auto. destruct mem as [|[|] mem]; auto.
  - destruct (e =? EAGAIN); auto. destruct (e =? EINTR); auto.
Qed.

(** what holds: the event reader resumes; in the other helpers an interruption at any point is
    reported as a failure, never as a short success *)
Theorem C81_interrupted_partial :
  (forall sysconf mem l1 l2,
     flck_read sysconf mem (l1 ++ RErr EINTR :: l2) = flck_read sysconf mem (l1 ++ l2)) /\
  (forall file buf count offset l r buf' log rest,
     flck_pread file buf count offset l = Some (r, buf', log, rest) ->
     0 <= count -> 0 <= offset -> (exists size, Forall (os_read_ok size) log) ->
     (r = -1 <-> Exists failed log)) /\
  (forall file buf count offset l r file' log rest,
     flck_pwrite file buf count offset l = Some (r, file', log, rest) ->
     0 <= count -> Forall os_write_ok log ->
     (r = -1 <-> Exists failed log)).
Proof.
  assert (N : forall log, Forall (fun y => ~ failed y) log -> Exists failed log -> False).
  { intros log F X. rewrite Exists_exists in X. destruct X as (y & I & X).
    rewrite Forall_forall in F. exact (F y I X). }
  split; [|split].
  - intros. unfold flck_read. destruct mem as [|[|] mem]; auto; apply read_loop_eintr.
  - intros file buf count offset l r buf' log rest E C O (size & F).
    destruct (C56_pread size _ _ _ _ _ _ _ _ _ C O E F) as [_ [(-> & X & _)|(-> & X & _)]].
    + tauto.
    + split; [lia|]. intro Y. destruct (N _ X Y).
  - intros file buf count offset l r file' log rest E C F.
    destruct (C56_pwrite _ _ _ _ _ _ _ _ _ C E F) as (_ & _ & [(-> & X)|(-> & X & _)]).
    + tauto.
    + split; [lia|]. intro Y. destruct (N _ X Y).
Qed.

Example C81_case :
  flck_read 4096 [] [RErr EINTR; Got [1; 2]] = flck_read 4096 [] [Got [1; 2]] /\
  exists buf, flck_read 4096 [] [Got [1; 2]] = Some (RBuf 2 buf).
Proof. split; [vm_compute; reflexivity|]. eexists. vm_compute. reflexivity. Qed.

(** ** C57: the event buffer holds only bytes that were read *)

(** full statement *)
Definition C57_statement : Prop :=
  forall sysconf mem l size buf,
    Forall (read_ok 4096) l ->
    flck_read sysconf mem l = Some (RBuf size buf) ->
    firstn (Z.to_nat size) buf = map Some (delivered (until_final 4096 l)).

(** nothing to read: the caller is given a page of uninitialised memory *)
Theorem C57_only_read_refuted : ~ C57_statement.
Proof.
  intros H.
  assert (F : Forall (read_ok 4096) [RErr EAGAIN]) by (repeat constructor; unfold read_ok; cbn; lia).
  pose proof (H 4096 [] [RErr EAGAIN] 4096 (fresh 4096) F eq_refl) as X.
  vm_compute in X. discriminate X.
Qed.

(** what holds: the delivered bytes are at the start of the buffer in order; they are all of it
    unless a read was answered EAGAIN, and then exactly one page of uninitialised memory follows;
    the size returned is inside the allocation and nothing was stored outside it *)
Theorem C57_only_read_partial : forall sysconf mem l,
  Forall (read_ok 4096) l ->
  flck_read sysconf mem l <> Some RCrash /\
  (flck_read sysconf mem l = Some RFail -> gave_up mem (until_final 4096 l)) /\
  forall size buf, flck_read sysconf mem l = Some (RBuf size buf) ->
  0 <= size <= Z.of_nat (length buf) /\
  firstn (length (delivered (until_final 4096 l))) buf = map Some (delivered (until_final 4096 l)) /\
  (size = Z.of_nat (length (delivered (until_final 4096 l))) \/
   size = Z.of_nat (length (delivered (until_final 4096 l))) + 4096 /\
   In (RErr EAGAIN) (until_final 4096 l)).
Proof.
  intros sysconf mem l F. split; [now apply flck_read_no_crash|]. split.
  - intros E. destruct (flck_read_spec _ _ _ _ E F) as [[_ X]|(b & s & X & _)]; [exact X|discriminate X].
  - intros size buf E.
    destruct (flck_read_spec _ _ _ _ E F) as [[X _]|(b & s & R2 & R3 & R4 & R5)];
      [discriminate X|].
    injection R2 as <- <-. auto.
Qed.

Example C57_case :
  let l := [Got (repeat 5 4096); RErr EINTR; Got [1; 2; 3]] in
  Forall (read_ok 4096) l /\ exists buf, flck_read 4096 [] l = Some (RBuf 4099 buf).
Proof.
  split.
  - assert (forall n, Z.of_nat (length (repeat 5 n)) = Z.of_nat n) as R by (intro; now rewrite repeat_length).
    repeat constructor; unfold read_ok; cbn [got]; [|cbn; lia|cbn; lia].
    change 4096%nat with (Z.to_nat 4096). rewrite R. vm_compute. intro X; discriminate X.
  - eexists. vm_compute. reflexivity.
Qed.

(** ** C58: the event scan *)

(** a buffer of well-formed records: exactly the close events of the watched file are reported *)
Theorem C58_scan : forall m watch evs,
  byte_mem m -> Forall event_ok evs -> holds m (stream evs) ->
  exists r loads, scan_all m (Z.of_nat (length (stream evs))) watch = Some (r, loads) /\
    (r = true <-> closed_in watch evs).
Proof.
  intros m watch evs B F H.
  destruct (scan_all_ends m (Z.of_nat (length (stream evs))) watch B ltac:(lia)) as (r & t & E & _).
  exists r, t. split; auto.
  destruct (scan_all_events _ _ _ _ _ _ F H (Z.le_refl _) E) as [A1 A2]. split; auto.
Qed.

(** every buffer, well-formed or not: the scan ends and loads nothing outside the buffer *)
Theorem C58_inside : forall m bytes watch,
  byte_mem m -> 0 <= bytes ->
  exists r loads, scan_all m bytes watch = Some (r, loads) /\
    Forall (fun a => 0 <= a < bytes) loads.
Proof. intros. now apply scan_all_ends. Qed.

(** three records, the second one a close of the watched file with a name *)
Definition evs3 : list event :=
  [Ev 1 2 0 []; Ev 7 16 0 [97; 98; 0; 0]; Ev (-1) 16384 0 []].
Definition mem3 : Z -> Z := fun i => nth (Z.to_nat i) (stream evs3) 0.

Example C58_case :
  Forall event_ok evs3 /\ holds mem3 (stream evs3) /\ closed_in 7 evs3 /\
  (exists t, scan_all mem3 (Z.of_nat (length (stream evs3))) 7 = Some (true, t)) /\
  (exists t, scan_all mem3 (Z.of_nat (length (stream evs3))) 1 = Some (false, t)).
Proof.
  split; [|split; [|split; [|split]]].
  - repeat constructor; unfold is_int32, INT_MIN, INT_MAX, two32; cbn; lia.
  - intros i L. unfold mem3. now rewrite Nat2Z.id.
  - exists (Ev 7 16 0 [97; 98; 0; 0]). split; [right; left; reflexivity|]. split; [reflexivity|].
    right. reflexivity.
  - eexists. vm_compute. reflexivity.
  - eexists. vm_compute. reflexivity.
Qed.

(** ** C79: the check for dead processes is triggered by exactly the delivered close events *)

(** full statement: for every row of well-formed events the system delivers in any pieces *)
Definition C79_statement : Prop :=
  forall sysconf junk mem watch l out evs,
    Forall (read_ok 4096) l -> Forall event_ok evs ->
    delivered (until_final 4096 l) = stream evs ->
    CheckEvent sysconf junk mem watch l = Some out ->
    exists v loads cap, out = CRet v loads cap /\ (v = true <-> closed_in watch evs).

(** the wake-up whose events were all read before: stale heap memory is taken for an event *)
Definition stale : Z -> Z := fun i => nth (Z.to_nat i) (encode (Ev 1 8 0 [])) 0.

Theorem C79_spurious_refuted : ~ C79_statement.
Proof.
  intros H.
  assert (F : Forall (read_ok 4096) [RErr EAGAIN]) by (repeat constructor; unfold read_ok; cbn; lia).
  destruct (CheckEvent 4096 stale [] 1 [RErr EAGAIN]) as [out|] eqn:E.
  - destruct (H 4096 stale [] 1 [RErr EAGAIN] out [] F (Forall_nil _) eq_refl E) as (v & loads & cap & -> & X).
    assert (V : v = true).
    { assert (Y : match CheckEvent 4096 stale [] 1 [RErr EAGAIN] with Some (CRet v _ _) => v | _ => false end = true)
        by (vm_compute; reflexivity).
      rewrite E in Y. exact Y. }
    apply X in V. destruct V as (e & [] & _).
  - assert (Y : match CheckEvent 4096 stale [] 1 [RErr EAGAIN] with Some _ => true | None => false end = true)
      by (vm_compute; reflexivity).
    rewrite E in Y. discriminate Y.
Qed.

(** a page of close events followed by a failing read: all of them are dropped *)
Theorem C79_missed_refuted :
  exists l evs, Forall (read_ok 4096) l /\ Forall event_ok evs /\
    delivered (until_final 4096 l) = stream evs /\ closed_in 1 evs /\
    exists loads cap, CheckEvent 4096 (fun _ => 0) [] 1 l = Some (CRet false loads cap).
Proof.
  exists [Got (stream (repeat (Ev 1 8 0 []) 256)); RErr 5], (repeat (Ev 1 8 0 []) 256).
  split; [|split; [|split; [|split]]].
  - constructor; [|constructor; [|constructor]]; unfold read_ok; cbn [got].
    + apply Z.leb_le. vm_compute. reflexivity.
    + cbn. lia.
  - apply Forall_forall. intros e He. apply repeat_spec in He. subst e.
    repeat constructor; unfold is_int32, INT_MIN, INT_MAX, two32; cbn; lia.
  - vm_compute. reflexivity.
  - exists (Ev 1 8 0 []). split; [|split; [reflexivity|left; reflexivity]].
    change 256%nat with (S 255). left. reflexivity.
  - eexists; eexists. vm_compute. reflexivity.
Qed.

(** what holds: the call never loads from outside its buffer; a close event among the events that
    were read is never missed unless reading failed; and without EAGAIN nothing is made up *)
Theorem C79_reports_partial : forall sysconf junk mem watch l out,
  Forall (read_ok 4096) l ->
  CheckEvent sysconf junk mem watch l = Some out ->
  (exists v loads cap, out = CRet v loads cap /\ Forall (fun a => 0 <= a < cap) loads) /\
  forall evs, Forall event_ok evs -> delivered (until_final 4096 l) = stream evs ->
    exists v loads cap, out = CRet v loads cap /\
    (closed_in watch evs -> ~ gave_up mem (until_final 4096 l) -> v = true) /\
    (v = true -> ~ In (RErr EAGAIN) (until_final 4096 l) -> closed_in watch evs).
Proof. intros. eapply check_event_spec; eauto. Qed.

Example C79_case :
  let l := [Got (stream evs3)] in
  Forall (read_ok 4096) l /\ Forall event_ok evs3 /\ delivered (until_final 4096 l) = stream evs3 /\
  exists loads cap, CheckEvent 4096 stale [] 7 l = Some (CRet true loads cap).
Proof.
  split; [|split; [|split]].
  - constructor; [|constructor]. unfold read_ok. cbn [got]. apply Z.leb_le. vm_compute. reflexivity.
  - apply C58_case.
  - reflexivity.
  - eexists; eexists. vm_compute. reflexivity.
Qed.

(** ** C82: the unit of the event buffer is the page size of the system *)
Definition C82_statement : Prop :=
  forall sysconf, 0 < sysconf -> GetSystemPageSize sysconf = sysconf.

(** a machine with pages of 64 KiB *)
Theorem C82_page_size_refuted : ~ C82_statement.
Proof. intros H. specialize (H 65536 ltac:(lia)). discriminate H. Qed.

(** what holds: on machines with pages of 4096 bytes, and only there, the value is right *)
Theorem C82_page_size_partial : forall sysconf, 0 < sysconf ->
  (GetSystemPageSize sysconf = sysconf <-> sysconf = 4096).
Proof. intros sysconf H. change (GetSystemPageSize sysconf) with 4096. lia. Qed.

Print Assumptions C56_pread.
Print Assumptions C56_pwrite.
Print Assumptions C56_fill_zero.
Print Assumptions C80_write_spins.
Print Assumptions C80_returns_refuted.
Print Assumptions C80_returns_partial.
Print Assumptions C81_interrupted_refuted.
Print Assumptions C81_interrupted_partial.
Print Assumptions C57_only_read_refuted.
Print Assumptions C57_only_read_partial.
Print Assumptions C58_scan.
Print Assumptions C58_inside.
Print Assumptions C79_spurious_refuted.
Print Assumptions C79_missed_refuted.
Print Assumptions C79_reports_partial.
Print Assumptions C82_page_size_refuted.
Print Assumptions C82_page_size_partial.
