(** The programs without interruption are the methods. *)
From Verif Require Import Base Rcsv_Model Rcsv_Proofs Rcon_Model.
From Coq Require Import ZArith List Bool Lia.
Import ListNotations.
Open Scope Z_scope.

Lemma mark_id : forall s, s_mtx s = true -> mark s = s.
Proof. intros [a b [|] [|] e f] H; try discriminate H; reflexivity. Qed.

Definition fits (k : bool -> bool -> prog) (h : bool -> bool -> st -> res bool) : Prop :=
  forall b L s, s_mtx s = L -> exec (k b L) s = h b L s.
Definition fits1 (k : bool -> prog) (h : unit -> bool -> st -> res bool) : Prop :=
  forall L s, s_mtx s = L -> exec (k L) s = h tt L s.

Lemma exec_lock : forall L s k h, s_mtx s = L -> fits1 k h -> exec (plock L k) s = bind (stack_lock L s) h.
Proof.
  intros L s k h M F. unfold plock, stack_lock. destruct L; [now apply F|]. cbn [exec]. rewrite M. cbn [bind]. now apply F.
Qed.
Lemma exec_lock' : forall L s k h, s_mtx s = L -> (forall s, s_mtx s = true -> exec (k true) s = h tt true s) ->
  exec (plock L k) s = bind (stack_lock L s) h.
Proof.
  intros L s k h M F. unfold plock, stack_lock. destruct L; [now apply F|]. cbn [exec]. rewrite M. cbn [bind]. now apply F.
Qed.
Lemma exec_ulk : forall L s k h, s_mtx s = L -> fits1 k h -> exec (pulk L k) s = bind (stack_unlock L s) h.
Proof.
  intros L s k h M F. unfold pulk, stack_unlock. destruct L; [|now apply F]. cbn [exec bind]. rewrite (mark_id _ M). now apply F.
Qed.

Lemma exec_shm : forall L c s k h, (forall a s, s_mtx s = L -> exec (k a) s = h a L s) -> s_mtx s = L ->
  exec (PShm L c k) s = bind (shm c L s) h.
Proof. intros L c s k h F M. cbn [exec]. unfold shm. destruct (s_ans s); [reflexivity|]. cbn [bind]. now apply F. Qed.

Lemma mtx_move : forall l s d m, s_mtx (move_pending s d m l) = s_mtx s.
Proof. induction l as [|x r IH]; intros s d m; [reflexivity|]. cbn [move_pending]. rewrite IH. reflexivity. Qed.
Lemma mtx_pass : forall s o, s_mtx (pass_on s o) = s_mtx s.
Proof.
  intros s o. unfold pass_on. cbv zeta. destruct (pick s (o_pend (s_obj s o))) as [n rest].
  cbn [set_stack s_mtx on set_obj]. apply mtx_move.
Qed.

Lemma bind_assoc : forall A B (r : res A) (f : A -> bool -> st -> res B) (g : B -> bool -> st -> res bool),
  bind (bind r f) g = bind r (fun a L s => bind (f a L s) g).
Proof. intros A B [a L s|c L s|s] f g; reflexivity. Qed.

Lemma exec_unlock : forall o L s k h, s_mtx s = L -> fits k h -> exec (pRawUnlock o L k) s = bind (RawUnlock o L s) h.
Proof.
  intros o L s k h M F. unfold pRawUnlock, RawUnlock, nop. cbv zeta. cbn [exec].
  destruct (is_unl (o_type (s_obj s o)) || negb (o_locked (s_obj s o))); [now apply F|].
  assert (X : forall s1, s_mtx s1 = true -> s_obj s1 = s_obj s ->
     exec (PAct false (fun s => s) (fun s => match o_master (s_obj s o) with
    | Some m => PAct false (fun s => on (on (on s m (fun b => w_pend b (erase o (o_pend b)))) o (fun b => w_master b None)) o (fun b => w_state b false false)) (fun _ => k true true)
    | None => PAct true (off_stack o) (fun s => match o_pend (s_obj s o) with _ :: _ => k true true | [] =>
        if o_has (s_obj s o) then pulk true (fun L => PShm L (unlock_of (s_obj s o)) (fun a =>
            if a =? 0 then PAct false (fun s => on s o (fun b => w_state b false false)) (fun _ => k true L)
            else plock L (fun L => PAct true (fun s => set_stack s (s_stack s ++ [o])) (fun _ => k false L))))
        else k true true end) end)) s1 =
     bind (match o_master (s_obj s o) with
    | Some m =>
        Ret true true (on (on (on s1 m (fun b => w_pend b (erase o (o_pend b)))) o (fun b => w_master b None)) o (fun b => w_state b false false))
    | None =>
        match o_pend (s_obj s o) with
        | _ :: _ => Ret true true (on (pass_on (set_stack s1 (erase o (s_stack s1))) o) o (fun b => w_state b false false))
        | [] =>
            if o_has (s_obj s o) then
              bind (stack_unlock true (set_stack s1 (erase o (s_stack s1)))) (fun _ L s0 =>
              bind (shm (unlock_of (s_obj s o)) L s0) (fun a L s =>
              if a =? 0 then Ret true L (on s o (fun b => w_state b false false))
              else bind (stack_lock L s) (fun _ L s =>
                   Ret false L (set_stack s (s_stack s ++ [o])))))
            else Ret true true (on (set_stack s1 (erase o (s_stack s1))) o (fun b => w_state b false false))
        end
    end) h).
  { intros s1 M1 OB. cbn [exec]. rewrite <- OB. destruct (o_master (s_obj s1 o)) as [m|].
    - cbn [exec bind]. now apply F.
    - cbn [exec]. unfold off_stack. cbv zeta. destruct (o_pend (s_obj s1 o)) as [|y r] eqn:PE.
      + destruct (o_has (s_obj s1 o)); [|cbn [bind]; now apply F].
        cbn [pulk stack_unlock bind exec]. rewrite mark_id by exact M1.
        unfold shm. cbn [set_mtx set_stack s_ans]. destruct (s_ans s1) as [|a l]; [reflexivity|]. cbn [bind].
        destruct (a =? 0); [cbn [exec bind]; now apply F|].
        cbn [plock exec set_mtx s_mtx]. unfold stack_lock. cbn [s_mtx bind exec]. now apply F.
      + cbn [bind]. apply F. cbn [on set_obj s_mtx]. rewrite mtx_pass. exact M1. }
  unfold plock, stack_lock. destruct L; [cbn [bind]; apply X; auto|]. cbn [exec] in *. rewrite M. cbn [bind]. now apply X.
Qed.

Lemma exec_unlock_if : forall b o L s k h, s_mtx s = L -> fits k h ->
  exec (punlock_if b o L k) s = bind (unlock_if b o L s) h.
Proof. intros [|] o L s k h M F; [now apply exec_unlock|now apply F]. Qed.

Lemma exec_read : forall o L s k h, s_mtx s = L -> fits k h -> exec (pRawReadLock o L k) s = bind (RawReadLock o L s) h.
Proof.
  intros o L s k h M F. unfold pRawReadLock, RawReadLock, nop. cbv zeta. cbn [exec].
  destruct (o_locked (s_obj s o) && is_rd (o_type (s_obj s o))); [now apply F|].
  destruct (_ && _ && _); [now apply F|].
  rewrite bind_assoc. apply exec_lock; [exact M|]. intros L1 s1 M1.
  rewrite bind_assoc. apply exec_unlock_if; [exact M1|]. intros ok L2 s2 M2.
  destruct (negb ok); [now apply F|]. cbn [exec]. unfold look_read. cbv zeta.
  change (set_stack (on s2 o (fun b => w_type b RD)) (s_stack (on s2 o (fun b => w_type b RD)))) with (as_reader o s2).
  destruct (first_match (as_reader o s2) (s_obj (as_reader o s2) o) (s_stack (as_reader o s2))) as [i|].
  - cbn [bind]. apply F. exact M2.
  - set (s3 := set_stack (as_reader o s2) (s_stack (as_reader o s2) ++ [o])).
    assert (M3 : s_mtx s3 = L2) by exact M2.
    assert (R3 : read_of (s_obj s2 o) = read_of (s_obj s3 o)).
    { unfold s3, as_reader, read_of. cbn [set_stack s_obj on set_obj]. rewrite upd_eq. reflexivity. }
    rewrite R3. generalize dependent s3. intros s3 M3 _.
    unfold pulk, stack_unlock. destruct L2; cbn [exec bind]; rewrite ?(mark_id _ M3); unfold shm; cbn [set_mtx s_ans s_obj];
      (destruct (s_ans s3) as [|a l]; [reflexivity|]; cbn [bind]; destruct (a =? 0); [cbn [exec bind]; apply F; assumption || reflexivity|];
       cbn [plock exec s_mtx]; unfold stack_lock; cbn [s_mtx set_mtx]; rewrite ?M3; cbn [exec bind]; apply F; reflexivity).
Qed.

Lemma exec_take : forall o rs L s k h, s_mtx s = L -> fits1 k h -> exec (ptake o rs L k) s = bind (take_over o rs L s) h.
Proof.
  intros o rs L. induction rs as [|i r IH]; intros s k h M F; [now apply F|].
  cbn [ptake take_over exec]. unfold nop. cbv zeta. rewrite bind_assoc.
  assert (PM : forall s1, s_mtx s1 = L -> s_mtx (pend_reader o i s1) = L).
  { intros s1 M1. unfold pend_reader. cbn [on set_obj s_mtx]. rewrite mtx_move. exact M1. }
  destruct (o_locked (s_obj s i) && o_has (s_obj s i)).
  - cbn [exec]. unfold shm. destruct (s_ans s) as [|a l]; [reflexivity|]. cbn [bind exec]. apply IH; [apply PM; exact M|exact F].
  - cbn [exec bind]. apply IH; [apply PM; exact M|exact F].
Qed.

Lemma exec_relock : forall l s k h, s_mtx s = true -> fits1 k h -> exec (prelock l true k) s = bind (relock l true s) h.
Proof.
  induction l as [|i r IH]; intros s k h M F; [now apply F|].
  cbn [prelock relock exec]. cbv zeta.
  assert (T : o_type (s_obj (on s i (fun b => w_master (w_state b false false) None)) i) = o_type (s_obj s i)).
  { cbn [on set_obj s_obj]. rewrite upd_eq. reflexivity. }
  rewrite T. destruct (is_unl (o_type (s_obj s i))); [apply IH; auto|].
  cbn [exec on set_obj s_mtx]. rewrite M. reflexivity.
Qed.

Lemma exec_write : forall o L s k h, s_mtx s = L -> fits k h -> exec (pRawWriteLock o L k) s = bind (RawWriteLock o L s) h.
Proof.
  intros o L s k h M F. unfold pRawWriteLock, RawWriteLock, nop. cbv zeta. cbn [exec].
  destruct (o_locked (s_obj s o) && is_wr (o_type (s_obj s o))); [now apply F|].
  destruct (_ && _ && _); [cbn [exec bind]; now apply F|].
  rewrite bind_assoc. apply exec_lock; [exact M|]. intros L1 s1 M1.
  rewrite bind_assoc. apply exec_unlock_if; [exact M1|]. intros ok L2 s2 M2.
  destruct (negb ok); [now apply F|]. cbn [exec]. unfold look_write.
  change (scan (on s2 o (fun b => w_type b WR)) (s_obj (on s2 o (fun b => w_type b WR)) o) (s_stack (on s2 o (fun b => w_type b WR)))) with (look o s2).
  destruct (look o s2) as [[rs ks] w]. cbv zeta.
  destruct w as [i|]; [cbn [bind]; apply F; exact M2|].
  set (s3 := set_stack _ (_ ++ [o])). assert (M3 : s_mtx s3 = L2) by exact M2.
  change (set_stack (set_stack (on s2 o (fun b : obj => w_type b WR)) ks)
             (s_stack (set_stack (on s2 o (fun b : obj => w_type b WR)) ks) ++ [o])) with s3.
  generalize dependent s3. intros s3 M3.
  rewrite bind_assoc. apply exec_ulk; [exact M3|]. intros L4 s4 M4.
  rewrite bind_assoc. apply exec_take; [exact M4|]. intros L5 s5 M5. cbn [exec].
  rewrite bind_assoc. unfold shm. destruct (s_ans s5) as [|a l]; [reflexivity|]. cbn [bind].
  destruct (a =? 0); [cbn [exec bind]; apply F; exact M5|].
  rewrite bind_assoc. apply exec_lock'; [exact M5|]. intros s6 M6. cbn [exec]. cbv zeta.
  rewrite bind_assoc. apply exec_relock; [exact M6|]. intros L7 s7 M7. cbn [exec bind]. apply F. exact M7.
Qed.

Lemma exec_rawlock : forall o rd L s k h, s_mtx s = L -> fits k h -> exec (pRawLock o rd L k) s = bind (RawLock o rd L s) h.
Proof. intros o [|] L s k h M F; [now apply exec_read|now apply exec_write]. Qed.

Lemma fits_fin : fits pfin (fun b L s => bind (stack_unlock L s) (fun _ L s => Ret b L s)).
Proof. intros b L s M. unfold pfin. apply exec_ulk; [exact M|]. intros L' s' _. reflexivity. Qed.

Lemma exec_call : forall p s, s_mtx s = false -> exec (prog_of p) (pre p s) = call p s.
Proof.
  intros p s M.
  destruct p as [o tid fd off len|o tid fd off len rd|o|o fd off len rd|o rd|o|o|o|o]; cbn [prog_of pre call]; unfold finish.
  - reflexivity.
  - cbv zeta. destruct (fd =? FLCK_INVALID_HANDLE); [reflexivity|]. apply exec_rawlock; [exact M|exact fits_fin].
  - rewrite bind_assoc. apply exec_unlock; [exact M|]. intros b L s1 M1. rewrite bind_assoc.
    apply exec_ulk; [exact M1|]. intros L2 s2 M2. reflexivity.
  - rewrite bind_assoc. apply exec_unlock; [exact M|]. intros b L s1 M1. destruct (negb b).
    + cbn [bind]. apply fits_fin. exact M1.
    + cbn [exec]. apply exec_rawlock; [exact M1|exact fits_fin].
  - apply exec_rawlock; [exact M|exact fits_fin].
  - unfold nop. cbn [exec]. destruct (o_type (s_obj s o)); [reflexivity|apply exec_read|apply exec_write]; auto; exact fits_fin.
  - apply exec_read; [exact M|exact fits_fin].
  - apply exec_write; [exact M|exact fits_fin].
  - apply exec_unlock; [exact M|exact fits_fin].
Qed.
