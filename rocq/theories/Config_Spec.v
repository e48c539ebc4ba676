(** What the configuration is meant to accept, in words of its own. *)
From Coq Require Import List Bool Ascii String ZArith.
From Verif Require Import Base Path_Model Path_Spec Layout_Model Layout_Spec Config_Model.
Import ListNotations.
Open Scope Z_scope.

(** the character stands for the digit d *)
Definition digit_char (c : ascii) (d : Z) : Prop := 0 <= d <= 9 /\ Z.of_nat (nat_of_ascii c) = 48 + d.
Definition not_digit (c : ascii) : Prop := forall d, ~ digit_char c d.
(** a numeral to base b (at most ten) and its value *)
Inductive numeral (b : Z) : text -> Z -> Prop :=
  | num_one : forall c d, digit_char c d -> d < b -> numeral b [c] d
  | num_more : forall s n c d, numeral b s n -> digit_char c d -> d < b -> numeral b (s ++ [c]) (b * n + d).
(** a numeral of the decimal system between lo and hi *)
Definition valid_count (lo hi : Z) (s : text) : Prop := exists n, numeral 10 s n /\ lo <= n <= hi.

Definition blank (c : ascii) : Prop := let n := Z.of_nat (nat_of_ascii c) in 9 <= n <= 13 \/ n = 32.
Inductive sign : text -> Z -> Prop := sg_none : sign [] 1 | sg_plus : sign (tx "+") 1 | sg_minus : sign (tx "-") (-1).
(** the number a string begins with: blanks, a sign, digits, and then something that is no digit.  Without digits it is 0. *)
Inductive reads (s : text) : Z -> Prop :=
  | rd_num : forall bl sg k ds n rest, s = bl ++ sg ++ ds ++ rest -> Forall blank bl -> sign sg k -> numeral 10 ds n ->
      (forall c r, rest = c :: r -> not_digit c) -> reads s (k * n)
  | rd_none : forall bl sg k rest, s = bl ++ sg ++ rest -> Forall blank bl -> sign sg k ->
      (forall c r, rest = c :: r -> not_digit c /\ (sg = [] -> ~ blank c /\ c <> "+"%char /\ c <> "-"%char)) -> reads s 0.

(** equal up to the case of letters *)
Definition same_letter (a b : ascii) : Prop :=
  a = b \/ exists x y, (a = x /\ b = y \/ a = y /\ b = x) /\ 65 <= Z.of_nat (nat_of_ascii x) <= 90 /\ Z.of_nat (nat_of_ascii y) = Z.of_nat (nat_of_ascii x) + 32.
Definition same_word (s : text) (w : string) : Prop := Forall2 same_letter s (tx w).

(** documented words and ranges *)
Definition auto_words := [("YES", true); ("NO", false)]%string.
Definition nomap_words := [("ALLOW_NORETRY", NOMAP_ALLOW_NORETRY); ("DENY_NORETRY", NOMAP_DENY_NORETRY); ("ALLOW_RETRY", NOMAP_ALLOW_RETRY);
                           ("DENY_RETRY", NOMAP_DENY_RETRY); ("ALLOW", NOMAP_ALLOW_NORETRY); ("DENY", NOMAP_DENY_NORETRY)]%string.
Definition robust_words := [("NO", ROBUST_NO); ("LOW", ROBUST_LOW); ("HIGH", ROBUST_HIGH)]%string.
Definition free_words := [("NO", FREE_NO); ("FD", FREE_FD); ("OFFSET", FREE_OFFSET); ("ALWAYS", FREE_FD)]%string.
(** the setting after reading variable value [v] when it was [old] *)
Definition by_words {A} (words : list (string * A)) (v : option text) (old new : A) : Prop :=
  match v with
  | None => new = old
  | Some s => (exists w, same_word s w /\ In (w, new) words) \/ (new = old /\ forall w x, In (w, x) words -> ~ same_word s w)
  end.

Record count_var := mkCV { cv_name : string; cv_lo : Z; cv_hi : Z; cv_get : counts -> Z; cv_default : Z }.
Definition count_vars : list count_var :=
  [mkCV "FLCKFILECNT" 1 2048 n_file 128; mkCV "FLCKOFFETCNT" 4 16384 n_off 8192; mkCV "FLCKLOCKERCNT" 4 16384 n_locker 8192;
   mkCV "FLCKNMTXCNT" 1 8192 n_nmtx 256; mkCV "FLCKNCONDCNT" 1 8192 n_ncond 256; mkCV "FLCKWAITERCNT" 4 16384 n_waiter 8192].
(** a count given to re-initialisation is valid; 0 means "not given" *)
Definition given_valid (q : counts) : Prop := Forall (fun v => cv_get v q = 0 \/ cv_lo v <= cv_get v q <= cv_hi v) count_vars.
Definition no_counts : counts := mkCnt 0 0 0 0 0 0.

(** everything a process can do with the configuration; environment, working directory and file system may change in between.
    [P] restricts the counts given to re-initialisation. *)
Inductive reach (P : counts -> Prop) : cfg -> Prop :=
  | rc_start : forall e cwd ok fs fs' c r, InitializeObject true e cwd ok fs cfg0 = ROk (c, fs', r) -> reach P c
  | rc_reinit : forall e cwd ok d f q fs fs' c c' r, P q -> reach P c -> ReInitializeObject e cwd ok d f q fs c = ROk (c', fs', r) -> reach P c'
  | rc_robust : forall c v, reach P c -> reach P (fst (SetRobustMode v c))
  | rc_nomap : forall c v, reach P c -> reach P (fst (SetNomapMode v c))
  | rc_free : forall c v, reach P c -> reach P (fst (SetFreeUnitMode v c))
  | rc_count : forall c v, reach P c -> reach P (fst (SetRobustLoopCnt v c))
  | rc_call : forall c ok dev a, reach P c -> reach P (fst (call_head ok dev a c)).

Definition retry (m : nomap) : Prop := m = NOMAP_ALLOW_RETRY \/ m = NOMAP_DENY_RETRY.
Definition allow (m : nomap) : Prop := m = NOMAP_ALLOW_RETRY \/ m = NOMAP_ALLOW_NORETRY.
(** the names the call needs are given *)
Definition named (a : api) : Prop :=
  match a with ApiMutex _ n _ => n <> None | ApiWait n _ _ => n <> None | ApiSignal n _ => n <> None | ApiRw _ _ _ _ _ => True | ApiIsLocked _ _ _ => False end.

(** a name without the white space around it *)
Definition white (c : ascii) : Prop := c = " "%char \/ c = "009"%char \/ c = "010"%char \/ c = "013"%char.
Definition trimmed (x name : text) : Prop :=
  exists a b, x = a ++ name ++ b /\ Forall white a /\ Forall white b /\ (forall c r, name = c :: r -> ~ white c) /\ (forall c r, name = r ++ [c] -> ~ white c).
