(** Closed forms of the loops; ranges of a separate family; held locks as multisets. *)
From Verif Require Import Base Rcsv_Model Rcsv_Spec Rcsv_Proofs Rcsv_Proofs3.
From Coq Require Import ZArith List Bool Lia Permutation.
Import ListNotations.
Open Scope Z_scope.

Ltac upd1 := match goal with
  | |- context [upd ?f ?k ?v ?x] =>
      destruct (Z.eq_dec x k) as [?E|?E]; [rewrite ?E in *; rewrite upd_eq|rewrite (upd_neq _ f k v x) by auto]
  end.

Lemma move_log : forall src s d m, s_log (move_pending s d m src) = s_log s.
Proof. induction src as [|x r IH]; intros; cbn [move_pending]; auto. cbv zeta. rewrite IH. reflexivity. Qed.
Lemma move_stack : forall src s d m, s_stack (move_pending s d m src) = s_stack s.
Proof. induction src as [|x r IH]; intros; cbn [move_pending]; auto. cbv zeta. rewrite IH. reflexivity. Qed.

Lemma w_pend_nil : forall x, o_pend x = [] -> w_pend x [] = x.
Proof. intros [a b c d e t l h p m] H. cbn in H. subst. reflexivity. Qed.
Lemma w_pend_same : forall x, w_pend x (o_pend x) = x.
Proof. intros [a b c d e t l h p m]. reflexivity. Qed.

Lemma move_obj : forall src s d m, ~ In d src ->
  s_obj (move_pending s d m src) d = w_pend (s_obj s d) (o_pend (s_obj s d) ++ src) /\
  (forall y, In y src -> s_obj (move_pending s d m src) y = w_master (s_obj s y) (Some m)) /\
  (forall z, z <> d -> ~ In z src -> s_obj (move_pending s d m src) z = s_obj s z).
Proof.
  induction src as [|x r IH]; intros s d m N; cbn [move_pending].
  - rewrite app_nil_r. split; [|split].
    + symmetry. apply w_pend_same.
    + intros y [].
    + auto.
  - cbv zeta. set (s1 := on s x _). set (s2 := on s1 d _).
    assert (Nx : x <> d) by (intros ->; apply N; now left).
    assert (Nr : ~ In d r) by (intros I; apply N; now right).
    destruct (IH s2 d m Nr) as (A & B & C).
    assert (D : s_obj s2 d = w_pend (s_obj s d) (o_pend (s_obj s d) ++ [x])).
    { unfold s2, s1, on, set_obj. cbn [s_obj]. rewrite upd_eq. rewrite upd_neq by auto. reflexivity. }
    assert (X : s_obj s2 x = w_master (s_obj s x) (Some m)).
    { unfold s2, s1, on, set_obj. cbn [s_obj]. rewrite upd_neq by auto. apply upd_eq. }
    assert (Z : forall z, z <> d -> z <> x -> s_obj s2 z = s_obj s z).
    { intros z Zd Zx. unfold s2, s1, on, set_obj. cbn [s_obj]. rewrite !upd_neq by auto. reflexivity. }
    split; [|split].
    + rewrite A, D. cbn. rewrite <- app_assoc. reflexivity.
    + intros y [<-|I].
      * destruct (in_dec Z.eq_dec x r) as [J|J]; [rewrite (B x J), X; reflexivity|rewrite (C x Nx J); exact X].
      * rewrite (B y I). destruct (Z.eq_dec y x) as [->|Q]; [rewrite X; reflexivity|].
        rewrite Z; auto. intros ->; auto.
    + intros z Zd Zn. rewrite (C z Zd) by (intros I; apply Zn; now right). apply Z; auto. intros ->; apply Zn; now left.
Qed.

Lemma pick_writer_perm : forall s l w r, pick_writer s l = Some (w, r) -> Permutation l (w :: r).
Proof.
  induction l as [|x l IH]; intros w r E; [discriminate E|]. cbn in E.
  destruct (is_wr (o_type (s_obj s x))); [injection E as <- <-; reflexivity|].
  destruct (pick_writer s l) as [[w' r']|]; [|discriminate E]. injection E as <- <-.
  rewrite perm_swap. apply perm_skip. now apply IH.
Qed.
Lemma pick_perm : forall s l n r, l <> [] -> pick s l = (n, r) -> Permutation l (n :: r).
Proof.
  intros s l n r N E. unfold pick in E. destruct (pick_writer s l) as [p|] eqn:P.
  - subst p. now apply (pick_writer_perm s).
  - injection E as <- <-. rewrite (app_removelast_last 0 N) at 1. rewrite Permutation_app_comm. reflexivity.
Qed.

Lemma first_match_spec : forall s x l,
  match first_match s x l with
  | Some i => In i l /\ cmp x (s_obj s i) = true
  | None => forall i, In i l -> cmp x (s_obj s i) = false
  end.
Proof.
  induction l as [|i r IH]; cbn; [intros i []|]. destruct (cmp x (s_obj s i)) eqn:E; [auto|].
  destruct (first_match s x r) as [j|]; [destruct IH; auto|]. intros j [<-|I]; auto.
Qed.

Lemma scan_spec : forall s x l rs ks w, scan s x l = (rs, ks, w) ->
  Permutation l (ks ++ rs) /\
  (forall j, In j rs -> cmp x (s_obj s j) = true /\ o_type (s_obj s j) = RD) /\
  match w with
  | Some i => In i ks /\ cmp x (s_obj s i) = true /\ o_type (s_obj s i) = WR
  | None => forall j, In j ks -> cmp x (s_obj s j) = false \/ o_type (s_obj s j) = UNL
  end.
Proof.
  induction l as [|i r IH]; intros rs ks w E; cbn in E.
  - injection E as <- <- <-. split; [reflexivity|]. split; intros j [].
  - assert (S : forall rs' ks' w', scan s x r = (rs', ks', w') -> cmp x (s_obj s i) = false \/ o_type (s_obj s i) = UNL ->
      (rs, ks, w) = (rs', i :: ks', w') ->
      Permutation (i :: r) (ks ++ rs) /\
      (forall j, In j rs -> cmp x (s_obj s j) = true /\ o_type (s_obj s j) = RD) /\
      match w with
      | Some i => In i ks /\ cmp x (s_obj s i) = true /\ o_type (s_obj s i) = WR
      | None => forall j, In j ks -> cmp x (s_obj s j) = false \/ o_type (s_obj s j) = UNL
      end).
    { intros rs' ks' w' E' K Q. injection Q as -> -> ->. destruct (IH _ _ _ E') as (A & B & C).
      split; [cbn; now apply perm_skip|]. split; [exact B|]. destruct w' as [j|].
      - destruct C as (C1 & C2 & C3). split; [now right|auto].
      - intros j [<-|I]; auto. }
    destruct (cmp x (s_obj s i)) eqn:M.
    + destruct (o_type (s_obj s i)) eqn:TY.
      * destruct (scan s x r) as [[rs' ks'] w']. apply (S rs' ks' w'); auto.
      * destruct (scan s x r) as [[rs' ks'] w']. injection E as <- <- <-.
        destruct (IH _ _ _ eq_refl) as (A & B & C). split; [|split; [|exact C]].
        -- rewrite A. apply Permutation_middle.
        -- intros j [<-|I]; auto.
      * injection E as <- <- <-. split; [rewrite app_nil_r; reflexivity|]. split; [intros j []|].
        split; [now left|auto].
    + destruct (scan s x r) as [[rs' ks'] w']. apply (S rs' ks' w'); auto.
Qed.

(** ** Ranges *)
Lemma s64_small : forall x, 0 <= x < two63 -> s64 x = x.
Proof.
  intros x H. unfold s64. cbv zeta. rewrite Z.mod_small by (unfold two63, two64 in *; lia).
  destruct (Z.ltb_spec x two63); lia.
Qed.

Lemma cmp_meets : forall a b,
  0 <= o_off a /\ 0 < o_len a /\ o_off a + o_len a < two63 ->
  0 <= o_off b /\ 0 < o_len b /\ o_off b + o_len b < two63 ->
  (cmp a b = true <-> meets (key_of a) (key_of b)).
Proof.
  intros a b A B. unfold cmp, overlap, meets, key_of. cbn [k_tid k_fd k_off k_len].
  rewrite (s64_small (o_len a)), (s64_small (o_len b)) by lia. rewrite !s64_small by lia.
  rewrite !andb_true_iff, !Z.eqb_eq. split.
  - intros [[-> ->] H]. split; [auto|]. split; [auto|]. destruct (Z.leb_spec (o_off a) (o_off b)).
    + exists (o_off b). apply Z.ltb_lt in H. lia.
    + exists (o_off a). apply Z.ltb_lt in H. lia.
  - intros (-> & -> & p & H). split; [auto|]. destruct (Z.leb_spec (o_off a) (o_off b)); apply Z.ltb_lt; lia.
Qed.

Lemma meets_self : forall k, 0 < k_len k -> meets k k.
Proof. intros k H. split; [auto|]. split; [auto|]. exists (k_off k). lia. Qed.
Lemma meets_sym : forall a b, meets a b -> meets b a.
Proof. intros a b (A & B & p & C & D). split; [auto|]. split; [auto|]. exists p. auto. Qed.

Lemma cmp_family : forall F a b, separate F -> F (key_of a) -> F (key_of b) ->
  (cmp a b = true <-> key_of a = key_of b).
Proof.
  intros F a b [R S] A B. rewrite cmp_meets; [|apply (R _ A)|apply (R _ B)]. split.
  - now apply S.
  - intros E. rewrite <- E. apply meets_self. apply (R _ A).
Qed.

(** ** Held locks *)
Lemma key_eq_spec : forall a b, key_eq a b = true <-> a = b.
Proof.
  intros [a1 a2 a3 a4] [b1 b2 b3 b4]. unfold key_eq. cbn. rewrite !andb_true_iff, !Z.eqb_eq. split.
  - intros [[[-> ->] ->] ->]. reflexivity.
  - intros E. injection E as -> -> -> ->. auto.
Qed.

Lemma drop_first : forall k w h, In (k, w) h -> exists w', In (k, w') h /\ Permutation h ((k, w') :: drop k h).
Proof.
  induction h as [|[k1 w1] r IH]; intros I; [destruct I|]. cbn. destruct (key_eq k1 k) eqn:E.
  - apply key_eq_spec in E as ->. exists w1. split; [now left|reflexivity].
  - destruct I as [I|I]; [injection I as -> ->; exfalso; assert (key_eq k k = true) by (now apply key_eq_spec); congruence|].
    destruct (IH I) as (w' & J & P). exists w'. split; [now right|]. rewrite perm_swap. now apply perm_skip.
Qed.

Lemma drop_perm : forall k w h h', Permutation h ((k, w) :: h') -> (forall x, In x h' -> fst x <> k) ->
  Permutation (drop k h) h'.
Proof.
  intros k w h h' P N. destruct (drop_first k w h) as (w' & J & Q).
  { apply (Permutation_in _ (Permutation_sym P)). now left. }
  apply (Permutation_in _ P) in J as [J|J]; [|elim (N _ J); reflexivity]. injection J as <-.
  apply Permutation_cons_inv with (k, w). rewrite <- Q. exact P.
Qed.

Lemma releases_tail : forall c l, releases_ok (c :: l) -> releases_ok l.
Proof. intros c l H t f o n a I. apply (H t f o n a). now right. Qed.
Lemma releases_head : forall t f o n a l, releases_ok ((SUnlock t f o n, a) :: l) -> a = 0.
Proof. intros t f o n a l H. apply (H t f o n a). now left. Qed.
Lemma honest_tail : forall c l, honest (c :: l) -> honest l.
Proof. intros [c a] l H. apply H. Qed.
Lemma honest_head : forall t f o n a l w, honest ((SUnlock t f o n, a) :: l) -> In (Key t f o n, w) (held l) -> a = 0.
Proof. intros t f o n a l w [H _] I. apply H. now exists w. Qed.
Lemma releases_honest : forall l, releases_ok l -> honest l.
Proof.
  induction l as [|[c a] l IH]; intros R; cbn; auto. split; [|apply IH; exact (releases_tail _ _ R)].
  destruct c; auto. intros _. exact (releases_head _ _ _ _ _ _ R).
Qed.

Definition desc (f : Z -> obj) (x : Z) : hold := (key_of (f x), is_wr (o_type (f x))).
