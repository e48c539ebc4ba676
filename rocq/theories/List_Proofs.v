(** Proofs about the shared list operations. *)
From Coq Require Import ZArith List Bool Lia.
From Verif Require Import Base List_Model List_Spec.
Import ListNotations.
Open Scope Z_scope.

Lemma to_abs_pos : forall base r, 0 < r -> to_abs base r = r + base.
Proof. intros. unfold to_abs. destruct (Z.eqb_spec r 0); lia. Qed.
Lemma to_rel_pos : forall base r, 0 < base -> 0 < r -> to_rel base (r + base) = r.
Proof. intros. unfold to_rel. destruct (Z.eqb_spec (r + base) 0); lia. Qed.
Lemma next_cell_pos : forall base noff r, next_cell base noff (r + base) = r + noff.
Proof. intros. unfold next_cell. lia. Qed.

Lemma chain_frame : forall noff m m' l x,
  (forall r, In r l -> m' (r + noff) = m (r + noff)) -> chain noff m x l -> chain noff m' x l.
Proof.
  intros noff m m' l. induction l as [|r l IH]; intros x H C; inversion C; subst; constructor; auto.
  rewrite H by (left; auto). apply IH; auto. intros; apply H; right; auto.
Qed.

Lemma chain_pos : forall noff m l x r, chain noff m x l -> In r l -> 0 < r.
Proof.
  intros noff m l. induction l as [|a l IH]; intros x r C [].
  - subst. now inversion C.
  - inversion C; subst. eauto.
Qed.

Lemma chain_head : forall noff m l x, chain noff m x l -> (x = 0 /\ l = []) \/ (exists l', l = x :: l' /\ 0 < x).
Proof. intros. inversion H; subst; eauto. Qed.

Lemma chain_fun : forall noff m l x, chain noff m x l -> forall l', chain noff m x l' -> l = l'.
Proof.
  intros noff m l x C. induction C as [|r l Hr C IH]; intros l' C'; inversion C'; subst; auto; try lia.
  f_equal. auto.
Qed.

Lemma chain_nodup : forall noff m l x, chain noff m x l -> NoDup l.
Proof.
  intros noff m l x C. induction C as [|r l Hr C IH]; constructor; auto.
  intros Hin. apply in_split in Hin. destruct Hin as (a & b & ->).
  (* a chain that meets r again would be infinite *)
  assert (Hsub : forall a x b, chain noff m x (a ++ r :: b) -> chain noff m r (r :: b)).
  { clear. induction a as [|y a IH]; intros x b C; cbn in C.
    - inversion C; subst. exact C.
    - inversion C; subst. eauto. }
  assert (Hc : chain noff m r (r :: a ++ r :: b)) by (constructor; auto).
  pose proof (Hsub _ _ _ C) as Hc2. pose proof (chain_fun _ _ _ _ Hc _ Hc2) as E.
  injection E as E. apply (f_equal (@length Z)) in E. rewrite app_length in E. cbn in E. lia.
Qed.

Lemma contents_frame : forall noff m m' top l,
  m' top = m top -> (forall r, In r l -> m' (r + noff) = m (r + noff)) ->
  contents noff m top l -> contents noff m' top l.
Proof.
  intros noff m m' top l H1 H2 (C & N & T). split; [|auto]. rewrite H1. eapply chain_frame; eauto.
Qed.

Lemma contents_upd : forall noff m top l c v,
  c <> top -> (forall r, In r l -> r + noff <> c) -> contents noff m top l -> contents noff (upd m c v) top l.
Proof.
  intros noff m top l c v H H0 H1. apply contents_frame with (m := m); auto.
  - apply upd_neq; auto.
  - intros r Hr. apply upd_neq. auto.
Qed.

Lemma contents_fun : forall noff m top l l', contents noff m top l -> contents noff m top l' -> l = l'.
Proof. intros noff m top l l' (C & _) (C' & _). eapply chain_fun; eauto. Qed.

Lemma chain_inv : forall noff m x r l, chain noff m x (r :: l) -> x = r /\ 0 < r /\ chain noff m (m (r + noff)) l.
Proof. intros noff m x r l C. inversion C; subst; auto. Qed.

(** ** insert *)
Lemma insert_correct : forall base noff m top l r,
  0 < base -> 0 < r -> contents noff m top l -> ~ In r l -> r + noff <> top ->
  insert_list base noff m top (r + base) = (true, [(r + noff, m top); (top, r)]).
Proof.
  intros. unfold insert_list. rewrite next_cell_pos, to_rel_pos by auto.
  destruct (Z.eqb_spec (r + base) 0); [lia|auto].
Qed.

Lemma insert_contents1 : forall noff m top l r v,
  contents noff m top l -> ~ In r l -> r + noff <> top -> contents noff (upd m (r + noff) v) top l.
Proof.
  intros. apply contents_upd; auto. intros x Hx E. assert (x = r) by lia. congruence.
Qed.

Lemma insert_contents2 : forall noff m top l r,
  0 < r -> contents noff m top l -> ~ In r l -> r + noff <> top ->
  contents noff (upd (upd m (r + noff) (m top)) top r) top (r :: l).
Proof.
  intros noff m top l r Hr H Hn Ht. pose proof (insert_contents1 _ _ _ _ _ (m top) H Hn Ht) as (C & N & T).
  split; [|split].
  - rewrite upd_eq. constructor; auto. rewrite upd_neq by auto. rewrite upd_eq.
    rewrite upd_neq in C by auto. eapply chain_frame; [|exact C].
    intros x Hx. apply upd_neq. auto.
  - constructor; auto.
  - intros x [->|Hx]; auto.
Qed.

(** ** retrieve *)
Lemma retrieve_correct : forall base noff m top r l,
  0 < base -> contents noff m top (r :: l) ->
  retrieve_list base noff m top = (true, r + base, [(top, m (r + noff)); (r + noff, 0)]).
Proof.
  intros base noff m top r l Hb (C & N & T). destruct (chain_inv _ _ _ _ _ C) as (E & Hr & C').
  unfold retrieve_list. rewrite E. rewrite to_abs_pos by auto. rewrite next_cell_pos.
  destruct (Z.eqb_spec r 0); [lia|]. destruct (Z.eqb_spec (r + base) 0); [lia|]. reflexivity.
Qed.

Lemma retrieve_contents1 : forall noff m top r l,
  contents noff m top (r :: l) -> contents noff (upd m top (m (r + noff))) top l.
Proof.
  intros noff m top r l (C & N & T). destruct (chain_inv _ _ _ _ _ C) as (E & Hr & C'). inversion N as [|r' l' Hn N']; subst r' l'.
  split; [|split]; auto.
  - rewrite upd_eq. eapply chain_frame; [|exact C']. intros x Hx. apply upd_neq. apply T. now right.
  - intros x Hx. apply T. now right.
Qed.

(** ** cutoff *)
Fixpoint prev_cell (noff prev : Z) (a : list Z) : Z :=
  match a with [] => prev | x :: a' => prev_cell noff (x + noff) a' end.

Lemma prev_cell_cases : forall noff a prev, prev_cell noff prev a = prev /\ a = []
  \/ exists x, In x a /\ prev_cell noff prev a = x + noff.
Proof.
  intros noff a. induction a as [|x a IH]; intros prev; cbn; auto.
  right. destruct (IH (x + noff)) as [[E ->]|(y & Hy & E)].
  - exists x. rewrite E. auto.
  - exists y. auto.
Qed.

Lemma cutoff_loop_found : forall base noff m top c b a prev fuel,
  0 < base -> chain noff m (m prev) (a ++ c :: b) -> ~ In c a -> (length a < fuel)%nat ->
  cutoff_loop fuel base noff m top (c + base) prev (to_abs base (m prev)) = Some (Some (prev_cell noff prev a)).
Proof.
  intros base noff m top c b a. induction a as [|x a IH]; intros prev fuel Hb C Hn Hf; destruct fuel as [|fuel]; cbn in Hf; try lia.
  - cbn in C. destruct (chain_inv _ _ _ _ _ C) as (E & Hr & C'). cbn [cutoff_loop]. rewrite E. rewrite to_abs_pos by auto.
    destruct (Z.eqb_spec (c + base) 0); [lia|]. rewrite !Z.eqb_refl. rewrite to_rel_pos by auto. now rewrite Z.eqb_refl.
  - cbn in C. destruct (chain_inv _ _ _ _ _ C) as (E & Hr & C'). cbn [cutoff_loop]. rewrite E. rewrite to_abs_pos by auto.
    destruct (Z.eqb_spec (x + base) 0); [lia|].
    destruct (Z.eqb_spec (x + base) (c + base)).
    { exfalso. apply Hn. left. lia. }
    rewrite next_cell_pos. cbn [prev_cell]. apply IH; auto; [|lia]. intros H. apply Hn. now right.
Qed.

Lemma cutoff_loop_absent : forall base noff m top c a prev fuel,
  0 < base -> chain noff m (m prev) a -> ~ In c a -> (length a < fuel)%nat ->
  cutoff_loop fuel base noff m top (c + base) prev (to_abs base (m prev)) = Some None.
Proof.
  intros base noff m top c a. induction a as [|x a IH]; intros prev fuel Hb C Hn Hf; destruct fuel as [|fuel]; cbn in Hf; try lia.
  - inversion C as [E|]; subst. cbn [cutoff_loop]. rewrite <- E. reflexivity.
  - destruct (chain_inv _ _ _ _ _ C) as (E & Hr & C'). cbn [cutoff_loop]. rewrite E. rewrite to_abs_pos by auto.
    destruct (Z.eqb_spec (x + base) 0); [lia|].
    destruct (Z.eqb_spec (x + base) (c + base)).
    { exfalso. apply Hn. left. lia. }
    rewrite next_cell_pos. apply IH; auto; [|lia]. intros H. apply Hn. now right.
Qed.

(** after redirecting the predecessor's cell the chain no longer contains c *)
Lemma chain_cut : forall noff m c b a prev,
  chain noff m (m prev) (a ++ c :: b) -> NoDup (a ++ c :: b) -> (forall r, In r (a ++ c :: b) -> r + noff <> prev) ->
  let m' := upd m (prev_cell noff prev a) (m (c + noff)) in chain noff m' (m' prev) (a ++ b).
Proof.
  intros noff m c b a. induction a as [|x a IH]; intros prev C N T m'; subst m'; cbn [app prev_cell] in *.
  - rewrite upd_eq. destruct (chain_inv _ _ _ _ _ C) as (E & Hr & C'). eapply chain_frame; [|exact C'].
    intros r Hin. apply upd_neq. apply T. now right.
  - destruct (chain_inv _ _ _ _ _ C) as (E & Hr & C'). inversion N as [|r l Hx N' Q]; subst r l.
    assert (T' : forall r, In r (a ++ c :: b) -> r + noff <> x + noff).
    { intros r Hin E'. assert (r = x) by lia. congruence. }
    specialize (IH (x + noff) C' N' T'). cbv zeta in IH.
    assert (Hp : prev_cell noff (x + noff) a <> prev).
    { destruct (prev_cell_cases noff a (x + noff)) as [[-> _]|(y & Hy & ->)].
      - apply T. now left.
      - apply T. right. apply in_or_app. now left. }
    rewrite upd_neq by auto. rewrite E. constructor; auto.
Qed.

Lemma contents_cut : forall noff m top a c b,
  contents noff m top (a ++ c :: b) ->
  contents noff (upd m (prev_cell noff top a) (m (c + noff))) top (a ++ b).
Proof.
  intros noff m top a c b (C & N & T). split; [|split].
  - now apply chain_cut.
  - now apply NoDup_remove_1 in N.
  - intros r Hr. apply T. apply in_app_or in Hr. apply in_or_app. destruct Hr; [now left | right; now right].
Qed.

Lemma cutoff_correct : forall base noff m top a c b fuel,
  0 < base -> contents noff m top (a ++ c :: b) -> (length a < fuel)%nat ->
  cutoff_list fuel base noff m top (c + base)
  = Some (true, [(prev_cell noff top a, m (c + noff)); (c + noff, 0)]).
Proof.
  intros base noff m top a c b fuel Hb (C & N & T) Hf.
  assert (Hc : 0 < c) by (eapply chain_pos; [exact C | apply in_or_app; right; now left]).
  unfold cutoff_list. destruct (Z.eqb_spec (c + base) 0); [lia|].
  destruct (Z.eqb_spec (m top) 0) as [E|E].
  { rewrite E in C. destruct a; inversion C; lia. }
  cbn [orb]. rewrite (cutoff_loop_found base noff m top c b a top fuel); auto.
  - now rewrite next_cell_pos.
  - apply NoDup_remove_2 in N. intros H. apply N. apply in_or_app. now left.
Qed.

Lemma cutoff_absent : forall base noff m top l c fuel,
  0 < base -> 0 < c -> contents noff m top l -> ~ In c l -> (length l < fuel)%nat ->
  cutoff_list fuel base noff m top (c + base) = Some (false, []).
Proof.
  intros base noff m top l c fuel Hb Hc (C & N & T) Hn Hf.
  unfold cutoff_list. destruct (Z.eqb_spec (c + base) 0); [lia|].
  destruct (Z.eqb_spec (m top) 0) as [E|E]; auto. cbn [orb].
  now rewrite (cutoff_loop_absent base noff m top c l top fuel).
Qed.

(** ** find, rfind *)
Lemma find_loop_correct : forall base noff m P l x fuel,
  0 < base -> chain noff m x l -> (length l < fuel)%nat ->
  (exists r, first_with P l r /\ find_loop fuel base noff m P (to_abs base x) = Some (r + base)) \/
  ((forall r, In r l -> P r = false) /\ find_loop fuel base noff m P (to_abs base x) = Some 0).
Proof.
  intros base noff m P l. induction l as [|y l IH]; intros x fuel Hb C Hf; destruct fuel as [|fuel]; cbn in Hf; try lia.
  - inversion C; subst. right. split; [intros r [] | reflexivity].
  - destruct (chain_inv _ _ _ _ _ C) as (E & Hr & C'); subst x. cbn [find_loop]. rewrite to_abs_pos by auto.
    destruct (Z.eqb_spec (y + base) 0); [lia|]. rewrite to_rel_pos by auto. rewrite next_cell_pos.
    destruct (P y) eqn:Py.
    + left. exists y. split; auto. exists [], l. repeat split; auto. intros ? [].
    + destruct (IH (m (y + noff)) fuel Hb C') as [(r & (a & b & E1 & E2 & E3) & F)|[A F]]; [lia| |].
      * left. exists r. split; auto. exists (y :: a), b. subst l. repeat split; auto. intros z [->|Hz]; auto.
      * right. split; auto. intros r [->|Hr']; auto.
Qed.

Lemma rfind_loop_correct : forall base noff m P l x fuel last,
  0 < base -> chain noff m x l -> (length l < fuel)%nat ->
  (exists r, last_with P l r /\ rfind_loop fuel base noff m P (to_abs base x) last = Some (r + base)) \/
  ((forall r, In r l -> P r = false) /\ rfind_loop fuel base noff m P (to_abs base x) last = Some last).
Proof.
  intros base noff m P l. induction l as [|y l IH]; intros x fuel last Hb C Hf; destruct fuel as [|fuel]; cbn in Hf; try lia.
  - inversion C; subst. right. split; [intros r [] | reflexivity].
  - destruct (chain_inv _ _ _ _ _ C) as (E & Hr & C'); subst x. cbn [rfind_loop]. rewrite to_abs_pos by auto.
    destruct (Z.eqb_spec (y + base) 0); [lia|]. rewrite to_rel_pos by auto. rewrite next_cell_pos.
    destruct (IH (m (y + noff)) fuel (if P y then y + base else last) Hb C') as [(r & (a & b & E1 & E2 & E3) & F)|[A F]]; [lia| |].
    + left. exists r. split; auto. exists (y :: a), b. subst l. repeat split; auto.
    + destruct (P y) eqn:Py.
      * left. exists y. split; auto. exists [], l. repeat split; auto.
      * right. split; auto. intros r [->|Hr']; auto.
Qed.

(** ** initialize *)
Fixpoint entries (first size : Z) (count : nat) : list Z :=
  match count with O => [] | S n => first :: entries (first + size) size n end.

Lemma entries_ge : forall size count first r, 0 < size -> In r (entries first size count) -> first <= r.
Proof.
  intros size count. induction count as [|n IH]; intros first r Hs [].
  - lia.
  - apply IH in H; lia.
Qed.

Lemma apply_writes_app : forall ws ws' m, apply_writes m (ws ++ ws') = apply_writes (apply_writes m ws) ws'.
Proof. induction ws as [|[a v] ws IH]; intros; cbn; auto. Qed.

Lemma apply_writes_frame : forall ws m c, (forall a v, In (a, v) ws -> a <> c) -> apply_writes m ws c = m c.
Proof.
  induction ws as [|[a v] ws IH]; intros m c H; cbn; auto. rewrite IH.
  - apply upd_neq. intros ->. apply (H a v); [now left | auto].
  - intros; eapply H; right; eauto.
Qed.

Lemma init_loop_cells : forall base noff size count first prev a v, 0 < size ->
  In (a, v) (init_loop base noff size (first + base) prev count) ->
  (prev <> 0 /\ a = next_cell base noff prev) \/ first + noff <= a.
Proof.
  intros base noff size count. induction count as [|n IH]; intros first prev a v Hs H; cbn in H; [tauto|].
  apply in_app_or in H. destruct H as [H|H].
  - destruct (Z.eqb_spec prev 0); [destruct H|]. destruct H as [H|[]]. injection H as <- <-. auto.
  - destruct H as [H|H].
    + injection H as <- <-. right. rewrite next_cell_pos. lia.
    + replace (first + base + size) with ((first + size) + base) in H by lia.
      apply IH in H; auto. destruct H as [[_ ->]|H]; right; [rewrite next_cell_pos|]; lia.
Qed.

Lemma init_loop_chain : forall base noff size count first prev m,
  0 < base -> 0 < first -> 0 < size ->
  (prev = 0 \/ next_cell base noff prev < first + noff) ->
  chain noff (apply_writes m (init_loop base noff size (first + base) prev count)) (match count with O => 0 | _ => first end)
    (entries first size count) /\
  (prev <> 0 -> count <> O -> apply_writes m (init_loop base noff size (first + base) prev count) (next_cell base noff prev) = first).
Proof.
  intros base noff size count. induction count as [|n IH]; intros first prev m Hb Hf Hs Hp.
  - cbn. split; [constructor | tauto].
  - cbn [init_loop entries app]. rewrite !apply_writes_app. cbn [apply_writes].
    set (m1 := upd (apply_writes m (if prev =? 0 then [] else [(next_cell base noff prev, to_rel base (first + base))]))
                  (next_cell base noff (first + base)) 0).
    replace (first + base + size) with ((first + size) + base) by lia.
    assert (Hp1 : next_cell base noff (first + base) < first + size + noff) by (rewrite next_cell_pos; lia).
    destruct (IH (first + size) (first + base) m1) as [C1 C2]; try lia; auto.
    split.
    + constructor; auto.
      assert (E : apply_writes m1 (init_loop base noff size (first + size + base) (first + base) n) (first + noff)
                  = match n with O => 0 | _ => first + size end).
      { destruct n as [|n].
        - unfold m1. cbn [init_loop apply_writes]. rewrite next_cell_pos. apply upd_eq.
        - rewrite next_cell_pos in C2. apply C2; [lia | discriminate]. }
      change (chain noff (apply_writes m1 (init_loop base noff size (first + size + base) (first + base) n))
        (apply_writes m1 (init_loop base noff size (first + size + base) (first + base) n) (first + noff)) (entries (first + size) size n)).
      rewrite E. exact C1.
    + intros Hp0 _. rewrite apply_writes_frame.
      * unfold m1. rewrite upd_neq.
        -- destruct (Z.eqb_spec prev 0); [tauto|]. cbn. rewrite upd_eq. apply to_rel_pos; auto.
        -- rewrite next_cell_pos. lia.
      * intros a v Hin E. subst a. apply init_loop_cells in Hin; auto.
        destruct Hin as [[_ E]|E]; [rewrite next_cell_pos in E|]; lia.
Qed.
