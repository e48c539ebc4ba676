(** Shared lists: C35-C37. *)
From Coq Require Import ZArith List Bool Lia.
From Verif Require Import Base List_Model List_Spec List_Proofs.
Import ListNotations.
Open Scope Z_scope.

(** the other lists after one write *)
Lemma apart_upd : forall noff m top l top2 l2 c v,
  apart noff top l top2 l2 -> (c = top \/ exists r, In r l /\ c = r + noff) ->
  contents noff m top2 l2 -> contents noff (upd m c v) top2 l2.
Proof.
  intros noff m top l top2 l2 c v (A1 & A2 & A3 & A4) Hc H. apply contents_upd; auto.
  - destruct Hc as [->|(r & Hr & ->)]; auto.
  - intros x Hx. destruct Hc as [->|(r & Hr & ->)]; auto. intros E. assert (x = r) by lia. subst. eapply A2; eauto.
Qed.

(** ** C35: the operations are the operations on sequences *)
Theorem C35_insert_puts_first : forall base noff m top l r,
  0 < base -> 0 < r -> contents noff m top l -> ~ In r l -> r + noff <> top ->
  exists ws, insert_list base noff m top (r + base) = (true, ws) /\
    contents noff (apply_writes m ws) top (r :: l) /\
    (forall top2 l2, apart noff top (r :: l) top2 l2 -> contents noff m top2 l2 -> contents noff (apply_writes m ws) top2 l2).
Proof.
  intros base noff m top l r Hb Hr H Hn Ht. eexists. split; [eapply insert_correct; eauto|]. cbn [apply_writes]. split.
  - now apply insert_contents2.
  - intros top2 l2 A H2. eapply apart_upd; eauto. eapply apart_upd; eauto. right. exists r. split; [now left|auto].
Qed.
Print Assumptions C35_insert_puts_first.

Theorem C35_retrieve_takes_first : forall base noff m top r l,
  0 < base -> contents noff m top (r :: l) ->
  exists ws, retrieve_list base noff m top = (true, r + base, ws) /\
    contents noff (apply_writes m ws) top l /\ apply_writes m ws (r + noff) = 0 /\
    (forall top2 l2, apart noff top (r :: l) top2 l2 -> contents noff m top2 l2 -> contents noff (apply_writes m ws) top2 l2).
Proof.
  intros base noff m top r l Hb H. eexists. split; [eapply retrieve_correct; eauto|]. cbn [apply_writes].
  pose proof (retrieve_contents1 _ _ _ _ _ H) as H1. destruct H as (C & N & T). inversion N as [|x y Hn N']; subst x y.
  split; [|split].
  - apply insert_contents1; auto. apply T. now left.
  - apply upd_eq.
  - intros top2 l2 A H2. eapply apart_upd; eauto; [right; exists r; split; [now left|auto]|].
    eapply apart_upd; eauto.
Qed.
Print Assumptions C35_retrieve_takes_first.

Theorem C35_retrieve_empty : forall base noff m top,
  contents noff m top [] -> retrieve_list base noff m top = (false, 0, []).
Proof. intros base noff m top (C & _). unfold retrieve_list. inversion C. reflexivity. Qed.
Print Assumptions C35_retrieve_empty.

Theorem C35_cutoff_removes_exactly : forall base noff m top a r b fuel,
  0 < base -> contents noff m top (a ++ r :: b) -> (length a < fuel)%nat ->
  exists ws, cutoff_list fuel base noff m top (r + base) = Some (true, ws) /\
    contents noff (apply_writes m ws) top (a ++ b) /\ apply_writes m ws (r + noff) = 0 /\
    (forall top2 l2, apart noff top (a ++ r :: b) top2 l2 -> contents noff m top2 l2 -> contents noff (apply_writes m ws) top2 l2).
Proof.
  intros base noff m top a r b fuel Hb H Hf. eexists. split; [eapply cutoff_correct; eauto|]. cbn [apply_writes].
  pose proof (contents_cut _ _ _ _ _ _ H) as H1. destruct H as (C & N & T). apply NoDup_remove_2 in N.
  split; [|split].
  - apply insert_contents1; auto. apply T. apply in_or_app. right. now left.
  - apply upd_eq.
  - intros top2 l2 A H2. eapply apart_upd; eauto.
    { right. exists r. split; auto. apply in_or_app. right. now left. }
    eapply apart_upd; eauto. destruct (prev_cell_cases noff a top) as [[-> _]|(x & Hx & ->)]; auto.
    right. exists x. split; auto. apply in_or_app. now left.
Qed.
Print Assumptions C35_cutoff_removes_exactly.

Theorem C35_cutoff_absent_fails_without_change : forall base noff m top l r fuel,
  0 < base -> 0 < r -> contents noff m top l -> ~ In r l -> (length l < fuel)%nat ->
  cutoff_list fuel base noff m top (r + base) = Some (false, []).
Proof. intros. eapply cutoff_absent; eauto. Qed.
Print Assumptions C35_cutoff_absent_fails_without_change.

Theorem C35_find_first : forall base noff m top l P fuel,
  0 < base -> contents noff m top l -> (length l < fuel)%nat ->
  (exists r, first_with P l r /\ find fuel base noff m P top = Some (r + base)) \/
  ((forall r, In r l -> P r = false) /\ find fuel base noff m P top = Some 0).
Proof.
  intros base noff m top l P fuel Hb (C & _) Hf. unfold find. destruct (Z.eqb_spec (m top) 0) as [E|E].
  - rewrite E in C. inversion C; subst; [right; split; [intros r []|auto] | lia].
  - now apply find_loop_correct.
Qed.
Print Assumptions C35_find_first.

Theorem C35_rfind_last : forall base noff m top l P fuel,
  0 < base -> contents noff m top l -> (length l < fuel)%nat ->
  (exists r, last_with P l r /\ rfind fuel base noff m P top = Some (r + base)) \/
  ((forall r, In r l -> P r = false) /\ rfind fuel base noff m P top = Some 0).
Proof.
  intros base noff m top l P fuel Hb (C & _) Hf. unfold rfind. destruct (Z.eqb_spec (m top) 0) as [E|E].
  - rewrite E in C. inversion C; subst; [right; split; [intros r []|auto] | lia].
  - now apply rfind_loop_correct.
Qed.
Print Assumptions C35_rfind_last.

(** a list has one contents only, so "contains exactly" is meaningful *)
Theorem C35_contents_unique : forall noff m top l l', contents noff m top l -> contents noff m top l' -> l = l'.
Proof. exact contents_fun. Qed.
Print Assumptions C35_contents_unique.

(** an example memory: a list 100 -> 140 -> 180 at head cell 8, next member at offset 16, mapped at 4096,
    a second list 220 at head cell 16 *)
Definition ex_mem : mem := fun a => match a with 8 => 100 | 116 => 140 | 156 => 180 | 196 => 0 | 16 => 220 | 236 => 0 | _ => 0 end.
Lemma ex_contents : contents 16 ex_mem 8 [100; 140; 180] /\ contents 16 ex_mem 16 [220].
Proof.
  split; (split; [repeat (constructor; [lia|]; cbn); constructor | split]).
  - repeat constructor; cbn; intuition lia.
  - intros r [<-|[<-|[<-|[]]]]; lia.
  - repeat constructor; cbn; intuition lia.
  - intros r [<-|[]]; lia.
Qed.
Example C35_example :
  cutoff_list 10 4096 16 ex_mem 8 (140 + 4096) = Some (true, [(116, 180); (156, 0)]) /\
  retrieve_list 4096 16 ex_mem 8 = (true, 100 + 4096, [(8, 140); (116, 0)]) /\
  rfind 10 4096 16 ex_mem (fun r => r <? 150) 8 = Some (140 + 4096) /\
  find 10 4096 16 ex_mem (fun r => r <? 150) 8 = Some (100 + 4096) /\
  apart 16 8 [100; 140; 180] 16 [220].
Proof.
  repeat (split; [vm_compute; reflexivity|]). unfold apart. cbn. intuition lia.
Qed.

(** ** C36: crash between any two writes *)
Theorem C36_insert_crash : forall base noff m top l r ok ws k,
  0 < base -> 0 < r -> contents noff m top l -> ~ In r l -> r + noff <> top ->
  insert_list base noff m top (r + base) = (ok, ws) ->
  contents noff (crashed_after k m ws) top l \/ contents noff (crashed_after k m ws) top (r :: l).
Proof.
  intros base noff m top l r ok ws k Hb Hr H Hn Ht E. rewrite (insert_correct base noff m top l r) in E by auto.
  injection E as <- <-. unfold crashed_after. destruct k as [|[|k]]; cbn [firstn apply_writes]; auto.
  - left. now apply insert_contents1.
  - right. rewrite firstn_nil. cbn [apply_writes]. now apply insert_contents2.
Qed.
Print Assumptions C36_insert_crash.

(** Release of an entry r (cut it off its list, put it into the free list): at every crash point both lists
    are well formed, each is as before or as after, and r is in at most one of them. *)
Theorem C36_release_crash : forall base noff m top a r b free f fuel ok ws k,
  0 < base -> contents noff m top (a ++ r :: b) -> contents noff m free f ->
  apart noff top (a ++ r :: b) free f -> (length a < fuel)%nat ->
  release fuel base noff m top free (r + base) = Some (ok, ws) ->
  let m' := crashed_after k m ws in
  (contents noff m' top (a ++ r :: b) /\ contents noff m' free f) \/
  (contents noff m' top (a ++ b) /\ contents noff m' free f) \/
  (contents noff m' top (a ++ b) /\ contents noff m' free (r :: f)).
Proof.
  intros base noff m top a r b free f fuel ok ws k Hb H F A Hf E m'. subst m'.
  unfold release in E. rewrite (cutoff_correct base noff m top a r b fuel) in E by auto.
  destruct (C35_cutoff_removes_exactly base noff m top a r b fuel Hb H Hf) as (ws1 & E1 & H1 & _ & F1).
  rewrite (cutoff_correct base noff m top a r b fuel) in E1 by auto. injection E1 as <-.
  specialize (F1 free f A F). cbn [apply_writes] in H1, F1.
  assert (Hr : 0 < r). { destruct H as (C & _). eapply chain_pos; [exact C|]. apply in_or_app. right. now left. }
  assert (Hin : In r (a ++ r :: b)) by (apply in_or_app; right; now left).
  pose proof A as A'. destruct A as (A1 & A2 & A3 & A4).
  assert (Hrf : ~ In r f) by (apply A2; auto).
  assert (Hrfree : r + noff <> free) by (apply A4; auto).
  set (m1 := upd m (prev_cell noff top a) (m (r + noff))) in *.
  set (m2 := upd m1 (r + noff) 0) in *.
  destruct (insert_list base noff (apply_writes m [(prev_cell noff top a, m (r + noff)); (r + noff, 0)]) free (r + base)) as [ok2 ws2] eqn:E2.
  injection E as <- <-.
  change (apply_writes m [(prev_cell noff top a, m (r + noff)); (r + noff, 0)]) with m2 in E2.
  rewrite (insert_correct base noff m2 free f r) in E2 by auto. injection E2 as <- <-.
  assert (N : ~ In r (a ++ b)). { destruct H as (_ & N & _). now apply NoDup_remove_2 in N. }
  assert (Fm1 : contents noff m1 free f).
  { eapply apart_upd; eauto. destruct (prev_cell_cases noff a top) as [[-> _]|(x & Hx & ->)]; auto.
    right. exists x. split; auto. apply in_or_app. now left. }
  assert (Hm3 : contents noff (upd m2 (r + noff) (m2 free)) top (a ++ b)).
  { apply insert_contents1; auto. destruct H as (_ & _ & T). auto. }
  unfold crashed_after. destruct k as [|[|[|[|k]]]]; cbn [firstn apply_writes app]; fold m1; fold m2.
  - left. auto.
  - right. left. split; [exact (contents_cut _ _ _ _ _ _ H) | exact Fm1].
  - right. left. auto.
  - right. left. split; auto. apply insert_contents1; auto.
  - right. right. rewrite firstn_nil. cbn [apply_writes]. split.
    + apply contents_upd; auto.
      * intros x Hx. apply A4. apply in_app_or in Hx. apply in_or_app. destruct Hx; [now left | right; now right].
    + apply insert_contents2; auto.
Qed.
Print Assumptions C36_release_crash.

(** Acquisition of an entry (take the first entry of the free list, initialise it, insert it). The writes of
    the initialisation stay inside the entry, away from every list cell. *)
Definition init_inside (noff : Z) (ws : list write) (top free : Z) (l f : list Z) : Prop :=
  forall c v, In (c, v) ws -> c <> top /\ c <> free /\ (forall x, In x l \/ In x f -> x + noff <> c).

Lemma contents_writes : forall noff ws m top l,
  (forall c v, In (c, v) ws -> c <> top /\ (forall x, In x l -> x + noff <> c)) ->
  contents noff m top l -> contents noff (apply_writes m ws) top l.
Proof.
  intros noff ws. induction ws as [|[c v] ws IH]; intros m top l H C; cbn; auto.
  apply IH; [intros; apply H with (v := v0); right; auto|].
  destruct (H c v (or_introl eq_refl)). apply contents_upd; auto.
Qed.

Lemma firstn_in : forall A n (l : list A) x, In x (firstn n l) -> In x l.
Proof.
  intros A n. induction n as [|n IH]; intros l x H; [destruct H|].
  destruct l as [|a l]; [destruct H|]. destruct H as [->|H]; [now left | right; auto].
Qed.

Theorem C36_acquire_crash : forall base noff m free r f top l init ok cur ws k,
  0 < base -> contents noff m free (r :: f) -> contents noff m top l ->
  apart noff free (r :: f) top l -> init_inside noff (init (r + base)) top free l (r :: f) ->
  acquire base noff m free top init = (ok, cur, ws) ->
  cur = r + base /\
  let m' := crashed_after k m ws in
  (contents noff m' free (r :: f) /\ contents noff m' top l) \/
  (contents noff m' free f /\ contents noff m' top l) \/
  (contents noff m' free f /\ contents noff m' top (r :: l)).
Proof.
  intros base noff m free r f top l init ok cur ws k Hb F H A Hi E.
  unfold acquire in E. rewrite (retrieve_correct base noff m free r f) in E by auto. cbv beta iota zeta in E.
  pose proof (retrieve_contents1 _ _ _ _ _ F) as F1.
  pose proof A as A'. destruct A as (A1 & A2 & A3 & A4).
  assert (Hr : 0 < r). { destruct F as (C & _). eapply chain_pos; [exact C|]. now left. }
  assert (Hrl : ~ In r l) by (apply A2; now left).
  assert (Hrtop : r + noff <> top) by (apply A4; now left).
  assert (Nf : ~ In r f). { destruct F as (_ & N & _). now inversion N. }
  assert (Hrfree : r + noff <> free). { destruct F as (_ & _ & T). apply T. now left. }
  set (ws1 := [(free, m (r + noff)); (r + noff, 0)]) in *.
  set (m1 := upd m free (m (r + noff))) in *.
  set (m2 := upd m1 (r + noff) 0) in *.
  set (wi := init (r + base)) in *.
  assert (Hm1 : contents noff m1 free f /\ contents noff m1 top l).
  { split; auto. eapply apart_upd; eauto. }
  assert (Hm2 : contents noff m2 free f /\ contents noff m2 top l).
  { destruct Hm1. split; apply insert_contents1; auto. }
  assert (Hw : forall j, contents noff (apply_writes m2 (firstn j wi)) free f /\ contents noff (apply_writes m2 (firstn j wi)) top l).
  { intros j. split; apply contents_writes; try apply Hm2; intros c v Hc; apply firstn_in in Hc;
      destruct (Hi c v Hc) as (I1 & I2 & I3); split; auto; intros x Hx; apply I3; cbn; auto. }
  set (m3 := apply_writes m2 wi).
  assert (Hm3 : contents noff m3 free f /\ contents noff m3 top l).
  { specialize (Hw (length wi)). rewrite firstn_all in Hw. exact Hw. }
  match type of E with (let (_, _) := ?x in _) = _ => destruct x as [ok2 ws2] eqn:E2 end.
  injection E as <- <- <-. split; auto. cbv zeta.
  rewrite apply_writes_app in E2. change (apply_writes (apply_writes m ws1) wi) with m3 in E2.
  rewrite (insert_correct base noff m3 top l r) in E2 by (auto; apply Hm3). injection E2 as <- <-.
  unfold crashed_after.
  destruct k as [|[|k]]; [left; auto | right; left; exact Hm1 |].
  assert (Ek : firstn (S (S k)) ((free, m (r + noff)) :: (r + noff, 0) :: wi ++ [(r + noff, m3 top); (top, r)])
               = ws1 ++ firstn k (wi ++ [(r + noff, m3 top); (top, r)])) by reflexivity.
  rewrite Ek, apply_writes_app. change (apply_writes m ws1) with m2. rewrite firstn_app, apply_writes_app.
  destruct (le_lt_dec k (length wi)) as [Hk|Hk].
  - right. left. replace (k - length wi)%nat with 0%nat by lia. cbn [firstn apply_writes]. apply Hw.
  - rewrite firstn_all2 by lia. fold m3.
    destruct (k - length wi)%nat as [|[|j]] eqn:Ej; [lia| |]; cbn [firstn apply_writes].
    + right. left. destruct Hm3. split; apply insert_contents1; auto.
    + right. right. rewrite firstn_nil. cbn [apply_writes]. destruct Hm3 as [X Y]. split.
      * apply contents_upd; auto; [intros x Hx; apply A4; now right |]. apply insert_contents1; auto.
      * apply insert_contents2; auto.
Qed.
Print Assumptions C36_acquire_crash.

Example C36_example : exists ws,
  release 10 4096 16 ex_mem 8 16 (140 + 4096) = Some (true, ws) /\ length ws = 4%nat /\
  contents 16 (crashed_after 4 ex_mem ws) 16 [140; 220] /\ contents 16 (crashed_after 4 ex_mem ws) 8 [100; 180].
Proof.
  eexists. split; [vm_compute; reflexivity|]. split; [reflexivity|].
  split; (split; [repeat (constructor; [vm_compute; reflexivity|]); apply chain_nil | split]);
    try (repeat constructor; cbn; intuition lia); intros r Hr; cbn in Hr; intuition lia.
Qed.

(** ** C37: position independence *)
(** the memory holds file offsets only (no negative numbers) *)
Definition offsets_only (m : mem) : Prop := forall a, 0 <= m a.

Theorem C37_insert_position_independent : forall b1 b2 noff m top r, 0 < b1 -> 0 < b2 -> 0 < r ->
  insert_list b1 noff m top (r + b1) = insert_list b2 noff m top (r + b2).
Proof.
  intros. unfold insert_list. rewrite !next_cell_pos, !to_rel_pos by auto.
  destruct (Z.eqb_spec (r + b1) 0); [lia|]. destruct (Z.eqb_spec (r + b2) 0); [lia|]. reflexivity.
Qed.
Print Assumptions C37_insert_position_independent.

Theorem C37_retrieve_position_independent : forall b1 b2 noff m top, 0 < b1 -> 0 < b2 -> offsets_only m ->
  let '(ok1, p1, ws1) := retrieve_list b1 noff m top in
  let '(ok2, p2, ws2) := retrieve_list b2 noff m top in
  ok1 = ok2 /\ to_rel b1 p1 = to_rel b2 p2 /\ ws1 = ws2.
Proof.
  intros b1 b2 noff m top H1 H2 O. unfold retrieve_list. specialize (O top).
  destruct (Z.eqb_spec (m top) 0); [auto|]. rewrite !to_abs_pos by lia.
  destruct (Z.eqb_spec (m top + b1) 0); [lia|]. destruct (Z.eqb_spec (m top + b2) 0); [lia|].
  rewrite !next_cell_pos, !to_rel_pos by lia. auto.
Qed.
Print Assumptions C37_retrieve_position_independent.

Lemma cutoff_loop_indep : forall b1 b2 noff m top r, 0 < b1 -> 0 < b2 -> 0 < r -> offsets_only m ->
  forall fuel prev x, 0 <= x ->
  cutoff_loop fuel b1 noff m top (r + b1) prev (to_abs b1 x) = cutoff_loop fuel b2 noff m top (r + b2) prev (to_abs b2 x).
Proof.
  unfold offsets_only.
  intros b1 b2 noff m top r H1 H2 Hr O fuel. induction fuel as [|fuel IH]; intros prev x Hx; cbn [cutoff_loop]; auto.
  destruct (Z.eqb_spec x 0) as [->|E]; [reflexivity|]. rewrite (to_abs_pos b1 x), (to_abs_pos b2 x) by lia.
  destruct (Z.eqb_spec (x + b1) 0); [lia|]. destruct (Z.eqb_spec (x + b2) 0); [lia|].
  destruct (Z.eqb_spec (x + b1) (r + b1)); destruct (Z.eqb_spec (x + b2) (r + b2)); try lia.
  - rewrite !to_rel_pos by auto. destruct (m prev =? r); auto.
  - rewrite !next_cell_pos. auto.
Qed.

Theorem C37_cutoff_position_independent : forall b1 b2 noff m top r fuel, 0 < b1 -> 0 < b2 -> 0 < r -> offsets_only m ->
  cutoff_list fuel b1 noff m top (r + b1) = cutoff_list fuel b2 noff m top (r + b2).
Proof.
  intros. unfold cutoff_list. destruct (Z.eqb_spec (r + b1) 0); [lia|]. destruct (Z.eqb_spec (r + b2) 0); [lia|].
  cbn [orb]. destruct (m top =? 0); auto. rewrite (cutoff_loop_indep b1 b2) by auto. now rewrite !next_cell_pos.
Qed.
Print Assumptions C37_cutoff_position_independent.

Lemma find_loop_indep : forall b1 b2 noff m P, 0 < b1 -> 0 < b2 -> offsets_only m ->
  forall fuel x, 0 <= x ->
  option_map (to_rel b1) (find_loop fuel b1 noff m P (to_abs b1 x)) = option_map (to_rel b2) (find_loop fuel b2 noff m P (to_abs b2 x)).
Proof.
  unfold offsets_only.
  intros b1 b2 noff m P H1 H2 O fuel. induction fuel as [|fuel IH]; intros x Hx; cbn [find_loop]; auto.
  destruct (Z.eqb_spec x 0) as [->|E]; [reflexivity|]. rewrite (to_abs_pos b1 x), (to_abs_pos b2 x) by lia.
  destruct (Z.eqb_spec (x + b1) 0); [lia|]. destruct (Z.eqb_spec (x + b2) 0); [lia|].
  rewrite !to_rel_pos by lia. destruct (P x).
  - cbn. now rewrite !to_rel_pos by lia.
  - rewrite !next_cell_pos. auto.
Qed.

Theorem C37_find_position_independent : forall b1 b2 noff m P top fuel, 0 < b1 -> 0 < b2 -> offsets_only m ->
  option_map (to_rel b1) (find fuel b1 noff m P top) = option_map (to_rel b2) (find fuel b2 noff m P top).
Proof.
  intros. unfold find. destruct (m top =? 0); [reflexivity|]. now apply find_loop_indep.
Qed.
Print Assumptions C37_find_position_independent.

Lemma rfind_loop_indep : forall b1 b2 noff m P, 0 < b1 -> 0 < b2 -> offsets_only m ->
  forall fuel x last, 0 <= x -> 0 <= last ->
  option_map (to_rel b1) (rfind_loop fuel b1 noff m P (to_abs b1 x) (to_abs b1 last))
  = option_map (to_rel b2) (rfind_loop fuel b2 noff m P (to_abs b2 x) (to_abs b2 last)).
Proof.
  unfold offsets_only.
  intros b1 b2 noff m P H1 H2 O fuel. induction fuel as [|fuel IH]; intros x last Hx Hl; cbn [rfind_loop]; auto.
  destruct (Z.eqb_spec x 0) as [->|E].
  { cbn. f_equal. destruct (Z.eqb_spec last 0) as [->|E']; [reflexivity|]. rewrite !to_abs_pos by lia. now rewrite !to_rel_pos by lia. }
  rewrite (to_abs_pos b1 x), (to_abs_pos b2 x) by lia.
  destruct (Z.eqb_spec (x + b1) 0); [lia|]. destruct (Z.eqb_spec (x + b2) 0); [lia|].
  rewrite !to_rel_pos by lia. rewrite !next_cell_pos. destruct (P x); auto.
  rewrite <- (to_abs_pos b1 x), <- (to_abs_pos b2 x) by lia. auto.
Qed.

Theorem C37_rfind_position_independent : forall b1 b2 noff m P top fuel, 0 < b1 -> 0 < b2 -> offsets_only m ->
  option_map (to_rel b1) (rfind fuel b1 noff m P top) = option_map (to_rel b2) (rfind fuel b2 noff m P top).
Proof.
  intros. unfold rfind. destruct (m top =? 0); [reflexivity|].
  exact (rfind_loop_indep b1 b2 noff m P H H0 H1 fuel (m top) 0 (H1 top) (Z.le_refl 0)).
Qed.
Print Assumptions C37_rfind_position_independent.

Example C37_example : offsets_only ex_mem /\
  cutoff_list 10 4096 16 ex_mem 8 (180 + 4096) = cutoff_list 10 7340032 16 ex_mem 8 (180 + 7340032).
Proof.
  split; [|vm_compute; reflexivity]. intros a. unfold ex_mem.
  repeat (match goal with |- context [match ?x with _ => _ end] => destruct x; try lia end).
Qed.
