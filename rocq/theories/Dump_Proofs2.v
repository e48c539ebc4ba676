(** Walks over a list that other threads change. *)
From Coq Require Import ZArith List Bool Lia.
From Verif Require Import Base List_Model List_Spec List_Proofs List_Props Dump_Model Dump_Spec.
Import ListNotations.
Open Scope Z_scope.

Section WithPool.
Variables (base noff top free : Z) (pool : list Z).
Hypothesis base_pos : 0 < base.
Hypothesis pool_pos : forall r, In r pool -> 0 < r.

(** ** No pointer ever leaves the pool *)
Definition okv (v : Z) : Prop := v = 0 \/ In v pool.
Definition okp (p : Z) : Prop := p = 0 \/ exists r, In r pool /\ p = r + base.
Definition okm (m : mem) : Prop := okv (m top) /\ okv (m free) /\ forall r, In r pool -> okv (m (r + noff)).
Definition okws (ws : list write) : Prop := forall c v, In (c, v) ws -> okv v.

Lemma okm_upd : forall m c v, okm m -> okv v -> okm (upd m c v).
Proof.
  intros m c v (A & B & C) V. unfold okm. assert (G : forall x, okv (m x) -> okv (upd m c v x)).
  { intros x X. destruct (upd_cases _ m c v x) as [[_ ->]|[_ ->]]; auto. }
  repeat split; auto.
Qed.
Lemma okm_writes : forall ws m, okm m -> okws ws -> okm (apply_writes m ws).
Proof.
  induction ws as [|[c v] ws IH]; intros m M W; auto. cbn [apply_writes]. apply IH.
  - apply okm_upd; auto. apply (W c v). now left.
  - intros c' v' H. apply (W c' v'). now right.
Qed.
Lemma okp_abs : forall v, okv v -> okp (to_abs base v).
Proof.
  intros v [->|H]; [now left|]. right. exists v. split; auto. apply to_abs_pos. auto.
Qed.
Lemma okv_rel : forall p, okp p -> okv (to_rel base p).
Proof. intros p [->|(r & Hr & ->)]; [now left|]. right. rewrite to_rel_pos; auto. Qed.
Lemma okp_next : forall m p, okm m -> okp p -> p <> 0 -> okv (m (next_cell base noff p)).
Proof. intros m p (_ & _ & M) [->|(r & Hr & ->)] N; [tauto|]. rewrite next_cell_pos. auto. Qed.

Lemma ok_app : forall a b, okws a -> okws b -> okws (a ++ b).
Proof. intros a b A B c v H. apply in_app_or in H. destruct H; eauto. Qed.

Lemma ok_insert : forall m cell p, okm m -> okv (m cell) -> okp p -> okws (snd (insert_list base noff m cell p)).
Proof.
  intros m cell p M C P. unfold insert_list. destruct (p =? 0); cbn [snd]; [intros c v []|].
  intros c v [E|[E|[]]]; injection E as <- <-; auto. now apply okv_rel.
Qed.
Lemma ok_retrieve : forall m, okm m -> okp (snd (fst (retrieve_list base noff m free))) /\ okws (snd (retrieve_list base noff m free)).
Proof.
  intros m M. unfold retrieve_list. destruct (Z.eqb_spec (m free) 0) as [E|E]; cbn [fst snd]; [split; [now left | intros c v []]|].
  pose proof M as (T & F & _). pose proof (okp_abs _ F) as P.
  assert (N : to_abs base (m free) <> 0).
  { destruct F as [F|F]; [tauto|]. rewrite to_abs_pos by auto. apply pool_pos in F. lia. }
  destruct (Z.eqb_spec (to_abs base (m free)) 0); [tauto|]. cbn [fst snd]. split; auto.
  intros c v [H|[H|[]]]; injection H as <- <-; [|now left]. now apply okp_next.
Qed.
Lemma ok_acquire : forall m, okm m -> okws (snd (acquire base noff m free top (fun _ => []))).
Proof.
  intros m M. unfold acquire. destruct (ok_retrieve m M) as (P & W).
  destruct (retrieve_list base noff m free) as [[b cur] ws]. cbn [fst snd] in P, W.
  destruct b; auto. rewrite app_nil_r. cbn [app].
  pose proof (ok_insert (apply_writes m ws) top cur (okm_writes _ _ M W)) as I.
  destruct (insert_list base noff (apply_writes m ws) top cur) as [ok ws']. cbn [snd] in *.
  apply ok_app; auto. apply I; auto. destruct (okm_writes ws m M W) as (T & _). exact T.
Qed.
Lemma ok_cutoff_loop : forall fuel m cur cell target c, okm m -> okp target ->
  cutoff_loop fuel base noff m top cur cell target = Some (Some c) -> okp cur /\ cur <> 0.
Proof.
  induction fuel as [|fuel IH]; intros m cur cell target c M T H; [discriminate|]. cbn [cutoff_loop] in H.
  destruct (Z.eqb_spec target 0); [discriminate|]. destruct (Z.eqb_spec target cur) as [->|N].
  - destruct (m cell =? to_rel base cur); auto.
  - eapply IH; [exact M| |exact H]. apply okp_abs. now apply okp_next.
Qed.
Lemma ok_release : forall fuel m p ok ws, okm m -> release fuel base noff m top free p = Some (ok, ws) -> okws ws.
Proof.
  intros fuel m p ok ws M H. unfold release, cutoff_list in H.
  destruct ((p =? 0) || (m top =? 0)); [injection H as <- <-; intros c v []|].
  destruct (cutoff_loop fuel base noff m top p top (to_abs base (m top))) as [[c|]|] eqn:E; [| |discriminate].
  2: { injection H as <- <-; intros c v []. }
  assert (T : okp (to_abs base (m top))) by (apply okp_abs; apply M).
  destruct (ok_cutoff_loop _ _ _ _ _ _ M T E) as (P & N).
  set (w1 := [(c, m (next_cell base noff p)); (next_cell base noff p, 0)]) in *.
  assert (W1 : okws w1).
  { intros a v [X|[X|[]]]; injection X as <- <-; [|now left]. now apply okp_next. }
  pose proof (okm_writes w1 m M W1) as M1.
  assert (F : okv (apply_writes m w1 free)) by apply M1.
  pose proof (ok_insert (apply_writes m w1) free p M1 F P) as I.
  destruct (insert_list base noff (apply_writes m w1) free p) as [ok' ws']. injection H as <- <-.
  exact (ok_app w1 ws' W1 I).
Qed.

Definition pinv (s : wstate) : Prop :=
  okm (w_mem s) /\ okws (w_todo s) /\ (forall p, w_cur s = Some p -> okp p) /\
  (forall p, In p (w_out s) -> exists r, In r pool /\ p = r + base).

Lemma pinv_step : forall s a s', pinv s -> w_step base noff top free s a = Some s' -> pinv s'.
Proof.
  intros s a s' (M & W & C & O) H. destruct a; cbn [w_step] in H.
  - destruct (w_todo s) eqn:E; [|discriminate]. injection H as <-. repeat split; cbn; auto; [apply M..|]. now apply ok_acquire.
  - destruct (w_todo s) eqn:E; [|discriminate].
    destruct (release fuel base noff (w_mem s) top free p) as [[b ws]|] eqn:R; [|discriminate]. injection H as <-.
    repeat split; cbn; auto; [apply M..|]. eapply ok_release; eauto.
  - destruct (w_todo s) as [|[c v] r] eqn:E; [discriminate|]. injection H as <-.
    assert (okm (upd (w_mem s) c v)) by (apply okm_upd; auto; apply (W c v); now left).
    repeat split; cbn; auto; [apply H..|]. intros c' v' I. apply (W c' v'). now right.
  - destruct (w_cur s) as [p|] eqn:E.
    + destruct (Z.eqb_spec p 0); [discriminate|]. pose proof (C p eq_refl) as P. destruct (w_next s); injection H as <-.
      * repeat split; cbn; auto; [apply M..|]. intros q Hq. injection Hq as <-. apply okp_abs. now apply okp_next.
      * repeat split; cbn; auto; [apply M..|]. intros q [<-|Hq]; auto. destruct P; [tauto|auto].
    + injection H as <-. repeat split; cbn; auto; [apply M..|]. intros q Hq. injection Hq as <-. apply okp_abs. apply M.
Qed.

(** ** While nothing is released the walk shows the list of the moment the head was read *)
Inductive phase (m : mem) (l f : list Z) : list write -> Prop :=
| ph0 : contents noff m free f -> apart noff top l free f -> phase m l f []
| ph4 : forall r, contents noff m free (r :: f) -> apart noff top l free (r :: f) ->
    phase m l f [(free, m (r + noff)); (r + noff, 0); (r + noff, m top); (top, r)]
| ph3 : forall r, contents noff m free f -> apart noff top l free f -> apart noff top l free (r :: f) ->
    0 < r -> ~ In r f -> r + noff <> free -> phase m l f [(r + noff, 0); (r + noff, m top); (top, r)]
| ph2 : forall r, contents noff m free f -> apart noff top l free f -> apart noff top l free (r :: f) ->
    0 < r -> ~ In r f -> r + noff <> free -> phase m l f [(r + noff, m top); (top, r)]
| ph1 : forall r, contents noff m free f -> apart noff top l free f -> apart noff top l free (r :: f) ->
    0 < r -> ~ In r f -> r + noff <> free -> m (r + noff) = m top -> phase m l f [(top, r)].

(** where the walk is in the list that it began with *)
Definition place (s : wstate) (l : list Z) (ss : list wstate) : Prop :=
  match w_cur s with
  | None => w_out s = [] /\ w_next s = false
  | Some p => exists new pre suf, l = new ++ pre ++ suf /\
      (exists s0, In s0 ss /\ contents noff (w_mem s0) top (pre ++ suf)) /\
      if w_next s then exists x suf', suf = x :: suf' /\ p = x + base /\ w_out s = rev (mapped base (pre ++ [x]))
      else w_out s = rev (mapped base pre) /\ p = to_abs base (match suf with [] => 0 | x :: _ => x end)
  end.

Definition winv (ss : list wstate) (s : wstate) : Prop :=
  exists l f, contents noff (w_mem s) top l /\ phase (w_mem s) l f (w_todo s) /\ place s l ss.

Lemma place_more : forall s s' l ss, place s l ss -> w_cur s' = w_cur s -> w_next s' = w_next s -> w_out s' = w_out s ->
  forall new', place s' (new' ++ l) (s' :: ss).
Proof.
  intros s s' l ss P A B C new'. unfold place in *. rewrite A, B, C. destruct (w_cur s); auto.
  destruct P as (new & pre & suf & -> & (s0 & I & X) & Y). exists (new' ++ new), pre, suf.
  rewrite <- app_assoc. split; auto. split; auto. exists s0. split; [now right|auto].
Qed.

Lemma place_same : forall s s' l ss, place s l ss -> w_cur s' = w_cur s -> w_next s' = w_next s -> w_out s' = w_out s ->
  place s' l (s' :: ss).
Proof. intros s s' l ss P A B C. exact (place_more s s' l ss P A B C []). Qed.

Lemma apart_sub : forall l r f, apart noff top l free (r :: f) -> apart noff top l free f.
Proof. intros l r f (A & B & C & D). repeat split; auto; intros x H; [intros X; apply (B x H); now right | apply C; now right]. Qed.

Lemma acquire_some : forall m l r f, contents noff m top l -> contents noff m free (r :: f) -> apart noff top l free (r :: f) ->
  snd (acquire base noff m free top (fun _ => [])) = [(free, m (r + noff)); (r + noff, 0); (r + noff, m top); (top, r)].
Proof.
  intros m l r f L F (A1 & A2 & A3 & A4). unfold acquire. rewrite (retrieve_correct base noff m free r f) by auto.
  cbn [app]. unfold insert_list.
  assert (R : 0 < r). { destruct F as (C & _). eapply chain_pos; [exact C|now left]. }
  destruct (Z.eqb_spec (r + base) 0); [lia|]. cbn [snd app]. rewrite next_cell_pos, to_rel_pos by auto. cbn [apply_writes].
  rewrite upd_neq by (intros X; apply (A3 r (or_introl eq_refl)); lia). rewrite upd_neq by congruence. reflexivity.
Qed.

Lemma winv_step : forall ss s a s', winv ss s -> (forall p n, a <> LRelease p n) ->
  w_step base noff top free s a = Some s' -> winv (s' :: ss) s'.
Proof.
  intros ss s a s' (l & f & L & P & Q) NR H. destruct a; cbn [w_step] in H.
  - destruct (w_todo s) eqn:E; [|discriminate]. injection H as <-. inversion P as [F A| | | | ]; subst.
    exists l. destruct f as [|r f].
    + exists []. cbn [w_mem w_todo]. split; auto. split; [|eapply place_same; [exact Q|reflexivity..]].
      unfold acquire. rewrite C35_retrieve_empty by auto. now constructor.
    + exists f. cbn [w_mem w_todo]. split; auto. split; [|eapply place_same; [exact Q|reflexivity..]].
      rewrite (acquire_some _ l r f) by auto. now constructor.
  - exfalso. eapply NR. reflexivity.
  - destruct (w_todo s) as [|[c v] rest] eqn:E; [discriminate|]. injection H as <-. unfold winv. cbn [w_mem w_todo].
    inversion P as [| r F A E' | r F A A' R N D E' | r F A A' R N D E' | r F A A' R N D X E']; subst.
    + (* the head of the free list moves on *)
      pose proof A as (A1 & A2 & A3 & A4). exists l, f. split; [apply contents_upd; auto|].
      split; [|eapply place_same; [exact Q|reflexivity..]].
      pose proof F as (C & ND & T). inversion ND as [|y z Hn ND']; subst y z.
      replace (w_mem s top) with (upd (w_mem s) free (w_mem s (r + noff)) top) by (apply upd_neq; auto).
      constructor; auto.
      * now apply retrieve_contents1.
      * now apply apart_sub with (r := r).
      * eapply chain_pos; [exact C|now left].
      * apply T. now left.
    + pose proof A' as (A1 & A2 & A3 & A4). exists l, f.
      assert (RT : r + noff <> top) by (apply A3; now left).
      assert (RL : forall x, In x l -> x + noff <> r + noff) by (intros x Hx Y; apply (A2 x Hx); left; lia).
      split; [apply contents_upd; auto|]. split; [|eapply place_same; [exact Q|reflexivity..]].
      replace (w_mem s top) with (upd (w_mem s) (r + noff) 0 top) by (apply upd_neq; auto).
      constructor; auto. apply contents_upd; auto. intros x Hx Y. apply N. replace r with x by lia. auto.
    + pose proof A' as (A1 & A2 & A3 & A4). exists l, f.
      assert (RT : r + noff <> top) by (apply A3; now left).
      assert (RL : forall x, In x l -> x + noff <> r + noff) by (intros x Hx Y; apply (A2 x Hx); left; lia).
      split; [apply contents_upd; auto|]. split; [|eapply place_same; [exact Q|reflexivity..]].
      constructor; auto.
      * apply contents_upd; auto. intros x Hx Y. apply N. replace r with x by lia. auto.
      * rewrite upd_eq, upd_neq by auto. reflexivity.
    + rename v into r.
      pose proof A' as (A1 & A2 & A3 & A4). exists (r :: l), f.
      assert (RT : r + noff <> top) by (apply A3; now left).
      assert (RL : ~ In r l) by (intros Y; apply (A2 r Y); now left).
      destruct L as (C & ND & T). split; [|split].
      * split; [|split].
        -- rewrite upd_eq. constructor; auto. rewrite upd_neq by auto. rewrite X.
           eapply chain_frame; [|exact C]. intros y Hy. rewrite upd_neq; auto.
        -- constructor; auto.
        -- intros y [<-|Hy]; auto.
      * constructor.
        -- apply contents_upd; auto. intros y Hy. apply A3. now right.
        -- repeat split; auto.
           ++ intros y [<-|Hy]; auto. intros Z. apply (A2 y Hy). now right.
           ++ intros y Hy. apply A3. now right.
           ++ intros y [<-|Hy]; auto.
      * eapply (place_more s _ l ss Q) with (new' := [r]); reflexivity.
  - unfold place in Q. destruct (w_cur s) as [p|] eqn:E.
    + destruct (Z.eqb_spec p 0); [discriminate|]. destruct Q as (new & pre & suf & -> & (s0 & I0 & C0) & Q).
      destruct (w_next s) eqn:EN; injection H as <-; exists (new ++ pre ++ suf), f; cbn [w_mem w_todo]; split; auto; split; auto;
        unfold place; cbn [w_cur w_next w_out].
      * destruct Q as (x & suf' & -> & -> & O). exists new, (pre ++ [x]), suf'. rewrite <- app_assoc. split; [reflexivity|].
        split; [exists s0; split; [now right|auto]|]. split; auto. f_equal. rewrite next_cell_pos.
        destruct L as (C & _). clear -C. revert C. generalize (w_mem s top).
        assert (G : forall a r, chain noff (w_mem s) r (a ++ x :: suf') ->
                     w_mem s (x + noff) = match suf' with [] => 0 | y :: _ => y end).
        { induction a as [|b a IH]; intros r C; cbn [app] in C; apply chain_inv in C; destruct C as (_ & _ & C).
          - inversion C; reflexivity || (subst; auto).
          - eapply IH; eauto. }
        intros z C. rewrite app_assoc in C. eapply G; eauto.
      * destruct Q as (O & Hp). destruct suf as [|x suf'].
        { exfalso. apply n. rewrite Hp. reflexivity. }
        assert (Rx : 0 < x).
        { destruct L as (C & _). eapply chain_pos; [exact C|]. apply in_or_app. right. apply in_or_app. right. now left. }
        rewrite to_abs_pos in Hp by auto. exists new, pre, (x :: suf'). split; [reflexivity|].
        split; [exists s0; split; [now right|auto]|]. exists x, suf'. split; auto. split; auto.
        rewrite O, Hp. unfold mapped. rewrite map_app, rev_app_distr. reflexivity.
    + injection H as <-. destruct Q as (O & N). exists l, f. cbn [w_mem w_todo]. split; auto. split; auto.
      unfold place. cbn [w_cur w_next w_out]. exists [], [], l. split; [reflexivity|]. split.
      * eexists. split; [left; reflexivity|]. exact L.
      * split; auto. f_equal. destruct L as (C & _). inversion C; auto.
Qed.
End WithPool.
