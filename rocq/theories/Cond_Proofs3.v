(** Condition variables: signal and broadcast calls. *)
From Coq Require Import ZArith List Bool Lia Sorted.
From Verif Require Import Base Cond_Model Cond_Spec Cond_Proofs Cond_Proofs2.
Import ListNotations.
Open Scope Z_scope.

Lemma one_call_cons : forall t x ls, one_call t (x :: ls) -> one_call t ls /\ (actor x <> Some t \/ exists g, x = XRun t g).
Proof.
  intros t x ls H. split; [intros c I; apply (H c); right; auto|].
  destruct x as [u c|u g|u|m]; simpl; try (left; congruence).
  - destruct (Z.eq_dec u t) as [->|N]; [exfalso; apply (H c); left; auto|]. left; congruence.
  - destruct (Z.eq_dec u t) as [->|N]; eauto. left; congruence.
Qed.
Lemma path_app : forall ok s l1 s1 l2 s2, c_path ok s l1 s1 -> c_path ok s1 l2 s2 -> c_path ok s (l1 ++ l2) s2.
Proof. intros ok s l1 s1 l2 s2 P. induction P; simpl; auto. intro Q. constructor; auto. Qed.

(** after the return *)
Lemma idle_tail : forall ok s ls s' t, c_path ok s ls s' -> one_call t ls -> idle s t ->
  idle s' t /\ c_res s' t = c_res s t /\ own_wakes t s ls [] /\ mutexes_untouched t s ls.
Proof.
  intros ok s ls s' t P. induction P as [s|s x ls s' O P IH]; intros ONE ID.
  - repeat split; auto; constructor.
  - destruct (one_call_cons _ _ _ ONE) as [ONE' [N|[g ->]]].
    + destruct IH as (A & B & C & D); auto; [unfold idle in *; rewrite step_pc; auto|].
      split; auto. split; [rewrite B; apply step_res; auto|]. split; [apply ow_other; auto|apply mu_other; auto].
    + assert (E : c_step s (XRun t g) = s) by (simpl; unfold c_run; rewrite ID; destruct (_ && _); auto).
      destruct IH as (A & B & C & D); auto; [rewrite E; auto|]. rewrite E in *. split; auto. split; auto.
      split; [apply ow_same; rewrite ?E; auto | apply mu_same; rewrite ?E; auto].
Qed.
Lemma nonidle_alive : forall ok s ls s' t, c_path ok s ls s' -> idle s' t -> ~ idle s t -> c_alive s t = true.
Proof. intros ok s ls s' t P I N. destruct (c_alive s t) eqn:E; auto. exfalso. apply N. unfold idle in *. rewrite <- (dead_path _ _ _ _ _ P E). auto. Qed.
Lemma run_eq : forall s t g, c_alive s t = true -> t <> 0 -> c_step s (XRun t g) = c_run s t g.
Proof. intros s t g A N. simpl. rewrite A. destruct (Z.eqb_spec t 0); auto. contradiction. Qed.

(** dropping the guard *)
Lemma exit_tail : forall ok s ls s' t r, c_path ok s ls s' -> one_call t ls -> t <> 0 -> c_pc s t = CX r -> idle s' t ->
  c_res s' t = Some r /\ own_wakes t s ls [] /\ mutexes_untouched t s ls.
Proof.
  intros ok s ls s' t r P. induction P as [s|s x ls s' O P IH]; intros ONE T0 Ep ID.
  - unfold idle in ID. congruence.
  - assert (AL : c_alive s t = true).
    { eapply (nonidle_alive ok s (x :: ls)); eauto; [constructor; eauto|]. unfold idle. congruence. }
    destruct (one_call_cons _ _ _ ONE) as [ONE' [N|[g ->]]].
    + destruct IH as (B & C & D); auto; [rewrite step_pc; auto|].
      split; auto. split; [apply ow_other; auto|apply mu_other; auto].
    + rewrite run_eq in * by auto. unfold c_run in *. rewrite Ep in *.
      destruct (idle_tail _ _ _ _ t P) as (A & B & C & D); auto; [unfold idle; simpl; apply upd_eq|].
      split; [rewrite B; simpl; apply upd_eq|].
      assert (E : c_step s (XRun t g) = ret (set_guard s None) t r) by (rewrite run_eq; auto; unfold c_run; rewrite Ep; auto).
      split; [apply ow_same; rewrite ?E; auto | apply mu_same; rewrite ?E; auto].
Qed.

Section Sig.
Variable UW : list Z.
Variable c0 : Z.
Definition good (s : cstate) : Prop := CI UW s /\ OI c0 s /\ c_pc s 0 = CIdle.
Lemma good_step : forall s x, good s -> owners_wait c0 s x -> good (c_step s x).
Proof. intros s x (A & B & C) O. split; [apply CI_step; auto|]. split; [eapply OI_step; eauto|apply zero_step; auto]. Qed.

(** while [t] holds the guard the list of [c0] does not change and no other thread takes the waiting mark off an entry,
    except the owner of the entry when its call fails *)
Lemma held_any : forall s x t, CI UW s -> c_alive s t = true -> crit (c_pc s t) = true -> actor x <> Some t ->
  c_wl (c_step s x) c0 = c_wl s c0 /\
  (forall w, In w (c_wl s c0) -> w_wait (c_w s w) = true -> w_wait (c_w (c_step s x) w) = true \/ withdraws s x c0 w) /\
  (forall w, In w (c_wl s c0) -> w_wait (c_w (c_step s x) w) = true ->
     w_wait (c_w s w) = true \/ exists u, entering s c0 u w).
Proof.
  intros s x t H AL CR NT. pose proof (ci_guard _ _ H t AL CR) as G.
  assert (NC : forall u g, x = XRun u g -> c_alive s u = true -> crit (c_pc s u) = false).
  { intros u g -> ALu. destruct (crit (c_pc s u)) eqn:E; auto. pose proof (ci_guard _ _ H u ALu E). exfalso. apply NT. simpl. congruence. }
  split; [|split].
  - destruct (step_wl s x c0) as [E|(u & g & -> & ALu & Q)]; auto. specialize (NC u g eq_refl ALu). destruct (c_pc s u); simpl in *; try contradiction; discriminate.
  - intros w I W. destruct (step_w s x w) as [E|(u & g & -> & ALu & Q)]; [left; congruence|]. specialize (NC u g eq_refl ALu).
    destruct (c_pc s u) eqn:Ep; simpl in NC; try contradiction; try discriminate; destruct Q as [-> Q]; auto.
    right. destruct (ci_reg _ _ H u a w ALu) as (R & _); [rewrite Ep; auto|]. exists u, g. rewrite Ep. repeat split; auto. eapply ci_disj2; eauto.
  - intros w I W. destruct (step_w s x w) as [E|(u & g & -> & ALu & Q)]; [left; congruence|]. specialize (NC u g eq_refl ALu).
    destruct (c_pc s u) eqn:Ep; simpl in NC; try contradiction; try discriminate; destruct Q as [-> Q]; auto.
    + right. exists u. unfold entering. rewrite Ep. split; auto. destruct (ci_reg _ _ H u a w ALu) as (R & _); [rewrite Ep; auto|]. eapply ci_disj2; eauto.
    + congruence.
Qed.
Lemma no_withdraw : forall s x w, OI c0 s -> ~ withdraws s x c0 w.
Proof. intros s x w HO (u & g & -> & ALu & Q). destruct (c_pc s u) eqn:Ep; try contradiction. destruct Q. eapply oi_wb; eauto. Qed.
Lemma held_step : forall s x t, good s -> c_alive s t = true -> crit (c_pc s t) = true -> actor x <> Some t ->
  c_wl (c_step s x) c0 = c_wl s c0 /\
  (forall w, In w (c_wl s c0) -> w_wait (c_w s w) = true -> w_wait (c_w (c_step s x) w) = true).
Proof.
  intros s x t (H & HO & Z0) AL CR NT. destruct (held_any s x t H AL CR NT) as (A & B & _). split; auto.
  intros w I W. destruct (B w I W); auto. exfalso. eapply no_withdraw; eauto.
Qed.

(** ** Signal *)
(** moment [s1] of the scan, seen from state [s]; [dn] has been visited *)
Definition scanned (s1 s : cstate) (dn ws : list Z) (last : option Z) : Prop :=
  c_wl s1 c0 = dn ++ ws /\ c_wl s c0 = dn ++ ws /\
  (forall x, In x (dn ++ ws) -> w_wait (c_w s1 x) = true -> w_wait (c_w s x) = true) /\
  match last with
  | None => forall x, In x dn -> w_wait (c_w s1 x) = false
  | Some w => exists d1 d2, dn = d1 ++ w :: d2 /\ w_wait (c_w s1 w) = true /\ forall x, In x d2 -> w_wait (c_w s1 x) = false
  end.

Lemma sorted_before : forall (f : Z -> Z) a b c x, StronglySorted (fun x y => f y < f x) (a ++ b :: c) -> In x a -> f b < f x.
Proof.
  intros f a. induction a as [|y a IH]; simpl; intros b c x S I; [contradiction|]. inversion S as [|? ? S' F]; subst.
  destruct I as [->|I]; eauto. rewrite Forall_forall in F. apply F. apply in_or_app. right; left; auto.
Qed.
Lemma scanned_end : forall s1 s dn last, CI UW s1 -> scanned s1 s dn [] last -> woke_one c0 s1 (match last with None => [] | Some w => [w] end).
Proof.
  intros s1 s dn last H (E1 & E2 & M & L). rewrite app_nil_r in *. destruct last as [w|].
  - right. exists w. split; auto. destruct L as (d1 & d2 & -> & W & F). split.
    + split; auto. rewrite E1. apply in_or_app; right; left; auto.
    + intros w' [I W'] N. rewrite E1 in I. pose proof (ci_sort _ _ H c0) as S. rewrite E1 in S.
      apply in_app_or in I as [I|[I|I]]; [eapply sorted_before; eauto | congruence | rewrite F in W' by auto; discriminate].
  - left. split; auto. intros w [I W]. rewrite E1 in I. rewrite L in W by auto. discriminate.
Qed.

Lemma moment_now : forall (ok : cstate -> clabel -> Prop) s ls s2 (P : cstate -> Prop), c_path ok s ls s2 -> P s -> at_some_moment ok s ls s2 P.
Proof. intros. exists [], ls, s. repeat split; auto. constructor. Qed.
Lemma moment_later : forall (ok : cstate -> clabel -> Prop) s x ls s2 P, ok s x -> at_some_moment ok (c_step s x) ls s2 P -> at_some_moment ok s (x :: ls) s2 P.
Proof. intros ok s x ls s2 P O (l1 & l2 & s1 & -> & A & B & C). exists (x :: l1), l2, s1. repeat split; auto. constructor; auto. Qed.

Variable ok : cstate -> clabel -> Prop.
Hypothesis OKW : forall s x, ok s x -> owners_wait c0 s x.

Ltac live P := match goal with I : idle _ ?t |- _ => eapply (nonidle_alive _ _ _ _ t P I); unfold idle; congruence end.

Lemma signal_wake : forall s ls s2 t w, c_path ok s ls s2 -> one_call t ls -> t <> 0 -> good s -> idle s2 t ->
  c_pc s t = SW c0 w -> In w (c_wl s c0) -> w_wait (c_w s w) = true -> own_wakes t s ls [w] /\ c_res s2 t = Some OK.
Proof.
  intros s ls s2 t w P. induction P as [s|s x ls s2 O P IH]; intros ONE T0 G ID Ep I W; [unfold idle in *; congruence|].
  assert (AL : c_alive s t = true).
  { eapply (nonidle_alive ok s (x :: ls)); eauto; [constructor; eauto|]. unfold idle. congruence. }
  assert (CR : crit (c_pc s t) = true) by (rewrite Ep; auto).
  destruct (one_call_cons _ _ _ ONE) as [ONE' [N|[g ->]]].
  - destruct (held_step s x t G AL CR N) as (A & B).
    destruct IH as [C D]; auto; [apply good_step; auto | rewrite step_pc; auto | rewrite A; auto |]. split; auto. apply ow_other; auto.
  - assert (E : c_step s (XRun t g) = goto (set_w s w (w_set_wait (c_w s w) false)) t (CX OK)) by (rewrite run_eq; auto; unfold c_run; rewrite Ep; auto).
    destruct (exit_tail _ _ _ _ t OK P) as (B & C & D); auto; [rewrite E; simpl; apply upd_eq|].
    split; auto. apply ow_woke; auto; rewrite E; simpl.
    + rewrite upd_eq. auto.
    + intros w' N W'. rewrite upd_neq; auto.
Qed.

Lemma signal_scan : forall s ls s2 t, c_path ok s ls s2 -> one_call t ls -> t <> 0 -> good s -> idle s2 t ->
  forall s1 dn ws last, CI UW s1 -> c_pc s t = SS c0 ws last -> scanned s1 s dn ws last ->
  c_res s2 t = Some OK /\
  exists wk, own_wakes t s ls wk /\ (woke_one c0 s1 wk \/ at_some_moment ok s ls s2 (fun s' => woke_one c0 s' wk)).
Proof.
  intros s ls s2 t P. induction P as [s|s x ls s2 O P IH]; intros ONE T0 G ID s1 dn ws last H1 Ep SC; [unfold idle in *; congruence|].
  assert (AL : c_alive s t = true).
  { eapply (nonidle_alive ok s (x :: ls)); eauto; [constructor; eauto|]. unfold idle. congruence. }
  assert (CR : crit (c_pc s t) = true) by (rewrite Ep; auto).
  pose proof (good_step s x G (OKW _ _ O)) as G'.
  destruct (one_call_cons _ _ _ ONE) as [ONE' [N|[g ->]]].
  - destruct (held_step s x t G AL CR N) as (A & B). destruct SC as (E1 & E2 & M & L).
    destruct (IH ONE' T0 G' ID s1 dn ws last H1) as (R & wk & OW & D); [rewrite step_pc; auto| |].
    { split; auto. split; [congruence|]. split; auto. intros y I W. apply B; [rewrite E2; auto|]. apply M; auto. }
    split; auto. exists wk. split; [apply ow_other; auto|]. destruct D as [D|D]; auto. right. apply moment_later; auto.
  - assert (E : c_step s (XRun t g) = c_run s t g) by (apply run_eq; auto). unfold c_run in E. rewrite Ep in E.
    assert (SAME : forall wk p, c_step s (XRun t g) = goto s t p -> own_wakes t (c_step s (XRun t g)) ls wk -> own_wakes t s (XRun t g :: ls) wk).
    { intros wk p EQ OW. apply ow_same; auto. rewrite EQ. auto. }
    destruct ws as [|w ws].
    + pose proof (scanned_end s1 s dn last H1 SC) as WO. destruct last as [w|].
      * destruct SC as (E1 & E2 & M & d1 & d2 & -> & W & F). rewrite app_nil_r in *.
        assert (IW : In w (d1 ++ w :: d2)) by (apply in_or_app; right; left; auto).
        destruct (signal_wake _ ls s2 t w P) as [OW R]; auto; try (rewrite E; simpl; rewrite ?upd_eq; auto; try rewrite E2; auto; fail).
        split; auto. exists [w]. split; eauto.
      * destruct (exit_tail _ _ _ _ t OK P) as (B & C & D); auto; [rewrite E; simpl; apply upd_eq|]. split; auto. exists []. split; eauto.
    + destruct SC as (E1 & E2 & M & L).
      assert (E1' : c_wl s1 c0 = (dn ++ [w]) ++ ws) by (rewrite <- app_assoc; auto).
      assert (E2' : c_wl s c0 = (dn ++ [w]) ++ ws) by (rewrite <- app_assoc; auto).
      assert (IW : In w (dn ++ w :: ws)) by (apply in_or_app; right; left; auto).
      destruct (w_wait (c_w s w)) eqn:W.
      * destruct (IH ONE' T0 G' ID s (dn ++ [w]) ws (Some w)) as (R & wk & OW & D); [apply G | rewrite E; simpl; apply upd_eq | |].
        { rewrite E. split; auto. split; auto. split; auto. exists dn, []. repeat split; auto. intros y []. }
        split; auto. exists wk. split; eauto. right. destruct D as [D|D]; [apply moment_now; auto; constructor; auto|apply moment_later; auto].
      * assert (W1 : w_wait (c_w s1 w) = false) by (destruct (w_wait (c_w s1 w)) eqn:Q; auto; rewrite M in W by auto; discriminate).
        destruct (IH ONE' T0 G' ID s1 (dn ++ [w]) ws last) as (R & wk & OW & D); [auto | rewrite E; simpl; apply upd_eq | |].
        { rewrite E. split; auto. split; auto. split; [rewrite <- app_assoc; auto|]. destruct last as [l|].
          - destruct L as (d1 & d2 & -> & W2 & F). exists d1, (d2 ++ [w]). rewrite <- app_assoc. split; auto. split; auto.
            intros y I. apply in_app_or in I as [I|[<-|[]]]; auto.
          - intros y I. apply in_app_or in I as [I|[<-|[]]]; auto. }
        split; auto. exists wk. split; eauto. destruct D as [D|D]; auto. right. apply moment_later; auto.
Qed.

Lemma no_entry_no_cond : forall s, CI UW s -> mem c0 (c_conds s) = false -> c_wl s c0 = [].
Proof.
  intros s H M. destruct (c_wl s c0) as [|w l] eqn:E; auto. exfalso. apply mem_out in M. apply M. eapply (ci_cond _ _ H c0 w). rewrite E. left; auto.
Qed.

Lemma signal_find : forall s ls s2 t, c_path ok s ls s2 -> one_call t ls -> t <> 0 -> good s -> idle s2 t -> c_pc s t = SF c0 false ->
  exists wk, own_wakes t s ls wk /\ at_some_moment ok s ls s2 (fun s' => woke_one c0 s' wk) /\ (c_res s2 t = Some OK \/ c_res s2 t = Some EINVAL /\ wk = []).
Proof.
  intros s ls s2 t P. induction P as [s|s x ls s2 O P IH]; intros ONE T0 G ID Ep; [unfold idle in *; congruence|].
  assert (AL : c_alive s t = true).
  { eapply (nonidle_alive ok s (x :: ls)); eauto; [constructor; eauto|]. unfold idle. congruence. }
  pose proof (good_step s x G (OKW _ _ O)) as G'.
  destruct (one_call_cons _ _ _ ONE) as [ONE' [N|[g ->]]].
  - destruct (IH ONE' T0 G' ID) as (wk & A & B & C); [rewrite step_pc; auto|]. exists wk. split; [apply ow_other; auto|]. split; auto. apply moment_later; auto.
  - assert (E : c_step s (XRun t g) = c_run s t g) by (apply run_eq; auto). unfold c_run in E. rewrite Ep in E.
    assert (SAME : forall wk p, c_step s (XRun t g) = goto s t p -> own_wakes t (c_step s (XRun t g)) ls wk -> own_wakes t s (XRun t g :: ls) wk).
    { intros wk p EQ OW. apply ow_same; auto. rewrite EQ. auto. }
    destruct (mem c0 (c_conds s)) eqn:M.
    + destruct (signal_scan _ ls s2 t P ONE' T0 G' ID (c_step s (XRun t g)) [] (c_wl s c0) None) as (R & wk & OW & D); [apply G' | rewrite E; simpl; apply upd_eq | |].
      { rewrite E. repeat split; auto. intros y []. }
      exists wk. split; eauto. split; auto. apply moment_later; auto. destruct D; auto. apply moment_now; auto.
    + destruct (exit_tail _ _ _ _ t EINVAL P) as (B & C & D); auto; [rewrite E; simpl; apply upd_eq|]. exists []. split; eauto. split; auto.
      apply moment_now; [constructor; auto|]. left. split; auto. intros w [I _]. rewrite (no_entry_no_cond s) in I; auto. apply G.
Qed.

Lemma take_eq : forall s t p g, c_alive s t = true -> t <> 0 -> c_run s t g = take_guard s t p ->
  c_step s (XRun t g) = s \/ c_step s (XRun t g) = goto (set_guard s (Some t)) t p.
Proof. intros s t p g AL T0 E. rewrite run_eq, E by auto. destruct (take_cases s t p) as [->|[-> _]]; auto. Qed.

Lemma signal_call : forall s ls s2 t, c_path ok s ls s2 -> one_call t ls -> t <> 0 -> good s -> idle s2 t -> c_pc s t = SG c0 false ->
  exists wk, own_wakes t s ls wk /\ at_some_moment ok s ls s2 (fun s' => woke_one c0 s' wk) /\ (c_res s2 t = Some OK \/ c_res s2 t = Some EINVAL /\ wk = []).
Proof.
  intros s ls s2 t P. induction P as [s|s x ls s2 O P IH]; intros ONE T0 G ID Ep; [unfold idle in *; congruence|].
  assert (AL : c_alive s t = true).
  { eapply (nonidle_alive ok s (x :: ls)); eauto; [constructor; eauto|]. unfold idle. congruence. }
  pose proof (good_step s x G (OKW _ _ O)) as G'.
  destruct (one_call_cons _ _ _ ONE) as [ONE' [N|[g ->]]].
  - destruct (IH ONE' T0 G' ID) as (wk & A & B & C); [rewrite step_pc; auto|]. exists wk. split; [apply ow_other; auto|]. split; auto. apply moment_later; auto.
  - destruct (take_eq s t (SF c0 false) g AL T0) as [E|E]; [unfold c_run; rewrite Ep; auto| |].
    + destruct (IH ONE' T0 G' ID) as (wk & A & B & C); [rewrite E; auto|]. exists wk. split; [apply ow_same; auto; rewrite E; auto|]. split; auto. apply moment_later; auto.
    + destruct (signal_find _ ls s2 t P ONE' T0 G' ID) as (wk & A & B & C); [rewrite E; simpl; apply upd_eq|]. exists wk.
      split; [apply ow_same; auto; rewrite E; auto|]. split; auto. apply moment_later; auto.
Qed.

(** ** Broadcast *)
(** part of a broadcast that still has to visit [ws] *)
Definition bc_rest (s : cstate) (ls : list clabel) (ws wk : list Z) : Prop :=
  NoDup wk /\ incl wk ws /\ (forall w, In w ws -> w_wait (c_w s w) = true -> In w wk \/ withdrawn ok s ls c0 w) /\
  (forall w, In w wk -> w_wait (c_w s w) = true \/ exists u, entering s c0 u w).

Lemma withdrawn_later : forall s x ls w, ok s x -> withdrawn ok (c_step s x) ls c0 w -> withdrawn ok s (x :: ls) c0 w.
Proof. intros s x ls w O (l1 & y & l2 & s1 & -> & A & B). exists (x :: l1), y, l2, s1. repeat split; auto. constructor; auto. Qed.
Lemma entering_back : forall s x t w u, CI UW s -> c_alive s t = true -> crit (c_pc s t) = true -> actor x <> Some t ->
  In w (c_wl s c0) -> entering (c_step s x) c0 u w -> entering s c0 u w.
Proof.
  intros s x t w u H AL CR NT I EN. pose proof (ci_guard _ _ H t AL CR) as G.
  assert (D : actor x = Some u \/ actor x <> Some u) by (destruct (actor x) as [v|]; [destruct (Z.eq_dec v u); [left|right]; congruence | right; congruence]).
  destruct D as [D|D]; [|unfold entering in *; rewrite step_pc in EN; auto].
  destruct (c_alive s u && negb (u =? 0)) eqn:AU; cycle 1.
  { destruct x as [v cc|v g|v|m]; simpl in D; try discriminate; inversion D; subst v; simpl in EN; rewrite AU in EN; auto. }
  destruct x as [v cc|v g|v|m]; simpl in D; try discriminate; inversion D; subst v; unfold entering in *; simpl in EN; rewrite AU in EN.
  - destruct (c_pc s u) eqn:Ep; auto; try (rewrite Ep in EN; auto; fail). unfold c_call in EN.
    destruct cc; simpl in EN; try destruct (c_mk s m); simpl in EN; rewrite upd_eq in EN; contradiction.
  - apply andb_true_iff in AU as [ALu _]. assert (NC : crit (c_pc s u) = false).
    { destruct (crit (c_pc s u)) eqn:Q; auto. pose proof (ci_guard _ _ H u ALu Q). exfalso. apply NT. simpl. congruence. }
    unfold c_run, take_guard, unlock_mutex in EN. destruct (c_pc s u) eqn:Ep; simpl in *; try discriminate; rewrite ?Ep in EN;
    repeat match type of EN with context[match ?y with _ => _ end] =>
       lazymatch y with upd _ _ _ _ => fail | c_pc _ _ => fail | _ => destruct y eqn:?; simpl in EN end end;
    rewrite ?upd_eq, ?Ep in EN; simpl in EN; try contradiction; auto.
Qed.

Lemma bc_scan : forall s ls s2 t, c_path ok s ls s2 -> one_call t ls -> t <> 0 -> CI UW s -> idle s2 t ->
  forall ws, incl ws (c_wl s c0) -> NoDup ws ->
  c_pc s t = SB c0 ws \/ (exists w ws', ws = w :: ws' /\ c_pc s t = SU c0 w ws') ->
  c_res s2 t = Some OK /\ exists wk, own_wakes t s ls wk /\ bc_rest s ls ws wk.
Proof.
  intros s ls s2 t P. induction P as [s|s x ls s2 O P IH]; intros ONE T0 G ID ws IN ND D; [unfold idle in *; destruct D as [D|(w & ws' & _ & D)]; congruence|].
  assert (AL : c_alive s t = true).
  { eapply (nonidle_alive ok s (x :: ls)); eauto; [constructor; eauto|]. unfold idle. destruct D as [D|(w & ws' & _ & D)]; congruence. }
  assert (CR : crit (c_pc s t) = true) by (destruct D as [D|(w & ws' & _ & D)]; rewrite D; auto).
  pose proof (CI_step UW s x G) as G'.
  destruct (one_call_cons _ _ _ ONE) as [ONE' [N|[g ->]]].
  - (* steps of other threads *)
    destruct (held_any s x t G AL CR N) as (H1 & H2 & H3).
    destruct (IH ONE' T0 G' ID ws) as (R & wk & OW & A & B & C & E); [rewrite H1; auto | auto | rewrite step_pc; auto |].
    split; auto. exists wk. split; [apply ow_other; auto|]. split; auto. split; auto. split.
    + intros w I W. destruct (H2 w) as [Q|Q]; auto.
      * destruct (C w I Q); auto. right. apply withdrawn_later; auto.
      * right. exists [], x, ls, s. repeat split; auto. constructor.
    + intros w I. destruct (E w I) as [W|[u EN]]; [apply H3; auto|]. right. exists u. eapply entering_back; eauto.
  - assert (E : c_step s (XRun t g) = c_run s t g) by (apply run_eq; auto). unfold c_run in E.
    assert (ENB : forall s' p y u, c_step s (XRun t g) = goto s' t p -> c_pc s' = c_pc s -> (match p with WD _ _ | WS _ _ | WU _ _ => False | _ => True end) -> entering (c_step s (XRun t g)) c0 u y -> entering s c0 u y).
    { intros s' p y u EQ EP NP EN. unfold entering in *. rewrite EQ in EN. simpl in EN. rewrite EP in EN. destruct (upd_cases _ (c_pc s) t p u) as [[-> Q]|[NN Q]]; rewrite Q in EN; auto.
      destruct p; contradiction. }
    destruct D as [Ep|(w & ws' & -> & Ep)]; rewrite Ep in E.
    + assert (SAME : forall wk p, c_step s (XRun t g) = goto s t p -> own_wakes t (c_step s (XRun t g)) ls wk -> own_wakes t s (XRun t g :: ls) wk).
      { intros wk p EQ OW. apply ow_same; auto. rewrite EQ. auto. }
      assert (BR : forall p wk, c_step s (XRun t g) = goto s t p -> (match p with WD _ _ | WS _ _ | WU _ _ => False | _ => True end) -> bc_rest (c_step s (XRun t g)) ls ws wk -> bc_rest s (XRun t g :: ls) ws wk).
      { intros p wk EQ NP (B1 & B2 & B3 & B4). split; auto. split; auto. split.
        - intros y I W. destruct (B3 y I); auto; [rewrite EQ; auto|]. right. apply withdrawn_later; auto.
        - intros y I. destruct (B4 y I) as [Q|[u Q]]; [left; rewrite EQ in Q; auto|]. right. exists u. eapply ENB; eauto. }
      destruct ws as [|w ws].
      * destruct (exit_tail _ _ _ _ t OK P) as (B & C & D); auto; [rewrite E; simpl; apply upd_eq|]. split; auto. exists []. split; eauto.
        split; [constructor|]. split; [intros y []|]. split; intros y [].
      * inversion ND as [|? ? NW ND']; subst. destruct (w_wait (c_w s w)) eqn:W.
        -- destruct (IH ONE' T0 G' ID (w :: ws)) as (R & wk & OW & B); auto; [rewrite E; auto | right; exists w, ws; split; auto; rewrite E; simpl; apply upd_eq |].
           split; auto. exists wk. split; eauto. eapply BR; eauto. simpl; auto.
        -- destruct (IH ONE' T0 G' ID ws) as (R & wk & OW & B1 & B2 & B3 & B4); auto; [rewrite E; simpl; intros y I; apply IN; right; auto | left; rewrite E; simpl; apply upd_eq |].
           split; auto. exists wk. split; eauto. eapply BR; eauto; [simpl; auto|]. split; auto. split; [intros y I; right; auto|]. split; auto.
           intros y [->|I] WY; auto. rewrite E in WY. simpl in WY. congruence.
    + inversion ND as [|? ? NW ND']; subst.
      destruct (IH ONE' T0 G' ID ws') as (R & wk & OW & B1 & B2 & B3 & B4); auto; [rewrite E; simpl; intros y I; apply IN; right; auto | left; rewrite E; simpl; apply upd_eq |].
      split; auto.
      assert (NE : forall y, In y ws' -> y <> w) by (intros y I Q; subst; auto).
      assert (B3' : forall y, In y ws' -> w_wait (c_w s y) = true -> In y wk \/ withdrawn ok s (XRun t g :: ls) c0 y).
      { intros y I WY. destruct (B3 y I) as [Q|Q]; auto; [rewrite E; simpl; rewrite upd_neq; auto|]. right. apply withdrawn_later; auto. }
      assert (B4' : forall y, In y wk -> w_wait (c_w s y) = true \/ exists u, entering s c0 u y).
      { intros y I. destruct (B4 y I) as [Q|[u Q]].
        - left. rewrite E in Q. simpl in Q. rewrite upd_neq in Q; auto.
        - right. exists u. eapply ENB; eauto. simpl; auto. }
      destruct (w_wait (c_w s w)) eqn:W.
      * exists (w :: wk). split.
        -- apply ow_woke; auto; rewrite E; simpl; [rewrite upd_eq; auto|]. intros w' N W'. rewrite upd_neq; auto.
        -- split; [constructor; auto|]. split; [intros y [->|I]; [left; auto|right; auto]|]. split.
           ++ intros y [->|I] WY; [left; left; auto|]. destruct (B3' y I WY); auto. left; right; auto.
           ++ intros y [->|I]; auto.
      * exists wk. split.
        -- apply ow_same; auto. rewrite E. simpl. intros w' W'. assert (w' <> w) by (intro; subst; congruence). rewrite upd_neq; auto.
        -- split; auto. split; [intros y I; right; auto|]. split; auto. intros y [->|I] WY; auto. congruence.
Qed.

Lemma bc_find : forall s ls s2 t, c_path ok s ls s2 -> one_call t ls -> t <> 0 -> CI UW s -> idle s2 t -> c_pc s t = SF c0 true ->
  exists wk, own_wakes t s ls wk /\ (exists l1 l2 s1, ls = l1 ++ l2 /\ c_path ok s l1 s1 /\ c_path ok s1 l2 s2 /\ woke_all ok c0 s1 l2 wk) /\ (c_res s2 t = Some OK \/ c_res s2 t = Some EINVAL /\ wk = []).
Proof.
  intros s ls s2 t P. induction P as [s|s x ls s2 O P IH]; intros ONE T0 G ID Ep; [unfold idle in *; congruence|].
  assert (AL : c_alive s t = true).
  { eapply (nonidle_alive ok s (x :: ls)); eauto; [constructor; eauto|]. unfold idle. congruence. }
  pose proof (CI_step UW s x G) as G'.
  destruct (one_call_cons _ _ _ ONE) as [ONE' [N|[g ->]]].
  - destruct (IH ONE' T0 G' ID) as (wk & A & B & C); [rewrite step_pc; auto|]. exists wk. split; [apply ow_other; auto|]. split; auto. destruct B as (l1 & l2 & s1 & -> & X & Y & Z). eexists (_ :: l1), l2, s1. split; [reflexivity|]. split; [constructor; auto|]. auto.
  - assert (E : c_step s (XRun t g) = c_run s t g) by (apply run_eq; auto). unfold c_run in E. rewrite Ep in E.
    assert (SAME : forall wk p, c_step s (XRun t g) = goto s t p -> own_wakes t (c_step s (XRun t g)) ls wk -> own_wakes t s (XRun t g :: ls) wk).
    { intros wk p EQ OW. apply ow_same; auto. rewrite EQ. auto. }
    destruct (mem c0 (c_conds s)) eqn:M.
    + destruct (bc_scan _ ls s2 t P ONE' T0 G' ID (c_wl s c0)) as (R & wk & OW & B1 & B2 & B3 & B4); [rewrite E; intros y I; auto | apply (ci_wl _ _ G) | left; rewrite E; simpl; apply upd_eq |].
      exists wk. split; eauto. split; auto. exists [XRun t g], ls, (c_step s (XRun t g)). split; auto. split; [constructor; auto; constructor|]. split; auto.
      split; auto. split.
      * intros w [I W]. rewrite E in I. apply B3; auto.
      * intros w I. split; auto. rewrite E. simpl. auto.
    + destruct (exit_tail _ _ _ _ t EINVAL P) as (B & C & D); auto; [rewrite E; simpl; apply upd_eq|]. exists []. split; eauto. split; auto.
      exists [], (XRun t g :: ls), s. split; auto. split; [constructor|]. split; [constructor; auto|]. split; [constructor|]. split; [|intros w []]. intros w [I _]. rewrite (no_entry_no_cond s) in I; auto.
Qed.

Lemma bc_call : forall s ls s2 t, c_path ok s ls s2 -> one_call t ls -> t <> 0 -> CI UW s -> idle s2 t -> c_pc s t = SG c0 true ->
  exists wk, own_wakes t s ls wk /\ (exists l1 l2 s1, ls = l1 ++ l2 /\ c_path ok s l1 s1 /\ c_path ok s1 l2 s2 /\ woke_all ok c0 s1 l2 wk) /\ (c_res s2 t = Some OK \/ c_res s2 t = Some EINVAL /\ wk = []).
Proof.
  intros s ls s2 t P. induction P as [s|s x ls s2 O P IH]; intros ONE T0 G ID Ep; [unfold idle in *; congruence|].
  assert (AL : c_alive s t = true).
  { eapply (nonidle_alive ok s (x :: ls)); eauto; [constructor; eauto|]. unfold idle. congruence. }
  pose proof (CI_step UW s x G) as G'.
  destruct (one_call_cons _ _ _ ONE) as [ONE' [N|[g ->]]].
  - destruct (IH ONE' T0 G' ID) as (wk & A & B & C); [rewrite step_pc; auto|]. exists wk. split; [apply ow_other; auto|]. split; auto. destruct B as (l1 & l2 & s1 & -> & X & Y & Z). eexists (_ :: l1), l2, s1. split; [reflexivity|]. split; [constructor; auto|]. auto.
  - destruct (take_eq s t (SF c0 true) g AL T0) as [E|E]; [unfold c_run; rewrite Ep; auto| |].
    + destruct (IH ONE' T0 G' ID) as (wk & A & B & C); [rewrite E; auto|]. exists wk. split; [apply ow_same; auto; rewrite E; auto|]. split; auto. destruct B as (l1 & l2 & s1 & -> & X & Y & Z). eexists (_ :: l1), l2, s1. split; [reflexivity|]. split; [constructor; auto|]. auto.
    + destruct (bc_find _ ls s2 t P ONE' T0 G' ID) as (wk & A & B & C); [rewrite E; simpl; apply upd_eq|]. exists wk.
      split; [apply ow_same; auto; rewrite E; auto|]. split; auto. destruct B as (l1 & l2 & s1 & -> & X & Y & Z). eexists (_ :: l1), l2, s1. split; [reflexivity|]. split; [constructor; auto|]. auto.
Qed.
End Sig.
