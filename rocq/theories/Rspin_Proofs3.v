(** Calls on read/write locks that do not block end after a bounded number of steps, if they run alone. *)
From Coq Require Import ZArith List Bool Lia Arith.
From Verif Require Import Base RwWord_Model RwApi_Model RwApi_Spec RwApi_Proofs RwApi_Proofs2 RwApi_Proofs3 RwApi_Proofs9
  RwLin_Spec Guard_Model Rspin_Model Rspin_Proofs Rspin_Proofs2.
Import ListNotations.
Open Scope nat_scope.

(** ** A measure of what is left of a recovery pass *)
Definition lk (h : heap) (o : Z) : nat := length (off_lockers (h_o h o)).
Fixpoint osz (h : heap) (os : list Z) : nat := match os with [] => 0 | o :: r => 2 + lk h o + osz h r end.
Fixpoint fsz (h : heap) (fs : list Z) : nat := match fs with [] => 0 | f :: r => 2 + osz h (f_offs (h_f h f)) + fsz h r end.
Definition pass_rank (h : heap) (fs : list Z) (os : option (list Z)) (ls : option (list (rwmode * Z))) : nat :=
  match fs with
  | [] => 3
  | f :: fs' =>
      match os with
      | None => 2 + osz h (f_offs (h_f h f)) + fsz h fs' + 3
      | Some os =>
          match os, ls with
          | o :: os', Some ls => 1 + length ls + osz h os' + 1 + fsz h fs' + 3
          | _, _ => osz h os + 1 + fsz h fs' + 3
          end
      end
  end.

Lemma pass_rank_files : forall h fs, pass_rank h fs None None = fsz h fs + 3.
Proof. intros h [|f fs]; reflexivity. Qed.
Lemma pass_rank_offs : forall h f fs os, pass_rank h (f :: fs) (Some os) None = osz h os + 1 + fsz h fs + 3.
Proof. intros h f fs [|o os]; reflexivity. Qed.

(** the memory only loses entries *)
Definition shrunk (h' h : heap) : Prop :=
  (forall f, exists g, f_offs (h_f h' f) = filter g (f_offs (h_f h f))) /\ (forall o, lk h' o <= lk h o).
Lemma filter_yes : forall (l : list Z), filter (fun _ => true) l = l.
Proof. induction l; simpl; congruence. Qed.
Lemma shrunk_refl : forall h, shrunk h h.
Proof. intro h. split; auto. intro f. exists (fun _ => true). symmetry. apply filter_yes. Qed.
Lemma osz_filter : forall h g os, osz h (filter g os) <= osz h os.
Proof. induction os as [|o os IH]; simpl; auto. destruct (g o); simpl; lia. Qed.
Lemma osz_shrunk : forall h' h os, shrunk h' h -> osz h' os <= osz h os.
Proof. intros h' h os [_ L]. induction os as [|o os IH]; simpl; auto. specialize (L o). lia. Qed.
Lemma fsz_shrunk : forall h' h fs, shrunk h' h -> fsz h' fs <= fsz h fs.
Proof.
  intros h' h fs S. induction fs as [|f fs IH]; simpl; auto. destruct (proj1 S f) as [g ->].
  pose proof (osz_shrunk h' h (filter g (f_offs (h_f h f))) S). pose proof (osz_filter h g (f_offs (h_f h f))). lia.
Qed.

Lemma del_len : forall x l, length (del x l) <= length l.
Proof. intros x l. unfold del. induction l as [|y l IH]; simpl; auto. destruct (negb (y =? x)%Z); simpl; lia. Qed.
Lemma lk_len : forall h o, lk h o = length (o_rd (h_o h o)) + length (o_wr (h_o h o)).
Proof. intros. unfold lk, off_lockers. rewrite app_length, !map_length. reflexivity. Qed.

Lemma shrunk_drop_locker : forall h o k l, shrunk (drop_locker h o k l) h.
Proof.
  intros h o k l. split.
  - intro f. exists (fun _ => true). rewrite filter_yes. reflexivity.
  - intro o'. rewrite !lk_len. unfold drop_locker, set_lfree, set_o. cbn [h_o].
    destruct (upd_cases _ (h_o h) o (o_set_list (h_o h o) k (del l (o_list (h_o h o) k))) o') as [[-> ->]|[_ ->]]; auto.
    destruct k; cbn [o_set_list o_list o_rd o_wr]; pose proof (del_len l (o_rd (h_o h o))); pose proof (del_len l (o_wr (h_o h o))); lia.
Qed.
Lemma shrunk_val : forall h o v, shrunk (set_o h o (o_set_val (h_o h o) v)) h.
Proof.
  intros h o v. split.
  - intro f. exists (fun _ => true). rewrite filter_yes. reflexivity.
  - intro o'. rewrite !lk_len. unfold set_o. cbn [h_o].
    destruct (upd_cases _ (h_o h) o (o_set_val (h_o h o) v) o') as [[-> ->]|[_ ->]]; auto.
Qed.
Lemma shrunk_trans : forall h1 h2 h3, shrunk h1 h2 -> shrunk h2 h3 -> shrunk h1 h3.
Proof.
  intros h1 h2 h3 [A1 B1] [A2 B2]. split.
  - intro f. destruct (A1 f) as [g1 E1]. destruct (A2 f) as [g2 E2]. exists (fun x => g2 x && g1 x). rewrite E1, E2. clear.
    induction (f_offs (h_f h3 f)) as [|x l IH]; simpl; auto. destruct (g2 x); simpl; [destruct (g1 x)|]; congruence.
  - intro o. specialize (B1 o). specialize (B2 o). lia.
Qed.
Lemma shrunk_check : forall s priv exc dev o k l, shrunk (check_locker s priv exc dev o k l) (r_h s).
Proof.
  intros s priv exc dev o k l. unfold check_locker. destruct (match exc with Some (t, fd) => _ | None => false end); [apply shrunk_refl|].
  destruct (_ && _); [|apply shrunk_refl]. destruct (l_locked _); [|apply (shrunk_drop_locker (r_h s) o k l)].
  eapply shrunk_trans; [apply shrunk_drop_locker | apply shrunk_val].
Qed.
Lemma shrunk_drop_off : forall h f o, shrunk (drop_off h f o) h.
Proof.
  intros h f o. split.
  - intro f'. unfold drop_off, set_ofree, set_f. cbn [h_f].
    destruct (upd_cases _ (h_f h) f (f_set_offs (h_f h f) (del o (f_offs (h_f h f)))) f') as [[-> ->]|[_ ->]].
    + exists (fun y => negb (y =? o)%Z). reflexivity.
    + exists (fun _ => true). symmetry. apply filter_yes.
  - intro o'. auto.
Qed.
Lemma shrunk_drop_file : forall h f, shrunk (drop_file h f) h.
Proof. intros h f. split; auto. intro f'. exists (fun _ => true). rewrite filter_yes. reflexivity. Qed.

(** ** The measure of a call *)
Fixpoint rank (h : heap) (p : rpc) : nat :=
  match p with
  | RIdle => 0
  | RRet _ | AS _ _ _ _ => 1
  | RWait p | RDrop p => S (rank h p)
  | F3 _ _ | Q2 _ | B6 _ _ => 3
  | F2 _ _ _ => 6
  | F1 _ _ _ _ => 9
  | AT _ _ _ _ => 11
  | A4 _ _ _ => 13 | A3 _ _ => 14 | A2 _ => 15
  | B5 _ _ _ => 4 | B4 _ _ _ _ _ => 5 | B3 _ _ _ _ _ => 6 | B2 _ => 7
  | P0 _ => fsz h (h_flist h) + 4
  | PP _ fs os ls => pass_rank h fs os ls
  | AD0 _ _ _ _ | AD _ _ _ _ _ => 0
  end.

(** points of calls that do not wait for a lock; [tm]: timeouts count as expired *)
Section Quick.
Variable tm : bool.
Definition quickw (w : waitmode) : Prop := match w with WTry => True | WTimed => tm = true | WBlock => False end.
Definition okb (b : bool) : Prop := tm = true -> b = true.
Fixpoint quick (p : rpc) : Prop :=
  match p with
  | A2 a | A3 a _ | A4 a _ _ | AT a _ _ _ => quickw (a_wait a)
  | AD0 _ _ _ _ | AD _ _ _ _ _ => False
  | RWait p | RDrop p => quick p
  | _ => True
  end.

Lemma quick_run : forall s t race gu, okb gu -> quick (r_pc s t) -> quick (r_pc (r_run s t race gu) t).
Proof.
  intros s t race gu O Q. unfold r_run, pass_step, after_f1, after_f2. destruct (r_pc s t) eqn:Ep; simpl in Q;
    repeat match goal with |- context [match ?x with _ => _ end] => destruct x eqn:? end; simpl; rewrite ?upd_eq, ?Ep; simpl; auto.
  all: try (match goal with E : a_wait _ = _ |- _ => rewrite E; exact Q end).
  contradiction.
Qed.

Lemma rank_run : forall s t race gu, okb gu -> shape (r_pc s t) -> quick (r_pc s t) -> r_pc s t <> RIdle ->
  match r_guard s with Some u => alive s u = false | None => True end \/ (forall p, r_pc s t <> RWait p) ->
  rank (r_h (r_run s t race gu)) (r_pc (r_run s t race gu) t) < rank (r_h s) (r_pc s t).
Proof.
  intros s t race gu O SH Q NI AV. unfold r_run, after_f1, after_f2. generalize (my_free_fd s t) (my_free_off s t). intros ffd foff.
  destruct (r_pc s t) as [ |p|p|e0|a|a f|a f o|a f o l|a f o l|a f o l|a f o l ls|a f o e0|a f e0|a e0|a|a f o k l|a f o k l|a f o|a f|a|priv|priv fs os ls] eqn:Ep;
    simpl in Q, SH; try congruence; try contradiction.
  - assert (A : match r_guard s with Some u => alive s u = false | None => True end) by (destruct AV as [A|A]; auto; exfalso; eapply A; reflexivity).
    assert (E : forall g, rank (r_h (goto (set_guard s g) t p)) (r_pc (goto (set_guard s g) t p) t) < rank (r_h s) (RWait p)).
    { intro g. simpl. rewrite upd_eq. lia. }
    destruct (r_guard s); [rewrite A|]; apply E.
  - simpl. rewrite upd_eq. lia.
  - simpl. rewrite upd_eq. simpl. lia.
  - destruct (find_file _ _); [|destruct (h_ffree _)]; simpl; rewrite !upd_eq; simpl; lia.
  - destruct (find_off _ _ _ _); [|destruct (h_ofree _)]; simpl; rewrite !upd_eq; try destruct ffd; simpl; lia.
  - destruct (h_lfree _); simpl; rewrite !upd_eq; try destruct ffd; try destruct foff; simpl; lia.
  - destruct (_ && _); [simpl; rewrite !upd_eq; simpl; lia|]. destruct (a_wait a); simpl in Q; try contradiction; [|rewrite (O Q)]; simpl; rewrite !upd_eq; simpl; lia.
  - simpl. rewrite upd_eq. simpl. lia.
  - destruct (find_locker _ _ _ _ _); simpl; rewrite !upd_eq; try destruct ffd; try destruct foff; simpl; lia.
  - destruct (find_off _ _ _ _); [destruct (off_locked _ _)|]; simpl; rewrite !upd_eq; try destruct ffd; simpl; lia.
  - destruct (find_file _ _); [destruct (file_locked _ _)|]; simpl; rewrite !upd_eq; simpl; lia.
  - destruct (find_file _ _); [destruct (find_off _ _ _ _); [destruct (find_locker _ _ _ _ _); [|destruct (find_locker _ _ _ _ _)]|]|]; simpl; rewrite !upd_eq; simpl; lia.
  - simpl. rewrite upd_eq. simpl. lia.
  - simpl. rewrite upd_eq. simpl. lia.
  - destruct (_ && _); simpl; rewrite !upd_eq; simpl; lia.
  - destruct (_ && _); simpl; rewrite !upd_eq; simpl; lia.
  - destruct (find_file _ _); simpl; rewrite !upd_eq; simpl; lia.
  - simpl. rewrite upd_eq. cbn [rank]. rewrite pass_rank_files. lia.
  - unfold pass_step. destruct fs as [|f fs]; [simpl; rewrite !upd_eq; simpl; lia|].
    destruct os as [[|o os]|].
    + destruct (file_locked (r_h s) f); cbn [r_pc r_h goto set_h]; rewrite upd_eq; cbn [rank]; rewrite pass_rank_files; cbn [pass_rank osz]; [lia|].
      pose proof (fsz_shrunk _ _ fs (shrunk_drop_file (r_h s) f)). lia.
    + destruct ls as [[|[k l] ls]|].
      * destruct (off_locked (r_h s) o); cbn [r_pc r_h goto set_h]; rewrite upd_eq; cbn [rank]; rewrite pass_rank_offs; cbn [pass_rank length]; [lia|].
        pose proof (fsz_shrunk _ _ fs (shrunk_drop_off (r_h s) f o)). pose proof (osz_shrunk _ _ os (shrunk_drop_off (r_h s) f o)). lia.
      * cbn [r_pc r_h goto set_h]. rewrite upd_eq. cbn [rank pass_rank length].
        pose proof (fsz_shrunk _ _ fs (shrunk_check s priv None (f_dev (h_f (r_h s) f)) o k l)).
        pose proof (osz_shrunk _ _ os (shrunk_check s priv None (f_dev (h_f (r_h s) f)) o k l)). lia.
      * cbn [r_pc r_h goto set_h]. rewrite upd_eq. cbn [rank pass_rank osz]. unfold lk. lia.
    + cbn [r_pc r_h goto set_h]. rewrite upd_eq. cbn [rank]. rewrite pass_rank_offs. cbn [pass_rank]. lia.
Qed.

(** only a return makes a thread idle *)
Lemma idle_returned : forall s t race gu, r_pc s t <> RIdle -> shape (r_pc s t) -> r_pc (r_run s t race gu) t = RIdle -> exists e, r_res (r_run s t race gu) t = Some e.
Proof.
  intros s t race gu NI SH. unfold r_run, pass_step, after_f1, after_f2. destruct (r_pc s t) eqn:Ep; simpl in SH;
    repeat match goal with |- context [match ?x with _ => _ end] => destruct x eqn:? end; simpl; rewrite ?upd_eq, ?Ep; try congruence; eauto;
    intro E; rewrite E in SH; contradiction.
Qed.

Lemma runs_out : forall n s t cs, GI s -> alive s t = true -> rest_idle s t -> quick (r_pc s t) -> r_pc s t <> RIdle ->
  rank (r_h s) (r_pc s t) <= n -> n <= length cs -> Forall okb cs ->
  r_pc (r_alone s t cs) t = RIdle /\ exists e, r_res (r_alone s t cs) t = Some e.
Proof.
  induction n as [|n IH]; intros s t cs GI0 AL OI Q NI R L F.
  - exfalso. destruct (r_pc s t); simpl in *; try lia; try contradiction; try congruence.
    destruct fs as [|f fs]; [simpl in R; lia|]. destruct os as [[|o os]|]; [|destruct ls|]; simpl in R; lia.
  - destruct cs as [|b cs]; [simpl in L; lia|]. unfold r_alone in *. cbn [fold_left].
    pose proof (Forall_inv F) as OB. pose proof (Forall_inv_tail F) as F'.
    assert (SH := gi_shape _ GI0 t AL).
    assert (AV : match r_guard s with Some u => alive s u = false | None => True end \/ (forall p, r_pc s t <> RWait p)).
    { destruct (r_guard s) as [u|] eqn:EG; auto. destruct (alive s u) eqn:AU; auto. right. intros p E.
      pose proof (gi_in _ GI0 u EG AU) as C. destruct (Z.eq_dec u t) as [->|N]; [rewrite E in C|rewrite (OI u N AU) in C]; discriminate. }
    pose proof (rank_run s t false b OB SH Q NI AV) as RK.
    pose proof (quick_run s t false b OB Q) as QR.
    pose proof (idle_returned s t false b NI SH) as IR.
    destruct (run_env s t false b) as (E1 & E2 & _).
    assert (AE : forall u, alive (r_run s t false b) u = alive s u) by (intro u; unfold alive; rewrite E1, E2; reflexivity).
    assert (D : r_pc (r_run s t false b) t = RIdle \/ r_pc (r_run s t false b) t <> RIdle) by (destruct (r_pc (r_run s t false b) t); auto; right; discriminate).
    destruct D as [D|D].
    + assert (E : fold_left (fun s gu => r_run s t false gu) cs (r_run s t false b) = r_run s t false b).
      { clear -D. induction cs as [|c cs IH]; auto. cbn [fold_left]. replace (r_run (r_run s t false b) t false c) with (r_run s t false b); auto.
        unfold r_run at 2. rewrite D. reflexivity. }
      rewrite E. auto.
    + apply IH; auto.
      * apply GI_run; auto.
      * rewrite AE. auto.
      * intros u N A. rewrite AE in A. rewrite (proj1 (run_other _ _ _ _ _ N)). auto.
      * lia.
      * simpl in L. lia.
Qed.
End Quick.
