(** Read/write locks on processors with store buffers: what a holder keeps. *)
From Coq Require Import ZArith List Bool Lia.
From Verif Require Import Base RwWord_Model RwApi_Model RwApi_Spec RwApi_Proofs RwApi_Proofs2 RwApi_Proofs3 RwApi_Proofs4 RwApi_Proofs5 Tso_Model Tso_Spec.
Import ListNotations.
Open Scope Z_scope.

Definition in_release (p : rpc) : Prop := match p with B2 _ | B3 _ _ _ _ _ | B4 _ _ _ _ _ | B5 _ _ _ | B6 _ _ => True | _ => False end.
Definition covers (g : grant) (x : Z * Z) : Prop := gr_dev g = fst x /\ byte_in (gr_off g) (gr_len g) (snd x).
Definition r_hw (s : rstate) (t : Z) (x : Z * Z) : Prop := ~ in_release (r_pc s t) /\ exists l g, holds s l g /\ gr_t g = t /\ covers g x /\ gr_kind g = Wr.
Definition r_hr (s : rstate) (t : Z) (x : Z * Z) : Prop := exists l g, holds s l g /\ gr_t g = t /\ covers g x.
Definition holders_present (s : rstate) : Prop := forall l g, holds s l g -> alive s (gr_t g) = true -> dev_of s (gr_t g) (gr_fd g) = Some (gr_dev g).

Lemma dev_file : forall s t fd, dev_of s t fd = file_of s t fd.
Proof. reflexivity. Qed.

Section Keep.
Variables UF UO UL : list Z.
Hypothesis UF_nd : NoDup UF.
Notation SI := (SI UF UO UL).

Lemma present_step : forall s x, SI s -> careful s x -> fds_kept s x -> holders_present s -> holders_present (r_step s x).
Proof.
  intros s x H C F P l g HL AL. pose proof (step_alive _ _ _ AL) as AL0.
  assert (D : forall t fd, (forall p fd' d, x = LSetFd p fd' d -> proc_of_thread t = p -> fd <> fd') -> dev_of (r_step s x) t fd = dev_of s t fd).
  { intros t fd N. unfold dev_of. destruct (is_no_fd fd); auto. destruct x; cbn [r_step r_fd]; auto.
    - destruct (alive s t0); auto. destruct (r_pc s t0); auto. destruct (call_env s t0 c) as (_ & _ & -> & _). reflexivity.
    - destruct (alive s t0); auto. destruct (run_env s t0 race give_up) as (_ & _ & -> & _). reflexivity.
    - specialize (N _ _ _ eq_refl). destruct (Z.eqb_spec (proc_of_thread t) p) as [E|E]; cbn; auto. destruct (Z.eqb_spec fd fd0) as [E2|E2]; auto. exfalso. apply (N E E2). }
  destruct (step_holds UF UO UL s x H) as [Q|(t & race & gu & -> & A & E)].
  - apply Q in HL. rewrite D; [apply (P l g); auto|]. intros p fd' d -> E. exact (F l g HL E).
  - rewrite D by (intros; discriminate).
    destruct E as [Q|a f o l0 Ep S _ _ Q|a f o l0 g0 Ep _ HL0 T1 _ _ _ _ _ Q|l0 g0 priv HL0 PD _ _ Q]; apply Q in HL.
    + apply (P l g); auto.
    + destruct HL as [HL|[_ ->]]; [apply (P l g); auto|]. cbn. apply (si_fd _ _ _ s H t); auto. rewrite Ep. reflexivity.
    + apply (P l g); tauto.
    + apply (P l g); tauto.
Qed.

Lemma run_release : forall s t race gu, ~ in_release (r_pc s t) -> (forall p, r_pc s t <> RWait p) -> (forall p, r_pc s t <> RDrop p) -> ~ in_release (r_pc (r_run s t race gu) t).
Proof.
  intros s t race gu N W D. unfold r_run.
  destruct (r_pc s t) as [ |p|p|e|a0|a0 f|a0 f o|a0 f o l|a0 f o l|a0 f o l|a0 f o l ls|a0 f o e|a0 f e|a0 e|a0|a0 f o k l|a0 f o k l|a0 f o|a0 f|a0|priv|priv fs os ls] eqn:Ep;
    try (exfalso; apply N; exact I); try (exfalso; eapply W; reflexivity); try (exfalso; eapply D; reflexivity);
    unfold after_f1, after_f2, pass_step;
    repeat match goal with |- context [match ?x with _ => _ end] => destruct x eqn:? end; simpl; rewrite ?upd_eq, ?Ep; simpl; auto.
Qed.
Lemma call_release : forall s t c, r_pc s t = RIdle -> ~ in_release (r_pc (r_call s t c) t).
Proof. intros s t c Ep. unfold r_call. destruct c; repeat match goal with |- context [match ?x with _ => _ end] => destruct x end; simpl; rewrite ?upd_eq, ?Ep; simpl; auto. Qed.

Lemma r_keep : forall s x t y, SI s -> holders_present s -> careful s x -> alive s t = true -> r_hw s t y ->
  r_atomic s x t \/ r_hw (r_step s x) t y \/ alive (r_step s x) t = false.
Proof.
  intros s x t y H P C AL (NR & l & g & HL & T & CV & K).
  assert (PR : present s g). { split; [congruence|]. rewrite <- dev_file. apply (P l g); auto. congruence. }
  assert (KH : (actor x = Some t -> ~ in_unlock (r_pc s t)) -> holds (r_step s x) l g). { intro NU. apply (held_kept UF UO UL s x l g); auto. rewrite T. exact NU. }
  assert (KW : (actor x = Some t -> ~ in_unlock (r_pc s t)) -> ~ in_release (r_pc (r_step s x) t) -> r_hw (r_step s x) t y).
  { intros NU NR'. split; auto. exists l, g. auto. }
  destruct (actor x) as [u|] eqn:EA; [destruct (Z.eq_dec u t) as [->|N]|].
  - destruct x as [t0 c|t0 race gu|p fd d|p m|t0|p]; simpl in EA; inversion EA; subst t0.
    + right. left. destruct (r_pc s t) eqn:Ep;
        try (replace (r_step s (LCall t c)) with s by (simpl; rewrite AL, Ep; reflexivity); split; [rewrite Ep; exact NR | exists l, g; auto]).
      apply KW; [intros _ U; exact U|]. simpl. rewrite AL, Ep. apply call_release; auto.
    + destruct (r_pc s t) as [ |p|p|e|a0|a0 f|a0 f o|a0 f o l0|a0 f o l0|a0 f o l0|a0 f o l0 ls|a0 f o e|a0 f e|a0 e|a0|a0 f o k l0|a0 f o k l0|a0 f o|a0 f|a0|priv|priv fs os ls] eqn:Ep;
        try (exfalso; apply NR; exact I); try (left; exists race, gu; split; [reflexivity | rewrite Ep; exact I]);
        (right; left; apply KW; [intros _ U; exact U|]; simpl; rewrite AL; apply run_release; rewrite Ep; auto; intros q; discriminate).
  - right. left. apply KW; [congruence|]. destruct (step_other s x t) as [-> _]; [congruence | exact NR].
  - right. left. apply KW; [congruence|]. destruct (step_other s x t) as [-> _]; [congruence | exact NR].
Qed.
End Keep.
