From Verif Require Import Base Thread_Model Thread_Spec.
From Coq Require Import ZArith List Bool Lia.
Import ListNotations.
Open Scope Z_scope.

(** ** The flag is one of the four values *)
Definition four (v : Z) : Prop := v = RUN \/ v = STOP \/ v = EXIT \/ v = FIN.

Definition pc_four (p : cpc) : Prop :=
  match p with CCas _ o n => four o /\ (n = RUN \/ n = STOP) | CExit4 _ o => o < EXIT | _ => True end.

Definition inv4 (s : tstate) : Prop := four (t_flag s) /\ forall t, pc_four (t_pc s t).

Lemma fin_call_flag : forall s t k b, t_flag (fin_call s t k b) = t_flag s.
Proof. intros s t [| | |n|[|n]] b; reflexivity. Qed.

Lemma upd_four : forall f t p, (forall x, pc_four (f x)) -> pc_four p -> forall x, pc_four (upd f t p x).
Proof. intros f t p H P x. unfold upd. destruct (x =? t); auto. Qed.

Lemma four_STOP : four STOP. Proof. unfold four; auto. Qed.
Lemma four_RUN : four RUN. Proof. unfold four; auto. Qed.
Lemma four_EXIT : four EXIT. Proof. unfold four; auto. Qed.
Lemma four_FIN : four FIN. Proof. unfold four; auto. Qed.
Local Hint Resolve four_STOP four_RUN four_EXIT four_FIN upd_four : four.

Lemma inv4_fin : forall s t k b, inv4 s -> inv4 (fin_call s t k b).
Proof.
  intros s t k b [F P]. split.
  - now rewrite fin_call_flag.
  - destruct k as [| | |n|[|n]]; cbn [fin_call t_pc s_pc s_res]; apply upd_four; auto; exact I.
Qed.

Lemma inv4_pc : forall s t p, inv4 s -> pc_four p -> inv4 (s_pc s t p).
Proof. intros s t p [F P] Q. split; [exact F|]. cbn [t_pc s_pc]. now apply upd_four. Qed.

Lemma inv4_flag : forall s v, inv4 s -> four v -> inv4 (s_flag s v).
Proof. intros s v [F P] Q. split; auto. Qed.

Lemma inv4_touch : forall s, inv4 s -> inv4 (touch s).
Proof. intros s H. exact H. Qed.

Lemma inv4_step : forall s l s', inv4 s -> t_step s l = Some s' -> inv4 s'.
Proof.
  intros s l s' H E. destruct l as [t k|t f w|w f|t]; cbn [t_step] in E.
  - destruct (t_pc s t); try discriminate E. injection E as <-.
    destruct k; cbn [t_call]; apply inv4_pc; auto; exact I.
  - assert (E' : Some (t_ctl s t f w) = Some s').
    { destruct (t_pc s t); try exact E; try discriminate E. destruct (t_wk s w); try discriminate E; exact E. }
    clear E. injection E' as <-. apply inv4_touch in H as H'. unfold t_ctl.
    pose proof (proj2 H t) as Q.
    destruct (t_pc s t) as [|k|k|k|k| | |k o n|k|k|k|k o|k|k|k|k| | |n]; cbv zeta; auto.
    + destruct (t_init _); [now apply inv4_fin|apply inv4_pc; auto; exact I].
    + destruct f; now apply inv4_fin.
    + destruct (t_init _); [apply inv4_pc; auto; exact I|now apply inv4_fin].
    + destruct (_ =? STOP); [apply inv4_pc; auto; cbn; auto with four|now apply inv4_fin].
    + destruct (t_init _); [apply inv4_pc; auto; exact I|now apply inv4_fin].
    + destruct (_ =? RUN); [apply inv4_pc; auto; cbn; auto with four|now apply inv4_fin].
    + destruct Q as [Q1 Q2]. unfold cas.
      destruct (t_flag (touch s) =? o) eqn:C.
      * rewrite C. apply inv4_fin, inv4_flag; auto. destruct Q2 as [->| ->]; auto with four.
      * rewrite C. destruct (_ =? n); [now apply inv4_fin|].
        apply inv4_pc; auto. cbn. split; auto. exact (proj1 H).
    + destruct (t_init _); [apply inv4_pc; auto; exact I|now apply inv4_fin].
    + destruct (EXIT <=? _); [now apply inv4_fin|apply inv4_pc; auto; exact I].
    + destruct f; [now apply inv4_fin|apply inv4_pc; [exact H|]]. cbn. unfold EXIT, RUN. lia.
    + unfold cas. destruct (t_flag (touch s) =? o) eqn:C; rewrite C.
      * apply inv4_pc; [apply inv4_flag; auto with four|exact I].
      * destruct (Z.leb_spec EXIT (t_flag (touch s))); apply inv4_pc; auto; try exact I.
    + destruct (t_wk _ _); apply inv4_pc; auto; exact I.
    + destruct (_ =? FIN); apply inv4_pc; auto; exact I.
    + destruct (t_wk _ _); apply inv4_pc; auto; exact I.
    + now apply inv4_fin.
    + destruct (t_init _); apply inv4_pc; auto; exact I.
    + exact (inv4_fin _ t KRet true H').
    + destruct (t_bup _); [|exact (inv4_fin _ t (KRunH n) false H')].
      apply inv4_pc; [|exact I]. exact (inv4_flag _ STOP H' four_STOP).
  - assert (E' : Some (t_work s w f) = Some s') by (destruct (t_wk s w); try exact E; discriminate E).
    clear E. injection E' as <-. unfold t_work.
    destruct (_ && _); [exact H|].
    destruct (t_wk s w) as [| | | | | | | | |o| |]; cbv zeta; try exact H;
      repeat match goal with |- context [if ?b then _ else _] => destruct b end; try exact H.
    unfold cas. destruct (t_flag (touch s) =? o) eqn:C; rewrite C; [|destruct (_ =? FIN); exact H].
    exact (inv4_flag _ FIN H four_FIN).
  - destruct (t_pc s t); try discriminate E. injection E as <-. split; [exact (proj1 H)|].
    intros x. cbn [fork_t t_pc]. destruct (x =? t); [|exact I].
    destruct (t_freed s); [exact I|]. destruct (t_regs s); exact I.
Qed.

Lemma inv4_reach : forall ok n s, reach ok n s -> inv4 s.
Proof.
  intros ok n s H. induction H as [|s l s' H IH O E].
  - split; [right; left; reflexivity|]. intros t. exact I.
  - eapply inv4_step; eauto.
Qed.

(** ** Who lowers the flag *)
(** a step that takes the flag from "told" to "not told" is the end of a Run or Stop that had
    passed its test before, or the reset in a new child *)
Lemma lowering : forall s l s', t_step s l = Some s' -> inv4 s -> told s -> ~ told s' ->
  exists t f w, l = LCtl t f w /\ (switching s t \/ exists n, t_pc s t = CReset n).
Proof.
  intros s l s' E I4 T NT. unfold told in *.
  destruct l as [t k|t f w|w f|t]; cbn [t_step] in E.
  - destruct (t_pc s t); try discriminate E. injection E as <-. exfalso. apply NT. destruct k; exact T.
  - exists t, f, w. split; auto.
    assert (E' : Some (t_ctl s t f w) = Some s').
    { destruct (t_pc s t); try exact E; try discriminate E. destruct (t_wk s w); try discriminate E; exact E. }
    clear E. injection E' as <-. unfold switching.
    destruct (t_pc s t) as [|k|k|k|k| | |k o n|k|k|k|k o|k|k|k|k| | |n] eqn:P;
      try (right; eexists; reflexivity); try (left; eexists; eexists; eexists; reflexivity);
      exfalso; apply NT; unfold t_ctl; rewrite P; cbv zeta;
      repeat match goal with
      | |- context [if t_flag ?a =? ?b then _ else _] => destruct (t_flag a =? b)
      | |- context [if t_init ?a then _ else _] => destruct (t_init a)
      | |- context [if EXIT <=? ?a then _ else _] => destruct (EXIT <=? a)
      | |- context [if f then _ else _] => destruct f
      | |- context [match t_wk ?a ?b with _ => _ end] => destruct (t_wk a b)
      end; rewrite ?fin_call_flag; try exact T.
    unfold cas. destruct (t_flag (touch s) =? o) eqn:C; rewrite C.
    + cbn. lia.
    + destruct (EXIT <=? _); exact T.
  - exfalso. apply NT.
    assert (E' : Some (t_work s w f) = Some s') by (destruct (t_wk s w); try exact E; discriminate E).
    clear E. injection E' as <-. unfold t_work.
    destruct (_ && _); [exact T|].
    destruct (t_wk s w) as [| | | | | | | | |o| |]; cbv zeta; try exact T;
      repeat match goal with |- context [if ?b then _ else _] => destruct b end; try exact T.
    unfold cas. destruct (t_flag (touch s) =? o) eqn:C; rewrite C; [|destruct (_ =? FIN); exact T].
    cbn. unfold EXIT, FIN. lia.
  - destruct (t_pc s t); try discriminate E. injection E as <-. exfalso. apply NT. exact T.
Qed.

(** FIN is not turned into an exit request *)
Lemma fin_stays : forall s l s', t_step s l = Some s' -> inv4 s -> t_flag s = FIN -> told s' ->
  t_flag s' = FIN.
Proof.
  intros s l s' E I4 T NT. unfold told in *.
  destruct l as [t k|t f w|w f|t]; cbn [t_step] in E.
  - destruct (t_pc s t); try discriminate E. injection E as <-. destruct k; exact T.
  - assert (E' : Some (t_ctl s t f w) = Some s').
    { destruct (t_pc s t); try exact E; try discriminate E. destruct (t_wk s w); try discriminate E; exact E. }
    clear E. injection E' as <-. revert NT. unfold t_ctl. pose proof (proj2 I4 t) as Q.
    destruct (t_pc s t) as [|k|k|k|k| | |k o n|k|k|k|k o|k|k|k|k| | |n] eqn:P; cbv zeta;
      try (repeat match goal with
      | |- context [if t_flag ?a =? ?b then _ else _] => destruct (t_flag a =? b)
      | |- context [if t_init ?a then _ else _] => destruct (t_init a)
      | |- context [if EXIT <=? ?a then _ else _] => destruct (EXIT <=? a)
      | |- context [if f then _ else _] => destruct f
      | |- context [match t_wk ?a ?b with _ => _ end] => destruct (t_wk a b)
      end; rewrite ?fin_call_flag; intros _; exact T).
    + destruct Q as [Q1 Q2]. unfold cas. destruct (t_flag (touch s) =? o) eqn:C; rewrite C.
      * rewrite fin_call_flag. cbn [s_flag t_flag]. intros NT. exfalso.
        destruct Q2 as [->| ->]; unfold EXIT, RUN, STOP in NT; lia.
      * destruct (_ =? n); rewrite ?fin_call_flag; intros _; exact T.
    + unfold cas. destruct (Z.eqb_spec (t_flag (touch s)) o) as [C|C].
      * exfalso. change (t_flag (touch s)) with (t_flag s) in C. cbn in Q.
        unfold FIN, EXIT in *. lia.
      * destruct (Z.eqb_spec (t_flag (touch s)) o) as [C'|_]; [contradiction|].
        destruct (EXIT <=? _); intros _; exact T.
    + destruct (t_bup _); [cbn; unfold EXIT, STOP; lia|]. rewrite fin_call_flag. intros _. exact T.
  - assert (E' : Some (t_work s w f) = Some s') by (destruct (t_wk s w); try exact E; discriminate E).
    clear E. injection E' as <-. unfold t_work.
    destruct (_ && _); [exact T|].
    destruct (t_wk s w) as [| | | | | | | | |o| |]; cbv zeta; try exact T;
      repeat match goal with |- context [if ?b then _ else _] => destruct b end; try exact T.
    unfold cas. destruct (t_flag (touch s) =? o) eqn:C; rewrite C; [reflexivity|destruct (_ =? FIN); exact T].
  - destruct (t_pc s t); try discriminate E. injection E as <-. exact T.
Qed.
