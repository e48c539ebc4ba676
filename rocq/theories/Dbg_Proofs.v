(** Proofs about debug messages. *)
From Verif Require Import Base Path_Model Config_Model Dbg_Model Dbg_Spec.
From Coq Require Import ZArith List Bool Ascii String Lia.
Import ListNotations.
Open Scope Z_scope.

Lemma shows : forall m l, a_mode m -> a_mode l -> (Z.land m l =? l) = (l <=? m).
Proof.
  intros m l [->|[->|[->| ->]]] [->|[->|[->| ->]]]; reflexivity.
Qed.

Lemma casecmp_spec : forall a b, strcasecmp_eq a b = true <-> same_word a b.
Proof.
  unfold same_word. change small with lower. induction a as [|x a IH]; destruct b as [|y b]; cbn; split; auto; try (intro X; discriminate X).
  - rewrite andb_true_iff, Z.eqb_eq, IH. intros [-> ->]. reflexivity.
  - intro X. injection X as X Y. rewrite andb_true_iff, Z.eqb_eq, IH. auto.
Qed.

Section Calls.
Variable ans : nat -> bool.

(** the invariant *)
Definition Inv (s : dst) : Prop :=
  nearly (t_log s) /\
  (forall f, usable (t_log s) f <-> t_fp s = Some f) /\
  (forall f p, In (EOpen f p) (t_log s) -> f < t_next s) /\
  (forall f ok, In (EClose f ok) (t_log s) -> f < t_next s) /\
  (t_built s = false -> t_fp s = None).

Lemma usable_print : forall log to lv f, usable (EPrint to lv :: log) f <-> usable log f.
Proof.
  intros. unfold usable. split; intros [(p & P) N]; (split; [exists p|]); cbn in *.
  - destruct P as [P|P]; [discriminate P|auto].
  - intros ok X. apply (N ok). auto.
  - auto.
  - intros ok [X|X]; [discriminate X|]. exact (N ok X).
Qed.

Lemma inv_print : forall s lv, Inv s -> Inv (FLCKPRINT s lv).
Proof.
  intros s lv H. unfold FLCKPRINT. destruct (Z.land (t_mode s) lv =? lv); [|exact H].
  destruct H as (H1 & H2 & H3 & H4 & H5).
  unfold Inv, emit. cbn [t_log t_fp t_next t_built]. split; [|split; [|split; [|split]]]; auto.
  - cbn. destruct (t_fp s) as [f|] eqn:F; auto. split; auto. left. now apply H2.
  - intro f. rewrite usable_print. apply H2.
  - intros f p [X|X]; [discriminate X|eauto].
  - intros f ok [X|X]; [discriminate X|eauto].
Qed.

Lemma inv_mode : forall s m, Inv s -> Inv (snd (SetMode s m)).
Proof. intros s m H. exact H. Qed.

Lemma inv_closed : forall s f ok, Inv s -> t_fp s = Some f ->
  nearly (EClose f ok :: t_log s) /\ (forall g, ~ usable (EClose f ok :: t_log s) g) /\
  (forall g p, In (EOpen g p) (EClose f ok :: t_log s) -> g < t_next s) /\
  (forall g k, In (EClose g k) (EClose f ok :: t_log s) -> g < t_next s).
Proof.
  intros s f ok (H1 & H2 & H3 & H4 & H5) F. assert (U : usable (t_log s) f) by now apply H2.
  split; [cbn; auto|]. split; [|split].
  - intros g [(p & P) N]. cbn in P. destruct P as [P|P]; [discriminate P|].
    assert (g <> f) by (intros ->; apply (N ok); cbn; auto).
    assert (X : usable (t_log s) g) by (split; eauto; intros k K; apply (N k); cbn; auto).
    apply H2 in X. congruence.
  - intros g p [X|X]; [discriminate X|eauto].
  - intros g k [X|X]; [|eauto]. injection X as <- <-. destruct U as [(p & P) _]. eauto.
Qed.

Lemma inv_unset : forall s r s', Inv s -> UnsetFile ans s = (r, s') -> Inv s' /\ t_fp s' = None /\ t_mode s' = t_mode s /\ t_built s' = t_built s.
Proof.
  intros s r s' H E. unfold UnsetFile in E. destruct (t_fp s) as [f|] eqn:F.
  - destruct (inv_closed s f (ans (t_no s)) H F) as (K1 & K2 & K3 & K4). destruct (ans (t_no s)) eqn:A.
    + injection E as <- <-. split; [|auto]. unfold Inv, set_fp, emit, asked. cbn [t_log t_fp t_next t_built].
      split; auto. split; [|split; [|split]]; auto. intro g. split; intro X; [destruct (K2 g X)|discriminate X].
    + unfold FLCKPRINT in E. cbn [emit asked t_mode] in E.
      destruct (Z.land (t_mode s) ERR =? ERR); injection E as <- <-; (split; [|auto]); unfold Inv, set_fp, emit, asked;
        cbn [t_log t_fp t_next t_built].
      * rewrite F. split; [|split; [|split; [|split]]]; auto.
        -- split; [|exact K1]. right. split; [reflexivity|eauto].
        -- intro g. rewrite usable_print. split; intro X; [destruct (K2 g X)|discriminate X].
        -- intros g p [X|X]; [discriminate X|eauto].
        -- intros g k [X|X]; [discriminate X|eauto].
      * split; auto. split; [|split; [|split]]; auto. intro g. split; intro X; [destruct (K2 g X)|discriminate X].
  - injection E as <- <-. auto.
Qed.

Lemma inv_open : forall s f p, Inv s -> t_fp s = None -> t_built s = true -> f = t_next s ->
  Inv (DSt (t_mode s) (Some f) (t_built s) (S (t_no s)) (f + 1) (EOpen f p :: t_log s)).
Proof.
  intros s f p (H1 & H2 & H3 & H4 & H5) N B ->. unfold Inv. cbn [t_log t_fp t_next t_built]. split; auto. split; [|split; [|split]].
  - intro g. split.
    + intros [(q & Q) C]. destruct Q as [Q|Q]; [congruence|].
      assert (X : usable (t_log s) g) by (split; eauto; intros k K; apply (C k); cbn; auto). apply H2 in X. congruence.
    + intro X. injection X as <-. split; [exists p; cbn; auto|]. intros k [X|X]; [discriminate X|]. specialize (H4 _ _ X). lia.
  - intros g q [X|X]; [injection X as <- <-; lia|]. specialize (H3 _ _ X). lia.
  - intros g k [X|X]; [discriminate X|]. specialize (H4 _ _ X). lia.
  - rewrite B. intro X. discriminate X.
Qed.

Lemma print_same : forall s lv, t_fp (FLCKPRINT s lv) = t_fp s /\ t_mode (FLCKPRINT s lv) = t_mode s /\ t_built (FLCKPRINT s lv) = t_built s /\
  t_no (FLCKPRINT s lv) = t_no s.
Proof. intros. unfold FLCKPRINT. destruct (Z.land (t_mode s) lv =? lv); auto. Qed.

(** where messages go after a change of the file *)
Definition file_post (path : option text) (s : dst) (r : bool) (s' : dst) : Prop :=
  t_mode s' = t_mode s /\
  (r = true -> exists f p log, path = Some p /\ t_fp s' = Some f /\ t_log s' = EOpen f p :: log) /\
  (r = false -> t_fp s' = None \/ (path = None \/ path = Some []) /\ t_fp s' = t_fp s).

Lemma setfile_spec : forall s path r s', Inv s -> t_built s = true -> SetFile ans s path = (r, s') ->
  Inv s' /\ t_built s' = true /\ file_post path s r s'.
Proof.
  intros s path r s' H B E. unfold SetFile in E. unfold file_post.
  destruct path as [[|c p]|].
  - injection E as <- <-. destruct (print_same s ERR) as (F1 & F2 & F3 & _).
    split; [now apply inv_print|]. split; [congruence|]. split; auto. split; [intro X; discriminate X|auto].
  - destruct (UnsetFile ans s) as [ok s1] eqn:U. destruct (inv_unset _ _ _ H U) as (I1 & N1 & M1 & B1). rewrite B in B1. destruct ok.
    + destruct (ans (t_no s1)).
      * injection E as <- <-. split; [apply (inv_open s1 (t_next s1) (c :: p)); auto|]. split; [auto|].
        split; [auto|]. split; [|intro X; discriminate X]. intros _. cbn. eauto 6.
      * injection E as <- <-. destruct (print_same (asked s1) ERR) as (F1 & F2 & F3 & _).
        split; [apply inv_print; exact I1|]. split; [rewrite F3; auto|]. split; [rewrite F2; auto|].
        split; [intro X; discriminate X|]. intros _. left. rewrite F1. auto.
    + injection E as <- <-. split; auto. split; auto. split; auto. split; [intro X; discriminate X|auto].
  - injection E as <- <-. destruct (print_same s ERR) as (F1 & F2 & F3 & _).
    split; [now apply inv_print|]. split; [congruence|]. split; auto. split; [intro X; discriminate X|auto].
Qed.

Lemma loadname_spec : forall e s r s', Inv s -> LoadEnvName e s = (r, s') ->
  Inv s' /\ t_built s' = t_built s /\ t_fp s' = t_fp s /\
  (exists l, adds s s' l /\ only_prints l) /\
  match d_mode e with
  | None => r = true /\ t_mode s' = t_mode s
  | Some v => (r = true /\ mode_word v (t_mode s')) \/ (r = false /\ t_mode s' = t_mode s /\ forall m, ~ mode_word v m)
  end.
Proof.
  intros e s r s' H E. unfold LoadEnvName in E. destruct (print_same s MSG) as (F1 & F2 & F3 & _).
  assert (PR : exists l, adds s (FLCKPRINT s MSG) l /\ only_prints l).
  { unfold FLCKPRINT, adds. destruct (Z.land (t_mode s) MSG =? MSG).
    - exists [EPrint (t_fp s) MSG]. split; auto. intros x [<-|[]]. eauto.
    - exists []. split; auto. intros x []. }
  assert (ST : exists l, adds s s l /\ only_prints l) by (exists []; split; [reflexivity|intros x []]).
  destruct (d_mode e) as [v|].
  - assert (W : forall w w', same_word v (tx w) <-> same_word v (tx w') -> True) by auto. clear W.
    assert (S1 : same_word v (tx "SILENT") <-> same_word v (tx "silent")) by (unfold same_word; cbn; tauto).
    assert (S2 : same_word v (tx "ERR") <-> same_word v (tx "err")) by (unfold same_word; cbn; tauto).
    assert (S3 : same_word v (tx "WAN") <-> same_word v (tx "wan")) by (unfold same_word; cbn; tauto).
    assert (S4 : same_word v (tx "INFO") <-> same_word v (tx "info")) by (unfold same_word; cbn; tauto).
    unfold mode_word.
    destruct (strcasecmp_eq v (tx "SILENT")) eqn:C1; [apply casecmp_spec in C1; injection E as <- <-; cbn; tauto|].
    destruct (strcasecmp_eq v (tx "ERR")) eqn:C2; [apply casecmp_spec in C2; injection E as <- <-; cbn; tauto|].
    destruct (strcasecmp_eq v (tx "WAN")) eqn:C3; [apply casecmp_spec in C3; injection E as <- <-; cbn; tauto|].
    destruct (strcasecmp_eq v (tx "INFO")) eqn:C4; [apply casecmp_spec in C4; injection E as <- <-; cbn; tauto|].
    injection E as <- <-. split; [now apply inv_print|]. split; [congruence|]. split; [congruence|]. split; auto.
    right. split; auto. split; auto. intro m.
    apply not_true_iff_false in C1, C2, C3, C4. rewrite casecmp_spec in C1, C2, C3, C4. tauto.
  - injection E as <- <-. split; [now apply inv_print|]. split; [congruence|]. split; [congruence|]. split; auto.
Qed.

Lemma loadfile_spec : forall e s r s', Inv s -> t_built s = true -> LoadEnvFile ans e s = (r, s') ->
  Inv s' /\ t_built s' = true /\ t_mode s' = t_mode s /\
  match d_file e with
  | None => r = true /\ t_fp s' = t_fp s
  | Some v => (r = true -> exists f log, t_fp s' = Some f /\ t_log s' = EOpen f v :: log) /\
              (r = false -> t_fp s' = None \/ v = [] /\ t_fp s' = t_fp s)
  end.
Proof.
  intros e s r s' H B E. unfold LoadEnvFile in E. destruct (d_file e) as [v|].
  - destruct (SetFile ans s (Some v)) as [ok s1] eqn:S.
    destruct (setfile_spec _ _ _ _ H B S) as (I1 & B1 & M1 & T1 & F1). destruct ok; injection E as <- <-.
    + split; auto. split; auto. split; auto. split; [|intro X; discriminate X]. intros _.
      destruct (T1 eq_refl) as (f & p & log & P & X & Y). injection P as <-. eauto.
    + destruct (print_same s1 MSG) as (G1 & G2 & G3 & _). split; [now apply inv_print|]. split; [congruence|]. split; [congruence|].
      split; [intro X; discriminate X|]. intros _. rewrite G1. destruct (F1 eq_refl) as [X|[[X|X] Y]]; [auto|discriminate X|]. right. injection X as ->. auto.
  - injection E as <- <-. destruct (print_same s MSG) as (G1 & G2 & G3 & _). split; [now apply inv_print|].
    split; [congruence|]. split; [congruence|]. auto.
Qed.

Lemma inv_load : forall e s r s', Inv s -> t_built s = true -> LoadEnv ans e s = (r, s') -> Inv s' /\ t_built s' = true.
Proof.
  intros e s r s' H B E. unfold LoadEnv in E. destruct (LoadEnvName e s) as [ok s1] eqn:L.
  destruct (loadname_spec _ _ _ _ H L) as (I1 & B1 & _). rewrite B in B1. destruct ok.
  - destruct (loadfile_spec _ _ _ _ I1 B1 E) as (I2 & B2 & _). auto.
  - injection E as <- <-. auto.
Qed.

Lemma inv_singleton : forall e s, Inv s -> Inv (Singleton ans e s) /\ t_built (Singleton ans e s) = true.
Proof.
  intros e s H. unfold Singleton. destruct (t_built s) eqn:B; auto.
  destruct (LoadEnv ans e (DSt SILENT None true (t_no s) (t_next s) (t_log s))) as [r s'] eqn:L.
  cbn [snd]. eapply inv_load; [| |exact L]; [|reflexivity].
  destruct H as (H1 & H2 & H3 & H4 & H5). specialize (H5 B). unfold Inv. cbn [t_log t_fp t_next t_built]. rewrite H5 in H2.
  split; [exact H1|split; [exact H2|split; [exact H3|split; [exact H4|auto]]]].
Qed.

Lemma inv_step : forall e c s r s', Inv s -> dstep ans e c s = (r, s') -> Inv s'.
Proof.
  intros e c s r s' H E. destruct (inv_singleton e s H) as [I B]. destruct c; cbn [dstep] in E.
  - injection E as <- <-. now apply inv_mode.
  - injection E as <- <-. now apply inv_mode.
  - injection E as <- <-. auto.
  - destruct (LoadEnv ans e (Singleton ans e s)) as [b s1] eqn:L. injection E as <- <-. eapply inv_load; eauto.
  - destruct (SetFile ans (Singleton ans e s) path) as [b s1] eqn:L. injection E as <- <-.
    now destruct (setfile_spec _ _ _ _ I B L).
  - destruct (UnsetFile ans (Singleton ans e s)) as [b s1] eqn:L. injection E as <- <-.
    now destruct (inv_unset _ _ _ I L).
  - injection E as <- <-. now apply inv_print.
  - injection E as <- <-. destruct (t_built s); auto. destruct (UnsetFile ans s) as [b s1] eqn:L. cbn [snd].
    now destruct (inv_unset _ _ _ H L).
Qed.

Lemma inv0 : Inv dst0.
Proof.
  unfold Inv, dst0. cbn. split; auto. split; [|split; [|split; auto]].
  - intro f. split; [|intro X; discriminate X]. intros [(p & []) _].
  - intros f p [].
  - intros f ok [].
Qed.

Lemma inv_run : forall l s, Inv s -> Inv (drun ans l s).
Proof.
  induction l as [|[e c] l IH]; intros s H; auto. cbn [drun]. apply IH.
  destruct (dstep ans e c s) as [r s'] eqn:E. cbn [snd]. eapply inv_step; eauto.
Qed.

(** the mode *)
Lemma mode_load : forall e s r s', a_mode (t_mode s) -> LoadEnv ans e s = (r, s') -> a_mode (t_mode s').
Proof.
  intros e s r s' H E. unfold LoadEnv, LoadEnvName in E.
  assert (PR : forall s lv, t_mode (FLCKPRINT s lv) = t_mode s) by (intros; apply print_same).
  assert (UN : forall s b s', UnsetFile ans s = (b, s') -> t_mode s' = t_mode s).
  { intros x b y X. unfold UnsetFile in X. destruct (t_fp x); [|congruence]. destruct (ans (t_no x)); injection X as <- <-; auto.
    cbn [set_fp t_mode]. rewrite PR. auto. }
  assert (SF : forall s p b s', SetFile ans s p = (b, s') -> t_mode s' = t_mode s).
  { intros x p b y X. unfold SetFile in X. destruct p as [[|c p]|]; try (injection X as <- <-; apply PR).
    destruct (UnsetFile ans x) as [k z] eqn:U. apply UN in U. destruct k; [|congruence].
    destruct (ans (t_no z)); injection X as <- <-; cbn [t_mode asked]; auto. rewrite PR. auto. }
  assert (LF : forall s b s', LoadEnvFile ans e s = (b, s') -> t_mode s' = t_mode s).
  { intros x b y X. unfold LoadEnvFile in X. destruct (d_file e); [|injection X as <- <-; apply PR].
    destruct (SetFile ans x (Some t)) as [k z] eqn:S. apply SF in S. destruct k; injection X as <- <-; rewrite ?PR; auto. }
  unfold a_mode in *. destruct (d_mode e) as [v|].
  - destruct (strcasecmp_eq v (tx "SILENT")); [apply LF in E; rewrite E; cbn; auto|].
    destruct (strcasecmp_eq v (tx "ERR")); [apply LF in E; rewrite E; cbn; auto|].
    destruct (strcasecmp_eq v (tx "WAN")); [apply LF in E; rewrite E; cbn; auto|].
    destruct (strcasecmp_eq v (tx "INFO")); [apply LF in E; rewrite E; cbn; auto|].
    injection E as <- <-. now rewrite PR.
  - apply LF in E. now rewrite E, PR.
Qed.

Lemma mode_single : forall e s, a_mode (t_mode s) -> a_mode (t_mode (Singleton ans e s)).
Proof.
  intros e s H. unfold Singleton. destruct (t_built s); auto.
  destruct (LoadEnv ans e (DSt SILENT None true (t_no s) (t_next s) (t_log s))) as [r s'] eqn:L. cbn [snd].
  eapply mode_load; [|exact L]. unfold a_mode, SILENT. cbn. auto.
Qed.

Lemma mode_run : forall l s, Inv s -> a_mode (t_mode s) -> set_modes_ok l -> a_mode (t_mode (drun ans l s)).
Proof.
  induction l as [|[e c] l IH]; intros s I H K; auto. cbn [drun].
  assert (K' : set_modes_ok l) by (intros e' m X; apply (K e' m); cbn; auto).
  destruct (dstep ans e c s) as [r s'] eqn:E. cbn [snd]. pose proof (inv_step _ _ _ _ _ I E) as I'. apply IH; auto. clear IH.
  pose proof (mode_single e s H) as S. destruct (inv_singleton e s I) as [IS B]. destruct c; cbn [dstep] in E.
  - injection E as <- <-. cbn. apply (K e m). cbn. auto.
  - injection E as <- <-. cbn. unfold a_mode, SILENT, ERR, WARN, MSG in *.
    destruct S as [->|[->|[->| ->]]]; cbn; auto.
  - injection E as <- <-. auto.
  - destruct (LoadEnv ans e (Singleton ans e s)) as [b s1] eqn:L. injection E as <- <-. eapply mode_load; eauto.
  - destruct (SetFile ans (Singleton ans e s) path) as [b s1] eqn:L. injection E as <- <-.
    destruct (setfile_spec _ _ _ _ IS B L) as (_ & _ & M & _). now rewrite M.
  - destruct (UnsetFile ans (Singleton ans e s)) as [b s1] eqn:L. injection E as <- <-.
    destruct (inv_unset _ _ _ IS L) as (_ & _ & M & _). now rewrite M.
  - injection E as <- <-. destruct (print_same s level) as (_ & M & _). now rewrite M.
  - injection E as <- <-. destruct (t_built s); auto. destruct (UnsetFile ans s) as [b s1] eqn:L. cbn [snd].
    destruct (inv_unset _ _ _ I L) as (_ & _ & M & _). now rewrite M.
Qed.
End Calls.

Lemma nearly_orderly : forall log, nearly log -> (forall f, ~ In (EClose f false) log) -> orderly log.
Proof.
  induction log as [|x log IH]; intros N C; cbn in *; auto.
  assert (C' : forall f, ~ In (EClose f false) log) by (intros f X; apply (C f); auto).
  destruct x as [f p|f ok|[f|] lv]; auto.
  - destruct N; auto.
  - destruct N as [[U|(_ & r' & ->)] N]; auto. exfalso. apply (C' f). cbn. auto.
Qed.
