(** C100-C104: debug messages. *)
From Verif Require Import Base Path_Model Config_Model Dbg_Model Dbg_Spec Dbg_Proofs.
From Coq Require Import ZArith List Bool Ascii String Lia.
Import ListNotations.
Open Scope Z_scope.

(** ** C100: which messages are printed, and the cycle of modes *)
Definition C100_statement : Prop := forall ans l, set_modes_ok l ->
  let s := drun ans l dst0 in
  (forall e lv s', a_mode lv -> dstep ans e (DPrint lv) s = (RNone, s') ->
     (lv <= t_mode s -> adds s s' [EPrint (t_fp s) lv]) /\ (t_mode s < lv -> adds s s' []) /\
     t_mode s' = t_mode s /\ t_fp s' = t_fp s) /\
  a_mode (t_mode s) /\
  (forall e, t_built s = true ->
     exists m', next_mode (t_mode s) m' /\ fst (dstep ans e DBump s) = RMode (t_mode s) /\
       t_mode (snd (dstep ans e DBump s)) = m' /\ adds s (snd (dstep ans e DBump s)) []) /\
  (forall e m, t_built s = true -> fst (dstep ans e (DSet m) s) = RMode (t_mode s) /\ t_mode (snd (dstep ans e (DSet m) s)) = m).

Theorem C100_levels : C100_statement.
Proof.
  intros ans l K s. pose proof (mode_run ans l dst0 (inv0) (or_introl eq_refl) K) as M. fold s in M. split; [|split; [exact M|split]].
  - intros e lv s' L E. cbn [dstep] in E. injection E as <-. destruct (print_same s lv) as (F & G & _).
    unfold adds, FLCKPRINT in *. rewrite (shows _ _ M L) in *. destruct (Z.leb_spec lv (t_mode s)); split; auto; try lia; split; auto; lia.
  - intros e B. cbn [dstep]. unfold Singleton. rewrite B. cbn. eexists. split; [|split; [reflexivity|split; [reflexivity|reflexivity]]].
    unfold next_mode. destruct M as [->|[->|[->| ->]]]; cbn; auto.
  - intros e m B. cbn [dstep]. unfold Singleton. rewrite B. cbn. auto.
Qed.

(** ** C101: the environment *)
Definition C101_statement : Prop := forall ans l e,
  let s := drun ans l dst0 in t_built s = true ->
  let '(r, s') := LoadEnv ans e s in
  match d_mode e with
  | Some v =>
      (forall m, mode_word v m -> t_mode s' = m) /\
      ((forall m, ~ mode_word v m) -> r = false /\ t_mode s' = t_mode s /\ t_fp s' = t_fp s /\ exists k, adds s s' k /\ only_prints k)
  | None => t_mode s' = t_mode s
  end /\
  (r = true -> match d_file e with
               | Some p => exists f log, t_fp s' = Some f /\ t_log s' = EOpen f p :: log
               | None => t_fp s' = t_fp s
               end).

Lemma word_fun : forall v a b, mode_word v a -> mode_word v b -> a = b.
Proof.
  unfold mode_word, same_word. intros v a b [[A ->]|[[A ->]|[[A ->]|[A ->]]]] [[B ->]|[[B ->]|[[B ->]|[B ->]]]]; auto;
    rewrite A in B; vm_compute in B; discriminate B.
Qed.

Theorem C101_environment : C101_statement.
Proof.
  intros ans l e s B. pose proof (inv_run ans l dst0 inv0) as I. fold s in I.
  unfold LoadEnv. destruct (LoadEnvName e s) as [ok s1] eqn:L1.
  destruct (loadname_spec _ _ _ _ I L1) as (I1 & B1 & F1 & P1 & M1). rewrite B in B1. destruct ok.
  - destruct (LoadEnvFile ans e s1) as [r s2] eqn:L2. destruct (loadfile_spec _ _ _ _ _ I1 B1 L2) as (_ & _ & M2 & F2). split.
    + destruct (d_mode e) as [v|]; [|destruct M1; congruence]. destruct M1 as [[_ M1]|[X _]]; [|discriminate X].
      split; [|intro N; destruct (N _ M1)]. intros m W. rewrite M2. eapply word_fun; eauto.
    + intros ->. destruct (d_file e) as [p|]; [|destruct F2; congruence]. destruct F2 as [F2 _]. auto.
  - split; [|intro X; discriminate X]. destruct (d_mode e) as [v|]; [|destruct M1 as [X _]; discriminate X].
    destruct M1 as [[X _]|(_ & M1 & N)]; [discriminate X|]. split; [intros m W; destruct (N m W)|]. auto.
Qed.

(** ** C102: messages go to open streams only *)
Definition C102_statement : Prop := forall ans l, orderly (t_log (drun ans l dst0)).
Definition quiet : denv := DEnv None None.
Definition path1 : text := tx "/tmp/a".
Definition close_fails : list (denv * dcall) := [(quiet, DSet 1); (quiet, DFile (Some path1)); (quiet, DUnset)].

(** fclose fails, the complaint is printed to the stream just closed *)
Theorem C102_streams_refuted : ~ C102_statement.
Proof.
  intro H. specialize (H (fun n => (n =? 0)%nat) close_fails).
  assert (X : t_log (drun (fun n => (n =? 0)%nat) close_fails dst0) = [EPrint (Some 1) 1; EClose 1 false; EOpen 1 path1]) by (vm_compute; reflexivity).
  rewrite X in H. cbn in H. destruct H as [[_ U] _]. apply (U false). cbn. auto.
Qed.
(** nothing else is ever written to, or closed, after its close; without failing closes all is well *)
Theorem C102_streams_partial : forall ans l, let log := t_log (drun ans l dst0) in
  nearly log /\ ((forall f, ~ In (EClose f false) log) -> orderly log).
Proof.
  intros ans l log. destruct (inv_run ans l dst0 inv0) as (N & _). split; [exact N|]. apply nearly_orderly. exact N.
Qed.

(** the debug file in use is open and no other stream is: nothing is leaked *)
Theorem C102_one_stream : forall ans l, let s := drun ans l dst0 in
  forall f, usable (t_log s) f <-> t_fp s = Some f.
Proof. intros ans l s. destruct (inv_run ans l dst0 inv0) as (_ & U & _). exact U. Qed.

(** ** C103: a change of the file that fails leaves the messages where they went *)
Definition C103_statement : Prop := forall ans l e p s',
  let s := drun ans l dst0 in t_built s = true -> dstep ans e (DFile p) s = (RBool false, s') -> t_fp s' = t_fp s.
Theorem C103_failed_change_refuted : ~ C103_statement.
Proof.
  intro H. pose (ans := fun n => (n <? 2)%nat).
  specialize (H ans [(quiet, DFile (Some path1))] quiet (Some path1)).
  specialize (H (snd (dstep ans quiet (DFile (Some path1)) (drun ans [(quiet, DFile (Some path1))] dst0)))).
  cbv zeta in H. assert (X : None = Some 1); [|discriminate X]. apply H; vm_compute; reflexivity.
Qed.
(** success: the new file; failure: stderr, or for an empty name the old place *)
Theorem C103_failed_change_partial : forall ans l e p r s',
  let s := drun ans l dst0 in t_built s = true -> dstep ans e (DFile p) s = (RBool r, s') ->
  t_mode s' = t_mode s /\
  (r = true -> exists f q log, p = Some q /\ q <> [] /\ t_fp s' = Some f /\ t_log s' = EOpen f q :: log) /\
  (r = false -> t_fp s' = None \/ (p = None \/ p = Some []) /\ t_fp s' = t_fp s) /\
  (p = None \/ p = Some [] -> r = false /\ t_fp s' = t_fp s).
Proof.
  intros ans l e p r s' s B E. pose proof (inv_run ans l dst0 inv0) as I. fold s in I. cbn [dstep] in E.
  unfold Singleton in E. rewrite B in E. destruct (SetFile ans s p) as [b s1] eqn:S. injection E as -> ->.
  destruct (setfile_spec _ _ _ _ _ I B S) as (_ & _ & M & T & F).
  assert (EM : p = None \/ p = Some [] -> r = false /\ t_fp s' = t_fp s).
  { intros [->| ->]; unfold SetFile in S; injection S as <- <-; split; auto; apply print_same. }
  split; [auto|]. split; [|split; auto]. intros ->. destruct (T eq_refl) as (f & q & log & -> & X & Y).
  exists f, q, log. repeat split; auto. intros ->. destruct EM as [Z _]; [auto|discriminate Z].
Qed.

(** ** C104: messages while another thread changes the file *)
Inductive creach (m : Z) (fp : option Z) (ok : clab -> Prop) : cst -> Prop :=
| cr0 : creach m fp ok (cst0 m fp)
| cr1 : forall s l s', creach m fp ok s -> ok l -> cstep l s = Some s' -> creach m fp ok s'.
Definition fp_ok (fp : option Z) : Prop := match fp with Some f => f = 1 | None => True end.
Definition C104_statement : Prop := forall m fp s, fp_ok fp -> creach m fp (fun _ => True) s -> forall r, In r (c_bad s) -> r = WFine.

Lemma creach_run : forall m fp ls s s', creach m fp (fun _ => True) s -> cruns ls s = Some s' -> creach m fp (fun _ => True) s'.
Proof.
  induction ls as [|l ls IH]; intros s s' R E; cbn in E; [congruence|]. destruct (cstep l s) as [s1|] eqn:C; [|discriminate E].
  eapply IH; [|exact E]. econstructor; eauto.
Qed.
(** thread 1 has read the stream, thread 2 closes it, thread 1 writes *)
Definition late_write : list clab :=
  [CStart 1 (PTest 1); CStep 1 true; CStep 1 true; CStep 1 true; CStart 2 (UTest None); CStep 2 true; CStep 2 true; CStep 1 true].
(** thread 1 has found a stream, thread 2 clears the pointer, thread 1 takes NULL *)
Definition null_write : list clab :=
  [CStart 1 (PTest 1); CStep 1 true; CStep 1 true; CStart 2 (UTest None); CStep 2 true; CStep 2 true; CStep 2 true; CStep 1 true; CStep 1 true].
Theorem C104_race_refuted : ~ C104_statement.
Proof.
  intro H. destruct (cruns late_write (cst0 1 (Some 1))) as [s|] eqn:E.
  - assert (X : option_map c_bad (cruns late_write (cst0 1 (Some 1))) = Some [WClosed; WFine]) by (vm_compute; reflexivity).
    rewrite E in X. cbn [option_map] in X. assert (Y : c_bad s = [WClosed; WFine]) by congruence.
    assert (Z : WClosed = WFine); [|discriminate Z]. eapply (H 1 (Some 1) s); [reflexivity|eapply creach_run; [constructor|exact E]|].
    rewrite Y. cbn. auto.
  - assert (X : option_map c_bad (cruns late_write (cst0 1 (Some 1))) = Some [WClosed; WFine]) by (vm_compute; reflexivity).
    rewrite E in X. discriminate X.
Qed.

(** messages of any number of threads are safe as long as nobody changes the file *)
Definition no_change (l : clab) : Prop := match l with CStart _ (UTest _) => False | _ => True end.
Definition pr_ok (s : cst) (p : dpc) : Prop :=
  match p with
  | PIdle | PTest _ => True
  | PFp1 _ => True
  | PFp2 _ => c_fp s <> None
  | PWrite None _ => True
  | PWrite (Some f) _ => c_fp s = Some f
  | _ => False
  end.
Theorem C104_race_partial : forall m fp s, fp_ok fp -> creach m fp no_change s -> forall r, In r (c_bad s) -> r = WFine.
Proof.
  intros m fp s FP R.
  assert (INV : c_fp s = fp /\ (forall f, fp = Some f -> f = 1 /\ c_open s f = true) /\ (forall t, pr_ok s (c_pc s t)) /\ forall r, In r (c_bad s) -> r = WFine).
  { induction R as [|s l s' R IH OK E].
    - cbn. split; auto. split; [|split; [auto|intros r []]]. intros f ->. cbn in FP. subst f. auto.
    - destruct IH as (I1 & I2 & I3 & I4).
      assert (GO : forall t p, pr_ok s p -> c_fp (cgo s t p) = fp /\ (forall f, fp = Some f -> f = 1 /\ c_open (cgo s t p) f = true) /\
        (forall u, pr_ok (cgo s t p) (c_pc (cgo s t p) u)) /\ forall r, In r (c_bad (cgo s t p)) -> r = WFine).
      { intros t p P. split; [exact I1|]. split; [exact I2|]. split; [|exact I4]. intro u. unfold cgo. cbn [c_pc]. unfold upd.
        destruct (u =? t); [exact P|exact (I3 u)]. }
      destruct l as [t p|t ok]; cbn [cstep] in E; pose proof (I3 t) as T.
      + destruct (c_pc s t); try discriminate E. destruct p; cbn in E; try discriminate E; [|destruct OK].
        injection E as <-. apply GO. exact Logic.I.
      + destruct (c_pc s t) as [|lv|lv|lv|to lv|p|p|p|p|f]; cbn [pr_ok] in T; try contradiction; try discriminate E.
        * injection E as <-. apply GO. destruct (Z.land (c_mode s) lv =? lv); exact Logic.I.
        * injection E as <-. apply GO. destruct (c_fp s) eqn:F; cbn; auto. congruence.
        * injection E as <-. apply GO. destruct (c_fp s) eqn:F; cbn; congruence.
        * injection E as <-. cbn [c_fp c_open c_pc c_bad]. split; [exact I1|]. split; [exact I2|]. split.
          -- intro u. unfold upd. destruct (u =? t); [exact Logic.I|exact (I3 u)].
          -- intros r [<-|X]; [|auto]. destruct to as [f|]; auto. rewrite T in I1. destruct (I2 f (eq_sym I1)) as [-> O].
             cbn. now rewrite O. }
  apply INV.
Qed.

(** in every interleaving only messages of a level the mode shows are written *)
Theorem C104_level : forall m fp s, creach m fp (fun _ => True) s ->
  forall t to lv, c_pc s t = PWrite to lv -> a_mode m -> a_mode lv -> lv <= m.
Proof.
  intros m fp s R.
  assert (INV : c_mode s = m /\ forall t lv, (c_pc s t = PFp1 lv \/ c_pc s t = PFp2 lv \/ exists to, c_pc s t = PWrite to lv) -> (Z.land m lv =? lv) = true).
  { induction R as [|s l s' R IH _ E].
    - split; [reflexivity|]. intros t lv [X|[X|(to & X)]]; discriminate X.
    - destruct IH as [I1 I2].
      assert (KEY : forall t p s1, c_mode s1 = c_mode s -> c_pc s1 = upd (c_pc s) t p ->
        (forall lv, (p = PFp1 lv \/ p = PFp2 lv \/ exists to, p = PWrite to lv) -> (Z.land m lv =? lv) = true) ->
        c_mode s1 = m /\ forall u lv, (c_pc s1 u = PFp1 lv \/ c_pc s1 u = PFp2 lv \/ exists to, c_pc s1 u = PWrite to lv) -> (Z.land m lv =? lv) = true).
      { intros t p s1 A B C. split; [congruence|]. intros u lv. rewrite B. unfold upd. destruct (u =? t); [exact (C lv)|exact (I2 u lv)]. }
      assert (NO : forall p, match p with PFp1 _ | PFp2 _ | PWrite _ _ => False | _ => True end ->
        forall lv, (p = PFp1 lv \/ p = PFp2 lv \/ exists to, p = PWrite to lv) -> (Z.land m lv =? lv) = true).
      { intros p N lv X. exfalso. destruct X as [X|[X|(to & X)]]; rewrite X in N; exact N. }
      destruct l as [t p|t ok]; cbn [cstep] in E.
      + destruct (c_pc s t); try discriminate E. destruct (start_ok p) eqn:SO; [|discriminate E]. injection E as <-.
        apply (KEY t p); auto. apply NO. destruct p; try exact Logic.I; discriminate SO.
      + pose proof (I2 t) as T. destruct (c_pc s t) as [|lv|lv|lv|to lv|p|p|p|p|f] eqn:PC; try discriminate E.
        * injection E as <-. eapply KEY; [reflexivity|reflexivity|]. rewrite I1. intros lv' X.
          destruct (Z.land m lv =? lv) eqn:L; [|apply (NO PIdle Logic.I lv' X)].
          destruct X as [X|[X|(to & X)]]; try discriminate X. injection X as <-. exact L.
        * injection E as <-. eapply KEY; [reflexivity|reflexivity|]. intros lv' X. assert (lv' = lv); [|subst lv'; apply T; auto].
          destruct (c_fp s); destruct X as [X|[X|(to & X)]]; try discriminate X; now injection X.
        * injection E as <-. eapply KEY; [reflexivity|reflexivity|]. intros lv' X. assert (lv' = lv); [|subst lv'; apply T; auto].
          destruct X as [X|[X|(to & X)]]; try discriminate X; now injection X.
        * injection E as <-. eapply KEY; [reflexivity|reflexivity|]. apply NO. exact Logic.I.
        * injection E as <-. eapply KEY; [reflexivity|reflexivity|]. apply NO. destruct (c_fp s), p; exact Logic.I.
        * destruct (c_fp s); injection E as <-; (eapply KEY; [reflexivity|reflexivity|]); apply NO; exact Logic.I.
        * injection E as <-. eapply KEY; [reflexivity|reflexivity|]. apply NO. destruct p; exact Logic.I.
        * destruct ok; injection E as <-; (eapply KEY; [reflexivity|reflexivity|]); apply NO; exact Logic.I.
        * injection E as <-. eapply KEY; [reflexivity|reflexivity|]. apply NO. exact Logic.I. }
  intros t to lv P M L. destruct INV as [_ I]. specialize (I t lv). rewrite (shows _ _ M L) in I. apply Z.leb_le, I. eauto.
Qed.

(** ** cases *)
Example C100_case : let s := drun (fun _ => true) [(quiet, DSet 3); (quiet, DFile (Some path1)); (quiet, DPrint 1); (quiet, DPrint 7)] dst0 in
  t_log s = [EPrint (Some 1) 1; EOpen 1 path1] /\ t_mode s = 3 /\ t_built s = true.
Proof. vm_compute. auto. Qed.
Example C101_case : mode_word (tx "Wan") 3 /\ (forall m, ~ mode_word (tx "WARN") m).
Proof.
  split; [right; right; left; split; reflexivity|]. intros m [[X _]|[[X _]|[[X _]|[X _]]]]; discriminate X.
Qed.
Example C101_case_file : let '(r, s) := LoadEnv (fun _ => true) (DEnv (Some (tx "warn")) (Some path1)) (drun (fun _ => true) [(quiet, DGet)] dst0) in
  r = false /\ t_fp s = None.
Proof. vm_compute. auto. Qed.
Example C102_case : t_log (drun (fun _ => true) close_fails dst0) = [EClose 1 true; EOpen 1 path1].
Proof. vm_compute. reflexivity. Qed.
Example C103_case : t_built (drun (fun _ => true) [(quiet, DGet)] dst0) = true /\
  t_fp (snd (dstep (fun _ => true) quiet (DFile (Some path1)) (drun (fun _ => true) [(quiet, DGet)] dst0))) = Some 1.
Proof. vm_compute. auto. Qed.
Example C104_null : option_map c_bad (cruns null_write (cst0 1 (Some 1))) = Some [WNull; WFine].
Proof. vm_compute. reflexivity. Qed.
Example C104_case : option_map c_bad (cruns [CStart 1 (PTest 1); CStart 2 (PTest 1); CStep 1 true; CStep 2 true; CStep 1 true; CStep 2 true;
  CStep 1 true; CStep 2 true; CStep 1 true; CStep 2 true] (cst0 1 (Some 1))) = Some [WFine; WFine].
Proof. vm_compute. reflexivity. Qed.

Print Assumptions C100_levels.
Print Assumptions C101_environment.
Print Assumptions C102_streams_refuted.
Print Assumptions C102_streams_partial.
Print Assumptions C102_one_stream.
Print Assumptions C103_failed_change_refuted.
Print Assumptions C103_failed_change_partial.
Print Assumptions C104_race_refuted.
Print Assumptions C104_race_partial.
Print Assumptions C104_level.
