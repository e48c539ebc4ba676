From Coq Require Import ZArith List Bool Lia.
From Verif Require Import Base Disc_Model Disc_Spec.
Import ListNotations.
Open Scope Z_scope.

(** the list lock held after a command that started with [h]: None = breaks the discipline; Some None = always returns *)
Definition oeq : forall a b : option lk, {a = b} + {a <> b}.
Proof. decide equality. apply lk_eq. Defined.
Fixpoint chk (r : option lk) (c : cmd) (h : option lk) : option (option (option lk)) :=
  match c with
  | Acq l => match h with None => Some (Some (Some l)) | Some _ => None end
  | Rel l => if oeq h (Some l) then Some (Some None) else None
  | Work => Some (Some h)
  | Block => match h with None => Some (Some None) | Some _ => None end
  | Seq a b => match chk r a h with Some (Some h') => chk r b h' | x => x end
  | Alt a b =>
      match chk r a h, chk r b h with
      | Some None, x => x
      | x, Some None => x
      | Some (Some h1), Some (Some h2) => if oeq h1 h2 then Some (Some h1) else None
      | _, _ => None
      end
  | Loop a => match chk r a h with Some (Some h') => if oeq h' h then Some (Some h) else None | Some None => Some (Some h) | None => None end
  | Ret => if oeq h r then Some None else None
  | Call c' e => match chk e c' h with Some (Some h') => if oeq h' e then Some (Some e) else None | Some None => Some (Some e) | None => None end
  end.
Fixpoint ret (k : list item) : option lk := match k with [] => None | KEnd e :: _ => e | KC _ :: r => ret r end.
Fixpoint flow (k : list item) (h : option lk) : Prop :=
  match k with
  | [] => h = None
  | KEnd e :: _ => h = e
  | KC c :: r => match chk (ret r) c h with Some (Some h') => flow r h' | Some None => True | None => False end
  end.
Fixpoint frames (k : list item) : Prop := match k with [] => True | KEnd e :: r => flow r e /\ frames r | KC _ :: r => frames r end.

Lemma frames_pop k : frames k -> frames (pop k).
Proof. induction k as [|[c|e] r IH]; cbn; tauto. Qed.
Lemma flow_pop k : frames k -> flow (pop k) (ret k).
Proof. induction k as [|[c|e] r IH]; cbn; tauto. Qed.

Definition tinv (s : dsys) (t : Z) : Prop :=
  exists h, (forall l, has s t l <-> h = Some l) /\ flow (d_k s t) h /\ frames (d_k s t).
Definition inv (s : dsys) : Prop := forall t, live s t -> tinv s t.

Lemma calls_ok c : In c calls -> exists x, chk None c None = Some x /\ (x = None \/ x = Some None).
Proof.
  assert (H : forallb (fun c => match chk None c None with Some None => true | Some (Some None) => true | _ => false end) calls = true) by (vm_compute; reflexivity).
  intros I. rewrite forallb_forall in H. specialize (H _ I). destruct (chk None c None) as [[[l|]|]|]; try discriminate; eauto.
Qed.

Lemma tinv_k s t k h : (forall l, has s t l <-> h = Some l) -> flow k h -> frames k -> tinv (set_k s t k) t.
Proof. intros A B C. exists h. cbn. rewrite upd_eq. auto. Qed.
Lemma tinv_other s t k u : u <> t -> tinv s u -> tinv (set_k s t k) u.
Proof. intros N (h & A & B & C). exists h. cbn. rewrite upd_neq by auto. auto. Qed.

Lemma inv_set s t k : inv s -> (live s t -> tinv (set_k s t k) t) -> inv (set_k s t k).
Proof.
  intros I H u L. destruct (Z.eq_dec u t) as [->|N]; [auto|]. apply tinv_other; [auto|]. apply I. exact L.
Qed.

Lemma inv_step s x : (forall t c, x = DCall t c -> In c calls) -> inv s -> inv (d_step s x).
Proof.
  intros OK I. destruct x as [t c|t b|t]; cbn [d_step].
  - destruct (d_k s t) eqn:K; [|exact I]. destruct (d_dead s t) eqn:D; [exact I|].
    apply inv_set; [exact I|]. intros L. destruct (I t L) as (h & A & B & C). rewrite K in B. cbn in B. subst h.
    destruct (calls_ok c (OK _ _ eq_refl)) as (x & E & F).
    apply tinv_k with (h := None); [exact A| |exact Logic.I]. cbn. rewrite E. destruct F as [->| ->]; [exact Logic.I|reflexivity].
  - destruct (d_dead s t) eqn:D; [exact I|]. destruct (I t D) as (h & A & B & C).
    destruct (d_k s t) as [|[c|e] k] eqn:K; [exact I| |].
    2:{ apply inv_set; [exact I|]. intros _. cbn in B, C. subst h. destruct C as [C1 C2]. eapply tinv_k; eauto. }
    destruct c; cbn in B, C.
    + (* Acq *) destruct h as [|]; [contradiction|]. destruct (gets s t l) eqn:G; [|exact I].
      intros u L. cbn in L. destruct (Z.eq_dec u t) as [->|N].
      * exists (Some l). cbn. rewrite upd_eq. split; [|auto]. intros l'. unfold has. cbn. unfold updl. destruct (lk_eq l' l) as [->|M]; [tauto|].
        split; [intros H; apply A in H; discriminate|intros [= ->]; congruence].
      * destruct (I u L) as (h & A' & B' & C'). exists h. cbn. rewrite upd_neq by auto. split; [|auto]. intros l'. unfold has. cbn. unfold updl.
        destruct (lk_eq l' l) as [->|M]; [|apply A'].
        split; [intros [= H]; congruence|]. intros H. apply A' in H. unfold has in H. unfold gets in G. rewrite H in G. unfold live in L. cbn in L.
        rewrite L, orb_false_r in G. apply Z.eqb_eq in G. congruence.
    + (* Rel *) destruct (oeq h (Some l)) as [->|]; [|contradiction].
      assert (Ht : d_own s l = Some t) by (apply A; reflexivity).
      assert (G : gets s t l = true) by (unfold gets; rewrite Ht, Z.eqb_refl; reflexivity). rewrite G.
      intros u L. cbn in L. destruct (Z.eq_dec u t) as [->|N].
      * exists None. cbn. rewrite upd_eq. split; [|auto]. intros l'. unfold has. cbn. unfold updl. destruct (lk_eq l' l) as [->|M]; [split; discriminate|].
        split; [intros H; apply A in H; congruence|discriminate].
      * destruct (I u L) as (h & A' & B' & C'). exists h. cbn. rewrite upd_neq by auto. split; [|auto]. intros l'. unfold has. cbn. unfold updl.
        destruct (lk_eq l' l) as [->|M]; [|apply A'].
        split; [discriminate|]. intros H. apply A' in H. unfold has in H. congruence.
    + (* Work *) apply inv_set; [exact I|]. intros _. eapply tinv_k; eauto.
    + (* Block *) destruct h; [contradiction|]. destruct b; [|exact I]. apply inv_set; [exact I|]. intros _. eapply tinv_k; eauto.
    + (* Seq *) apply inv_set; [exact I|]. intros _. eapply tinv_k; [exact A| |exact C]. cbn.
      destruct (chk (ret k) c1 h) as [[h'|]|]; auto.
    + (* Alt *) apply inv_set; [exact I|]. intros _. eapply tinv_k; [exact A| |exact C]. cbn.
      destruct b; destruct (chk (ret k) c1 h) as [[h1|]|], (chk (ret k) c2 h) as [[h2|]|]; auto; try contradiction;
      destruct (oeq h1 h2) as [->|]; auto; contradiction.
    + (* Loop *) apply inv_set; [exact I|]. intros _. eapply tinv_k; [exact A| |destruct b; exact C].
      destruct (chk (ret k) c h) as [[h'|]|] eqn:E; [| |contradiction].
      * destruct (oeq h' h) as [->|]; [|contradiction]. destruct b; [|exact B]. cbn. rewrite E. cbn. rewrite E. destruct (oeq h h); [exact B|congruence].
      * destruct b; [|exact B]. cbn. rewrite E. exact Logic.I.
    + (* Ret *) destruct (oeq h (ret k)) as [->|]; [|contradiction]. apply inv_set; [exact I|]. intros _. eapply tinv_k; [exact A|apply flow_pop; exact C|apply frames_pop; exact C].
    + (* Call *) apply inv_set; [exact I|]. intros _.
      destruct (chk exit c h) as [[h'|]|] eqn:E; [| |contradiction].
      * destruct (oeq h' exit) as [->|]; [|contradiction]. eapply tinv_k; [exact A| |]; cbn; [rewrite E; reflexivity|auto].
      * eapply tinv_k; [exact A| |]; cbn; [rewrite E; exact Logic.I|auto].
  - intros u L. unfold live in L. cbn in L. destruct (Z.eq_dec u t) as [->|N]; [rewrite upd_eq in L; discriminate|]. rewrite upd_neq in L by auto.
    destruct (I u L) as (h & A & B & C). exists h. auto.
Qed.

Lemma inv_init : inv d_init.
Proof. intros t _. exists None. cbn. split; [|auto]. intros l. split; discriminate. Qed.
Lemma exec_app s a b : d_exec s (a ++ b) = d_exec (d_exec s a) b.
Proof. apply fold_left_app. Qed.
Lemma inv_exec ls : forall s, of_library ls -> inv s -> inv (d_exec s ls).
Proof.
  induction ls as [|x ls IH]; intros s O I; [exact I|]. cbn. apply IH.
  - intros t c H. apply (O t c). right. exact H.
  - apply inv_step; [|exact I]. intros t c ->. apply (O t c). left. reflexivity.
Qed.
Lemma inv_run ls : of_library ls -> inv (d_exec d_init ls).
Proof. intros O. apply inv_exec; [exact O|apply inv_init]. Qed.

(** ** what the invariant says *)
Lemma inv_one s t l l' : inv s -> live s t -> has s t l -> has s t l' -> l = l'.
Proof. intros I L H H'. destruct (I t L) as (h & A & _). apply A in H. apply A in H'. congruence. Qed.
Lemma inv_outside s t l : inv s -> live s t -> outside s t -> ~ has s t l.
Proof. intros I L O H. destruct (I t L) as (h & A & B & _). rewrite O in B. cbn in B. apply A in H. congruence. Qed.
Lemma inv_asks s t l l' : inv s -> live s t -> asks s t l -> ~ has s t l'.
Proof. intros I L (k & K) H. destruct (I t L) as (h & A & B & _). rewrite K in B. cbn in B. apply A in H. subst h. contradiction. Qed.
Lemma inv_waits s t l' : inv s -> live s t -> waits s t -> ~ has s t l'.
Proof. intros I L (k & K) H. destruct (I t L) as (h & A & B & _). rewrite K in B. cbn in B. apply A in H. subst h. contradiction. Qed.
Lemma inv_gives s t l : inv s -> live s t -> gives s t l -> has s t l.
Proof. intros I L (k & K). destruct (I t L) as (h & A & B & _). rewrite K in B. cbn in B. apply A. destruct (oeq h (Some l)); [auto|contradiction]. Qed.

(** ** the holder gives the lock back when it runs on *)
Fixpoint size (c : cmd) : nat :=
  match c with Seq a b | Alt a b => S (size a + size b) | Loop a => S (size a) | Call a _ => S (S (size a)) | _ => 1%nat end.
Fixpoint ksize (k : list item) : nat := match k with [] => O | KC c :: r => size c + ksize r | KEnd _ :: r => S (ksize r) end.
Lemma pop_size k : (ksize (pop k) <= ksize k)%nat.
Proof. induction k as [|[c|e] r IH]; cbn; lia. Qed.
Lemma size_pos c : (0 < size c)%nat.
Proof. destruct c; cbn; lia. Qed.

Lemma step_other s u b t : u <> t -> d_k (d_step s (DStep u b)) t = d_k s t.
Proof.
  intros N. cbn. destruct (d_dead s u); [reflexivity|]. destruct (d_k s u) as [|[c|e] k]; try reflexivity; [|cbn; apply upd_neq; auto].
  destruct c; try destruct (gets s u l); try destruct b; try reflexivity; cbn; apply upd_neq; auto.
Qed.
Lemma step_dead s u b : d_dead (d_step s (DStep u b)) = d_dead s.
Proof.
  cbn. destruct (d_dead s u); [reflexivity|]. destruct (d_k s u) as [|[c|e] k]; try reflexivity.
  destruct c; try destruct (gets s u l); try destruct b; reflexivity.
Qed.
Lemma step_shrinks s u l : inv s -> live s u -> has s u l -> (ksize (d_k (d_step s (DStep u false)) u) < ksize (d_k s u))%nat.
Proof.
  intros I L H. assert (O : d_k s u <> []) by (intros E; exact (inv_outside s u l I L E H)).
  cbn. rewrite L. destruct (d_k s u) as [|[c|e] k] eqn:K; [congruence| |cbn; rewrite upd_eq; lia].
  destruct c; cbn.
  - exfalso. apply (inv_asks s u l0 l I L); [exists k; exact K|exact H].
  - assert (Hl : has s u l0) by (apply (inv_gives s u l0 I L); exists k; exact K). unfold gets. rewrite Hl, Z.eqb_refl. cbn. rewrite upd_eq. lia.
  - rewrite upd_eq. lia.
  - exfalso. apply (inv_waits s u l I L); [exists k; exact K|exact H].
  - rewrite upd_eq. cbn. lia.
  - rewrite upd_eq. cbn. lia.
  - rewrite upd_eq. cbn. lia.
  - rewrite upd_eq. pose proof (pop_size k). lia.
  - rewrite upd_eq. cbn. lia.
Qed.
Lemma step_owner s u b l w : d_own (d_step s (DStep u b)) l = Some w -> w <> u -> d_own s l = Some w.
Proof.
  cbn. destruct (d_dead s u); [auto|]. destruct (d_k s u) as [|[c|e] k]; auto.
  destruct c; try destruct (gets s u l0); try destruct b; cbn; auto; unfold updl; destruct (lk_eq l l0); auto; congruence.
Qed.

Lemma solo_release n : forall s u l, (ksize (d_k s u) <= n)%nat -> inv s -> live s u -> has s u l ->
  exists bs, let s' := d_exec s (alone u bs) in d_own s' l = None /\ d_dead s' = d_dead s /\ forall t, t <> u -> d_k s' t = d_k s t.
Proof.
  induction n as [|n IH]; intros s u l B I L H.
  - exfalso. apply (inv_outside s u l I L); [|exact H]. unfold outside. destruct (d_k s u) as [|[c|e] k]; [reflexivity| |]; cbn in B; [pose proof (size_pos c)|]; lia.
  - pose proof (step_shrinks s u l I L H) as Sh.
    assert (I' : inv (d_step s (DStep u false))) by (apply inv_step; [discriminate|exact I]).
    destruct (d_own (d_step s (DStep u false)) l) as [w|] eqn:E.
    + destruct (Z.eq_dec w u) as [->|N].
      2:{ apply step_owner in E; [|exact N]. unfold has in H. congruence. }
      destruct (IH (d_step s (DStep u false)) u l) as (bs & P1 & P2 & P3); [lia|exact I'|unfold live; rewrite step_dead; exact L|exact E|].
      exists (false :: bs). cbn [alone map d_exec fold_left] in *. split; [exact P1|]. split; [etransitivity; [exact P2|apply step_dead]|].
      intros t N. etransitivity; [exact (P3 t N)|]. apply step_other. auto.
    + exists [false]. cbn [alone map d_exec fold_left]. split; [exact E|]. split; [apply step_dead|]. intros t N. apply step_other. auto.
Qed.
