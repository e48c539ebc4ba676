From Verif Require Import Base Cache_Model Cache_Spec.
From Coq Require Import ZArith List Bool Lia.
Import ListNotations.
Open Scope Z_scope.

(** ** The order of the map *)
Lemma key_lt_spec : forall a b, key_lt a b = true <->
  k_pid a < k_pid b \/
  (k_pid a = k_pid b /\ (k_tid a < k_tid b \/ (k_tid a = k_tid b /\ k_fd a < k_fd b))).
Proof.
  intros a b. unfold key_lt.
  destruct (Z.ltb_spec (k_pid a) (k_pid b)); [split; auto; lia|].
  destruct (Z.ltb_spec (k_pid b) (k_pid a)); [split; [intro X; discriminate X|lia]|].
  destruct (Z.ltb_spec (k_tid a) (k_tid b)); [split; auto; lia|].
  destruct (Z.ltb_spec (k_tid b) (k_tid a)); [split; [intro X; discriminate X|lia]|].
  destruct (Z.ltb_spec (k_fd a) (k_fd b)); [split; auto; lia|].
  destruct (Z.ltb_spec (k_fd b) (k_fd a)); [split; [intro X; discriminate X|lia]|].
  destruct (k_fd a =? FLCK_INVALID_HANDLE); (split; [intro X; discriminate X|lia]).
Qed.

Lemma same_key_eq : forall a b, same_key a b = true <-> a = b.
Proof.
  intros a b. unfold same_key. rewrite andb_true_iff, !negb_true_iff. split.
  - intros [A B]. apply not_true_iff_false in A, B. rewrite key_lt_spec in A, B.
    destruct a, b; cbn in *. f_equal; lia.
  - intros ->. split; apply not_true_iff_false; rewrite key_lt_spec; lia.
Qed.

Lemma same_key_refl : forall a, same_key a a = true.
Proof. intros. now apply same_key_eq. Qed.

Lemma lookup_store : forall c k v k', lookup (store c k v) k' = if same_key k k' then Some v else lookup c k'.
Proof.
  induction c as [|[k1 v1] c IH]; intros k v k'; cbn [store lookup]; auto.
  destruct (same_key k1 k) eqn:E; cbn [lookup].
  - apply same_key_eq in E. subst k1. destruct (same_key k k'); auto.
  - rewrite IH. destruct (same_key k1 k') eqn:E1; auto.
    destruct (same_key k k') eqn:E2; auto.
    apply same_key_eq in E1, E2. subst. rewrite same_key_refl in E. discriminate E.
Qed.

Lemma q_eqb_eq : forall a b, q_eqb a b = true <-> a = b.
Proof.
  intros [p t|p t f] [p' t'|p' t' f']; cbn [q_eqb]; rewrite ?andb_true_iff, ?Z.eqb_eq; split;
    try (intro X; discriminate X).
  - intros [-> ->]. reflexivity.
  - intro X. injection X as <- <-. auto.
  - intros [[-> ->] ->]. reflexivity.
  - intro X. injection X as <- <- <-. auto.
Qed.

(** ** The cache answers like the first answer *)

(** what the entry of a question must be *)
Definition key_of (q : question) : key :=
  match q with QRun p t => Key p t (-1) | QDev p t f => Key p t f end.

Definition entry_ok (q : question) (a : answer) (v : val) : Prop :=
  match q, a with
  | QRun _ _, ARun b => v_run v = b
  | QDev _ _ _, ADev (Some (d, i)) => v_dev v = d /\ v_ino v = i /\ (d <> 0 \/ i <> 0)
  | QDev _ _ _, ADev None => v_dev v = 0 /\ v_ino v = 0
  | _, _ => False
  end.

Lemma ask_dev_ok : forall o p t f r d i, os_ok o -> ask_dev o p t f = (r, d, i) ->
  ((r =? 0) || (r =? EACCES) = true) -> d <> 0 \/ i <> 0.
Proof.
  intros o p t f r d i (O1 & O2 & O3) E K. unfold ask_dev in E.
  destruct (IS_NO_FD f).
  - destruct (o_task o p t) as [e|d1 i1] eqn:T.
    + destruct (O1 _ _ _ T) as [X Y]. injection E as <- <- <-.
      apply orb_true_iff in K as [K|K]; apply Z.eqb_eq in K; congruence.
    + injection E as <- <- <-. left. unfold FLCK_EACCESS_ID, two64. lia.
  - unfold GetFileDevNode1 in E. destruct (o_fd o p f) as [e|d1 i1] eqn:T.
    + pose proof (O2 _ _ _ T) as Z0. destruct (Z.eqb_spec e EACCES) as [->|N].
      * cbn in E. destruct (o_task o p t) as [e1|d1 i1] eqn:T1.
        -- destruct (O1 _ _ _ T1) as [X Y]. injection E as <- <- <-.
           apply orb_true_iff in K as [K|K]; apply Z.eqb_eq in K; congruence.
        -- injection E as <- <- <-. left. unfold FLCK_EACCESS_ID, two64. lia.
      * destruct (Z.eqb_spec e EACCES); [contradiction|].
        injection E as <- <- <-. apply orb_true_iff in K as [K|K]; apply Z.eqb_eq in K; congruence.
    + cbn in E. injection E as <- <- <-. exact (O3 _ _ _ _ T).
Qed.

(** no entry: the system is asked, and the entry made answers the same *)
Lemma ask_miss : forall o m q, os_ok o -> lookup m (key_of q) = None ->
  exists v, ask o (Some m) q = (truth o q, Some (store m (key_of q) v)) /\ entry_ok q (truth o q) v.
Proof.
  intros o m q O F. destruct q as [p t|p t f]; unfold truth, ask; cbn [key_of] in *.
  - unfold FindThreadProcess, get_execution_cache.
    change FLCK_INVALID_HANDLE with (-1). rewrite F. cbn. eexists. split; [reflexivity|]. reflexivity.
  - unfold GetFileDevNode, get_device_cache. rewrite F.
    destruct (ask_dev o p t f) as [[r d] i] eqn:E.
    pose proof (ask_dev_ok _ _ _ _ _ _ _ O E) as K.
    destruct ((r =? 0) || (r =? EACCES))%bool.
    + eexists. split; [reflexivity|]. cbn. auto.
    + eexists. split; [reflexivity|]. cbn. auto.
Qed.

(** an entry: it is the answer *)
Lemma ask_hit : forall o m q a v, lookup m (key_of q) = Some v -> entry_ok q a v ->
  ask o (Some m) q = (a, Some m).
Proof.
  intros o m q a v F K. destruct q as [p t|p t f]; unfold ask; cbn [key_of] in *; destruct a as [b|r];
    try (destruct K; fail).
  - unfold FindThreadProcess, get_execution_cache. change FLCK_INVALID_HANDLE with (-1). rewrite F.
    cbn in *. now subst b.
  - unfold GetFileDevNode, get_device_cache. rewrite F. cbn in K. destruct r as [[d i]|].
    + destruct K as (-> & -> & N). change FLCK_INVALID_ID with 0.
      destruct (Z.eqb_spec 0 d), (Z.eqb_spec 0 i); cbn; auto. lia.
    + destruct K as (-> & ->). reflexivity.
Qed.

(** the cache holds for every question put its first answer, and nothing else *)
Definition inv (seen : list (os * question)) (m : cache) : Prop :=
  (forall q o, first_asked seen q = Some o ->
     exists v, lookup m (key_of q) = Some v /\ entry_ok q (truth o q) v) /\
  (forall k v, lookup m k = Some v -> exists q, In q (map snd seen) /\ key_of q = k).

Lemma first_none : forall l q, first_asked l q = None <-> ~ In q (map snd l).
Proof.
  induction l as [|[o q'] l IH]; intros q; cbn; [tauto|].
  destruct (q_eqb q' q) eqn:E.
  - apply q_eqb_eq in E. subst. split; [intro X; discriminate X|tauto].
  - rewrite IH. assert (q' <> q) by (intro X; apply q_eqb_eq in X; congruence). tauto.
Qed.

Lemma first_app : forall l o q q', first_asked (l ++ [(o, q)]) q' =
  match first_asked l q' with
  | Some x => Some x
  | None => if q_eqb q q' then Some o else None
  end.
Proof.
  induction l as [|[o1 q1] l IH]; intros o q q'; cbn; auto.
  destruct (q_eqb q1 q'); auto.
Qed.

(** different questions with one entry: a thread and its descriptor -1 *)
Lemma key_of_inj : forall l a b, unmixed l -> In a l -> In b l -> key_of a = key_of b -> a = b.
Proof.
  intros l a b U A B E. destruct a as [p t|p t f], b as [p' t'|p' t' f']; cbn in E;
    injection E; intros; subst; auto; exfalso; eapply (U p' t'); eauto.
Qed.

Lemma pass_expected : forall l seen m,
  Forall (fun x => os_ok (fst x)) l ->
  unmixed (map snd (seen ++ l)) -> inv seen m -> pass (Some m) l = expected seen l.
Proof.
  induction l as [|[o q] l IH]; intros seen m O U (I1 & I2); [reflexivity|].
  inversion O as [|? ? O1 O2]; subst. cbn [fst] in O1. cbn [pass expected].
  assert (INQ : In q (map snd (seen ++ (o, q) :: l))).
  { rewrite map_app. apply in_or_app. right. now left. }
  assert (INS : forall x, In x (map snd seen) -> In x (map snd (seen ++ (o, q) :: l))).
  { intros x Hx. rewrite map_app. apply in_or_app. now left. }
  assert (U' : unmixed (map snd ((seen ++ [(o, q)]) ++ l))).
  { rewrite <- app_assoc. exact U. }
  destruct (first_asked seen q) as [o1|] eqn:F.
  - destruct (I1 _ _ F) as (v & F1 & K).
    rewrite (ask_hit o m q _ v F1 K). f_equal. apply IH; auto. split.
    + intros q' o' E. rewrite first_app in E. destruct (first_asked seen q') eqn:E1; [now apply I1; congruence|].
      destruct (q_eqb q q') eqn:E2; [|discriminate E]. apply q_eqb_eq in E2. subst. congruence.
    + intros k v' E. destruct (I2 _ _ E) as (x & X1 & X2). exists x. split; auto.
      rewrite map_app. apply in_or_app. now left.
  - assert (NF : lookup m (key_of q) = None).
    { destruct (lookup m (key_of q)) as [v|] eqn:E; auto. destruct (I2 _ _ E) as (x & X1 & X2).
      assert (x = q) by (exact (key_of_inj _ x q U (INS _ X1) INQ X2)). subst. apply first_none in F. contradiction. }
    destruct (ask_miss o m q O1 NF) as (v & E & K). rewrite E. f_equal. apply IH; auto. split.
    + intros q' o' E'. rewrite first_app in E'. rewrite lookup_store.
      destruct (first_asked seen q') as [x|] eqn:E1.
      * injection E' as <-. destruct (I1 _ _ E1) as (v' & F1 & K').
        destruct (same_key (key_of q) (key_of q')) eqn:S; [|eauto].
        apply same_key_eq in S. rewrite <- S in F1. congruence.
      * destruct (q_eqb q q') eqn:E2; [|discriminate E'].
        apply q_eqb_eq in E2. subst q'. injection E' as <-. rewrite same_key_refl. eauto.
    + intros k v' E'. rewrite lookup_store in E'. rewrite map_app.
      destruct (same_key (key_of q) k) eqn:S.
      * apply same_key_eq in S. exists q. split; auto. apply in_or_app. right. now left.
      * destruct (I2 _ _ E') as (x & X1 & X2). exists x. split; auto. apply in_or_app. now left.
Qed.

Lemma inv_empty : inv [] [].
Proof. split; intros; discriminate. Qed.
