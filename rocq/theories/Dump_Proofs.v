(** The dump as a function of the shape of the memory. *)
From Coq Require Import ZArith List Bool Lia.
From Verif Require Import Base List_Model List_Spec List_Proofs Layout_Model Dump_Model Dump_Spec.
Import ListNotations.
Open Scope Z_scope.

(** ** Loops *)
Lemma each_map : forall base m body g l r fuel, 0 < base -> chain 0 m r l ->
  (forall x, In x l -> body (x + base) = Some (g x)) -> (length l < fuel)%nat ->
  each fuel base m body (to_abs base r) = Some (flat_map g l).
Proof.
  intros base m body g l. induction l as [|x l IH]; intros r fuel Hb C B Hf.
  - inversion C; subst. destruct fuel; [cbn in Hf; lia|]. reflexivity.
  - apply chain_inv in C. destruct C as (-> & Hx & C). destruct fuel as [|fuel]; [cbn in Hf; lia|].
    cbn [each]. rewrite to_abs_pos by auto. destruct (Z.eqb_spec (x + base) 0); [lia|].
    rewrite B by now left. rewrite next_cell_pos. rewrite (IH _ fuel); auto.
    + intros y Hy. apply B. now right.
    + cbn in Hf. lia.
Qed.

Lemma at_pos : forall base m r o, at_ base m (r + base) o = m (r + o).
Proof. intros. unfold at_. f_equal. lia. Qed.

(** the lines of one entry, by file offset *)
Definition e_locker (base : Z) (m : mem) (lvl x : Z) : list (Z * text) :=
  [(lvl, TOpen KLocker (x + base)); (lvl + 1, TNext (m (x + 0)));
   (lvl + 1, TField FPid (m (x + 8))); (lvl + 1, TField FFd (m (x + 16))); (lvl + 1, TField FLocked (m (x + 20))); (lvl, TEnd)].
Definition e_off (base : Z) (m : mem) (h : shape) (lvl x : Z) : list (Z * text) :=
  [(lvl, TOpen KOff (x + base)); (lvl + 1, TNext (m (x + 0)));
   (lvl + 1, TField FOffset (m (x + 16))); (lvl + 1, TField FLen (m (x + 24)));
   (lvl + 1, TField FLockval (m (x + 8))); (lvl + 1, TField FProtect (m (x + 48))); (lvl + 1, TSub UReaders)] ++
  flat_map (e_locker base m (lvl + 2)) (s_readers h x) ++ [(lvl + 1, TEnd); (lvl + 1, TSub UWriters)] ++
  flat_map (e_locker base m (lvl + 2)) (s_writers h x) ++ [(lvl + 1, TEnd); (lvl, TEnd)].
Definition e_file (base : Z) (m : mem) (h : shape) (lvl x : Z) : list (Z * text) :=
  [(lvl, TOpen KFile (x + base)); (lvl + 1, TNext (m (x + 0)));
   (lvl + 1, TField FDev (m (x + 8))); (lvl + 1, TField FIno (m (x + 16)));
   (lvl + 1, TField FProtect (m (x + 32))); (lvl + 1, TSub UOffs)] ++
  flat_map (e_off base m h (lvl + 2)) (s_offs h x) ++ [(lvl + 1, TEnd); (lvl, TEnd)].
Definition e_mtx (base : Z) (m : mem) (lvl x : Z) : list (Z * text) :=
  [(lvl, TOpen KMtx (x + base)); (lvl + 1, TNext (m (x + 0)));
   (lvl + 1, TField FHash (m (x + 24))); (lvl + 1, TField FName (m (x + 32))); (lvl, TEnd)].
Definition e_waiter (base : Z) (m : mem) (lvl x : Z) : list (Z * text) :=
  [(lvl, TOpen KWaiter (x + base)); (lvl + 1, TNext (m (x + 0)));
   (lvl + 1, TField FPid (m (x + 8))); (lvl + 1, TField FStatus (m (x + 16))); (lvl + 1, TSub UMtx)] ++
  dump_mtx base m (lvl + 2) (to_abs base (m (x + 24))) ++ [(lvl + 1, TEnd); (lvl, TEnd)].
Definition e_cond (base : Z) (m : mem) (h : shape) (lvl x : Z) : list (Z * text) :=
  [(lvl, TOpen KCond (x + base)); (lvl + 1, TNext (m (x + 0)));
   (lvl + 1, TField FHash (m (x + 16))); (lvl + 1, TField FName (m (x + 24))); (lvl + 1, TSub UWaiters)] ++
  flat_map (e_waiter base m (lvl + 2)) (s_waiters h x) ++ [(lvl + 1, TEnd); (lvl, TEnd)].

Ltac nz := match goal with |- context [?x + ?b =? 0] => destruct (Z.eqb_spec (x + b) 0); [lia|] end.

Lemma locker_eq : forall base m lvl x, 0 < base -> 0 < x -> dump_locker base m lvl (x + base) = e_locker base m lvl x.
Proof. intros. unfold dump_locker, dump_base, e_locker. nz. rewrite !at_pos. reflexivity. Qed.
Lemma mtx_eq : forall base m lvl x, 0 < base -> 0 < x -> dump_mtx base m lvl (x + base) = e_mtx base m lvl x.
Proof. intros. unfold dump_mtx, dump_base, e_mtx. nz. rewrite !at_pos. reflexivity. Qed.
Lemma waiter_eq : forall base m lvl x, 0 < base -> 0 < x -> dump_waiter base m lvl (x + base) = e_waiter base m lvl x.
Proof. intros. unfold dump_waiter, dump_base, e_waiter. nz. rewrite !at_pos. reflexivity. Qed.

Lemma off_eq : forall base m h lvl x fuel, 0 < base -> 0 < x ->
  leads m (x + 32) (s_readers h x) -> leads m (x + 40) (s_writers h x) ->
  (length (s_readers h x) < fuel)%nat -> (length (s_writers h x) < fuel)%nat ->
  dump_off fuel base m lvl (x + base) = Some (e_off base m h lvl x).
Proof.
  intros base m h lvl x fuel Hb Hx R W Fr Fw. unfold dump_off, dump_base. nz. rewrite !at_pos.
  rewrite (each_map base m _ (e_locker base m (lvl + 2)) (s_readers h x)); auto.
  - rewrite (each_map base m _ (e_locker base m (lvl + 2)) (s_writers h x)); auto.
    intros y Hy. f_equal. apply locker_eq; auto. exact (chain_pos _ _ _ _ _ W Hy).
  - intros y Hy. f_equal. apply locker_eq; auto. exact (chain_pos _ _ _ _ _ R Hy).
Qed.

Lemma file_eq : forall base m h lvl x fuel, 0 < base -> 0 < x -> long h fuel ->
  leads m (x + 24) (s_offs h x) ->
  (forall o, In o (s_offs h x) -> leads m (o + 32) (s_readers h o) /\ leads m (o + 40) (s_writers h o)) ->
  dump_file fuel base m lvl (x + base) = Some (e_file base m h lvl x).
Proof.
  intros base m h lvl x fuel Hb Hx (_ & Lo & Lr & Lw & _) O I. unfold dump_file, dump_base. nz. rewrite !at_pos.
  rewrite (each_map base m _ (e_off base m h (lvl + 2)) (s_offs h x)); auto.
  intros y Hy. destruct (I _ Hy). apply off_eq; auto. exact (chain_pos _ _ _ _ _ O Hy).
Qed.

Lemma cond_eq : forall base m h lvl x fuel, 0 < base -> 0 < x -> long h fuel ->
  leads m (x + 8) (s_waiters h x) -> dump_cond fuel base m lvl (x + base) = Some (e_cond base m h lvl x).
Proof.
  intros base m h lvl x fuel Hb Hx (_ & _ & _ & _ & Lw) W. unfold dump_cond, dump_base. nz. rewrite !at_pos.
  rewrite (each_map base m _ (e_waiter base m (lvl + 2)) (s_waiters h x)); auto.
  intros y Hy. f_equal. apply waiter_eq; auto. exact (chain_pos _ _ _ _ _ W Hy).
Qed.

Lemma head_eq : forall base m cell body g l, 0 < base -> chain 0 m (m cell) l ->
  (forall x, In x l -> body (x + base) = Some (g x)) ->
  head_only m base cell body = Some (flat_map g (first_of l)).
Proof.
  intros base m cell body g l Hb C B. unfold head_only. destruct l as [|x l].
  - inversion C. reflexivity.
  - apply chain_inv in C. destruct C as (E & Hx & _). rewrite E. destruct (Z.eqb_spec x 0); [lia|].
    rewrite to_abs_pos by auto. rewrite B by now left. cbn. now rewrite app_nil_r.
Qed.

(** ** The whole dump *)
Definition d_used (base : Z) (m : mem) (h : shape) : list (Z * text) :=
  ((0, TTitle) :: dump_head m) ++ sect SFile (flat_map (e_file base m h 1) (first_of (s_files h))) ++
  sect SMtx (flat_map (e_mtx base m 1) (first_of (s_mtxs h))) ++
  sect SCond (flat_map (e_cond base m h 1) (first_of (s_conds h))).
Definition d_free (base : Z) (m : mem) (h : shape) : list (Z * text) :=
  sect SFileFree (flat_map (e_file base m h 1) (s_file_free h)) ++
  sect SOffFree (flat_map (e_off base m h 1) (s_off_free h)) ++
  sect SLockerFree (flat_map (e_locker base m 1) (s_locker_free h)) ++
  sect SMtxFree (flat_map (e_mtx base m 1) (s_mtx_free h)) ++
  sect SCondFree (flat_map (e_cond base m h 1) (s_cond_free h)) ++
  sect SWaiterFree (flat_map (e_waiter base m 1) (s_waiter_free h)).

Lemma dump_eq : forall fuel base m h fr, 0 < base -> has_shape m h -> long h fuel ->
  Dump fuel true base m fr = Some (d_used base m h ++ if fr then d_free base m h else []).
Proof.
  intros fuel base m h fr Hb (Lf & Lm & Lc & Ff & Fo & Fl & Fm & Fc & Fw & If & Io & Ic) L.
  pose proof L as L'. destruct L as ((L1 & L2 & L3 & L4 & L5 & L6 & L7 & L8 & L9) & Lo & Lr & Lw & Lx).
  unfold leads in *. unfold Dump. cbn [negb].
  rewrite (head_eq base m h_file_lock_list _ (e_file base m h 1) (s_files h)); auto.
  2: { intros x Hx. destruct (If x) as (A & B); [apply in_or_app; now left|]. apply file_eq; auto. exact (chain_pos _ _ _ _ _ Lf Hx). }
  rewrite (head_eq base m h_named_mutex_list _ (e_mtx base m 1) (s_mtxs h)); auto.
  2: { intros x Hx. f_equal. apply mtx_eq; auto. exact (chain_pos _ _ _ _ _ Lm Hx). }
  rewrite (head_eq base m h_named_cond_list _ (e_cond base m h 1) (s_conds h)); auto.
  2: { intros x Hx. apply cond_eq; auto; [exact (chain_pos _ _ _ _ _ Lc Hx)|]. apply Ic. apply in_or_app. now left. }
  destruct fr.
  - rewrite (each_map base m _ (e_file base m h 1) (s_file_free h)); auto.
    2: { intros x Hx. destruct (If x) as (A & B); [apply in_or_app; now right|]. apply file_eq; auto. exact (chain_pos _ _ _ _ _ Ff Hx). }
    rewrite (each_map base m _ (e_off base m h 1) (s_off_free h)); auto.
    2: { intros x Hx. destruct (Io x Hx). apply off_eq; auto. exact (chain_pos _ _ _ _ _ Fo Hx). }
    rewrite (each_map base m _ (e_locker base m 1) (s_locker_free h)); auto.
    2: { intros x Hx. f_equal. apply locker_eq; auto. exact (chain_pos _ _ _ _ _ Fl Hx). }
    rewrite (each_map base m _ (e_mtx base m 1) (s_mtx_free h)); auto.
    2: { intros x Hx. f_equal. apply mtx_eq; auto. exact (chain_pos _ _ _ _ _ Fm Hx). }
    rewrite (each_map base m _ (e_cond base m h 1) (s_cond_free h)); auto.
    2: { intros x Hx. apply cond_eq; auto; [exact (chain_pos _ _ _ _ _ Fc Hx)|]. apply Ic. apply in_or_app. now right. }
    rewrite (each_map base m _ (e_waiter base m 1) (s_waiter_free h)); auto.
    2: { intros x Hx. f_equal. apply waiter_eq; auto. exact (chain_pos _ _ _ _ _ Fw Hx). }
    cbn [all_some osect app]. f_equal. unfold d_used, d_free. rewrite ?app_nil_r, <- ?app_assoc. reflexivity.
  - cbn [all_some osect app]. f_equal. unfold d_used. rewrite ?app_nil_r, <- ?app_assoc. reflexivity.
Qed.

(** ** Reading it *)
Definition indented (ls : list (Z * text)) : Prop := Forall (fun x => 0 < fst x) ls.

Lemma until_indented : forall ls r, indented ls -> until_brace (ls ++ (0, TEnd) :: r) = ls.
Proof.
  intros ls r H. induction H as [|[i t] ls Hi H IH]; [reflexivity|].
  cbn [app until_brace]. cbn in Hi. destruct i; try lia. now rewrite IH.
Qed.
Lemma sec_skip : forall s ls r, indented ls -> sec s (ls ++ r) = sec s r.
Proof.
  intros s ls r H. induction H as [|[i t] ls Hi H IH]; [reflexivity|].
  cbn [app sec]. cbn in Hi. destruct i; try lia. now rewrite IH.
Qed.
Lemma sec_sect : forall s s' ls r, indented ls ->
  sec s (sect s' ls ++ r) = if section_eqb s s' then ls else sec s r.
Proof.
  intros s s' ls r H. unfold sect. rewrite <- !app_assoc. cbn [app sec]. destruct (section_eqb s s').
  - now apply until_indented.
  - rewrite sec_skip by auto. reflexivity.
Qed.

Lemma ind_app : forall a b, indented a -> indented b -> indented (a ++ b).
Proof. intros. now apply Forall_app. Qed.
Lemma ind_flat : forall (g : Z -> list (Z * text)) l, (forall x, indented (g x)) -> indented (flat_map g l).
Proof. intros g l H. induction l; cbn; [constructor|]. apply ind_app; auto. Qed.

Ltac ind := repeat match goal with
  | |- indented (_ ++ _) => apply ind_app
  | |- indented (flat_map _ _) => apply ind_flat; intros ?
  | |- indented (_ :: _) => constructor; [cbn; lia|]
  | |- Forall _ (_ :: _) => constructor; [cbn; lia|]
  | |- indented [] => constructor
  | |- Forall _ [] => constructor
  end.
Lemma ind_locker : forall base m lvl x, 0 < lvl -> indented (e_locker base m lvl x).
Proof. intros. unfold e_locker. ind. Qed.
Lemma ind_off : forall base m h lvl x, 0 < lvl -> indented (e_off base m h lvl x).
Proof. intros. unfold e_off. ind; apply ind_locker; lia. Qed.
Lemma ind_file : forall base m h lvl x, 0 < lvl -> indented (e_file base m h lvl x).
Proof. intros. unfold e_file. ind; apply ind_off; lia. Qed.
Lemma ind_dmtx : forall base m lvl p, 0 < lvl -> indented (dump_mtx base m lvl p).
Proof. intros. unfold dump_mtx, dump_base. destruct (p =? 0); ind. Qed.
Lemma ind_mtx : forall base m lvl x, 0 < lvl -> indented (e_mtx base m lvl x).
Proof. intros. unfold e_mtx. ind. Qed.
Lemma ind_waiter : forall base m lvl x, 0 < lvl -> indented (e_waiter base m lvl x).
Proof. intros. unfold e_waiter. apply ind_app; [ind|]. apply ind_app; [apply ind_dmtx; lia|]. ind. Qed.
Lemma ind_cond : forall base m h lvl x, 0 < lvl -> indented (e_cond base m h lvl x).
Proof. intros. unfold e_cond. ind; apply ind_waiter; lia. Qed.

Definition section_lines (base : Z) (m : mem) (h : shape) (s : section_name) : list (Z * text) :=
  match s with
  | SFile => flat_map (e_file base m h 1) (first_of (s_files h))
  | SMtx => flat_map (e_mtx base m 1) (first_of (s_mtxs h))
  | SCond => flat_map (e_cond base m h 1) (first_of (s_conds h))
  | SFileFree => flat_map (e_file base m h 1) (s_file_free h)
  | SOffFree => flat_map (e_off base m h 1) (s_off_free h)
  | SLockerFree => flat_map (e_locker base m 1) (s_locker_free h)
  | SMtxFree => flat_map (e_mtx base m 1) (s_mtx_free h)
  | SCondFree => flat_map (e_cond base m h 1) (s_cond_free h)
  | SWaiterFree => flat_map (e_waiter base m 1) (s_waiter_free h)
  end.
Definition in_use (s : section_name) : bool := match s with SFile | SMtx | SCond => true | _ => false end.

Lemma sec_header : forall s m r, sec s (((0, TTitle) :: dump_head m) ++ r) = sec s r.
Proof. reflexivity. Qed.
Lemma section_read : forall base m h fr s, (in_use s = true \/ fr = true) ->
  sec s (d_used base m h ++ if fr then d_free base m h else []) = section_lines base m h s.
Proof.
  intros base m h fr s H. unfold d_used.
  rewrite <- !app_assoc.
  pose proof (fun l => ind_flat (e_file base m h 1) l (fun x => ind_file base m h 1 x eq_refl)) as I1.
  pose proof (fun l => ind_flat (e_mtx base m 1) l (fun x => ind_mtx base m 1 x eq_refl)) as I2.
  pose proof (fun l => ind_flat (e_cond base m h 1) l (fun x => ind_cond base m h 1 x eq_refl)) as I3.
  pose proof (fun l => ind_flat (e_off base m h 1) l (fun x => ind_off base m h 1 x eq_refl)) as I4.
  pose proof (fun l => ind_flat (e_locker base m 1) l (fun x => ind_locker base m 1 x eq_refl)) as I5.
  pose proof (fun l => ind_flat (e_waiter base m 1) l (fun x => ind_waiter base m 1 x eq_refl)) as I6.
  rewrite sec_header, !sec_sect by auto. destruct s; cbn [section_eqb section_lines]; auto;
    destruct H as [H|H]; try discriminate; subst fr; unfold d_free; rewrite !sec_sect by auto; cbn [section_eqb]; auto.
  rewrite <- (app_nil_r (sect SWaiterFree _)). now rewrite sec_sect by auto.
Qed.

(** what is shown in a sequence of lines *)
Lemma shown_app : forall k n a b, shown k n (a ++ b) = shown k n a ++ shown k n b.
Proof.
  intros k n a b. induction a as [|[i t] a IH]; [reflexivity|]. cbn [app shown]. destruct t; auto.
  destruct ((i =? n) && kind_eqb k k0); cbn [app]; now rewrite IH.
Qed.
Lemma shown_flat : forall k n (g : Z -> list (Z * text)) (q : Z -> list Z) l,
  (forall x, In x l -> shown k n (g x) = q x) -> shown k n (flat_map g l) = flat_map q l.
Proof.
  intros k n g q l H. induction l as [|x l IH]; [reflexivity|]. cbn [flat_map]. rewrite shown_app, H by now left.
  rewrite IH; auto. intros y Hy. apply H. now right.
Qed.
Lemma flat_sing : forall base l, flat_map (fun x => [x + base]) l = mapped base l.
Proof. intros base l. induction l as [|x l IH]; [reflexivity|]. cbn [flat_map app mapped map]. now rewrite IH. Qed.
Lemma flat_mapped : forall base (q : Z -> list Z) l, flat_map (fun x => mapped base (q x)) l = mapped base (flat_map q l).
Proof. intros base q l. induction l; cbn; auto. unfold mapped in *. now rewrite map_app, IHl. Qed.
Lemma flat_nil : forall (l : list Z), flat_map (fun _ => @nil Z) l = [].
Proof. induction l; auto. Qed.
Lemma mapped_app : forall base a b, mapped base (a ++ b) = mapped base a ++ mapped base b.
Proof. intros. apply map_app. Qed.

(** deeper lines than n show nothing at n *)
Definition deeper (n : Z) (ls : list (Z * text)) : Prop := Forall (fun x => n < fst x) ls.
Lemma shown_deeper : forall k n ls, deeper n ls -> shown k n ls = [].
Proof.
  intros k n ls H. induction H as [|[i t] ls Hi H IH]; [reflexivity|]. cbn [shown]. cbn in Hi. destruct t; auto.
  destruct (Z.eqb_spec i n); [lia|]. auto.
Qed.
Lemma deep_app : forall n a b, deeper n a -> deeper n b -> deeper n (a ++ b).
Proof. intros. now apply Forall_app. Qed.
Lemma deep_flat : forall n (g : Z -> list (Z * text)) l, (forall x, deeper n (g x)) -> deeper n (flat_map g l).
Proof. intros n g l H. induction l; cbn; [constructor|]. apply deep_app; auto. Qed.
Ltac deep := repeat match goal with
  | |- deeper _ (_ ++ _) => apply deep_app
  | |- deeper _ (flat_map _ _) => apply deep_flat; intros ?
  | |- deeper _ (_ :: _) => constructor; [cbn; lia|]
  | |- Forall _ (_ :: _) => constructor; [cbn; lia|]
  | |- deeper _ [] => constructor
  | |- Forall _ [] => constructor
  end.
Lemma deep_locker : forall n base m lvl x, n < lvl -> deeper n (e_locker base m lvl x).
Proof. intros. unfold e_locker. deep. Qed.
Lemma deep_off : forall n base m h lvl x, n < lvl -> deeper n (e_off base m h lvl x).
Proof. intros. unfold e_off. deep; apply deep_locker; lia. Qed.
Lemma deep_dmtx : forall n base m lvl p, n < lvl -> deeper n (dump_mtx base m lvl p).
Proof. intros. unfold dump_mtx, dump_base. destruct (p =? 0); deep. Qed.
Lemma deep_waiter : forall n base m lvl x, n < lvl -> deeper n (e_waiter base m lvl x).
Proof. intros. unfold e_waiter. apply deep_app; [deep|]. apply deep_app; [apply deep_dmtx; lia|]. deep. Qed.

Ltac eqbs := repeat match goal with
  | |- context [?a =? ?b] => first [ replace (a =? b) with true by (symmetry; apply Z.eqb_eq; lia)
                                   | replace (a =? b) with false by (symmetry; apply Z.eqb_neq; lia) ] end.

Lemma shown_locker : forall base m lvl x, shown KLocker lvl (e_locker base m lvl x) = [x + base].
Proof. intros. unfold e_locker. cbn [shown kind_eqb]. eqbs. reflexivity. Qed.
Lemma shown_off : forall base m h lvl x, shown KOff lvl (e_off base m h lvl x) = [x + base].
Proof.
  intros. unfold e_off. rewrite !shown_app. cbn [shown kind_eqb]. eqbs. cbn [andb app].
  rewrite !shown_deeper; auto; apply deep_flat; intros; apply deep_locker; lia.
Qed.
Lemma shown_off_lockers : forall base m h lvl x,
  shown KLocker (lvl + 2) (e_off base m h lvl x) = mapped base (s_readers h x ++ s_writers h x).
Proof.
  intros. unfold e_off. rewrite !shown_app. cbn [shown kind_eqb]. eqbs. cbn [andb app].
  rewrite !(shown_flat _ _ _ (fun x => [x + base])) by (intros; apply shown_locker).
  rewrite !flat_sing, app_nil_r, mapped_app. reflexivity.
Qed.
Lemma shown_file : forall base m h lvl x, shown KFile lvl (e_file base m h lvl x) = [x + base].
Proof.
  intros. unfold e_file. rewrite !shown_app. cbn [shown kind_eqb]. eqbs. cbn [andb app].
  rewrite shown_deeper; auto; apply deep_flat; intros; apply deep_off; lia.
Qed.
Lemma shown_file_offs : forall base m h lvl x, shown KOff (lvl + 2) (e_file base m h lvl x) = mapped base (s_offs h x).
Proof.
  intros. unfold e_file. rewrite !shown_app. cbn [shown kind_eqb]. eqbs. cbn [andb app].
  rewrite (shown_flat _ _ _ (fun x => [x + base])) by (intros; apply shown_off).
  now rewrite flat_sing, app_nil_r.
Qed.
Lemma shown_file_lockers : forall base m h lvl x, shown KLocker (lvl + 4) (e_file base m h lvl x) =
  mapped base (flat_map (fun o => s_readers h o ++ s_writers h o) (s_offs h x)).
Proof.
  intros. unfold e_file. rewrite !shown_app. cbn [shown kind_eqb]. eqbs. cbn [andb app].
  replace (lvl + 4) with (lvl + 2 + 2) by lia.
  rewrite (shown_flat _ _ _ (fun o => mapped base (s_readers h o ++ s_writers h o))) by (intros; apply shown_off_lockers).
  now rewrite flat_mapped, app_nil_r.
Qed.
Lemma shown_mtx : forall base m lvl x, shown KMtx lvl (e_mtx base m lvl x) = [x + base].
Proof. intros. unfold e_mtx. cbn [shown kind_eqb]. eqbs. reflexivity. Qed.
Lemma shown_waiter : forall base m lvl x, shown KWaiter lvl (e_waiter base m lvl x) = [x + base].
Proof.
  intros. unfold e_waiter. rewrite !shown_app. cbn [shown kind_eqb]. eqbs. cbn [andb app].
  rewrite shown_deeper; auto. apply deep_dmtx. lia.
Qed.
Lemma shown_cond : forall base m h lvl x, shown KCond lvl (e_cond base m h lvl x) = [x + base].
Proof.
  intros. unfold e_cond. rewrite !shown_app. cbn [shown kind_eqb]. eqbs. cbn [andb app].
  rewrite shown_deeper; auto. apply deep_flat; intros; apply deep_waiter; lia.
Qed.
Lemma shown_cond_waiters : forall base m h lvl x, shown KWaiter (lvl + 2) (e_cond base m h lvl x) = mapped base (s_waiters h x).
Proof.
  intros. unfold e_cond. rewrite !shown_app. cbn [shown kind_eqb]. eqbs. cbn [andb app].
  rewrite (shown_flat _ _ _ (fun x => [x + base])) by (intros; apply shown_waiter).
  now rewrite flat_sing, app_nil_r.
Qed.

(** ** Values *)
Lemma first_app : forall f a b v, first_field f a = Some v -> first_field f (a ++ b) = Some v.
Proof.
  intros f a b v. induction a as [|[i t] a IH]; [discriminate|]. cbn [app first_field]. destruct t; auto.
  destruct (field_eqb f f0); auto.
Qed.
Lemma kind_eqb_refl : forall k, kind_eqb k k = true.
Proof. destruct k; reflexivity. Qed.
Lemma kind_eqb_eq : forall a b, kind_eqb a b = true -> a = b.
Proof. destruct a, b; auto; discriminate. Qed.

(** every occurrence of the entry in these lines is followed, within them, by this value *)
Definition says (k : kind) (n p : Z) (f : field) (v : Z) (ls : list (Z * text)) : Prop :=
  In (n, TOpen k p) ls -> value_of k n p f ls = Some v.

Lemma value_none : forall k n p f ls, ~ In (n, TOpen k p) ls -> forall b, value_of k n p f (ls ++ b) = value_of k n p f b.
Proof.
  intros k n p f ls H b. induction ls as [|[i t] ls IH]; [reflexivity|]. cbn [app value_of].
  rewrite IH by (intros X; apply H; now right). destruct t; auto.
  destruct ((i =? n) && kind_eqb k k0 && (p0 =? p)) eqn:E; auto.
  apply andb_true_iff in E. destruct E as [E E3]. apply andb_true_iff in E. destruct E as [E1 E2].
  apply Z.eqb_eq in E1, E3. apply kind_eqb_eq in E2. subst. exfalso. apply H. now left.
Qed.
Lemma value_app : forall k n p f v a b, value_of k n p f a = Some v -> value_of k n p f (a ++ b) = Some v.
Proof.
  intros k n p f v a b. induction a as [|[i t] a IH]; [discriminate|]. cbn [app value_of]. destruct t; auto.
  destruct ((i =? n) && kind_eqb k k0 && (p0 =? p)); auto. apply first_app.
Qed.
Lemma line_dec : forall (x y : Z * text), {x = y} + {x <> y}.
Proof. repeat decide equality. Qed.
Lemma says_app : forall k n p f v a b, says k n p f v a -> says k n p f v b -> says k n p f v (a ++ b).
Proof.
  intros k n p f v a b A B H. destruct (in_dec line_dec (n, TOpen k p) a) as [I|I].
  - apply value_app. auto.
  - rewrite value_none by auto. apply in_app_or in H. destruct H; [tauto|]. auto.
Qed.
Lemma says_flat : forall k n p f v (g : Z -> list (Z * text)) l,
  (forall x, In x l -> says k n p f v (g x)) -> says k n p f v (flat_map g l).
Proof.
  intros k n p f v g l H. induction l as [|x l IH]; cbn; [intros []|].
  apply says_app; [apply H; now left|]. apply IH. intros y Hy. apply H. now right.
Qed.
Lemma says_absent : forall k n p f v ls, ~ In (n, TOpen k p) ls -> says k n p f v ls.
Proof. intros k n p f v ls H I. tauto. Qed.

Lemma shown_in : forall k n ls p, In p (shown k n ls) <-> In (n, TOpen k p) ls.
Proof.
  intros k n ls p. induction ls as [|[i t] ls IH]; [reflexivity|]. cbn [shown In]. destruct t;
    try (rewrite IH; split; [now right | intros [E|E]; [discriminate|auto]]).
  destruct ((i =? n) && kind_eqb k k0) eqn:E.
  - apply andb_true_iff in E. destruct E as [E1 E2]. apply Z.eqb_eq in E1. apply kind_eqb_eq in E2. subst.
    cbn [In]. rewrite IH. split; (intros [H|H]; [left; congruence | now right]).
  - rewrite IH. split; [now right|]. intros [H|H]; auto. injection H as -> -> ->.
    rewrite Z.eqb_refl, kind_eqb_refl in E. discriminate.
Qed.

(** every entry shown comes with the values of its members *)
Definition truthful (base : Z) (m : mem) (ls : list (Z * text)) : Prop :=
  forall k n p f o, In (f, o) (members k) -> says k n p f (m (p - base + o)) ls.
Lemma tr_app : forall base m a b, truthful base m a -> truthful base m b -> truthful base m (a ++ b).
Proof. intros base m a b A B k n p f o H. apply says_app; auto. Qed.
Lemma tr_flat : forall base m (g : Z -> list (Z * text)) l, (forall x, truthful base m (g x)) -> truthful base m (flat_map g l).
Proof. intros base m g l H k n p f o M. apply says_flat. intros x _. now apply H. Qed.
Lemma tr_closed : forall base m ls, (forall k n p, ~ In (n, TOpen k p) ls) -> truthful base m ls.
Proof. intros base m ls H k n p f o M. apply says_absent. auto. Qed.

Ltac here := intros k n p f o M I; cbn [In] in I;
  repeat match type of I with _ \/ _ => destruct I as [I|I]; [try discriminate I|] | False => destruct I end;
  injection I as <- <- <-; cbn [value_of kind_eqb]; rewrite !Z.eqb_refl; cbn [andb];
  cbn [members In] in M;
  repeat match type of M with _ \/ _ => destruct M as [M|M] | False => destruct M end;
  injection M as <- <-; cbn [first_field field_eqb]; f_equal; f_equal; lia.
Ltac closed := apply tr_closed; intros k n p I; cbn [In] in I;
  repeat match type of I with _ \/ _ => destruct I as [I|I]; [discriminate I|] end; destruct I.

Lemma tr_locker : forall base m lvl x, truthful base m (e_locker base m lvl x).
Proof. intros. unfold e_locker. here. Qed.
Lemma tr_mtx : forall base m lvl x, truthful base m (e_mtx base m lvl x).
Proof. intros. unfold e_mtx. here. Qed.
Lemma tr_dmtx : forall base m lvl q, truthful base m (dump_mtx base m lvl q).
Proof.
  intros. unfold dump_mtx, dump_base. destruct (q =? 0); [closed|]. cbn [app]. unfold at_, m_hash, m_name. here.
Qed.
Lemma tr_off : forall base m h lvl x, truthful base m (e_off base m h lvl x).
Proof.
  intros. unfold e_off. apply tr_app; [here|]. apply tr_app; [apply tr_flat; intros; apply tr_locker|].
  apply tr_app; [closed|]. apply tr_app; [apply tr_flat; intros; apply tr_locker|]. closed.
Qed.
Lemma tr_file : forall base m h lvl x, truthful base m (e_file base m h lvl x).
Proof. intros. unfold e_file. apply tr_app; [here|]. apply tr_app; [apply tr_flat; intros; apply tr_off|]. closed. Qed.
Lemma tr_waiter : forall base m lvl x, truthful base m (e_waiter base m lvl x).
Proof. intros. unfold e_waiter. apply tr_app; [here|]. apply tr_app; [apply tr_dmtx|]. closed. Qed.
Lemma tr_cond : forall base m h lvl x, truthful base m (e_cond base m h lvl x).
Proof. intros. unfold e_cond. apply tr_app; [here|]. apply tr_app; [apply tr_flat; intros; apply tr_waiter|]. closed. Qed.

Lemma tr_section : forall base m h s, truthful base m (section_lines base m h s).
Proof.
  intros base m h s. destruct s; cbn [section_lines]; apply tr_flat; intros;
    auto using tr_file, tr_mtx, tr_cond, tr_off, tr_locker, tr_waiter.
Qed.

(** a section that was not asked for is empty *)
Lemma section_none : forall base m h s, in_use s = false -> sec s (d_used base m h ++ []) = [].
Proof.
  intros base m h s H. unfold d_used. rewrite <- !app_assoc.
  pose proof (fun l => ind_flat (e_file base m h 1) l (fun x => ind_file base m h 1 x eq_refl)) as I1.
  pose proof (fun l => ind_flat (e_mtx base m 1) l (fun x => ind_mtx base m 1 x eq_refl)) as I2.
  pose proof (fun l => ind_flat (e_cond base m h 1) l (fun x => ind_cond base m h 1 x eq_refl)) as I3.
  rewrite sec_header, !sec_sect by auto. destruct s; cbn; auto; discriminate.
Qed.
