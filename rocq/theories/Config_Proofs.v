(** Lemmas for the configuration properties. *)
From Coq Require Import List Bool Ascii String ZArith Lia.
From Verif Require Import Base Path_Model Path_Spec Path_Proofs Layout_Model Layout_Spec Config_Model Config_Spec.
Import ListNotations.
Open Scope Z_scope.

(** ** Characters *)
Lemma code_bounds : forall c, 0 <= code c < 256.
Proof. intro c. unfold code. pose proof (nat_ascii_bounded c). lia. Qed.
Lemma code_inj : forall a b, code a = code b -> a = b.
Proof. intros a b H. unfold code in H. apply Nat2Z.inj in H. rewrite <- (ascii_nat_embedding a), <- (ascii_nat_embedding b), H. reflexivity. Qed.

Lemma digit10_iff : forall c d, digit 10 c = Some d <-> digit_char c d.
Proof.
  intros c d. unfold digit, digit_char. fold (code c). pose proof (code_bounds c) as B.
  destruct (Z.leb_spec 48 (code c)), (Z.leb_spec (code c) 57); cbn [andb].
  - destruct (Z.ltb_spec (code c - 48) 10); [|lia]. split; [intro E; injection E as <-; lia | intros [H2 H3]; f_equal; lia].
  - split; [|lia]. intro E. exfalso. revert E.
    destruct (Z.leb_spec 65 (code c)), (Z.leb_spec (code c) 90), (Z.leb_spec 97 (code c)), (Z.leb_spec (code c) 122); cbn [andb];
      repeat match goal with |- context [?a <? 10] => destruct (Z.ltb_spec a 10); try lia end; intro E; discriminate E.
  - split; [|lia]. intro E. exfalso. revert E.
    destruct (Z.leb_spec 65 (code c)), (Z.leb_spec (code c) 90), (Z.leb_spec 97 (code c)), (Z.leb_spec (code c) 122); cbn [andb];
      repeat match goal with |- context [?a <? 10] => destruct (Z.ltb_spec a 10); try lia end; intro E; discriminate E.
  - lia.
Qed.
Lemma digit_base : forall b c d, 0 < b <= 10 -> (digit b c = Some d <-> digit_char c d /\ d < b).
Proof.
  intros b c d B. unfold digit, digit_char. fold (code c). pose proof (code_bounds c) as Bc.
  match goal with |- (if ?x <? b then _ else _) = _ <-> _ => set (v := x) end.
  assert (V : 48 <= code c <= 57 /\ v = code c - 48 \/ ~ 48 <= code c <= 57 /\ 10 <= v).
  { unfold v. destruct (Z.leb_spec 48 (code c)), (Z.leb_spec (code c) 57); cbn [andb]; try (left; lia);
      destruct (Z.leb_spec 65 (code c)), (Z.leb_spec (code c) 90), (Z.leb_spec 97 (code c)), (Z.leb_spec (code c) 122); cbn [andb]; lia. }
  destruct (Z.ltb_spec v b).
  - split; [intro E; injection E as <-; lia | intro; f_equal; lia].
  - split; [intro E; discriminate E | lia].
Qed.
Lemma digit10_none : forall c, digit 10 c = None <-> not_digit c.
Proof.
  intro c. unfold not_digit. split.
  - intros E d H. apply digit10_iff in H. congruence.
  - intro H. destruct (digit 10 c) eqn:E; auto. apply digit10_iff in E. exfalso. exact (H _ E).
Qed.

Lemma isspace_iff : forall c, isspace c = true <-> blank c.
Proof.
  intro c. unfold isspace, blank. fold (code c). rewrite orb_true_iff, andb_true_iff, !Z.leb_le, Z.eqb_eq. lia.
Qed.

Lemma lower_eq_iff : forall a b, lower a = lower b <-> same_letter a b.
Proof.
  intros a b. unfold lower, same_letter. fold (code a) (code b).
  split.
  - destruct (Z.leb_spec 65 (code a)), (Z.leb_spec (code a) 90), (Z.leb_spec 65 (code b)), (Z.leb_spec (code b) 90); cbn [andb]; intro E;
      try (left; apply code_inj; lia).
    + right. exists a, b. fold (code a) (code b). split; [left; auto | lia].
    + right. exists b, a. fold (code a) (code b). split; [right; auto | lia].
  - intros [->|(x & y & [[-> ->]|[-> ->]] & R & S)]; auto; fold (code x) (code y) in *;
    destruct (Z.leb_spec 65 (code x)), (Z.leb_spec (code x) 90), (Z.leb_spec 65 (code y)), (Z.leb_spec (code y) 90); cbn [andb]; lia.
Qed.
Lemma is_word_iff : forall s w, is_word s w = true <-> same_word s w.
Proof.
  intros s w. unfold is_word, same_word. generalize (tx w). clear w. induction s as [|c s IH]; intros [|d t]; cbn [strcasecmp_eq].
  - split; auto.
  - split; [intro X; discriminate X | intro X; inversion X].
  - split; [intro X; discriminate X | intro X; inversion X].
  - rewrite andb_true_iff, Z.eqb_eq, lower_eq_iff, IH. split.
    + intros [A B]. constructor; auto.
    + intro X. inversion X; subst. auto.
Qed.
Lemma is_word_false : forall s w, is_word s w = false <-> ~ same_word s w.
Proof. intros. rewrite <- is_word_iff. destruct (is_word s w); split; intro; congruence. Qed.

(** ** Numbers *)
Lemma scan_stop : forall b acc rest, (forall c r, rest = c :: r -> digit b c = None) -> scan b acc rest = acc.
Proof. intros b acc [|c r] H; [reflexivity|]. cbn [scan]. rewrite (H c r eq_refl). reflexivity. Qed.
Lemma scan_numeral : forall b s n, 0 < b <= 10 -> numeral b s n -> forall acc rest, exists k, 0 < k /\ 
  scan b acc (s ++ rest) = scan b (acc * k + n) rest.
Proof.
  intros b s n B H. induction H as [c d D L|s n c d _ IH D L]; intros acc rest.
  - exists b. split; [lia|]. cbn [app scan]. rewrite (proj2 (digit_base b c d B) (conj D L)). f_equal. 
  - destruct (IH acc (c :: rest)) as (k & K & E). exists (k * b). split; [nia|]. rewrite <- app_assoc. cbn [app]. rewrite E. cbn [scan].
    rewrite (proj2 (digit_base b c d B) (conj D L)). f_equal. ring.
Qed.
Lemma scan_whole : forall b s n rest, 0 < b <= 10 -> numeral b s n -> (forall c r, rest = c :: r -> digit b c = None) -> scan b 0 (s ++ rest) = n.
Proof.
  intros b s n rest B H R. destruct (scan_numeral b s n B H 0 rest) as (k & _ & E). rewrite E, scan_stop by exact R. ring.
Qed.
Lemma numeral_nonneg : forall b s n, 0 < b -> numeral b s n -> 0 <= n.
Proof. intros b s n B H. induction H as [c d D L|s n c d _ IH D L]; destruct D; nia. Qed.
Lemma numeral_head : forall b s n, numeral b s n -> exists c r d, s = c :: r /\ digit_char c d.
Proof.
  intros b s n H. induction H as [c d D L|s n c d _ IH D L]; [exists c, [], d; auto|].
  destruct IH as (x & r & y & -> & X). exists x, (r ++ [c]), y. auto.
Qed.
Lemma numeral_fun : forall b s n m, 0 < b <= 10 -> numeral b s n -> numeral b s m -> n = m.
Proof.
  intros b s n m B H1 H2. assert (E : forall c r, @nil ascii = c :: r -> digit b c = None) by (intros c r X; discriminate X).
  rewrite <- (scan_whole b s n [] B H1 E), <- (scan_whole b s m [] B H2 E). reflexivity.
Qed.

Lemma skip_blanks : forall bl s, Forall blank bl -> (forall c r, s = c :: r -> isspace c = false) -> skip_space (bl ++ s) = s.
Proof.
  induction bl as [|c bl IH]; intros s F H; cbn [app].
  - destruct s as [|c r]; [reflexivity|]. cbn [skip_space]. rewrite (H c r eq_refl). reflexivity.
  - inversion F; subst. cbn [skip_space]. rewrite (proj2 (isspace_iff c)) by assumption. apply IH; auto.
Qed.
Lemma digit_not_blank : forall c d, digit_char c d -> isspace c = false /\ Ascii.eqb c "-" = false /\ Ascii.eqb c "+" = false.
Proof.
  intros c d [D E]. fold (code c) in E. split.
  - unfold isspace. destruct (Z.leb_spec 9 (code c)), (Z.leb_spec (code c) 13), (Z.eqb_spec (code c) 32); cbn [andb orb]; auto; lia.
  - split; [destruct (Ascii.eqb_spec c "-") as [->|]|destruct (Ascii.eqb_spec c "+") as [->|]]; auto.
    + change (code "-") with 45 in E. lia.
    + change (code "+") with 43 in E. lia.
Qed.

Definition clamp (v : Z) : Z := if v <? - two63 then - two63 else if two63 - 1 <? v then two63 - 1 else v.
Lemma strtol_clamp : forall s, exists neg s1, sign_of (skip_space s) = (neg, s1) /\
  fst (strtol 10 s) = clamp (if neg then - scan 10 0 s1 else scan 10 0 s1).
Proof.
  intro s. unfold strtol. destruct (sign_of (skip_space s)) as [neg s1] eqn:E. exists neg, s1. split; auto.
  cbn [pick_base Z.eqb]. unfold clamp. destruct ((if neg then - scan 10 0 s1 else scan 10 0 s1) <? - two63); auto.
  destruct (two63 - 1 <? (if neg then - scan 10 0 s1 else scan 10 0 s1)); auto.
Qed.

Lemma reads_sign : forall bl sg k t, Forall blank bl -> sign sg k ->
  (forall c r, t = c :: r -> sg = [] -> isspace c = false /\ Ascii.eqb c "-" = false /\ Ascii.eqb c "+" = false) ->
  sign_of (skip_space (bl ++ sg ++ t)) = (k <? 0, t).
Proof.
  intros bl sg k t B S H. rewrite skip_blanks; [|auto|].
  - destruct S; cbn [app].
    + destruct t as [|c r]; [reflexivity|]. destruct (H c r eq_refl eq_refl) as (_ & E1 & E2). unfold sign_of. rewrite E1, E2. reflexivity.
    + reflexivity.
    + reflexivity.
  - intros c r E. destruct S; cbn in E; [destruct (H c r E eq_refl); auto|injection E as <- _; reflexivity|injection E as <- _; reflexivity].
Qed.

Lemma strtol_reads : forall s v, reads s v -> fst (strtol 10 s) = clamp v.
Proof.
  intros s v H. destruct (strtol_clamp s) as (neg & s1 & E & ->). f_equal.
  destruct H as [bl sg k ds n rest -> B S N R|bl sg k rest -> B S R].
  - destruct (numeral_head _ _ _ N) as (c & r & d & -> & D).
    rewrite (reads_sign bl sg k ((c :: r) ++ rest) B S) in E.
    2:{ intros x y X _. cbn in X. injection X as <- _. exact (digit_not_blank _ _ D). }
    injection E as <- <-. change (c :: r ++ rest) with ((c :: r) ++ rest).
    rewrite (scan_whole 10 (c :: r) n rest ltac:(lia) N) by (intros x y X; apply digit10_none; eapply R; eauto).
    destruct S; [change (1 <? 0) with false|change (1 <? 0) with false|change (-1 <? 0) with true]; cbv iota; lia.
  - rewrite (reads_sign bl sg k rest B S) in E.
    2:{ intros c r X Y. destruct (R c r X) as [_ Z]. destruct (Z Y) as (Z1 & Z2 & Z3). split.
        - destruct (isspace c) eqn:Q; auto. apply isspace_iff in Q. contradiction.
        - split; destruct (Ascii.eqb_spec c "-"), (Ascii.eqb_spec c "+"); congruence. }
    injection E as <- <-. rewrite scan_stop by (intros x y X; apply digit10_none; apply (R x y X)). destruct (k <? 0); reflexivity.
Qed.

Lemma split_digits : forall s, (exists ds n rest, s = ds ++ rest /\ numeral 10 ds n /\ (forall c r, rest = c :: r -> not_digit c)) \/
  (forall c r, s = c :: r -> not_digit c).
Proof.
  intro s. 
  assert (G : forall s ds n, numeral 10 ds n -> exists ds' n' rest, ds ++ s = ds' ++ rest /\ numeral 10 ds' n' /\ (forall c r, rest = c :: r -> not_digit c)).
  { clear. induction s as [|c s IH]; intros ds n N.
    - exists ds, n, []. split; auto. split; auto. intros c r X; discriminate X.
    - destruct (digit 10 c) as [d|] eqn:D.
      + apply digit10_iff in D. destruct (IH (ds ++ [c]) (10 * n + d)) as (ds' & n' & rest & E & N' & R).
        * apply num_more; auto. destruct D; lia.
        * exists ds', n', rest. rewrite <- app_assoc in E. auto.
      + exists ds, n, (c :: s). split; auto. split; auto. intros x y X. injection X as <- _. apply digit10_none; auto. }
  destruct s as [|c s]; [right; intros c r X; discriminate X|].
  destruct (digit 10 c) as [d|] eqn:D.
  - left. apply digit10_iff in D. destruct (G s [c] d) as (ds' & n' & rest & E & N' & R).
    + apply num_one; auto. destruct D; lia.
    + exists ds', n', rest. auto.
  - right. intros x r X. injection X as <- _. apply digit10_none; auto.
Qed.
Lemma split_blanks : forall s, exists bl t, s = bl ++ t /\ Forall blank bl /\ forall c r, t = c :: r -> ~ blank c.
Proof.
  induction s as [|c s IH].
  - exists [], []. split; auto. split; auto. intros c r X; discriminate X.
  - destruct (isspace c) eqn:E.
    + destruct IH as (bl & t & -> & B & T). exists (c :: bl), t. split; auto. split; auto. constructor; auto. apply isspace_iff; auto.
    + exists [], (c :: s). split; auto. split; auto. intros x r X. injection X as <- _. rewrite <- isspace_iff. congruence.
Qed.
(** every string begins with a number in this sense *)
Lemma reads_total : forall s, exists v, reads s v.
Proof.
  intro s. destruct (split_blanks s) as (bl & t & -> & B & T).
  assert (SG : exists sg k u, t = sg ++ u /\ sign sg k /\ (sg = [] -> forall c r, u = c :: r -> ~ blank c /\ c <> "+"%char /\ c <> "-"%char)).
  { destruct t as [|c r].
    - exists [], 1, []. split; auto. split; [constructor|]. intros _ c r X; discriminate X.
    - destruct (Ascii.eqb_spec c "+"); [subst; exists (tx "+"), 1, r; split; auto; split; [constructor | intro X; discriminate X]|].
      destruct (Ascii.eqb_spec c "-"); [subst; exists (tx "-"), (-1), r; split; auto; split; [constructor | intro X; discriminate X]|].
      exists [], 1, (c :: r). split; auto. split; [constructor|]. intros _ x y X. split; [eapply T; eauto|]. injection X as <- _. auto. }
  destruct SG as (sg & k & u & -> & S & U).
  destruct (split_digits u) as [(ds & n & rest & -> & N & R)|R].
  - exists (k * n). eapply rd_num; eauto.
  - exists 0. eapply rd_none; eauto.
Qed.

Lemma s32_id : forall v, is_int32 v -> s32 v = v.
Proof.
  intros v [A B]. unfold INT_MIN, INT_MAX in *. unfold s32, two32. destruct (Z_lt_dec v 0).
  - assert (E : v mod 4294967296 = v + 4294967296) by (symmetry; apply (Z.mod_unique _ _ (-1)); lia).
    rewrite E. destruct (Z.ltb_spec (v + 4294967296) 2147483648); lia.
  - rewrite Z.mod_small by lia. destruct (Z.ltb_spec v 2147483648); lia.
Qed.
Lemma atoi_reads : forall s v, reads s v -> is_int32 v -> atoi s = v.
Proof.
  intros s v H I. unfold atoi. rewrite (strtol_reads s v H). assert (C : clamp v = v).
  { destruct I as [I1 I2]. unfold INT_MAX, INT_MIN in *. unfold clamp. assert (T : two63 = 9223372036854775808) by reflexivity.
    destruct (Z.ltb_spec v (- two63)); [lia|]. destruct (Z.ltb_spec (two63 - 1) v); lia. }
  rewrite C. apply s32_id; auto.
Qed.
Lemma numeral_reads : forall s n, numeral 10 s n -> reads s n.
Proof.
  intros s n H. replace n with (1 * n) by lia. eapply (rd_num s [] [] 1 s n []); auto; [rewrite app_nil_r; reflexivity | constructor | intros c r X; discriminate X].
Qed.

Lemma env_count_range : forall lo hi v old, lo <= old <= hi -> lo <= env_count lo hi v old <= hi.
Proof.
  intros lo hi [s|] old H; cbn [env_count]; auto. destruct (Z.ltb_spec (u64 (atoi s)) lo); cbn [orb]; auto.
  destruct (Z.ltb_spec hi (u64 (atoi s))); auto; lia.
Qed.
Lemma u64_int : forall v, is_int32 v -> u64 v = if v <? 0 then v + two64 else v.
Proof.
  intros v [A B]. unfold INT_MIN, INT_MAX in *. unfold u64, two64. destruct (Z.ltb_spec v 0).
  - symmetry. apply (Z.mod_unique _ _ (-1)); lia.
  - apply Z.mod_small; lia.
Qed.
Lemma env_count_reads : forall lo hi s v old, 0 <= lo -> hi <= INT_MAX -> reads s v -> is_int32 v ->
  env_count lo hi (Some s) old = if (lo <=? v) && (v <=? hi) then v else old.
Proof.
  intros lo hi s v old L Hi R I. unfold env_count. rewrite (atoi_reads s v R I), (u64_int v I). destruct I as [I1 I2]. unfold INT_MIN, INT_MAX, two64 in *.
  destruct (Z.ltb_spec v 0).
  - destruct (Z.ltb_spec hi (v + 18446744073709551616)); [|lia]. rewrite orb_true_r. destruct (Z.leb_spec lo v); [lia|]. reflexivity.
  - destruct (Z.ltb_spec v lo), (Z.ltb_spec hi v), (Z.leb_spec lo v), (Z.leb_spec v hi); cbn [orb andb]; auto; lia.
Qed.

Lemma env_loop_min : forall v m old, 50 <= old -> 50 <= env_loop v m old.
Proof.
  intros v m old H. unfold env_loop, FLCK_ROBUST_CHKCNT_MIN, FLCK_ROBUST_CHKCNT_DEFAULT.
  assert (G : 50 <= match v with Some s => if atoi s <? 50 then old else atoi s | None => old end).
  { destruct v as [s|]; auto. destruct (Z.ltb_spec (atoi s) 50); auto; lia. }
  destruct m; auto. match goal with |- context [?x <? 50] => destruct (Z.ltb_spec x 50) end; lia.
Qed.

(** ** Directories *)
Lemma work_not_fail : forall cwd fs p, MakeWorkDirectory cwd fs p <> RFail.
Proof. intros cwd fs [|c p]; unfold MakeWorkDirectory; [discriminate|]. destruct (GetRealPath cwd (c :: p)); intro X; discriminate X. Qed.
Lemma walk_id : forall d acc, Forall proper d -> walk acc d = Some (acc ++ d).
Proof.
  induction d as [|x d IH]; intros acc F; cbn [walk]; [rewrite app_nil_r; reflexivity|]. inversion F as [|? ? (X1 & X2 & X3 & X4) F']; subst.
  destruct (list_eq_dec ascii_dec x (tx "")); [contradiction|]. destruct (list_eq_dec ascii_dec x (tx ".")); [contradiction|].
  destruct (list_eq_dec ascii_dec x (tx "..")); [contradiction|]. rewrite (IH _ F'), <- app_assoc. reflexivity.
Qed.
Lemma walk_app : forall a acc b, walk acc (a ++ b) = match walk acc a with Some d => walk d b | None => None end.
Proof.
  induction a as [|x a IH]; intros acc b; cbn [app walk]; [reflexivity|].
  destruct (list_eq_dec ascii_dec x (tx "")); [apply IH|]. destruct (list_eq_dec ascii_dec x (tx ".")); [apply IH|].
  destruct (list_eq_dec ascii_dec x (tx "..")); [destruct (rev acc); [reflexivity | apply IH]|]. apply IH.
Qed.
(** normalising a normalised path changes nothing *)
Lemma real_again : forall cwd cs q, cs <> [] -> Forall component cs -> GetRealPath cwd (path_of cs) = ROk q -> q <> [] -> GetRealPath cwd q = ROk q.
Proof.
  intros cwd cs q N C R NE. rewrite (real_absolute cwd cs N C) in R. destruct (walk [] cs) as [d|] eqn:W; [|discriminate R]. injection R as R.
  assert (P : Forall proper d) by (apply (walk_proper cs [] d); auto).
  assert (CD : Forall component d) by (eapply Forall_impl; [|exact P]; intros a Q; apply Q).
  destruct (nonempty (last cs [])).
  - rewrite app_nil_r in R. subst q. assert (D : d <> []) by (intro X; subst d; apply NE; reflexivity).
    rewrite (real_absolute cwd d D CD), (walk_id d [] P). cbn [app]. assert (L : nonempty (last d []) = true).
    { destruct (exists_last D) as (d' & x & E). rewrite E, last_last. rewrite E in P. apply Forall_app in P as [_ P]. inversion P as [|? ? (X & _) _]; subst. destruct x; [congruence | reflexivity]. }
    rewrite L, app_nil_r. reflexivity.
  - assert (E : q = path_of (d ++ [[]])) by (rewrite <- R, path_of_app; reflexivity). rewrite E.
    rewrite (real_absolute cwd (d ++ [[]])); [|destruct d; discriminate|apply Forall_app; split; [exact CD | constructor; [intro Q; exact Q | constructor]]].
    rewrite walk_app, (walk_id d [] P). cbn [app]. rewrite last_last. cbn [nonempty walk]. destruct (list_eq_dec ascii_dec [] (tx "")); [|contradiction].
    rewrite path_of_app. reflexivity.
Qed.
Lemma default_dir_cases : forall fs, default_dir fs = tx "/var/lib/antpickax/.fullock" \/ default_dir fs = tx "/tmp/.fullock".
Proof.
  intro fs. unfold default_dir. destruct (fs_staterr fs (tx "/var/lib/antpickax")); [right; reflexivity|].
  destruct (fs_node fs (tx "/var/lib/antpickax")) as [k|]; [|right; reflexivity]. destruct (looks_dir k); [left | right]; reflexivity.
Qed.
Lemma default_real : forall cwd fs, GetRealPath cwd (default_dir fs) = ROk (default_dir fs).
Proof. intros cwd fs. destruct (default_dir_cases fs) as [E|E]; rewrite E; vm_compute; reflexivity. Qed.
Lemma default_work : forall cwd fs fs', exists fs'' b, MakeWorkDirectory cwd fs' (default_dir fs) = ROk (fs'', b).
Proof.
  intros cwd fs fs'. unfold MakeWorkDirectory. rewrite default_real. destruct (default_dir_cases fs) as [E|E]; rewrite E; cbn [tx list_ascii_of_string];
  match goal with |- exists a b, ROk ?x = _ => destruct x as [u v]; exists u, v; reflexivity end.
Qed.
Lemma default_nonempty : forall fs, default_dir fs <> [].
Proof. intro fs. destruct (default_dir_cases fs) as [E|E]; rewrite E; intro X; vm_compute in X; discriminate X. Qed.

Lemma env_dir_not_fail : forall cwd v fs old, env_dir cwd v fs old <> RFail.
Proof.
  intros cwd v fs old H.
  assert (F : forall fs0, match MakeWorkDirectory cwd fs0 (default_dir fs0) with RUndef => RUndef | RFail => RFail | ROk (fs', true) => ROk (default_dir fs0, fs') | ROk (fs', false) => ROk (old, fs') end <> RFail).
  { intros fs0 X. destruct (default_work cwd fs0 fs0) as (u & b & E). rewrite E in X. destruct b; discriminate X. }
  unfold env_dir in H. destruct v as [s|]; [|exact (F fs H)].
  destruct (GetRealPath cwd s) as [| |top]; [exact (F fs H)|discriminate H|].
  destruct (MakeWorkDirectory cwd fs top) as [| |[fs' [|]]] eqn:E; [exact (work_not_fail _ _ _ E)|discriminate H|discriminate H|exact (F fs' H)].
Qed.
