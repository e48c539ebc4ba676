(** Properties of the configuration: C50-C53, C76-C78. *)
From Coq Require Import List Bool Ascii String ZArith Lia.
From Verif Require Import Base Path_Model Path_Spec Path_Proofs Layout_Model Layout_Spec Layout_Props Config_Model Config_Spec Config_Proofs Config_Proofs2.
Import ListNotations.
Open Scope Z_scope.

(** an empty environment, one with a single variable, and a file system with /tmp *)
Definition env0 : env := fun _ => None.
Definition env1 (name : string) (v : string) : env := fun x => if String.eqb x name then Some (tx v) else None.
Definition fs_tmp : fsys := mkFs (fun p => if text_eqb p (tx "/tmp") then Some NDir else None) (fun _ => false) (fun _ => false) 18.

(** ** C50: the environment *)
(** The counts stay in their ranges, whatever the variables contain. *)
Theorem C50_counts_in_range : forall e cwd fs c c' fs', permitted (k_cnt c) -> LoadEnv e cwd fs c = ROk (c', fs') -> permitted (k_cnt c').
Proof. intros e cwd fs c c' fs' P H. destruct (load_shape _ _ _ _ _ _ H) as (d & _ & ->). apply load_permitted; auto. Qed.
Example C50_counts_case : exists c' fs', LoadEnv (env1 "FLCKFILECNT" "  77 files") None fs_tmp cfg0 = ROk (c', fs') /\ n_file (k_cnt c') = 77 /\ permitted (k_cnt cfg0).
Proof. eexists. eexists. split; [vm_compute; reflexivity|]. split; [vm_compute; reflexivity|]. unfold permitted; cbn; lia. Qed.

(** A valid numeral is taken exactly; an unset variable changes nothing. *)
Theorem C50_valid_taken : forall e cwd fs c c' fs' v, In v count_vars -> LoadEnv e cwd fs c = ROk (c', fs') ->
  (e (cv_name v) = None -> cv_get v (k_cnt c') = cv_get v (k_cnt c)) /\
  (forall s n, e (cv_name v) = Some s -> numeral 10 s n -> cv_lo v <= n <= cv_hi v -> cv_get v (k_cnt c') = n).
Proof.
  intros e cwd fs c c' fs' v I H. destruct (load_shape _ _ _ _ _ _ H) as (d & _ & ->). unfold load_result. cbn [k_cnt].
  assert (G : exists lo hi, lo = cv_lo v /\ hi = cv_hi v /\ 0 <= lo /\ hi <= 16384 /\ cv_get v (env_counts e (k_cnt c)) = env_count lo hi (e (cv_name v)) (cv_get v (k_cnt c))).
  { repeat (destruct I as [<-|I]; [eexists; eexists; split; [reflexivity|]; split; [reflexivity|]; cbn; split; [lia|]; split; [lia|reflexivity]|]). destruct I. }
  destruct G as (lo & hi & -> & -> & L & Hi & ->). split.
  - intros ->. reflexivity.
  - intros s n -> N R. assert (I32 : is_int32 n) by (unfold is_int32, INT_MIN, INT_MAX; lia).
    rewrite (env_count_reads (cv_lo v) (cv_hi v) s n _ L ltac:(unfold INT_MAX; lia) (numeral_reads _ _ N) I32).
    destruct (Z.leb_spec (cv_lo v) n), (Z.leb_spec n (cv_hi v)); cbn [andb]; auto; lia.
Qed.
Example C50_valid_case : exists c' fs', LoadEnv (env1 "FLCKWAITERCNT" "0016000") None fs_tmp cfg0 = ROk (c', fs') /\ numeral 10 (tx "0016000") 16000 /\ n_waiter (k_cnt c') = 16000.
Proof.
  eexists. eexists. split; [vm_compute; reflexivity|]. split; [|vm_compute; reflexivity].
  change (tx "0016000") with (((((((["0"%char]) ++ ["0"%char]) ++ ["1"%char]) ++ ["6"%char]) ++ ["0"%char]) ++ ["0"%char]) ++ ["0"%char]).
  change 16000 with (10 * (10 * (10 * (10 * (10 * (10 * 0 + 0) + 1) + 6) + 0) + 0) + 0).
  repeat (apply num_more; [|split; [lia|reflexivity]|lia]). apply num_one; [split; [lia|reflexivity]|lia].
Qed.

(** A value that is no valid count leaves the setting alone. *)
Definition C50_invalid_kept_statement : Prop := forall e cwd fs c c' fs' v s, In v count_vars -> LoadEnv e cwd fs c = ROk (c', fs') ->
  e (cv_name v) = Some s -> ~ valid_count (cv_lo v) (cv_hi v) s -> cv_get v (k_cnt c') = cv_get v (k_cnt c).
(** 4294967424 = 2^32 + 128 is far above every maximum; it is cut to 32 bits and taken as 128. *)
Lemma big_numeral : forall n, numeral 10 (tx "4294967424") n -> n = 4294967424.
Proof.
  intros n H. assert (E : forall c r, @nil ascii = c :: r -> digit 10 c = None) by (intros c r X; discriminate X).
  rewrite <- (scan_whole 10 (tx "4294967424") n [] ltac:(lia) H E). vm_compute. reflexivity.
Qed.
Theorem C50_invalid_kept_refuted : ~ C50_invalid_kept_statement.
Proof.
  intro H. assert (P : exists c' fs', LoadEnv (env1 "FLCKOFFETCNT" "4294967424") None fs_tmp cfg0 = ROk (c', fs') /\ n_off (k_cnt c') = 128).
  { eexists. eexists. split; vm_compute; reflexivity. }
  destruct P as (c' & fs' & L & N).
  pose proof (H _ _ _ _ _ _ (mkCV "FLCKOFFETCNT" 4 16384 n_off 8192) (tx "4294967424") (or_intror (or_introl eq_refl)) L eq_refl) as K.
  assert (X : n_off (k_cnt c') = n_off (k_cnt cfg0)).
  { apply K. intros (n & D & R). apply big_numeral in D. cbn in R. lia. }
  rewrite N in X. vm_compute in X. discriminate X.
Qed.
(** What is decisive is the number the string begins with.  Within the range of [int] everything outside the bounds is refused;
    a number in bounds counts even when text follows. *)
Theorem C50_invalid_kept_partial : forall e cwd fs c c' fs' v s, In v count_vars -> LoadEnv e cwd fs c = ROk (c', fs') -> e (cv_name v) = Some s ->
  exists x, reads s x /\ (INT_MIN <= x <= INT_MAX ->
    (cv_lo v <= x <= cv_hi v -> cv_get v (k_cnt c') = x) /\ (~ cv_lo v <= x <= cv_hi v -> cv_get v (k_cnt c') = cv_get v (k_cnt c))).
Proof.
  intros e cwd fs c c' fs' v s I H E. destruct (reads_total s) as (x & R). exists x. split; auto. intro I32.
  destruct (load_shape _ _ _ _ _ _ H) as (d & _ & ->). unfold load_result. cbn [k_cnt].
  assert (G : exists lo hi, lo = cv_lo v /\ hi = cv_hi v /\ 0 <= lo /\ hi <= 16384 /\ cv_get v (env_counts e (k_cnt c)) = env_count lo hi (e (cv_name v)) (cv_get v (k_cnt c))).
  { repeat (destruct I as [<-|I]; [eexists; eexists; split; [reflexivity|]; split; [reflexivity|]; cbn; split; [lia|]; split; [lia|reflexivity]|]). destruct I. }
  destruct G as (lo & hi & -> & -> & L & Hi & ->). rewrite E, (env_count_reads (cv_lo v) (cv_hi v) s x _ L ltac:(unfold INT_MAX; lia) R I32).
  destruct (Z.leb_spec (cv_lo v) x), (Z.leb_spec x (cv_hi v)); cbn [andb]; split; intro; auto; lia.
Qed.
Example C50_invalid_case : exists c' fs', LoadEnv (env1 "FLCKOFFETCNT" "-1") None fs_tmp cfg0 = ROk (c', fs') /\ n_off (k_cnt c') = 8192 /\ reads (tx "-1") (-1).
Proof.
  eexists. eexists. split; [vm_compute; reflexivity|]. split; [vm_compute; reflexivity|].
  change (-1) with (-1 * 1) at 1. apply (rd_num _ [] (tx "-") (-1) (tx "1") 1 []); [reflexivity|constructor|constructor| |intros c r X; discriminate X].
  apply num_one; [split; [lia|reflexivity]|lia].
Qed.

(** The mode words are recognised in any mixture of upper and lower case, anything else leaves the mode alone. *)
Theorem C50_modes : forall e cwd fs c c' fs', LoadEnv e cwd fs c = ROk (c', fs') ->
  by_words auto_words (e "FLCKAUTOINIT"%string) (k_auto c) (k_auto c') /\ by_words nomap_words (e "FLCKNOMAPMODE"%string) (k_nomap c) (k_nomap c') /\
  by_words robust_words (e "FLCKROBUSTMODE"%string) (k_robust c) (k_robust c') /\ by_words free_words (e "FLCKFREEUNITMODE"%string) (k_free c) (k_free c').
Proof.
  intros e cwd fs c c' fs' H. destruct (load_shape _ _ _ _ _ _ H) as (d & _ & ->). unfold load_result. cbn [k_auto k_nomap k_robust k_free]. clear H d fs'.
  assert (NO : forall s w, is_word s w = false -> ~ same_word s w) by (intros s w; apply is_word_false).
  split; [|split; [|split]].
  - destruct (e "FLCKAUTOINIT"%string) as [s|]; cbn [by_words env_auto]; [|reflexivity].
    destruct (is_word s "YES") eqn:E1; [left; eexists; split; [apply is_word_iff; exact E1 | cbn; auto]|].
    destruct (is_word s "NO") eqn:E2; [left; eexists; split; [apply is_word_iff; exact E2 | cbn; auto]|].
    right. split; auto. intros w x I. cbn in I. destruct I as [I|[I|[]]]; injection I as <- <-; auto.
  - destruct (e "FLCKNOMAPMODE"%string) as [s|]; cbn [by_words env_nomap]; [|reflexivity].
    destruct (is_word s "ALLOW_NORETRY") eqn:E1; [left; eexists; split; [apply is_word_iff; exact E1 | cbn; auto]|].
    destruct (is_word s "DENY_NORETRY") eqn:E2; [left; eexists; split; [apply is_word_iff; exact E2 | cbn; auto]|].
    destruct (is_word s "ALLOW_RETRY") eqn:E3; [left; eexists; split; [apply is_word_iff; exact E3 | cbn; auto]|].
    destruct (is_word s "DENY_RETRY") eqn:E4; [left; eexists; split; [apply is_word_iff; exact E4 | cbn; auto]|].
    destruct (is_word s "ALLOW") eqn:E5; [left; exists "ALLOW"%string; split; [apply is_word_iff; exact E5 | cbn; auto 10]|].
    destruct (is_word s "DENY") eqn:E6; [left; exists "DENY"%string; split; [apply is_word_iff; exact E6 | cbn; auto 10]|].
    right. split; auto. intros w x I. cbn in I. repeat (destruct I as [I|I]; [injection I as <- <-; auto|]). destruct I.
  - destruct (e "FLCKROBUSTMODE"%string) as [s|]; cbn [by_words env_robust]; [|reflexivity].
    destruct (is_word s "NO") eqn:E1; [left; eexists; split; [apply is_word_iff; exact E1 | cbn; auto]|].
    destruct (is_word s "LOW") eqn:E2; [left; eexists; split; [apply is_word_iff; exact E2 | cbn; auto]|].
    destruct (is_word s "HIGH") eqn:E3; [left; eexists; split; [apply is_word_iff; exact E3 | cbn; auto]|].
    right. split; auto. intros w x I. cbn in I. repeat (destruct I as [I|I]; [injection I as <- <-; auto|]). destruct I.
  - destruct (e "FLCKFREEUNITMODE"%string) as [s|]; cbn [by_words env_free]; [|reflexivity].
    destruct (is_word s "NO") eqn:E1; [left; eexists; split; [apply is_word_iff; exact E1 | cbn; auto]|].
    destruct (is_word s "FD") eqn:E2; [left; exists "FD"%string; split; [apply is_word_iff; exact E2 | cbn; auto]|].
    destruct (is_word s "OFFSET") eqn:E3; [left; eexists; split; [apply is_word_iff; exact E3 | cbn; auto]|].
    destruct (is_word s "ALWAYS") eqn:E4; [left; exists "ALWAYS"%string; split; [apply is_word_iff; exact E4 | cbn; auto 10]|].
    right. split; auto. intros w x I. cbn in I. repeat (destruct I as [I|I]; [injection I as <- <-; auto|]). destruct I.
Qed.
Example C50_modes_case : exists c' fs', LoadEnv (env1 "FLCKNOMAPMODE" "deny_Retry") None fs_tmp cfg0 = ROk (c', fs') /\ k_nomap c' = NOMAP_DENY_RETRY.
Proof. eexists. eexists. split; vm_compute; reflexivity. Qed.

(** The umask: an octal number up to 0777 is taken, anything else leaves the setting alone. *)
Definition C50_umask_statement : Prop := forall e cwd fs c c' fs' s, LoadEnv e cwd fs c = ROk (c', fs') -> e "FLCKUMASK"%string = Some s ->
  (forall n, numeral 8 s n -> 0 <= n <= 511 -> hd "1"%char s = "0"%char -> k_umask c' = n) /\
  ((forall b n, ~ numeral b s n) -> k_umask c' = k_umask c).
Theorem C50_umask_refuted : ~ C50_umask_statement.
Proof.
  intro H. (* "0777" is refused *)
  assert (P : exists c' fs', LoadEnv (env1 "FLCKUMASK" "0777") None fs_tmp cfg0 = ROk (c', fs') /\ k_umask c' = 0) by (eexists; eexists; split; vm_compute; reflexivity).
  destruct P as (c' & fs' & L & N). destruct (H _ _ _ _ _ _ (tx "0777") L eq_refl) as [A _].
  assert (X : k_umask c' = 511).
  { apply A; [|lia|reflexivity]. change (tx "0777") with ((([ "0"%char ] ++ ["7"%char]) ++ ["7"%char]) ++ ["7"%char]). change 511 with (8 * (8 * (8 * 0 + 7) + 7) + 7).
    repeat (apply num_more; [|split; [lia|reflexivity]|lia]). apply num_one; [split; [lia|reflexivity]|lia]. }
  rewrite N in X. discriminate X.
Qed.
(** "rw-r--r--" is not a number at all and sets the umask to 0, which gives the shared file to everybody *)
Theorem C50_umask_text_refuted : ~ C50_umask_statement.
Proof.
  intro H. assert (P : exists c' fs', LoadEnv (env1 "FLCKUMASK" "rw-r--r--") None fs_tmp (w_umask 18 cfg0) = ROk (c', fs') /\ k_umask c' = 0) by (eexists; eexists; split; vm_compute; reflexivity).
  destruct P as (c' & fs' & L & N). destruct (H _ _ _ _ _ _ (tx "rw-r--r--") L eq_refl) as [_ B].
  assert (X : k_umask c' = 18).
  { rewrite B; [reflexivity|]. intros b n D. destruct (numeral_head _ _ _ D) as (c & r & x & E & Dc). injection E as <- _. destruct Dc as [D1 D2]. change (Z.of_nat (nat_of_ascii "r")) with 114 in D2. lia. }
  rewrite N in X. discriminate X.
Qed.
(** Octal numbers below 0777 are taken exactly, however large other ones leave the setting alone, and the umask never gets outside 0..0776. *)
Theorem C50_umask_partial : forall e cwd fs c c' fs', LoadEnv e cwd fs c = ROk (c', fs') ->
  (0 <= k_umask c < 511 -> 0 <= k_umask c' < 511) /\
  (forall ds n, e "FLCKUMASK"%string = Some ("0"%char :: ds) -> numeral 8 ds n -> k_umask c' = if n <? 511 then n else k_umask c).
Proof.
  intros e cwd fs c c' fs' H. destruct (load_shape _ _ _ _ _ _ H) as (d & _ & ->). unfold load_result. cbn [k_umask]. split; [apply env_umask_range|].
  intros ds n -> N. pose proof (numeral_nonneg 8 ds n ltac:(lia) N) as NN. assert (T : two63 = 9223372036854775808) by reflexivity.
  assert (ST : strtol 0 ("0"%char :: ds) = if two63 - 1 <? n then (two63 - 1, true) else (n, false)).
  2:{ unfold env_umask, CvtNumberStringToLong; rewrite ST. destruct (Z.ltb_spec (two63 - 1) n); [destruct (Z.ltb_spec n 511); [lia | reflexivity]|].
      destruct (Z.ltb_spec n 0); [lia|]; cbn [orb]; destruct (Z.leb_spec 511 n), (Z.ltb_spec n 511); try lia; reflexivity. }
  unfold strtol.
  assert (SK : skip_space ("0"%char :: ds) = "0"%char :: ds) by reflexivity. rewrite SK. change (sign_of ("0"%char :: ds)) with (false, "0"%char :: ds).
  assert (PB : pick_base 0 ("0"%char :: ds) = (8, "0"%char :: ds)).
  { destruct (numeral_head _ _ _ N) as (x & r & y & -> & D). unfold pick_base. cbn [Z.eqb]. destruct r as [|h r].
    - reflexivity.
    - change (Ascii.eqb "0" "0") with true. cbv iota.
      assert (NX : (Ascii.eqb x "x" || Ascii.eqb x "X")%bool = false).
      { destruct D as [D1 D2]. destruct (Ascii.eqb_spec x "x"); [subst; change (Z.of_nat (nat_of_ascii "x")) with 120 in D2; lia|].
        destruct (Ascii.eqb_spec x "X"); [subst; change (Z.of_nat (nat_of_ascii "X")) with 88 in D2; lia|]. reflexivity. }
      rewrite NX. reflexivity. }
  cbv beta iota. rewrite PB. cbv beta iota.
  assert (SC : scan 8 0 ("0"%char :: ds) = n).
  { cbn [scan]. change (digit 8 "0") with (Some 0). cbv iota. change (0 * 8 + 0) with 0. rewrite <- (app_nil_r ds). apply scan_whole; auto; [lia|]. intros c0 r X; discriminate X. }
  rewrite SC. destruct (Z.ltb_spec n (- two63)); [lia|]. destruct (Z.ltb_spec (two63 - 1) n); reflexivity.
Qed.
Example C50_umask_case : exists c' fs', LoadEnv (env1 "FLCKUMASK" "0027") None fs_tmp cfg0 = ROk (c', fs') /\ k_umask c' = 23.
Proof. eexists. eexists. split; vm_compute; reflexivity. Qed.

(** Reading the environment never leads to undefined behaviour. *)
Definition C50_no_crash_statement : Prop := forall e fs c, LoadEnv e (Some (tx "/")) fs c <> RUndef.
Theorem C50_no_crash_refuted : ~ C50_no_crash_statement.
Proof. intro H. apply (H (env1 "FLCKDIRPATH" "/..") fs_tmp cfg0). vm_compute. reflexivity. Qed.
(** With a directory that does not climb above the root (or none) it ends properly, even if no directory can be made. *)
Theorem C50_no_crash_partial : forall e cwd fs c,
  (match e "FLCKDIRPATH"%string with None => True | Some s => exists cs d, s = path_of cs /\ cs <> [] /\ Forall component cs /\ walk [] cs = Some d end) ->
  exists c' fs', LoadEnv e cwd fs c = ROk (c', fs').
Proof.
  intros e cwd fs c H. unfold LoadEnv.
  assert (FB : forall fs0 old, exists x f, match MakeWorkDirectory cwd fs0 (default_dir fs0) with RUndef => RUndef | RFail => RFail | ROk (fs', true) => ROk (default_dir fs0, fs') | ROk (fs', false) => ROk (old, fs') end = ROk (x, f)).
  { intros fs0 old. destruct (default_work cwd fs0 fs0) as (u & [|] & E); rewrite E; eauto. }
  assert (G : exists x f, env_dir cwd (e "FLCKDIRPATH"%string) fs (k_dir c) = ROk (x, f)).
  { unfold env_dir. destruct (e "FLCKDIRPATH"%string) as [s|]; [|apply FB]. destruct H as (cs & d & -> & N & C & W).
    destruct (GetRealPath cwd (path_of cs)) as [| |top] eqn:R; [apply FB| |].
    { rewrite (real_absolute cwd cs N C), W in R. discriminate R. }
    destruct (MakeWorkDirectory cwd fs top) as [| |[f [|]]] eqn:M; [destruct (work_not_fail _ _ _ M)| |eauto|apply FB].
    exfalso. unfold MakeWorkDirectory in M. destruct top as [|t0 t1]; [discriminate M|].
    rewrite (real_again cwd cs _ N C R) in M by discriminate. discriminate M. }
  destruct G as (x & f & ->). eauto.
Qed.
Example C50_no_crash_case : exists c' fs', LoadEnv (env1 "FLCKDIRPATH" "/tmp/../tmp/f/") None fs_tmp cfg0 = ROk (c', fs') /\ k_dir c' = tx "/tmp/f/" /\ fs_node fs' (tx "/tmp/f") = Some NDir.
Proof. eexists. eexists. split; [vm_compute; reflexivity|]. split; vm_compute; reflexivity. Qed.

(** The number of checks in the robust mode never gets below the minimum; a proper value is taken. *)
Theorem C50_check_count : forall e cwd fs c c' fs', LoadEnv e cwd fs c = ROk (c', fs') -> 50 <= k_loop c ->
  50 <= k_loop c' /\ (forall s n, e "FLCKROBUSTCHKCNT"%string = Some s -> numeral 10 s n -> n <= INT_MAX -> k_loop c' = if n <? 50 then k_loop c else n).
Proof.
  intros e cwd fs c c' fs' H B. destruct (load_shape _ _ _ _ _ _ H) as (d & _ & ->). unfold load_result. cbn [k_loop]. split; [apply env_loop_min; auto|].
  intros s n -> N Hi. pose proof (numeral_nonneg 10 s n ltac:(lia) N) as NN.
  assert (A : atoi s = n) by (apply atoi_reads; [apply numeral_reads; auto | unfold is_int32, INT_MIN; lia]).
  unfold env_loop, FLCK_ROBUST_CHKCNT_MIN, FLCK_ROBUST_CHKCNT_DEFAULT. rewrite A.
  assert (G : ((if n <? 50 then k_loop c else n) <? 50) = false) by (destruct (Z.ltb_spec n 50); apply Z.ltb_ge; lia).
  destruct (env_robust (e "FLCKROBUSTMODE"%string) (k_robust c)); auto. rewrite G. reflexivity.
Qed.
Example C50_check_count_case : exists c' fs', LoadEnv (env1 "FLCKROBUSTCHKCNT" "60") None fs_tmp cfg0 = ROk (c', fs') /\ k_loop c' = 60 /\ 50 <= k_loop cfg0.
Proof. eexists. eexists. split; [vm_compute; reflexivity|]. split; [vm_compute; reflexivity|]. cbn. lia. Qed.

(** ** C51: re-initialisation *)
Definition count0 (q : counts) : Prop := forall v, In v count_vars -> 0 <= cv_get v q.
(** a call without counts would succeed here *)
Definition can_start (e : env) (cwd : option text) (ok : bool) (d f : option text) (fs : fsys) (c : cfg) : Prop :=
  exists c' fs', ReInitializeObject e cwd ok d f no_counts fs c = ROk (c', fs', true).
Definition accepted (e : env) (cwd : option text) (ok : bool) (d f : option text) (q : counts) (fs : fsys) (c : cfg) : Prop :=
  exists c' fs', ReInitializeObject e cwd ok d f q fs c = ROk (c', fs', true).

(** valid counts are accepted / only valid counts are accepted *)
Definition C51_valid_accepted_statement : Prop := forall e cwd ok d f q fs c, can_start e cwd ok d f fs c -> given_valid q -> accepted e cwd ok d f q fs c.
Definition C51_only_valid_statement : Prop := forall e cwd ok d f q fs c, can_start e cwd ok d f fs c -> accepted e cwd ok d f q fs c -> given_valid q.
(** The waiter count is checked when the locker count is given instead of when it is given itself. *)
Theorem C51_valid_accepted_refuted : ~ C51_valid_accepted_statement.
Proof.
  intro H. destruct (H env0 None true None None (mkCnt 0 0 100 0 0 0) fs_tmp cfg0) as (c' & fs' & E).
  - eexists. eexists. vm_compute. reflexivity.
  - unfold given_valid, count_vars. repeat (constructor; [cbn; lia|]). constructor.
  - vm_compute in E. discriminate E.
Qed.
Theorem C51_only_valid_refuted : ~ C51_only_valid_statement.
Proof.
  intro H. assert (G : given_valid (mkCnt 0 0 0 0 0 576460752303423488)).
  { apply (H env0 None true None None _ fs_tmp cfg0); eexists; eexists; vm_compute; reflexivity. }
  unfold given_valid in G. rewrite Forall_forall in G.
  destruct (G (mkCV "FLCKWAITERCNT" 4 16384 n_waiter 8192) ltac:(cbn; auto 10)) as [X|[_ X]]; cbn [cv_get n_waiter cv_hi] in X; [discriminate X | apply X; reflexivity].
Qed.
(** When locker and waiter counts are given together or not at all the check is exact. *)
Lemma rest_indep : forall e cwd ok f q q' c top fs, (exists c' fs', reinit_rest e cwd ok f q c top fs = ROk (c', fs', true)) ->
  exists c' fs', reinit_rest e cwd ok f q' c top fs = ROk (c', fs', true).
Proof.
  intros e cwd ok f q q' c top fs (c' & fs' & H). unfold reinit_rest in *. cbv zeta in *.
  destruct (match given f with Some f0 => has_slash (trim f0) | None => false end); [discriminate H|].
  match type of H with match ?x with _ => _ end = _ => destruct x as [| |[c3 fs1]]; [discriminate H|discriminate H|] end.
  rewrite init_object_indep in H. rewrite init_object_indep.
  match type of H with match ?x with _ => _ end = _ => destruct x as [| |[[c4 fs4] r]]; [discriminate H|discriminate H|] end.
  injection H as _ _ ->. eauto.
Qed.
Lemma refuses_exact : forall q, (n_locker q = 0 <-> n_waiter q = 0) -> (reinit_refuses q = false <-> given_valid q).
Proof.
  intros q LW. unfold given_valid, count_vars. split.
  - intro H. destruct (refuses_spec q H) as (A & B & C & D & E & F).
    repeat (constructor; [cbn [cv_get cv_lo cv_hi]; tauto || lia|]). constructor.
  - intro H. repeat match goal with X : Forall _ (_ :: _) |- _ => inversion X; clear X; subst end. cbn [cv_get cv_lo cv_hi] in *.
    unfold reinit_refuses, bad_count.
    assert (G : forall a lo hi n, (a = 0 \/ lo <= n <= hi) -> negb (a =? 0) && ((n <? lo) || (hi <? n)) = false).
    { intros a lo hi n [->|X]; [reflexivity|]. destruct (Z.ltb_spec n lo), (Z.ltb_spec hi n); try lia; cbn [orb]; apply andb_false_r. }
    rewrite !G; auto. destruct LW. tauto.
Qed.
Theorem C51_accepts_partial : forall e cwd ok d f q fs c, can_start e cwd ok d f fs c -> (n_locker q = 0 <-> n_waiter q = 0) ->
  (accepted e cwd ok d f q fs c <-> given_valid q).
Proof.
  intros e cwd ok d f q fs c S LW. rewrite <- (refuses_exact q LW). unfold accepted. split.
  - intros (c' & fs' & H). unfold ReInitializeObject in H. destruct (reinit_refuses q); [discriminate H | reflexivity].
  - intro RQ. destruct S as (c0 & fs0 & S). unfold ReInitializeObject in *. rewrite RQ. change (reinit_refuses no_counts) with false in S. cbv iota in *.
    destruct (given d) as [dn|]; [|eapply rest_indep; eauto].
    destruct (GetRealPath cwd dn) as [| |tp]; [discriminate S|discriminate S|].
    destruct (MakeWorkDirectory cwd fs tp) as [| |[f1 [|]]]; [discriminate S|discriminate S| |discriminate S]. eapply rest_indep; eauto.
Qed.
Example C51_accepts_case : can_start env0 None true (Some (tx "/tmp/d")) (Some (tx " x ")) fs_tmp cfg0 /\
  (exists c' fs', ReInitializeObject env0 None true (Some (tx "/tmp/d")) (Some (tx " x ")) (mkCnt 2048 4 5 0 8192 6) fs_tmp cfg0 = ROk (c', fs', true) /\
     k_cnt c' = mkCnt 2048 4 5 256 8192 6 /\ k_path c' = tx "/tmp/d/x" /\ k_att c' = true) /\
  ~ accepted env0 None true (Some (tx "/tmp/d")) (Some (tx " x ")) (mkCnt 2049 0 0 0 0 0) fs_tmp cfg0.
Proof.
  split; [eexists; eexists; vm_compute; reflexivity|]. split; [eexists; eexists; split; [vm_compute; reflexivity|]; repeat split; vm_compute; reflexivity|].
  intros (c' & fs' & E). vm_compute in E. discriminate E.
Qed.

(** A call that returns failure changes nothing. *)
Definition C51_rejected_statement : Prop := forall e cwd ok d f q fs c c' fs', reach (fun _ => True) c -> ReInitializeObject e cwd ok d f q fs c = ROk (c', fs', false) -> c' = c.
(** An attached process asks for other sizes, the new file cannot be opened: it is left detached, with the new sizes. *)
Lemma start_reach : exists c fs', InitializeObject true env0 None true fs_tmp cfg0 = ROk (c, fs', true) /\ k_att c = true /\ reach (fun _ => True) c.
Proof.
  eexists. eexists. split; [vm_compute; reflexivity|]. split; [vm_compute; reflexivity|].
  eapply (rc_start _ env0 None true fs_tmp). vm_compute. reflexivity.
Qed.
Theorem C51_rejected_refuted : ~ C51_rejected_statement.
Proof.
  intro H. destruct start_reach as (c & fs & S & A & R).
  assert (E : exists c' fs', ReInitializeObject env0 None false None None no_counts fs c = ROk (c', fs', false) /\ k_att c' = false).
  { vm_compute in S. injection S as <- <-. eexists. eexists. split; vm_compute; reflexivity. }
  destruct E as (c' & fs' & E & A'). rewrite (H _ _ _ _ _ _ _ _ _ _ R E) in A'. congruence.
Qed.
(** Failure with a change has one cause only: all arguments were acceptable, the old file was left, and the new one could not be attached.
    A refused count changes nothing at all, a refused directory or file name can only have made directories. *)
Theorem C51_rejected_partial : forall e cwd ok d f q fs c c' fs', (n_locker q = 0 <-> n_waiter q = 0) -> ReInitializeObject e cwd ok d f q fs c = ROk (c', fs', false) ->
  (~ given_valid q -> c' = c /\ fs' = fs) /\
  (c' = c \/ (k_att c' = false /\ given_valid q /\ (forall x r, f = Some (x :: r) -> ~ In "/"%char (x :: r)))).
Proof.
  intros e cwd ok d f q fs c c' fs' LW H. pose proof (refuses_exact q LW) as RX.
  destruct (reinit_shape _ _ _ _ _ _ _ _ _ _ _ H) as [(-> & _ & F)|(RQ & top & fs0 & _ & H')].
  - split; [|auto]. intro NV. split; auto. apply F. destruct (reinit_refuses q); auto. exfalso. apply NV, RX. reflexivity.
  - split; [intro NV; exfalso; apply NV, RX; exact RQ|].
    destruct (reinit_rest_shape _ _ _ _ _ _ _ _ _ _ _ H') as [(-> & _)|(dd & fs1 & F & D & R)]; [auto|].
    right. split; [|split; [apply RX; exact RQ|]].
    + destruct (init_object_shape _ _ _ _ _ _ _ _ _ R) as (c1 & f1 & [-> ->] & [(X & _)|(c2 & E2 & R')]); [discriminate X|].
      assert (A2 : k_att c2 = false) by (rewrite E2; destruct (given f), top; cbn; repeat match goal with |- context [match ?x with [] => _ | _ :: _ => _ end] => destruct x end; reflexivity).
      destruct R' as [(_ & -> & _)|(_ & R')]; [exact A2|].
      destruct (init_shm_cases _ _ _ _ R') as [(-> & _)|(_ & X & _)]; [exact A2 | discriminate X].
    + intros x r ->. cbn [given] in F. apply has_slash_false in F. intro I. apply F, trim_slash, I.
Qed.
Example C51_rejected_case : ReInitializeObject env0 None true (Some (tx "/tmp/new")) (Some (tx "a/b")) no_counts fs_tmp cfg0 =
  ROk (cfg0, fst (make_dirs fs_tmp [] [tx "tmp"; tx "new"]), false).
Proof. vm_compute. reflexivity. Qed.

(** The counts that were given are the ones configured. *)
Theorem C51_given_set : forall e cwd ok d f q fs c c' fs', ReInitializeObject e cwd ok d f q fs c = ROk (c', fs', true) ->
  forall v, In v count_vars -> cv_get v q <> 0 -> cv_get v (k_cnt c') = cv_get v q.
Proof.
  intros e cwd ok d f q fs c c' fs' H v I N. destruct (reinit_cnt _ _ _ _ _ _ _ _ _ _ _ H) as [(_ & X)|(_ & ->)]; [discriminate X|]. cbv zeta.
  assert (O : forall a b, a <> 0 -> over a b = a) by (intros a b X; unfold over; destruct (Z.eqb_spec a 0); congruence).
  repeat (destruct I as [<-|I]; [cbn [cv_get n_file n_off n_locker n_nmtx n_ncond n_waiter] in *; apply O; exact N|]). destruct I.
Qed.
(** A count that is not given has its default (or what the environment says). *)
Definition C51_defaults_statement : Prop := forall e cwd ok d f q fs c c' fs', reach (fun _ => True) c -> ReInitializeObject e cwd ok d f q fs c = ROk (c', fs', true) ->
  forall v, In v count_vars -> cv_get v q = 0 -> e (cv_name v) = None -> cv_get v (k_cnt c') = cv_default v.
(** The counts of conditions and waiters keep the value of the previous call. *)
Theorem C51_defaults_refuted : ~ C51_defaults_statement.
Proof.
  intro H. destruct start_reach as (c & fs & S & A & R).
  assert (E : exists c1 fs1, ReInitializeObject env0 None true None None (mkCnt 0 0 0 0 10 0) fs c = ROk (c1, fs1, true) /\
     exists c2 fs2, ReInitializeObject env0 None true None None no_counts fs1 c1 = ROk (c2, fs2, true) /\ n_ncond (k_cnt c2) = 10).
  { vm_compute in S. injection S as <- <-. eexists. eexists. split; [vm_compute; reflexivity|]. eexists. eexists. split; vm_compute; reflexivity. }
  destruct E as (c1 & fs1 & E1 & c2 & fs2 & E2 & N).
  assert (R1 : reach (fun _ => True) c1) by (eapply rc_reinit; [exact Logic.I | exact R | exact E1]).
  pose proof (H _ _ _ _ _ _ _ _ _ _ R1 E2 (mkCV "FLCKNCONDCNT" 1 8192 n_ncond 256) ltac:(cbn; auto 10) eq_refl eq_refl) as X. cbn [cv_get cv_default] in X.
  rewrite N in X. discriminate X.
Qed.
(** True of the other four. *)
Theorem C51_defaults_partial : forall e cwd ok d f q fs c c' fs', ReInitializeObject e cwd ok d f q fs c = ROk (c', fs', true) ->
  forall v, In v (firstn 4 count_vars) -> cv_get v q = 0 ->
  (e (cv_name v) = None -> cv_get v (k_cnt c') = cv_default v) /\
  (forall s n, e (cv_name v) = Some s -> numeral 10 s n -> cv_lo v <= n <= cv_hi v -> cv_get v (k_cnt c') = n).
Proof.
  intros e cwd ok d f q fs c c' fs' H v I Z. destruct (reinit_cnt _ _ _ _ _ _ _ _ _ _ _ H) as [(_ & X)|(_ & ->)]; [discriminate X|]. cbv zeta.
  assert (G : 0 <= cv_lo v /\ cv_hi v <= 16384 /\ cv_get v (mkCnt (over (n_file q) (n_file (env_counts e (mkCnt 128 8192 8192 256 (n_ncond (k_cnt c)) (n_waiter (k_cnt c))))))
    (over (n_off q) (n_off (env_counts e (mkCnt 128 8192 8192 256 (n_ncond (k_cnt c)) (n_waiter (k_cnt c))))))
    (over (n_locker q) (n_locker (env_counts e (mkCnt 128 8192 8192 256 (n_ncond (k_cnt c)) (n_waiter (k_cnt c))))))
    (over (n_nmtx q) (n_nmtx (env_counts e (mkCnt 128 8192 8192 256 (n_ncond (k_cnt c)) (n_waiter (k_cnt c))))))
    (over (n_ncond q) (n_ncond (env_counts e (mkCnt 128 8192 8192 256 (n_ncond (k_cnt c)) (n_waiter (k_cnt c))))))
    (over (n_waiter q) (n_waiter (env_counts e (mkCnt 128 8192 8192 256 (n_ncond (k_cnt c)) (n_waiter (k_cnt c))))))) = env_count (cv_lo v) (cv_hi v) (e (cv_name v)) (cv_default v)).
  { repeat (destruct I as [<-|I]; [cbn [cv_get cv_lo cv_hi cv_name cv_default n_file n_off n_locker n_nmtx n_ncond n_waiter] in *; rewrite Z; split; [lia|]; split; [lia|reflexivity]|]). destruct I. }
  destruct G as (L & Hi & ->). split; [intros ->; reflexivity|]. intros s n -> N R. assert (I32 : is_int32 n) by (unfold is_int32, INT_MIN, INT_MAX; lia).
  rewrite (env_count_reads (cv_lo v) (cv_hi v) s n _ L ltac:(unfold INT_MAX; lia) (numeral_reads _ _ N) I32).
  destruct (Z.leb_spec (cv_lo v) n), (Z.leb_spec n (cv_hi v)); cbn [andb]; auto; lia.
Qed.

(** ** C76: every configured size gives a proper file *)
Definition C76_statement : Prop := forall c, reach (fun _ => True) c -> good_layout (k_cnt c).
(** 2^59 waiters of 32 bytes are 2^64 bytes, which is 0: the waiters do not fit into the file that is made. *)
Theorem C76_layout_refuted : ~ C76_statement.
Proof.
  intro H. destruct start_reach as (c & fs & S & A & R).
  assert (E : exists c1 fs1, ReInitializeObject env0 None true None None (mkCnt 0 0 0 0 0 576460752303423488) fs c = ROk (c1, fs1, true) /\ k_att c1 = true /\
     k_cnt c1 = mkCnt 128 8192 8192 256 256 576460752303423488).
  { vm_compute in S. injection S as <- <-. eexists. eexists. split; [vm_compute; reflexivity|]. split; vm_compute; reflexivity. }
  destruct E as (c1 & fs1 & E1 & A1 & N).
  assert (R1 : reach (fun _ => True) c1) by (eapply rc_reinit; [exact Logic.I | exact R | exact E1]).
  destruct (H c1 R1) as (F & _). rewrite N in F. unfold areas in F. do 6 apply Forall_inv_tail in F. apply Forall_inv in F. destruct F as [_ F]. apply F. vm_compute. reflexivity.
Qed.
Theorem C76_layout_partial : forall c, reach (fun q => n_waiter q = 0 \/ 4 <= n_waiter q <= 16384) c -> permitted (k_cnt c) /\ good_layout (k_cnt c).
Proof. intros c R. assert (P : permitted (k_cnt c)) by (apply reach_permitted; exact R). split; auto. apply C45_layout; auto. Qed.
Example C76_case : exists c, reach (fun q => n_waiter q = 0 \/ 4 <= n_waiter q <= 16384) c /\ k_cnt c = mkCnt 128 8192 8192 256 256 100 /\ k_att c = true.
Proof.
  eexists. split; [eapply (rc_reinit _ env0 None true None None (mkCnt 0 0 0 0 0 100) fs_tmp); [right; cbn; lia | | vm_compute; reflexivity]|].
  - eapply (rc_start _ env0 None true fs_tmp). vm_compute. reflexivity.
  - split; vm_compute; reflexivity.
Qed.

(** ** C77: the retry modes *)
(** In a retry mode a detached process attaches as soon as the shared file can be opened. *)
Definition C77_statement : Prop := forall c, reach (fun _ => True) c -> retry (k_nomap c) -> k_att c = false -> snd (CheckAttach true c) = true.
(** Without the automatic start the path of the shared file is never put together. *)
Theorem C77_retry_refuted : ~ C77_statement.
Proof.
  intro H. set (c := w_nomap NOMAP_ALLOW_RETRY (w_auto false (load_result env0 cfg0 (tx "/tmp/.fullock")))).
  assert (X : snd (CheckAttach true c) = true).
  { apply H; [|left; reflexivity|reflexivity].
    change c with (fst (SetNomapMode NOMAP_ALLOW_RETRY (w_auto false (load_result env0 cfg0 (tx "/tmp/.fullock"))))). apply rc_nomap.
    eapply (rc_start _ (env1 "FLCKAUTOINIT" "NO") None true fs_tmp). vm_compute. reflexivity. }
  vm_compute in X. discriminate X.
Qed.
(** Once a start has got as far as making the directory, every later lock call tries again and attaches when that is possible. *)
Theorem C77_retry_partial : forall e cwd ok fs c fs' r, InitializeObject true e cwd ok fs cfg0 = ROk (c, fs', r) -> k_auto c = true ->
  (exists fs2, MakeWorkDirectory cwd fs' (k_dir c) = ROk (fs2, true)) -> retry (k_nomap c) ->
  forall dev a, named a -> (forall k fd o l t, a = ApiRw k fd o l t -> dev = true) -> snd (call_head true dev a c) = Enter /\ k_att (fst (call_head true dev a c)) = true.
Proof.
  intros e cwd ok fs c fs' r H AU (fs2 & M) RT dev a NA DV.
  assert (P : k_path c <> []).
  { destruct (init_object_shape _ _ _ _ _ _ _ _ _ H) as (c1 & f1 & _ & [(_ & X & -> & _)|(c2 & E2 & [(W & -> & _)|(W & R)])]); [congruence| |].
    - destruct (make_work_again _ _ _ _ W) as (x & Y). congruence.
    - assert (E : k_path (w_path (k_dir c2 ++ tx "/" ++ k_name c2) c2) <> []) by (cbn [k_path w_path]; destruct (k_dir c2); discriminate).
      destruct (init_shm_cases _ _ _ _ R) as [(-> & _)|(-> & _)]; exact E. }
  assert (CA : exists c', CheckAttach true c = (c', true) /\ k_att c' = true).
  { unfold CheckAttach, InitializeShm. destruct (k_att c) eqn:A; [eauto|]. destruct (k_path c); [congruence|]. destruct RT as [RT|RT]; rewrite RT; eauto. }
  destruct CA as (c' & E & A').
  destruct a as [l [n|] t|k fd of' ln t|fd of' ln|[n|] m t|[n|] b]; cbn [named] in NA; try congruence; try contradiction; cbn [call_head]; unfold attach_or; rewrite E; cbn [fst snd]; auto.
  rewrite (DV k fd of' ln t eq_refl). auto.
Qed.
Example C77_case : exists c fs', InitializeObject true (env1 "FLCKNOMAPMODE" "ALLOW_RETRY") None false fs_tmp cfg0 = ROk (c, fs', false) /\ k_auto c = true /\ k_att c = false /\
  retry (k_nomap c) /\ exists fs2, MakeWorkDirectory None fs' (k_dir c) = ROk (fs2, true).
Proof.
  eexists. eexists. split; [vm_compute; reflexivity|]. split; [vm_compute; reflexivity|]. split; [vm_compute; reflexivity|]. split; [left; vm_compute; reflexivity|].
  eexists. vm_compute. reflexivity.
Qed.

(** ** C78: the shared file lies directly in the working directory *)
Theorem C78_file_in_directory : forall P c, reach P c -> k_att c = true -> exists name, k_path c = k_dir c ++ tx "/" ++ name /\ ~ In "/"%char name /\ name = k_name c.
Proof.
  intros P c R A. destruct (reach_cinv P c R) as [_ _ N [X|X] Q]; [destruct (Q A X)|]. exists (k_name c). auto.
Qed.
(** The name is the one the environment gives, without the white space around it, unless that has a slash. *)
Theorem C78_name : forall e cwd fs c c' fs', LoadEnv e cwd fs c = ROk (c', fs') ->
  match e "FLCKFILENAME"%string with
  | None => k_name c' = tx "fullock.shm"
  | Some s => (In "/"%char s -> k_name c' = k_name c) /\ (~ In "/"%char s -> trimmed s (k_name c'))
  end.
Proof.
  intros e cwd fs c c' fs' H. destruct (load_shape _ _ _ _ _ _ H) as (d & _ & ->). unfold load_result. cbn [k_name]. unfold env_name. destruct (e "FLCKFILENAME"%string) as [s|]; auto.
  destruct (has_slash (trim s)) eqn:S.
  - split; auto. intro N. exfalso. assert (T : ~ ~ In "/"%char (trim s)) by (intro T; apply has_slash_false in T; congruence). apply T. intro I. apply N, trim_slash_back, I.
  - apply has_slash_false in S. split; [intro I; destruct (S (trim_slash _ I)) | intros _; apply trim_spec].
Qed.
Example C78_name_case : exists c' fs', LoadEnv (env1 "FLCKFILENAME" "  my locks	 ") None fs_tmp cfg0 = ROk (c', fs') /\ k_name c' = tx "my locks".
Proof. eexists. eexists. split; vm_compute; reflexivity. Qed.
Example C78_case : exists c, reach (fun _ => True) c /\ k_att c = true /\ k_path c = tx "/tmp/.fullock/fullock.shm".
Proof. destruct start_reach as (c & fs & S & A & R). exists c. split; auto. split; auto. vm_compute in S. injection S as <- <-. vm_compute. reflexivity. Qed.

(** ** C52: without a mapping *)
(** [ok]: whether attaching would succeed.  Nothing shared is entered, and the configuration is not changed. *)
Theorem C52_no_mapping : forall ok dev a c, named a -> k_att c = false -> (ok = false \/ ~ retry (k_nomap c) \/ k_path c = []) ->
  call_head ok dev a c = (c, Leave (if match k_nomap c with NOMAP_ALLOW_RETRY | NOMAP_ALLOW_NORETRY => true | _ => false end then 0 else ENOLCK)) /\
  (allow (k_nomap c) -> snd (call_head ok dev a c) = Leave 0) /\ (~ allow (k_nomap c) -> snd (call_head ok dev a c) = Leave ENOLCK) /\ ENOLCK <> 0.
Proof.
  intros ok dev a c N A W.
  assert (CA : CheckAttach ok c = (c, false)).
  { unfold CheckAttach, InitializeShm. rewrite A. destruct W as [->|[W|W]].
    - destruct (k_nomap c); auto; destruct (k_path c); auto.
    - unfold retry in W. destruct (k_nomap c); auto; exfalso; apply W; auto.
    - rewrite W. destruct (k_nomap c); auto. }
  assert (E : call_head ok dev a c = (c, Leave (nomap_result (k_nomap c)))).
  { destruct a as [l [n|] t|k fd of' ln t|fd of' ln|[n|] m t|[n|] b]; cbn [named] in N; try congruence; try contradiction; cbn [call_head]; unfold attach_or; rewrite CA; reflexivity. }
  rewrite E. cbn [snd]. unfold allow, nomap_result. split; [destruct (k_nomap c); reflexivity|]. split; [intros [X|X]; rewrite X; reflexivity|].
  split; [intro X; destruct (k_nomap c); auto; exfalso; apply X; auto | discriminate].
Qed.
(** The question whether a range is locked is answered with no in the allow modes and with yes in the deny modes. *)
Theorem C52_is_locked : forall ok dev fd off len c, k_att c = false -> (ok = false \/ ~ retry (k_nomap c) \/ k_path c = []) ->
  (allow (k_nomap c) -> call_head ok dev (ApiIsLocked fd off len) c = (c, Leave 0)) /\ (~ allow (k_nomap c) -> call_head ok dev (ApiIsLocked fd off len) c = (c, Leave 1)).
Proof.
  intros ok dev fd off len c A W.
  assert (CA : CheckAttach ok c = (c, false)).
  { unfold CheckAttach, InitializeShm. rewrite A. destruct W as [->|[W|W]].
    - destruct (k_nomap c); auto; destruct (k_path c); auto.
    - unfold retry in W. destruct (k_nomap c); auto; exfalso; apply W; auto.
    - rewrite W. destruct (k_nomap c); auto. }
  cbn [call_head]. unfold attach_or. rewrite CA. unfold allow. split; [intros [X|X]; rewrite X; reflexivity|].
  intro X. destruct (k_nomap c); auto; exfalso; apply X; auto.
Qed.
(** A missing name is an error in every mode, before anything is looked at; an attached process always goes on. *)
Theorem C52_no_name : forall ok dev l t m b c,
  call_head ok dev (ApiMutex l None t) c = (c, Leave EINVAL) /\ call_head ok dev (ApiWait None m t) c = (c, Leave EINVAL) /\ call_head ok dev (ApiSignal None b) c = (c, Leave EINVAL).
Proof. intros. repeat split; reflexivity. Qed.
Theorem C52_attached : forall ok a c, named a -> k_att c = true -> call_head ok true a c = (c, Enter).
Proof.
  intros ok a c N A. destruct a as [l [n|] t|k fd of' ln t|fd of' ln|[n|] m t|[n|] b]; cbn [named] in N; try congruence; try contradiction;
    cbn [call_head]; unfold attach_or, CheckAttach; rewrite A; reflexivity.
Qed.
Example C52_case : call_head true true (ApiMutex true (Some (tx "m")) (-1)) (w_nomap NOMAP_DENY_NORETRY cfg0) = (w_nomap NOMAP_DENY_NORETRY cfg0, Leave 37) /\
  call_head false true (ApiRw 1 5 0 10 0) (w_path (tx "/f") (w_nomap NOMAP_ALLOW_RETRY cfg0)) = (w_path (tx "/f") (w_nomap NOMAP_ALLOW_RETRY cfg0), Leave 0).
Proof. split; vm_compute; reflexivity. Qed.

(** ** C53: setters *)
Theorem C53_setters : forall P c, reach P c ->
  (forall v, SetRobustMode v c = (mkCfg (k_auto c) v (k_nomap c) (k_free c) (k_umask c) (k_loop c) (k_cnt c) (k_dir c) (k_name c) (k_path c) (k_att c), k_robust c)) /\
  (forall v, SetNomapMode v c = (mkCfg (k_auto c) (k_robust c) v (k_free c) (k_umask c) (k_loop c) (k_cnt c) (k_dir c) (k_name c) (k_path c) (k_att c), k_nomap c)) /\
  (forall v, SetFreeUnitMode v c = (mkCfg (k_auto c) (k_robust c) (k_nomap c) v (k_umask c) (k_loop c) (k_cnt c) (k_dir c) (k_name c) (k_path c) (k_att c), k_free c)).
Proof.
  intros P c R. split; [|split; intro v; reflexivity]. intro v. unfold SetRobustMode, FLCK_ROBUST_CHKCNT_MIN. destruct v; auto. cbn [k_loop w_robust].
  pose proof (ci_loop c (reach_cinv P c R)) as L. destruct (Z.ltb_spec (k_loop c) 50); [lia|]. reflexivity.
Qed.
(** The number of checks: refused without change below 50 or outside the high mode, otherwise set, and the old one delivered; the exported call says which. *)
Theorem C53_check_count : forall P c v, reach P c ->
  (v < 50 \/ k_robust c <> ROBUST_HIGH -> SetRobustLoopCnt v c = (c, -1) /\ fullock_set_robust_check_count v c = (c, false)) /\
  (50 <= v -> k_robust c = ROBUST_HIGH ->
     SetRobustLoopCnt v c = (mkCfg (k_auto c) (k_robust c) (k_nomap c) (k_free c) (k_umask c) v (k_cnt c) (k_dir c) (k_name c) (k_path c) (k_att c), k_loop c) /\
     snd (fullock_set_robust_check_count v c) = true /\ 50 <= k_loop c).
Proof.
  intros P c v R. pose proof (ci_loop c (reach_cinv P c R)) as L. unfold fullock_set_robust_check_count, SetRobustLoopCnt, FLCK_ROBUST_CHKCNT_MIN. split.
  - intros [X|X].
    + destruct (k_robust c); auto. destruct (Z.ltb_spec v 50); [auto | lia].
    + destruct (k_robust c); auto. congruence.
  - intros V H. rewrite H. destruct (Z.ltb_spec v 50); [lia|]. rewrite <- H. split; [reflexivity|]. split; auto. cbn [snd].
    destruct (Z.eqb_spec (k_loop c) (-1)); [lia | reflexivity].
Qed.
Example C53_case : exists c, reach (fun _ => True) c /\ k_robust c = ROBUST_HIGH /\ SetRobustLoopCnt 70 c = (w_loop 70 c, 5000) /\ SetRobustLoopCnt 49 c = (c, -1).
Proof. destruct start_reach as (c & fs & S & A & R). exists c. split; auto. vm_compute in S. injection S as <- <-. repeat split; vm_compute; reflexivity. Qed.

Print Assumptions C50_counts_in_range.
Print Assumptions C50_valid_taken.
Print Assumptions C50_invalid_kept_refuted.
Print Assumptions C50_invalid_kept_partial.
Print Assumptions C50_modes.
Print Assumptions C50_umask_refuted.
Print Assumptions C50_umask_text_refuted.
Print Assumptions C50_umask_partial.
Print Assumptions C50_no_crash_refuted.
Print Assumptions C50_no_crash_partial.
Print Assumptions C50_check_count.
Print Assumptions C51_valid_accepted_refuted.
Print Assumptions C51_only_valid_refuted.
Print Assumptions C51_accepts_partial.
Print Assumptions C51_rejected_refuted.
Print Assumptions C51_rejected_partial.
Print Assumptions C51_given_set.
Print Assumptions C51_defaults_refuted.
Print Assumptions C51_defaults_partial.
Print Assumptions C76_layout_refuted.
Print Assumptions C76_layout_partial.
Print Assumptions C77_retry_refuted.
Print Assumptions C77_retry_partial.
Print Assumptions C78_file_in_directory.
Print Assumptions C78_name.
Print Assumptions C52_no_mapping.
Print Assumptions C52_is_locked.
Print Assumptions C52_no_name.
Print Assumptions C52_attached.
Print Assumptions C53_setters.
Print Assumptions C53_check_count.
