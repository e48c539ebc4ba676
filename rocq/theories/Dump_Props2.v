(** C122: the first lines of a dump. *)
From Coq Require Import ZArith List Bool Lia.
From Verif Require Import Base List_Model List_Spec Dump_Model Dump_Spec Dump_Proofs Dump_Props.
Import ListNotations.
Open Scope Z_scope.

(** the place of the first entry of a list, 0 if it is empty *)
Definition place_of_first (l : list Z) : Z := match l with [] => 0 | r :: _ => r end.
Lemma leads_first m top l : leads m top l -> m top = place_of_first l.
Proof. unfold leads. intros H. inversion H; reflexivity. Qed.

(** The first lines give the version number and the length found in the header, and for each of the six lists that they name the place of its first entry. *)
Theorem C122_first_lines : forall fuel base m h fr, 0 < base -> has_shape m h -> long h fuel ->
  exists out, Dump fuel true base m fr = Some out /\
    first_field FVersion out = Some (m 0) /\ first_field FLength out = Some (m 32) /\
    first_field FFileList out = Some (place_of_first (s_files h)) /\ first_field FMtxList out = Some (place_of_first (s_mtxs h)) /\
    first_field FFileFree out = Some (place_of_first (s_file_free h)) /\ first_field FOffFree out = Some (place_of_first (s_off_free h)) /\
    first_field FLockerFree out = Some (place_of_first (s_locker_free h)) /\ first_field FMtxFree out = Some (place_of_first (s_mtx_free h)).
Proof.
  intros fuel base m h fr B S L. eexists. split; [apply dump_eq; eassumption|].
  destruct S as (A1 & A2 & A3 & A4 & A5 & A6 & A7 & _).
  rewrite <- (leads_first _ _ _ A1), <- (leads_first _ _ _ A2), <- (leads_first _ _ _ A4), <- (leads_first _ _ _ A5), <- (leads_first _ _ _ A6), <- (leads_first _ _ _ A7).
  repeat split; reflexivity.
Qed.

Example C122_first_lines_case : match Dump 5 true 4096 (ex_dump 9) true with
  | Some out => first_field FLockerFree out = Some 700 /\ first_field FOffFree out = Some 0
  | None => False
  end.
Proof. vm_compute. auto. Qed.
Print Assumptions C122_first_lines.
