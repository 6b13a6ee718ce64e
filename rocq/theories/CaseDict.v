(** The theorems of PropDict.v and PropEquals.v applied to concrete values:
    every hypothesis is met there, by a value that is not trivial. *)
From Coq Require Import Sorting.Sorted.
From Verif Require Import Base Strconv SortedMap Json SpecJson SpecDict SpecEquals Printer Access Equals AccessFacts.
From Verif Require Import PropRoundtrip PropDict PropEquals.

(** {"a":{"b":[1,2],"c":null},"b":3} with two node ids, and another dict *)
Definition dk : list (bytes * json) :=
  [(ka, JDict 4 [(kb, JArray [JInt 1; JInt 2]); (kc, JNull)]); (kb, JInt 3)].
Definition dk' : list (bytes * json) := [(kA, JInt 1); (kb, JInt 3); (kc, JBool true)].
Lemma dk_ok : json_ok (JDict 7 dk). Proof. unfold dk. json_ok_tac. Qed.
Lemma dk'_ok : json_ok (JDict 0 dk'). Proof. unfold dk'. json_ok_tac. Qed.
Lemma dk_no_reference : no_reference (JDict 7 dk).
Proof. intros n S. unfold dk in S. subs S. Qed.
Lemma dk_no_nan : no_nan (JDict 7 dk).
Proof. intros n S. unfold dk in S. subs S. Qed.

Example C14_any_history_case := C14_any_history ceq_ascii some_ops some_ops_ok.
Example C14_any_history_from_case := C14_any_history_from ceq_ascii 7 dk some_ops dk_ok some_ops_ok.
Example C14_observers_case := C14_observers 7 dk dk_ok.
Example C14_remove_reports_case := C14_remove_reports 7 dk kb dk_ok.
Example C14_canonical_case := C14_canonical 7 7 dk dk dk_ok dk_ok (fun k => eq_refl).
Example C15_remove_ignore_case_case := C15_remove_ignore_case ceq_ascii 0 dk' ka dk'_ok.
Example C15_exact_comparison_case := C15_exact_comparison 0 dk' ka dk'_ok.

(** Add 9 at a.d.e: creates a.d *)
Definition kd : bytes := Eval vm_compute in B "d".
Definition dk_added : list (bytes * json) :=
  Eval vm_compute in fst (dict_add dk (JInt 9) [ka; kd; kc]).
Lemma dk_add : dict_add dk (JInt 9) [ka; kd; kc] = (dk_added, None). Proof. reflexivity. Qed.
Lemma dk_path : [ka; kd; kc] <> []. Proof. discriminate. Qed.
Example C16_add_success_case := C16_add_success (JInt 9) 7 dk [ka; kd; kc] dk_added dk_path dk_add.
Example C16_add_then_get_case := C16_add_then_get (JInt 9) 7 dk [ka; kd; kc] dk_added dk_path dk_add.
Example C16_add_failure_case : dict_add dk (JInt 9) [ka; kb; kc] = (dk, Some ErrInvalidJsonDict).
Proof.
  destruct (C16_add_failure (JInt 9) 7 dk [ka; kb; kc] dk_ok) as [_ F]. apply F. vm_compute. discriminate.
Qed.
Example C16_add_ok_case := C16_add_ok (JArray [JInt 1]) 7 dk [ka; kd; kc] dk_ok
  ltac:(json_ok_tac).

Lemma dk_at : at_path (JDict 7 dk) [ka] (JDict 4 [(kb, JArray [JInt 1; JInt 2]); (kc, JNull)]).
Proof. apply ap_step with (v := JDict 4 [(kb, JArray [JInt 1; JInt 2]); (kc, JNull)]); [reflexivity | constructor]. Qed.
Example C17_get_is_path_case := proj2 (C17_get_is_path 7 dk _ _) dk_at.
Example C17_get_errors_case := C17_get_errors 7 dk [kb; kc] ErrInvalidJsonDict eq_refl.
Example C17_get_errors_case2 := C17_get_errors 7 dk [ka; kd; kc] ErrJsonDictKeyNotFound eq_refl.
Example C17_missing_key_error_case := C17_missing_key_error 7 dk [ka] kd [kc] _ _ dk_at eq_refl.
Example C17_get_not_dict_case := C17_get_not_dict (JArray [JInt 1]) [ka] ltac:(discriminate).
Example C17_get_app_case : exists x, Get (JDict 7 dk) [ka] = ROk x /\ Get x [kb] = ROk (JArray [JInt 1; JInt 2]).
Proof. apply (proj1 (C17_get_app 7 dk [ka] kb [] (JArray [JInt 1; JInt 2]))). reflexivity. Qed.

Example C18_get_at_case := proj1 (proj2 (C18_get_at [JInt 1; JInt 2; JInt 3] (-3))) ltac:(cbn; lia).
Example C18_get_at_case2 := proj2 (proj2 (C18_get_at [JInt 1; JInt 2; JInt 3] 3)) ltac:(cbn; lia).
Example C18_get_at_path_case := C18_get_at_path 7 dk [ka; kb] [JInt 1; JInt 2] (-1) eq_refl.
Example C18_get_array_case := proj2 (C18_get_array (JInt 5)) ka [kb] ltac:(discriminate).
Example C18_get_at_errors_case :=
  proj2 (C18_get_at_errors (JDict 7 dk) 0 [kb]) (JInt 3) eq_refl ltac:(discriminate).
Example C18_set_at_case := proj1 (C18_set_at [JInt 1; JInt 2] 1 JNull) ltac:(cbn; lia).
Example C18_set_at_case2 := proj2 (C18_set_at [JInt 1; JInt 2] (-1) JNull) ltac:(cbn; lia).

Example C19_update_case := C19_update 7 dk (JDict 0 dk') dk_ok dk'_ok.
Example C20_diff_case := C20_diff 7 0 dk dk' dk_ok dk'_ok.
Example C23_projections_case := C23_projections 7 dk [kb; kd] dk_ok.
Example C23_copy_all_case := C23_copy_all 7 dk dk_ok.

Lemma e2_ok : json_ok e2. Proof. unfold e2. json_ok_tac. Qed.
Lemma e2_no_reference : no_reference e2. Proof. intros n S. unfold e2 in S. subs S. Qed.
Lemma e1_no_nan : no_nan e1. Proof. intros n S. unfold e1 in S. subs S; discriminate. Qed.
(** e1 and e2 differ in node id, bit size and the sign of a zero *)
Example C21_equals_case : same_content e1 e2 := proj1 (C21_equals_iff_same_content e1 e2 e1_ok e2_ok e1_no_reference) e1_equals_e2.
Example C21_symmetric_case := C21_symmetric e1 e2 e1_ok e2_ok e1_no_reference e2_no_reference.
Example C21_transitive_case := C21_transitive e1 e2 e1 e1_ok e2_ok e1_ok e1_no_reference e2_no_reference
  e1_equals_e2 eq_refl.
Example C21_reflexive_case := proj2 (C21_reflexive_iff_no_nan e1 e1_ok e1_no_reference) e1_no_nan.
Example C21_order_irrelevant_case := C21_order_irrelevant 7 7 dk dk dk_ok dk_ok dk_no_reference dk_no_nan
  (fun k v => iff_refl _).
Example C20_diff_self_case := C20_diff_self 7 dk dk_ok dk_no_reference dk_no_nan.
