(** The theorems of PropHeap.v, PropNil.v (copies), PropShare.v, PropConcur.v,
    PropAlias.v and PropLinked.v applied to concrete objects: every hypothesis
    is met there. *)
From Coq Require Import Sorting.Sorted Sorting.Permutation.
From Verif Require Import Base Strconv SortedMap Json SpecJson SpecDict SpecEquals Printer Access Equals Heap SpecHeap HeapRead SpecNil SpecShare Gotypes Unmarshal
  Alias Linked SpecLinked Native Concur SpecConcur Time PropRoundtrip PropDict PropHeap PropNil PropShare PropConcur PropAlias PropLinked PropTime CaseDict.
Open Scope Z_scope.

(** * Copies *)
Definition any : heap -> list (bytes * ref) -> list (bytes * ref) := fun _ l => rev l.
Lemma any_any : any_order any. Proof. intros h l. apply Permutation_sym, Permutation_rev. Qed.
Definition ex_v : json := JDict 3 [(B "a", JDict 0 [(B "x", JInt 7)]); (B "b", JInt 7)].
Lemma ex_holds : holds ex_heap 0%nat ex_v. Proof. exists 3%nat. reflexivity. Qed.
Lemma ex_ok : json_ok ex_v. Proof. unfold ex_v. json_ok_tac. Qed.
Lemma ex_no_reference : no_reference ex_v. Proof. intros n H. unfold ex_v in H. subs H. Qed.
Example C22_deep_copy_content_case := C22_deep_copy_content any ex_heap 0%nat ex_v any_any ex_holds ex_ok ex_no_reference.
Example C22_deep_copy_exact_case := C22_deep_copy_exact (JDict 0 [(B "a", JDict 0 [(B "x", JInt 7)])])
  ltac:(intros nid kvs H; subs H; reflexivity).
Definition ex_ops : list cop := [KGet 0 (B "a"); KNew (CString (B "new")); KSet 1 (B "x") 2; KRemove 0 (B "b")].
Example C22_mutating_the_copy_case := C22_mutating_the_copy any 3 ex_heap 0%nat _ _ (fun _ l => l) 5 ex_ops _ _ eq_refl eq_refl.
Example C22_mutating_the_original_case :=
  C22_mutating_the_original any 3 ex_heap 0%nat _ _ [0%nat] (fun _ l => l) 5 ex_ops _ _ (drop_ids ex_v) (proj1 (proj2 C22_example))
    ltac:(intros r [<-|[]]; cbn; lia) eq_refl eq_refl ltac:(exists 4%nat; reflexivity).
Example C22_copy_top_level_case := C22_copy_top_level ex_heap 0%nat _ _ _ _ eq_refl ltac:(repeat constructor) eq_refl.
Example C22_copy_shares_members_case := C22_copy_shares_members ex_heap 0%nat _ _ _ _ (B "a") 1%nat (B "x") None _
  eq_refl ltac:(repeat constructor) eq_refl ltac:(cbn; intuition (try congruence); match goal with H : Some _ = Some _ |- _ => injection H as <-; lia end)
  eq_refl eq_refl.
Example C22_references_case := C22_references_become_nil_refuted any any_any.
Example C22_node_ids_case := C22_node_ids_are_dropped_refuted any any_any.
Example C22_cyclic_case := C22_cyclic_objects_refuted any 100%nat any_any.
Example C62_deep_copy_case := C62_deep_copy any _ 0%nat _ any_any (proj1 C62_copy_example) (proj1 (proj2 C62_copy_example)).
Example C62_copy_cannot_be_printed_case := C62_copy_cannot_be_printed any _ 0%nat _ 7 any_any (proj1 C62_copy_example)
  (proj1 (proj2 C62_copy_example)) (proj1 (proj2 (proj2 C62_copy_example))) (proj2 (proj2 (proj2 C62_copy_example))).

(** * Changing shared objects *)
Definition inner : json := JDict 0 [(B "x", JInt 7)].
Definition outer : json := JDict 0 [(B "a", inner); (B "l", JArray [JInt 7; JNull])].
Lemma h0 : holds share_heap 0%nat outer. Proof. exists 3%nat. reflexivity. Qed.
Lemma h1 : holds share_heap 1%nat inner. Proof. exists 2%nat. reflexivity. Qed.
Lemma h2 : holds share_heap 2%nat (JArray [JInt 7; JNull]). Proof. exists 2%nat. reflexivity. Qed.
Lemma h5 : holds share_heap 5%nat (JString (B "new")). Proof. exists 1%nat. reflexivity. Qed.
Lemma outer_ok : json_ok outer. Proof. unfold outer, inner. json_ok_tac. Qed.
Lemma only5 x : x <> 5%nat -> ~ reaches share_heap 5%nat x.
Proof. intros N [p L]. apply N. inversion L as [|? ? ? ? ? ? ? E|? ? ? ? ? ? E]; [reflexivity|discriminate|discriminate]. Qed.
Lemma only1 p : leads share_heap 1%nat p 0%nat -> p = [].
Proof.
  intros L. inversion L as [|? ? ? ? ? ? ? E I L1|? ? ? ? ? ? E]; subst; [|discriminate]. injection E as <- <-.
  destruct I as [I|[]]; injection I as _ <-. inversion L1; discriminate.
Qed.
Example C52_set_case := C52_set share_heap 1%nat (B "y") 5%nat _ _ _ h1 h5 (only5 1%nat ltac:(discriminate)).
Example C52_remove_case := C52_remove share_heap 0%nat (B "l") _ _ h0.
Example C52_remove_ignore_case_case := C52_remove_ignore_case ceq_ascii share_heap 0%nat (B "L") _ _ _ _ h0 eq_refl.
Example C52_update_case := C52_update share_heap 0%nat 1%nat _ _ _ h0 h1 only1.
Example C52_update_default_case := C52_update_default share_heap 0%nat 1%nat _ _ _ h0 h1 only1.
Example C52_append_case := C52_append share_heap 2%nat [5%nat; 5%nat] _ _ h2 (Forall2_cons _ _ h5 (Forall2_cons _ _ h5 (Forall2_nil _)))
  ltac:(intros v [<-|[<-|[]]]; apply only5; discriminate).
Example C52_set_at_case := C52_set_at share_heap 2%nat 1 5%nat _ _ h2 h5 (only5 2%nat ltac:(discriminate)).
Example C52_get_case := C52_get share_heap 0%nat _ _ [B "a"; B "x"] h0.
Example C52_get_ignore_cases_case := C52_get_ignore_cases ceq_ascii share_heap 0%nat _ _ [B "A"; B "X"] h0.
Example C52_get_at_case := C52_get_at share_heap 2%nat _ (-1) h2.
Example C52_add_case := C52_add (fun _ => true) share_heap 0%nat 5%nat _ _ _ [B "a"; B "y"; B "z"] (fun _ _ => eq_refl) h0 outer_ok h5
  (proj1 (proj2 (proj2 (proj2 C52_example)))).
Example C52_null_identity_case := C52_null_identity (fun _ => false) [CDict 0 [(ka, Some 1%nat)]; CNull] 0%nat None 0 _ ka kb [] 1%nat eq_refl eq_refl eq_refl eq_refl.
Example C52_nil_in_the_way_case := C52_nil_in_the_way (fun _ => false) [CDict 0 [(ka, None)]; CNull] 0%nat None 0 _ ka kb [] eq_refl eq_refl.
Lemma changed : exists h' v, becomes share_heap 1%nat v h'.
Proof. destruct C52_set_case as (h' & _ & H). eauto. Qed.
Example C52_seen_once_case : exists h' v j', becomes share_heap 1%nat v h' /\ put_at outer [Key (B "a")] v = Some j' /\ holds h' 0%nat j'.
Proof.
  destruct changed as (h' & v & H).
  destruct (C52_seen_once _ _ _ _ _ _ _ H outer_ok h0 (proj1 (proj2 C52_example))) as (j' & P & Q). eauto 6.
Qed.
Example C52_seen_everywhere_case : exists h' v j', becomes share_heap 1%nat v h' /\ holds h' 0%nat j' /\ value_at j' [Key (B "a")] v.
Proof.
  destruct changed as (h' & v & H). destruct (C52_seen_everywhere _ _ _ _ _ _ H outer_ok h0) as (j' & P & Q).
  exists h', v, j'. split; [exact H|]. split; [exact P|]. apply Q, C52_example.
Qed.
Example C52_not_seen_elsewhere_case : exists h' v, becomes share_heap 1%nat v h' /\ holds h' 5%nat (JString (B "new")).
Proof.
  destruct changed as (h' & v & H). exists h', v. split; [exact H|].
  exact (C52_not_seen_elsewhere _ _ _ _ _ _ H (ok_string _) h5 (only5 1%nat ltac:(discriminate))).
Qed.
Example C52_get_then_set_case := C52_get_then_set share_heap 0%nat _ _ [B "a"] 1%nat _ _ (B "y") 5%nat _
  h0 outer_ok eq_refl (proj2 (proj1 (proj2 C52_example))) h1 h5 (only5 1%nat ltac:(discriminate)).
Example C52_cycle_case := C52_cycle_refuted share_heap 1%nat (B "y") _ _ _ h1 eq_refl.

(** * Goroutines *)
Definition cc_sched : list nat := [0; 1; 0; 1; 0; 1; 0; 1; 0; 1; 0; 1]%nat.
Definition cc_prog := match go_string 2 1%nat with Run p => p | _ => Done None end.
Example C51_as_if_alone_case := C51_as_if_alone cc_heap cc_sched [cc_prog; cc_prog] _ _ 0%nat cc_prog _ eq_refl eq_refl eq_refl
  ltac:(vm_compute; eauto).
Example C51_wait_free_case := C51_wait_free cc_heap cc_prog.
Example C51_string_case := C51_string cc_heap 2 [(1%nat, JDict 0 [(B "x", JFloat (FFin false 6755399441055744 (-52)) 0)]); (0%nat, JFloat (FFin false 6755399441055744 (-52)) 0)]
  ltac:(intros a j [E|[E|[]]]; injection E as <- <-; reflexivity).
Definition wide_heap : heap := [CFloat (FFin false 6755399441055744 (-52)) 64; CDict 0 [(B "x", Some 0%nat)]].
Lemma wide_heap_wide : wide wide_heap.
Proof. intros a f bit H. destruct a as [|[|[|a]]]; cbn in H; try discriminate. injection H as <- <-. lia. Qed.
Example C51_no_race_case := C51_no_race wide_heap cc_sched [cc_prog; cc_prog] _ _ wide_heap_wide eq_refl.

(** * Variables that hold JSON objects *)
Example C47_same_object_case := C47_same_object al_heap (Some KString) (Some 5%nat) 1%nat _ _ eq_refl eq_refl (or_intror eq_refl).
Example C47_null_case := C47_null [CNull] None None 0%nat eq_refl.
Example C47_error_case := C47_error al_heap (Some KDict) (Some 0%nat) 1%nat _ _ _ (proj1 al_refused).
Example C47_frame_case := C47_frame al_heap (Some KString) (Some 5%nat) 3%nat _ _ _ eq_refl.
Example C47_converted_case := C47_converted al_heap KString 1%nat 3%nat _ _ eq_refl ltac:(cbn; lia) (conv_int 5).
Example C47_converted_nil_case := C47_converted_nil al_heap KBool 5%nat _ _ eq_refl (conv_no _ al_not_yes).
Example C47_changes_case := C47_changes_only_in_conversions al_heap (Some KString) (Some 5%nat) 3%nat _ _ _ eq_refl
  ltac:(intros U; discriminate (U 5%nat _ eq_refl)).
Definition al_vars : vars := [(Some KString, None); (Some KBool, None); (Some KInt, None); (None, None)].
Definition al_doc : list (nat * addr) := [(0%nat, 1%nat); (1%nat, 2%nat); (2%nat, 4%nat); (3%nat, 0%nat); (0%nat, 3%nat); (1%nat, 5%nat)].
Lemma al_vars_ok : vars_ok al_heap al_vars. Proof. repeat constructor. Qed.
Example C47_variables_typed_case := C47_variables_typed al_doc al_heap al_vars _ _ al_vars_ok eq_refl.
Example C47_containers_kept_case := C47_containers_kept al_doc al_heap al_vars _ _ al_vars_ok eq_refl.
Example C47_earlier_document_case := C47_earlier_document_refuted al_heap 1%nat _ 3%nat _ eq_refl eq_refl.
Example C47_true_becomes_false_case := C47_true_becomes_false_refuted al_heap 2%nat 5%nat _ eq_refl eq_refl al_not_yes.

Definition no_b : bytes -> bool := fun _ => false.
Definition no_o {A} : bytes -> option A := fun _ => None.
Example C47_agrees_case := C47_agrees (fun _ => []) (fun _ _ => []) no_b no_b no_b no_o no_o no_b 3 al_heap (Some KString) (Some 1%nat) 3%nat
  (JInt 5) (Some (JString (B "x"))) [VJson (Some (JString (B "x")))] 0%nat
  ltac:(exists 1%nat; reflexivity) ltac:(discriminate)
  ltac:(eexists; split; [reflexivity | intros k [= <-]; reflexivity]) ltac:(exists 1%nat; reflexivity) eq_refl.

(** * Documents with references *)
Definition L2 : Z -> option json := links_of twice_json.
Definition twice_kvs : list (bytes * json) := [(B "x", JDict 1 [(B "n", JInt 7)]); (B "y", JPtr 1)].
Example C50_equals_case := C50_equals L2 twice_json twice_json (C50_links_are_dicts _) 3 ltac:(cbn; lia).
Example C50_interface_case := C50_interface_returns_only_if_finite L2 1 twice_json _ twice_interface.
Example C50_interface_case2 := C50_interface L2 1 twice_json (proj1 C50_interface_case).
Example C50_step_by_step_complete_case := C50_step_by_step_complete (links_of ring_json) _ (C50_links_are_dicts _) 4 ring_json _ ring_unfolds.
Example C50_path_through_reference_case := C50_path_through_reference_refuted L2 0 twice_kvs (B "y") 1 _ _ (B "n") _ eq_refl eq_refl eq_refl.
Example C50_get_string_case := C50_get_string L2 0 twice_kvs (B "y") 1 _ _ eq_refl eq_refl.
Example C50_without_references_case := C50_without_references L2 3 p_std twice_json [B "x"; B "n"] ltac:(discriminate) ltac:(discriminate).
Example C50_reference_delegates_case := C50_reference_delegates L2 3 p_std 1 [B "n"] (JDict 1 [(B "n", JInt 7)]) ltac:(discriminate) (or_introl eq_refl).
Example C50_conversion_case := C50_conversion_of_reference_refuted L2 0 twice_kvs [B "y"] 1 _ _ eq_refl eq_refl 100%nat.
