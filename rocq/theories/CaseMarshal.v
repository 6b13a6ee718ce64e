(** The theorems of PropMarshal.v, PropMarshalPanic.v, PropRestore.v,
    PropPersist.v, PropSession.v, PropUnmarshal.v and PropMapKeys.v applied to
    concrete values: every hypothesis is met there. *)
From Verif Require Import Base Strconv SortedMap Json SpecJson Printer Parser Heap Gotypes Marshal SpecMarshal SpecEncode MarshalX SpecMarshalPanic Unmarshal
  SpecUnmarshal SpecRestore SpecSession UnmHistory PropMarshal PropMarshalPanic PropUnmarshal PropRestore PropPersist PropSession MapKeys SpecMapKeys PropMapKeys CaseHeap.
Open Scope Z_scope.

Lemma ring_graph : graph ring (GPtr (Some 0%nat)). Proof. apply ring_plain. Qed.
Lemma ring_no_trap : no_trap ring (GPtr (Some 0%nat)).
Proof.
  intros x fs k Hx Hf (b & _ & (c & Tc & _) & _).
  destruct Hx as [->|[<-|[<-|[]]]]; simpl in Hf; try destruct Hf as [<-|[]]; try destruct Hf;
    revert Tc; cbn [tag_of plain fi_name fi_ignore fi_deprecated_by fst snd andb negb];
    repeat match goal with |- context [bseq ?x ?y] => destruct (bseq x y) end; discriminate.
Qed.
Example C31_terminates_case := C31_terminates true lst ring _ ring_graph ring_no_trap.
Example C30_result_encodes_value_case := C30_result_encodes_value true ring _ _ ring_marshalled.
Example C31_references_resolve_case := C31_references_resolve true ring _ _ ring_plain ring_marshalled.
Definition some_fs := [(omit_zero "a", GInt (Signed 64) 0); (plain (nm "b"), GInt (Signed 64) 0); (plain (nm "c"), GSlice None)].
Lemma some_names : NoDup (emitted_names some_fs).
Proof. repeat constructor; cbn; intuition discriminate. Qed.
Example C30_field_dropped_iff_case := C30_field_dropped_iff true [] some_fs _ _ (omit_zero "a") (GInt (Signed 64) 0)
  (proj1 fields_marshalled) some_names (or_introl eq_refl) eq_refl eq_refl.
Example C30_marshal_all_keeps_fields_case := C30_marshal_all_keeps_fields [] some_fs _ _ (omit_zero "a") (GInt (Signed 64) 0)
  (proj2 fields_marshalled) some_names (or_introl eq_refl) eq_refl eq_refl.
Example C30_only_field_names_case := C30_only_field_names true [] some_fs _ _ (nm "b") (proj1 fields_marshalled) ltac:(discriminate).

Definition chain_fs := [(deprecated "a" "b", GBool false); (deprecated "b" "c", GBool false); (plain (nm "c"), GString (nm "v"))].
Lemma chain_names : NoDup (emitted_names chain_fs). Proof. repeat constructor; cbn; intuition discriminate. Qed.
Lemma chain_ends : ends_at (tag_of chain_fs) (nm "a") (nm "c").
Proof.
  split; [|reflexivity]. eapply leads_step; [reflexivity|]. eapply leads_step; [reflexivity|]. apply leads_refl.
Qed.
Example C32_chain_value_case := C32_chain_value true [] chain_fs _ _ (nm "a") (nm "c") chain_marshalled chain_names chain_ends.
Definition loop_fs := [(deprecated "a" "b", GBool true); (deprecated "b" "a", GBool true); (plain (nm "c"), GString (nm "v"))].
Lemma loop_names : NoDup (emitted_names loop_fs). Proof. repeat constructor; cbn; intuition discriminate. Qed.
Example loop_marshalled : marshals true [] (GStruct loop_fs) (JDict 0 [(nm "c", JString (nm "v"))]).
Proof. exists hd, 10%nat. split; [apply hd_chooses|reflexivity]. Qed.
Lemma loop_returns : returns (tag_of loop_fs) (nm "a").
Proof. exists (nm "b"). split; [reflexivity|]. eapply leads_step; [reflexivity|]. apply leads_refl. Qed.
Example C32_loop_has_no_value_case := C32_loop_has_no_value true [] loop_fs _ _ (nm "a") loop_marshalled loop_names loop_returns.

(** * Panics of Marshal *)
Definition fst3 := proj1 named_bool_meets.
Example C56_panics_only_case := C56_panics_only true hd [] 5 _ named_bool_panics.
Example C56_returns_only_case := C56_returns_only true hd [] 5 _ _ ignored_does_not.
Example C56_ends_case := C56_ends true hd _ _ fst3 (proj1 (proj2 named_bool_meets)).
Example C56_returns_iff_case := C56_returns_iff true hd _ _ fst3.
Example C56_panics_iff_case := C56_panics_iff true hd _ _ fst3 (proj1 (proj2 named_bool_meets)).
Example C56_never_ends_case := C56_never_ends true hd own_map (XShared 0%nat) (XShared 0%nat) (c_self _ _) (or_introl own_map_holds)
  ltac:(intros x C; destruct (own_map_contains x C) as [->|[->| ->]]; exact (fun f => f)).
Example C56_otherwise_case : marshal_with true hd 5 [GMap (Some [(nm "k", GInt (Signed 64) 7)])] (Some (GMap (Some [(nm "k", GInt (Signed 64) 7)]))) = Some (JDict 0 [(nm "k", JInt 7)]).
Proof. exact (C56_otherwise true hd shared_map _ _ _ 5 (JDict 0 [(nm "k", JInt 7)]) (proj1 shared_stands) (proj2 shared_stands) eq_refl). Qed.
Example C56_named_bool_case := C56_named_bool true hd _ _ [] true fst3 (proj1 (proj2 named_bool_meets)) (proj2 (proj2 named_bool_meets)).

(** * Marshal and back *)
Lemma rt_marshalled : exists j, marshals true rt_store (GPtr (Some 0%nat)) j /\ ~ bare_scalar j.
Proof. eexists. split; [exists hd, 10%nat; split; [apply hd_chooses | reflexivity] | exact (fun x => x)]. Qed.
Lemma rt_plain_graph : plain_graph rt_store (GPtr (Some 0%nat)).
Proof.
  assert (forall fs, emitted_names fs = [nm "n"; nm "next"; nm "tags"; nm "up"] -> Forall (fun fv => fi_force_string (fst fv) = false /\ fi_deprecated_by (fst fv) = None) fs ->
    text_fields_flat fs /\ no_deprecated fs /\ NoDup (emitted_names fs)) as P.
  { intros fs E F. rewrite Forall_forall in F. split; [intros i x H _ X; pose proof (proj1 (F _ H)) as Y; cbn in Y; congruence|]. split; [intros i x H _; apply (F _ H)|].
    rewrite E. repeat constructor; cbn; intuition discriminate. }
  split; [|split; [|split]].
  - intros x a [->|[<-|[<-|[]]]] I; simpl in I; intuition; subst; repeat constructor.
  - split; [|split]; intros ? [].
  - apply Forall_forall. intros x [<-|[<-|[]]]; (split; [|split; intros ? []]).
    all: intros fs [<-|[]]; apply P; [reflexivity|repeat constructor].
  - repeat constructor.
Qed.
Lemma rt_order : in_name_order (GPtr (Some 0%nat)) /\ Forall in_name_order rt_store.
Proof.
  split; [split; intros ? []|]. repeat constructor; [intros fs [<-|[]]|intros m []|intros fs [<-|[]]|intros m []]; repeat constructor.
Qed.
Example C31_nodes_before_references_case : exists j, marshals true rt_store (GPtr (Some 0%nat)) j /\ nodes_first j.
Proof.
  destruct rt_marshalled as (j & M & _). exists j. split; [exact M|].
  exact (C31_nodes_before_references true rt_store _ j rt_plain_graph (proj1 rt_order) (proj2 rt_order) M).
Qed.
Example C29_roundtrip_pointer_case m0 : exists j, marshals true rt_store (GPtr (Some 0%nat)) j /\
  exists N m', (forall n, (N <= n)%nat -> rt_unm n (fst (zalloc rt_t m0)) rt_t (snd (zalloc rt_t m0)) j [] = TopOk m') /\
    same_value (fun _ => None) rt_store (nth 0 rt_store GOther) m' (snd (zalloc rt_t m0)) /\
    forall x, (x < length m0)%nat -> nth_error m' x = nth_error m0 x.
Proof.
  destruct rt_marshalled as (j & M & B). exists j. split; [exact M|].
  refine (C29_roundtrip_pointer rt_env by_name (fun _ => false) (fun _ => false) (fun _ => true) (fun _ => None) (fun _ => None) (fun _ => true)
    rt_env_ok rt_restorable true rt_store rt_types 0%nat _ j rt_t m0 rt_typed eq_refl eq_refl Logic.I _ rt_zeros M B _); [no_option|].
  exact (C31_nodes_before_references true rt_store _ j rt_plain_graph (proj1 rt_order) (proj2 rt_order) M).
Qed.

(** * References *)
Definition se_l : list nat := [0; 2; 3; 4; 5]%nat.
Definition se_h : list uop := [Refer 1 0%nat (TPtr (TNamed 0)); Define 1 2%nat (TStruct 0 (se_env 0)); Refer 1 3%nat (TPtr (TNamed 0)); Refer 7 5%nat (TPtr (TNamed 0))].
Lemma se_runs : exists st, steps (start (fst (zalloc se_t []))) se_h = Some st. Proof. eexists. vm_compute. reflexivity. Qed.
Example C33_no_panic_case := proj1 (C33_no_panic (fst (zalloc se_t [])) se_h) se_runs.
Example C33_others_keep_case : exists st, steps (start (fst (zalloc se_t []))) se_h = Some st /\ nth_error (u_mem st) 1 = nth_error (fst (zalloc se_t [])) 1.
Proof.
  destruct se_runs as [st E]. exists st. split; [exact E|]. refine (C33_others_keep _ _ st 1%nat E _ _); [cbn; lia|].
  intros op I. cbn in I. repeat destruct I as [<-|I]; cbn; intuition discriminate.
Qed.
Example C33_any_order_case : exists st, steps (start (fst (zalloc se_t []))) se_h = Some st /\
  nth_error (u_mem st) 0 = Some (pointer_to (TPtr (TNamed 0)) 2%nat (TStruct 0 (se_env 0))).
Proof.
  destruct se_runs as [st E]. exists st. split; [exact E|].
  refine (C33_any_order _ se_h st [] 1 0%nat _ (tl se_h) 2%nat _ E eq_refl _ _ _ _).
  - cbn. lia.
  - intros op I. cbn in I. repeat destruct I as [<-|I]; cbn; intuition discriminate.
  - cbn. auto.
  - intros b' tb' I. cbn in I. destruct I as [I|[I|[I|[I|[]]]]]; try discriminate I. injection I as <- <-. auto.
Qed.
Example C61_number_texts_case := proj1 (C61_number_texts (B "int8")) 5 5 eq_refl.
