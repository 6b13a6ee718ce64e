(** C64: JSON values given to Marshal and MarshalAll. *)
From Coq Require Import Lia Sorting.Permutation Sorting.Sorted.
From Verif Require Import Base Strconv SortedMap SortedMapFacts Json SpecJson Printer Heap Gotypes Marshal SpecMarshal SpecEncode SpecPass HeapFacts2 MarshalFinal PropMarshal.

Lemma mval_boxed st omit j v n s : boxed st j v -> s_trace s = [] ->
  exists s' m, mval st omit (S (S n)) s v None = Some (s', Some m) /\ s_trace s' = [] /\ forall pick, set_ids pick [] m = passed j.
Proof.
  intros B T. destruct B as [a E|j Nj].
  - cbn [mval]. rewrite T. cbn [tr_find]. unfold new_pointer. cbn [s_trace s_idx app]. rewrite E. cbn [m_fields dep_pairs app flag andb].
    eexists _, _. split; [reflexivity|]. split; [reflexivity|]. intros pick. reflexivity.
  - eexists _, _. split; [cbn; reflexivity|]. split; [exact T|]. intros pick. destruct j; try reflexivity. congruence.
Qed.

(** One computation with a result, whatever the choice, settles all. *)
Lemma one_result omit st v n j : (forall pick, marshal_with omit pick n st (Some v) = Some j) -> forall j', marshals omit st v j' <-> j' = j.
Proof.
  intros H j'. split.
  - intros (pick & k & _ & M). apply (marshal_mono _ _ k (Nat.max k n)) in M; [|lia].
    pose proof (marshal_mono _ _ n (Nat.max k n) _ _ _ ltac:(lia) (H pick)) as M'. congruence.
  - intros ->. exists (fun l => match l with [] => 0 | x :: _ => x end), n. split; [|apply H].
    intros [|x l] Hl; [congruence|]. left. reflexivity.
Qed.

(** A JSON value itself: returned as it is, but JSONNull becomes [{}]. *)
Theorem C64_value omit st j v : boxed st j v -> forall j', marshals omit st v j' <-> j' = passed j.
Proof.
  intros B. apply (one_result omit st v 2). intros pick.
  destruct (mval_boxed st omit j v 0 new_session B eq_refl) as (s & m & E & T & X).
  unfold marshal_with. rewrite E, T, X. destruct B; reflexivity.
Qed.

(** A JSONDict, JSONArray, ... that is not a pointer. *)
Theorem C64_by_value omit st j : forall j', marshals omit st (GJsonVal j) j' <-> j' = j.
Proof. apply (one_result omit st _ 1). intros pick. unfold marshal_with. cbn. unfold marshal_json_val. cbn. rewrite andb_false_r. reflexivity. Qed.

Lemma mval_obj st omit n s o : mval st omit (S n) s (GJsonObj o) None = Some (s, match o with Some j => Some (MLeaf j) | None => nil_or_null omit end).
Proof. destruct o; reflexivity. Qed.

(** ** Containers of type []JSONObject and map[string]JSONObject *)

Lemma elems_objs st omit n l : forall s, exists s', m_elems (mval st omit (S n)) s (map GJsonObj l) = Some (s', map MLeaf (kept_objs omit l)) /\ s_trace s' = s_trace s.
Proof.
  induction l as [|o l IH]; intros s; [exists s; auto|]. destruct o as [j|]; cbn [map m_elems]; rewrite mval_obj.
  - destruct (IH s) as (s' & -> & T). exists s'. auto.
  - destruct (IH s) as (s' & E & T). exists s'. split; [|exact T]. destruct omit; cbn [nil_or_null]; rewrite E; reflexivity.
Qed.
Lemma members_objs st omit n m : forall s, exists s', m_members (mval st omit (S n)) s (map (fun kv => (fst kv, GJsonObj (snd kv))) m) =
  Some (s', map (fun kv => (fst kv, MLeaf (snd kv))) (kept_members omit m)) /\ s_trace s' = s_trace s.
Proof.
  induction m as [|[k o] m IH]; intros s; [exists s; auto|]. destruct o as [j|]; cbn [map m_members fst snd]; rewrite mval_obj.
  - destruct (IH s) as (s' & -> & T). exists s'. auto.
  - destruct (IH s) as (s' & E & T). exists s'. split; [|exact T]. destruct omit; cbn [nil_or_null]; rewrite E; reflexivity.
Qed.

Lemma mval_slice st omit n s x l : mval st omit (S n) s (GSlice (Some (x :: l))) None =
  match m_elems (mval st omit n) s (x :: l) with Some (s1, rs) => Some (s1, Some (MArr rs)) | None => None end.
Proof. reflexivity. Qed.
Lemma mval_map st omit n s x l : mval st omit (S n) s (GMap (Some (x :: l))) None =
  match m_members (mval st omit n) s (x :: l) with Some (s1, ps) => Some (s1, Some (new_dict ps)) | None => None end.
Proof. reflexivity. Qed.

Lemma slice_result st omit pick n l s' rs :
  m_elems (mval st omit n) new_session l = Some (s', rs) -> s_trace s' = [] ->
  marshal_with omit pick (S n) st (Some (GSlice (Some l))) = Some (JArray (map (set_ids pick []) rs)).
Proof.
  intros E T. unfold marshal_with. destruct l as [|x l]; [cbn in E; injection E as <- <-; reflexivity|].
  rewrite mval_slice, E, T. reflexivity.
Qed.
Lemma map_result st omit pick n l s' ps :
  m_members (mval st omit n) new_session l = Some (s', ps) -> s_trace s' = [] -> keys_sorted (map fst ps) ->
  marshal_with omit pick (S n) st (Some (GMap (Some l))) = Some (JDict 0 (map (fun kv => (fst kv, set_ids pick [] (snd kv))) ps)).
Proof.
  intros E T K. unfold marshal_with. destruct l as [|x l]; [cbn in E; injection E as <- <-; reflexivity|].
  rewrite mval_map, E, T. unfold new_dict. cbn [set_ids]. rewrite (sm_of_list_perm _ ps); [reflexivity|apply Permutation_refl|exact K].
Qed.

Theorem C64_slice omit st l : forall j', marshals omit st (GSlice (Some (map GJsonObj l))) j' <-> j' = JArray (kept_objs omit l).
Proof.
  apply (one_result omit st _ 2). intros pick. destruct (elems_objs st omit 0 l new_session) as (s' & E & T).
  rewrite (slice_result _ _ pick _ _ _ _ E T), map_map. cbn. rewrite map_id. reflexivity.
Qed.

(** The keys of a Go map, in order. *)
Lemma kept_sorted omit m : keys_sorted (map fst m) -> keys_sorted (map fst (kept_members omit m)).
Proof.
  intros K. apply keys_sorted_strong in K. apply keys_sorted_strong. induction m as [|[k o] m IH]; [constructor|]. cbn in K. inversion K as [|? ? K1 K2]; subst.
  assert (F : Forall (blt k) (map fst (kept_members omit m))).
  { rewrite Forall_forall in *. intros x I. apply K2. apply in_map_iff in I as ([k' j'] & <- & I). apply in_flat_map in I as ([k2 o2] & I & I').
    apply in_map_iff. exists (k2, o2). split; [|exact I]. cbn in I'. destruct o2; [|destruct omit]; cbn in I' |- *; try contradiction; destruct I' as [I'|[]]; injection I' as <- <-; reflexivity. }
  destruct o as [j|]; [constructor; [apply IH, K1|exact F]|]. destruct omit; [apply IH, K1|constructor; [apply IH, K1|exact F]].
Qed.

Theorem C64_map omit st m : StronglySorted blt (map fst m) ->
  forall j', marshals omit st (GMap (Some (map (fun kv => (fst kv, GJsonObj (snd kv))) m))) j' <-> j' = JDict 0 (kept_members omit m).
Proof.
  intros K%keys_sorted_strong. apply (one_result omit st _ 2). intros pick. destruct (members_objs st omit 0 m new_session) as (s' & E & T).
  rewrite (map_result _ _ pick _ _ _ _ E T).
  - f_equal. f_equal. rewrite map_map. cbn. rewrite <- (map_id (kept_members omit m)) at 2. apply map_ext. intros []. reflexivity.
  - rewrite map_map. cbn. apply kept_sorted, K.
Qed.

(** ** Containers of interfaces that hold JSON values *)

Lemma elems_boxed st omit n l js : Forall2 (fun j v => boxed st j v) js l -> forall s, s_trace s = [] ->
  exists s' ms, m_elems (mval st omit (S (S (S n)))) s (map (fun v => GIface (Some v)) l) = Some (s', ms) /\ s_trace s' = [] /\
    forall pick, map (set_ids pick []) ms = map passed js.
Proof.
  induction 1 as [|j v js l B F IH]; intros s T; [exists s, []; auto|].
  destruct (mval_boxed st omit j v n s B T) as (s1 & m & E & T1 & X).
  destruct (IH s1 T1) as (s2 & ms & E2 & T2 & X2). exists s2, (m :: ms). split; [|split; [exact T2|intros pick; cbn; rewrite X, X2; reflexivity]].
  cbn [map m_elems]. change (mval st omit (S (S (S n))) s (GIface (Some v)) None) with (mval st omit (S (S n)) s v None). rewrite E, E2. reflexivity.
Qed.
Lemma members_boxed st omit n l js : Forall2 (fun kj kv => fst kj = fst kv /\ boxed st (snd kj) (snd kv)) js l -> forall s, s_trace s = [] ->
  exists s' ms, m_members (mval st omit (S (S (S n)))) s (map (fun kv => (fst kv, GIface (Some (snd kv)))) l) = Some (s', ms) /\ s_trace s' = [] /\
    map fst ms = map fst js /\
    forall pick, map (fun kv => (fst kv, set_ids pick [] (snd kv))) ms = map (fun kj => (fst kj, passed (snd kj))) js.
Proof.
  induction 1 as [|[k j] [k' v] js l [Ek B] F IH]; intros s T; [exists s, []; auto|]. cbn in Ek, B. subst k'.
  destruct (mval_boxed st omit j v n s B T) as (s1 & m & E & T1 & X).
  destruct (IH s1 T1) as (s2 & ms & E2 & T2 & Ks & X2). exists s2, ((k, m) :: ms).
  split; [|split; [exact T2|split; [cbn; congruence|intros pick; cbn; rewrite X, X2; reflexivity]]].
  cbn [map m_members fst snd]. change (mval st omit (S (S (S n))) s (GIface (Some v)) None) with (mval st omit (S (S n)) s v None). rewrite E, E2. reflexivity.
Qed.

Theorem C64_interfaces omit st js l : Forall2 (boxed st) js l ->
  forall j', marshals omit st (GSlice (Some (map (fun v => GIface (Some v)) l))) j' <-> j' = JArray (map passed js).
Proof.
  intros F. apply (one_result omit st _ 4). intros pick. destruct (elems_boxed st omit 0 l js F new_session eq_refl) as (s' & ms & E & T & X).
  rewrite (slice_result _ _ pick _ _ _ _ E T), X. reflexivity.
Qed.
Theorem C64_interface_map omit st js l : Forall2 (fun kj kv => fst kj = fst kv /\ boxed st (snd kj) (snd kv)) js l -> StronglySorted blt (map fst js) ->
  forall j', marshals omit st (GMap (Some (map (fun kv => (fst kv, GIface (Some (snd kv)))) l))) j' <-> j' = JDict 0 (map (fun kj => (fst kj, passed (snd kj))) js).
Proof.
  intros F K%keys_sorted_strong. apply (one_result omit st _ 4). intros pick. destruct (members_boxed st omit 0 l js F new_session eq_refl) as (s' & ms & E & T & Ks & X).
  rewrite (map_result _ _ pick _ _ _ _ E T), X; [reflexivity|]. rewrite Ks. exact K.
Qed.

(** Marshal of what Marshal returned is not always the same. *)
Theorem C64_idempotent_refuted : exists st v v', marshals true st v JNull /\ boxed st JNull v' /\ marshals true st v' (JDict 0 []) /\ ~ marshals true st v' JNull.
Proof.
  exists [GStruct []], (GPtr None), (GPtr (Some 0%nat)). pose proof (bx_null [GStruct []] 0%nat eq_refl) as B.
  split; [apply (one_result true _ _ 1 JNull); reflexivity|]. split; [exact B|]. split; [apply (C64_value true _ _ _ B); reflexivity|].
  intros M. apply (C64_value true _ _ _ B) in M. discriminate M.
Qed.

Definition k_a : bytes := B "a".
Definition k_b : bytes := B "b".

(** A slice of interfaces that hold null, a dict, null: [[{},{"a":1},{}]]. *)
Example C64_interfaces_case := C64_interfaces true [GStruct []] [JNull; JDict 7 [(k_a, JInt 1)]; JNull] [GPtr (Some 0%nat); GJsonPtr (Some (JDict 7 [(k_a, JInt 1)])); GPtr (Some 0%nat)]
  (Forall2_cons _ _ (bx_null [GStruct []] 0%nat eq_refl) (Forall2_cons _ _ (bx_other [GStruct []] (JDict 7 [(k_a, JInt 1)]) ltac:(discriminate)) (Forall2_cons _ _ (bx_null [GStruct []] 0%nat eq_refl) (Forall2_nil _)))).
Example C64_interface_map_case := C64_interface_map false [GStruct []] [(k_a, JNull); (k_b, JBool true)] [(k_a, GPtr (Some 0%nat)); (k_b, GJsonPtr (Some (JBool true)))]
  (Forall2_cons (k_a, JNull) (k_a, GPtr (Some 0%nat)) (conj eq_refl (bx_null [GStruct []] 0%nat eq_refl)) (Forall2_cons (k_b, JBool true) (k_b, GJsonPtr (Some (JBool true))) (conj eq_refl (bx_other [GStruct []] (JBool true) ltac:(discriminate))) (Forall2_nil _))) ltac:(apply keys_sorted_strong; repeat split).
Example C64_map_case := C64_map true [] [(k_a, Some JNull); (k_b, None)] ltac:(apply keys_sorted_strong; repeat split).
Example C64_slice_case := C64_slice true [] [Some JNull; None; Some (JString k_a)].
