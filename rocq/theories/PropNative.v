(** C36, native values: Interface() keeps the content. *)
From Coq Require Import Sorting.Sorted.
From Verif Require Import Base Strconv SortedMap SortedMapFacts Json SpecJson SpecEquals SpecNative Equals Heap Gotypes Native Marshal ParseInv AccessFacts EqualsFacts PropEquals.

(** Nesting depth, 2 for each level of containers. *)
Fixpoint depth (j : json) : nat :=
  match j with
  | JArray l => S (S (list_max (map depth l)))
  | JDict _ kvs => S (S (list_max (map (fun kv => depth (snd kv)) kvs)))
  | _ => 2%nat
  end.

Lemma list_max_in l x : In x l -> (x <= list_max l)%nat.
Proof.
  intros H. pose proof (proj1 (list_max_le l (list_max l)) (Nat.le_refl _)) as F.
  rewrite Forall_forall in F. apply F. exact H.
Qed.

Lemma wrap_int64 z : in_int64 z = true -> wrap (Signed 64) z = z.
Proof.
  unfold in_int64, wrap. intros H. apply andb_true_iff in H as [H1 H2].
  rewrite Z.mod_small; [ring|]. change (2 ^ (64 - 1)) with 9223372036854775808. change (2 ^ 64) with 18446744073709551616.
  unfold int64_min, int64_max in *. lia.
Qed.

Definition keep {A} (r : option A) : list A := match r with Some y => [y] | None => [] end.
Definition keep_at {A} (k : bytes) (r : option A) : list (bytes * A) := match r with Some y => [(k, y)] | None => [] end.

(** What mval makes of the content of an interface. *)
Fixpoint img (omit : bool) (j : json) : option mj :=
  match j with
  | JNull | JPtr _ => nil_or_null omit
  | JFloat f _ => Some (MLeaf (JFloat f 64))
  | JArray l => Some (MArr (flat_map (fun x => keep (img omit x)) l))
  | JDict _ kvs => Some (MDict [] (flat_map (fun kv => keep_at (fst kv) (img omit (snd kv))) kvs))
  | _ => Some (MLeaf j)
  end.

Lemma members_sorted (f : json -> option mj) kvs : sm_ok kvs ->
  sm_ok (flat_map (fun kv => keep_at (fst kv) (f (snd kv))) kvs)
  /\ (forall k0, Forall (fun kv => blt k0 (fst kv)) kvs -> Forall (fun kv => blt k0 (fst kv)) (flat_map (fun kv => keep_at (fst kv) (f (snd kv))) kvs)).
Proof.
  induction kvs as [|[k v] kvs IH]; intros H.
  - split; [exact Logic.I|intros; constructor].
  - apply sm_ok_cons in H as [H1 H2]. destruct (IH H1) as [I1 I2]. cbn [flat_map fst snd]. split.
    + destruct (f v); simpl; [|exact I1]. apply sm_ok_cons. split; [exact I1|apply I2, H2].
    + intros k0 F. inversion F as [|? ? F1 F2]; subst. destruct (f v); simpl; [constructor; [exact F1|]|]; apply I2, F2.
Qed.

Lemma mval_native st omit j : json_ok j -> forall n s, (depth j <= n)%nat ->
  mval st omit n s (GIface (native j)) None = Some (s, img omit j).
Proof.
  induction j as [|b|z|f bit|x|l IH|nid kvs IH|p] using json_ind'; intros OK n s D;
    (destruct n as [|[|n]]; [exfalso; cbn [depth] in D; lia..|]); cbn [native mval img];
    try reflexivity.
  - destruct b; reflexivity.
  - inversion OK as [| |? HI| | | | |]; subst. rewrite (wrap_int64 _ HI). unfold marshal_int. cbn [flag].
    rewrite andb_false_r. reflexivity.
  - unfold marshal_float. cbn [flag]. rewrite andb_false_r. reflexivity.
  - destruct x; reflexivity.
  - inversion OK as [| | | | |? HF| |]; subst. cbn [depth] in D.
    assert (E : forall s, m_elems (mval st omit n) s (map (fun x => GIface (native x)) l) = Some (s, flat_map (fun x => keep (img omit x)) l)).
    { assert (DD : forall x, In x l -> (depth x <= n)%nat).
      { intros x I. pose proof (list_max_in (map depth l) (depth x) (in_map depth l x I)). lia. }
      clear D OK. induction l as [|x l IHl]; intros s0; [reflexivity|].
      inversion IH as [|? ? I1 I2]; subst. inversion HF as [|? ? F1 F2]; subst. cbn [map m_elems flat_map].
      rewrite I1; [|exact F1|apply DD; left; reflexivity].
      rewrite IHl; [|exact I2|exact F2|intros; apply DD; right; assumption].
      destruct (img omit x); reflexivity. }
    destruct l as [|x l]; [reflexivity|]. cbn [map]. cbn [map] in E. rewrite E. reflexivity.
  - inversion OK as [| | | | | |? ? HK HF HN|]; subst. cbn [depth] in D.
    assert (E : forall s, m_members (mval st omit n) s (map (fun kv => (fst kv, GIface (native (snd kv)))) kvs)
                          = Some (s, flat_map (fun kv => keep_at (fst kv) (img omit (snd kv))) kvs)).
    { assert (DD : forall kv, In kv kvs -> (depth (snd kv) <= n)%nat).
      { intros kv I. pose proof (list_max_in _ _ (in_map (fun kv => depth (snd kv)) kvs kv I)). cbv beta in *. lia. }
      clear D OK HK. induction kvs as [|[k x] kvs IHl]; intros s0; [reflexivity|].
      inversion IH as [|? ? I1 I2]; subst. inversion HF as [|? ? F1 F2]; subst. cbn [map m_members flat_map fst snd].
      cbn [snd] in I1, F1. rewrite I1; [|exact F1|apply (DD (k, x)); left; reflexivity].
      rewrite IHl; [|exact I2|exact F2|intros; apply DD; right; assumption].
      destruct (img omit x); reflexivity. }
    destruct kvs as [|kv kvs]; [reflexivity|]. cbn [map]. cbn [map] in E. rewrite E. unfold finish_container. cbn [flag]. unfold new_dict.
    rewrite sm_of_list_sorted; [reflexivity|]. apply (members_sorted (img omit) (kv :: kvs)), sm_ok_strong, HK.
Qed.

Lemma set_ids_all pick t j : match img false j with Some m => set_ids pick t m | None => JNull end = plain_json j.
Proof.
  induction j as [|b|z|f bit|x|l IH|nid kvs IH|p] using json_ind'; try reflexivity; cbn [img set_ids plain_json].
  - f_equal. induction IH as [|x l H _ IHl]; [reflexivity|]. cbn [flat_map map]. rewrite map_app, IHl, <- H.
    destruct (img false x) eqn:E; [reflexivity|]. destruct x; discriminate.
  - cbn [node_id filter]. f_equal. induction IH as [|[k x] l H _ IHl]; [reflexivity|]. cbn [flat_map map fst snd]. rewrite map_app, IHl.
    cbn [snd] in H. rewrite <- H. destruct (img false x) eqn:E; [reflexivity|]. destruct x; discriminate.
Qed.

Lemma set_ids_omit pick t j : match img true j with Some m => set_ids pick t m | None => JNull end = without_nulls (plain_json j)
  /\ (img true j = None <-> without_nulls (plain_json j) = JNull).
Proof.
  induction j as [|b|z|f bit|x|l IH|nid kvs IH|p] using json_ind'; (split; [|split; try discriminate]); try reflexivity; cbn [img set_ids plain_json without_nulls].
  - f_equal. induction IH as [|x l [H1 H2] _ IHl]; [reflexivity|]. cbn [flat_map map filter]. rewrite map_app, IHl.
    destruct (img true x) as [m|] eqn:E.
    + assert (without_nulls (plain_json x) <> JNull) as N by (intros Y; apply H2 in Y; discriminate).
      rewrite <- H1 in *. cbn [keep map app]. destruct (set_ids pick t m) eqn:Q; try (exfalso; apply N; reflexivity); reflexivity.
    + rewrite (proj1 H2 eq_refl). reflexivity.
  - cbn [node_id filter]. f_equal. induction IH as [|[k x] l [H1 H2] _ IHl]; [reflexivity|]. cbn [flat_map map filter fst snd]. rewrite map_app, IHl.
    cbn [snd] in H1, H2. destruct (img true x) as [m|] eqn:E.
    + assert (without_nulls (plain_json x) <> JNull) as N by (intros Y; apply H2 in Y; discriminate).
      rewrite <- H1 in *. cbn [keep_at map app fst snd]. destruct (set_ids pick t m) eqn:Q; try (exfalso; apply N; reflexivity); reflexivity.
    + rewrite (proj1 H2 eq_refl). reflexivity.
Qed.

Lemma marshal_native omit pick j n : json_ok j -> (depth j <= n)%nat ->
  marshal_with omit pick n [] (native j) = Some (match img omit j with Some m => set_ids pick [] m | None => JNull end).
Proof.
  intros OK D. pose proof (mval_native [] omit j OK (S n) new_session ltac:(lia)) as E.
  unfold marshal_with. cbn [mval] in E. destruct (native j) as [v|] eqn:N.
  - assert (forall a, v <> GPtr a) as NP by (intros a ->; destruct j; discriminate).
    rewrite E. destruct v; try (exfalso; eapply NP; reflexivity); destruct (img omit j); reflexivity.
  - destruct j; try discriminate; destruct omit; reflexivity.
Qed.

(** The native form of any value marshals (with MarshalAll) to that value, but
    for node ids, the width of floats, and unresolved references. *)
Theorem C36_native_round_trip : forall j, json_ok j -> exists n, forall pick m, (n <= m)%nat ->
  MarshalAll pick m [] (native j) = Some (plain_json j).
Proof.
  intros j OK. exists (depth j). intros pick m H. unfold MarshalAll. rewrite (marshal_native false pick j m OK H), set_ids_all. reflexivity.
Qed.

Lemma plain_same_content j : json_ok j -> no_reference j -> no_nan j -> same_content j (plain_json j).
Proof.
  induction j as [|b|z|f bit|x|l IH|nid kvs IH|p] using json_ind'; intros OK R N; cbn [plain_json]; try (constructor; fail).
  - constructor. destruct f as [|neg|neg m e]; try constructor. exfalso. apply (N bit). constructor.
  - constructor. inversion OK as [| | | | |? HF| |]; subst. clear OK.
    assert (R' : forall x, In x l -> no_reference x) by (intros x I n S; apply (R n); econstructor; eassumption).
    assert (N' : forall x, In x l -> no_nan x) by (intros x I n S; apply (N n); econstructor; eassumption). clear R N.
    induction l as [|x l IHl]; [constructor|]. inversion IH; subst. inversion HF; subst. cbn [map]. constructor.
    + apply H1; [assumption|apply R'; left; reflexivity|apply N'; left; reflexivity].
    + apply IHl; try assumption; intros; [apply R'|apply N']; right; assumption.
  - inversion OK as [| | | | | |? ? HK HF HN|]; subst.
    assert (L : forall k, lookup k (map (fun kv => (fst kv, plain_json (snd kv))) kvs) = option_map plain_json (lookup k kvs)).
    { intros k. clear. induction kvs as [|[k' v] kvs IHk]; [reflexivity|]. cbn [map lookup fst snd]. destruct (bseq k k'); [reflexivity|exact IHk]. }
    constructor.
    + intros k. rewrite L. destruct (lookup k kvs); simpl; split; intros; congruence.
    + intros k v w Hv Hw. rewrite L, Hv in Hw. injection Hw as <-. pose proof (lookup_some_in _ _ _ Hv) as I.
      rewrite Forall_forall in IH, HF. apply (IH _ I); [apply (HF _ I)| |]; intros n S; [apply (R n)|apply (N n)]; econstructor; eassumption.
  - exfalso. apply (R p). constructor.
Qed.

(** So nothing is lost: the same content. *)
Theorem C36_native_keeps_content : forall j, json_ok j -> no_reference j -> no_nan j ->
  exists n, forall pick m, (n <= m)%nat -> exists r, MarshalAll pick m [] (native j) = Some r /\ same_content j r.
Proof.
  intros j OK R N. destruct (C36_native_round_trip j OK) as (n & E). exists n. intros pick m H. exists (plain_json j).
  split; [apply E, H|apply plain_same_content; assumption].
Qed.

(** Marshal also drops the nulls inside arrays and dicts, and only them. *)
Theorem C36_native_marshal : forall j, json_ok j -> exists n, forall pick m, (n <= m)%nat ->
  Marshal pick m [] (native j) = Some (without_nulls (plain_json j)).
Proof.
  intros j OK. exists (depth j). intros pick m H. unfold Marshal. rewrite (marshal_native true pick j m OK H).
  f_equal. apply set_ids_omit.
Qed.

Example native_case :
  MarshalAll (hd 0) 20 [] (native (JDict 3 [(B "a", JArray [JInt 1; JNull; JString (B "x")]); (B "b", JDict 0 [])]))
    = Some (JDict 0 [(B "a", JArray [JInt 1; JNull; JString (B "x")]); (B "b", JDict 0 [])])
  /\ Marshal (hd 0) 20 [] (native (JDict 3 [(B "a", JArray [JInt 1; JNull; JString (B "x")]); (B "b", JDict 0 [])]))
    = Some (JDict 0 [(B "a", JArray [JInt 1; JString (B "x")]); (B "b", JDict 0 [])]).
Proof. split; reflexivity. Qed.

Print Assumptions C36_native_round_trip.
Print Assumptions C36_native_keeps_content.
Print Assumptions C36_native_marshal.
