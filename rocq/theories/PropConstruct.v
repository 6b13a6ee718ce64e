(** C45: constructors give what they are given, and the accessors without keys
    agree with it. *)
From Coq Require Import Sorting.Sorted Permutation.
From Verif Require Import Base Strconv StrconvFacts SpecFloat FloatWidth SortedMap SortedMapFacts Json SpecJson SpecRFC SpecPrint SpecDict Printer
  Parser Access Unmarshal RfcFacts AccessFacts Construct PropRoundtrip PropDict.
Open Scope Z_scope.

Lemma NewDict_is objs : NewDict objs = JDict 0 (sm_of_list objs []).
Proof.
  unfold NewDict. f_equal. generalize (@nil (bytes * json)) as m.
  induction objs as [|[k v] objs IH]; intros m; [reflexivity|]. cbn. apply IH.
Qed.
Lemma fold_append (objs l : list json) : fold_left (fun d o => d ++ [o]) objs l = l ++ objs.
Proof.
  revert l; induction objs as [|o objs IH]; intros l; cbn; [rewrite app_nil_r; reflexivity|].
  rewrite IH, <- app_assoc. reflexivity.
Qed.
Lemma NewArray_is objs : NewArray objs = JArray objs.
Proof. unfold NewArray. rewrite fold_append. reflexivity. Qed.
Lemma NewStringArray_is arr : NewStringArray arr = JArray (map JString arr).
Proof.
  unfold NewStringArray. rewrite NewArray_is.
  assert (F : forall l, fold_left (fun ret a => match ret with JArray l => JArray (array_add l [NewString a]) | _ => ret end) arr (JArray l)
    = JArray (l ++ map JString arr)); [|exact (F [])].
  induction arr as [|a arr IH]; intros l; cbn; [rewrite app_nil_r; reflexivity|].
  rewrite IH. cbn. rewrite <- app_assoc. reflexivity.
Qed.

(** NewDict: the last pair given for a key counts; nothing else is in it; the
    members are sorted; it has no node id. *)
Theorem C45_new_dict objs :
  exists kvs, NewDict objs = JDict 0 kvs /\ keys_increasing kvs /\ (forall k, lookup k kvs = last_member k objs).
Proof.
  exists (sm_of_list objs []). split; [apply NewDict_is|]. split.
  - apply sm_ok_strong. apply sm_of_list_ok. apply sm_ok_nil.
  - intros k. rewrite lookup_sm_get, sm_of_list_get, last_member_binding. destruct (last_binding objs k); reflexivity.
Qed.

(** In particular giving the members of a dict gives the dict. *)
Theorem C45_new_dict_same kvs : keys_increasing kvs -> NewDict kvs = JDict 0 kvs.
Proof. intros H. rewrite NewDict_is. f_equal. apply (sm_of_list_sorted kvs []). apply sm_ok_strong. exact H. Qed.

(** And the order of pairs with distinct keys does not matter. *)
Theorem C45_new_dict_order objs objs' :
  NoDup (map fst objs) -> Permutation objs objs' -> NewDict objs = NewDict objs'.
Proof.
  intros N P. rewrite !NewDict_is. f_equal.
  apply sm_ext; try (apply sm_of_list_ok; apply sm_ok_nil). intros k. rewrite !sm_of_list_get.
  assert (L : forall l : list (bytes * json), NoDup (map fst l) -> forall v, last_binding l k = Some v <-> In (k, v) l).
  { induction l as [|[k0 v0] l IH]; cbn; intros D v; [intuition discriminate|].
    inversion D as [|? ? D1 D2]; subst. specialize (IH D2). destruct (last_binding l k) as [w|] eqn:E.
    - rewrite <- IH. assert (In (k, w) l) as I by (apply IH; reflexivity).
      split; [auto|]. intros [[=-> ->]|H]; [|exact H]. exfalso. apply D1. apply in_map_iff. exists (k, w). auto.
    - destruct (bseq_spec k k0) as [->|Ne].
      + split; [intros [=->]; auto|]. intros [[=->]|H]; [reflexivity|]. exfalso. apply D1. apply in_map_iff. exists (k0, v). auto.
      + split; [discriminate|]. intros [[=-> ->]|H]; [congruence|]. apply IH in H. discriminate. }
  assert (N' : NoDup (map fst objs')) by (eapply Permutation_NoDup; [apply Permutation_map; exact P|exact N]).
  assert (E : last_binding objs k = last_binding objs' k); [|rewrite E; reflexivity].
  destruct (last_binding objs' k) as [v|] eqn:E'.
  - apply L; [exact N|]. apply L in E'; [|exact N']. eapply Permutation_in; [apply Permutation_sym; exact P|exact E'].
  - destruct (last_binding objs k) as [v|] eqn:E2; [|reflexivity]. apply L in E2; [|exact N].
    eapply Permutation_in in E2; [|exact P]. apply L in E2; [|exact N']. congruence.
Qed.

(** NewArray: the elements in order. *)
Theorem C45_new_array objs :
  GetArray (NewArray objs) [] = ROk objs /\ array_value (NewArray objs) = objs /\
  Length (NewArray objs) = Some (length objs) /\ Size (NewArray objs) = Some (length objs) /\
  (forall i v, nth_error objs i = Some v -> GetAt (NewArray objs) (Z.of_nat i) [] = ROk v) /\
  (forall i, Z.of_nat (length objs) <= i -> GetAt (NewArray objs) i [] = RErr ErrOutOfIndexRange).
Proof.
  rewrite NewArray_is. repeat split.
  - intros i v H. assert (i < length objs)%nat by (apply nth_error_Some; congruence).
    destruct (proj1 (C18_get_at objs (Z.of_nat i)) ltac:(lia)) as (v' & E & G).
    rewrite Nat2Z.id in E. rewrite H in E. injection E as <-. exact G.
  - intros i H. apply (proj2 (proj2 (C18_get_at objs i))). lia.
Qed.

(** Value, Length and Size of a dict: its members and their number. *)
Theorem C45_dict_observers nid kvs :
  dict_value (JDict nid kvs) = kvs /\ Length (JDict nid kvs) = Some (length kvs) /\
  Size (JDict nid kvs) = Some (length (SortedKeys kvs)).
Proof. unfold SortedKeys, sm_keys. rewrite map_length. repeat split. Qed.

(** A scalar gives back what it was made of. *)
Theorem C45_scalars :
  (forall s, GetString (NewString s) [] = ROk s /\ Length (NewString s) = Some (length s)) /\
  (forall z, Int_ 1 (NewInt z) [] = Some (ROk z)) /\
  (forall f, Float_ 1 (NewFloat64 f) [] = Some (ROk f)) /\
  (forall f, fl_ok F32 f = true -> exists g, Float_ 1 (NewFloat32 f) [] = Some (ROk g) /\ widens f g) /\
  (forall b, Bool_ 1 (NewBool b) [] = Some (ROk b)).
Proof.
  repeat split.
  - intros f H. exists (to_f64 f). split; [reflexivity|]. apply to_f64_widens, H.
  - intros []; reflexivity.
Qed.

(** A string array gives back its strings, element by element and as a whole,
    and so it does after printing and parsing, whatever bytes are in them. *)
Theorem C45_string_array arr :
  GetStringArray (NewStringArray arr) [] = ROk arr /\
  Parse (String_ (NewStringArray arr)) = SOk (NewStringArray arr) (length (String_ (NewStringArray arr))).
Proof.
  rewrite NewStringArray_is. split.
  - unfold GetStringArray, string_array. cbn. rewrite map_map. f_equal. rewrite <- (map_id arr) at 2. reflexivity.
  - assert (S : forall x, subvalue x (JArray (map JString arr)) -> x = JArray (map JString arr) \/ exists s, x = JString s).
    { intros x H. inversion H as [|v l I H'|]; subst; [left; reflexivity|]. apply in_map_iff in I as (s & <- & _).
      inversion H'; subst. right. eauto. }
    apply C01_roundtrip_exact.
    + split; [|split; [|split]].
      * constructor. apply Forall_forall. intros v I. apply in_map_iff in I as (s & <- & _). constructor.
      * intros f bit H. destruct (S _ H) as [E|[s E]]; discriminate.
      * intros nid kvs H. destruct (S _ H) as [E|[s E]]; discriminate.
      * unfold distinct_ids. cbn. assert (flat_map node_ids (map JString arr) = []) as ->; [|constructor].
        induction arr; [reflexivity|assumption || (cbn; apply IHarr)].
        intros x H. inversion H as [|v l I H'|]; subst; [left; reflexivity|].
        apply in_map_iff in I as (s & <- & _). inversion H'; subst. right. eauto.
    + split; intros ? ? H; destruct (S _ H) as [E|[s E]]; discriminate.
Qed.

(** GetStringArray of anything else: the texts of the elements of the array
    found there, a scalar counting as the array of itself. *)
Theorem C45_get_string_array o keys :
  match GetArray o keys with
  | ROk l => exists r, GetStringArray o keys = ROk r /\ Forall2 (fun v s => GetString v [] = ROk s) l r
  | RErr e => GetStringArray o keys = RErr e
  end.
Proof.
  unfold GetStringArray. destruct (GetArray o keys) as [l|e]; cbn [rbind]; [|reflexivity].
  exists (string_array l). split; [reflexivity|]. unfold string_array.
  induction l as [|v l IH]; constructor; [reflexivity|exact IH].
Qed.

(** QueryBoolean: the default exactly if the key is missing (in particular if
    the query is not a dict), otherwise what the text found there means. *)
Theorem C45_query_boolean to_bool nid kvs key d :
  QueryBoolean to_bool (JDict nid kvs) key d =
    match lookup key kvs with
    | None => d
    | Some (JString s) => to_bool s
    | Some (JPtr _) => to_bool (B "null")
    | Some v => to_bool (String_ v)
    end.
Proof.
  unfold QueryBoolean. cbn [Get get_with get_loop]. unfold Get, get_with, get_loop. rewrite lookup_sm_get.
  destruct (sm_get kvs key) as [v|]; [|reflexivity]. destruct v; reflexivity.
Qed.
Theorem C45_query_boolean_default to_bool q key d :
  (forall nid kvs, q <> JDict nid kvs) -> QueryBoolean to_bool q key d = d.
Proof. intros H. destruct q; try reflexivity. exfalso. eapply H. reflexivity. Qed.

(** ** Instances *)
Example new_dict_instance :
  NewDict [(B "b", JInt 1); (B "a", JNull); (B "b", JInt 2)] = JDict 0 [(B "a", JNull); (B "b", JInt 2)].
Proof. reflexivity. Qed.
Example string_array_instance :
  String_ (NewStringArray [B "a"; []; [x00; """"%byte]]) = B "[" ++ [""""%byte] ++ B "a" ++ [""""%byte] ++ B "," ++ [""""; """"]%byte
    ++ B "," ++ [""""%byte] ++ B "\u0000\" ++ [""""; """"]%byte ++ B "]".
Proof. vm_compute. reflexivity. Qed.
Example query_boolean_instance :
  QueryBoolean (fun s => bseq s (B "true")) (JDict 0 [(B "on", JBool true)]) (B "on") false = true.
Proof. reflexivity. Qed.
