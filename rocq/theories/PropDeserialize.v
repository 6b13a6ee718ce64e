(** C46: JSONDeserialize (reflect.go:68-86). *)
From Coq Require Import Sorting.Sorted.
From Verif Require Import Base Strconv SortedMap SortedMapFacts Json SpecJson SpecPrint Printer Parser ParseInv Access Heap Gotypes Marshal Unmarshal
  Deserialize PropRoundtrip PropParse.
Open Scope Z_scope.

Section Deserialize.
Context (env : nat -> list (finfo * gty)) (locate : list (finfo * gty) -> bytes -> list nat)
  (match_us match_eu to_bool : bytes -> bool) (parse_time : bytes -> option bytes)
  (time_json : bytes -> option (option bytes)) (std_ok : bytes -> bool).
Notation unmarshal fuel := (Unmarshal env locate match_us match_eu to_bool parse_time time_json std_ok fuel).
Notation deserialize n := (JSONDeserialize (unmarshal (S n))).

Lemma array_add_app l : forall l0, array_add l0 l = l0 ++ l.
Proof.
  unfold array_add. induction l as [|x l IH]; intros l0; cbn; [rewrite app_nil_r; reflexivity|].
  rewrite IH, <- app_assoc. reflexivity.
Qed.

(** The result for *JSONDict and *JSONArray: the object itself *)
Definition gives (r : dres) (j : json) : Prop := r = DVar [VJson (Some j)].

(** As a JSONObject: the parsed value, nothing else. *)
Theorem C46_object n str j o : Parse str = SOk j o -> deserialize n made_object str = DJson j.
Proof. intros H. unfold JSONDeserialize, made_object. rewrite H. reflexivity. Qed.

(** As a *JSONDict: a dict with the members of the parsed dict, but without
    its node id; as a *JSONArray: the elements of the parsed array. *)
Theorem C46_dict n str nid kvs o : Parse str = SOk (JDict nid kvs) o -> gives (deserialize n made_dict str) (JDict 0 kvs).
Proof.
  intros H. destruct (C11_canonical _ _ _ H) as [_ K0]. pose proof (K0 nid kvs (sub_refl _)) as K. unfold gives, JSONDeserialize, made_dict. rewrite H. unfold Unmarshal.Unmarshal. cbn [receiver resolve].
  assert (E : dict_update [] (JDict nid kvs) = kvs).
  { cbn [dict_update]. rewrite sm_merge_of_list. apply (sm_of_list_sorted kvs []). apply sm_ok_strong. exact K. }
  cbn [unm indirect]. destruct (0 <? nid); cbn [ubind save_node_value find_node u_sess u_mem with_mem nth_error mwrite]; rewrite E; reflexivity.
Qed.

Theorem C46_array n str l o : Parse str = SOk (JArray l) o -> gives (deserialize n made_array str) (JArray l).
Proof.
  intros H. unfold gives, JSONDeserialize, made_array. rewrite H. unfold Unmarshal.Unmarshal. cbn [receiver resolve].
  cbn [unm indirect u_mem with_mem nth_error mwrite].
  rewrite (array_add_app l []). reflexivity.
Qed.

(** Serialise and deserialise: a dict (array) comes back (up to what its text
    loses anyway), a dict without its node id. *)
Theorem C46_dict_round_trip n nid kvs : printable (JDict nid kvs) ->
  exists kvs', gives (deserialize n made_dict (String_ (JDict nid kvs))) (JDict 0 kvs')
    /\ Forall2 (fun a b => fst a = fst b /\ reads_as (snd a) (snd b)) kvs kvs'.
Proof.
  intros P. destruct (C01_roundtrip _ P) as (v' & E & R). inversion R as [| | | | | | | | | | |? ? kvs' F]; subst.
  exists kvs'. split; [|exact F]. eapply C46_dict. exact E.
Qed.

Theorem C46_dict_round_trip_exact n kvs : printable (JDict 0 kvs) -> text_stable (JDict 0 kvs) ->
  gives (deserialize n made_dict (String_ (JDict 0 kvs))) (JDict 0 kvs).
Proof.
  intros P S. eapply C46_dict. apply (C01_roundtrip_exact _ P S).
Qed.

Theorem C46_array_round_trip_exact n l : printable (JArray l) -> text_stable (JArray l) ->
  gives (deserialize n made_array (String_ (JArray l))) (JArray l).
Proof. intros P S. eapply C46_array. apply (C01_roundtrip_exact _ P S). Qed.

(** A text of the wrong kind: an array or a string for a dict, a dict or a
    string for an array are errors. *)
Theorem C46_wrong_kind n str j o : Parse str = SOk j o ->
  match j with
  | JArray _ => deserialize n made_dict str = DUnmarshal EMismatch
  | JDict nid _ => deserialize n made_array str = DUnmarshal EMismatch
  | JString _ => deserialize n made_dict str = DUnmarshal EMismatch /\ deserialize n made_array str = DUnmarshal EMismatch
  | _ => True
  end.
Proof.
  intros H. unfold JSONDeserialize, made_dict, made_array. rewrite H. unfold Unmarshal.Unmarshal.
  destruct j; try exact Logic.I; cbn [receiver resolve unm indirect u_mem with_mem]; try reflexivity; try (split; reflexivity).
  destruct (0 <? nid); cbn [ubind save_node_value find_node u_sess u_mem with_mem]; reflexivity.
Qed.

(** But a number, a boolean, null and a reference are NOT rejected: they give
    an empty dict or array (FALSE: "a text of the wrong kind is an error"). *)
Theorem C46_scalar_accepted n str j o : Parse str = SOk j o ->
  match j with
  | JNull | JBool _ | JInt _ | JFloat _ _ | JPtr _ =>
      gives (deserialize n made_dict str) (JDict 0 []) /\ gives (deserialize n made_array str) (JArray [])
  | _ => True
  end.
Proof.
  intros H. unfold gives, JSONDeserialize, made_dict, made_array. rewrite H. unfold Unmarshal.Unmarshal.
  destruct j; try exact Logic.I; split; reflexivity.
Qed.

(** Errors of the parser are passed on, for every type. *)
Theorem C46_parse_error n ty str e o : ty <> MadeError -> Parse str = SErr e o -> deserialize n ty str = DParse e.
Proof. intros T H. unfold JSONDeserialize. rewrite H. destruct ty; [congruence|reflexivity..]. Qed.

(** A dict, array or string can only be turned down for its kind; there are no
    other errors for the three registered types. *)
Theorem C46_outcomes n ty str : ty = made_object \/ ty = made_dict \/ ty = made_array ->
  match Parse str with
  | SOk _ _ => (exists j, deserialize n ty str = DJson j \/ gives (deserialize n ty str) j) \/ deserialize n ty str = DUnmarshal EMismatch
  | SErr e _ => deserialize n ty str = DParse e
  | SPanic _ => deserialize n ty str = DPanic
  | SFuel => True
  end.
Proof.
  intros T. destruct (Parse str) as [j o|e o|p|] eqn:H; [|destruct T as [->|[->| ->]]; unfold JSONDeserialize, made_object, made_dict, made_array; rewrite H; reflexivity..|exact Logic.I].
  destruct T as [->|T]; [left; exists j; left; eapply C46_object; exact H|].
  pose proof (C46_wrong_kind n _ _ _ H) as W. pose proof (C46_scalar_accepted n _ _ _ H) as A.
  destruct T as [->| ->].
  - destruct j; try (left; eexists; right; apply A); try (right; apply W).
    unfold gives, JSONDeserialize, made_dict. rewrite H. unfold Unmarshal.Unmarshal. cbn [receiver resolve unm indirect].
    left. eexists. right. destruct (0 <? nid); reflexivity.
  - destruct j; try (left; eexists; right; apply A); try (right; apply W).
    left. exists (JArray l). right. eapply C46_array. exact H.
Qed.
End Deserialize.

(** ** Instances *)
Definition d_none {A} : bytes -> option A := fun _ => None.
Definition d_no : bytes -> bool := fun _ => false.
Definition d_run (ty : made) (str : bytes) : dres :=
  JSONDeserialize (Unmarshal (fun _ => []) (fun _ _ => []) d_no d_no d_no d_none d_none d_no 1) ty str.

Example d_dict : gives (d_run made_dict (B "{a:1,___jnid_:7,b:[x,<7>]}")) (JDict 0 [(B "a", JInt 1); (B "b", JArray [JString (B "x"); JPtr 7])]).
Proof. reflexivity. Qed.
Example d_dict_of_number : gives (d_run made_dict (B "17")) (JDict 0 []).
Proof. reflexivity. Qed.
Example d_dict_of_array : d_run made_dict (B "[1]") = DUnmarshal EMismatch.
Proof. reflexivity. Qed.
Example d_round_trip : printable (JDict 0 [(B "a", JInt 1)]) /\ text_stable (JDict 0 [(B "a", JInt 1)]).
Proof.
  assert (S : forall x, subvalue x (JDict 0 [(B "a", JInt 1)]) -> x = JDict 0 [(B "a", JInt 1)] \/ x = JInt 1).
  { intros x H. inversion H as [| |k v ? ? I H']; subst; [left; reflexivity|]. destruct I as [[=<- <-]|[]]. inversion H'; subst. right. reflexivity. }
  split; [split; [|split; [|split]]|split].
  - json_ok_tac.
  - intros f bit H. apply S in H as [H|H]; discriminate.
  - intros nid kvs H. apply S in H as [H|H]; [|discriminate]. injection H as -> ->. vm_compute. intuition discriminate.
  - constructor.
  - intros f bit H. apply S in H as [H|H]; discriminate.
  - intros nid kvs H. apply S in H as [H|H]; [|discriminate]. injection H as -> ->. lia.
Qed.
