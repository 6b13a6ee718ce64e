(** Property C62: objects that contain nil or themselves. *)
From Coq Require Import Lia Sorting.Permutation.
From Verif Require Import Base Strconv SortedMap Json SpecJson Access Printer Query Heap HeapFacts HeapFacts2 SpecHeap SpecShare SpecEquals ShareFacts Gotypes Equals Native HeapRead SpecNil HeapReadFacts EqualsNil PropHeap.

(** ** The methods that look at everything *)

Theorem C62_string : forall h a, heap_wf h -> (a < length h)%nat -> looks_at_all (fun k => h_string k h a) String_ h a.
Proof. intros h a W L. apply walk_all; [exact W|exact L|exact fold_string]. Qed.

Theorem C62_pretty_string : forall h a, heap_wf h -> (a < length h)%nat -> looks_at_all (fun k => h_pretty_string k h a) PrettyString h a.
Proof. intros h a W L. apply walk_all; [exact W|exact L|]. intros v. exact (fold_pretty v (false, 0%nat)). Qed.

Theorem C62_interface : forall h a, heap_wf h -> (a < length h)%nat -> looks_at_all (fun k => h_interface k h a) native h a.
Proof. intros h a W L. apply walk_all; [exact W|exact L|exact fold_native]. Qed.

(** QueryString does so for a dict; for everything else it looks at nothing. *)
Theorem C62_query_string : forall h a c, heap_wf h -> nth_error h a = Some c ->
  match c with
  | CDict _ _ => looks_at_all (fun k => h_query_string k h a) QueryString h a
  | _ => forall k, h_query_string k h a = Returns []
  end.
Proof.
  intros h a c W G. assert (L : (a < length h)%nat) by (apply nth_error_Some; rewrite G; discriminate).
  destruct c as [| | | | | |nid kvs|]; try (intros k; unfold h_query_string; rewrite G; reflexivity).
  unfold h_query_string. rewrite G.
  pose proof (walk_all leaf_query (fun key i => sub_key key (format_int (Z.of_nat i))) sub_key
        (fun _ l => join_with "&"%byte l) (fun _ _ l => join_with "&"%byte (map snd l)) h [] a (fun v => query_string v []) W L (fun v => fold_query v [])) as (A & R).
  split; [|exact R]. intros x. rewrite A.
  assert (D : forall v, holds h a v -> query_string v [] = QueryString v).
  { intros v [[|n] E]; [discriminate E|]. destruct (read_dict _ _ _ _ _ _ G E) as (l & -> & _). reflexivity. }
  split; intros (v & H & ->); exists v; (split; [exact H|]); [|symmetry]; apply D, H.
Qed.

(** Just the objects without nil and without cycles stand for a value. *)
Theorem C62_value_iff : forall h a, heap_wf h -> (a < length h)%nat ->
  (exists v, holds h a v) <-> ~ nil_inside h a /\ ~ cycle_inside h a.
Proof. exact holds_iff. Qed.

(** ** Equals *)

Theorem C62_equals_values : forall h a b v w, holds h a v -> holds h b w -> ends (fun k => h_equals k h a b) (Returns (equals v w)).
Proof.
  intros h a b v w [n Ra] [m Rb]. exists n. intros k L. rewrite <- (equals_values _ _ _ _ _ _ _ Ra Rb). apply equals_mono; [exact L|].
  rewrite (equals_values _ _ _ _ _ _ _ Ra Rb). discriminate.
Qed.

(** Time does not change the outcome. *)
Theorem C62_equals_ends : forall h a b n, h_equals n h a b <> Runs -> ends (fun k => h_equals k h a b) (h_equals n h a b).
Proof. intros h a b n S. exists n. intros k L. apply equals_mono; assumption. Qed.

(** Objects are only equal if both stand for values (so neither contains nil or itself) and these are equal. *)
Theorem C62_equals_true : forall h a b, (forall nid kvs, In (CDict nid kvs) h -> NoDup (map fst kvs)) ->
  (ends (fun k => h_equals k h a b) (Returns true) <-> exists v w, holds h a v /\ holds h b w /\ equals v w = true).
Proof.
  intros h a b N. split.
  - intros [n E]. specialize (E n (le_n n)). destruct (equals_true h n N a b E) as (v & w & Rv & Rw). exists v, w. split; [exists n; exact Rv|]. split; [exists n; exact Rw|].
    rewrite (equals_values _ _ _ _ _ _ _ Rv Rw) in E. injection E as E. exact E.
  - intros (v & w & Hv & Hw & E). rewrite <- E. apply C62_equals_values; assumption.
Qed.

Theorem C62_equals_panics : forall h a b, heap_wf h -> (a < length h)%nat -> (b < length h)%nat ->
  ends (fun k => h_equals k h a b) Panics -> nil_inside h a \/ nil_inside h b.
Proof. intros h a b W La Lb [n E]. eapply equals_panics; [exact W|exact La|exact Lb|apply (E n (le_n n))]. Qed.

Theorem C62_equals_runs : forall h a b, (forall k, h_equals k h a b = Runs) -> cycle_inside h a /\ cycle_inside h b.
Proof.
  intros h a b R. destruct (equals_runs h (S (length h)) a b (R _)) as (l & l2 & C & L & C2 & L2). split; (eapply long_chain; [eassumption|lia]).
Qed.

(** An object that contains itself does not equal itself: the call does not return. *)
Theorem C62_equals_itself_refuted : forall k, h_equals k [CArray [Some 0%nat]] 0%nat 0%nat = Runs.
Proof. induction k as [|k IH]; [reflexivity|]. cbn [h_equals nth_error length Nat.eqb negb eq_elems]. rewrite IH. reflexivity. Qed.

(** [1].Equals([nil]) is false, [nil].Equals([1]) panics. *)
Theorem C62_equals_symmetric_refuted : let h := [CArray [Some 2%nat]; CArray [None]; CInt 1] in
  ends (fun k => h_equals k h 0%nat 1%nat) (Returns false) /\ ends (fun k => h_equals k h 1%nat 0%nat) Panics.
Proof. split; exists 1%nat; intros [|k] L; try lia; reflexivity. Qed.

(** ** Get and GetAt *)

(** Get of a nil member panics, also further down; GetAt of a nil element returns nil without an error. *)
Theorem C62_get_nil : forall h a nid kvs k, nth_error h a = Some (CDict nid kvs) -> sm_get kvs k = Some None ->
  h_get h a [k] = None /\ forall k' ks, h_get h a (k :: k' :: ks) = Some (RErr ErrInvalidJsonDict).
Proof. intros h a nid kvs k G E. unfold h_get, h_get_with. split; intros; cbn [h_get_loop]; unfold get_dict; rewrite G, E; reflexivity. Qed.
Theorem C62_get_at_nil : forall h a rs i, nth_error h a = Some (CArray rs) -> nth_error rs i = Some None ->
  h_get_at h a (Z.of_nat i) = Some (ROk None) /\ h_get_at h a (Z.of_nat i - Z.of_nat (length rs)) = Some (ROk None).
Proof.
  intros h a rs i G E. assert (L : (i < length rs)%nat) by (apply nth_error_Some; rewrite E; discriminate).
  unfold h_get_at, get_arr. rewrite G. split.
  - replace (Z.of_nat i <? 0) with false by (symmetry; apply Z.ltb_ge; lia). cbv zeta. rewrite (proj2 (Z.leb_le _ _)), (proj2 (Z.ltb_lt _ _)) by lia. cbn [andb]. rewrite Nat2Z.id, E. reflexivity.
  - replace (Z.of_nat i - Z.of_nat (length rs) <? 0) with true by (symmetry; apply Z.ltb_lt; lia). cbv zeta. replace (Z.of_nat (length rs) + (Z.of_nat i - Z.of_nat (length rs))) with (Z.of_nat i) by lia.
    rewrite (proj2 (Z.leb_le _ _)), (proj2 (Z.ltb_lt _ _)) by lia. cbn [andb]. rewrite Nat2Z.id, E. reflexivity.
Qed.

(** ** DeepCopy of values with references *)

Theorem C62_deep_copy : forall ord h a v, any_order ord -> holds h a v -> json_ok v ->
  exists n, forall k, (n <= k)%nat -> exists h' r, deep_copy ord k h a = DOk h' r /\ copied h' r v /\
    forall x c, nth_error h x = Some c -> nth_error h' x = Some c.
Proof.
  intros ord h a v P [n R] O. exists n. intros k L.
  assert (Rk : read k h a = Some v) by (eapply read_mono; eassumption).
  destruct (deep_copies ord P k h a v Rk O) as (h' & r & E & A & C). exists h', r. split; [exact E|]. split; [exact C|]. apply adds_keeps, A.
Qed.

(** So the copy of a container with a reference somewhere inside is an object that cannot be printed. *)
Theorem C62_copy_cannot_be_printed : forall ord h a v p, any_order ord -> holds h a v -> json_ok v -> is_container v -> subvalue (JPtr p) v ->
  exists n, forall k, (n <= k)%nat -> exists h' b, deep_copy ord k h a = DOk h' (Some b) /\
    ends (fun k => h_string k h' b) Panics /\ ends (fun k => h_pretty_string k h' b) Panics /\ ends (fun k => h_interface k h' b) Panics.
Proof.
  intros ord h a v p P H O Ct S. destruct (C62_deep_copy ord h a v P H O) as [n Hn]. exists n. intros k L. destruct (Hn k L) as (h' & r & E & C & _).
  destruct r as [b|]; [|inversion C; subst; destruct Ct]. exists h', b. split; [exact E|]. repeat split; eapply copied_panics; eassumption.
Qed.

(** ** The hypotheses are met *)

Definition ex_nil_heap : heap :=
  [CDict 0 [(B "a", Some 1%nat); (B "b", Some 2%nat)]; CArray [Some 2%nat; None]; CInt 7; CArray [Some 3%nat]; CDict 0 [(B "a", Some 2%nat)]].

Example C62_wf_example : heap_wf ex_nil_heap /\ (forall nid kvs, In (CDict nid kvs) ex_nil_heap -> NoDup (map fst kvs)).
Proof.
  split.
  - intros c x I J. simpl in I. destruct I as [<-|[<-|[<-|[<-|[<-|[]]]]]]; simpl in J; simpl; intuition (try congruence); match goal with H : Some _ = Some x |- _ => injection H as <-; lia end.
  - intros nid kvs I. simpl in I. intuition (try discriminate); match goal with H : CDict _ _ = _ |- _ => injection H as <- <- end; repeat constructor; simpl; intuition discriminate.
Qed.
Example C62_example :
  (* {"a":[7,nil],"b":7} *)
  ends (fun k => h_string k ex_nil_heap 0%nat) Panics /\ nil_inside ex_nil_heap 0%nat /\
  (* an array that contains itself *)
  (forall k, h_string k ex_nil_heap 3%nat = Runs) /\ cycle_inside ex_nil_heap 3%nat /\
  (* {"a":7} *)
  ends (fun k => h_string k ex_nil_heap 4%nat) (Returns (B "{""a"":7}")) /\
  ends (fun k => h_equals k ex_nil_heap 4%nat 4%nat) (Returns true) /\
  ends (fun k => h_equals k ex_nil_heap 0%nat 0%nat) Panics /\
  (forall k, h_equals k ex_nil_heap 3%nat 3%nat = Runs).
Proof.
  split; [exists 3%nat; intros [|[|[|k]]] L; try lia; reflexivity|].
  split; [exists 1%nat, (CArray [Some 2%nat; None]); split; [exists [Key (B "a")]; eapply leads_member; [reflexivity|left; reflexivity|constructor]|split; [reflexivity|right; left; reflexivity]]|].
  split; [induction k as [|k IH]; [reflexivity|]; unfold h_string in *; cbn [walk nth_error ex_nil_heap walk_elems]; rewrite IH; reflexivity|].
  split; [exists 3%nat, [Idx 0]; split; [exists []; constructor|split; [eapply leads_element; [reflexivity|reflexivity|constructor]|discriminate]]|].
  split; [exists 2%nat; intros [|[|k]] L; try lia; reflexivity|].
  split; [exists 2%nat; intros [|[|k]] L; try lia; reflexivity|].
  split; [exists 3%nat; intros [|[|[|k]]] L; try lia; reflexivity|].
  induction k as [|k IH]; [reflexivity|]. cbn [h_equals nth_error ex_nil_heap length Nat.eqb negb eq_elems]. rewrite IH. reflexivity.
Qed.
Example C62_copy_example : let h := [CDict 5 [(B "a", Some 1%nat); (B "b", Some 2%nat)]; CArray [Some 2%nat; Some 2%nat]; CPtr 7] in
  let v := JDict 5 [(B "a", JArray [JPtr 7; JPtr 7]); (B "b", JPtr 7)] in
  holds h 0%nat v /\ json_ok v /\ is_container v /\ subvalue (JPtr 7) v.
Proof.
  split; [exists 3%nat; reflexivity|]. split; [repeat constructor|]. split; [exact Logic.I|]. eapply sub_member; [right; left; reflexivity|constructor].
Qed.
