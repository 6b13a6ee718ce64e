(** C66: null is recognised by identity. *)
From Coq Require Import Lia Sorting.Permutation.
From Verif Require Import Base Strconv SortedMap SortedMapFacts Json SpecJson SpecEquals Access RfcFacts AccessFacts Heap SpecHeap HeapFacts HeapFacts2 SpecShare ShareFacts NullId PropHeap ScalarFacts PropScalar PropRoundtrip PropDict.

(** ** Which objects CheckRequiredFields and GetArrayOfPrefix take for null *)

(** The member of the dict [a] with this key is the object [x]. *)
Definition member (h : heap) (a : addr) (k : bytes) (x : addr) : Prop :=
  exists nid kvs, nth_error h a = Some (CDict nid kvs) /\ sm_get kvs k = Some (Some x).
(** [x] is a null and the JSONNull pointer. *)
Definition the_null (isnull : addr -> bool) (h : heap) (x : addr) : Prop := nth_error h x = Some CNull /\ isnull x = true.

Lemma null_test isnull h x : (match nth_error h x with Some CNull => isnull x | _ => false end) = true <-> the_null isnull h x.
Proof.
  unfold the_null. destruct (nth_error h x) as [[]|]; split; try discriminate; try (intros [E _]; discriminate E); auto. intros [_ E]; exact E.
Qed.

Lemma no_nil h rs kvs : Forall2 (mholds h) rs kvs -> existsb (fun kv => is_nil (snd kv)) rs = false.
Proof. induction 1 as [|[k r] [k' j] rs kvs [_ (b & E & _)] F IH]; [reflexivity|]. cbn in *. subst r. exact IH. Qed.

Lemma get_holds h rs kvs k : Forall2 (mholds h) rs kvs ->
  match sm_get rs k with
  | Some r => exists x v, r = Some x /\ sm_get kvs k = Some v /\ holds h x v
  | None => sm_get kvs k = None
  end.
Proof.
  induction 1 as [|[k1 r] [k' j] rs kvs [E (b & E' & Hb)] F IH]; [reflexivity|]. cbn in E, E'. subst k' r. cbn [sm_get].
  destruct (bseq k k1); [|exact IH]. eauto.
Qed.

Lemma holds_null h x v : holds h x v -> (nth_error h x = Some CNull <-> v = JNull).
Proof.
  intros [[|n] R]; [discriminate|]. cbn [read] in R. cbv zeta in R. destruct (nth_error h x) as [[]|]; try discriminate R; try (injection R as <-); try (split; congruence).
  - destruct (map_opt _ rs) in R; [injection R as <-; split; discriminate|discriminate].
  - destruct (map_opt _ kvs) in R; [injection R as <-; split; discriminate|discriminate].
Qed.

(** CheckRequiredFields on a document: nil exactly if every field is a member
    and none is the JSONNull pointer. *)
Theorem C66_required isnull h a nid kvs fields : holds h a (JDict nid kvs) ->
  exists e, h_check_required isnull h a fields = Some e /\
    (e = None <-> forall f, In f fields -> exists x, member h a f x /\ ~ the_null isnull h x).
Proof.
  intros H. apply holds_dict in H as (rs & G & F). unfold h_check_required. rewrite G, (no_nil _ _ _ F). eexists. split; [reflexivity|].
  induction fields as [|f fs IH]; cbn [h_check_fields]; [split; [intros _ ? []|reflexivity]|].
  pose proof (get_holds _ _ _ f F) as X. destruct (sm_get rs f) as [r|] eqn:E.
  - destruct X as (x & v & -> & _). destruct (match nth_error h x with Some CNull => isnull x | _ => false end) eqn:T.
    + apply null_test in T. split; [discriminate|]. intros All. destruct (All f (or_introl eq_refl)) as (y & (n' & rs' & G' & E') & N).
      rewrite G in G'. injection G' as <- <-. rewrite E in E'. injection E' as <-. contradiction.
    + rewrite IH. split.
      * intros All g [<-|I]; [|apply All, I]. exists x. split; [exists nid, rs; auto|]. intros T'. apply null_test in T'. congruence.
      * intros All g I. apply All. right. exact I.
  - split; [discriminate|]. intros All. destruct (All f (or_introl eq_refl)) as (y & (n' & rs' & G' & E') & N).
    rewrite G in G'. injection G' as <- <-. congruence.
Qed.

(** If every null is the JSONNull pointer, as in parsed and in marshalled
    documents, it is C37's function of the value. *)
Theorem C66_required_same isnull h a j fields : (forall x, nth_error h x = Some CNull -> isnull x = true) -> holds h a j ->
  h_check_required isnull h a fields = Some (CheckRequiredFields j fields).
Proof.
  intros N H. destruct j as [| | | | | |nid kvs|].
  7: { apply holds_dict in H as (rs & G & F). unfold h_check_required. rewrite G, (no_nil _ _ _ F). f_equal.
       unfold CheckRequiredFields. change (GetMap (JDict nid kvs) []) with (@ROk (list (bytes * json)) kvs). cbv iota.
       induction fields as [|f fs IH]; [reflexivity|]. cbn [h_check_fields check_fields]. pose proof (get_holds _ _ _ f F) as X.
       destruct (sm_get rs f) as [r|]; [|rewrite X; reflexivity]. destruct X as (x & v & -> & -> & Hx).
       pose proof (holds_null _ _ _ Hx) as Y. destruct (nth_error h x) as [c|] eqn:Ec.
       - destruct c; try (destruct v; [exfalso; destruct Y as [_ Y]; discriminate (Y eq_refl)|exact IH..]).
         rewrite (proj1 Y eq_refl), (N x Ec). reflexivity.
       - destruct v; [exfalso; destruct Y as [_ Y]; discriminate (Y eq_refl)|exact IH..]. }
  all: destruct H as [[|n] R]; [discriminate R|]; cbn [read] in R; cbv zeta in R; unfold h_check_required; destruct (nth_error h a) as [c|]; [|discriminate R];
    destruct c; try discriminate R; try reflexivity; try (destruct (map_opt _ rs) in R; discriminate R); destruct (map_opt _ kvs) in R; discriminate R.
Qed.

(** What DeepCopy makes of a dict: a dict with the same keys whose members are
    new objects. *)
Lemma copied_dict ord h a nid kvs : any_order ord -> holds h a (JDict nid kvs) -> json_ok (JDict nid kvs) -> no_reference (JDict nid kvs) ->
  exists steps, forall fuel, (steps <= fuel)%nat -> exists h' b, deep_copy ord fuel h a = DOk h' (Some b) /\
    holds h' b (drop_ids (JDict nid kvs)) /\ forall k x, member h' b k x -> (length h <= x)%nat.
Proof.
  intros P H O NR. destruct (C22_deep_copy_content ord h a _ P H O NR) as (steps & S). exists steps. intros fuel L.
  destruct (S fuel L) as (h' & b & D & H' & _). exists h', b. split; [exact D|]. split; [exact H'|].
  intros k x (n' & rs & G & E). destruct (deep_copy_adds ord fuel h a h' _ D) as [(new & -> & F) Lb]. specialize (Lb b eq_refl).
  rewrite nth_error_app2 in G by lia. apply nth_error_In in G. rewrite Forall_forall in F. apply (F _ G). cbn. eapply in_sm_get, E.
Qed.

Lemma drop_get kvs k : forall rs h, Forall2 (mholds h) rs (map (fun kv => (fst kv, drop_ids (snd kv))) kvs) -> sm_get rs k <> None <-> lookup k kvs <> None.
Proof.
  induction kvs as [|[k' v] kvs IH]; intros rs h F; inversion F as [|[k1 r] y rs' l' [E _] F']; subst; [cbn; tauto|]. cbn in E. subst k1.
  cbn [sm_get lookup]. destruct (bseq k k'); [split; discriminate|]. eapply IH, F'.
Qed.

(** A copy made by DeepCopy has nulls that are not that pointer (unless Go
    makes them equal): there CheckRequiredFields only asks for the keys, and
    accepts null members. *)
Theorem C66_required_copy ord isnull h a nid kvs fields : any_order ord -> holds h a (JDict nid kvs) -> json_ok (JDict nid kvs) -> no_reference (JDict nid kvs) ->
  (forall x, (length h <= x)%nat -> isnull x = false) ->
  exists steps, forall fuel, (steps <= fuel)%nat -> exists h' b e, deep_copy ord fuel h a = DOk h' (Some b) /\
    h_check_required isnull h' b fields = Some e /\ (e = None <-> forall f, In f fields -> lookup f kvs <> None).
Proof.
  intros P H O NR N. destruct (copied_dict ord h a nid kvs P H O NR) as (steps & S). exists steps. intros fuel L.
  destruct (S fuel L) as (h' & b & D & H' & M). destruct (C66_required isnull h' b 0 _ fields H') as (e & E & Ie). exists h', b, e.
  split; [exact D|]. split; [exact E|]. rewrite Ie. apply holds_dict in H' as (rs & G & F). split; intros All f I.
  - destruct (All f I) as (x & (n' & rs' & G' & E') & _). rewrite G in G'. injection G' as _ <-. apply (drop_get kvs f rs h' F). congruence.
  - specialize (All f I). apply (drop_get kvs f rs h' F) in All. pose proof (get_holds _ _ _ f F) as X.
    destruct (sm_get rs f) as [r|] eqn:Er; [|congruence]. destruct X as (x & v & -> & _).
    assert (Mx : member h' b f x) by (exists 0, rs; auto). exists x. split; [exact Mx|]. intros [_ T]. rewrite (N x (M f x Mx)) in T. discriminate.
Qed.

(** ** GetArrayOfPrefix *)

(** It hands out the objects prefix.0, prefix.1, ... up to the first key that
    is missing or whose member is the JSONNull pointer. *)
Lemma prefix_run isnull h a nid rs kvs prefix : nth_error h a = Some (CDict nid rs) -> Forall2 (mholds h) rs kvs -> forall fuel i,
  (exists l, h_prefix_loop isnull fuel h rs prefix i = PObjects l /\
     (forall k x, nth_error l k = Some x -> member h a (prefix ++ ["."%byte] ++ idx_key (i + k)) x /\ ~ the_null isnull h x) /\
     (forall x, member h a (prefix ++ ["."%byte] ++ idx_key (i + length l)) x -> the_null isnull h x))
  \/ (h_prefix_loop isnull fuel h rs prefix i = PMore /\ forall k, (i <= k < i + fuel)%nat -> lookup (prefix ++ ["."%byte] ++ idx_key k) kvs <> None).
Proof.
  intros G F. induction fuel as [|fuel IH]; intros i; cbn [h_prefix_loop]; [right; split; [reflexivity|intros; lia]|].
  pose proof (get_holds _ _ _ (prefix ++ ["."%byte] ++ idx_key i) F) as X.
  destruct (sm_get rs (prefix ++ ["."%byte] ++ idx_key i)) as [r|] eqn:E.
  - destruct X as (x & v & -> & Ev & _). assert (Mx : member h a (prefix ++ ["."%byte] ++ idx_key i) x) by (exists nid, rs; auto).
    destruct (match nth_error h x with Some CNull => isnull x | _ => false end) eqn:T.
    + left. exists []. split; [reflexivity|]. split; [intros [|k] y Y; discriminate|]. cbn [length]. rewrite Nat.add_0_r.
      intros y (n' & rs' & G' & E'). rewrite G in G'. injection G' as <- <-. rewrite E in E'. injection E' as <-. apply null_test, T.
    + destruct (IH (S i)) as [(l & -> & H1 & H2)|[-> H]].
      * left. exists (x :: l). split; [reflexivity|]. split.
        -- intros [|k] y Y; cbn in Y.
           ++ injection Y as <-. rewrite Nat.add_0_r. split; [exact Mx|]. intros T'. apply null_test in T'. congruence.
           ++ replace (i + S k)%nat with (S i + k)%nat by lia. apply H1, Y.
        -- cbn [length]. replace (i + S (length l))%nat with (S i + length l)%nat by lia. exact H2.
      * right. split; [reflexivity|]. intros k Hk. destruct (Nat.eq_dec k i) as [->|Nk]; [rewrite lookup_sm_get; congruence|]. apply H. lia.
  - left. exists []. split; [reflexivity|]. split; [intros [|k] y Y; discriminate|]. cbn [length]. rewrite Nat.add_0_r.
    intros y (n' & rs' & G' & E'). rewrite G in G'. injection G' as <- <-. congruence.
Qed.
Theorem C66_prefix isnull h a nid kvs prefix fuel : holds h a (JDict nid kvs) -> (length kvs < fuel)%nat ->
  exists l, h_array_of_prefix isnull fuel h a prefix = PObjects l /\
    (forall i x, nth_error l i = Some x -> member h a (prefix ++ ["."%byte] ++ format_int (Z.of_nat i)) x /\ ~ the_null isnull h x) /\
    (forall x, member h a (prefix ++ ["."%byte] ++ format_int (Z.of_nat (length l))) x -> the_null isnull h x).
Proof.
  intros H L. apply holds_dict in H as (rs & G & F). unfold h_array_of_prefix. rewrite G.
  destruct (prefix_run isnull h a nid rs kvs prefix G F fuel 0) as [(l & E & H1 & H2)|[_ H]]; [exists l; auto|].
  exfalso. assert (fuel <= length kvs)%nat; [|lia].
  apply (numbered_bound kvs (fun i => prefix ++ ["."%byte] ++ idx_key i) 0 fuel).
  - intros i k X. apply app_inv_head in X. injection X as X. apply idx_key_inj. exact X.
  - intros i Hi. apply H. lia.
Qed.

(** On a dict with nil members (C62): CheckRequiredFields panics whatever the
    fields are, GetArrayOfPrefix exactly if it gets to a nil; of anything but a
    dict it returns no objects. *)
Theorem C66_required_nil isnull h a nid rs k fields : nth_error h a = Some (CDict nid rs) ->
  sm_get rs k = Some None -> h_check_required isnull h a fields = None.
Proof.
  intros G E. unfold h_check_required. rewrite G. assert (existsb (fun kv => is_nil (snd kv)) rs = true) as ->; [|reflexivity].
  apply existsb_exists. exists (k, None). split; [|reflexivity]. clear G. induction rs as [|[k1 r1] rs IH]; [discriminate|]. cbn [sm_get] in E.
  destruct (bseq_spec k k1) as [->|_]; [injection E as ->; left; reflexivity|right; exact (IH E)].
Qed.

Lemma prefix_panics isnull h nid rs a prefix : nth_error h a = Some (CDict nid rs) -> forall fuel i,
  h_prefix_loop isnull fuel h rs prefix i = PPanics <->
  exists n, (n < fuel)%nat /\ sm_get rs (prefix ++ ["."%byte] ++ idx_key (i + n)) = Some None /\
    forall k, (k < n)%nat -> exists x, member h a (prefix ++ ["."%byte] ++ idx_key (i + k)) x /\ ~ the_null isnull h x.
Proof.
  intros G. induction fuel as [|fuel IH]; intros i; cbn [h_prefix_loop]; [split; [discriminate|intros (n & L & _); lia]|].
  assert (Here : forall n, (n < S fuel)%nat -> sm_get rs (prefix ++ ["."%byte] ++ idx_key (i + n)) = Some None ->
    (forall k, (k < n)%nat -> exists x, member h a (prefix ++ ["."%byte] ++ idx_key (i + k)) x /\ ~ the_null isnull h x) ->
    n <> 0%nat -> exists x, sm_get rs (prefix ++ ["."%byte] ++ idx_key i) = Some (Some x) /\ ~ the_null isnull h x).
  { intros n _ _ K N. destruct (K 0%nat ltac:(lia)) as (x & (n' & rs' & G' & E') & T). rewrite G in G'. injection G' as <- <-. rewrite Nat.add_0_r in E'. eauto. }
  destruct (sm_get rs (prefix ++ ["."%byte] ++ idx_key i)) as [[x|]|] eqn:E.
  - destruct (match nth_error h x with Some CNull => isnull x | _ => false end) eqn:T.
    + apply null_test in T. split; [discriminate|]. intros (n & L & En & K). exfalso. destruct (Nat.eq_dec n 0) as [->|N]; [rewrite Nat.add_0_r in En; congruence|].
      destruct (Here n L En K N) as (y & Ey & Ny). congruence.
    + assert (Nt : ~ the_null isnull h x) by (intros X; apply null_test in X; congruence).
      destruct (IH (S i)) as [I1 I2]. split.
      * intros P. destruct I1 as (n & L & En & K); [destruct (h_prefix_loop isnull fuel h rs prefix (S i)); try discriminate P; reflexivity|].
        exists (S n). split; [lia|]. split; [rewrite Nat.add_succ_r; exact En|]. intros [|k] Lk; [rewrite Nat.add_0_r; exists x; split; [exists nid, rs; auto|exact Nt]|].
        rewrite Nat.add_succ_r. apply K. lia.
      * intros (n & L & En & K). destruct n as [|n]; [rewrite Nat.add_0_r in En; congruence|]. rewrite I2; [reflexivity|]. exists n. split; [lia|].
        rewrite Nat.add_succ_r in En. split; [exact En|]. intros k Lk. specialize (K (S k) ltac:(lia)). rewrite Nat.add_succ_r in K. exact K.
  - split; [|reflexivity]. intros _. exists 0%nat. split; [lia|]. rewrite Nat.add_0_r. split; [exact E|]. intros k Lk; lia.
  - split; [discriminate|]. intros (n & L & En & K). exfalso. destruct (Nat.eq_dec n 0) as [->|N]; [rewrite Nat.add_0_r in En; congruence|].
    destruct (Here n L En K N) as (y & Ey & Ny). congruence.
Qed.

Theorem C66_prefix_nil isnull h a nid rs prefix fuel : nth_error h a = Some (CDict nid rs) ->
  h_array_of_prefix isnull fuel h a prefix = PPanics <->
  exists n, (n < fuel)%nat /\ sm_get rs (prefix ++ ["."%byte] ++ format_int (Z.of_nat n)) = Some None /\
    forall k, (k < n)%nat -> exists x, member h a (prefix ++ ["."%byte] ++ format_int (Z.of_nat k)) x /\ ~ the_null isnull h x.
Proof. intros G. unfold h_array_of_prefix. rewrite G. exact (prefix_panics isnull h nid rs a prefix G fuel 0). Qed.

Theorem C66_prefix_other isnull h a c prefix fuel : nth_error h a = Some c -> (forall nid rs, c <> CDict nid rs) ->
  h_array_of_prefix isnull fuel h a prefix = PObjects [].
Proof. intros G N. unfold h_array_of_prefix. rewrite G. destruct c; try reflexivity. destruct (N nid kvs). reflexivity. Qed.

(** {"p.0": 1, "p.1": nil} *)
Example C66_nil_example : h_array_of_prefix (fun _ => true) 3 [CDict 0 [(B "p.0", Some 1%nat); (B "p.1", None)]; CInt 1] 0 (B "p") = PPanics
  /\ h_check_required (fun _ => true) [CDict 0 [(B "p.0", Some 1%nat); (B "p.1", None)]; CInt 1] 0 [] = None
  /\ h_array_of_prefix (fun _ => true) 3 [CArray []] 0 (B "p") = PObjects [].
Proof.
  split; [|split].
  - apply (C66_prefix_nil _ _ _ 0 [(B "p.0", Some 1%nat); (B "p.1", None)]); [reflexivity|]. exists 1%nat. split; [lia|]. split; [reflexivity|].
    intros [|k] L; [|lia]. exists 1%nat. split; [exists 0, [(B "p.0", Some 1%nat); (B "p.1", None)]; split; reflexivity|]. intros [X _]. discriminate.
  - eapply C66_required_nil with (k := B "p.1"); reflexivity.
  - eapply C66_prefix_other; [reflexivity|discriminate].
Qed.

(** With all nulls the JSONNull pointer: the objects with C37's values. *)
Theorem C66_prefix_same isnull h a nid kvs prefix fuel l : (forall x, nth_error h x = Some CNull -> isnull x = true) -> holds h a (JDict nid kvs) ->
  GetArrayOfPrefix fuel (JDict nid kvs) prefix = Some l -> exists xs, h_array_of_prefix isnull fuel h a prefix = PObjects xs /\ Forall2 (holds h) xs l.
Proof.
  intros N H. apply holds_dict in H as (rs & G & F). unfold h_array_of_prefix, GetArrayOfPrefix. rewrite G. generalize 0%nat as i. revert l.
  induction fuel as [|fuel IH]; intros l i E; [discriminate|]. cbn [prefix_loop h_prefix_loop] in *. rewrite dict_get1, lookup_sm_get in E.
  pose proof (get_holds _ _ _ (prefix ++ ["."%byte] ++ idx_key i) F) as X.
  destruct (sm_get rs (prefix ++ ["."%byte] ++ idx_key i)) as [r|]; [|rewrite X in E; injection E as <-; exists []; auto].
  destruct X as (x & v & -> & Ev & Hx). rewrite Ev in E. pose proof (holds_null _ _ _ Hx) as Y.
  destruct (match nth_error h x with Some CNull => isnull x | _ => false end) eqn:T.
  - apply null_test in T as [T _]. apply Y in T. subst v. injection E as <-. exists []. auto.
  - assert (Nv : v <> JNull). { intros ->. destruct Y as [_ Y]. specialize (Y eq_refl). rewrite Y, (N x Y) in T. discriminate. }
    destruct (prefix_loop fuel (JDict nid kvs) prefix (S i)) as [l1|] eqn:E1.
    + destruct (IH l1 (S i) E1) as (xs & -> & Fx). exists (x :: xs). split; [reflexivity|]. assert (l = v :: l1) by (destruct v; congruence). subst l. constructor; assumption.
    + destruct v; congruence.
Qed.

(** In a copy made by DeepCopy it does not stop at nulls. *)
Theorem C66_prefix_copy ord isnull h a nid kvs prefix : any_order ord -> holds h a (JDict nid kvs) -> json_ok (JDict nid kvs) -> no_reference (JDict nid kvs) ->
  (forall x, (length h <= x)%nat -> isnull x = false) ->
  exists steps, forall fuel, (steps <= fuel)%nat -> exists h' b l, deep_copy ord fuel h a = DOk h' (Some b) /\
    h_array_of_prefix isnull (S (length kvs)) h' b prefix = PObjects l /\
    (forall i, (i < length l)%nat -> lookup (prefix ++ ["."%byte] ++ format_int (Z.of_nat i)) kvs <> None) /\
    lookup (prefix ++ ["."%byte] ++ format_int (Z.of_nat (length l))) kvs = None.
Proof.
  intros P H O NR N. destruct (copied_dict ord h a nid kvs P H O NR) as (steps & S). exists steps. intros fuel L.
  destruct (S fuel L) as (h' & b & D & H' & M).
  destruct (C66_prefix isnull h' b 0 _ prefix (Datatypes.S (length kvs)) H') as (l & E & H1 & H2); [rewrite map_length; lia|]. exists h', b, l.
  split; [exact D|]. split; [exact E|]. apply holds_dict in H' as (rs & G & F). split.
  - intros i Hi. destruct (nth_error l i) as [x|] eqn:Ex; [|apply nth_error_None in Ex; lia]. destruct (H1 i x Ex) as [(n' & rs' & G' & E') _].
    rewrite G in G'. injection G' as _ <-. apply (drop_get kvs _ rs h' F). congruence.
  - destruct (lookup (prefix ++ ["."%byte] ++ format_int (Z.of_nat (length l))) kvs) as [v|] eqn:El; [|reflexivity]. exfalso.
    assert (X : lookup (prefix ++ ["."%byte] ++ format_int (Z.of_nat (length l))) kvs <> None) by congruence. apply (drop_get kvs _ rs h' F) in X.
    pose proof (get_holds _ _ _ (prefix ++ ["."%byte] ++ format_int (Z.of_nat (length l))) F) as Y.
    destruct (sm_get rs _) as [r|] eqn:Er; [|congruence]. destruct Y as (x & w & -> & _).
    assert (Mx : member h' b (prefix ++ ["."%byte] ++ format_int (Z.of_nat (length l))) x) by (exists 0, rs; auto).
    destruct (H2 x Mx) as [_ T]. rewrite (N x (M _ x Mx)) in T. discriminate.
Qed.

(** ** A case: {"a":null,"p.0":1,"p.1":null,"p.2":2} *)
Definition null_heap : heap := [CDict 0 [(B "a", Some 1%nat); (B "p.0", Some 2%nat); (B "p.1", Some 1%nat); (B "p.2", Some 3%nat)]; CNull; CInt 1; CInt 2].
Definition null_doc : json := JDict 0 [(B "a", JNull); (B "p.0", JInt 1); (B "p.1", JNull); (B "p.2", JInt 2)].
Definition null_one (x : addr) : bool := (x =? 1)%nat.
Example null_holds : holds null_heap 0 null_doc.
Proof. exists 2%nat. reflexivity. Qed.
Example null_one_all : forall x, nth_error null_heap x = Some CNull -> null_one x = true.
Proof. intros [|[|[|[|[|x]]]]] E; try discriminate E; reflexivity. Qed.
Example null_one_new : forall x, (length null_heap <= x)%nat -> null_one x = false.
Proof. intros [|[|x]] L; cbn in L; [reflexivity|lia|reflexivity]. Qed.
Example null_ok : json_ok null_doc. Proof. unfold null_doc. json_ok_tac. Qed.
Example null_no_reference : no_reference null_doc. Proof. intros n S. unfold null_doc in S. subs S. Qed.
Example null_order : any_order (fun _ l => rev l). Proof. intros h l. apply Permutation_sym, Permutation_rev. Qed.
(** The document is refused, its copy accepted. *)
Example required_refused : h_check_required null_one null_heap 0 [B "p.0"; B "a"] = Some (Some ErrNilInputField).
Proof. reflexivity. Qed.
Example required_accepted : match deep_copy (fun _ l => rev l) 5 null_heap 0 with
  | DOk h (Some b) => h_check_required null_one h b [B "p.0"; B "a"] = Some None
  | _ => False
  end.
Proof. reflexivity. Qed.
(** prefix.0 of the document; prefix.0 to prefix.2 of its copy. *)
Example prefix_stops : h_array_of_prefix null_one 5 null_heap 0 (B "p") = PObjects [2%nat].
Proof. reflexivity. Qed.
Example prefix_goes_on : match deep_copy (fun _ l => rev l) 5 null_heap 0 with
  | DOk h (Some b) => exists l, h_array_of_prefix null_one 5 h b (B "p") = PObjects l /\ length l = 3%nat
  | _ => False
  end.
Proof. eexists. split; reflexivity. Qed.
Example C66_required_case := C66_required null_one null_heap 0 0 _ [B "a"] null_holds.
Example C66_required_same_case := C66_required_same null_one null_heap 0 null_doc [B "a"] null_one_all null_holds.
Example C66_required_copy_case := C66_required_copy _ null_one null_heap 0 0 _ [B "a"] null_order null_holds null_ok null_no_reference null_one_new.
Example C66_prefix_case := C66_prefix null_one null_heap 0 0 _ (B "p") 5 null_holds (Nat.lt_succ_diag_r 4).
Example C66_prefix_same_case := C66_prefix_same null_one null_heap 0 0 _ (B "p") 5 [JInt 1] null_one_all null_holds eq_refl.
Example C66_prefix_copy_case := C66_prefix_copy _ null_one null_heap 0 0 _ (B "p") null_order null_holds null_ok null_no_reference null_one_new.
