(** Properties of query strings: C24-C26. *)
From Coq Require Import Sorting.Sorted Sorting.Permutation.
From Verif Require Import Base Strconv StrconvFacts SortedMap SortedMapFacts Json SpecJson Printer Access AccessFacts RfcFacts Query SpecQuery QueryFacts QueryFacts2 QueryFacts3.

(** * C24 *)

(** Every dict a query string can carry comes back with all scalars as
    strings; arbitrary bytes in names and values survive. *)
Theorem C24_query_roundtrip nid kvs : query_dict kvs ->
  ParseQueryString (QueryString (JDict nid kvs)) = ROk (as_text (JDict nid kvs)).
Proof. apply query_roundtrip. Qed.

(** Dicts of strings come back unchanged. *)
Theorem C24_query_roundtrip_strings kvs : query_dict kvs -> all_strings (JDict 0 kvs) ->
  ParseQueryString (QueryString (JDict 0 kvs)) = ROk (JDict 0 kvs).
Proof. intros Q A. rewrite C24_query_roundtrip by exact Q. rewrite as_text_strings by exact A. reflexivity. Qed.

(** URL escaping is lossless and leaves no separator in the text. *)
Theorem C24_escaping s : query_unescape (query_escape s) = Some s /\
  (forall c, In c (query_escape s) -> c <> "&"%byte /\ c <> "="%byte /\ c <> ";"%byte /\ 32 < bz c < 127).
Proof.
  split; [apply unescape_escape|].
  induction s as [|b s IH]; intros c H; [destruct H|]. unfold query_escape in H. cbn [flat_map] in H.
  apply in_app_iff in H as [H|H]; [|apply IH, H]. clear IH.
  assert (forallb (fun c => negb (beq c "&"%byte) && negb (beq c "="%byte) && negb (beq c ";"%byte) && (32 <? bz c) && (bz c <? 127)) (escape_byte b) = true) as G
    by (destruct b; vm_compute; reflexivity).
  rewrite forallb_forall in G. specialize (G c H). apply andb_true_iff in G as [G G5]. apply andb_true_iff in G as [G G4].
  apply andb_true_iff in G as [G G3]. apply andb_true_iff in G as [G1 G2].
  apply negb_true_iff, beq_neq in G1, G2, G3. repeat split; auto; lia.
Qed.

(** A key set several times becomes the array of its values in their order. *)
Theorem C24_repeated_key key vals : plain_key key -> key <> [] -> (2 <= length vals)%nat ->
  ParseQueryString (join_with "&"%byte (map (simple_query_string key) vals))
  = ROk (JDict 0 [(key, JArray (map JString vals))]).
Proof.
  intros P N L. unfold ParseQueryString.
  rewrite (parse_query_join _ (map (fun v => [(key, v)]) vals)); cycle 1.
  { clear L. induction vals; simpl; constructor; auto. apply parse_query_simple, N. }
  assert (concat (map (fun v => [(key, v)]) vals) = map (fun v => (key, v)) vals) as ->.
  { clear. induction vals; simpl; congruence. }
  assert (map_keys (map (fun v => (key, v)) vals) = [key]) as ->.
  { unfold map_keys. rewrite map_map. simpl. clear - L. destruct vals as [|v vals]; [simpl in L; lia|]. clear L.
    revert v. induction vals as [|v' vals IH]; intros v; [reflexivity|].
    cbn [map dedup]. cbn [map] in IH. unfold in_strings. cbn [existsb]. rewrite bseq_refl. apply (IH v'). }
  cbn [map]. destruct (plain_seg_ok _ P) as [Sk Ek].
  assert (string2segments key = [string2seg key]) as ->.
  { unfold string2segments. rewrite split_clean by apply P. reflexivity. }
  cbn [sort_segs fold_right insert_segs add_all].
  assert (segments2string [string2seg key] = key) as -> by (unfold segments2string; simpl; exact Ek).
  assert (values_of (map (fun v => (key, v)) vals) key = vals) as ->.
  { unfold values_of. clear. induction vals as [|v vals IH]; [reflexivity|]. cbn [map filter fst]. rewrite bseq_refl. cbn [map snd]. congruence. }
  rewrite add_seg_dict, Ek. cbn [sm_get]. cbn [add_seg fst].
  destruct vals as [|v1 [|v2 vals]]; [simpl in L; lia|simpl in L; lia|]. reflexivity.
Qed.

(** What the exclusions in [query_dict] are about.  An array with a shallow
    element after a deep one: an element is lost without an error, or the
    array turns into a dict; a nested member named 0 turns its dict into an
    array; an empty container vanishes; a name like 01 is refused. *)
Definition q_a : bytes := Eval vm_compute in B "a".
Definition q_b : bytes := Eval vm_compute in B "b".
Definition q_x : bytes := Eval vm_compute in B "x".
Definition str s : json := JString (B s).

Theorem C24_mixed_depth_refuted :
  ParseQueryString (QueryString (JDict 0 [(q_a, JArray [str "s"; JDict 0 [(q_x, str "1")]; str "t"])]))
    = ROk (JDict 0 [(q_a, JArray [str "s"; JDict 0 [(q_x, str "1")]])]) /\
  ParseQueryString (QueryString (JDict 0 [(q_a, JArray [JDict 0 [(q_x, str "1")]; str "t"])]))
    = ROk (JDict 0 [(q_a, JDict 0 [(B "0", JDict 0 [(q_x, str "1")]); (B "1", str "t")])]).
Proof. split; vm_compute; reflexivity. Qed.

Theorem C24_key_zero_refuted :
  ParseQueryString (QueryString (JDict 0 [(q_a, JDict 0 [(B "0", str "v")])]))
    = ROk (JDict 0 [(q_a, JArray [str "v"])]) /\
  ParseQueryString (QueryString (JDict 0 [(q_a, JDict 0 [(B "0", str "v"); (B "b", str "w")])]))
    = ROk (JDict 0 [(q_a, JArray [str "v"])]).
Proof. split; vm_compute; reflexivity. Qed.

Theorem C24_empty_container_refuted :
  ParseQueryString (QueryString (JDict 0 [(q_a, JArray []); (q_b, str "v")])) = ROk (JDict 0 [(q_b, str "v")]) /\
  ParseQueryString (QueryString (JDict 0 [([], str "v")])) = ROk (JDict 0 [(B "v", str "")]) /\
  ParseQueryString (QueryString (JDict 0 [(B "a.b", str "v")])) = ROk (JDict 0 [(q_a, JDict 0 [(q_b, str "v")])]).
Proof. repeat split; vm_compute; reflexivity. Qed.

(** A name that strconv reads as an integer of another spelling is always refused. *)
Theorem C24_noncanonical_key key n v : ~ In "."%byte key -> parse_int key = Some n -> format_int n <> key ->
  ParseQueryString (simple_query_string key v) = RErr ErrNilInputField.
Proof.
  intros D P N. assert (key <> []) as Ne by (intros ->; discriminate).
  unfold ParseQueryString. rewrite parse_query_simple by exact Ne.
  change (map_keys [(key, v)]) with [key]. cbn [map].
  assert (string2segments key = [SNum n]) as ->.
  { unfold string2segments. rewrite split_clean by exact D. simpl. unfold string2seg. rewrite P. reflexivity. }
  cbn [sort_segs fold_right insert_segs add_all].
  change (segments2string [SNum n]) with (format_int n).
  assert (values_of [(key, v)] (format_int n) = []) as ->.
  { unfold values_of. cbn [filter fst]. rewrite (proj2 (bseq_neq _ _) N). reflexivity. }
  reflexivity.
Qed.

Lemma plain_ex k : parse_int k = None -> ~ In "."%byte k -> plain_key k.
Proof. intros P D. split; [exact D|]. rewrite P. discriminate. Qed.

Example C24_example : query_dict
    [(B "7", JArray [JNull; JInt 5; JArray [str "=&;"]]); (q_a, JDict 3 [(B "-1", JBool true); (q_b, str "")])] /\
  QueryString (JDict 9 [(B "7", JArray [JNull; JInt 5; JArray [str "=&;"]]); (q_a, JDict 3 [(B "-1", JBool true); (q_b, str "")])])
    = B "7.0&7.1=5&7.2.0=%3D%26%3B&a.-1=true&a.b".
Proof.
  split; [|vm_compute; reflexivity].
  assert (plain_key (B "7")) as P7 by (split; [intros [H|[]]; discriminate|intros n H; vm_compute in H; injection H as <-; vm_compute; reflexivity]).
  assert (plain_key (B "-1")) as P1 by (split; [intros [H|[H|[]]]; discriminate|intros n H; vm_compute in H; injection H as <-; vm_compute; reflexivity]).
  assert (plain_key q_a) as Pa by (apply plain_ex; [reflexivity|intros [H|[]]; discriminate]).
  assert (plain_key q_b) as Pb by (apply plain_ex; [reflexivity|intros [H|[]]; discriminate]).
  assert (forall s, query_value (str s)) as Qs by (intros; apply qv_scalar; exact I).
  split.
  - repeat constructor.
  - constructor; [|constructor; [|constructor]]; (split; [assumption|split; [discriminate|]]); simpl.
    + apply qv_array; [discriminate| |repeat constructor|vm_compute; discriminate].
      constructor; [apply qv_scalar; exact I|]. constructor; [apply qv_scalar; exact I|]. constructor; [|constructor].
      apply qv_array; [discriminate|repeat constructor|repeat constructor|vm_compute; discriminate].
    + apply qv_dict; [discriminate|repeat constructor|].
      constructor; [|constructor; [|constructor]]; (split; [assumption|split; [discriminate|apply qv_scalar; exact I]]).
Qed.

(** * C25 *)

(** [ks] enumerates the keys of the multi-map, each once: one of the orders
    in which Go's range may deliver them. *)
Definition enumerates (m : list (bytes * bytes)) (ks : list bytes) : Prop :=
  NoDup ks /\ (forall k, In k ks <-> exists v, In (k, v) m).

(** The contract of sort.Sort: a permutation with no later element Less than
    an earlier one. *)
Definition sort_result (l sorted : list (list seg)) : Prop :=
  Permutation l sorted /\
  (forall i j a b, (i < j)%nat -> nth_error sorted i = Some a -> nth_error sorted j = Some b -> segs_less b a = false).

(** The same multi-map: the same values, in the same order, under every key. *)
Definition same_multimap (m1 m2 : list (bytes * bytes)) : Prop := forall k, values_of m1 k = values_of m2 k.

Lemma sorted_pairs (l : list (list seg)) :
  (forall i j a b, (i < j)%nat -> nth_error l i = Some a -> nth_error l j = Some b -> segs_less b a = false) ->
  StronglySorted sle l.
Proof.
  induction l as [|x l IH]; intros H; [constructor|]. constructor.
  - apply IH. intros i j a b L Ea Eb. apply (H (S i) (S j) a b); [lia|exact Ea|exact Eb].
  - apply Forall_forall. intros y I. apply In_nth_error in I as [n E]. apply (H O (S n) x y); [lia|reflexivity|exact E].
Qed.

Lemma pairs_sorted (l : list (list seg)) : StronglySorted sle l ->
  forall i j a b, (i < j)%nat -> nth_error l i = Some a -> nth_error l j = Some b -> segs_less b a = false.
Proof.
  induction 1 as [|x l S IH F]; intros i j a b L Ea Eb; [destruct i; discriminate|].
  destruct j as [|j]; [lia|]. destruct i as [|i]; simpl in Ea, Eb.
  - injection Ea as <-. rewrite Forall_forall in F. apply F. eapply nth_error_In, Eb.
  - apply (IH i j a b); [lia|exact Ea|exact Eb].
Qed.

Lemma dedup_in k l : In k (dedup l) <-> In k l.
Proof.
  induction l as [|x l IH]; [reflexivity|]. cbn [dedup].
  assert (in_strings x l = true <-> In x l) as E.
  { unfold in_strings. rewrite existsb_exists. split; [intros (y & I & B); apply bseq_eq in B as ->; exact I|intros I; exists x; split; [exact I|apply bseq_refl]]. }
  destruct (in_strings x l) eqn:D; simpl; rewrite IH; [|reflexivity].
  split; [auto|]. intros [->|H]; [apply E; reflexivity|exact H].
Qed.

Lemma dedup_is_nodup l : NoDup (dedup l).
Proof.
  induction l as [|x l IH]; [constructor|]. cbn [dedup]. destruct (in_strings x l) eqn:D; [exact IH|].
  constructor; [|exact IH]. rewrite dedup_in. intros I.
  assert (in_strings x l = true) by (apply existsb_exists; exists x; split; [exact I|apply bseq_refl]). congruence.
Qed.

Lemma map_keys_enumerates m : enumerates m (map_keys m).
Proof.
  split; [apply dedup_is_nodup|]. intros k. unfold map_keys. rewrite dedup_in, in_map_iff. split.
  - intros ([k' v] & <- & I). eauto.
  - intros [v I]. exists (k, v). auto.
Qed.

Lemma values_in m k : (exists v, In (k, v) m) <-> values_of m k <> [].
Proof.
  unfold values_of. split.
  - intros [v I] E. assert (In v (map snd (filter (fun kv => bseq k (fst kv)) m))) as X.
    { apply in_map_iff. exists (k, v). split; [reflexivity|]. apply filter_In. split; [exact I|apply bseq_refl]. }
    rewrite E in X. destruct X.
  - intros N. destruct (filter (fun kv => bseq k (fst kv)) m) as [|[k' v] t] eqn:E; [contradiction N; reflexivity|].
    assert (In (k', v) (filter (fun kv => bseq k (fst kv)) m)) as X by (rewrite E; left; reflexivity).
    apply filter_In in X as [X B]. apply bseq_eq in B. simpl in B. subst. eauto.
Qed.

Lemma add_all_ext m1 m2 : same_multimap m1 m2 -> forall ks d, add_all m1 d ks = add_all m2 d ks.
Proof.
  intros H. induction ks as [|s ks IH]; intros d; [reflexivity|]. cbn [add_all]. rewrite H.
  destruct (add_seg (Some d) s (values_of m2 (segments2string s))) as [[r|e] d']; [apply IH|reflexivity].
Qed.

(** Whatever order the map iteration and the sort choose, the outcome is that
    of ParseQueryString on any text that decodes to the same multi-map. *)
Theorem C25_map_order str str' m m' : parse_query str = Some m -> parse_query str' = Some m' -> same_multimap m m' ->
  forall ks sorted, enumerates m' ks -> sort_result (map string2segments ks) sorted ->
  add_all m' (JDict 0 []) sorted = ParseQueryString str.
Proof.
  intros E E' SM ks sorted [Nk Ik] [P S]. unfold ParseQueryString. rewrite E.
  rewrite (add_all_ext m m' SM). f_equal.
  apply sorted_unique; [apply sorted_pairs, S|apply sort_sorted|].
  etransitivity; [apply Permutation_sym, P|]. etransitivity; [|apply Permutation_sym, sort_perm].
  apply Permutation_map. destruct (map_keys_enumerates m) as [Nm Im].
  apply NoDup_Permutation; [exact Nk|exact Nm|]. intros k. rewrite Ik, Im, !values_in, SM. reflexivity.
Qed.

(** In particular the text matters only through its multi-map. *)
Theorem C25_only_multimap str str' m m' : parse_query str = Some m -> parse_query str' = Some m' -> same_multimap m m' ->
  ParseQueryString str = ParseQueryString str'.
Proof.
  intros E E' SM. symmetry. unfold ParseQueryString at 1. rewrite E'.
  apply (C25_map_order str str' m m' E E' SM (map_keys m')); [apply map_keys_enumerates|].
  split; [apply Permutation_sym, sort_perm|apply pairs_sorted, sort_sorted].
Qed.

(** Undecodable texts are refused. *)
Theorem C25_undecodable str : parse_query str = None -> ParseQueryString str = RErr ErrQuerySyntax.
Proof. intros E. unfold ParseQueryString. rewrite E. reflexivity. Qed.

Example C25_example : exists m m', parse_query (B "a.1=y&b=2&a.0=x") = Some m /\ parse_query (B "&b=2&&a.0=%78&a.1=y") = Some m' /\
  same_multimap m m' /\ m <> m' /\
  ParseQueryString (B "a.1=y&b=2&a.0=x") = ROk (JDict 0 [(q_a, JArray [str "x"; str "y"]); (q_b, str "2")]).
Proof.
  eexists _, _. split; [vm_compute; reflexivity|]. split; [vm_compute; reflexivity|].
  split; [|split; [discriminate|vm_compute; reflexivity]].
  intros k. unfold values_of. cbn [filter fst].
  set (k1 := ["a"%byte; "."%byte; "1"%byte]). set (k0 := ["a"%byte; "."%byte; "0"%byte]). set (kb := ["b"%byte]).
  destruct (bseq_spec k k1) as [->|N1]; [reflexivity|]. destruct (bseq_spec k kb) as [->|Nb]; [reflexivity|].
  destruct (bseq k k0); reflexivity.
Qed.

(** What comes back is a well-formed dict. *)
Lemma replace_nth_forall (P : json -> Prop) o : P o -> forall l n l', Forall P l -> replace_nth n l o = Some l' -> Forall P l'.
Proof.
  intros Po. induction l as [|x l IH]; intros [|n] l' F E; simpl in E; try discriminate.
  - injection E as <-. inversion F; subst. constructor; assumption.
  - destruct (replace_nth n l o) as [r|] eqn:R; [|discriminate]. injection E as <-. inversion F; subst. constructor; [assumption|].
    eapply IH; eassumption.
Qed.

Lemma add_seg_ok segs : forall body val, (forall b, body = Some b -> json_ok b) ->
  (forall j, fst (add_seg body segs val) = ROk j -> json_ok j) /\ json_ok (snd (add_seg body segs val)).
Proof.
  induction segs as [|s segs IH]; intros body val Hb.
  - cbn [add_seg fst snd]. split.
    + destruct val as [|v [|v2 val]]; intros j E; [discriminate|injection E as <-; constructor|injection E as <-].
      constructor. apply Forall_map, Forall_forall. constructor.
    + destruct body; [apply Hb; reflexivity|constructor].
  - cbn [add_seg].
    set (body1 := match body with Some b => b | None => match s with SNum 0 => JArray [] | _ => JDict 0 [] end end).
    assert (json_ok body1) as O1.
    { unfold body1. destruct body; [apply Hb; reflexivity|]. destruct s as [[| |]|]; constructor; constructor. }
    clearbody body1. cbv zeta.
    destruct body1 as [| | | | |l|nid kvs|]; try (split; [discriminate|exact O1]).
    + inversion O1 as [| | | | |? Fl| |]; subst.
      destruct (seg_number s <? Z.of_nat (length l)).
      * destruct (array_get_at l (seg_number s)) as [next|e] eqn:G; [|split; [discriminate|exact O1]].
        assert (json_ok next) as On.
        { unfold array_get_at in G. destruct (_ && _) in G; [|discriminate].
          match type of G with match nth_error l ?n with _ => _ end = _ => destruct (nth_error l n) eqn:En end; [|discriminate].
          injection G as ->. rewrite Forall_forall in Fl. apply Fl. eapply nth_error_In, En. }
        destruct (IH (Some next) val) as [_ O2]; [intros b Eb; injection Eb as <-; exact On|].
        match goal with |- context [replace_nth ?n l ?o] => destruct (replace_nth n l o) as [l'|] eqn:R end; [|split; [discriminate|exact O1]].
        assert (json_ok (JArray l')) as O3 by (constructor; eapply replace_nth_forall; eassumption).
        split; [intros j Ej; injection Ej as <-|]; exact O3.
      * destruct (seg_number s =? Z.of_nat (length l)); [|split; [discriminate|exact O1]].
        destruct (IH None val) as [O2 _]; [discriminate|].
        destruct (fst (add_seg None segs val)) as [next|e]; [|split; [discriminate|exact O1]].
        assert (json_ok (JArray (l ++ [next]))) as O3 by (constructor; apply Forall_app; split; [exact Fl|repeat constructor; apply O2; reflexivity]).
        split; [intros j Ej; injection Ej as <-|]; exact O3.
    + destruct (sm_get kvs (seg_string s)) as [next|] eqn:G.
      * assert (json_ok next) as On.
        { inversion O1; subst. rewrite <- lookup_sm_get in G. eapply lookup_ok; eassumption. }
        destruct (IH (Some next) val) as [_ O2]; [intros b Eb; injection Eb as <-; exact On|].
        pose proof (dict_add_member_ok nid kvs (seg_string s) _ O1 O2) as O3.
        split; [intros j Ej; injection Ej as <-|]; exact O3.
      * destruct (IH None val) as [O2 _]; [discriminate|].
        destruct (fst (add_seg None segs val)) as [next|e]; [|split; [discriminate|exact O1]].
        pose proof (dict_add_member_ok nid kvs (seg_string s) _ O1 (O2 _ eq_refl)) as O3.
        split; [intros j Ej; injection Ej as <-|]; exact O3.
Qed.

Lemma add_seg_dict_shape nid kvs segs val : exists kvs', snd (add_seg (Some (JDict nid kvs)) segs val) = JDict nid kvs'.
Proof.
  destruct segs as [|s segs]; [exists kvs; reflexivity|]. rewrite add_seg_dict. cbv zeta.
  destruct (sm_get kvs (seg_string s)); [eexists; reflexivity|].
  destruct (fst (add_seg None segs val)); eexists; reflexivity.
Qed.

Theorem C25_result_is_dict str j : ParseQueryString str = ROk j -> exists kvs, j = JDict 0 kvs /\ json_ok j.
Proof.
  unfold ParseQueryString. destruct (parse_query str) as [m|]; [|discriminate].
  generalize (sort_segs (map string2segments (map_keys m))) as ks.
  assert (json_ok (JDict 0 [])) as O0 by (constructor; constructor).
  revert O0. generalize (@nil (bytes * json)) as kvs.
  intros kvs O0 ks. revert kvs O0. induction ks as [|s ks IH]; intros kvs O0; cbn [add_all].
  - intros E. injection E as <-. eauto.
  - destruct (add_seg_dict_shape 0 kvs s (values_of m (segments2string s))) as [kvs' Ek].
    destruct (add_seg_ok s (Some (JDict 0 kvs)) (values_of m (segments2string s))) as [_ O1]; [intros b Eb; injection Eb as <-; exact O0|].
    destruct (add_seg (Some (JDict 0 kvs)) s (values_of m (segments2string s))) as [[r|e] d']; [|discriminate].
    simpl in Ek, O1. subst d'. apply IH, O1.
Qed.

(** * C26 *)

Theorem C26_irreflexive a : segs_less a a = false.
Proof. apply segs_less_irrefl. Qed.
Theorem C26_transitive a b c : segs_less a b = true -> segs_less b c = true -> segs_less a c = true.
Proof. apply segs_less_trans. Qed.
Theorem C26_total a b : segs_less a b = true \/ a = b \/ segs_less b a = true.
Proof. apply segs_less_total. Qed.

(** Shorter first; among equally long ones the first differing segment
    decides: numbers before texts, numbers by value, texts bytewise. *)
Definition seg_before (x y : seg) : Prop :=
  match x, y with
  | SNum _, SText _ => True
  | SNum m, SNum n => m < n
  | SText s, SText t => blt s t
  | SText _, SNum _ => False
  end.

Lemma seg_compare_before x y : seg_compare x y = -1 <-> seg_before x y.
Proof.
  destruct x as [m|s], y as [n|t]; simpl; try (split; [discriminate || auto|auto || contradiction]).
  - destruct (Z.ltb_spec m n); [split; auto|]. destruct (n <? m); split; (discriminate || lia).
  - unfold blt. destruct (bcmp s t); split; intros; congruence.
Qed.

Theorem C26_order a b : segs_less a b = true <->
  (length a < length b)%nat \/
  (length a = length b /\ exists p x y a' b', a = p ++ x :: a' /\ b = p ++ y :: b' /\ seg_before x y).
Proof.
  rewrite segs_less_iff. split; (intros [H|[L H]]; [left; exact H|right; split; [exact L|]]).
  - revert b L H. induction a as [|x a IH]; intros [|y b] L H; try discriminate.
    apply less_loop_cons in H as [H|[-> H]].
    + exists [], x, y, a, b. repeat split. apply seg_compare_before, H.
    + destruct (IH b) as (p & x' & y' & a' & b' & -> & -> & B); [now injection L|exact H|].
      exists (y :: p), x', y', a', b'. auto.
  - destruct H as (p & x & y & a' & b' & -> & -> & B). clear L. induction p as [|z p IH]; cbn [app]; apply less_loop_cons.
    + left. apply seg_compare_before, B.
    + right. auto.
Qed.

(** Splitting at the dots and joining again gives the key back exactly when
    no part is an integer in another spelling than FormatInt's. *)
Theorem C26_split_join parts : parts <> [] -> Forall (fun w => ~ In "."%byte w) parts ->
  (segments2string (string2segments (join_with "."%byte parts)) = join_with "."%byte parts
   <-> Forall (fun w => forall n, parse_int w = Some n -> format_int n = w) parts).
Proof.
  intros N F. unfold segments2string, string2segments. rewrite split_join by assumption. rewrite map_map.
  assert (Forall (fun w => ~ In "."%byte w) (map (fun w => seg_string (string2seg w)) parts)) as F2.
  { apply Forall_map. eapply Forall_impl; [|exact F]. intros w D. unfold string2seg.
    destruct (parse_int w); [apply format_int_nodot|exact D]. }
  split.
  - intros E. apply join_inj in E; [|destruct parts; [congruence|discriminate]|exact N|exact F2|exact F].
    apply Forall_forall. intros w I n P.
    assert (forall l, map (fun w => seg_string (string2seg w)) l = l -> In w l -> seg_string (string2seg w) = w) as G.
    { clear. induction l as [|x l IH]; simpl; [tauto|]. intros E I. injection E as E1 E2. destruct I as [<-|I]; auto. }
    pose proof (G parts E I) as E1. unfold string2seg in E1. rewrite P in E1. exact E1.
  - intros H. f_equal. rewrite <- (map_id parts) at 2. apply map_ext_in. intros w I. rewrite Forall_forall in F, H.
    apply plain_seg_ok. split; [apply F, I|apply H, I].
Qed.

(** Every key is the join of its parts, which contain no dot. *)
Theorem C26_split_total s : exists parts, parts <> [] /\ Forall (fun w => ~ In "."%byte w) parts /\ s = join_with "."%byte parts.
Proof.
  exists (split_on "."%byte s). split; [apply split_nonempty|]. split; [apply split_pieces_clean|]. symmetry. apply join_split.
Qed.

Example C26_example :
  sort_segs (map string2segments [B "b.10"; B "b.9"; B "b.x"; B "z"; B "10"; B "9"])
  = map string2segments [B "9"; B "10"; B "z"; B "b.9"; B "b.10"; B "b.x"] /\
  segments2string (string2segments (B "a.007")) = B "a.7".
Proof. split; vm_compute; reflexivity. Qed.

Print Assumptions C24_query_roundtrip.
Print Assumptions C24_query_roundtrip_strings.
Print Assumptions C24_escaping.
Print Assumptions C24_repeated_key.
Print Assumptions C24_mixed_depth_refuted.
Print Assumptions C24_key_zero_refuted.
Print Assumptions C24_empty_container_refuted.
Print Assumptions C24_noncanonical_key.
Print Assumptions C25_map_order.
Print Assumptions C25_only_multimap.
Print Assumptions C25_undecodable.
Print Assumptions C25_result_is_dict.
Print Assumptions C26_irreflexive.
Print Assumptions C26_transitive.
Print Assumptions C26_total.
Print Assumptions C26_order.
Print Assumptions C26_split_join.
Print Assumptions C26_split_total.
