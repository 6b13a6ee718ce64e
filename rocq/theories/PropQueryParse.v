(** Property C63: what ParseQueryString makes of any query string; and C24: how
    bytes are escaped. *)
From Coq Require Import Lia Sorting.Permutation Sorting.Sorted.
From Verif Require Import Base Strconv StrconvFacts SortedMap SortedMapFacts Json SpecJson Printer Access Query SpecQuery QueryFacts QueryFacts2 QueryFacts3 ShareFacts RfcFacts AccessFacts SpecDict PropDict PropQuery SpecQueryParse QueryParseFacts.

(** The escaped text of every byte. *)
Theorem C24_escaped_bytes : forall s, query_escape s = flat_map escaped s.
Proof. exact escape_text. Qed.

(** ** Which texts are accepted, and what they mean *)

(** A text has at most one meaning, and ParseQueryString reports a syntax error
    for just those that have none. *)
Theorem C63_one_meaning : forall s m m', query_means s m -> query_means s m' -> m = m'.
Proof. intros s m m' H H'. apply query_iff in H, H'. congruence. Qed.
Theorem C63_syntax_error : forall s, ParseQueryString s = RErr ErrQuerySyntax <-> forall m, ~ query_means s m.
Proof.
  intros s. unfold ParseQueryString. split.
  - intros E m H. apply query_iff in H. rewrite H in E. destruct (add_all_error m (segs_of m) 0 [] (segs_nonempty m)) as (_ & A & _). apply A in E. discriminate E.
  - intros N. destruct (parse_query s) as [m|] eqn:E; [|reflexivity]. destruct (N m). apply query_iff, E.
Qed.

Lemma canonical_key k k' : path_of k' (map as_number (split_on "."%byte k)) <-> k' = segments2string (string2segments k).
Proof.
  rewrite path_split. unfold segments2string. rewrite segments_text. split.
  - intros <-. symmetry. apply join_split.
  - intros ->. apply split_join; [intros X; apply map_eq_nil in X; eapply split_nonempty, X|]. apply Forall_map. eapply Forall_impl; [|apply split_pieces_clean]. intros w N. rewrite <- seg_text. apply seg_string_nodot, seg_of_ok, N.
Qed.
Lemma first_key k : first_of (string2segments k) = as_number (List.hd [] (split_on "."%byte k)).
Proof. unfold string2segments. pose proof (split_nonempty "."%byte k). destruct (split_on "."%byte k) as [|w p]; [congruence|]. cbn. apply seg_text. Qed.

(** It fails otherwise only because of a key with an integer in an unusual
    spelling, whose usual spelling is not given, and which is the first to be
    entered (C26) of the keys with the same first part. *)
Theorem C63_fails_iff : forall s m, query_means s m ->
  (exists e, ParseQueryString s = RErr e) <->
  exists k p, In k (map fst m) /\ path_of k p /\ (forall k', path_of k' (map as_number p) -> ~ In k' (map fst m)) /\
    (forall k' p', In k' (map fst m) -> path_of k' p' -> as_number (List.hd [] p') = as_number (List.hd [] p) ->
       segs_less (string2segments k') (string2segments k) = false).
Proof.
  intros s m H. apply query_iff in H. rewrite (parse_error s m H). split.
  - intros (k & I & N & F). exists k, (split_on "."%byte k). split; [exact I|]. split; [apply path_split; reflexivity|]. split.
    + intros k' P. apply canonical_key in P. subst k'. exact N.
    + intros k' p' I' P E. apply path_split in P. subst p'. apply F; [exact I'|]. rewrite !first_key. exact E.
  - intros (k & p & I & P & N & F). apply path_split in P. subst p. exists k. split; [exact I|]. split; [apply N, canonical_key; reflexivity|].
    intros k' I' E. rewrite !first_key in E. eapply F; [exact I'|apply path_split; reflexivity|exact E].
Qed.
Theorem C63_error_kind : forall s m e, query_means s m -> ParseQueryString s = RErr e -> e = ErrNilInputField.
Proof.
  intros s m e H E. apply query_iff in H. unfold ParseQueryString in E. rewrite H in E. fold (segs_of m) in E. destruct (add_all_error m (segs_of m) 0 [] (segs_nonempty m)) as (_ & A & _). apply A, E.
Qed.
Theorem C63_succeeds : forall s m, query_means s m -> (forall k p w, In k (map fst m) -> path_of k p -> In w p -> as_number w = w) ->
  exists j, ParseQueryString s = ROk j.
Proof.
  intros s m H C. destruct (ParseQueryString s) as [j|e] eqn:E; [eauto|]. exfalso. destruct (proj1 (C63_fails_iff s m H)) as (k & p & I & P & N & _); [eauto|].
  apply (N k); [|exact I]. replace (map as_number p) with p; [exact P|]. rewrite <- (map_id p) at 1. apply map_ext_in. intros w Iw. symmetry. eapply C; eassumption.
Qed.

(** ** What is in the result *)

(** Every string in it was given as a value; there is nothing but strings,
    arrays and dicts. *)
Theorem C63_from_query : forall s m j x, query_means s m -> ParseQueryString s = ROk j -> subvalue x j ->
  match x with
  | JString t => exists k, In (k, t) m
  | JArray _ => True
  | JDict nid _ => nid = 0
  | _ => False
  end.
Proof.
  intros s m j x H E S. apply query_iff in H. unfold ParseQueryString in E. rewrite H in E. apply add_all_made in E; [|constructor; constructor]. apply (made_sub _ _ _ E) in S. destruct S; eauto.
Qed.

(** A key without dots is found with the value given for it, whatever else the
    query contains; if it is given several times, with the array of its values,
    which can only be continued. *)
Theorem C63_top_level : forall s m j k vs, query_means s m -> ParseQueryString s = ROk j ->
  ~ In "."%byte k -> as_number k = k -> values_given k m vs -> vs <> [] ->
  match vs with
  | [v] => Get j [k] = ROk (JString v)
  | _ => exists more, Get j [k] = ROk (JArray (map JString vs ++ more))
  end.
Proof.
  intros s m j k vs H E D C V N. apply query_iff in H. apply given_iff in V. unfold ParseQueryString in E. rewrite H in E. fold (segs_of m) in E.
  assert (Ss : string2segments k = [string2seg k]) by (unfold string2segments; rewrite split_clean by exact D; reflexivity).
  assert (Es : seg_string (string2seg k) = k) by (rewrite seg_text; exact C).
  destruct (add_all_keeps m (string2seg k) vs N (segs_of m) 0 [] j) as (nid & kvs & y & -> & G & K).
  - apply Forall_forall. intros x I. apply in_segs in I as (k' & _ & ->). apply segments_ok.
  - apply sort_sorted.
  - apply seg_of_ok, D.
  - apply segs_nonempty.
  - unfold segments2string. cbn [map join_with]. rewrite Es. exact V.
  - right. split; [reflexivity|]. apply in_segs. exists k. split; [|symmetry; exact Ss]. destruct vs as [|v vs]; [congruence|]. destruct (proj2 (values_in m k)) as [w I]; [rewrite V; discriminate|]. apply (in_map fst) in I. exact I.
  - exact E.
  - rewrite Es in G. unfold Get. cbn [get_loop]. unfold keeps in K. destruct vs as [|v [|v' vs]]; [congruence|subst y|destruct K as [more ->]; exists more]; cbn; rewrite G; reflexivity.
Qed.

(** Queries that make nested dicts: every key that is not hidden by a key for a
    part of its path is found with its values; nothing else is there. *)
Theorem C63_dicts : forall s m, query_means s m -> dict_query m ->
  exists kvs, ParseQueryString s = ROk (JDict 0 kvs) /\ json_ok (JDict 0 kvs) /\
  (forall p v, p <> [] -> (forall nid sub, v <> JDict nid sub) ->
     (Get (JDict 0 kvs) p = ROk v <-> exists k vs, path_of k p /\ values_given k m vs /\ vs <> [] /\ not_hidden m p /\ v = given_value vs)) /\
  (forall p, p <> [] ->
     ((exists nid sub, Get (JDict 0 kvs) p = ROk (JDict nid sub)) <-> exists k r, r <> [] /\ In k (map fst m) /\ path_of k (p ++ r) /\ not_hidden m (p ++ r))).
Proof.
  intros s m H (DC & DZ & DA). apply query_iff in H.
  assert (CK : forall k, In k (map fst m) -> map seg_string (string2segments k) = split_on "."%byte k).
  { intros k I. rewrite segments_text. rewrite <- (map_id (split_on "."%byte k)) at 2. apply map_ext_in. intros w Iw. eapply DC; [exact I|apply path_split; reflexivity|exact Iw]. }
  assert (CV : forall k, In k (map fst m) -> val_of m (string2segments k) = values_of m k).
  { intros k I. unfold val_of, segments2string. rewrite CK by exact I. rewrite join_split. reflexivity. }
  assert (HN : forall k, In k (map fst m) -> (~ hidden (segs_of m) (string2segments k) <-> not_hidden m (split_on "."%byte k))).
  { intros k I. split.
    - intros N k' q r I' P E. apply path_split in P. subst q. destruct r as [|w r]; [reflexivity|exfalso]. apply N. exists (string2segments k'). split; [apply in_segs; eauto|]. exists (map string2seg (w :: r)). split; [discriminate|].
      unfold string2segments. rewrite E, map_app. reflexivity.
    - intros N (y & Iy & z & Nz & E). apply in_segs in Iy as (k' & I' & ->). apply Nz. assert (X : map seg_string z = []).
      { apply (N k' (split_on "."%byte k') _ I'); [apply path_split; reflexivity|]. rewrite <- (CK k I), <- (CK k' I'), E, map_app. reflexivity. }
      apply map_eq_nil in X. exact X. }
  destruct (dict_loop m (segs_of m) [] []) as (kvs & E & O & A1 & A2).
  - split; [constructor; [constructor|constructor|reflexivity]|]. split; [|intros x []]. intros [|k p] v Np A; [congruence|]. inversion A; subst. discriminate.
  - cbn [app]. eapply Permutation_NoDup; [apply Permutation_sym, sort_perm|]. apply map_nodup_inj; [|apply dedup_is_nodup].
    intros k k' I I' X. assert (In k (map fst m) /\ In k' (map fst m)) as [J J'] by (split; [exact (proj1 (dedup_in _ _) I)|exact (proj1 (dedup_in _ _) I')]).
    apply (f_equal (map seg_string)) in X. rewrite CK, CK in X by assumption. rewrite <- (join_split "."%byte k), <- (join_split "."%byte k'), X. reflexivity.
  - apply sort_sorted.
  - cbn [app]. apply Forall_forall. intros x I. apply in_segs in I as (k' & _ & ->). apply segments_ok.
  - cbn [app]. intros y I. apply in_segs in I as (k & I & ->). split; [apply segments_nonempty|]. split; [rewrite CV by exact I; intros X; apply values_none in X; contradiction|].
    pose proof (DZ k (split_on "."%byte k) I (proj2 (path_split _ _) eq_refl)) as Z. unfold string2segments. destruct (split_on "."%byte k) as [|w p] eqn:Ep; [constructor|]. cbn [map tl] in *. apply Forall_map, Forall_forall. intros w' Iw X.
    apply Z. assert (as_number w' = w') by (eapply DC; [exact I|apply path_split, Ep|right; exact Iw]). rewrite <- seg_text, X in H0. cbn in H0. change (B "0") with ["0"%byte]. unfold format_int in H0. cbn in H0. rewrite H0. exact Iw.
  - cbn [app]. intros y x v v' vs t z Iy Ix V X. apply in_segs in Iy as (k & I & ->). apply in_segs in Ix as (k' & I' & ->). rewrite CV in V by exact I.
    pose proof (DA k k' v v' vs (split_on "."%byte k) (seg_string t) (map seg_string z) (proj2 (given_iff _ _ _) V) I' (proj2 (path_split _ _) eq_refl)) as D.
    assert (Ot : seg_ok t). { pose proof (segments_ok k') as F. rewrite X in F. apply Forall_app in F as [_ F]. inversion F; assumption. }
    destruct t as [n|t]; [|eauto]. exfalso. assert (Dn : parse_int (seg_string (SNum n)) = None).
    { apply D. apply path_split. rewrite <- (CK k' I'), X, map_app, (CK k I). reflexivity. }
    cbn [seg_string] in Dn. rewrite parse_int_format in Dn by exact Ot. discriminate Dn.
  - cbn [app] in A1, A2. exists kvs. unfold ParseQueryString. rewrite H. fold (segs_of m). split; [exact E|]. split; [exact O|]. split.
    + intros p v Np Nd. rewrite C17_get_is_path. split.
      * intros A. destruct (A1 p v Np A) as [(x & Ix & Ex & Hx & ->)|((n & sub & ->) & _)]; [|destruct (Nd n sub eq_refl)]. apply in_segs in Ix as (k & I & ->). rewrite CK in Ex by exact I.
        exists k, (values_of m k). split; [apply path_split, Ex|]. split; [apply given_iff; reflexivity|]. split; [intros X; apply values_none in X; contradiction|]. split; [rewrite <- Ex; apply HN; assumption|]. unfold f_of. rewrite CV by exact I. reflexivity.
      * intros (k & vs & P & V & Nv & Nh & ->). apply path_split in P. apply given_iff in V. assert (I : In k (map fst m)). { destruct (proj2 (values_in m k)) as [w I]; [rewrite V; exact Nv|]. apply (in_map fst) in I. exact I. }
        pose proof (A2 (string2segments k)) as A. unfold f_of in A. rewrite (CK k I), (CV k I), P, V in A. apply A; [apply in_segs; eauto|]. apply HN; [exact I|]. rewrite P. exact Nh.
    + intros p Np. split.
      * intros (n & sub & A). apply C17_get_is_path in A. destruct (A1 p _ Np A) as [(x & Ix & Ex & Hx & X)|(_ & x & z & Nz & Ix & Hx & Ex)].
        { exfalso. unfold f_of, given_value in X. destruct (val_of m x) as [|? [|? ?]]; discriminate X. }
        apply in_segs in Ix as (k & I & ->). rewrite CK in Ex by exact I. exists k, z. split; [exact Nz|]. split; [exact I|]. split; [apply path_split, Ex|]. rewrite <- Ex. apply HN; assumption.
      * intros (k & r & Nr & I & P & Nh). apply path_split in P. pose proof (A2 (string2segments k)) as A. rewrite (CK k I), P in A. specialize (A (proj2 (in_segs _ _) (ex_intro _ k (conj I eq_refl)))).
        assert (Hk : ~ hidden (segs_of m) (string2segments k)) by (apply HN; [exact I|rewrite P; exact Nh]). specialize (A Hk). apply at_path_app in A as (x & Ax & Ay). destruct r as [|w r]; [congruence|]. inversion Ay as [|n sub ? ? ? ? _ _]; subst. exists n, sub. apply C17_get_is_path. exact Ax.
Qed.

(** ** The hypotheses are met *)

Definition ex_query : bytes := B "a.b=1&a.b=2&a.b.c=lost&d=%2Fx+y&a.c.7=z&&e".
Definition ex_meaning : list (bytes * bytes) :=
  [(B "a.b", B "1"); (B "a.b", B "2"); (B "a.b.c", B "lost"); (B "d", B "/x y"); (B "a.c.7", B "z"); (B "e", [])].
Example C63_example : query_means ex_query ex_meaning /\ dict_query ex_meaning /\
  ParseQueryString ex_query = ROk (JDict 0 [(B "a", JDict 0 [(B "b", JArray [JString (B "1"); JString (B "2")]); (B "c", JDict 0 [(B "7", JString (B "z"))])]);
    (B "d", JString (B "/x y")); (B "e", JString [])]) /\
  not_hidden ex_meaning [B "a"; B "b"] /\ ~ not_hidden ex_meaning [B "a"; B "b"; B "c"].
Proof.
  assert (K : forall k p, In k (map fst ex_meaning) -> path_of k p -> In p [[B "a"; B "b"]; [B "a"; B "b"; B "c"]; [B "d"]; [B "a"; B "c"; B "7"]; [B "e"]] /\ k = join_with "."%byte p).
  { intros k p I P. apply path_split in P. subst p. split; [|symmetry; apply join_split]. cbn [In map fst ex_meaning] in I. repeat (destruct I as [<-|I]; [vm_compute; tauto|]). destruct I. }
  split; [apply query_iff; reflexivity|]. split; [|split; [vm_compute; reflexivity|split]].
  - split; [|split].
    + intros k p w I P Iw. destruct (K k p I P) as [J _]. cbn [In] in J. repeat (destruct J as [<-|J]; [cbn [In] in Iw; repeat (destruct Iw as [<-|Iw]; [reflexivity|]); destruct Iw|]). destruct J.
    + intros k p I P. destruct (K k p I P) as [J _]. cbn [In] in J. repeat (destruct J as [<-|J]; [cbn [tl In]; intuition discriminate|]). destruct J.
    + intros k k' v v' vs p w r V I P P'. apply given_iff in V. destruct (K k' _ I P') as [J _].
      assert (I0 : In k (map fst ex_meaning)). { destruct (proj2 (values_in ex_meaning k)) as [x Ix]; [rewrite V; discriminate|]. apply (in_map fst) in Ix. exact Ix. }
      destruct (K k p I0 P) as [Jp Ek]. cbn [In] in Jp. destruct Jp as [<-|[<-|[<-|[<-|[<-|[]]]]]]; subst k; try (vm_compute in V; discriminate V).
      cbn [In app] in J. destruct J as [J|[J|[J|[J|[J|[]]]]]]; try discriminate J. injection J as <- _. reflexivity.
  - intros k q r I P E. destruct (K k q I P) as [J _]. cbn [In] in J. destruct J as [<-|[<-|[<-|[<-|[<-|[]]]]]]; try discriminate E. cbn in E. injection E as E. symmetry. exact E.
  - intros N. discriminate (N (B "a.b") [B "a"; B "b"] [B "c"]); [left; reflexivity|apply path_split; reflexivity|reflexivity].
Qed.
Example C63_top_level_example : exists m j,
  query_means (B "a=1&a=2&a.2=3&01.x=v&1.y=w") m /\ ParseQueryString (B "a=1&a=2&a.2=3&01.x=v&1.y=w") = j /\ j = RErr ErrNilInputField /\
  ParseQueryString (B "a=1&a=2&a.2=3&1.y=w") = ROk (JDict 0 [(B "1", JDict 0 [(B "y", JString (B "w"))]); (B "a", JArray [JString (B "1"); JString (B "2"); JString (B "3")])]).
Proof. eexists. eexists. split; [apply query_iff; reflexivity|]. split; [reflexivity|]. split; vm_compute; reflexivity. Qed.
