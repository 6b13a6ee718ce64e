(** C54: the language that Parse accepts. *)
From Verif Require Import Base Strconv SpecFloat SpecFloatText FloatSyntax SortedMap SortedMapFacts Utf8 Json SpecJson SpecRFC SpecScalar SpecText SpecLenient
  StrconvFacts ScalarFacts Parser ParserFacts ParserFacts2 Gram RfcFacts TextFacts LenientFacts StreamFacts PropParse.
Open Scope Z_scope.

Lemma suffix_iff s v r : parse_suffix s = POk v r <->
  exists w complete t ids, s = w ++ t ++ r /\ rfc_ws w /\ lval complete t v ids /\ NoDup ids /\ may_follow complete t r.
Proof.
  split.
  - intros H. destruct (skip_empty_split s) as (w & E & W). unfold parse_suffix in H. destruct (skip_empty s) as [|c s1] eqn:S; [discriminate|].
    destruct (parse_value (parse_fuel (c :: s1)) [] (c :: s1)) as [[v' ss] r'|? ?|?|] eqn:P; try discriminate. injection H as <- <-.
    destruct (len_complete (parse_fuel (c :: s1))) as (L & _ & _). destruct (L _ _ _ _ _ P) as (complete & t & ids & Et & Lv & -> & N & F).
    exists w, complete, t, ids. rewrite E, Et. split; [reflexivity|]. split; [apply ws_iff; exact W|]. split; [exact Lv|]. split; [|exact F].
    specialize (N ltac:(constructor)). rewrite app_nil_r in N. apply NoDup_rev in N. rewrite rev_involutive in N. exact N.
  - intros (w & complete & t & ids & -> & W & Lv & N & F). destruct len_parse as (L & _ & _). destruct (L _ _ _ _ Lv) as (n & P).
    destruct (lval_head _ _ _ _ Lv) as (c & t' & -> & Hc & _).
    assert (SK : skip_empty (w ++ (c :: t') ++ r) = (c :: t') ++ r) by (apply skip_ws_head; [apply ws_iff; exact W|exact Hc]).
    eapply (parse_suffix_intro _ n); rewrite SK; [discriminate|]. apply P; [lia| |exact F]. unfold fresh. rewrite app_nil_r. apply NoDup_rev. exact N.
Qed.

(** Parse gives [v], having read [used] bytes, for exactly the texts of the
    grammar. *)
Theorem C54_language s v used : Parse s = SOk v used <-> lenient_text s v used.
Proof.
  rewrite parse_is. unfold lenient_text. split.
  - intros H. destruct (parse_suffix s) as [v' r|? ?|?|] eqn:P; try discriminate. injection H as -> <-. apply suffix_iff in P as (w & c & t & ids & -> & W & L & N & F).
    exists w, c, t, ids, r. repeat (split; [first [reflexivity|assumption]|]). rewrite !app_length. lia.
  - intros (w & c & t & ids & r & E & W & L & N & F & ->).
    assert (P : parse_suffix s = POk v r) by (apply suffix_iff; exists w, c, t, ids; auto). rewrite P. f_equal. rewrite E, !app_length. lia.
Qed.

(** At an offset. *)
Theorem C54_stream x y v used : ParseStream (x ++ y) (length x) = SOk v (length x + used) <-> lenient_text y v used.
Proof.
  rewrite <- C54_language. pose proof (C13_shift x y 0) as H. rewrite Nat.add_0_r in H. rewrite H. fold (Parse y). destruct (Parse y) as [v' o|? ?|?|]; split; intros E; try discriminate E.
  - injection E as -> E. f_equal. lia.
  - injection E as -> ->. reflexivity.
Qed.

(** The grammar gives a text one reading. *)
Theorem C54_unambiguous s v v' n n' : lenient_text s v n -> lenient_text s v' n' -> v = v' /\ n = n'.
Proof. rewrite <- !C54_language. intros -> [= -> ->]. auto. Qed.

(** Any other text is refused: an error or a panic, no value. *)
Theorem C54_refused s : (forall v n, ~ lenient_text s v n) <-> (exists e o, Parse s = SErr e o) \/ (exists p, Parse s = SPanic p).
Proof.
  split.
  - intros H. pose proof (C05_bounds s 0 ltac:(lia)) as T. fold (Parse s) in T. destruct (Parse s) as [v n|e o|p|] eqn:P; [|eauto|eauto|contradiction].
    exfalso. eapply H, C54_language, P.
  - intros H v n L. apply C54_language in L. rewrite L in H. destruct H as [(? & ? & H)|(? & H)]; discriminate.
Qed.

(** Two RFC 8259 consequences: every RFC text is a sentence of the grammar. *)
Corollary C54_contains_rfc s v : rfc_text not_reserved s v -> exists used, lenient_text s v used.
Proof. intros H. destruct (C04_rfc_accepted s v H) as (a & w & _ & _ & P). exists (length a). apply C54_language. exact P. Qed.

(** A sentence from the grammar: { a : [ 1 , ] , : 'x' } gives two members, one
    of them with the empty name. *)
Example C54_by_grammar : lenient_text (B " {a:[1 ,],:'x'}tail") (JDict 0 [([], JString (B "x")); (B "a", JArray [JInt 1])]) 15.
Proof.
  exists (B " "), true, (B "{a:[1 ,],:'x'}"), [], (B "tail"). split; [reflexivity|]. split; [repeat constructor|]. split; [|split; [constructor|]].
  2: { split; [|reflexivity]. split; [discriminate|]. intros c t' [= <- <-] _ N. exfalso. apply N. right. reflexivity. }
  assert (W : rfc_ws []) by constructor.
  apply (lv_dict true (B "a:[1 ,],:'x'}") [(B "a", JArray [JInt 1]); ([], JString (B "x"))] 0 _ []).
  2: { split; [intros v [E|[E|[]]]; discriminate|]. split; [reflexivity|]. split; [repeat constructor|]. split; [|reflexivity].
       intros k Hk. cbn [lookup last_member]. destruct (bseq k []) eqn:E1; [apply bseq_eq in E1; subst k; reflexivity|]. destruct (bseq k (B "a")); reflexivity. }
  apply (ld_more true [] (B "a") (B "a") [] [] (B "[1 ,]") [] _ [] (B ":'x'}") _ []); try assumption.
  - apply nm_word; [repeat constructor; unfold delimiter; cbn; intuition discriminate|]. intros c r [= <- <-] [H|H]; discriminate.
  - apply lv_array. apply (la_more true [] (B "1") (B " ") (JInt 1) [] (B "]") [] []); [exact W| |repeat constructor|apply (la_close []); exact W].
    apply lv_word; [discriminate|repeat constructor; unfold delimiter; cbn; intuition discriminate| |].
    + intros c r [= <- <-]. split; intros [H|H]; discriminate.
    + apply wv_int. apply int64_iff. reflexivity.
  - apply (ld_last [] [] [] [] [] (B "'x'") []); try assumption.
    + apply nm_word; [constructor|discriminate].
    + apply (lv_quoted "'"%byte (B "x") (B "x")); [right; reflexivity|]. apply (lcs_cons "'"%byte (B "x") (B "x") [] []); [|constructor]. apply lc_raw; discriminate.
Qed.

(** More sentences (value, bytes read) and texts that are none. *)
Example C54_sentences :
  lenient_text (B "YES") (JBool true) 3
  /\ lenient_text (B "None ]") JNull 4
  /\ lenient_text (B "[1,") (JArray [JInt 1]) 3
  /\ lenient_text (B "{") (JDict 0 []) 1
  /\ lenient_text (B "'ab\c") (JString (B "abc")) 5
  /\ lenient_text (B "<3>,") (JPtr 3) 3
  /\ lenient_text (B "0x1p-2") (JFloat (FFin false 4503599627370496 (-54)) 0) 6
  /\ lenient_text (B "a'b""{c[d}") (JString (B "a'b""{c[d")) 8
  /\ lenient_text (B "[1]2") (JArray [JInt 1]) 3
  /\ lenient_text (B "{___jnid_:7,a:<7>}") (JDict 7 [(B "a", JPtr 7)]) 18.
Proof. repeat split; apply C54_language; vm_compute; reflexivity. Qed.
Example C54_not_sentences v n :
  ~ lenient_text (B "[1 2]") v n /\ ~ lenient_text (B "[1,2") v n /\ ~ lenient_text (B "[1, ") v n /\ ~ lenient_text (B "{a}") v n
  /\ ~ lenient_text (B "[,]") v n /\ ~ lenient_text (B "<x>") v n /\ ~ lenient_text (B "'\u12'") v n /\ ~ lenient_text (B "'ab\u0041") v n
  /\ ~ lenient_text (B "'ab\") v n /\ ~ lenient_text (B "{___jnid_:x}") v n /\ ~ lenient_text (B "[{___jnid_:1},{___jnid_:1}]") v n.
Proof. repeat split; intros H; apply C54_language in H; vm_compute in H; discriminate. Qed.

Print Assumptions C54_language.
