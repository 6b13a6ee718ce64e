(** C55: which texts Parse refuses, with which error or panic, and where. *)
From Verif Require Import Base Strconv SpecFloat SpecFloatText FloatSyntax SortedMap SortedMapFacts Utf8 Json SpecJson SpecRFC SpecScalar SpecText SpecLenient SpecRefuse
  StrconvFacts ScalarFacts Parser ParserFacts ParserFacts2 Gram RfcFacts TextFacts LenientFacts RefuseFacts StreamFacts PropParse PropLenient.
Open Scope Z_scope.

Lemma suffix_stop s o r : stop (parse_suffix s) o r ->
  (rfc_ws s /\ o = Tells EEmptyString /\ r = []) \/
  exists w t r', s = w ++ t ++ r' /\ rfc_ws w /\ bad_value [] t r' o /\ match o with Tells _ => r' = r | Crashes _ => True end.
Proof.
  unfold parse_suffix. destruct (skip_empty s) as [|c s1] eqn:S.
  - intros H. left. destruct o as [e|p]; cbn in H; [|discriminate]. injection H as <- <-. split; [apply ws_iff, skip_nil_ws, S|auto].
  - intros H. right. apply (stop_pass _ (fun a r0 => let '(v, _) := a in POk v r0)) in H as [H|([v ss] & s2 & _ & H)]; [|destruct (stop_ok _ _ _ _ H)].
    apply skip_empty_cons_split in S as (w & -> & W & Wc). destruct (bad_complete (parse_fuel (c :: s1))) as (B & _ & _).
    destruct (B [] (c :: s1) o r ltac:(constructor) ltac:(eauto) H) as (t & r' & E & Bv & Q). exists w, t, r'. rewrite E. split; [reflexivity|]. split; [apply ws_iff, W|auto].
Qed.
Lemma suffix_bad w t r o : rfc_ws w -> bad_value [] t r o -> stop (parse_suffix (w ++ t ++ r)) o r.
Proof.
  intros W B. apply ws_iff in W. destruct (bad_value_head _ _ _ _ B) as (c & y & E & Hc). destruct bad_parse as (P & _ & _). destruct (P _ _ _ _ B) as (n & HN). cbn [rev] in HN. rewrite E in *.
  unfold parse_suffix. rewrite skip_ws_head by assumption. set (N := Nat.max n (parse_fuel (c :: y))). specialize (HN N ltac:(lia)).
  destruct (parse_good (parse_fuel (c :: y))) as (G & _ & _). specialize (G [] (c :: y) ltac:(discriminate) ltac:(unfold parse_fuel; simpl; lia)).
  destruct (parse_mono (parse_fuel (c :: y)) N ltac:(lia)) as (M2 & _ & _). rewrite M2 in HN by (intros C; rewrite C in G; exact G).
  destruct o; cbn in HN |- *; rewrite HN; reflexivity.
Qed.

(** An error with its position. *)
Theorem C55_errors s e at_ : Parse s = SErr e at_ <-> refused_text s (Tells e) at_.
Proof.
  rewrite parse_is. split.
  - intros H. destruct (parse_suffix s) as [v r|e' r|?|] eqn:P; try discriminate. injection H as -> <-.
    destruct (suffix_stop s (Tells e) r P) as [(W & [= ->] & ->)|(w & t & r' & -> & W & B & ->)].
    + cbn. rewrite Nat.sub_0_r. apply rt_empty, W.
    + rewrite !app_length. replace (_ - _)%nat with (length w + length t)%nat by lia. apply rt_value; assumption.
  - intros H. inversion H as [w W E1 E2 E3|w t r o W B E1 E2 E3]; subst.
    + assert (P : parse_suffix s = PErr EEmptyString []) by (unfold parse_suffix; rewrite skip_empty_all by (apply ws_iff, W); reflexivity). rewrite P. cbn. rewrite Nat.sub_0_r. reflexivity.
    + pose proof (suffix_bad w t r (Tells e) W B) as P. cbn in P. rewrite P. f_equal. rewrite !app_length. lia.
Qed.

(** A panic. *)
Theorem C55_panics s p : Parse s = SPanic p <-> exists at_, refused_text s (Crashes p) at_.
Proof.
  rewrite parse_is. split.
  - intros H. destruct (parse_suffix s) as [v r|e' r|p'|] eqn:P; try discriminate. injection H as ->.
    destruct (suffix_stop s (Crashes p) [] P) as [(_ & [=] & _)|(w & t & r' & -> & W & B & _)]. eexists. apply rt_value; eassumption.
  - intros (at_ & H). inversion H as [|w t r o W B E1 E2 E3]; subst.
    pose proof (suffix_bad w t r (Crashes p) W B) as P. cbn in P. rewrite P. reflexivity.
Qed.

(** Each text is accepted, or refused with an error, or makes Parse panic. *)
Theorem C55_every_text s : (exists v n, lenient_text s v n) \/ (exists o n, refused_text s o n).
Proof.
  pose proof (C05_bounds s 0 ltac:(lia)) as T. fold (Parse s) in T. destruct (Parse s) as [v n|e n|p|] eqn:P; [| | |contradiction].
  - left. exists v, n. apply C54_language, P.
  - right. exists (Tells e), n. apply C55_errors, P.
  - right. apply C55_panics in P as (n & P). eauto.
Qed.
Theorem C55_not_both s v n o m : lenient_text s v n -> refused_text s o m -> False.
Proof.
  intros L R. apply C54_language in L. destruct o as [e|p].
  - apply C55_errors in R. congruence.
  - assert (P : Parse s = SPanic p) by (apply C55_panics; eauto). congruence.
Qed.
Theorem C55_one_reason s o o' n n' : refused_text s o n -> refused_text s o' n' -> o = o' /\ (forall e, o = Tells e -> n = n').
Proof.
  intros R R'. destruct o as [e|p], o' as [e'|p'].
  - apply C55_errors in R, R'. rewrite R in R'. injection R' as -> ->. auto.
  - apply C55_errors in R. assert (P : Parse s = SPanic p') by (apply C55_panics; eauto). congruence.
  - apply C55_errors in R'. assert (P : Parse s = SPanic p) by (apply C55_panics; eauto). congruence.
  - assert (P : Parse s = SPanic p) by (apply C55_panics; eauto). assert (P' : Parse s = SPanic p') by (apply C55_panics; eauto). rewrite P in P'. injection P' as ->. split; [reflexivity|discriminate].
Qed.

(** Behind a prefix. *)
Theorem C55_stream x y e at_ : ParseStream (x ++ y) (length x) = SErr e (length x + at_) <-> refused_text y (Tells e) at_.
Proof.
  rewrite <- C55_errors. pose proof (C13_shift x y 0) as H. rewrite Nat.add_0_r in H. rewrite H. fold (Parse y). destruct (Parse y) as [v' o|? ?|?|]; split; intros E; try discriminate E.
  - injection E as -> E. f_equal. lia.
  - injection E as -> ->. reflexivity.
Qed.
Theorem C55_stream_panics x y p : ParseStream (x ++ y) (length x) = SPanic p <-> exists at_, refused_text y (Crashes p) at_.
Proof.
  rewrite <- C55_panics. pose proof (C13_shift x y 0) as H. rewrite Nat.add_0_r in H. rewrite H. fold (Parse y). destruct (Parse y) as [v' o|? ?|?|]; split; intros E; try discriminate E; congruence.
Qed.

(** ** When there is an error of each kind, or a panic, at a glance *)

(** Only texts of white space are empty. *)
Corollary C55_empty s n : Parse s = SErr EEmptyString n <-> rfc_ws s /\ n = length s.
Proof.
  rewrite C55_errors. split; [|intros [W ->]; apply rt_empty, W]. intros H. inversion H as [w W E1 E2 E3|w t r o W B E1 E2 E3]; subst; [auto|]. exfalso.
  assert (X : (forall ids t rest o, bad_value ids t rest o -> o <> Tells EEmptyString) /\ (forall ids t rest o, bad_array ids t rest o -> o <> Tells EEmptyString) /\ (forall ids t rest o, bad_dict ids t rest o -> o <> Tells EEmptyString)).
  { apply bad_ind; intros; try discriminate; try assumption.
    - match goal with H : bad_string _ _ _ _ |- _ => clear -H; intros [= ->]; remember EEmptyString as e0 eqn:E in H; induction H; try discriminate E; auto end.
    - match goal with H : bad_string _ _ _ _ |- _ => clear -H; intros [= ->]; remember EEmptyString as e0 eqn:E in H; induction H; try discriminate E; auto end. }
  destruct X as (X & _ & _). eapply X; [exact B|reflexivity].
Qed.

(** Truncation is noticed at the end of the input. *)
Corollary C55_truncated s n : Parse s = SErr ETruncated n -> n = length s.
Proof.
  rewrite C55_errors. intros H. inversion H as [|w t r o W B E1 E2 E3]; subst.
  assert (X : (forall ids t rest o, bad_value ids t rest o -> o = Tells ETruncated -> rest = []) /\ (forall ids t rest o, bad_array ids t rest o -> o = Tells ETruncated -> rest = []) /\ (forall ids t rest o, bad_dict ids t rest o -> o = Tells ETruncated -> rest = [])).
  { apply bad_ind; intros; try discriminate; try reflexivity; auto.
    - exfalso. match goal with H : bad_string _ _ _ _, E : _ = _ |- _ => clear -H E; injection E as ->; remember ETruncated as e0 eqn:E in H; induction H; try discriminate E; auto end.
    - exfalso. match goal with H : bad_string _ _ _ _, E : _ = _ |- _ => clear -H E; injection E as ->; remember ETruncated as e0 eqn:E in H; induction H; try discriminate E; auto end. }
  destruct X as (X & _ & _). rewrite (X _ _ _ _ B eq_refl), !app_length. cbn. lia.
Qed.

(** ** Concrete texts *)

(** By the grammar: a missing comma. *)
Example C55_by_grammar : refused_text (B " [1 2]") (Tells EUnexpectedChar) 4.
Proof.
  apply (rt_value (B " ") (B "[1 ") (B "2]")); [repeat constructor|]. apply bv_array.
  apply (ba_char [] [] (B "1") (B " ") (JInt 1) [] "2"%byte (B "]")); try discriminate.
  - constructor.
  - apply lv_word; [discriminate|repeat constructor; unfold delimiter; cbn; intuition discriminate| |].
    + intros c r [= <- <-]. split; intros [H|H]; discriminate.
    + apply wv_int. apply int64_iff. reflexivity.
  - repeat constructor.
  - constructor.
  - split; [discriminate|]. intros c t' [= <- <-] _ _ d r [= <- <-]. left. reflexivity.
  - unfold blank. cbn. intuition discriminate.
Qed.
Example C55_texts :
  refused_text (B "  ") (Tells EEmptyString) 2
  /\ refused_text (B "[1,2") (Tells ETruncated) 4
  /\ refused_text (B "[1, ") (Tells ETruncated) 4
  /\ refused_text (B "{a}") (Tells EColonNotFound) 2
  /\ refused_text (B "{a:1 b:2}") (Tells EUnexpectedChar) 5
  /\ refused_text (B "{a:") (Tells ETruncated) 3
  /\ refused_text (B "{'a") (Tells ETruncated) 3
  /\ refused_text (B "[<x>]") (Tells EBadNodeId) 4
  /\ refused_text (B "'\u12'") (Tells EIncompleteUnicode) 3
  /\ refused_text (B "'\u12g4'") (Tells EBadUnicode) 3
  /\ refused_text (B "'a\u0041") (Tells EIncompleteUnicode) 4
  /\ refused_text (B "'\x1'") (Tells EIncompleteHex) 3
  /\ refused_text (B "'\x1g'") (Tells EBadHex) 3
  /\ refused_text (B "{'ab\") (Tells EIncompleteEscape) 4.
Proof. repeat split; apply C55_errors; vm_compute; reflexivity. Qed.
Example C55_crashing_texts :
  (exists n, refused_text (B "[,]") (Crashes PIndexOutOfRange) n)
  /\ (exists n, refused_text (B "{a:}") (Crashes PIndexOutOfRange) n)
  /\ (exists n, refused_text (B "]") (Crashes PIndexOutOfRange) n)
  /\ (exists n, refused_text (B "{___jnid_:x}") (Crashes PTypeAssertion) n)
  /\ (exists n, refused_text (B "[{___jnid_:1},{___jnid_:1}]") (Crashes PDuplicateNode) n).
Proof. repeat split; apply C55_panics; vm_compute; reflexivity. Qed.

Print Assumptions C55_errors.
Print Assumptions C55_panics.
