(** Properties of the parser: C04, C05, C06, C07, C10, C11, C12, C13. *)
From Coq Require Import QArith Qpower Sorting.Sorted.
From Verif Require Import Base Strconv SpecFloat StrconvFacts RoundFacts FloatText RoundUnique SortedMap SortedMapFacts
  Json SpecJson SpecRFC SpecText SpecPrint Printer Parser ParserFacts ParserFacts2 Gram RfcFacts PrintFacts PrintFacts2
  TextFacts TruncFacts StreamFacts ParseInv PropRoundtrip.
Open Scope Z_scope.

Lemma parse_is s : Parse s = match parse_suffix s with
                             | POk v r => SOk v (length s - length r)
                             | PErr e r => SErr e (length s - length r)
                             | PPanic p => SPanic p
                             | PFuel => SFuel
                             end.
Proof. reflexivity. Qed.

Lemma parse_suffix_quoted q s : q = """"%byte \/ q = "'"%byte ->
  parse_suffix (q :: s) = match parse_quoted q [] s with
    | POk t r => POk (JString t) r | PErr e r => PErr e r | PPanic p => PPanic p | PFuel => PFuel end.
Proof.
  intros Hq. unfold parse_suffix.
  assert (skip_empty (q :: s) = q :: s) as -> by (destruct Hq; subst q; reflexivity).
  unfold parse_fuel. cbn [length].
  replace (2 * S (length s) + 2)%nat with (S (2 * length s + 3)) by lia.
  cbn [parse_value].
  assert (beq q "["%byte = false /\ beq q "{"%byte = false /\ (beq q """"%byte || beq q "'"%byte = true)) as (-> & -> & E)
    by (destruct Hq; subst q; auto).
  unfold parse_scalar. cbn [parse_string]. rewrite E.
  destruct (parse_quoted q [] s) as [[|? ?] ?|? ?|?|]; reflexivity.
Qed.

(** ** C04: every RFC 8259 text *)

Theorem C04_rfc_accepted s v : rfc_text not_reserved s v ->
  exists a w, s = a ++ w /\ rfc_ws w /\ Parse s = SOk v (length a).
Proof.
  intros H. destruct (rfc_text_parse s v H) as (r & P & W).
  pose proof (parse_suffix_good s) as G. rewrite P in G. destruct G as (a & _ & E).
  exists a, r. split; [exact E|]. split; [apply wsp_rfc; exact W|].
  rewrite parse_is, P. f_equal. rewrite E, app_length. lia.
Qed.

(** So the text determines the value. *)
Theorem C04_rfc_unambiguous s v w : rfc_text not_reserved s v -> rfc_text not_reserved s w -> v = w.
Proof.
  intros H1 H2. destruct (C04_rfc_accepted _ _ H1) as (a & b & _ & _ & P1).
  destruct (C04_rfc_accepted _ _ H2) as (a' & b' & _ & _ & P2). rewrite P1 in P2. congruence.
Qed.

(** Hypothesis met by a text with white space, an escape and a float:
    see c04_text. *)
Definition c04_text : bytes :=
  B " [ 12 ," ++ [x09; """"%byte] ++ B "A\u00e9" ++ [""""%byte] ++ B ",-2.5e1 ] " ++ [x0a].
Example C04_sample : rfc_text not_reserved c04_text
  (JArray [JInt 12; JString [x41; xc3; xa9]; JFloat (FFin true 7036874417766400 (-48)) 0]).
Proof.
  assert (forall c, In c [" "%byte; x09; x0a] -> rfc_ws [c]) as W.
  { intros c Hc. constructor; [|constructor]. simpl in Hc. intuition (subst; auto). }
  change c04_text with ([" "%byte] ++ (["["%byte] ++ (([" "%byte] ++ B "12" ++ [" "%byte] ++ [","%byte]
     ++ ([x09] ++ ([""""%byte] ++ (B "A" ++ B "\u00e9" ++ []) ++ [""""%byte]) ++ [] ++ [","%byte]
     ++ ([] ++ B "-2.5e1" ++ [" "%byte]))) ++ ["]"%byte])) ++ [" "%byte; x0a]).
  constructor; [apply W; simpl; auto | | constructor; [auto | apply W; simpl; auto]].
  apply rv_array. apply el_more; [apply W; simpl; auto | | apply W; simpl; auto | apply el_more].
  - apply (rv_number _ _ false 12 0 true).
    + exact (rn_int false (B "12") ltac:(split; [split; [discriminate | repeat constructor; vm_compute; discriminate] | right; discriminate])).
    + apply (nv_int false 12). split; [discriminate | reflexivity].
  - apply W; simpl; auto.
  - apply rv_string. constructor. apply (rcs_cons (B "A") (B "A")).
    + apply rc_raw; vm_compute; discriminate.
    + apply (rcs_cons _ [xc3; xa9]); [|constructor].
      apply (rc_u _ _ _ _ 0 0 14 9); [left | left | right; right | left | ]; try (split; [vm_compute; split; discriminate | reflexivity]).
      apply (utf8_2 _ _ _ 3 41); vm_compute; split || reflexivity; try discriminate; reflexivity.
  - constructor.
  - apply el_one; [constructor | | apply W; simpl; auto].
    apply (rv_number _ _ true 25 0 false).
    + exact (rn_frac_exp true (B "2") (B "5") (B "e1") 1
      ltac:(split; [split; [discriminate | repeat constructor; vm_compute; discriminate] | right; discriminate])
      ltac:(split; [discriminate | repeat constructor; vm_compute; discriminate])
      (re "e"%byte [] (B "1") ltac:(auto)
         ltac:(split; [discriminate | repeat constructor; vm_compute; discriminate]) eq_refl ltac:(auto))).
    + apply nv_float; [reflexivity | discriminate | |].
      * apply round_dec_nearest; [exact F64_valid | reflexivity | reflexivity].
      * intros X. apply (proj2 (round_dec_overflow F64 25 0 F64_valid eq_refl)) in X. discriminate.
Qed.

(** Outside the hypotheses: a number beyond float64 becomes a string, and a
    surrogate pair is not combined. *)
Theorem C04_overflow_refuted : Parse (B "1e999") = SOk (JString (B "1e999")) 5.
Proof. vm_compute. reflexivity. Qed.
Theorem C04_surrogate_refuted :
  Parse ([""""%byte] ++ B "\ud83d\ude00" ++ [""""%byte]) = SOk (JString [xef; xbf; xbd; xef; xbf; xbd]) 14.
Proof. vm_compute. reflexivity. Qed.

(** ** C05: termination and bounds *)

(** SFuel would be non-termination: it does not occur. *)
Theorem C05_bounds str off : (off <= length str)%nat ->
  match ParseStream str off with
  | SOk _ o => (off < o <= length str)%nat
  | SErr _ o => (off <= o <= length str)%nat
  | SPanic _ => True
  | SFuel => False
  end.
Proof. apply stream_bounds. Qed.

(** An offset behind the end: "Empty string", at that offset. *)
Theorem C05_behind_end str off : (length str <= off)%nat -> ParseStream str off = SErr EEmptyString off.
Proof.
  intros H. unfold ParseStream. rewrite skipn_all2 by exact H. cbn. f_equal. lia.
Qed.

Example C05_sample : ParseStream (B "x [1] y") 1 = SOk (JArray [JInt 1]) 5.
Proof. vm_compute. reflexivity. Qed.

(** ** C06: panics on malformed input *)

Theorem C06_panic_refuted :
  Parse (B "[,]") = SPanic PIndexOutOfRange
  /\ Parse ["{"; """"; "a"; """"; ":"; "}"]%byte = SPanic PIndexOutOfRange
  /\ Parse (B "}") = SPanic PIndexOutOfRange
  /\ Parse (B "{'___jnid_':true}") = SPanic PTypeAssertion
  /\ Parse (B "[{'___jnid_':1},{'___jnid_':1}]") = SPanic PDuplicateNode.
Proof. repeat split; vm_compute; reflexivity. Qed.

(** No other way to panic: some value slot is empty, or the reserved member
    name is (or, with an escape, may be) spelled in the text. *)
Theorem C06_no_panic s : ~ empty_slot s -> ~ may_spell_reserved s -> forall p, Parse s <> SPanic p.
Proof.
  intros H1 H2 p. pose proof (parse_suffix_no_panic s H1 H2) as H. rewrite parse_is.
  destruct (parse_suffix s); simpl in H; try discriminate. destruct H.
Qed.

Theorem C06_no_panic_stream s off : ~ empty_slot (skipn off s) -> ~ may_spell_reserved (skipn off s) ->
  forall p, ParseStream s off <> SPanic p.
Proof.
  intros H1 H2 p. pose proof (parse_suffix_no_panic _ H1 H2) as H. unfold ParseStream.
  destruct (parse_suffix _); simpl in H; try discriminate. destruct H.
Qed.

(** A malformed text that meets the hypotheses: it is rejected, not a panic. *)
Example C06_sample : ~ empty_slot (B "[1 2") /\ ~ may_spell_reserved (B "[1 2") /\ Parse (B "[1 2") = SErr EUnexpectedChar 3.
Proof.
  split; [|split; [|vm_compute; reflexivity]].
  - intros H. inversion H as [w c r Hw Hc E|a b w c r Hb Hw Hc E|a w c r Hw Hc E].
    + destruct w as [|x w]; simpl in E; injection E as -> E.
      * simpl in Hc. intuition discriminate.
      * inversion Hw as [|? ? Hx _]. destruct Hx as [X|[X|[X|X]]]; discriminate X.
    + assert (In c (B "[1 2")) as X by (cbn [String.list_byte_of_string] in *; rewrite <- E; apply in_or_app; right; right; apply in_or_app; right; left; reflexivity).
      simpl in X, Hc. intuition (subst; discriminate).
    + assert (In c (B "[1 2")) as X by (cbn [String.list_byte_of_string] in *; rewrite <- E; apply in_or_app; right; right; apply in_or_app; right; left; reflexivity).
      simpl in X, Hc. intuition (subst; discriminate).
  - intros [(a & b & E)|H].
    + apply (f_equal (@length _)) in E. rewrite !app_length in E. simpl in E. lia.
    + simpl in H. intuition discriminate.
Qed.

(** ** C07: truncated documents *)

Theorem C07_truncation_refuted :
  Parse (B "[") = SOk (JArray []) 1 /\ Parse (B "{") = SOk (JDict 0 []) 1
  /\ Parse (B "[1,") = SOk (JArray [JInt 1]) 3
  /\ Parse (B "{a:1,") = SOk (JDict 0 [(["a"%byte], JInt 1)]) 5
  /\ Parse [""""; "a"; "b"]%byte = SOk (JString ["a"; "b"]%byte) 3.
Proof. repeat split; vm_compute; reflexivity. Qed.

(** Unterminated strings are accepted in general. *)
Theorem C07_unterminated_string_refuted q s : q = """"%byte \/ q = "'"%byte -> ~ In q s -> ~ In "\"%byte s ->
  Parse (q :: s) = SOk (JString s) (length (q :: s)).
Proof.
  intros Hq H1 H2. apply parse_of_suffix.
  assert (forall s acc, ~ In q s -> ~ In "\"%byte s -> parse_quoted q acc s = POk (rev acc ++ s) []) as P.
  { clear s H1 H2. induction s as [|c s IH]; intros acc N1 N2; cbn [parse_quoted]; [rewrite app_nil_r; reflexivity|].
    destruct (beq_spec c "\"%byte) as [->|_]; [exfalso; apply N2; left; reflexivity|].
    destruct (beq_spec c q) as [->|_]; [exfalso; apply N1; left; reflexivity|].
    rewrite IH; [|intros X; apply N1; right; exact X | intros X; apply N2; right; exact X].
    simpl. rewrite <- app_assoc. reflexivity. }
  rewrite parse_suffix_quoted, P by assumption. reflexivity.
Qed.

(** What a proper prefix of a container text can do: be rejected, or end
    directly behind the opening bracket or behind a comma of the outermost
    container, which then is read as the container of the complete elements
    or members before it. *)
Theorem C07_truncated t v p q : rfc_value not_reserved t v -> is_container v -> t = p ++ q -> q <> [] ->
  (exists e o, Parse p = SErr e o)
  \/ (exists body l, p = "["%byte :: body /\ open_elements not_reserved body l /\ Parse p = SOk (JArray l) (length p))
  \/ (exists body ms kvs, p = "{"%byte :: body /\ open_members not_reserved body ms /\ object_value ms kvs
        /\ Parse p = SOk (JDict 0 kvs) (length p)).
Proof.
  intros Hv Hc E Hq. destruct p as [|c p].
  { left. do 2 eexists. vm_compute. reflexivity. }
  assert (forall n, parse_value n [] (c :: p) <> PFuel -> is_ws c = false ->
     Parse (c :: p) = match parse_value n [] (c :: p) with
                      | POk (v, _) r => SOk v (length (c :: p) - length r)
                      | PErr e r => SErr e (length (c :: p) - length r)
                      | PPanic p => SPanic p
                      | PFuel => SFuel
                      end) as Hparse.
  { intros n Hn Hw. rewrite parse_is. unfold parse_suffix.
    replace (skip_empty (c :: p)) with (c :: p) by (simpl; rewrite Hw; reflexivity).
    pose proof (proj1 (parse_good (parse_fuel (c :: p))) [] (c :: p) ltac:(discriminate) ltac:(unfold parse_fuel; lia)) as G.
    assert (parse_value (parse_fuel (c :: p)) [] (c :: p) = parse_value n [] (c :: p)) as ->.
    { destruct (Nat.le_ge_cases n (parse_fuel (c :: p))) as [L|L].
      - apply (proj1 (parse_mono _ _ L)). exact Hn.
      - symmetry. apply (proj1 (parse_mono _ _ L)). intros X. rewrite X in G. exact G. }
    destruct (parse_value n [] (c :: p)) as [[? ?] ?|? ?|?|]; reflexivity. }
  assert (forall (body : bytes), "["%byte :: body ++ ["]"%byte] = c :: p ++ q ->
    (exists N, forall n, (N <= n)%nat -> arr_cut [] p (array_loop n [] [] p)) ->
    (exists e o, Parse (c :: p) = SErr e o)
    \/ (exists body l, c :: p = "["%byte :: body /\ open_elements not_reserved body l /\ Parse (c :: p) = SOk (JArray l) (length (c :: p)))) as Harr.
  { intros body Ec (N & HN). injection Ec as <- _. specialize (HN N ltac:(lia)).
    destruct HN as [(e & s & HN)|(l & Ho & HN)].
    - left. rewrite (Hparse (S N)); cbn [parse_value]; rewrite ?HN; [|discriminate | reflexivity].
      do 2 eexists. reflexivity.
    - right. exists p, l. split; [reflexivity|]. split; [exact Ho|].
      rewrite (Hparse (S N)); cbn [parse_value]; rewrite ?HN; [|discriminate | reflexivity].
      cbn. f_equal. }
  assert (forall (body : bytes), "{"%byte :: body ++ ["}"%byte] = c :: p ++ q ->
    (exists N, forall n, (N <= n)%nat -> dict_cut [] p (dict_loop n [] [] 0 p)) ->
    (exists e o, Parse (c :: p) = SErr e o)
    \/ (exists body ms kvs, c :: p = "{"%byte :: body /\ open_members not_reserved body ms /\ object_value ms kvs
        /\ Parse (c :: p) = SOk (JDict 0 kvs) (length (c :: p)))) as Hdict.
  { intros body Ec (N & HN). injection Ec as <- _. specialize (HN N ltac:(lia)).
    destruct HN as [(e & s & HN)|(ms & Ho & HN)].
    - left. rewrite (Hparse (S N)); cbn [parse_value]; change sm_empty with (@nil (bytes * json)); rewrite ?HN; [|discriminate | reflexivity].
      do 2 eexists. reflexivity.
    - right. exists p, ms, (sm_of_list ms []). split; [reflexivity|]. split; [exact Ho|]. split.
      + split; [apply sm_ok_strong; apply sm_of_list_ok; constructor|]. intros k. rewrite lookup_sm_get, sm_of_list_get, last_member_binding.
        simpl. destruct (last_binding ms k); reflexivity.
      + rewrite (Hparse (S N)); cbn [parse_value]; change sm_empty with (@nil (bytes * json)); rewrite ?HN; [|discriminate | reflexivity].
        cbn. f_equal. }
  assert (forall a, a ++ ["]"%byte] = p ++ q -> exists q', a = p ++ q') as Hcut1.
  { intros a X. destruct (app_cut _ _ _ _ X) as [(a2 & _ & -> & _)|(p2 & Ep & X2)]; [eauto|].
    destruct p2 as [|y p2]; [exists []; rewrite app_nil_r in *; congruence|].
    simpl in X2. injection X2 as _ X2. symmetry in X2. apply app_eq_nil in X2. tauto. }
  assert (forall a, a ++ ["}"%byte] = p ++ q -> exists q', a = p ++ q') as Hcut2.
  { intros a X. destruct (app_cut _ _ _ _ X) as [(a2 & _ & -> & _)|(p2 & Ep & X2)]; [eauto|].
    destruct p2 as [|y p2]; [exists []; rewrite app_nil_r in *; congruence|].
    simpl in X2. injection X2 as _ X2. symmetry in X2. apply app_eq_nil in X2. tauto. }
  change ((c :: p) ++ q) with (c :: p ++ q) in E.
  inversion Hv as [Ea Eb|Ea Eb|Ea Eb|t0 neg c0 j whole v0 Hn Hnv Ea Eb|t0 s Hs Ea Eb|w Hw Ea Eb|t0 l He Ea Eb
    |w Hw Ea Eb|t0 ms kvs Hm Hov Ea Eb]; subst v; try destruct Hc; try rewrite E in Ea.
  - inversion Hnv; subst; destruct Hc.
  - destruct (Harr w) as [X|X]; [exact Ea| |left; exact X | right; left; exact X].
    exists 1%nat. intros n Hn. apply arr_ws; [exact Hn|]. apply rfc_ws_wsp.
    injection Ea as _ Ea. destruct (Hcut1 _ Ea) as [q' ->]. apply Forall_app in Hw. apply Hw.
  - destruct (Harr t0) as [X|X]; [exact Ea| |left; exact X | right; left; exact X].
    injection Ea as _ Ea. destruct (Hcut1 _ Ea) as [q' Eq].
    destruct (proj1 (proj2 cut_all) _ _ He) as (N & HN). exists N. intros n Hn. apply (HN p q'); assumption.
  - destruct (Hdict w) as [X|X]; [exact Ea| |left; exact X | right; right; exact X].
    exists 1%nat. intros n Hn. apply dict_ws; [exact Hn|]. apply rfc_ws_wsp.
    injection Ea as _ Ea. destruct (Hcut2 _ Ea) as [q' ->]. apply Forall_app in Hw. apply Hw.
  - destruct (Hdict t0) as [X|X]; [exact Ea| |left; exact X | right; right; exact X].
    injection Ea as _ Ea. destruct (Hcut2 _ Ea) as [q' Eq].
    destruct (proj1 (proj2 (proj2 cut_all)) _ _ Hm) as (N & HN). exists N. intros n Hn. apply (HN p q'); assumption.
Qed.

(** The exceptions really are accepted. *)
Theorem C07_open_array_accepted body l : open_elements not_reserved body l ->
  Parse ("["%byte :: body) = SOk (JArray l) (length ("["%byte :: body)).
Proof.
  intros H. apply parse_of_suffix. destruct (open_elements_accepted _ _ H) as (N & HN).
  apply (parse_suffix_intro _ (S N) _ []); [discriminate|]. cbn [skip_empty]. cbn [parse_value is_ws].
  change (skip_empty ("["%byte :: body)) with ("["%byte :: body). cbn. rewrite HN by lia. reflexivity.
Qed.

Theorem C07_open_object_accepted body ms kvs : open_members not_reserved body ms -> object_value ms kvs ->
  Parse ("{"%byte :: body) = SOk (JDict 0 kvs) (length ("{"%byte :: body)).
Proof.
  intros H Ho. apply parse_of_suffix. destruct (open_members_accepted _ _ H) as (N & HN).
  rewrite <- (object_value_of_list _ _ Ho).
  apply (parse_suffix_intro _ (S N) _ []); [discriminate|].
  change (skip_empty ("{"%byte :: body)) with ("{"%byte :: body). cbn. rewrite HN by lia. reflexivity.
Qed.

(** In particular for serialised values: a proper prefix is rejected or ends
    at the opening bracket or behind a comma. *)
Theorem C07_serialised v p q : json_ok v -> only_float64 v -> plain_json v -> no_reserved_key v -> is_container v ->
  String_ v = p ++ q -> q <> [] ->
  (exists e o, Parse p = SErr e o) \/ p = ["["%byte] \/ p = ["{"%byte] \/ exists p', p = p' ++ [","%byte].
Proof.
  intros Ho Hf Hp Hk Hc E Hq.
  destruct (print_rfc not_reserved v Ho Hf Hp) as (v' & Hv & R).
  { intros nid kvs k Hs Hin ->. exact (Hk nid kvs Hs Hin). }
  destruct (C07_truncated _ _ p q Hv (reads_as_container _ _ R Hc) E Hq)
    as [H|[(body & l & -> & H & _)|(body & ms & kvs & -> & H & _)]]; [left; exact H| |]; right.
  - assert (body = [] \/ exists b, body = b ++ [","%byte]) as [->|(b & ->)].
    { clear - H. induction H as [|w1 t w2 v t' l _ _ _ H IH]; [left; reflexivity|]. right.
      destruct IH as [->|(b & ->)].
      - exists (w1 ++ t ++ w2). rewrite app_nil_r, !app_assoc. reflexivity.
      - exists (w1 ++ t ++ w2 ++ [","%byte] ++ b). rewrite !app_assoc. reflexivity. }
    + left; reflexivity.
    + right; right. exists ("["%byte :: b). reflexivity.
  - assert (body = [] \/ exists b, body = b ++ [","%byte]) as [->|(b & ->)].
    { clear - H. induction H as [|t m t' ms _ H IH]; [left; reflexivity|]. right.
      destruct IH as [->|(b & ->)].
      - exists t. rewrite app_nil_r. reflexivity.
      - exists (t ++ [","%byte] ++ b). rewrite !app_assoc. reflexivity. }
    + right; left; reflexivity.
    + right; right. exists ("{"%byte :: b). reflexivity.
Qed.

Example C07_sample : is_container plain_sample /\ String_ plain_sample = firstn 20 (String_ plain_sample) ++ skipn 20 (String_ plain_sample)
  /\ skipn 20 (String_ plain_sample) <> [] /\ exists e o, Parse (firstn 20 (String_ plain_sample)) = SErr e o.
Proof. split; [exact I|]. split; [reflexivity|]. split; [vm_compute; discriminate | do 2 eexists; vm_compute; reflexivity]. Qed.

(** ** C10: escapes in strings *)

(** Decoding between either kind of quotes, whatever follows. *)
Theorem C10_decode q t u rest : q = """"%byte \/ q = "'"%byte -> lib_chars q t u ->
  Parse (q :: t ++ q :: rest) = SOk (JString u) (length t + 2).
Proof.
  intros Hq H. assert (q <> "\"%byte) as Hn by (destruct Hq; subst; discriminate).
  pose proof (stream_gval true [] (q :: t ++ [q]) (JString u) [] rest ltac:(constructor)) as S.
  specialize (S ltac:(constructor; exists q, t; split; [exact Hq|]; split; [reflexivity|];
     intros acc r; apply lib_chars_parse; assumption) ltac:(constructor) ltac:(discriminate) []).
  unfold Parse. cbn [app length] in S. rewrite <- app_assoc in S. cbn [app] in S.
  rewrite S. f_equal. rewrite app_length. simpl. lia.
Qed.

(** Nothing else is accepted behind an opening quote: the text up to the
    closing quote (or the end of the input) is a sequence of plain bytes and
    of exactly the escapes listed in [lib_char], and the value is what they
    stand for. *)
Theorem C10_only q s v o : q = """"%byte \/ q = "'"%byte -> Parse (q :: s) = SOk v o ->
  exists body u, v = JString u /\ lib_chars q body u
    /\ ((exists r, s = body ++ q :: r /\ o = (length body + 2)%nat) \/ (s = body /\ o = (length body + 1)%nat)).
Proof.
  intros Hq H. rewrite parse_is in H.
  rewrite (parse_suffix_quoted q s Hq) in H. destruct (parse_quoted q [] s) as [t r|? ?|?|] eqn:Ep; try discriminate.
  injection H as <- <-.
  destruct (lib_chars_complete q (length s) s [] t r ltac:(lia) Ep) as (body & u & Hl & -> & Hs).
  exists body, u. split; [reflexivity|]. split; [exact Hl|].
  destruct Hs as [->|[-> ->]]; [left; exists r | right]; (split; [reflexivity|]); rewrite ?app_length; cbn [length]; [destruct (length r)|]; lia.
Qed.

Example C10_sample : lib_chars "'"%byte (B "\u20ac\x41\/\'\n") ([xe2; x82; xac; x41; "/"%byte; "'"%byte; x0a]).
Proof.
  apply (lcs_cons _ (B "\u20ac") [xe2; x82; xac] (B "\x41\/\'\n")).
  - apply (lc_u _ _ _ _ _ 2 0 10 12);
      [ left; split; [vm_compute; split; discriminate | reflexivity]
      | left; split; [vm_compute; split; discriminate | reflexivity]
      | right; right; split; [vm_compute; split; discriminate | reflexivity]
      | right; right; split; [vm_compute; split; discriminate | reflexivity] | ].
    apply (utf8_3 _ _ _ _ 2 2 44); vm_compute; intuition (discriminate || reflexivity).
  - apply (lcs_cons _ (B "\x41") [x41] (B "\/\'\n")).
    + apply (lc_x _ _ _ 4 1); [left | left | reflexivity]; (split; [vm_compute; split; discriminate | reflexivity]).
    + apply (lcs_cons _ (B "\/") ["/"%byte] (B "\'\n")); [apply lc_other; simpl; intuition discriminate|].
      apply (lcs_cons _ (B "\'") ["'"%byte] (B "\n")); [apply lc_other; simpl; intuition discriminate|].
      apply (lcs_cons _ (B "\n") [x0a] []); [apply lc_n | constructor].
Qed.

(** ** C11: dicts in parsed values are sorted maps, last member wins *)

Lemma json_ok_sub v x : json_ok v -> subvalue x v -> json_ok x.
Proof.
  intros Hv Hs. induction Hs as [|y l Hin Hs IH|k y nid kvs Hin Hs IH]; [exact Hv| |].
  - apply IH. inversion Hv as [| | | | |? Hf| |]; subst. rewrite Forall_forall in Hf. apply Hf. exact Hin.
  - apply IH. inversion Hv as [| | | | | |? ? _ Hf _|]; subst. rewrite Forall_forall in Hf. exact (Hf _ Hin).
Qed.

Theorem C11_canonical s v o : Parse s = SOk v o ->
  json_ok v /\ forall nid kvs, subvalue (JDict nid kvs) v -> keys_increasing kvs.
Proof.
  intros H. destruct (parse_suffix_of _ _ _ H) as [r P]. apply parse_suffix_ok in P.
  split; [exact P|]. intros nid kvs Hs. pose proof (json_ok_sub _ _ P Hs) as X. inversion X; assumption.
Qed.

(** Two objects whose members agree on the last value of every name are read
    as the same value, so they are also re-serialised identically. *)
Theorem C11_member_order t t' ms ms' : rfc_members not_reserved t ms -> rfc_members not_reserved t' ms' ->
  (forall k, last_member k ms = last_member k ms') ->
  exists kvs, keys_increasing kvs /\ (forall k, lookup k kvs = last_member k ms)
    /\ Parse ("{"%byte :: t ++ ["}"%byte]) = SOk (JDict 0 kvs) (length t + 2)
    /\ Parse ("{"%byte :: t' ++ ["}"%byte]) = SOk (JDict 0 kvs) (length t' + 2).
Proof.
  intros H H' E. set (kvs := sm_of_list ms []).
  assert (object_value ms kvs) as Ho.
  { split; [apply sm_ok_strong; apply sm_of_list_ok; constructor|]. intros k. unfold kvs.
    rewrite lookup_sm_get, sm_of_list_get, last_member_binding. simpl. destruct (last_binding ms k); reflexivity. }
  assert (object_value ms' kvs) as Ho'.
  { destruct Ho as [Hk Hl]. split; [exact Hk|]. intros k. rewrite Hl. apply E. }
  exists kvs. split; [apply Ho|]. split; [apply Ho|].
  assert (forall t ms, rfc_members not_reserved t ms -> object_value ms kvs ->
     Parse ("{"%byte :: t ++ ["}"%byte]) = SOk (JDict 0 kvs) (length t + 2)) as X.
  { intros t0 ms0 H0 Ho0. pose proof (rv_object not_reserved t0 ms0 kvs H0 Ho0) as V.
    destruct (proj1 rfc_gram _ _ V) as (b & G).
    pose proof (stream_gval b [] _ _ [] [] ltac:(constructor) G ltac:(constructor) ltac:(intros _; exact I) []) as S.
    cbn [app length] in S. rewrite app_nil_r in S. unfold Parse. rewrite S. f_equal. simpl. rewrite app_length. simpl. lia. }
  split; eapply X; eassumption.
Qed.

Example C11_sample : Parse (B "{b:1,a:2,b:3}") = SOk (JDict 0 [(["a"%byte], JInt 2); (["b"%byte], JInt 3)]) 13.
Proof. vm_compute. reflexivity. Qed.

(** ** C12: splitting a stream *)

Definition no_bracket (w : bytes) : Prop := Forall (fun c => c <> "["%byte /\ c <> "{"%byte) w.

Lemma no_bracket_open w : no_bracket w -> no_open w.
Proof.
  apply Forall_impl. intros c [H1 H2]. unfold is_open.
  apply beq_neq in H1. apply beq_neq in H2. rewrite H1, H2. reflexivity.
Qed.

(** Serialised containers with arbitrary separators free of brackets. *)
Theorem C12_split (items : list (bytes * json)) wend :
  Forall (fun wv => no_bracket (fst wv) /\ printable (snd wv) /\ is_container (snd wv)) items ->
  no_bracket wend ->
  exists vs, ParseJsonStreams (flat_map (fun wv => fst wv ++ String_ (snd wv)) items ++ wend) = StOk vs 0
    /\ Forall2 reads_as (map snd items) vs.
Proof.
  intros Hi Hw.
  assert (exists its : list (bytes * bytes * json),
    flat_map (fun '(w, t, _) => w ++ t) its = flat_map (fun wv => fst wv ++ String_ (snd wv)) items
    /\ Forall2 reads_as (map snd items) (map snd its)
    /\ Forall (fun '(w, t, v) => no_open w /\ exists ids, gval true t v ids /\ NoDup ids /\ is_container v) its) as (its & E & R & F).
  { clear wend Hw. induction Hi as [|[w v] items (Hw & (Ho & Hf & Hk & Hd) & Hc) _ (its & E & R & F)].
    - exists []. repeat constructor.
    - cbn [fst snd] in *. destruct (print_gram v Ho Hf Hk) as (b & v' & G & Rv).
      pose proof (reads_as_container _ _ Rv Hc) as Hc'. destruct (gval_container _ _ _ _ G Hc') as [-> _].
      exists ((w, build_string v, v') :: its). split; [cbn; rewrite E; reflexivity|].
      split; [constructor; assumption|]. constructor; [|exact F].
      split; [apply no_bracket_open; exact Hw|]. eauto. }
  exists (map snd its). split; [|exact R]. unfold ParseJsonStreams. rewrite <- E.
  rewrite streams_items; [reflexivity | exact F | apply no_bracket_open; exact Hw | lia].
Qed.

(** The same for arbitrary RFC 8259 containers. *)
Theorem C12_split_rfc (items : list (bytes * bytes * json)) wend :
  Forall (fun x => no_bracket (fst (fst x)) /\ rfc_value not_reserved (snd (fst x)) (snd x) /\ is_container (snd x)) items ->
  no_bracket wend ->
  ParseJsonStreams (flat_map (fun x : bytes * bytes * json => fst (fst x) ++ snd (fst x)) items ++ wend) = StOk (map snd items) 0.
Proof.
  intros Hi Hw.
  assert (flat_map (fun x : bytes * bytes * json => fst (fst x) ++ snd (fst x)) items = flat_map (fun '(w, t, _) => w ++ t) items) as ->.
  { clear. induction items as [|[[w t] v] items IH]; [reflexivity|]. cbn. rewrite IH. reflexivity. }
  unfold ParseJsonStreams. rewrite streams_items; [reflexivity | | apply no_bracket_open; exact Hw | lia].
  eapply Forall_impl; [|exact Hi]. intros [[w t] v] (H1 & H2 & H3). cbn [fst snd] in *.
  split; [apply no_bracket_open; exact H1|]. destruct (proj1 rfc_gram _ _ H2) as (b & G).
  destruct (gval_container _ _ _ _ G H3) as [-> _]. exists []. repeat split; [exact G | constructor | exact H3].
Qed.

(** On every input it stops. *)
Theorem C12_terminates s : ParseJsonStreams s <> StFuel.
Proof. apply streams_fuel. lia. Qed.

(** An error is reported only if no bracket starts a parsable container, and
    then one error per bracket. *)
Theorem C12_error s k : ParseJsonStreams s = StErr k ->
  (forall a c b, s = a ++ c :: b -> c = "["%byte \/ c = "{"%byte -> exists e o, ParseStream s (length a) = SErr e o)
  /\ k = length (filter (fun c => beq c "["%byte || beq c "{"%byte) s) /\ (0 < k)%nat.
Proof.
  intros H. destruct (streams_err _ s 0 k ltac:(apply Nat.lt_succ_diag_r) H) as [Hk Hall]. split; [|split].
  - intros a c b -> Hc. destruct (Hall a c b eq_refl) as (e & r & P).
    { unfold is_open. destruct Hc as [->| ->]; reflexivity. }
    unfold ParseStream. rewrite skipn_app_length, P. eauto.
  - exact Hk.
  - unfold ParseJsonStreams in H. remember (S (length s)) as n. clear Heqn Hk Hall. revert s H.
    assert (forall n vs nerr s k, streams_loop n vs nerr s = StErr k -> (0 < k)%nat) as X.
    { clear. induction n as [|n IH]; intros vs nerr s k H; [discriminate|]. cbn [streams_loop] in H.
      destruct (seek_open s) as [|c s'].
      - destruct nerr; [discriminate|]. destruct vs; [injection H as <-; lia | discriminate].
      - destruct (parse_suffix (c :: s')); try discriminate; eauto. }
    intros s H. eapply X. exact H.
Qed.

(** Values are only returned from places where ParseStream succeeds on a
    bracket; in order. *)
Theorem C12_values_parsed s vs n v : ParseJsonStreams s = StOk vs n -> In v vs ->
  exists a c b o, s = a ++ c :: b /\ (c = "["%byte \/ c = "{"%byte) /\ ParseStream s (length a) = SOk v o.
Proof.
  unfold ParseJsonStreams. intros H Hin.
  assert (forall m pre s acc nerr, streams_loop m acc nerr s = StOk vs n ->
    (forall v, In v acc -> exists a c b o, pre ++ s = a ++ c :: b /\ (c = "["%byte \/ c = "{"%byte) /\ ParseStream (pre ++ s) (length a) = SOk v o) ->
    exists a c b o, pre ++ s = a ++ c :: b /\ (c = "["%byte \/ c = "{"%byte) /\ ParseStream (pre ++ s) (length a) = SOk v o) as X.
  { clear H. induction m as [|m IH]; intros pre s0 acc nerr H Hacc; [discriminate|]. cbn [streams_loop] in H.
    destruct (seek_open_split s0) as (w & Es & _ & Hc). destruct (seek_open s0) as [|c s'].
    - destruct nerr; [|destruct acc; [discriminate|]]; injection H as <- _; apply Hacc; apply in_rev; exact Hin.
    - assert (c = "["%byte \/ c = "{"%byte) as Hc'.
      { unfold is_open in Hc. apply orb_true_iff in Hc as [X|X]; apply beq_eq in X; auto. }
      destruct (parse_suffix (c :: s')) as [v' r|e r|p|] eqn:P; try discriminate.
      + pose proof (parse_suffix_good (c :: s')) as G. rewrite P in G. destruct G as (p & _ & Ep).
        rewrite Es, Ep. replace (pre ++ w ++ p ++ r) with ((pre ++ w ++ p) ++ r) by (rewrite !app_assoc; reflexivity).
        apply (IH _ _ _ _ H). intros x [<-|Hx].
        * exists (pre ++ w), c, s'. eexists. split; [rewrite <- !app_assoc; rewrite <- Ep; rewrite ?app_assoc; reflexivity|]. split; [exact Hc'|].
          unfold ParseStream. rewrite <- !app_assoc, <- Ep.
          replace (pre ++ w ++ c :: s') with ((pre ++ w) ++ c :: s') by (rewrite app_assoc; reflexivity).
          rewrite skipn_app_length, P. reflexivity.
        * destruct (Hacc x Hx) as (a & c' & b & o & A1 & A2 & A3). exists a, c', b, o.
          rewrite <- !app_assoc, <- Ep, <- Es. auto.
      + rewrite Es. replace (pre ++ w ++ c :: s') with ((pre ++ w ++ [c]) ++ s') by (rewrite <- !app_assoc; reflexivity).
        apply (IH _ _ _ _ H). intros x Hx. rewrite <- !app_assoc. cbn [app]. rewrite <- Es. apply Hacc. exact Hx. }
  apply (X _ [] s [] 0%nat H). intros x [].
Qed.

Example C12_sample : ParseJsonStreams (B "log: [1] then {a:2} end") = StOk [JArray [JInt 1]; JDict 0 [(["a"%byte], JInt 2)]] 0
  /\ ParseJsonStreams (B "x [1 2 [") = StOk [JArray []] 1 /\ ParseJsonStreams (B "x [1 2") = StErr 1.
Proof. repeat split; vm_compute; reflexivity. Qed.

(** ** C13: positions *)

(** Parsing at an offset is parsing the suffix. *)
Theorem C13_shift x y off : ParseStream (x ++ y) (length x + off) =
  match ParseStream y off with
  | SOk v o => SOk v (length x + o)
  | SErr e o => SErr e (length x + o)
  | SPanic p => SPanic p
  | SFuel => SFuel
  end.
Proof. apply stream_shift. Qed.

(** A container that was read and closed before the end of the input is read
    the same, with the same end, whatever follows it. *)
Theorem C13_container_end s off v o : ParseStream s off = SOk v o -> is_container v -> (o < length s)%nat ->
  forall rest, ParseStream (firstn o s ++ rest) off = SOk v o.
Proof.
  intros H Hc Ho rest. unfold ParseStream in H.
  destruct (parse_suffix (skipn off s)) as [v' r|? ?|?|] eqn:P; try discriminate. injection H as -> <-.
  destruct r as [|c r]; [simpl in Ho; lia|].
  destruct (parse_suffix_tail _ _ _ _ P) as (p & E & _ & Hy). specialize (Hy Hc).
  assert (off <= length s)%nat as Hoff.
  { destruct (Nat.le_gt_cases off (length s)) as [L|L]; [exact L|]. rewrite skipn_all2 in E by lia. destruct p; discriminate. }
  assert (s = firstn off s ++ p ++ c :: r) as Es by (rewrite <- E; symmetry; apply firstn_skipn).
  assert ((length s - length (c :: r))%nat = (off + length p)%nat) as El.
  { rewrite Es at 1. rewrite !app_length, firstn_length. lia. }
  rewrite El. assert (firstn (off + length p) s = firstn off s ++ p) as ->.
  { rewrite Es at 1. rewrite app_assoc. rewrite firstn_app.
    replace (off + length p)%nat with (length (firstn off s ++ p)) at 1 by (rewrite app_length, firstn_length; lia).
    rewrite firstn_all. rewrite app_length, firstn_length.
    replace (off + length p - (Nat.min off (length s) + length p))%nat with 0%nat by lia. apply app_nil_r. }
  unfold ParseStream. rewrite <- app_assoc.
  assert (skipn off (firstn off s ++ p ++ rest) = p ++ rest) as ->.
  { rewrite skipn_app, firstn_length, skipn_firstn_comm. replace (off - Nat.min off (length s))%nat with 0%nat by lia.
    rewrite Nat.sub_diag. reflexivity. }
  rewrite Hy. f_equal. rewrite !app_length, firstn_length. lia.
Qed.

(** Serialised containers: the returned offset is just behind the text. *)
Theorem C13_serialised_end v w rest x : printable v -> is_container v -> rfc_ws w ->
  exists v', reads_as v v'
    /\ ParseStream (x ++ w ++ String_ v ++ rest) (length x) = SOk v' (length x + length w + length (String_ v)).
Proof.
  intros (Ho & Hf & Hk & Hd) Hc Hw. destruct (print_gram v Ho Hf Hk) as (b & v' & G & R).
  exists v'. split; [exact R|]. destruct (gval_container _ _ _ _ G (reads_as_container _ _ R Hc)) as [-> _].
  apply (stream_gval true w (build_string v) v' _ rest (rfc_ws_wsp _ Hw) G Hd). discriminate.
Qed.

Example C13_sample : ParseStream (B "xx [1] y") 2 = SOk (JArray [JInt 1]) 6.
Proof. vm_compute. reflexivity. Qed.

Print Assumptions C04_rfc_accepted.
Print Assumptions C05_bounds.
Print Assumptions C06_no_panic.
Print Assumptions C07_truncated.
Print Assumptions C10_only.
Print Assumptions C11_member_order.
Print Assumptions C12_split.
Print Assumptions C12_values_parsed.
Print Assumptions C13_container_end.
