(** The parser accepts exactly the grammar of SpecLenient.v. *)
From Verif Require Import Base Strconv SpecFloat SpecFloatText FloatSyntax SortedMap SortedMapFacts Utf8 Json SpecJson SpecRFC SpecScalar SpecText SpecLenient
  StrconvFacts ScalarFacts Parser ParserFacts ParserFacts2 Gram RfcFacts TextFacts.
Open Scope Z_scope.

(** ** Characters *)
Lemma ws_iff s : rfc_ws s <-> wsp s.
Proof.
  unfold rfc_ws, wsp. split; intros H; (eapply Forall_impl; [|exact H]); cbn; intros c.
  - intros [->|[->|[->| ->]]]; reflexivity.
  - unfold is_ws. rewrite !orb_true_iff, !beq_eq. intros [[[->| ->]| ->]| ->]; auto.
Qed.
Lemma delim_iff c : is_delim c = true <-> delimiter c.
Proof. unfold is_delim, delimiter. rewrite !orb_true_iff, !beq_eq. cbn. intuition congruence. Qed.
Lemma delim_false c : is_delim c = false <-> ~ delimiter c.
Proof. rewrite <- delim_iff. destruct (is_delim c); split; congruence. Qed.
Lemma bare_iff t : bare t <-> Forall (fun c => is_delim c = false) t.
Proof. unfold bare. split; intros H; (eapply Forall_impl; [|exact H]); cbn; intros c; apply delim_false. Qed.
Lemma quote_iff c : beq c """"%byte || beq c "'"%byte = true <-> quote c.
Proof. unfold quote. rewrite orb_true_iff, !beq_eq. tauto. Qed.
Lemma quote_false c : beq c """"%byte || beq c "'"%byte = false <-> ~ quote c.
Proof. rewrite <- quote_iff. destruct (_ || _); split; congruence. Qed.
Lemma bracket_iff c : ~ bracket c <-> beq c "["%byte = false /\ beq c "{"%byte = false.
Proof. unfold bracket. rewrite !beq_neq. tauto. Qed.
Lemma quote_nb q : quote q -> q <> "\"%byte. Proof. intros [->| ->]; discriminate. Qed.

(** ** Words *)
Lemma int64_iff t z : parse_int t = Some z <-> int64_text t z.
Proof. unfold int64_text. rewrite parse_int_iff, in_int64_spec. reflexivity. Qed.
Lemma no_int64 t : parse_int t = None <-> forall z, ~ int64_text t z.
Proof. split; [intros E z H; apply int64_iff in H; congruence|]. intros H. destruct (parse_int t) as [z|] eqn:E; [|reflexivity]. destruct (H z). apply int64_iff, E. Qed.
Lemma no_float t : parse_float F64 t = None <-> forall f, ~ float_value t f.
Proof. split; [intros E z H; apply parse_float_iff in H; congruence|]. intros H. destruct (parse_float F64 t) as [z|] eqn:E; [|reflexivity]. destruct (H z). apply parse_float_iff, E. Qed.

Lemma angled_iff t : beq (hd x00 t) "<"%byte && beq (last t x00) ">"%byte = true <-> angled t.
Proof.
  unfold angled. rewrite andb_true_iff, !beq_eq. split.
  - intros [H1 H2]. destruct t as [|c t]; [discriminate|]. cbn in H1. subst c. destruct t as [|d t] using rev_ind; [discriminate|]. clear IHt.
    change ("<"%byte :: t ++ [d]) with (("<"%byte :: t) ++ [d]) in H2. rewrite last_last in H2. subst d. eauto.
  - intros (body & ->). split; [reflexivity|]. change ("<"%byte :: body ++ [">"%byte]) with (("<"%byte :: body) ++ [">"%byte]). apply last_last.
Qed.
Lemma angled_inner body : removelast (tl ("<"%byte :: body ++ [">"%byte])) = body.
Proof. cbn [tl]. apply removelast_last. Qed.
Lemma one_of2 t a b : one_of t [a; b] <-> bseq (lowers t) (list_byte_of_string a) || bseq (lowers t) (list_byte_of_string b) = true.
Proof. unfold one_of. cbn. rewrite orb_true_iff, !bseq_eq. intuition congruence. Qed.
Lemma one_of2_false t a b : ~ one_of t [a; b] <-> bseq (lowers t) (list_byte_of_string a) || bseq (lowers t) (list_byte_of_string b) = false.
Proof. rewrite one_of2. destruct (_ || _); split; congruence. Qed.
Lemma keyword_iff t : keyword t <-> one_of t ["null"; "none"]%string \/ one_of t ["true"; "yes"]%string \/ one_of t ["false"; "no"]%string.
Proof. unfold keyword, one_of. cbn [map In]. tauto. Qed.

Lemma lowers_app s t : lowers (s ++ t) = lowers s ++ lowers t. Proof. apply map_app. Qed.
Lemma angled_no_keyword t : angled t -> ~ keyword t.
Proof.
  intros (body & ->) K. unfold keyword, one_of in K. rewrite lowers_cons in K. cbn [map In] in K.
  destruct K as [K|[K|[K|[K|[K|[K|[]]]]]]]; vm_compute (list_byte_of_string _) in K; injection K as K _; vm_compute in K; discriminate.
Qed.
Lemma numeral_angled t z : numeral t z -> ~ angled t.
Proof.
  intros H (body & ->). inversion H as [ds D E|ds D E|ds D E]. subst. destruct D as [_ F]. inversion F as [|? ? D _]; subst. unfold digit in D. cbn in D. lia.
Qed.
Lemma numeral_keyword t z : numeral t z -> ~ keyword t.
Proof.
  intros H K. assert (X : exists c r, t = c :: r /\ (c = "+"%byte \/ c = "-"%byte \/ digit c)).
  { inversion H as [ds D E|ds D E|ds D E]; subst; [|eauto 6|eauto 6]. destruct D as [Ne F]. destruct t as [|c r]; [congruence|]. inversion F; subst. exists c, r. auto. }
  destruct X as (c & r & -> & X). unfold keyword, one_of in K. rewrite lowers_cons in K. cbn [map In] in K.
  destruct X as [->|[->|D]].
  1,2: destruct K as [K|[K|[K|[K|[K|[K|[]]]]]]]; vm_compute (list_byte_of_string _) in K; injection K as K _; vm_compute in K; discriminate.
  unfold digit in D. destruct K as [K|[K|[K|[K|[K|[K|[]]]]]]]; vm_compute (list_byte_of_string _) in K; injection K as K _; destruct c; vm_compute in K; try discriminate K; vm_compute in D; intuition congruence.
Qed.
Lemma float_angled t f : float_value t f -> ~ angled t.
Proof.
  intros H (body & ->). apply parse_float_iff in H. unfold parse_float, parse_special in H. change (beq "<"%byte "+"%byte) with false in H. change (beq "<"%byte "-"%byte) with false in H. cbv iota in H.
  rewrite lowers_cons in H. change (lowerb "<"%byte) with "<"%byte in H.
  destruct (bseq ("<"%byte :: _) kw_inf) eqn:E1; [apply bseq_eq in E1; discriminate|]. destruct (bseq ("<"%byte :: _) kw_infinity) eqn:E2; [apply bseq_eq in E2; discriminate|].
  destruct (bseq ("<"%byte :: _) kw_nan) eqn:E3; [apply bseq_eq in E3; discriminate|]. cbn [orb] in H.
  destruct (read_float _) as [[[[neg c] j] hex]|] eqn:R; [|discriminate]. apply read_float_is in R. inversion R as [sg ng hx prefix m e c' n x S P M Ex Un E]; subst.
  destruct (mant_chars _ _ _ _ M) as [Mc Mn]. destruct S; cbn in E; try discriminate. destruct hex; [destruct P; subst prefix; discriminate|]. subst prefix. cbn in E. destruct m as [|a m]; [congruence|]. injection E as -> _. inversion Mc; subst. discriminate.
Qed.
Lemma float_keyword t f : float_value t f -> ~ keyword t.
Proof.
  intros H K. apply parse_float_iff in H. unfold keyword, one_of in K.
  assert (X : forall w, lowers t = w -> In w (map list_byte_of_string ["null"; "none"; "true"; "yes"; "false"; "no"]%string) -> parse_float F64 t = None); [|rewrite (X _ eq_refl K) in H; discriminate].
  clear. intros w E Hw.
  assert (Sp : parse_special t = None).
  { destruct (parse_special t) as [g|] eqn:P; [|reflexivity]. exfalso. apply parse_special_iff in P. inversion P as [sg neg w' S I E'|w' I E']; subst.
    - destruct S; cbn [app] in Hw; [| |].
      + destruct I as [I|I]; rewrite I in Hw; vm_compute in Hw; intuition discriminate.
      + rewrite lowers_cons in Hw. cbn [map In] in Hw. destruct Hw as [K|[K|[K|[K|[K|[K|[]]]]]]]; vm_compute (list_byte_of_string _) in K; injection K as K _; vm_compute in K; discriminate.
      + rewrite lowers_cons in Hw. cbn [map In] in Hw. destruct Hw as [K|[K|[K|[K|[K|[K|[]]]]]]]; vm_compute (list_byte_of_string _) in K; injection K as K _; vm_compute in K; discriminate.
    - rewrite I in Hw. vm_compute in Hw. intuition discriminate. }
  unfold parse_float. rewrite Sp. destruct (read_float t) as [[[[neg c] j] hex]|] eqn:R; [|reflexivity]. exfalso. apply read_float_is in R. inversion R as [sg ng hx prefix m e c' n x S P M Ex Un E1]; subst.
  destruct (mant_chars _ _ _ _ M) as [Mc Mn].
  assert (A : exists a r, sg ++ prefix ++ m ++ e = a :: r /\ (a = "+"%byte \/ a = "-"%byte \/ a = "0"%byte \/ mchar false a = true)).
  { destruct S; cbn [app]; [|do 2 eexists; split; [reflexivity|auto]..]. destruct hex; [destruct P; subst prefix; cbn; do 2 eexists; (split; [reflexivity|auto])|]. subst prefix. destruct m as [|a m]; [congruence|]. inversion Mc; subst. cbn. do 2 eexists. split; [reflexivity|auto]. }
  destruct A as (a & r & A & Ha). rewrite A in Hw. rewrite lowers_cons in Hw. cbn [map In] in Hw.
  destruct Hw as [K|[K|[K|[K|[K|[K|[]]]]]]]; vm_compute (list_byte_of_string _) in K; injection K as K _;
    (destruct Ha as [->|[->|[->|Ha]]]; [vm_compute in K; discriminate..|]; destruct a; vm_compute in K; try discriminate K; vm_compute in Ha; discriminate).
Qed.

Lemma word_iff t v : bare_value t = Some v <-> word_value t v.
Proof.
  unfold bare_value. split.
  - destruct (_ && _) eqn:A.
    { apply angled_iff in A as (body & ->). rewrite angled_inner. destruct (parse_int body) as [n|] eqn:P; [|discriminate]. intros [= <-]. apply wv_ref. apply int64_iff. exact P. }
    assert (NA : ~ angled t) by (rewrite <- angled_iff; congruence).
    destruct (bseq (lowers t) kw_null || _) eqn:K1; [intros [= <-]; apply wv_null, one_of2, K1|].
    destruct (bseq (lowers t) kw_true || _) eqn:K2; [intros [= <-]; apply wv_true, one_of2, K2|].
    destruct (bseq (lowers t) kw_false || _) eqn:K3; [intros [= <-]; apply wv_false, one_of2, K3|].
    destruct (parse_int t) as [z|] eqn:P; [intros [= <-]; apply wv_int, int64_iff, P|].
    destruct (parse_float F64 t) as [f|] eqn:F; intros [= <-].
    + apply wv_float; [apply no_int64, P|apply parse_float_iff, F].
    + apply wv_string; [exact NA| |apply no_int64, P|apply no_float, F]. rewrite keyword_iff. intros [K|[K|K]]; apply one_of2 in K.
      * change (bseq (lowers t) kw_null || bseq (lowers t) kw_none = true) in K. congruence.
      * change (bseq (lowers t) kw_true || bseq (lowers t) kw_yes = true) in K. congruence.
      * change (bseq (lowers t) kw_false || bseq (lowers t) kw_no = true) in K. congruence.
  - intros H.
    assert (NK : forall t, ~ keyword t -> bseq (lowers t) kw_null || bseq (lowers t) kw_none = false /\ bseq (lowers t) kw_true || bseq (lowers t) kw_yes = false /\ bseq (lowers t) kw_false || bseq (lowers t) kw_no = false).
    { intros w K. rewrite keyword_iff in K. repeat split.
      - apply (one_of2_false w "null"%string "none"%string). tauto.
      - apply (one_of2_false w "true"%string "yes"%string). tauto.
      - apply (one_of2_false w "false"%string "no"%string). tauto. }
    assert (AN : forall t, ~ angled t -> beq (hd x00 t) "<"%byte && beq (last t x00) ">"%byte = false) by (intros w N; destruct (_ && _) eqn:E; [apply angled_iff in E; contradiction|reflexivity]).
    inversion H as [body n I E|w K E|w K E|w K E|w z I E|w f NI F E|w A K NI NF E]; subst; clear H.
    + rewrite (proj2 (angled_iff _)) by (exists body; reflexivity). rewrite angled_inner. apply int64_iff in I. rewrite I. reflexivity.
    + rewrite AN by (intros A; apply (angled_no_keyword t A); apply keyword_iff; tauto). apply one_of2 in K. change (bseq (lowers t) kw_null || bseq (lowers t) kw_none = true) in K. rewrite K. reflexivity.
    + rewrite AN by (intros A; apply (angled_no_keyword t A); apply keyword_iff; tauto). apply one_of2 in K. change (bseq (lowers t) kw_true || bseq (lowers t) kw_yes = true) in K. rewrite K.
      destruct (bseq (lowers t) kw_null || _) eqn:K1; [|reflexivity]. exfalso. rewrite !orb_true_iff, !bseq_eq in K, K1. destruct K as [K|K], K1 as [K1|K1]; rewrite K in K1; discriminate K1.
    + rewrite AN by (intros A; apply (angled_no_keyword t A); apply keyword_iff; tauto). apply one_of2 in K. change (bseq (lowers t) kw_false || bseq (lowers t) kw_no = true) in K. rewrite K.
      rewrite orb_true_iff, !bseq_eq in K. destruct K as [K|K]; rewrite K; reflexivity.
    + rewrite AN by (eapply numeral_angled, I). destruct (NK t) as (K1 & K2 & K3); [eapply numeral_keyword, I|]. rewrite K1, K2, K3. apply int64_iff in I. rewrite I. reflexivity.
    + rewrite AN by (eapply float_angled, F). destruct (NK t) as (K1 & K2 & K3); [eapply float_keyword, F|]. rewrite K1, K2, K3. apply no_int64 in NI. rewrite NI. apply parse_float_iff in F. rewrite F. reflexivity.
    + rewrite AN by exact A. destruct (NK t K) as (K1 & K2 & K3). rewrite K1, K2, K3. apply no_int64 in NI. rewrite NI. apply no_float in NF. rewrite NF. reflexivity.
Qed.

(** ** Strings *)
Lemma lib_char_short q t u acc rest : quote q -> lib_char q t u -> (length t <= 2)%nat -> parse_quoted q acc (t ++ rest) = parse_quoted q (rev u ++ acc) rest.
Proof.
  intros Q H L. destruct rest as [|r0 rest]; [|apply lib_char_parse; [exact H|discriminate]].
  destruct H as [c H1 H2| | | | | |e He| | |]; cbn [length] in L; try lia; try reflexivity.
  - cbn [app parse_quoted]. apply beq_neq in H2. apply beq_neq in H1. rewrite H2, H1. reflexivity.
  - cbn [app parse_quoted]. change (beq "\"%byte "\"%byte) with true. cbv iota.
    repeat (match goal with |- context [beq e ?b] => destruct (beq_spec e b) as [->|_]; [exfalso; apply He; simpl; tauto|] end || idtac).
    destruct (beq_spec e "\"%byte) as [->|_]; reflexivity.
Qed.
Lemma lib_char_nonempty q t u : lib_char q t u -> t <> []. Proof. intros []; discriminate. Qed.
Lemma unfinished_parse q t u : quote q -> unfinished q t u -> forall acc, parse_quoted q acc t = POk (rev acc ++ u) [].
Proof.
  intros Q. induction 1 as [|t u H L|t u ts us H Ne _ IH]; intros acc.
  - cbn. rewrite app_nil_r. reflexivity.
  - rewrite <- (app_nil_r t). rewrite (lib_char_short q t u) by assumption. cbn. rewrite rev_app_distr, rev_involutive. reflexivity.
  - rewrite (lib_char_parse q t u) by assumption. rewrite IH. rewrite rev_app_distr, rev_involutive, <- app_assoc. reflexivity.
Qed.

Lemma quoted_complete q : forall n s acc t r, (length s <= n)%nat -> parse_quoted q acc s = POk t r ->
  exists body u, t = rev acc ++ u /\ ((s = body ++ q :: r /\ lib_chars q body u) \/ (r = [] /\ s = body /\ unfinished q body u)).
Proof.
  induction n as [|n IH]; intros s acc t r Hn HP.
  - destruct s; [|simpl in Hn; lia]. injection HP as <- <-. exists [], []. rewrite app_nil_r. split; [reflexivity|]. right. repeat split. constructor.
  - destruct s as [|c s].
    { injection HP as <- <-. exists [], []. rewrite app_nil_r. split; [reflexivity|]. right. repeat split. constructor. }
    assert (STEP : forall tx ux s', lib_char q tx ux -> c :: s = tx ++ s' -> (length s' <= n)%nat -> ((length tx <= 2)%nat \/ s' <> []) ->
              parse_quoted q (rev ux ++ acc) s' = POk t r ->
              exists body u, t = rev acc ++ u /\ ((c :: s = body ++ q :: r /\ lib_chars q body u) \/ (r = [] /\ c :: s = body /\ unfinished q body u))).
    { intros tx ux s' HC E HL Sh H. apply IH in H; [|exact HL]. destruct H as (body & u & -> & HR). exists (tx ++ body), (ux ++ u).
      split; [rewrite rev_app_distr, rev_involutive, <- app_assoc; reflexivity|]. rewrite E. destruct HR as [[-> HB] | (-> & -> & HB)]; [left|right]; rewrite <- ?app_assoc.
      - split; [reflexivity|]. constructor; assumption.
      - repeat split. destruct body as [|b body].
        + inversion HB as [E1 E2|? ? H1 H2|t1 u1 ts1 us1 H1 H2 H3 E1 E2]; subst.
          * rewrite !app_nil_r. apply un_last; [exact HC|]. destruct Sh; [assumption|congruence].
          * exfalso. apply (lib_char_nonempty _ _ _ H1). reflexivity.
          * exfalso. apply app_eq_nil in E1 as [E0 _]. exact (lib_char_nonempty _ _ _ H1 E0).
        + apply un_cons; [exact HC|discriminate|exact HB]. }
    cbn [parse_quoted] in HP. simpl in Hn.
    destruct (beq_spec c "\"%byte) as [->|NB].
    + destruct s as [|e s]; [discriminate|]. simpl in Hn.
      destruct (beq_spec e "u"%byte) as [->|N1].
      { destruct s as [|h1 [|h2 [|h3 [|h4 s]]]]; try discriminate.
        destruct s as [|s0 s]; [discriminate|].
        destruct (hexstr2rune h1 h2 h3 h4) as [z|] eqn:EH; [|discriminate].
        apply hexstr2rune_digits in EH as (x & y & x' & y' & H1 & H2 & H3 & H4 & EZ).
        pose proof (proj2 (hex_digit_num _ _ H1)). pose proof (proj2 (hex_digit_num _ _ H2)).
        pose proof (proj2 (hex_digit_num _ _ H3)). pose proof (proj2 (hex_digit_num _ _ H4)).
        simpl in Hn.
        destruct (utf8_or_surrogate z ltac:(lia)) as [[u HU]|HS].
        - rewrite (utf8_encode _ _ HU) in HP. rewrite EZ in HU.
          eapply (STEP ["\"%byte; "u"%byte; h1; h2; h3; h4] u (s0 :: s)); [eapply lc_u; eassumption|reflexivity|simpl; lia|right; discriminate|exact HP].
        - rewrite (encode_surrogate _ HS) in HP. rewrite EZ in HS.
          eapply (STEP ["\"%byte; "u"%byte; h1; h2; h3; h4] [xef; xbf; xbd] (s0 :: s));
            [eapply lc_surrogate; eassumption|reflexivity|simpl; lia|right; discriminate|exact HP]. }
      destruct (beq_spec e "x"%byte) as [->|N2].
      { destruct s as [|h1 [|h2 s]]; try discriminate. destruct s as [|s0 s]; [discriminate|].
        destruct (hexstr2byte h1 h2) as [z|] eqn:EH; [|discriminate].
        apply hexstr2byte_digits in EH as (x & y & H1 & H2 & EZ).
        pose proof (proj2 (hex_digit_num _ _ H1)). pose proof (proj2 (hex_digit_num _ _ H2)).
        simpl in Hn.
        eapply (STEP ["\"%byte; "x"%byte; h1; h2] [zb z] (s0 :: s));
          [eapply lc_x; [eassumption|eassumption|rewrite bz_zb; lia]|reflexivity|simpl; lia|right; discriminate|exact HP]. }
      destruct (beq_spec e "n"%byte) as [->|N3];
        [apply (STEP ["\"%byte; "n"%byte] [x0a] s); [constructor|reflexivity|simpl; lia|left; cbn; lia|exact HP]|].
      destruct (beq_spec e "r"%byte) as [->|N4];
        [apply (STEP ["\"%byte; "r"%byte] [x0d] s); [constructor|reflexivity|simpl; lia|left; cbn; lia|exact HP]|].
      destruct (beq_spec e "t"%byte) as [->|N5];
        [apply (STEP ["\"%byte; "t"%byte] [x09] s); [constructor|reflexivity|simpl; lia|left; cbn; lia|exact HP]|].
      destruct (beq_spec e "b"%byte) as [->|N6];
        [apply (STEP ["\"%byte; "b"%byte] [x08] s); [constructor|reflexivity|simpl; lia|left; cbn; lia|exact HP]|].
      destruct (beq_spec e "f"%byte) as [->|N7];
        [apply (STEP ["\"%byte; "f"%byte] [x0c] s); [constructor|reflexivity|simpl; lia|left; cbn; lia|exact HP]|].
      apply (STEP ["\"%byte; e] [e] s); [|reflexivity|simpl; lia|left; cbn; lia|].
      * constructor. cbn. intuition congruence.
      * destruct (beq_spec e "\"%byte) as [->|N8]; exact HP.
    + destruct (beq_spec c q) as [->|NQ].
      * injection HP as <- <-. exists [], []. rewrite app_nil_r. split; [reflexivity|]. left. split; [reflexivity|constructor].
      * apply (STEP [c] [c] s); [constructor; assumption|reflexivity|simpl; lia|left; cbn; lia|exact HP].
Qed.

(** ** Members *)
Lemma jnid_is : jnid_key = B "___jnid_". Proof. reflexivity. Qed.
Lemma fold_members_app ms : forall nid acc,
  fold_members ms nid acc =
  if forallb (fun kv : bytes * json => negb (bseq (fst kv) jnid_key) || match snd kv with JInt _ => true | _ => false end) ms
  then Some (match last_member jnid_key ms with Some (JInt z) => z | Some _ => 0 | None => nid end, sm_of_list (filter (fun kv => negb (bseq (fst kv) jnid_key)) ms) acc)
  else None.
Proof.
  induction ms as [|[k v] ms IH]; intros nid acc; [reflexivity|]. cbn [fold_members forallb filter fst snd last_member].
  destruct (bseq k jnid_key) eqn:K; cbn [negb orb].
  - apply bseq_eq in K. subst k. rewrite bseq_refl. destruct v; try reflexivity. cbn [andb]. rewrite IH. destruct (forallb _ ms); [|reflexivity]. destruct (last_member jnid_key ms) as [[]|]; reflexivity.
  - rewrite IH. cbn [andb sm_of_list]. destruct (forallb _ ms); [|reflexivity]. assert (bseq jnid_key k = false) as ->; [|destruct (last_member jnid_key ms); reflexivity].
    apply bseq_neq. apply bseq_neq in K. congruence.
Qed.
Lemma last_member_filter k ms : k <> jnid_key -> last_member k (filter (fun kv : bytes * json => negb (bseq (fst kv) jnid_key)) ms) = last_member k ms.
Proof.
  intros N. induction ms as [|[k' v] ms IH]; [reflexivity|]. cbn [filter fst]. destruct (bseq k' jnid_key) eqn:K; cbn [negb last_member].
  - rewrite IH. apply bseq_eq in K. subst k'. apply bseq_neq in N. rewrite N. destruct (last_member k ms); reflexivity.
  - rewrite IH. reflexivity.
Qed.
Lemma last_member_reserved ms : last_member jnid_key (filter (fun kv : bytes * json => negb (bseq (fst kv) jnid_key)) ms) = None.
Proof.
  induction ms as [|[k' v] ms IH]; [reflexivity|]. cbn [filter fst]. destruct (bseq k' jnid_key) eqn:K; cbn [negb last_member]; [exact IH|]. rewrite IH.
  assert (bseq jnid_key k' = false) as ->; [|reflexivity]. apply bseq_neq. apply bseq_neq in K. congruence.
Qed.
Lemma members_iff ms nid kvs : fold_members ms 0 [] = Some (nid, kvs) <-> members_value ms nid kvs.
Proof.
  rewrite fold_members_app. unfold members_value. rewrite <- jnid_is. set (ok := forallb _ ms).
  assert (O : ok = true <-> forall v, In (jnid_key, v) ms -> exists z, v = JInt z).
  { unfold ok. rewrite forallb_forall. split.
    - intros H v I. specialize (H _ I). cbn [fst snd] in H. rewrite bseq_refl in H. destruct v; try discriminate. eauto.
    - intros H [k v] I. cbn [fst snd]. destruct (bseq k jnid_key) eqn:K; [|reflexivity]. apply bseq_eq in K. subst k. destruct (H v I) as (z & ->). reflexivity. }
  set (P := filter (fun kv : bytes * json => negb (bseq (fst kv) jnid_key)) ms).
  assert (V : forall m, object_value P m <-> keys_increasing m /\ (forall k, k <> jnid_key -> lookup k m = last_member k ms) /\ lookup jnid_key m = None).
  { intros m. unfold object_value. split.
    - intros [S H]. split; [exact S|]. split; [intros k N; rewrite H; apply last_member_filter, N|rewrite H; apply last_member_reserved].
    - intros (S & H & H0). split; [exact S|]. intros k. destruct (bseq k jnid_key) eqn:K; [apply bseq_eq in K; subst k; rewrite H0; symmetry; apply last_member_reserved|].
      apply bseq_neq in K. rewrite (H k K). symmetry. apply last_member_filter, K. }
  destruct ok.
  - split.
    + intros [= <- <-]. split; [apply O; reflexivity|]. split; [destruct (last_member jnid_key ms) as [[]|]; reflexivity|]. apply V. split.
      * apply sm_ok_strong. apply sm_of_list_ok. exact Logic.I.
      * intros k. rewrite lookup_sm_get, sm_of_list_get, last_member_binding. cbn. destruct (last_binding P k); reflexivity.
    + intros (_ & -> & H). apply V in H. rewrite (object_value_of_list P kvs H). destruct (last_member jnid_key ms) as [[]|]; reflexivity.
  - split; [discriminate|]. intros (H & _). apply O in H. discriminate.
Qed.

(** ** Names *)
Lemma name_parse kt k w1 w2 X : wsp w1 -> name kt k -> wsp w2 ->
  exists b c y s2, skip_empty (w1 ++ kt ++ w2 ++ ":"%byte :: X) = c :: y /\ beq c "}"%byte = false /\ parse_string (c :: y) = POk (k, b) s2 /\ skip_empty s2 = ":"%byte :: X.
Proof.
  intros W1 N W2. assert (SK : skip_empty (w2 ++ ":"%byte :: X) = ":"%byte :: X) by (apply skip_ws_head; [exact W2|reflexivity]).
  inversion N as [q body u Q L E|t Bt Nq E]; subst.
  - exists true, q, (body ++ q :: w2 ++ ":"%byte :: X), (w2 ++ ":"%byte :: X).
    assert (Hw : is_ws q = false /\ beq q "}"%byte = false) by (destruct Q as [->| ->]; split; reflexivity). destruct Hw as [Hw Hc].
    split; [|split; [exact Hc|split; [|exact SK]]].
    + cbn [app]. rewrite <- app_assoc. cbn [app]. apply skip_ws_head; assumption.
    + cbn [parse_string]. apply quote_iff in Q as Q'. rewrite Q'. rewrite lib_chars_parse with (u := k) by (try apply quote_nb; assumption). reflexivity.
  - apply bare_iff in Bt. destruct k as [|c k].
    + exists false, ":"%byte, X, (":"%byte :: X). cbn [app]. rewrite app_assoc.
      split; [apply skip_ws_head; [apply Forall_app; split; assumption|reflexivity]|]. split; [reflexivity|]. split; reflexivity.
    + exists false, c, (k ++ w2 ++ ":"%byte :: X), (w2 ++ ":"%byte :: X). inversion Bt as [|? ? Bc Bk]; subst. cbn [app].
      split; [apply skip_ws_head; [exact W1|apply ws_delim, Bc]|].
      assert (Hc : beq c "}"%byte = false) by (destruct (beq c "}"%byte) eqn:E; [|reflexivity]; apply beq_eq in E; subst c; discriminate Bc).
      split; [exact Hc|]. split; [|exact SK]. cbn [parse_string]. rewrite (proj2 (quote_false c)) by (eapply Nq; reflexivity).
      change (c :: k ++ w2 ++ ":"%byte :: X) with ((c :: k) ++ w2 ++ ":"%byte :: X).
      assert (R : rest_ok (w2 ++ ":"%byte :: X)) by (apply rest_ok_ws; [exact W2|reflexivity]).
      destruct (w2 ++ ":"%byte :: X) as [|d y] eqn:E; [destruct w2; discriminate|]. rewrite bare_token_app by assumption. reflexivity.
Qed.
Lemma name_complete c y k b s2 : parse_string (c :: y) = POk (k, b) s2 -> s2 <> [] -> exists kt, c :: y = kt ++ s2 /\ name kt k.
Proof.
  intros P Ne. cbn [parse_string] in P. destruct (beq c """"%byte || beq c "'"%byte) eqn:Q.
  - apply quote_iff in Q. destruct (parse_quoted c [] y) as [t r|? ?|?|] eqn:E; try discriminate. injection P as <- <- <-.
    destruct (quoted_complete c (length y) y [] t r ltac:(lia) E) as (body & u & Eu & [[-> L]|(-> & _)]); [|congruence]. cbn in Eu. subst u.
    exists (c :: body ++ [c]). split; [cbn; rewrite <- app_assoc; reflexivity|]. apply nm_quoted; assumption.
  - apply quote_false in Q. destruct (bare_token (c :: y)) as [t r] eqn:E. injection P as <- <- <-. apply bare_token_split in E as (E & F & _).
    exists t. split; [exact E|]. apply nm_word; [apply bare_iff, F|]. intros c0 r0 ->. injection E as <- _. exact Q.
Qed.

(** ** The loops, one step *)
Definition dict_after (n : nat) (acc : smap json) (nid : Z) (k : bytes) (v : json) (ss : list Z) (s5 : bytes) : pres (smap json * Z * list Z) :=
  let continue (acc' : smap json) (nid' : Z) :=
    match skip_empty s5 with
    | [] => PErr ETruncated []
    | c6 :: s6 =>
      if beq c6 ","%byte then dict_loop n ss acc' nid' s6
      else if beq c6 "}"%byte then POk (acc', nid', ss) s6
      else PErr EUnexpectedChar (c6 :: s6)
    end in
  if bseq k jnid_key then match v with JInt z => continue acc z | _ => PPanic PTypeAssertion end
  else continue (sm_add acc k v) nid.
Lemma dict_step n sess acc nid w1 kt k w2 w3 c r : wsp w1 -> name kt k -> wsp w2 -> wsp w3 -> is_ws c = false ->
  dict_loop (S n) sess acc nid (w1 ++ kt ++ w2 ++ ":"%byte :: w3 ++ c :: r) =
  match parse_value n sess (c :: r) with
  | PErr e r => PErr e r | PPanic p => PPanic p | PFuel => PFuel
  | POk (v, ss) s5 => dict_after n acc nid k v ss s5
  end.
Proof.
  intros W1 N W2 W3 Hc. destruct (name_parse kt k w1 w2 (w3 ++ c :: r) W1 N W2) as (b & c0 & y & s2 & E1 & E2 & E3 & E4).
  cbn [dict_loop]. assert (X : exists a x, w1 ++ kt ++ w2 ++ ":"%byte :: w3 ++ c :: r = a :: x).
  { destruct w1; [|cbn; eauto]. destruct kt; [|cbn; eauto]. destruct w2; cbn; eauto. }
  destruct X as (a & x & X). rewrite X. rewrite <- X, E1, E2, E3, E4. change (beq ":"%byte ":"%byte) with true. cbn [negb].
  rewrite skip_ws_head by assumption. reflexivity.
Qed.

Scheme lval_mut := Minimality for lval Sort Prop
  with larray_mut := Minimality for larray Sort Prop
  with ldict_mut := Minimality for ldict Sort Prop.
Combined Scheme len_ind from lval_mut, larray_mut, ldict_mut.

Lemma lval_head complete t v ids : lval complete t v ids -> exists c r, t = c :: r /\ starter c.
Proof.
  assert (X : forall r c, starter c -> exists c0 r0, c :: r = c0 :: r0 /\ starter c0) by eauto.
  intros [t0 v0 Ne Bt Hd W|q body u Q L|q body u Q L|c t0 l ids0 H|c t0 ms nid kvs ids0 H M].
  - destruct t0 as [|c r]; [congruence|]. exists c, r. split; [reflexivity|]. apply bare_iff in Bt. inversion Bt as [|? ? Bc _]; subst. split; [apply ws_delim, Bc|].
    split; (destruct (beq c _) eqn:E; [|reflexivity]); apply beq_eq in E; subst c; discriminate Bc.
  - apply X. destruct Q as [->| ->]; repeat split.
  - apply X. destruct Q as [->| ->]; repeat split.
  - apply X. repeat split.
  - apply X. repeat split.
Qed.
Lemma follow_ws complete t w c rest : complete = true -> wsp w -> is_delim c = true -> may_follow complete t (w ++ c :: rest).
Proof.
  intros -> W D. split; [discriminate|]. intros _ _ _ _ _ d r E. pose proof (rest_ok_ws w c rest W D) as R. rewrite E in R. apply delim_iff. exact R.
Qed.

Theorem len_parse :
  (forall complete t v ids, lval complete t v ids -> exists N, forall n sess rest, (N <= n)%nat -> fresh ids sess -> may_follow complete t rest ->
     parse_value n sess (t ++ rest) = POk (v, rev ids ++ sess) rest)
  /\ (forall complete t l ids, larray complete t l ids -> exists N, forall n sess acc rest, (N <= n)%nat -> fresh ids sess -> (complete = false -> rest = []) ->
        array_loop n sess acc (t ++ rest) = POk (rev acc ++ l, rev ids ++ sess) rest)
  /\ (forall complete t ms ids, ldict complete t ms ids -> exists N, forall n sess acc nid nid' kvs rest, (N <= n)%nat -> fresh ids sess -> (complete = false -> rest = []) ->
        fold_members ms nid acc = Some (nid', kvs) ->
        dict_loop n sess acc nid (t ++ rest) = POk (kvs, nid', rev ids ++ sess) rest).
Proof.
  apply len_ind.
  - intros t v Ne Bt Hd W. exists 1%nat. intros n sess rest Hn _ [_ Fo]. destruct n as [|n]; [lia|]. destruct t as [|c t]; [congruence|]. destruct (Hd c t eq_refl) as [Nq Nb].
    assert (T : tok_ok (c :: t) v).
    { split; [discriminate|]. split; [apply bare_iff, Bt|]. split; [|apply word_iff, W]. apply quote_false in Nq. apply bracket_iff in Nb as [N1 N2]. unfold opener. cbn [hd]. rewrite Nq, N1, N2. reflexivity. }
    assert (R : rest_ok rest). { destruct rest as [|d r]; [exact Logic.I|]. apply delim_iff. eapply Fo; try reflexivity; assumption. }
    pose proof (parse_scalar_tok (c :: t) v rest T R) as P. apply bracket_iff in Nb as [N1 N2]. cbn [app parse_value] in *. rewrite N1, N2, P. reflexivity.
  - intros q body u Q L. exists 1%nat. intros n sess rest Hn _ _. destruct n as [|n]; [lia|]. cbn [app parse_value].
    assert (beq q "["%byte = false) as -> by (destruct Q as [->| ->]; reflexivity). assert (beq q "{"%byte = false) as -> by (destruct Q as [->| ->]; reflexivity).
    unfold parse_scalar. cbn [parse_string]. apply quote_iff in Q as Q'. rewrite Q'. rewrite <- app_assoc. cbn [app]. rewrite lib_chars_parse with (u := u) by (try apply quote_nb; assumption). destruct u; reflexivity.
  - intros q body u Q L. exists 1%nat. intros n sess rest Hn _ [Fo _]. rewrite (Fo eq_refl), app_nil_r. destruct n as [|n]; [lia|]. cbn [app parse_value].
    assert (beq q "["%byte = false) as -> by (destruct Q as [->| ->]; reflexivity). assert (beq q "{"%byte = false) as -> by (destruct Q as [->| ->]; reflexivity).
    unfold parse_scalar. cbn [parse_string]. apply quote_iff in Q as Q'. rewrite Q'. rewrite (unfinished_parse q body u Q L). destruct u; reflexivity.
  - intros c t l ids _ [N IH]. exists (S N). intros n sess rest Hn Hf [Fo _]. destruct n as [|n]; [lia|]. cbn [app parse_value]. change (beq "["%byte "["%byte) with true. cbv iota. rewrite IH by (assumption || lia). reflexivity.
  - intros c t ms nid kvs ids _ [N IH] M. exists (S N). intros n sess rest Hn Hf [Fo _]. destruct n as [|n]; [lia|]. cbn [app parse_value]. change (beq "{"%byte "["%byte) with false. change (beq "{"%byte "{"%byte) with true. cbv iota.
    apply members_iff in M. rewrite (IH n sess sm_empty 0 nid kvs rest ltac:(lia) (fresh_app_l _ _ _ Hf) Fo M). destruct (0 <? nid).
    + unfold fresh in Hf. rewrite rev_app_distr in Hf. cbn [rev app] in Hf. inversion Hf as [|? ? Hni _]; subst. rewrite save_node_fresh by exact Hni. rewrite rev_app_distr. reflexivity.
    + rewrite app_nil_r. reflexivity.
  - exists 1%nat. intros n sess acc rest Hn _ Fo. rewrite (Fo eq_refl). destruct n as [|n]; [lia|]. cbn. rewrite app_nil_r. reflexivity.
  - intros w W. apply ws_iff in W. exists 1%nat. intros n sess acc rest Hn _ _. destruct n as [|n]; [lia|]. rewrite <- app_assoc. cbn [app array_loop].
    assert (exists a b, w ++ "]"%byte :: rest = a :: b) as (a & b & E) by (destruct w; cbn [app]; eauto). rewrite E, <- E. rewrite skip_ws_head by (assumption || reflexivity). change (beq "]"%byte "]"%byte) with true. cbv iota. rewrite app_nil_r. reflexivity.
  - intros w1 t w2 v ids W1 Hv [N IH] W2. apply ws_iff in W1, W2. exists (S N). intros n sess acc rest Hn Hf _. destruct n as [|n]; [lia|]. cbn [array_loop].
    destruct (lval_head _ _ _ _ Hv) as (c & r & -> & Hs1 & Hs2 & _). rewrite <- !app_assoc. cbn [app].
    assert (exists a x, w1 ++ c :: r ++ w2 ++ "]"%byte :: rest = a :: x) as (a & x & E) by (destruct w1; cbn [app]; eauto). rewrite E, <- E. rewrite skip_ws_head by assumption. rewrite Hs2.
    specialize (IH n sess (w2 ++ "]"%byte :: rest) ltac:(lia) Hf). cbn [app] in IH. rewrite IH by (apply follow_ws; [reflexivity|assumption|reflexivity]).
    rewrite skip_ws_head by (assumption || reflexivity). reflexivity.
  - intros complete w1 t w2 v ids t' l ids' W1 Hv [N IH] W2 _ [N' IH']. apply ws_iff in W1, W2. exists (S (N + N')). intros n sess acc rest Hn Hf Fo. destruct n as [|n]; [lia|]. cbn [array_loop].
    destruct (lval_head _ _ _ _ Hv) as (c & r & -> & Hs1 & Hs2 & _). rewrite <- !app_assoc. cbn [app]. 
    assert (exists a x, w1 ++ c :: r ++ w2 ++ ","%byte :: t' ++ rest = a :: x) as (a & x & E) by (destruct w1; cbn [app]; eauto). rewrite <- ?app_assoc. cbn [app]. rewrite E, <- E. rewrite skip_ws_head by assumption. rewrite Hs2.
    specialize (IH n sess (w2 ++ ","%byte :: t' ++ rest) ltac:(lia) (fresh_app_l _ _ _ Hf)). cbn [app] in IH. rewrite IH by (apply follow_ws; [reflexivity|assumption|reflexivity]).
    rewrite skip_ws_head by (assumption || reflexivity). change (beq ","%byte ","%byte) with true. cbv iota.
    rewrite (IH' n (rev ids ++ sess) (v :: acc) rest ltac:(lia) (fresh_app_r _ _ _ Hf) Fo). rewrite rev_app_distr. cbn [rev]. rewrite <- !app_assoc. reflexivity.
  - exists 1%nat. intros n sess acc nid nid' kvs rest Hn _ Fo [= <- <-]. rewrite (Fo eq_refl). destruct n as [|n]; [lia|]. reflexivity.
  - intros w W. apply ws_iff in W. exists 1%nat. intros n sess acc nid nid' kvs rest Hn _ _ [= <- <-]. destruct n as [|n]; [lia|]. rewrite <- app_assoc. cbn [app dict_loop].
    assert (exists a b, w ++ "}"%byte :: rest = a :: b) as (a & b & E) by (destruct w; cbn [app]; eauto). rewrite E, <- E. rewrite skip_ws_head by (assumption || reflexivity). reflexivity.
  - intros w1 kt k w2 w3 t w4 v ids W1 Hk W2 W3 Hv [N IH] W4. apply ws_iff in W1, W2, W3, W4. exists (S N). intros n sess acc nid nid' kvs rest Hn Hf _ M. destruct n as [|n]; [lia|].
    destruct (lval_head _ _ _ _ Hv) as (c & r & -> & Hs1 & Hs2 & Hs3).
    replace ((w1 ++ kt ++ w2 ++ ":"%byte :: w3 ++ (c :: r) ++ w4 ++ ["}"%byte]) ++ rest) with (w1 ++ kt ++ w2 ++ ":"%byte :: w3 ++ c :: r ++ w4 ++ "}"%byte :: rest) by (rewrite <- ?app_assoc; cbn [app]; rewrite <- ?app_assoc; cbn [app]; rewrite <- ?app_assoc; reflexivity).
    rewrite (dict_step n sess acc nid w1 kt k w2 w3 c (r ++ w4 ++ "}"%byte :: rest)) by assumption.
    specialize (IH n sess (w4 ++ "}"%byte :: rest) ltac:(lia) Hf). cbn [app] in IH. rewrite IH by (apply follow_ws; [reflexivity|assumption|reflexivity]).
    unfold dict_after. rewrite skip_ws_head by (assumption || reflexivity). change (beq "}"%byte ","%byte) with false. change (beq "}"%byte "}"%byte) with true. cbv iota.
    cbn [fold_members] in M. destruct (bseq k jnid_key); [destruct v; try discriminate M|]; injection M as <- <-; reflexivity.
  - intros complete w1 kt k w2 w3 t w4 v ids t' ms ids' W1 Hk W2 W3 Hv [N IH] W4 _ [N' IH']. apply ws_iff in W1, W2, W3, W4. exists (S (N + N')). intros n sess acc nid nid' kvs rest Hn Hf Fo M. destruct n as [|n]; [lia|].
    destruct (lval_head _ _ _ _ Hv) as (c & r & -> & Hs1 & Hs2 & Hs3).
    replace ((w1 ++ kt ++ w2 ++ ":"%byte :: w3 ++ (c :: r) ++ w4 ++ ","%byte :: t') ++ rest) with (w1 ++ kt ++ w2 ++ ":"%byte :: w3 ++ c :: r ++ w4 ++ ","%byte :: t' ++ rest) by (rewrite <- ?app_assoc; cbn [app]; rewrite <- ?app_assoc; cbn [app]; rewrite <- ?app_assoc; reflexivity).
    rewrite (dict_step n sess acc nid w1 kt k w2 w3 c (r ++ w4 ++ ","%byte :: t' ++ rest)) by assumption.
    specialize (IH n sess (w4 ++ ","%byte :: t' ++ rest) ltac:(lia) (fresh_app_l _ _ _ Hf)). cbn [app] in IH. rewrite IH by (apply follow_ws; [reflexivity|assumption|reflexivity]).
    unfold dict_after. rewrite skip_ws_head by (assumption || reflexivity). change (beq ","%byte ","%byte) with true. cbv iota. rewrite rev_app_distr, <- app_assoc.
    cbn [fold_members] in M. destruct (bseq k jnid_key); [destruct v; try discriminate M|]; (apply IH'; [lia|exact (fresh_app_r _ _ _ Hf)|exact Fo|exact M]).
Qed.

(** ** Nothing else *)

Lemma save_node_nodup sess nid ss : save_node sess nid = Some ss -> ss = nid :: sess /\ ~ In nid sess.
Proof.
  unfold save_node. destruct (existsb (Z.eqb nid) sess) eqn:E; [discriminate|]. intros [= <-]. split; [reflexivity|]. intros I.
  assert (existsb (Z.eqb nid) sess = true) by (apply existsb_exists; exists nid; split; [exact I|apply Z.eqb_refl]). congruence.
Qed.

Theorem len_complete n :
  (forall sess s v ss r, parse_value n sess s = POk (v, ss) r ->
     exists complete t ids, s = t ++ r /\ lval complete t v ids /\ ss = rev ids ++ sess /\ (NoDup sess -> NoDup ss) /\ may_follow complete t r)
  /\ (forall sess acc nid s kvs nid' ss r, dict_loop n sess acc nid s = POk (kvs, nid', ss) r ->
     exists complete t ms ids, s = t ++ r /\ ldict complete t ms ids /\ fold_members ms nid acc = Some (nid', kvs) /\ ss = rev ids ++ sess /\ (NoDup sess -> NoDup ss) /\ (complete = false -> r = []))
  /\ (forall sess acc s l' ss r, array_loop n sess acc s = POk (l', ss) r ->
     exists complete t l ids, s = t ++ r /\ larray complete t l ids /\ l' = rev acc ++ l /\ ss = rev ids ++ sess /\ (NoDup sess -> NoDup ss) /\ (complete = false -> r = [])).
Proof.
  induction n as [|n (IHv & IHd & IHa)]; [repeat split; discriminate|]. split; [|split].
  - intros sess s v ss r. destruct s as [|c s]; [discriminate|]. cbn [parse_value]. destruct (beq c "["%byte) eqn:Ea.
    { apply beq_eq in Ea. subst c. destruct (array_loop n sess [] s) as [[l ss'] r'|? ?|?|] eqn:E; try discriminate. intros [= <- <- <-].
      destruct (IHa _ _ _ _ _ _ E) as (co & t & l0 & ids & -> & L & -> & -> & Nd & Fo). exists co, ("["%byte :: t), ids. split; [reflexivity|]. split; [apply lv_array, L|]. split; [reflexivity|]. split; [exact Nd|].
      split; [exact Fo|]. intros c t' [= <- _] _ B. destruct B. left. reflexivity. }
    destruct (beq c "{"%byte) eqn:Ed.
    { apply beq_eq in Ed. subst c. destruct (dict_loop n sess sm_empty 0 s) as [[[kvs nid] ss'] r'|? ?|?|] eqn:E; try discriminate.
      destruct (IHd _ _ _ _ _ _ _ _ E) as (co & t & ms & ids & -> & L & M & -> & Nd & Fo). apply members_iff in M. intros H.
      assert (G : v = JDict nid kvs /\ ss = rev (ids ++ if 0 <? nid then [nid] else []) ++ sess /\ r = r' /\ (NoDup sess -> NoDup ss)).
      { destruct (0 <? nid).
        - destruct (save_node (rev ids ++ sess) nid) as [s2|] eqn:Sn; [|discriminate]. injection H as <- <- <-. apply save_node_nodup in Sn as [-> Ni]. rewrite rev_app_distr. repeat split. intros Ns. constructor; [exact Ni|apply Nd, Ns].
        - injection H as <- <- <-. rewrite app_nil_r. repeat split. exact Nd. }
      destruct G as (-> & -> & -> & Nd2). exists co, ("{"%byte :: t), (ids ++ if 0 <? nid then [nid] else []). split; [reflexivity|]. split; [apply lv_dict with (ms := ms); assumption|]. split; [reflexivity|]. split; [exact Nd2|].
      split; [exact Fo|]. intros c t' [= <- _] _ B. destruct B. right. reflexivity. }
    unfold parse_scalar. cbn [parse_string]. destruct (beq c """"%byte || beq c "'"%byte) eqn:Q.
    + apply quote_iff in Q. destruct (parse_quoted c [] s) as [t r'|? ?|?|] eqn:E; try discriminate. intros H.
      assert (G : POk (JString t, sess) r' = POk (v, ss) r) by (destruct t; exact H). injection G as <- <- <-. clear H.
      destruct (quoted_complete c (length s) s [] t r' ltac:(lia) E) as (body & u & Eu & [[-> L]|(-> & -> & L)]); cbn in Eu; subst u.
      * exists true, (c :: body ++ [c]), []. split; [cbn; rewrite <- app_assoc; reflexivity|]. split; [apply lv_quoted; assumption|]. split; [reflexivity|]. split; [auto|].
        split; [discriminate|]. intros c0 t' [= <- _] B. contradiction.
      * exists false, (c :: body), []. split; [cbn; rewrite app_nil_r; reflexivity|]. split; [apply lv_quoted_cut; assumption|]. split; [reflexivity|]. split; [auto|].
        split; [reflexivity|]. intros c0 t' [= <- _] B. contradiction.
    + apply quote_false in Q. destruct (bare_token (c :: s)) as [t r'] eqn:E. apply bare_token_split in E as (E & F & D). destruct t as [|a t]; [discriminate|].
      destruct (bare_value (a :: t)) as [v'|] eqn:Bv; [|discriminate]. intros [= <- <- <-]. injection E as <- ->. exists true, (c :: t), [].
      split; [reflexivity|]. split.
      * apply lv_word; [discriminate|apply bare_iff, F| |apply word_iff, Bv]. intros c0 r0 [= <- _]. split; [exact Q|]. apply bracket_iff. auto.
      * split; [reflexivity|]. split; [auto|]. split; [discriminate|]. intros _ _ _ _ _ d r0 ->. apply delim_iff. exact D.
  - intros sess acc nid s kvs nid' ss r. destruct s as [|s0 s]; cbn [dict_loop].
    { intros [= <- <- <- <-]. exists false, [], [], []. split; [reflexivity|]. split; [constructor|]. repeat split; auto. }
    destruct (skip_empty (s0 :: s)) as [|c s1] eqn:Sk; [discriminate|]. apply skip_empty_cons_split in Sk as (w1 & Es & W1 & Wc). rewrite Es. clear Es s0 s.
    destruct (beq c "}"%byte) eqn:Ec.
    { apply beq_eq in Ec. subst c. intros [= <- <- <- <-]. exists true, (w1 ++ ["}"%byte]), [], []. split; [rewrite <- app_assoc; reflexivity|]. split; [constructor; apply ws_iff, W1|]. repeat split; auto. discriminate. }
    destruct (parse_string (c :: s1)) as [[k b] s2|? ?|?|] eqn:Ps; try discriminate. destruct (skip_empty s2) as [|c3 s3] eqn:Sk2; [discriminate|].
    assert (Ne2 : s2 <> []) by (intros ->; discriminate Sk2). destruct (name_complete _ _ _ _ _ Ps Ne2) as (kt & -> & Nm).
    apply skip_empty_cons_split in Sk2 as (w2 & -> & W2 & _). destruct (beq c3 ":"%byte) eqn:E3; [|discriminate]. apply beq_eq in E3. subst c3. cbn [negb].
    destruct (skip_empty s3) as [|c4 s4] eqn:Sk3; [discriminate|]. apply skip_empty_cons_split in Sk3 as (w3 & -> & W3 & _).
    destruct (parse_value n sess (c4 :: s4)) as [[v ss'] s5|? ?|?|] eqn:Pv; try discriminate.
    destruct (IHv _ _ _ _ _ Pv) as (co & t & ids & Et & Lv & -> & Nd & Fo1 & _). rewrite Et. clear Et Pv Ps Ne2 c4 s4. intros H.
    assert (CT : forall acc' nid0, (bseq k jnid_key = true -> (exists z, v = JInt z /\ nid0 = z) /\ acc' = acc) -> (bseq k jnid_key = false -> acc' = sm_add acc k v /\ nid0 = nid) ->
      match skip_empty s5 with [] => PErr ETruncated [] | c6 :: s6 => if beq c6 ","%byte then dict_loop n (rev ids ++ sess) acc' nid0 s6 else if beq c6 "}"%byte then POk (acc', nid0, rev ids ++ sess) s6 else PErr EUnexpectedChar (c6 :: s6) end = POk (kvs, nid', ss) r ->
      exists complete t0 ms ids0, w1 ++ kt ++ w2 ++ ":"%byte :: w3 ++ t ++ s5 = t0 ++ r /\ ldict complete t0 ms ids0 /\ fold_members ms nid acc = Some (nid', kvs) /\ ss = rev ids0 ++ sess /\ (NoDup sess -> NoDup ss) /\ (complete = false -> r = [])).
    { intros acc' nid0 K1 K2. destruct (skip_empty s5) as [|c6 s6] eqn:Sk5; [discriminate|]. assert (co = true) as -> by (destruct co; [reflexivity|rewrite (Fo1 eq_refl) in Sk5; discriminate]).
      apply skip_empty_cons_split in Sk5 as (w4 & -> & W4 & _).
      assert (FM : forall ms, fold_members ((k, v) :: ms) nid acc = fold_members ms nid0 acc').
      { intros ms. cbn [fold_members]. destruct (bseq k jnid_key).
        - destruct (K1 eq_refl) as [(z & -> & ->) ->]. reflexivity.
        - destruct (K2 eq_refl) as [-> ->]. reflexivity. }
      destruct (beq c6 ","%byte) eqn:E6.
      - apply beq_eq in E6. subst c6. intros HD. destruct (IHd _ _ _ _ _ _ _ _ HD) as (co' & t' & ms & ids' & -> & L & M & -> & Nd' & Fo').
        exists co', (w1 ++ kt ++ w2 ++ ":"%byte :: w3 ++ t ++ w4 ++ ","%byte :: t'), ((k, v) :: ms), (ids ++ ids').
        split; [rewrite <- ?app_assoc; cbn [app]; rewrite <- ?app_assoc; cbn [app]; rewrite <- ?app_assoc; reflexivity|].
        split; [apply ld_more; try assumption; apply ws_iff; assumption|]. split; [rewrite FM; exact M|]. split; [rewrite rev_app_distr, <- app_assoc; reflexivity|]. split; [auto|exact Fo'].
      - destruct (beq c6 "}"%byte) eqn:E7; [|discriminate]. apply beq_eq in E7. subst c6. intros [= <- <- <- <-].
        exists true, (w1 ++ kt ++ w2 ++ ":"%byte :: w3 ++ t ++ w4 ++ ["}"%byte]), [(k, v)], ids.
        split; [rewrite <- ?app_assoc; cbn [app]; rewrite <- ?app_assoc; cbn [app]; rewrite <- ?app_assoc; reflexivity|].
        split; [apply ld_last; try assumption; apply ws_iff; assumption|]. split; [rewrite FM; reflexivity|]. split; [reflexivity|]. split; [exact Nd|discriminate]. }
    destruct (bseq k jnid_key) eqn:K.
    + destruct v; try discriminate H. eapply CT; [intros _; split; [eexists; split; reflexivity|reflexivity]|discriminate|exact H].
    + apply (CT (sm_add acc k v) nid); [discriminate|auto|exact H].
  - intros sess acc s l' ss r. destruct s as [|s0 s]; cbn [array_loop].
    { intros [= <- <- <-]. exists false, [], [], []. split; [reflexivity|]. split; [constructor|]. rewrite app_nil_r. repeat split; auto. }
    destruct (skip_empty (s0 :: s)) as [|c s1] eqn:Sk; [discriminate|]. apply skip_empty_cons_split in Sk as (w1 & Es & W1 & Wc). rewrite Es. clear Es s0 s.
    destruct (beq c "]"%byte) eqn:Ec.
    { apply beq_eq in Ec. subst c. intros [= <- <- <-]. exists true, (w1 ++ ["]"%byte]), [], []. split; [rewrite <- app_assoc; reflexivity|]. split; [constructor; apply ws_iff, W1|]. rewrite app_nil_r. repeat split; auto. discriminate. }
    destruct (parse_value n sess (c :: s1)) as [[v ss'] s5|? ?|?|] eqn:Pv; try discriminate.
    destruct (IHv _ _ _ _ _ Pv) as (co & t & ids & Et & Lv & -> & Nd & Fo1 & _). rewrite Et. clear Et Pv.
    destruct (skip_empty s5) as [|c6 s6] eqn:Sk5; [discriminate|]. assert (co = true) as -> by (destruct co; [reflexivity|rewrite (Fo1 eq_refl) in Sk5; discriminate]).
    apply skip_empty_cons_split in Sk5 as (w4 & -> & W4 & _). destruct (beq c6 ","%byte) eqn:E6.
    + apply beq_eq in E6. subst c6. intros HA. destruct (IHa _ _ _ _ _ _ HA) as (co' & t' & l & ids' & -> & L & -> & -> & Nd' & Fo').
      exists co', (w1 ++ t ++ w4 ++ ","%byte :: t'), (v :: l), (ids ++ ids'). split; [rewrite <- ?app_assoc; cbn [app]; rewrite <- ?app_assoc; reflexivity|].
      split; [apply la_more; try assumption; apply ws_iff; assumption|]. split; [cbn [rev]; rewrite <- app_assoc; reflexivity|]. split; [rewrite rev_app_distr, <- app_assoc; reflexivity|]. split; [auto|exact Fo'].
    + destruct (beq c6 "]"%byte) eqn:E7; [|discriminate]. apply beq_eq in E7. subst c6. intros [= <- <- <-].
      exists true, (w1 ++ t ++ w4 ++ ["]"%byte]), [v], ids. split; [rewrite <- ?app_assoc; cbn [app]; rewrite <- ?app_assoc; reflexivity|].
      split; [apply la_last; try assumption; apply ws_iff; assumption|]. split; [reflexivity|]. split; [reflexivity|]. split; [exact Nd|discriminate].
Qed.
