(** C43: what Unmarshal makes of scalars and null, for every type of target. *)
From Coq Require Import QArith Qpower Lia.
From Verif Require Import Base Strconv SpecFloat StrconvFacts RoundFacts FloatText RoundUnique SortedMap Json SpecJson SpecRFC SpecScalar RfcFacts ScalarFacts
  Heap Gotypes Marshal Access JErrors Unmarshal SpecUnmarshal UnmFacts FloatWidth SpecFloatText SpecConvert ConvertFacts FloatSyntax ParserFacts2 Printer.
Open Scope Z_scope.

Section C43.
Context (env : nat -> list (finfo * gty)) (locate : list (finfo * gty) -> bytes -> list nat).
Context (match_us match_eu : bytes -> bool) (to_bool : bytes -> bool)
  (parse_time : bytes -> option bytes) (time_json : bytes -> option (option bytes)) (std_ok : bytes -> bool).
Notation Unmarshal := (Unmarshal env locate match_us match_eu to_bool parse_time time_json std_ok).
Notation unm := (unm env locate match_us match_eu to_bool parse_time time_json std_ok).
Notation amount := (normalize_currency match_us match_eu).
Notation converts := (converts amount to_bool parse_time).
Notation step_scalar := (step_scalar match_us match_eu to_bool parse_time).
Notation start m := {| u_mem := m; u_sess := [] |}.

Definition outcome (r : ures (option uerr)) : utop :=
  match r with
  | UOk st None => TopOk (u_mem st)
  | UOk st (Some e) => TopErr (u_mem st) e
  | UPanic => TopPanic
  | UFuel => TopFuel
  end.

Lemma selected_top n m t a doc keys j : selected doc keys j -> Unmarshal n m t a doc keys = outcome (unm n (start m) (resolve env t) a j).
Proof.
  intros [[N E]|(-> & -> & H)]; unfold Unmarshal.Unmarshal.
  - destruct keys as [|k keys]; [congruence|]. destruct doc; try discriminate E. cbn [receiver]. rewrite E. reflexivity.
  - destruct doc; try contradiction; reflexivity.
Qed.

Lemma one_is (b : bool) m e : canon F64 m e = true -> (fq m e == inject_Z (if b then 1 else 0))%Q -> forall bit, bit = 32 \/ bit = 64 ->
  set_float bit (float_of_int (if b then 1 else 0)) = FFin false m e.
Proof.
  intros C E bit B. assert (X : forall m' e', canon F64 m' e' = true -> (fq m' e' == inject_Z (if b then 1 else 0))%Q -> FFin false m e = FFin false m' e').
  { intros m' e' C' E'. destruct (canon_fq_inj F64 m e m' e' F64_valid C C') as [-> ->]; [rewrite E, E'; reflexivity|reflexivity]. }
  destruct b, B as [->| ->]; vm_compute set_float; vm_compute float_of_int; symmetry; apply X; reflexivity.
Qed.

Lemma converts_step j t c : converts j t c -> step_scalar j t = Write c.
Proof.
  intros H. destruct H; cbn [Unmarshal.step_scalar step_int step_bool step_float step_string].
  all: repeat match goal with H : _ = TString \/ _ = TTri |- _ => destruct H; subst end; repeat match goal with H : _ = TJsonObj \/ _ |- _ => destruct H; subst end; try reflexivity.
  all: repeat match goal with
    | H : decimal_text ?s ?z |- _ => apply decimal_text_format in H; subst s
    | H : six_decimals ?f ?s, K : fl_ok F64 ?f = true |- _ => apply (six_decimals_format _ _ K) in H; subst s
    | H : fits_width _ ?g ?f, K : fl_ok F64 ?g = true |- _ => apply (fits_width_set _ _ _ K) in H; subst f
    end; try reflexivity.
  - assert (X : wrap k z = x) by (eapply low_bits_unique; [apply wrap_low_bits; assumption|eassumption|assumption]). destruct k as [b|b]; [|rewrite wrap_twice by assumption]; rewrite X; reflexivity.
  - match goal with R : rounds _ _ _ ?g |- _ => pose proof (rounds_unique _ _ _ _ _ F64_valid R (float_of_int_rounds z)) as ->; pose proof (rounds_fl_ok _ _ _ R) as Ok end.
    match goal with W : fits_width _ _ _ |- _ => rewrite (fits_width_set _ _ _ Ok W) end. reflexivity.
  - do 2 f_equal. destruct (Z.eqb_spec z 0) as [e|e]; destruct b; try reflexivity; [exfalso; apply H; [reflexivity|exact e]|exfalso; assert (false = true) by (apply H; exact e); discriminate].
  - destruct b; [|reflexivity]. do 2 f_equal. eapply low_bits_unique; [apply (wrap_low_bits (Signed k)); assumption| |assumption].
    pose proof (int_width_pos k H). assert (1 < 2 ^ k) by (apply Z.pow_gt_1; lia). split; [|exists 0; lia].
    destruct (Z.eq_dec k 1) as [->|]; [exfalso; cbn in H; intuition discriminate|]. assert (2 ^ 1 <= 2 ^ (k - 1)) by (apply Z.pow_le_mono_r; lia). change (2 ^ 1) with 2 in *. lia.
  - rewrite (one_is b m e) by assumption. reflexivity.
  - rewrite (truncates_f2i f z) by assumption. do 2 f_equal. eapply low_bits_unique; [apply (wrap_low_bits (Signed k)); assumption|assumption|assumption].
  - do 2 f_equal. destruct b, (fl_is_zero f) eqn:Z; try reflexivity; exfalso.
    + destruct f as [|?|neg m e]; try discriminate. apply Z.eqb_eq in Z. subst m. assert (true = false) by (apply H0; eauto). discriminate.
    + destruct H0 as [H0 _]. destruct (H0 eq_refl) as (neg & e & ->). discriminate.
  - rewrite (truncates_f2i f z) by assumption. reflexivity.
  - destruct s as [|c s]; [congruence|]. set (s0 := c :: s) in *. rewrite (proj2 (parse_int_iff (amount s0) z)) by (split; [assumption|apply in_int64_spec; assumption]).
    do 2 f_equal. eapply low_bits_unique; [apply (wrap_low_bits (Signed k)); assumption|assumption|assumption].
  - destruct s as [|c s]; [congruence|]. set (s0 := c :: s) in *. unfold parse_uint. rewrite (proj2 (parse_digits_iff (amount s0) _) (conj H1 eq_refl)).
    destruct (Z.leb_spec (dec_value (amount s0)) uint64_max) as [L|L]; [|exfalso; unfold uint64_max in L; lia].
    do 2 f_equal. eapply low_bits_unique; [apply (wrap_low_bits (Unsigned k)); assumption|assumption|assumption].
  - destruct s as [|c0 s]; [congruence|]. set (s0 := c0 :: s) in *.
    match goal with V : float_value _ ?g |- _ => apply parse_float_iff in V; rewrite V; assert (Ok : fl_ok F64 g = true) by (eapply parse_float_ok; [exact F64_valid|exact V]) end.
    match goal with W : fits_width _ _ _ |- _ => rewrite (fits_width_set _ _ _ Ok W) end. reflexivity.
  - destruct s as [|c s]; [congruence|]. subst x. reflexivity.
  - do 3 f_equal. destruct b, (says_yes s) eqn:Y; try reflexivity; exfalso.
    + assert (says_yes s = true) by (apply says_yes_iff, H; reflexivity). congruence.
    + apply says_yes_iff, H in Y. discriminate.
Qed.

Definition scalar (j : json) : Prop := match j with JInt _ | JBool _ | JFloat _ _ | JString _ => True | _ => False end.
(** Types of variables that have nothing to do with pointers and UnmarshalJSON. *)
Definition direct (t : gty) : Prop := match t with TPtr _ | TStd | TTime | TJsonPtr _ | TNamed _ => False | _ => True end.

Lemma indirect_direct t a m : direct t -> indirect env t a m = (m, None).
Proof. destruct t; intros H; try contradiction; reflexivity. Qed.
Lemma with_mem_id st : with_mem st (u_mem st) = st. Proof. destruct st; reflexivity. Qed.

Lemma scalar_direct n m t a j : scalar j -> direct t -> (forall t', step_scalar j t <> Into t') -> (forall t', step_scalar j t <> First t') ->
  outcome (unm (S n) (start m) t a j) =
  match step_scalar j t with Write c => TopOk (mwrite m a c) | Keep => TopOk m | Fail e => TopErr m e | _ => TopPanic end.
Proof.
  intros Sj D NI NF. destruct j; try contradiction; destruct t; try contradiction; cbn [Unmarshal.unm indirect with_mem u_mem u_sess];
    match goal with |- context [Unmarshal.step_scalar ?a ?b ?c ?d ?e ?f] => destruct (Unmarshal.step_scalar a b c d e f) eqn:E end; try reflexivity;
    exfalso; (eapply NI; reflexivity) || (eapply NF; reflexivity).
Qed.

Lemma converts_scalar j t c : converts j t c -> scalar j.
Proof. intros H. destruct H; exact Logic.I. Qed.

Lemma converts_resolve j t c : converts j t c -> resolve env t = t.
Proof. intros H. destruct H; try reflexivity; match goal with H : _ \/ _ |- _ => destruct H; subst; reflexivity end. Qed.

Lemma mwrite_twice m : forall a c c', mwrite (mwrite m a c) a c' = mwrite m a c'.
Proof. induction m as [|x m IH]; intros [|a] c c'; cbn; try reflexivity. f_equal. apply IH. Qed.

Lemma written_mwrite m a c : (a < length m)%nat -> written m a c (mwrite m a c).
Proof. intros L. split; [apply mwrite_same; exact L|]. split; [apply mwrite_length|]. intros x N. apply mwrite_other. congruence. Qed.

(** The value selected by the keys is converted as the table says, written into
    the variable, and nothing else changes. *)
Theorem C43_converted : forall n m t a doc keys j c, (a < length m)%nat -> selected doc keys j -> converts j t c ->
  exists m', Unmarshal (S n) m t a doc keys = TopOk m' /\ written m a c m'.
Proof.
  intros n m t a doc keys j c L Sel H. rewrite (selected_top _ _ _ _ _ _ _ Sel). exists (mwrite m a c). split; [|apply written_mwrite; exact L].
  pose proof (converts_step _ _ _ H) as E. pose proof (converts_scalar _ _ _ H) as Sc. rewrite (converts_resolve _ _ _ H).
  destruct t; try (rewrite scalar_direct; [rewrite E; reflexivity|exact Sc|exact Logic.I|congruence|congruence]); try (inversion H; match goal with X : _ \/ _ |- _ => destruct X; discriminate end).
  - inversion H; subst; try match goal with X : _ \/ _ |- _ => destruct X; discriminate end; cbn [Unmarshal.unm]; rewrite E; reflexivity.
  - destruct j; try contradiction; cbn [Unmarshal.unm indirect u_mem];
      destruct (nth_error m a) as [[| | | | | | | | | | | |[]| |]|]; cbn [with_mem u_mem u_sess]; rewrite E; cbn [outcome u_mem with_mem]; rewrite ?mwrite_twice; reflexivity.
Qed.

(** The table names at most one value. *)
Theorem C43_table_functional : forall j t c c', converts j t c -> converts j t c' -> c = c'.
Proof. intros j t c c' H H'. apply converts_step in H, H'. congruence. Qed.

Theorem C43_ignored : forall n m t a doc keys j, selected doc keys j -> ignored j t -> Unmarshal (S n) m t a doc keys = TopOk m.
Proof.
  intros n m t a doc keys j Sel H. rewrite (selected_top _ _ _ _ _ _ _ Sel).
  destruct j; try contradiction; try (destruct s; try contradiction); destruct t; try contradiction; try (destruct k; try contradiction); cbn [resolve];
    try (rewrite scalar_direct; [reflexivity|exact Logic.I|exact Logic.I|discriminate|discriminate]).
Qed.

Theorem C43_mismatched : forall n m t a doc keys j, selected doc keys j -> mismatched j t -> Unmarshal (S n) m t a doc keys = TopErr m EMismatch.
Proof.
  intros n m t a doc keys j Sel H. rewrite (selected_top _ _ _ _ _ _ _ Sel).
  destruct j; try contradiction; destruct t; try contradiction; try (destruct k; try (exfalso; cbn in H; intuition congruence)); cbn [resolve];
    (rewrite scalar_direct; [reflexivity|exact Logic.I|exact Logic.I|discriminate|discriminate]).
Qed.

Theorem C43_mismatched_json : forall n m k a doc keys j old, nth_error m a = Some (VJson old) -> selected doc keys j -> mismatched_json j k ->
  exists m', Unmarshal (S n) m (TJsonPtr k) a doc keys = TopErr m' EMismatch
    /\ match old with Some _ => m' = m | None => written m a (VJson (Some (zero_of k))) m' end.
Proof.
  intros n m k a doc keys j old Ea Sel H. rewrite (selected_top _ _ _ _ _ _ _ Sel). cbn [resolve].
  pose proof (nth_error_lt _ _ _ Ea) as L.
  exists (match old with Some _ => m | None => mwrite m a (VJson (Some (zero_of k))) end). split; [|destruct old; [reflexivity|apply written_mwrite; exact L]].
  destruct j; try contradiction; destruct k; try (exfalso; cbn in H; intuition congruence); destruct old; cbn [Unmarshal.unm indirect u_mem]; rewrite Ea; reflexivity.
Qed.

Theorem C43_no_number : forall n m t a doc keys s, selected doc keys (JString s) -> no_number amount s t -> Unmarshal (S n) m t a doc keys = TopErr m ENumber.
Proof.
  intros n m t a doc keys s Sel [N H]. rewrite (selected_top _ _ _ _ _ _ _ Sel). destruct t; try contradiction; cbn [resolve].
  2: { match goal with |- context [TFloat ?b] => rename b into bit end. assert (E : step_scalar (JString s) (TFloat bit) = Fail ENumber).
       { destruct s as [|c s]; [congruence|]. set (s0 := c :: s) in *. cbn [Unmarshal.step_scalar step_string]. destruct (parse_float F64 (amount s0)) as [g|] eqn:P; [|reflexivity]. exfalso. apply (H g). apply parse_float_iff. exact P. }
       rewrite scalar_direct; [rewrite E; reflexivity|exact Logic.I|exact Logic.I|rewrite E; discriminate|rewrite E; discriminate]. }
  assert (E : step_scalar (JString s) (TInt k) = Fail ENumber).
  { destruct s as [|c s]; [congruence|]. set (s0 := c :: s) in *. destruct k as [b|b]; cbn [Unmarshal.step_scalar step_string].
    - destruct (parse_int (amount s0)) as [z|] eqn:P; [|reflexivity]. exfalso. apply parse_int_iff in P as [P1 P2]. apply (H z P1). apply in_int64_spec. exact P2.
    - unfold parse_uint. destruct (parse_digits (amount s0)) as [z|] eqn:P; [|reflexivity]. apply parse_digits_iff in P as [P ->]. specialize (H P).
      destruct (Z.leb_spec (dec_value (amount s0)) uint64_max) as [L|L]; [|reflexivity]. exfalso. unfold uint64_max in L. lia. }
  rewrite scalar_direct; [rewrite E; reflexivity|exact Logic.I|exact Logic.I|rewrite E; discriminate|rewrite E; discriminate].
Qed.

Theorem C43_crashes : forall n m t a doc keys j, selected doc keys j -> crashes j t -> Unmarshal (S n) m t a doc keys = TopPanic.
Proof.
  intros n m t a doc keys j Sel H. rewrite (selected_top _ _ _ _ _ _ _ Sel).
  destruct j; try contradiction; destruct t; try contradiction; try (destruct k; try contradiction); cbn [resolve];
    (rewrite scalar_direct; [reflexivity|exact Logic.I|exact Logic.I|discriminate|discriminate]).
Qed.

(** A variable whose type has UnmarshalJSON gets the JSON text, and its error is
    Unmarshal's.  A string for a time.Time does not come this way. *)
Theorem C43_unmarshaler : forall n m a doc keys j old, nth_error m a = Some (VStd old) -> selected doc keys j -> j <> JNull -> (forall p, j <> JPtr p) ->
  (std_ok (String_ j) = true -> exists m', Unmarshal (S n) m TStd a doc keys = TopOk m' /\ written m a (VStd (Some (String_ j))) m')
  /\ (std_ok (String_ j) = false -> Unmarshal (S n) m TStd a doc keys = TopErr m EStd).
Proof.
  intros n m a doc keys j old Ea Sel N1 N2. rewrite (selected_top _ _ _ _ _ _ _ Sel). cbn [resolve].
  assert (G : outcome (unm (S n) (start m) TStd a j) = if std_ok (String_ j) then TopOk (mwrite m a (VStd (Some (String_ j)))) else TopErr m EStd).
  { destruct j; try congruence; try (exfalso; eapply N2; reflexivity); cbn [Unmarshal.unm indirect u_mem]; try (destruct (0 <? nid)); cbn [ubind save_node_value find_node u_sess u_mem];
      unfold call_std; rewrite Ea; match goal with |- context [std_ok ?x] => destruct (std_ok x) end; reflexivity. }
  rewrite G. split; intros ->; [|reflexivity]. eexists. split; [reflexivity|]. apply written_mwrite. apply nth_error_lt in Ea. exact Ea.
Qed.

(** The same for time.Time, but for strings. *)
Theorem C43_time : forall n m a doc keys j old, nth_error m a = Some (VTime old) -> selected doc keys j -> j <> JNull -> (forall p, j <> JPtr p) -> (forall s, j <> JString s) ->
  (forall x, time_json (String_ j) = Some x -> exists m', Unmarshal (S n) m TTime a doc keys = TopOk m' /\ written m a (VTime x) m')
  /\ (time_json (String_ j) = None -> Unmarshal (S n) m TTime a doc keys = TopErr m EStd).
Proof.
  intros n m a doc keys j old Ea Sel N1 N2 N3. rewrite (selected_top _ _ _ _ _ _ _ Sel). cbn [resolve].
  assert (G : outcome (unm (S n) (start m) TTime a j) = match time_json (String_ j) with Some x => TopOk (mwrite m a (VTime x)) | None => TopErr m EStd end).
  { destruct j; try congruence; try (exfalso; eapply N2; reflexivity); try (exfalso; eapply N3; reflexivity); cbn [Unmarshal.unm indirect u_mem]; try (destruct (0 <? nid)); cbn [ubind save_node_value find_node u_sess u_mem];
      unfold call_std; rewrite Ea; match goal with |- context [time_json ?x] => destruct (time_json x) end; reflexivity. }
  rewrite G. split; [intros x ->|intros ->; reflexivity]. eexists. split; [reflexivity|]. apply written_mwrite. apply nth_error_lt in Ea. exact Ea.
Qed.

(** Keys: what Get answers. *)
Theorem C43_keys : forall n m t a doc keys, keys <> [] ->
  (forall e, Get doc keys = RErr e -> exists e', Unmarshal n m t a doc keys = TopGet e')
  /\ (forall j, Get doc keys = ROk j -> match j with JDict _ _ | JArray _ | JString _ => True | _ => False end ->
        Unmarshal n m t a doc keys = Unmarshal n m t a j []).
Proof.
  intros n m t a doc keys N. split.
  - intros e E. unfold Unmarshal.Unmarshal. destruct keys as [|k keys]; [congruence|]. destruct doc; cbn [receiver]; rewrite ?E; try (eexists; reflexivity).
  - intros j E H. rewrite (selected_top n m t a doc keys j) by (left; split; assumption). symmetry. apply selected_top. right. repeat split. exact H.
Qed.
End C43.
