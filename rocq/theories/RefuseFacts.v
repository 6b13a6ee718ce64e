(** What the parser does with the texts of SpecRefuse.v, and that there are no
    others. *)
From Verif Require Import Base Strconv SpecFloat SpecFloatText FloatSyntax SortedMap SortedMapFacts Utf8 Json SpecJson SpecRFC SpecScalar SpecText SpecLenient SpecRefuse
  StrconvFacts ScalarFacts Parser ParserFacts ParserFacts2 Gram RfcFacts TextFacts LenientFacts.
Open Scope Z_scope.

Definition stop {A} (x : pres A) (o : trouble) (rest : bytes) : Prop :=
  match o with Tells e => x = PErr e rest | Crashes p => x = PPanic p end.

(** ** Strings *)
Lemma hex_iff c : hex c <-> exists v, hexchar2num c = Some v.
Proof. split; intros (v & H); exists v; [apply hex_digit_num, H|apply hexchar_digit, H]. Qed.
Lemma not_hex2 a b : ~ (hex a /\ hex b) <-> hexstr2byte a b = None.
Proof.
  rewrite !hex_iff. unfold hexstr2byte. destruct (hexchar2num a) as [x|], (hexchar2num b) as [y|]; split; intros H; try reflexivity; try discriminate.
  - exfalso. apply H. eauto.
  - intros [_ [v K]]. discriminate.
  - intros [[v K] _]. discriminate.
  - intros [[v K] _]. discriminate.
Qed.
Lemma not_hex4 a b c d : ~ (hex a /\ hex b /\ hex c /\ hex d) <-> hexstr2rune a b c d = None.
Proof.
  unfold hexstr2rune. destruct (hexstr2byte a b) as [x|] eqn:E1.
  - destruct (hexstr2byte c d) as [y|] eqn:E2.
    + split; [|discriminate]. intros H. exfalso. apply hexstr2byte_digits in E1 as (? & ? & ? & ? & _). apply hexstr2byte_digits in E2 as (? & ? & ? & ? & _). apply H. unfold hex. eauto 10.
    + apply not_hex2 in E2. split; [reflexivity|]. intros _ H. apply E2. tauto.
  - apply not_hex2 in E1. split; [reflexivity|]. intros _ H. apply E1. tauto.
Qed.
Lemma bad_string_rest q t rest e : bad_string q t rest e -> t ++ rest <> [].
Proof. induction 1; cbn; try discriminate. rewrite <- app_assoc. destruct t; [apply lib_char_nonempty in H; congruence|discriminate]. Qed.
Lemma bad_string_parse q t rest e : quote q -> bad_string q t rest e -> forall acc, parse_quoted q acc (t ++ rest) = PErr e rest.
Proof.
  intros Q. induction 1 as [|rest L|a b c d e rest H|rest L|a b e rest H|t u ts rest e C H IH]; intros acc.
  - reflexivity.
  - cbn [app parse_quoted]. change (beq "\"%byte "\"%byte) with true. change (beq "u"%byte "u"%byte) with true. cbv iota.
    destruct rest as [|? [|? [|? [|? [|? ?]]]]]; try reflexivity. cbn in L. lia.
  - apply not_hex4 in H. cbn [app parse_quoted]. change (beq "\"%byte "\"%byte) with true. change (beq "u"%byte "u"%byte) with true. cbv iota. rewrite H. reflexivity.
  - cbn [app parse_quoted]. change (beq "\"%byte "\"%byte) with true. change (beq "x"%byte "u"%byte) with false. change (beq "x"%byte "x"%byte) with true. cbv iota.
    destruct rest as [|? [|? [|? ?]]]; try reflexivity. cbn in L. lia.
  - apply not_hex2 in H. cbn [app parse_quoted]. change (beq "\"%byte "\"%byte) with true. change (beq "x"%byte "u"%byte) with false. change (beq "x"%byte "x"%byte) with true. cbv iota. rewrite H. reflexivity.
  - rewrite <- app_assoc. pose proof (bad_string_rest _ _ _ _ H) as Ne. rewrite (lib_char_parse q t u) by assumption. apply IH.
Qed.
Lemma quoted_refused q : forall n s acc e r, (length s <= n)%nat -> parse_quoted q acc s = PErr e r -> exists t, s = t ++ r /\ bad_string q t r e.
Proof.
  induction n as [|n IH]; intros s acc e r Hn HP.
  - destruct s; [discriminate|simpl in Hn; lia].
  - destruct s as [|c s]; [discriminate|].
    assert (STEP : forall tx ux s' acc', lib_char q tx ux -> c :: s = tx ++ s' -> (length s' <= n)%nat -> parse_quoted q acc' s' = PErr e r ->
              exists t, c :: s = t ++ r /\ bad_string q t r e).
    { intros tx ux s' acc' HC E HL H. apply IH in H; [|exact HL]. destruct H as (t & -> & HB). exists (tx ++ t). rewrite E, <- app_assoc. split; [reflexivity|]. eapply bs_more; eassumption. }
    cbn [parse_quoted] in HP. simpl in Hn.
    destruct (beq_spec c "\"%byte) as [->|NB].
    + destruct s as [|x s]; [injection HP as <- <-; exists []; split; [reflexivity|constructor]|]. simpl in Hn.
      destruct (beq_spec x "u"%byte) as [->|N1].
      { destruct s as [|h1 [|h2 [|h3 [|h4 s]]]].
        1-4: injection HP as <- <-; exists ["\"; "u"]%byte; (split; [reflexivity|]); constructor; cbn; lia.
        destruct s as [|s0 s]; [injection HP as <- <-; exists ["\"; "u"]%byte; (split; [reflexivity|]); constructor; cbn; lia|].
        destruct (hexstr2rune h1 h2 h3 h4) as [z|] eqn:EH.
        - apply hexstr2rune_digits in EH as (a & y & a' & y' & H1 & H2 & H3 & H4 & EZ).
          pose proof (proj2 (hex_digit_num _ _ H1)). pose proof (proj2 (hex_digit_num _ _ H2)).
          pose proof (proj2 (hex_digit_num _ _ H3)). pose proof (proj2 (hex_digit_num _ _ H4)). simpl in Hn.
          destruct (utf8_or_surrogate z ltac:(lia)) as [[u HU]|HS].
          + rewrite EZ in HU. eapply (STEP ["\"%byte; "u"%byte; h1; h2; h3; h4] u (s0 :: s)); [eapply lc_u; eassumption|reflexivity|simpl; lia|exact HP].
          + rewrite EZ in HS. eapply (STEP ["\"%byte; "u"%byte; h1; h2; h3; h4] [xef; xbf; xbd] (s0 :: s)); [eapply lc_surrogate; eassumption|reflexivity|simpl; lia|exact HP].
        - injection HP as <- <-. apply not_hex4 in EH. exists ["\"; "u"]%byte. split; [reflexivity|]. constructor. exact EH. }
      destruct (beq_spec x "x"%byte) as [->|N2].
      { destruct s as [|h1 [|h2 s]].
        1-2: injection HP as <- <-; exists ["\"; "x"]%byte; (split; [reflexivity|]); constructor; cbn; lia.
        destruct s as [|s0 s]; [injection HP as <- <-; exists ["\"; "x"]%byte; (split; [reflexivity|]); constructor; cbn; lia|].
        destruct (hexstr2byte h1 h2) as [z|] eqn:EH.
        - apply hexstr2byte_digits in EH as (a & y & H1 & H2 & EZ).
          pose proof (proj2 (hex_digit_num _ _ H1)). pose proof (proj2 (hex_digit_num _ _ H2)). simpl in Hn.
          eapply (STEP ["\"%byte; "x"%byte; h1; h2] [zb z] (s0 :: s)); [eapply lc_x; [eassumption|eassumption|rewrite bz_zb; lia]|reflexivity|simpl; lia|exact HP].
        - injection HP as <- <-. apply not_hex2 in EH. exists ["\"; "x"]%byte. split; [reflexivity|]. constructor. exact EH. }
      destruct (beq_spec x "n"%byte) as [->|N3]; [eapply (STEP ["\"%byte; "n"%byte] [x0a] s); [constructor|reflexivity|simpl; lia|exact HP]|].
      destruct (beq_spec x "r"%byte) as [->|N4]; [eapply (STEP ["\"%byte; "r"%byte] [x0d] s); [constructor|reflexivity|simpl; lia|exact HP]|].
      destruct (beq_spec x "t"%byte) as [->|N5]; [eapply (STEP ["\"%byte; "t"%byte] [x09] s); [constructor|reflexivity|simpl; lia|exact HP]|].
      destruct (beq_spec x "b"%byte) as [->|N6]; [eapply (STEP ["\"%byte; "b"%byte] [x08] s); [constructor|reflexivity|simpl; lia|exact HP]|].
      destruct (beq_spec x "f"%byte) as [->|N7]; [eapply (STEP ["\"%byte; "f"%byte] [x0c] s); [constructor|reflexivity|simpl; lia|exact HP]|].
      assert (HC : lib_char q ["\"%byte; x] [x]) by (constructor; cbn; intuition congruence).
      destruct (beq_spec x "\"%byte) as [->|N8]; eapply (STEP _ _ s); try exact HC; try reflexivity; try (simpl; lia); exact HP.
    + destruct (beq_spec c q) as [->|NQ]; [discriminate|]. eapply (STEP [c] [c] s); [constructor; assumption|reflexivity|simpl; lia|exact HP].
Qed.
Lemma quoted_no_panic q : forall n s acc, (length s <= n)%nat -> match parse_quoted q acc s with PPanic _ | PFuel => False | _ => True end.
Proof.
  induction n as [|n IH]; intros s acc Hn.
  - destruct s; [exact Logic.I|simpl in Hn; lia].
  - destruct s as [|c s]; [exact Logic.I|]. cbn [parse_quoted]. simpl in Hn.
    destruct (beq c "\"%byte).
    + destruct s as [|x s]; [exact Logic.I|]. simpl in Hn. destruct (beq x "u"%byte).
      { destruct s as [|h1 [|h2 [|h3 [|h4 [|h5 s]]]]]; try exact Logic.I. destruct (hexstr2rune _ _ _ _); [|exact Logic.I]. apply IH. simpl in *. lia. }
      destruct (beq x "x"%byte).
      { destruct s as [|h1 [|h2 [|h3 s]]]; try exact Logic.I. destruct (hexstr2byte _ _); [|exact Logic.I]. apply IH. simpl in *. lia. }
      repeat (match goal with |- context [if ?b then _ else _] => destruct b end; try (apply IH; simpl in *; lia)).
    + destruct (beq c q); [exact Logic.I|]. apply IH. lia.
Qed.

(** ** Derivations give runs *)
Lemma blank_iff c : is_ws c = true <-> blank c.
Proof. unfold is_ws, blank. rewrite !orb_true_iff, !beq_eq. cbn. intuition congruence. Qed.
Lemma blank_false c : is_ws c = false <-> ~ blank c.
Proof. rewrite <- blank_iff. destruct (is_ws c); split; congruence. Qed.
Lemma nodup_fresh ids ids' : NoDup (ids ++ ids') -> fresh ids' (rev ids).
Proof. intros H. unfold fresh. rewrite <- rev_app_distr. apply NoDup_rev. exact H. Qed.
Lemma follow_wsp complete t w : wsp w -> (complete = false -> w = []) -> may_follow complete t w.
Proof. intros W H. split; [exact H|]. intros c t' _ _ _ d r ->. inversion W as [|? ? Wd _]; subst. apply delim_iff. unfold is_ws in Wd. unfold is_delim. rewrite !orb_true_iff in *. tauto. Qed.
Lemma wsp_nonempty w (s : bytes) : s <> [] -> exists a x, w ++ s = a :: x.
Proof. intros H. destruct w as [|a w]; [destruct s as [|b s]; [congruence|exists b, s; reflexivity]|exists a, (w ++ s); reflexivity]. Qed.
Lemma name_head kt k c r : name kt k -> kt = c :: r -> is_ws c = false /\ beq c "}"%byte = false.
Proof.
  intros N ->. inversion N as [q body u Q L E|t Bt Nq E]; subst; [destruct Q as [->| ->]; split; reflexivity|].
  apply bare_iff in Bt. inversion Bt as [|? ? Bc _]; subst. split; [apply ws_delim, Bc|]. destruct (beq c "}"%byte) eqn:E; [|reflexivity]. apply beq_eq in E. subst c. discriminate Bc.
Qed.
Lemma name_string kt k R : name kt k -> kt <> [] -> name_ends kt R -> exists b, parse_string (kt ++ R) = POk (k, b) R.
Proof.
  intros N Ne En. inversion N as [q body u Q L E|t Bt Nq E]; subst.
  - exists true. cbn [app parse_string]. apply quote_iff in Q as Q'. rewrite Q', <- app_assoc. cbn [app]. rewrite lib_chars_parse with (u := k) by (try apply quote_nb; assumption). reflexivity.
  - destruct k as [|c k]; [congruence|]. exists false. cbn [app parse_string]. rewrite (proj2 (quote_false c)) by (eapply Nq; reflexivity). apply bare_iff in Bt.
    change (c :: k ++ R) with ((c :: k) ++ R). destruct R as [|d R]; [rewrite app_nil_r, bare_token_end by exact Bt; reflexivity|].
    rewrite bare_token_app; [reflexivity|exact Bt|]. apply delim_iff. eapply En; [exact Nq|reflexivity].
Qed.
Lemma name_ends_ws kt w : wsp w -> name_ends kt w.
Proof. intros W _ d r ->. inversion W as [|? ? Wd _]; subst. apply delim_iff. unfold is_ws in Wd. unfold is_delim. rewrite !orb_true_iff in *. tauto. Qed.

Lemma stop_array {A} (x : pres A) C (k : A -> bytes -> pres C) o rest : stop x o rest ->
  stop (match x with POk a r => k a r | PErr e r => PErr e r | PPanic p => PPanic p | PFuel => PFuel end) o rest.
Proof. destruct o; cbn; intros ->; reflexivity. Qed.

Scheme bad_value_mut := Minimality for bad_value Sort Prop
  with bad_array_mut := Minimality for bad_array Sort Prop
  with bad_dict_mut := Minimality for bad_dict Sort Prop.
Combined Scheme bad_ind from bad_value_mut, bad_array_mut, bad_dict_mut.

Lemma bad_value_head ids t rest o : bad_value ids t rest o -> exists c r, t ++ rest = c :: r /\ is_ws c = false.
Proof.
  intros H. inversion H as [? c rest' I|? body rest' Bt Ni De|? q t' rest' e Q Bs|? t' rest' o' Ba|? t' rest' o' Bd|? co t' ms nid kvs ids' rest' L M P Nd I Fo]; subst.
  - exists c, rest'. split; [reflexivity|]. cbn in I. destruct I as [<-|[<-|[<-|[<-|[]]]]]; reflexivity.
  - eexists _, _. split; [reflexivity|reflexivity].
  - exists q, (t' ++ rest). split; [reflexivity|]. destruct Q as [->| ->]; reflexivity.
  - eexists _, _. split; [reflexivity|reflexivity].
  - eexists _, _. split; [reflexivity|reflexivity].
  - eexists _, _. split; [reflexivity|reflexivity].
Qed.
Lemma dict_step_any n ids acc nid w1 kt k w2 w3 s : wsp w1 -> name kt k -> wsp w2 -> wsp w3 -> (exists c r, s = c :: r /\ is_ws c = false) ->
  dict_loop (S n) ids acc nid (w1 ++ kt ++ w2 ++ ":"%byte :: w3 ++ s) =
  match parse_value n ids s with
  | PErr e r => PErr e r | PPanic p => PPanic p | PFuel => PFuel
  | POk (v, ss) s5 => dict_after n acc nid k v ss s5
  end.
Proof. intros W1 N W2 W3 (c & r & -> & Hc). apply dict_step; assumption. Qed.

Lemma lval_app_head complete t v ids X : lval complete t v ids -> exists c r, t ++ X = c :: r /\ is_ws c = false.
Proof. intros L. destruct (lval_head _ _ _ _ L) as (c & r & -> & Hc & _). exists c, (r ++ X). split; [reflexivity|exact Hc]. Qed.

Theorem bad_parse :
  (forall ids t rest o, bad_value ids t rest o -> exists N, forall n, (N <= n)%nat -> stop (parse_value n (rev ids) (t ++ rest)) o rest)
  /\ (forall ids t rest o, bad_array ids t rest o -> exists N, forall n acc, (N <= n)%nat -> stop (array_loop n (rev ids) acc (t ++ rest)) o rest)
  /\ (forall ids t rest o, bad_dict ids t rest o -> exists N, forall n acc nid, (N <= n)%nat -> stop (dict_loop n (rev ids) acc nid (t ++ rest)) o rest).
Proof.
  destruct len_parse as (LV & _ & LD). apply bad_ind.
  - intros ids c rest I. exists 1%nat. intros n Hn. destruct n as [|n]; [lia|]. cbn in I. destruct I as [<-|[<-|[<-|[<-|[]]]]]; reflexivity.
  - intros ids body rest Bt Ni De. exists 1%nat. intros n Hn. destruct n as [|n]; [lia|]. cbn [app parse_value]. change (beq "<"%byte "["%byte) with false. change (beq "<"%byte "{"%byte) with false. cbv iota.
    unfold parse_scalar. cbn [parse_string]. change (beq "<"%byte """"%byte || beq "<"%byte "'"%byte) with false. cbv iota.
    change ("<"%byte :: (body ++ [">"%byte]) ++ rest) with (("<"%byte :: body ++ [">"%byte]) ++ rest). apply bare_iff in Bt.
    assert (E : bare_token (("<"%byte :: body ++ [">"%byte]) ++ rest) = ("<"%byte :: body ++ [">"%byte], rest)).
    { destruct rest as [|d r]; [rewrite app_nil_r; apply bare_token_end, Bt|]. apply bare_token_app; [exact Bt|]. apply delim_iff. eapply De. reflexivity. }
    rewrite E. assert (V : bare_value ("<"%byte :: body ++ [">"%byte]) = None).
    { destruct (bare_value _) as [v|] eqn:V; [|reflexivity]. exfalso. unfold bare_value in V. rewrite (proj2 (angled_iff _)) in V by (exists body; reflexivity). rewrite angled_inner in V. apply no_int64 in Ni. rewrite Ni in V. discriminate. }
    rewrite V. reflexivity.
  - intros ids q t rest e Q Bs. exists 1%nat. intros n Hn. destruct n as [|n]; [lia|]. cbn [app parse_value].
    assert (beq q "["%byte = false) as -> by (destruct Q as [->| ->]; reflexivity). assert (beq q "{"%byte = false) as -> by (destruct Q as [->| ->]; reflexivity).
    unfold parse_scalar. cbn [parse_string]. apply quote_iff in Q as Q'. rewrite Q'. rewrite (bad_string_parse q t rest e Q Bs). reflexivity.
  - intros ids t rest o _ [N IH]. exists (S N). intros n Hn. destruct n as [|n]; [lia|]. cbn [app parse_value]. change (beq "["%byte "["%byte) with true. cbv iota.
    specialize (IH n [] ltac:(lia)). destruct o; cbn in IH |- *; rewrite IH; reflexivity.
  - intros ids t rest o _ [N IH]. exists (S N). intros n Hn. destruct n as [|n]; [lia|]. cbn [app parse_value]. change (beq "{"%byte "["%byte) with false. change (beq "{"%byte "{"%byte) with true. cbv iota.
    specialize (IH n sm_empty 0 ltac:(lia)). destruct o; cbn in IH |- *; rewrite IH; reflexivity.
  - intros ids co t ms nid kvs ids' rest L M P Nd I Fo. destruct (LD _ _ _ _ L) as [N HN]. exists (S N). intros n Hn. destruct n as [|n]; [lia|]. cbn [app parse_value]. change (beq "{"%byte "["%byte) with false. change (beq "{"%byte "{"%byte) with true. cbv iota.
    apply members_iff in M. rewrite (HN n (rev ids) sm_empty 0 nid kvs rest ltac:(lia) (nodup_fresh _ _ Nd) Fo M). replace (0 <? nid) with true by lia.
    unfold save_node. assert (existsb (Z.eqb nid) (rev ids' ++ rev ids) = true) as ->; [|reflexivity]. apply existsb_exists. exists nid. split; [|apply Z.eqb_refl]. rewrite <- rev_app_distr, <- in_rev. exact I.
  - intros ids w W Ne. apply ws_iff in W. exists 1%nat. intros n acc Hn. destruct n as [|n]; [lia|]. rewrite app_nil_r. cbn [array_loop]. destruct w as [|a w]; [congruence|]. rewrite skip_empty_all by exact W. reflexivity.
  - intros ids w t rest o W Bv [N IH] Nc. apply ws_iff in W. exists (S N). intros n acc Hn. destruct n as [|n]; [lia|]. rewrite <- app_assoc. cbn [array_loop].
    destruct (bad_value_head _ _ _ _ Bv) as (c & r & E & Hc). specialize (IH n ltac:(lia)). rewrite E in *. assert (exists a x, w ++ c :: r = a :: x) as (a & x & X) by (apply wsp_nonempty; discriminate). rewrite X, <- X.
    rewrite skip_ws_head by assumption. assert (beq c "]"%byte = false) as -> by (apply beq_neq; intros ->; eapply Nc; reflexivity). destruct o; cbn in IH |- *; rewrite IH; reflexivity.
  - intros ids co w1 t w2 v ids' W1 Lv W2 Nd Fo. apply ws_iff in W1, W2. destruct (LV _ _ _ _ Lv) as [N HN]. exists (S N). intros n acc Hn. destruct n as [|n]; [lia|]. rewrite app_nil_r. cbn [array_loop].
    destruct (lval_head _ _ _ _ Lv) as (c & r & -> & Hs1 & Hs2 & _). cbn [app]. assert (exists a x, w1 ++ c :: r ++ w2 = a :: x) as (a & x & X) by (apply wsp_nonempty; discriminate). rewrite X, <- X. rewrite skip_ws_head by assumption. rewrite Hs2.
    specialize (HN n (rev ids) w2 ltac:(lia) (nodup_fresh _ _ Nd) (follow_wsp _ _ _ W2 Fo)). cbn [app] in HN. rewrite HN. rewrite skip_empty_all by exact W2. reflexivity.
  - intros ids w1 t w2 v ids' c rest W1 Lv W2 Nd Fo Nb N1 N2. apply ws_iff in W1, W2. destruct (LV _ _ _ _ Lv) as [N HN]. exists (S N). intros n acc Hn. destruct n as [|n]; [lia|].
    replace ((w1 ++ t ++ w2) ++ c :: rest) with (w1 ++ t ++ w2 ++ c :: rest) by (rewrite <- !app_assoc; reflexivity). cbn [array_loop].
    destruct (lval_head _ _ _ _ Lv) as (c0 & r & -> & Hs1 & Hs2 & _). cbn [app]. assert (exists a x, w1 ++ c0 :: r ++ w2 ++ c :: rest = a :: x) as (a & x & X) by (apply wsp_nonempty; discriminate). rewrite X, <- X. rewrite skip_ws_head by assumption. rewrite Hs2.
    specialize (HN n (rev ids) (w2 ++ c :: rest) ltac:(lia) (nodup_fresh _ _ Nd) Fo). cbn [app] in HN. rewrite HN. rewrite skip_ws_head by (assumption || apply blank_false, Nb). apply beq_neq in N1, N2. rewrite N1, N2. reflexivity.
  - intros ids w1 t w2 v ids' t' rest o W1 Lv W2 Nd _ [N' IH]. apply ws_iff in W1, W2. destruct (LV _ _ _ _ Lv) as [N HN]. exists (S (N + N')). intros n acc Hn. destruct n as [|n]; [lia|].
    replace ((w1 ++ t ++ w2 ++ ","%byte :: t') ++ rest) with (w1 ++ t ++ w2 ++ ","%byte :: t' ++ rest) by (rewrite <- !app_assoc; reflexivity). cbn [array_loop].
    destruct (lval_head _ _ _ _ Lv) as (c0 & r & -> & Hs1 & Hs2 & _). cbn [app]. assert (exists a x, w1 ++ c0 :: r ++ w2 ++ ","%byte :: t' ++ rest = a :: x) as (a & x & X) by (apply wsp_nonempty; discriminate). rewrite X, <- X. rewrite skip_ws_head by assumption. rewrite Hs2.
    specialize (HN n (rev ids) (w2 ++ ","%byte :: t' ++ rest) ltac:(lia) (nodup_fresh _ _ Nd)). cbn [app] in HN. rewrite HN by (apply follow_ws; [reflexivity|assumption|reflexivity]).
    rewrite skip_ws_head by (assumption || reflexivity). change (beq ","%byte ","%byte) with true. cbv iota. rewrite <- rev_app_distr. apply IH. lia.
  - intros ids w W Ne. apply ws_iff in W. exists 1%nat. intros n acc nid Hn. destruct n as [|n]; [lia|]. rewrite app_nil_r. cbn [dict_loop]. destruct w as [|a w]; [congruence|]. rewrite skip_empty_all by exact W. reflexivity.
  - intros ids w q t rest e W Q Bs. apply ws_iff in W. exists 1%nat. intros n acc nid Hn. destruct n as [|n]; [lia|]. rewrite <- app_assoc. cbn [app dict_loop].
    assert (exists a x, w ++ q :: t ++ rest = a :: x) as (a & x & X) by (apply wsp_nonempty; discriminate). rewrite X, <- X. assert (Hq : is_ws q = false /\ beq q "}"%byte = false) by (destruct Q as [->| ->]; split; reflexivity). destruct Hq as [Hw Hc].
    rewrite skip_ws_head by assumption. rewrite Hc. cbn [parse_string]. apply quote_iff in Q as Q'. rewrite Q'. rewrite (bad_string_parse q t rest e Q Bs). reflexivity.
  - intros ids w q body k W Q U. apply ws_iff in W. exists 1%nat. intros n acc nid Hn. destruct n as [|n]; [lia|]. rewrite app_nil_r. cbn [dict_loop].
    assert (exists a x, w ++ q :: body = a :: x) as (a & x & X) by (apply wsp_nonempty; discriminate). rewrite X, <- X. assert (Hq : is_ws q = false /\ beq q "}"%byte = false) by (destruct Q as [->| ->]; split; reflexivity). destruct Hq as [Hw Hc].
    rewrite skip_ws_head by assumption. rewrite Hc. cbn [parse_string]. apply quote_iff in Q as Q'. rewrite Q'. rewrite (unfinished_parse q body k Q U). reflexivity.
  - intros ids w1 kt k w2 W1 Nm Ne W2. apply ws_iff in W1, W2. exists 1%nat. intros n acc nid Hn. destruct n as [|n]; [lia|]. rewrite app_nil_r. cbn [dict_loop].
    destruct (name_string kt k w2 Nm Ne (name_ends_ws kt w2 W2)) as (b & P). destruct kt as [|c kt]; [congruence|]. destruct (name_head _ _ _ _ Nm eq_refl) as [Hw Hc]. cbn [app] in *.
    assert (exists a x, w1 ++ c :: kt ++ w2 = a :: x) as (a & x & X) by (apply wsp_nonempty; discriminate). rewrite X, <- X. rewrite skip_ws_head by assumption. rewrite Hc, P. rewrite skip_empty_all by exact W2. reflexivity.
  - intros ids w1 kt k w2 c rest W1 Nm W2 En Nb N1 N2. apply ws_iff in W1, W2. apply blank_false in Nb. exists 1%nat. intros n acc nid Hn. destruct n as [|n]; [lia|].
    replace ((w1 ++ kt ++ w2) ++ c :: rest) with (w1 ++ kt ++ w2 ++ c :: rest) by (rewrite <- !app_assoc; reflexivity). cbn [dict_loop]. apply beq_neq in N1. destruct kt as [|c0 kt].
    + destruct (N2 eq_refl) as [-> N3]. cbn [app] in *. assert (exists a x, w1 ++ c :: rest = a :: x) as (a & x & X) by (apply wsp_nonempty; discriminate). rewrite X, <- X. rewrite skip_ws_head by assumption. apply beq_neq in N3. rewrite N3.
      assert (D : is_delim c = true) by (apply delim_iff; eapply En; [discriminate|reflexivity]). cbn [parse_string bare_token]. rewrite D.
      assert (beq c """"%byte || beq c "'"%byte = false) as ->. { destruct (beq c """"%byte) eqn:E1; [apply beq_eq in E1; subst c; discriminate D|]. destruct (beq c "'"%byte) eqn:E2; [apply beq_eq in E2; subst c; discriminate D|]. reflexivity. }
      cbn [skip_empty]. rewrite Nb, N1. reflexivity.
    + destruct (name_string (c0 :: kt) k (w2 ++ c :: rest) Nm ltac:(discriminate) En) as (b & P). destruct (name_head _ _ _ _ Nm eq_refl) as [Hw Hc]. cbn [app] in *.
      assert (exists a x, w1 ++ c0 :: kt ++ w2 ++ c :: rest = a :: x) as (a & x & X) by (apply wsp_nonempty; discriminate). rewrite X, <- X. rewrite skip_ws_head by assumption. rewrite Hc, P. rewrite skip_ws_head by assumption. rewrite N1. reflexivity.
  - intros ids w1 kt k w2 w3 W1 Nm W2 W3. apply ws_iff in W1, W2, W3. exists 1%nat. intros n acc nid Hn. destruct n as [|n]; [lia|]. rewrite app_nil_r. cbn [dict_loop].
    destruct (name_parse kt k w1 w2 w3 W1 Nm W2) as (b & c0 & y & s2 & E1 & E2 & E3 & E4). assert (exists a x, w1 ++ kt ++ w2 ++ ":"%byte :: w3 = a :: x) as (a & x & X).
    { rewrite !app_assoc. apply wsp_nonempty. discriminate. } rewrite X, <- X. rewrite E1, E2, E3, E4. change (beq ":"%byte ":"%byte) with true. cbn [negb]. rewrite skip_empty_all by exact W3. reflexivity.
  - intros ids w1 kt k w2 w3 t rest o W1 Nm W2 W3 Bv [N IH]. apply ws_iff in W1, W2, W3. exists (S N). intros n acc nid Hn. destruct n as [|n]; [lia|].
    replace ((w1 ++ kt ++ w2 ++ ":"%byte :: w3 ++ t) ++ rest) with (w1 ++ kt ++ w2 ++ ":"%byte :: w3 ++ (t ++ rest)) by (rewrite <- ?app_assoc; cbn [app]; rewrite <- ?app_assoc; reflexivity).
    rewrite (dict_step_any n _ acc nid w1 kt k w2 w3) by (assumption || eapply bad_value_head, Bv). specialize (IH n ltac:(lia)). destruct o; cbn in IH |- *; rewrite IH; reflexivity.
  - intros ids w1 kt w2 w3 co t v ids' rest W1 Nm W2 W3 Lv Nd Fo Nz. apply ws_iff in W1, W2, W3. destruct (LV _ _ _ _ Lv) as [N HN]. exists (S N). intros n acc nid Hn. destruct n as [|n]; [lia|].
    replace ((w1 ++ kt ++ w2 ++ ":"%byte :: w3 ++ t) ++ rest) with (w1 ++ kt ++ w2 ++ ":"%byte :: w3 ++ (t ++ rest)) by (rewrite <- ?app_assoc; cbn [app]; rewrite <- ?app_assoc; reflexivity).
    rewrite (dict_step_any n _ acc nid w1 kt reserved w2 w3) by (assumption || eapply lval_app_head, Lv).
    rewrite (HN n (rev ids) rest ltac:(lia) (nodup_fresh _ _ Nd) Fo). unfold dict_after. change (bseq reserved jnid_key) with true. cbv iota. destruct v; try reflexivity. exfalso. eapply Nz. reflexivity.
  - intros ids w1 kt k w2 w3 co t v ids' w4 W1 Nm W2 W3 Lv Nd W4 Fo Rz. apply ws_iff in W1, W2, W3, W4. destruct (LV _ _ _ _ Lv) as [N HN]. exists (S N). intros n acc nid Hn. destruct n as [|n]; [lia|]. rewrite app_nil_r.
    rewrite (dict_step_any n _ acc nid w1 kt k w2 w3) by (assumption || eapply lval_app_head, Lv).
    rewrite (HN n (rev ids) w4 ltac:(lia) (nodup_fresh _ _ Nd) (follow_wsp _ _ _ W4 Fo)). unfold dict_after. rewrite skip_empty_all by exact W4.
    destruct (bseq k jnid_key) eqn:K; [|reflexivity]. apply bseq_eq in K. destruct (Rz K) as (z & ->). reflexivity.
  - intros ids w1 kt k w2 w3 t v ids' w4 c rest W1 Nm W2 W3 Lv Nd W4 Fo Rz Nb N1 N2. apply ws_iff in W1, W2, W3, W4. destruct (LV _ _ _ _ Lv) as [N HN]. exists (S N). intros n acc nid Hn. destruct n as [|n]; [lia|].
    replace ((w1 ++ kt ++ w2 ++ ":"%byte :: w3 ++ t ++ w4) ++ c :: rest) with (w1 ++ kt ++ w2 ++ ":"%byte :: w3 ++ (t ++ w4 ++ c :: rest)) by (rewrite <- ?app_assoc; cbn [app]; rewrite <- ?app_assoc; reflexivity).
    rewrite (dict_step_any n _ acc nid w1 kt k w2 w3) by (assumption || eapply lval_app_head, Lv).
    rewrite (HN n (rev ids) (w4 ++ c :: rest) ltac:(lia) (nodup_fresh _ _ Nd) Fo). unfold dict_after. rewrite skip_ws_head by (assumption || apply blank_false, Nb). apply beq_neq in N1, N2. rewrite N1, N2.
    destruct (bseq k jnid_key) eqn:K; [|reflexivity]. apply bseq_eq in K. destruct (Rz K) as (z & ->). reflexivity.
  - intros ids w1 kt k w2 w3 t v ids' w4 t' rest o W1 Nm W2 W3 Lv Nd W4 Rz _ [N' IH]. apply ws_iff in W1, W2, W3, W4. destruct (LV _ _ _ _ Lv) as [N HN]. exists (S (N + N')). intros n acc nid Hn. destruct n as [|n]; [lia|].
    replace ((w1 ++ kt ++ w2 ++ ":"%byte :: w3 ++ t ++ w4 ++ ","%byte :: t') ++ rest) with (w1 ++ kt ++ w2 ++ ":"%byte :: w3 ++ (t ++ w4 ++ ","%byte :: t' ++ rest)) by (rewrite <- ?app_assoc; cbn [app]; rewrite <- ?app_assoc; cbn [app]; rewrite <- ?app_assoc; reflexivity).
    rewrite (dict_step_any n _ acc nid w1 kt k w2 w3) by (assumption || eapply lval_app_head, Lv).
    rewrite (HN n (rev ids) (w4 ++ ","%byte :: t' ++ rest) ltac:(lia) (nodup_fresh _ _ Nd)) by (apply follow_ws; [reflexivity|assumption|reflexivity]).
    unfold dict_after. rewrite skip_ws_head by (assumption || reflexivity). change (beq ","%byte ","%byte) with true. cbv iota. rewrite <- rev_app_distr.
    destruct (bseq k jnid_key) eqn:K; [|apply IH; lia]. apply bseq_eq in K. destruct (Rz K) as (z & ->). apply IH. lia.
Qed.

(** ** Runs give derivations *)
Definition found (bad : bytes -> bytes -> trouble -> Prop) (s : bytes) (o : trouble) (r : bytes) : Prop :=
  exists t r', s = t ++ r' /\ bad t r' o /\ match o with Tells _ => r' = r | Crashes _ => True end.
Lemma found_under (bad bad' : bytes -> bytes -> trouble -> Prop) s s' o r : found bad s o r -> (forall t r', s = t ++ r' -> bad t r' o -> exists t', s' = t' ++ r' /\ bad' t' r' o) -> found bad' s' o r.
Proof. intros (t & r' & E & H & Q) F. destruct (F t r' E H) as (t' & E' & H'). exists t', r'. auto. Qed.
Lemma stop_pass {A C} (x : pres A) (k : A -> bytes -> pres C) o r :
  stop (match x with POk a s => k a s | PErr e s => PErr e s | PPanic p => PPanic p | PFuel => PFuel end) o r -> stop x o r \/ exists a s, x = POk a s /\ stop (k a s) o r.
Proof. destruct x as [a s|e s|p|]; destruct o; cbn; intros H; try discriminate H; try (left; congruence); right; eauto. Qed.
Lemma stop_ok {A} (a : A) s o r : stop (POk a s) o r -> False. Proof. destruct o; cbn; discriminate. Qed.
Lemma bare_value_none t : bare_value t = None -> exists body, t = "<"%byte :: body ++ [">"%byte] /\ forall n, ~ int64_text body n.
Proof.
  unfold bare_value. destruct (_ && _) eqn:A.
  - apply angled_iff in A as (body & ->). rewrite angled_inner. destruct (parse_int body) as [n|] eqn:P; [discriminate|]. intros _. exists body. split; [reflexivity|]. apply no_int64, P.
  - destruct (_ || _); [discriminate|]. destruct (_ || _); [discriminate|]. destruct (_ || _); [discriminate|]. destruct (parse_int t); [discriminate|]. destruct (parse_float F64 t); discriminate.
Qed.
Lemma nodup_rev (sess ids : list Z) : NoDup (rev ids ++ sess) -> NoDup (rev sess ++ ids).
Proof. intros H. apply NoDup_rev in H. rewrite rev_app_distr, rev_involutive in H. exact H. Qed.
Lemma rev_sess (sess ids : list Z) : rev (rev ids ++ sess) = rev sess ++ ids.
Proof. rewrite rev_app_distr, rev_involutive. reflexivity. Qed.
Lemma skip_nil_ws s : skip_empty s = [] -> wsp s.
Proof. induction s as [|c s IH]; [constructor|]. cbn [skip_empty]. destruct (is_ws c) eqn:E; [|discriminate]. intros H. constructor; [exact E|apply IH, H]. Qed.

Theorem bad_complete n :
  (forall sess s o r, NoDup sess -> (exists c s', s = c :: s' /\ is_ws c = false) -> stop (parse_value n sess s) o r -> found (bad_value (rev sess)) s o r)
  /\ (forall sess acc s o r, NoDup sess -> stop (array_loop n sess acc s) o r -> found (bad_array (rev sess)) s o r)
  /\ (forall sess acc nid s o r, NoDup sess -> stop (dict_loop n sess acc nid s) o r -> found (bad_dict (rev sess)) s o r).
Proof.
  destruct (len_complete n) as (LV & LD & _). induction n as [|n IH].
  { split; [|split]; intros; exfalso; destruct o; discriminate. }
  destruct (len_complete n) as (LVn & LDn & LAn). specialize (IH LVn LDn). destruct IH as (IHv & IHa & IHd). clear LV LD. split; [|split].
  - intros sess s o r Nd (c & s' & -> & Wc). cbn [parse_value]. destruct (beq c "["%byte) eqn:Ea.
    { apply beq_eq in Ea. subst c. intros H. apply (stop_pass _ (fun a r0 => let '(l, ss) := a in POk (JArray l, ss) r0)) in H as [H|([l ss] & s2 & _ & H)]; [|destruct (stop_ok _ _ _ _ H)].
      eapply found_under; [apply (IHa sess [] s' o r Nd H)|]. intros t r' -> B. exists ("["%byte :: t). split; [reflexivity|constructor; exact B]. }
    destruct (beq c "{"%byte) eqn:Ed.
    { apply beq_eq in Ed. subst c. intros H.
      apply (stop_pass _ (fun a r0 => let '(kvs, nid, ss) := a in if 0 <? nid then match save_node ss nid with Some ss' => POk (JDict nid kvs, ss') r0 | None => PPanic PDuplicateNode end else POk (JDict nid kvs, ss) r0)) in H as [H|([[kvs nid] ss] & s2 & E & H)].
      - eapply found_under; [apply (IHd sess sm_empty 0 s' o r Nd H)|]. intros t r' -> B. exists ("{"%byte :: t). split; [reflexivity|constructor; exact B].
      - destruct (0 <? nid) eqn:P; [|destruct (stop_ok _ _ _ _ H)]. destruct (save_node ss nid) eqn:Sn; [destruct (stop_ok _ _ _ _ H)|].
        destruct o as [e|p]; cbn in H; [discriminate|]. injection H as <-.
        destruct (LDn _ _ _ _ _ _ _ _ E) as (co & t & ms & ids & -> & L & M & -> & Nd' & Fo). apply members_iff in M.
        exists ("{"%byte :: t), s2. split; [reflexivity|]. split; [|exact Logic.I]. eapply bv_twice; [exact L|exact M|lia|apply nodup_rev, Nd', Nd| |exact Fo].
        unfold save_node in Sn. destruct (existsb (Z.eqb nid) (rev ids ++ sess)) eqn:Ex; [|discriminate]. apply existsb_exists in Ex as (z & I & Ez). apply Z.eqb_eq in Ez. subst z.
        rewrite in_app_iff in *. rewrite <- in_rev in *. tauto. }
    unfold parse_scalar. cbn [parse_string]. destruct (beq c """"%byte || beq c "'"%byte) eqn:Q.
    + apply quote_iff in Q. pose proof (quoted_no_panic c (length s') s' [] ltac:(lia)) as NP. destruct (parse_quoted c [] s') as [t r'|e r'|p|] eqn:E; try contradiction.
      * destruct t; intros H; destruct (stop_ok _ _ _ _ H).
      * intros H. destruct o as [e'|p]; cbn in H; [|discriminate]. injection H as <- <-. destruct (quoted_refused c (length s') s' [] e r' ltac:(lia) E) as (t & -> & B).
        exists (c :: t), r'. split; [reflexivity|]. split; [constructor; assumption|reflexivity].
    + apply quote_false in Q. destruct (bare_token (c :: s')) as [t r'] eqn:E. apply bare_token_split in E as (E & F & D). destruct t as [|a t].
      * intros H. destruct o as [e'|p]; cbn in H; [discriminate|]. injection H as <-. exists [], (c :: s'). split; [reflexivity|]. split; [|exact Logic.I]. apply bv_nothing. cbn in E. subst r'.
        apply delim_iff in D. unfold delimiter in D. cbn in D. apply blank_false in Wc. unfold blank in Wc. cbn in Wc. cbn. intuition congruence.
      * destruct (bare_value (a :: t)) as [v|] eqn:Bv; [intros H; destruct (stop_ok _ _ _ _ H)|]. intros H. destruct o as [e'|p]; cbn in H; [|discriminate]. injection H as <- <-.
        apply bare_value_none in Bv as (body & Eb & Ni). rewrite Eb in E, F. rewrite E. eexists _, _. split; [reflexivity|]. split; [|reflexivity].
        apply bv_reference; [apply bare_iff, F|exact Ni|]. intros d r0 ->. apply delim_iff, D.
  - intros sess acc s o r Nd. destruct s as [|s0 s]; cbn [array_loop]; [intros H; destruct (stop_ok _ _ _ _ H)|].
    destruct (skip_empty (s0 :: s)) as [|c s1] eqn:Sk.
    { intros H. destruct o as [e|p]; cbn in H; [|discriminate]. injection H as <- <-. apply skip_nil_ws in Sk. exists (s0 :: s), []. rewrite app_nil_r. split; [reflexivity|]. split; [|reflexivity]. apply ba_blank; [apply ws_iff, Sk|discriminate]. }
    apply skip_empty_cons_split in Sk as (w1 & Es & W1 & Wc). rewrite Es. clear Es s0 s.
    destruct (beq c "]"%byte) eqn:Ec; [intros H; destruct (stop_ok _ _ _ _ H)|]. intros H.
    apply (stop_pass _ (fun a s2 => let '(v, ss) := a in match skip_empty s2 with [] => PErr ETruncated [] | c3 :: s3 => if beq c3 ","%byte then array_loop n ss (v :: acc) s3 else if beq c3 "]"%byte then POk (rev (v :: acc), ss) s3 else PErr EUnexpectedChar (c3 :: s3) end)) in H as [H|([v ss] & s2 & E & H)].
    + eapply found_under; [apply (IHv sess _ o r Nd (ex_intro _ c (ex_intro _ s1 (conj eq_refl Wc))) H)|]. intros t r' E B. exists (w1 ++ t). split; [rewrite E, app_assoc; reflexivity|].
      apply ba_value; [apply ws_iff, W1|exact B|]. intros r0 E'. rewrite <- E in E'. injection E' as -> _. discriminate Ec.
    + destruct (LVn _ _ _ _ _ E) as (co & t & ids & Et & Lv & -> & Nd' & Fo). rewrite Et. clear Et E. pose proof (nodup_rev _ _ (Nd' Nd)) as Nr.
      destruct (skip_empty s2) as [|c3 s3] eqn:Sk.
      { destruct o as [e|p]; cbn in H; [|discriminate]. injection H as <- <-. apply skip_nil_ws in Sk. exists (w1 ++ t ++ s2), []. rewrite app_nil_r. split; [reflexivity|]. split; [|reflexivity].
        eapply ba_end; [apply ws_iff, W1|exact Lv|apply ws_iff, Sk|exact Nr|apply Fo]. }
      apply skip_empty_cons_split in Sk as (w2 & -> & W2 & Wc3). assert (co = true) as -> by (destruct co; [reflexivity|destruct Fo as [Fo _]; specialize (Fo eq_refl); destruct w2; discriminate]).
      destruct (beq c3 ","%byte) eqn:E3.
      * apply beq_eq in E3. subst c3. eapply found_under; [apply (IHa _ _ _ _ _ (Nd' Nd) H)|]. intros t' r' -> B. rewrite rev_sess in B.
        exists (w1 ++ t ++ w2 ++ ","%byte :: t'). split; [rewrite <- ?app_assoc; cbn [app]; rewrite <- ?app_assoc; reflexivity|]. eapply ba_more; [apply ws_iff, W1|exact Lv|apply ws_iff, W2|exact Nr|exact B].
      * destruct (beq c3 "]"%byte) eqn:E4; [destruct (stop_ok _ _ _ _ H)|]. destruct o as [e|p]; cbn in H; [|discriminate]. injection H as <- <-. exists (w1 ++ t ++ w2), (c3 :: s3). split; [rewrite <- ?app_assoc; reflexivity|].
        split; [|reflexivity]. eapply ba_char; [apply ws_iff, W1|exact Lv|apply ws_iff, W2|exact Nr|exact Fo|apply blank_false, Wc3|apply beq_neq, E3|apply beq_neq, E4].
  - intros sess acc nid s o r Nd. destruct s as [|s0 s]; cbn [dict_loop]; [intros H; destruct (stop_ok _ _ _ _ H)|].
    destruct (skip_empty (s0 :: s)) as [|c s1] eqn:Sk.
    { intros H. destruct o as [e|p]; cbn in H; [|discriminate]. injection H as <- <-. apply skip_nil_ws in Sk. exists (s0 :: s), []. rewrite app_nil_r. split; [reflexivity|]. split; [|reflexivity]. apply bd_blank; [apply ws_iff, Sk|discriminate]. }
    apply skip_empty_cons_split in Sk as (w1 & Es & W1 & Wc). rewrite Es. clear Es s0 s.
    destruct (beq c "}"%byte) eqn:Ec; [intros H; destruct (stop_ok _ _ _ _ H)|].
    destruct (parse_string (c :: s1)) as [[k b] s2|e s2|p|] eqn:Ps.
    2:{ intros H. destruct o as [e'|p]; cbn in H; [|discriminate]. injection H as <- <-. cbn [parse_string] in Ps. destruct (beq c """"%byte || beq c "'"%byte) eqn:Q; [|destruct (bare_token (c :: s1)); discriminate].
        apply quote_iff in Q. destruct (parse_quoted c [] s1) as [? ?|e0 r0|?|] eqn:E; try discriminate. injection Ps as -> ->. destruct (quoted_refused c (length s1) s1 [] e s2 ltac:(lia) E) as (t & -> & B).
        exists (w1 ++ c :: t), s2. split; [rewrite <- app_assoc; reflexivity|]. split; [|reflexivity]. apply bd_name; [apply ws_iff, W1|exact Q|exact B]. }
    2,3: exfalso; cbn [parse_string] in Ps; (destruct (beq c """"%byte || beq c "'"%byte); [|destruct (bare_token (c :: s1)); discriminate]); pose proof (quoted_no_panic c (length s1) s1 [] ltac:(lia)) as NP; destruct (parse_quoted c [] s1); try discriminate; contradiction.
    assert (NAME : (exists kt, c :: s1 = kt ++ s2 /\ name kt k /\ (kt = [] -> s2 = c :: s1) /\ name_ends kt s2) \/ (s2 = [] /\ quote c /\ unfinished c s1 k)).
    { pose proof Ps as Ps'. cbn [parse_string] in Ps. destruct (beq c """"%byte || beq c "'"%byte) eqn:Q.
      - apply quote_iff in Q. destruct (parse_quoted c [] s1) as [t r0|? ?|?|] eqn:E; try discriminate. injection Ps as <- <- <-.
        destruct (quoted_complete c (length s1) s1 [] t r0 ltac:(lia) E) as (body & u & Eu & [[-> L]|(-> & -> & U)]); cbn in Eu; subst u; [left|right; auto].
        exists (c :: body ++ [c]). split; [cbn; rewrite <- app_assoc; reflexivity|]. split; [apply nm_quoted; assumption|]. split; [discriminate|]. intros Nq. destruct (Nq _ _ eq_refl Q).
      - apply quote_false in Q. destruct (bare_token (c :: s1)) as [t r0] eqn:E. injection Ps as <- <- <-. apply bare_token_split in E as (E & F & D). left.
        exists t. split; [exact E|]. split; [apply nm_word; [apply bare_iff, F|]; intros c0 r1 ->; injection E as <- _; exact Q|]. split; [intros ->; symmetry; exact E|].
        intros _ d r1 ->. apply delim_iff, D. }
    destruct NAME as [(kt & Ek & Nm & Ke & En)|(-> & Q & U)].
    2:{ intros H. cbn [skip_empty] in H. destruct o as [e'|p]; cbn in H; [|discriminate]. injection H as <- <-. exists (w1 ++ c :: s1), []. rewrite app_nil_r. split; [reflexivity|]. split; [|reflexivity]. eapply bd_name_cut; [apply ws_iff, W1|exact Q|exact U]. }
    destruct (skip_empty s2) as [|c3 s3] eqn:Sk2.
    { intros H. destruct o as [e'|p]; cbn in H; [|discriminate]. injection H as <- <-. apply skip_nil_ws in Sk2. rewrite Ek. exists (w1 ++ kt ++ s2), []. rewrite app_nil_r. split; [reflexivity|]. split; [|reflexivity].
      eapply bd_name_end; [apply ws_iff, W1|exact Nm| |apply ws_iff, Sk2]. intros ->. rewrite (Ke eq_refl) in Sk2. inversion Sk2; congruence. }
    apply skip_empty_cons_split in Sk2 as (w2 & -> & W2 & Wc3). rewrite Ek.
    destruct (beq c3 ":"%byte) eqn:E3; cbn [negb].
    2:{ intros H. destruct o as [e'|p]; cbn in H; [|discriminate]. injection H as <- <-. exists (w1 ++ kt ++ w2), (c3 :: s3). split; [rewrite <- ?app_assoc; reflexivity|]. split; [|reflexivity].
        eapply bd_colon; [apply ws_iff, W1|exact Nm|apply ws_iff, W2|exact En|apply blank_false, Wc3|apply beq_neq, E3|]. intros ->. specialize (Ke eq_refl). destruct w2 as [|a w2]; [|injection Ke as -> _; inversion W2; congruence].
        split; [reflexivity|]. injection Ke as -> _. apply beq_neq, Ec. }
    apply beq_eq in E3. subst c3. destruct (skip_empty s3) as [|c4 s4] eqn:Sk3.
    { intros H. destruct o as [e'|p]; cbn in H; [|discriminate]. injection H as <- <-. apply skip_nil_ws in Sk3. exists (w1 ++ kt ++ w2 ++ ":"%byte :: s3), []. rewrite app_nil_r. split; [reflexivity|]. split; [|reflexivity].
      eapply bd_colon_end; [apply ws_iff, W1|exact Nm|apply ws_iff, W2|apply ws_iff, Sk3]. }
    apply skip_empty_cons_split in Sk3 as (w3 & -> & W3 & Wc4). intros H.
    apply (stop_pass _ (fun a s5 => let '(v, ss) := a in dict_after n acc nid k v ss s5)) in H as [H|([v ss] & s5 & E & H)].
    + eapply found_under; [apply (IHv sess _ o r Nd (ex_intro _ c4 (ex_intro _ s4 (conj eq_refl Wc4))) H)|]. intros t r' E B. exists (w1 ++ kt ++ w2 ++ ":"%byte :: w3 ++ t). split; [rewrite E, <- ?app_assoc; cbn [app]; rewrite <- ?app_assoc; reflexivity|].
      eapply bd_value; [apply ws_iff, W1|exact Nm|apply ws_iff, W2|apply ws_iff, W3|exact B].
    + destruct (LVn _ _ _ _ _ E) as (co & t & ids & Et & Lv & -> & Nd' & Fo). rewrite Et. clear Et E. pose proof (nodup_rev _ _ (Nd' Nd)) as Nr.
      assert (RC : (k = reserved /\ o = Crashes PTypeAssertion /\ (forall z, v <> JInt z)) \/ ((k = reserved -> exists z, v = JInt z) /\ exists acc' nid',
        stop (match skip_empty s5 with [] => PErr ETruncated [] | c6 :: s6 => if beq c6 ","%byte then dict_loop n (rev ids ++ sess) acc' nid' s6 else if beq c6 "}"%byte then POk (acc', nid', rev ids ++ sess) s6 else PErr EUnexpectedChar (c6 :: s6) end) o r)).
      { unfold dict_after in H. destruct (bseq k jnid_key) eqn:K.
        - apply bseq_eq in K. destruct v; try (left; (split; [exact K|]); (destruct o as [e|p]; cbn in H; [discriminate|]); injection H as <-; split; [reflexivity|discriminate]). right. split; [eauto|]. do 2 eexists. exact H.
        - right. split; [intros K'; apply bseq_eq in K'; change reserved with jnid_key in K'; congruence|]. do 2 eexists. exact H. }
      clear H. destruct RC as [(-> & -> & Nz)|(Rz & acc' & nid' & H)].
      { exists (w1 ++ kt ++ w2 ++ ":"%byte :: w3 ++ t), s5. split; [rewrite <- ?app_assoc; cbn [app]; rewrite <- ?app_assoc; reflexivity|]. split; [|exact Logic.I].
        eapply bd_reserved; [apply ws_iff, W1|exact Nm|apply ws_iff, W2|apply ws_iff, W3|exact Lv|exact Nr|exact Fo|exact Nz]. }
      destruct (skip_empty s5) as [|c6 s6] eqn:Sk.
      { destruct o as [e|p]; cbn in H; [|discriminate]. injection H as <- <-. apply skip_nil_ws in Sk. exists (w1 ++ kt ++ w2 ++ ":"%byte :: w3 ++ t ++ s5), []. rewrite app_nil_r. split; [reflexivity|]. split; [|reflexivity].
        eapply bd_end; [apply ws_iff, W1|exact Nm|apply ws_iff, W2|apply ws_iff, W3|exact Lv|exact Nr|apply ws_iff, Sk|apply Fo|exact Rz]. }
      apply skip_empty_cons_split in Sk as (w4 & -> & W4 & Wc6). assert (co = true) as -> by (destruct co; [reflexivity|destruct Fo as [Fo _]; specialize (Fo eq_refl); destruct w4; discriminate]).
      destruct (beq c6 ","%byte) eqn:E6.
      * apply beq_eq in E6. subst c6. eapply found_under; [apply (IHd _ _ _ _ _ _ (Nd' Nd) H)|]. intros t' r' -> B. rewrite rev_sess in B.
        exists (w1 ++ kt ++ w2 ++ ":"%byte :: w3 ++ t ++ w4 ++ ","%byte :: t'). split; [rewrite <- ?app_assoc; cbn [app]; rewrite <- ?app_assoc; cbn [app]; rewrite <- ?app_assoc; reflexivity|].
        eapply bd_more; [apply ws_iff, W1|exact Nm|apply ws_iff, W2|apply ws_iff, W3|exact Lv|exact Nr|apply ws_iff, W4|exact Rz|exact B].
      * destruct (beq c6 "}"%byte) eqn:E7; [destruct (stop_ok _ _ _ _ H)|]. destruct o as [e|p]; cbn in H; [|discriminate]. injection H as <- <-.
        exists (w1 ++ kt ++ w2 ++ ":"%byte :: w3 ++ t ++ w4), (c6 :: s6). split; [rewrite <- ?app_assoc; cbn [app]; rewrite <- ?app_assoc; reflexivity|]. split; [|reflexivity].
        eapply bd_char; [apply ws_iff, W1|exact Nm|apply ws_iff, W2|apply ws_iff, W3|exact Lv|exact Nr|apply ws_iff, W4|exact Fo|exact Rz|apply blank_false, Wc6|apply beq_neq, E6|apply beq_neq, E7].
Qed.
