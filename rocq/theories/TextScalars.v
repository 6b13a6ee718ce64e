(** Integers and floats from the texts that fields with the string option have. *)
From Verif Require Import Base Strconv SpecFloat Json Gotypes Marshal SpecMarshal SpecEncode Printer Unmarshal SpecUnmarshal FloatWidth SpecRestore StrconvFacts PropScalar FloatSyntax SpecFloatText QueryParseFacts JErrors.
Open Scope Z_scope.

(** ** Integers come back *)

Lemma wrap_id k z : (match k with Signed b | Unsigned b => word b end) -> in_kind k z = true ->
  match k with
  | Signed b => wrap (Signed b) (wrap (Signed 64) z) = z
  | Unsigned b => wrap (Unsigned b) (wrap (Unsigned 64) (wrap (Signed 64) z)) = z
  end.
Proof.
  intros W H. destruct k as [b|b]; cbn [in_kind] in H; apply andb_prop in H as [H1 H2]; apply Z.leb_le in H1; apply Z.ltb_lt in H2; unfold wrap.
  - assert (E : (z + 2 ^ (64 - 1)) mod 2 ^ 64 - 2 ^ (64 - 1) = z).
    { rewrite Z.mod_small; [lia|]. destruct W as [->|[->|[->| ->]]]; cbn in H1, H2 |- *; lia. }
    rewrite E. rewrite Z.mod_small; [lia|]. destruct W as [->|[->|[->| ->]]]; cbn in H1, H2 |- *; lia.
  - set (y := (z + 2 ^ (64 - 1)) mod 2 ^ 64 - 2 ^ (64 - 1)).
    assert (E : y mod 2 ^ 64 = z).
    { subst y. rewrite Zminus_mod_idemp_l. replace (z + 2 ^ (64 - 1) - 2 ^ (64 - 1)) with z by lia. apply Z.mod_small.
      destruct W as [->|[->|[->| ->]]]; cbn in H1, H2 |- *; lia. }
    rewrite E. apply Z.mod_small. lia.
Qed.

Section Texts.
Context (match_us match_eu : bytes -> bool) (to_bool : bytes -> bool) (parse_time : bytes -> option bytes).

Lemma no_comma f : filter (fun b => negb (beq b ","%byte)) (format_f6 f) = format_f6 f.
Proof using.
  assert (F : forall s, ~ In ","%byte s -> filter (fun b => negb (beq b ","%byte)) s = s).
  { intros s. induction s as [|x s IH]; intros H; [reflexivity|]. cbn [filter]. destruct (beq_spec x ","%byte) as [->|_]; [exfalso; apply H; left; reflexivity|]. cbn [negb]. f_equal. apply IH. intros X. apply H. right. exact X. }
  apply F. clear F. destruct f as [|neg|neg m e]; [cbn; intuition discriminate|destruct neg; cbn; intuition discriminate|].
  assert (D : forall n c, In c (pad7 (format_uint n)) -> is_digit c = true).
  { intros n c I. unfold pad7 in I. apply in_app_or in I as [I|I].
    - unfold zeros in I. apply repeat_spec in I. subst c. reflexivity.
    - revert c I. unfold format_uint. generalize (S (Z.to_nat (Z.log2 n))). intros fuel.
      assert (G : forall fuel n acc, (forall x, In x acc -> is_digit x = true) -> forall x, In x (fmt_digits fuel n acc) -> is_digit x = true).
      { clear. induction fuel as [|fuel IH]; intros n acc Hacc x Hx; cbn [fmt_digits] in Hx; [apply Hacc; exact Hx|].
        cbv zeta in Hx. assert (Hd : is_digit (digit_byte (n mod 10)) = true) by (apply digit_byte_is_digit; apply Z.mod_pos_bound; lia).
        assert (Hacc' : forall y, In y (digit_byte (n mod 10) :: acc) -> is_digit y = true) by (intros y [<-|Hy]; [exact Hd | apply Hacc; exact Hy]).
        destruct (n <? 10); [apply Hacc'; exact Hx | eapply IH; eassumption]. }
      apply G. intros x []. }
  cbn [format_f6]. cbv zeta. intros I. apply in_app_or in I as [I|I]; [destruct neg; cbn in I; intuition discriminate|].
  apply in_app_or in I as [I|I]; [apply QueryParseFacts.firstn_in in I; apply D in I; discriminate|]. destruct I as [I|I]; [discriminate|]. apply QueryParseFacts.skipn_in in I. apply D in I. discriminate.
Qed.

(** Numbers from their texts. *)
Lemma int_from_text k z : match k with Signed b | Unsigned b => word b end -> in_kind k z = true -> match k with Unsigned _ => z < 2 ^ 63 | _ => True end ->
  step_string match_us match_eu to_bool parse_time (format_int (wrap (Signed 64) z)) (TInt k) = Write (VInt z).
Proof using.
  intros W K B. assert (E : wrap (Signed 64) z = z /\ in_int64 z = true).
  { destruct k as [b|b]; cbn [in_kind] in K; apply andb_prop in K as [K1 K2]; apply Z.leb_le in K1; apply Z.ltb_lt in K2.
    - assert (G : - 2 ^ 63 <= z < 2 ^ 63) by (destruct W as [->|[->|[->| ->]]]; cbn in K1, K2 |- *; lia). split; [|apply RfcFacts.in_int64_spec; cbn in G |- *; lia].
      unfold wrap. rewrite Z.mod_small; cbn in G |- *; lia.
    - split; [|apply RfcFacts.in_int64_spec; cbn in B |- *; lia]. unfold wrap. rewrite Z.mod_small; cbn in B |- *; lia. }
  destruct E as [-> E]. cbn [step_string]. pose proof (C35_integers match_us match_eu z) as Nz. destruct (format_int z) as [|c s] eqn:Es.
  { exfalso. pose proof (parse_int_format z E) as X. rewrite Es in X. discriminate. }
  rewrite <- Es in *. rewrite Nz. destruct k as [b|b].
  - rewrite (parse_int_format z E). do 2 f_equal. pose proof (wrap_id (Signed b) z W K) as X. cbn beta iota in X. rewrite <- X at 2. f_equal. unfold wrap.
    apply RfcFacts.in_int64_spec in E. rewrite Z.mod_small; cbn in E |- *; lia.
  - cbn [in_kind] in K. apply andb_prop in K as [K1 K2]; apply Z.leb_le in K1; apply Z.ltb_lt in K2.
    assert (Ef : format_int z = format_uint z) by (unfold format_int; destruct (Z.ltb_spec z 0); [lia|reflexivity]).
    rewrite Ef, parse_uint_format by (unfold uint64_max; lia). do 2 f_equal. unfold wrap. apply Z.mod_small. lia.
Qed.

Lemma float_from_text bit f : float_value (format_f6 f) f /\ (match_us (format_f6 f) = true \/ match_eu (format_f6 f) = false) ->
  step_string match_us match_eu to_bool parse_time (format_f6 f) (TFloat bit) = Write (VFloat (set_float bit f)).
Proof using.
  intros [V A]. apply parse_float_iff in V. cbn [step_string]. assert (Nz : normalize_currency match_us match_eu (format_f6 f) = format_f6 f).
  { destruct (match_us (format_f6 f)) eqn:Eu.
    - rewrite C35_us by exact Eu. apply no_comma.
    - destruct A as [A|A]; [congruence|]. apply (proj1 (C35_other match_us match_eu _)); assumption. }
  destruct (format_f6 f) as [|c s] eqn:Es; [exfalso; discriminate V|]. rewrite <- Es in *. rewrite Nz, V. reflexivity.
Qed.

End Texts.
