(** RFC 8259 texts are texts the parser accepts with the denoted value. *)
From Verif Require Import Base Strconv StrconvFacts SpecFloat RoundFacts FloatText RoundUnique SortedMap SortedMapFacts Utf8 Json SpecJson SpecRFC SpecText Parser ParserFacts ParserFacts2 Gram.
Open Scope Z_scope.

Lemma rfc_ws_wsp w : rfc_ws w -> wsp w.
Proof.
  apply Forall_impl. intros c [->|[->|[->| ->]]]; reflexivity.
Qed.

(** ** Strings *)

Lemma hex_digit_num c v : hex_digit c v -> hexchar2num c = Some v /\ 0 <= v < 16.
Proof.
  unfold hex_digit, hexchar2num. intros [[H ->]|[[H ->]|[H ->]]].
  - destruct (Z.leb_spec 48 (bz c)), (Z.leb_spec (bz c) 57); try lia. simpl. split; [reflexivity|lia].
  - destruct (Z.leb_spec 48 (bz c)), (Z.leb_spec (bz c) 57); try lia; simpl.
    destruct (Z.leb_spec 97 (bz c)); try lia; simpl.
    destruct (Z.leb_spec 65 (bz c)), (Z.leb_spec (bz c) 70); try lia; simpl. split; [f_equal|]; lia.
  - destruct (Z.leb_spec 48 (bz c)), (Z.leb_spec (bz c) 57); try lia; simpl.
    destruct (Z.leb_spec 97 (bz c)), (Z.leb_spec (bz c) 102); try lia; simpl. split; [f_equal|]; lia.
Qed.

Lemma hexstr2rune_spec h1 h2 h3 h4 a b c d :
  hex_digit h1 a -> hex_digit h2 b -> hex_digit h3 c -> hex_digit h4 d ->
  hexstr2rune h1 h2 h3 h4 = Some (((a * 16 + b) * 16 + c) * 16 + d).
Proof.
  intros H1 H2 H3 H4.
  apply hex_digit_num in H1 as [E1 R1]. apply hex_digit_num in H2 as [E2 R2].
  apply hex_digit_num in H3 as [E3 R3]. apply hex_digit_num in H4 as [E4 R4].
  unfold hexstr2rune, hexstr2byte. rewrite E1, E2, E3, E4.
  rewrite !Z.mod_small by lia. f_equal. lia.
Qed.

Lemma zb_eq b z : bz b = z -> zb z = b.
Proof. intros <-. apply zb_bz. Qed.

Lemma utf8_encode cp u : utf8 cp u -> encode_rune cp = u.
Proof.
  destruct 1 as [b H|cp b1 b2 hi lo E Hhi Hlo H1 H2|cp b1 b2 b3 hi mid lo E Hhi Hmid Hlo H2048 HS H1 H2 H3];
    unfold encode_rune.
  - destruct (Z.ltb_spec (bz b) 128); [|lia]. rewrite zb_bz. reflexivity.
  - destruct (Z.ltb_spec cp 128); [lia|]. destruct (Z.ltb_spec cp 2048); [|lia].
    assert (cp / 64 = hi) as -> by (symmetry; apply (Z.div_unique_pos cp 64 hi lo); lia).
    assert (cp mod 64 = lo) as -> by (symmetry; apply (Z.mod_unique_pos cp 64 hi lo); lia).
    rewrite (zb_eq b1), (zb_eq b2) by assumption. reflexivity.
  - destruct (Z.ltb_spec cp 128); [lia|]. destruct (Z.ltb_spec cp 2048); [lia|].
    assert ((55296 <=? cp) && (cp <=? 57343) = false) as ->.
    { destruct (Z.leb_spec 55296 cp), (Z.leb_spec cp 57343); try reflexivity. exfalso. apply HS. lia. }
    assert (cp / 64 = hi * 64 + mid) as Ed by (symmetry; apply (Z.div_unique_pos cp 64 _ lo); lia).
    assert (cp mod 64 = lo) as -> by (symmetry; apply (Z.mod_unique_pos cp 64 (hi * 64 + mid) lo); lia).
    assert (cp / 4096 = hi) as ->.
    { symmetry. apply (Z.div_unique_pos cp 4096 hi (mid * 64 + lo)); lia. }
    rewrite Ed. assert ((hi * 64 + mid) mod 64 = mid) as ->.
    { symmetry. apply (Z.mod_unique_pos _ 64 hi mid); lia. }
    rewrite (zb_eq b1), (zb_eq b2), (zb_eq b3) by assumption. reflexivity.
Qed.

(** One RFC character is consumed as a whole; something must follow it (the
    closing quote does). *)
Lemma rfc_char_parse t u acc rest : rfc_char t u -> rest <> [] ->
  parse_quoted """"%byte acc (t ++ rest) = parse_quoted """"%byte (rev u ++ acc) rest.
Proof.
  intros H Hr. destruct H as [c H1 H2 H3| | | | | | | | |h1 h2 h3 h4 a b c d u H1 H2 H3 H4 HU];
    try reflexivity.
  - cbn [app parse_quoted].
    destruct (beq_spec c "\"%byte); [congruence|]. destruct (beq_spec c """"%byte); [congruence|]. reflexivity.
  - destruct rest as [|r0 rest]; [congruence|]. cbn [app parse_quoted].
    change (beq "\"%byte "\"%byte) with true. change (beq "u"%byte "u"%byte) with true. cbv iota.
    rewrite (hexstr2rune_spec _ _ _ _ _ _ _ _ H1 H2 H3 H4), (utf8_encode _ _ HU). reflexivity.
Qed.

Lemma rfc_chars_parse t u : rfc_chars t u -> forall acc rest,
  parse_quoted """"%byte acc (t ++ """"%byte :: rest) = POk (rev acc ++ u) rest.
Proof.
  induction 1 as [|t u ts us H _ IH]; intros acc rest.
  - cbn. rewrite app_nil_r. reflexivity.
  - rewrite <- app_assoc. rewrite (rfc_char_parse t u acc _ H) by (destruct ts; discriminate).
    rewrite IH, rev_app_distr, rev_involutive, <- app_assoc. reflexivity.
Qed.

Lemma rfc_string_quoted t s : rfc_string t s -> quoted_ok t s.
Proof.
  destruct 1 as [body s H]. exists """"%byte, body. repeat split; [left; reflexivity|].
  apply rfc_chars_parse. exact H.
Qed.

(** ** Numbers *)

Lemma digit_is c : digit c <-> is_digit c = true.
Proof. unfold digit, is_digit. rewrite andb_true_iff, !Z.leb_le. reflexivity. Qed.

Lemma digits_all s : Forall digit s <-> all_digits s.
Proof. unfold all_digits. rewrite !Forall_forall. split; intros H x Hx; apply digit_is; auto. Qed.

Lemma digits_acc_fold s : all_digits s -> forall a,
  digits_acc a s = Some (fold_left (fun a c => a * 10 + (bz c - 48)) s a).
Proof.
  induction 1 as [|c s Hc _ IH]; intros a; simpl; [reflexivity|]. rewrite Hc. apply IH.
Qed.

Lemma dec_value_acc s : Forall digit s -> digits_acc 0 s = Some (dec_value s).
Proof. intros H. apply digits_acc_fold. apply digits_all. exact H. Qed.

Lemma dec_value_nonneg s : Forall digit s -> 0 <= dec_value s.
Proof. intros H. eapply digits_acc_nonneg; [|apply dec_value_acc; exact H]. lia. Qed.

Lemma scan_exp_digits ds : forall e u, 0 <= e -> all_digits ds ->
  fold_left (fun a c => a * 10 + (bz c - 48)) ds e < 100000 ->
  scan_exp e u ds = (fold_left (fun a c => a * 10 + (bz c - 48)) ds e, u, []).
Proof.
  induction ds as [|c ds IH]; intros e u He Hd Hlt; [reflexivity|].
  inversion Hd as [|? ? Hc Hds]; subst. cbn [scan_exp fold_left] in *.
  destruct (digit_facts c Hc) as (-> & _). rewrite Hc.
  pose proof (is_digit_val c Hc) as Hv. unfold digit_val in *.
  assert (e * 10 + (bz c - 48) <= fold_left (fun a c => a * 10 + (bz c - 48)) ds (e * 10 + (bz c - 48))) as LE.
  { clear - He Hv Hds. remember (e * 10 + (bz c - 48)) as x eqn:Ex.
    assert (0 <= x) as Hx by lia. clear Ex He Hv. revert x Hx.
    induction Hds as [|d ds Hd _ IH]; intros x Hx; simpl; [lia|].
    pose proof (is_digit_val d Hd). unfold digit_val in *. specialize (IH (x * 10 + (bz d - 48)) ltac:(lia)). lia. }
  destruct (Z.ltb_spec e 10000); [|lia]. apply IH; try assumption. lia.
Qed.

Lemma exp_shape et e : rfc_exp et e -> exists c r, et = c :: r /\ beq (lowerb c) "e"%byte = true
  /\ is_digit c = false /\ beq c "_"%byte = false /\ beq c "."%byte = false /\ beq (lowerb c) "x"%byte = false
  /\ (let '(eneg, r'') := strip_sign r in
      exists d r', r'' = d :: r' /\ is_digit d = true /\ scan_exp 0 false r'' = (if eneg then - e else e, false, [])).
Proof.
  destruct 1 as [c sgn ds Hc Hd Hlt Hs|c ds Hc Hd Hlt]; destruct Hd as [Hne Hd].
  - exists c, (sgn ++ ds). split; [reflexivity|].
    split; [destruct Hc as [-> | ->]; reflexivity|]. split; [destruct Hc as [-> | ->]; reflexivity|].
    split; [destruct Hc as [-> | ->]; reflexivity|]. split; [destruct Hc as [-> | ->]; reflexivity|].
    split; [destruct Hc as [-> | ->]; reflexivity|].
    pose proof (proj1 (digits_all ds) Hd) as Hd'.
    assert (strip_sign (sgn ++ ds) = (false, ds)) as ->.
    { destruct Hs as [-> | ->]; [|reflexivity]. cbn [app]. destruct ds as [|d ds]; [reflexivity|].
      inversion Hd' as [|? ? Hdd _]; subst. destruct (digit_facts d Hdd) as (_ & _ & -> & -> & _) || idtac.
      simpl. destruct (digit_facts d Hdd) as (_ & _ & E1 & E2 & _). rewrite E1, E2. reflexivity. }
    destruct ds as [|d ds]; [congruence|]. exists d, ds. split; [reflexivity|].
    inversion Hd'; subst. split; [assumption|]. apply scan_exp_digits; [lia|exact Hd'|exact Hlt].
  - exists c, ("-"%byte :: ds). split; [reflexivity|].
    split; [destruct Hc as [-> | ->]; reflexivity|]. split; [destruct Hc as [-> | ->]; reflexivity|].
    split; [destruct Hc as [-> | ->]; reflexivity|]. split; [destruct Hc as [-> | ->]; reflexivity|].
    split; [destruct Hc as [-> | ->]; reflexivity|].
    pose proof (proj1 (digits_all ds) Hd) as Hd'. cbn [strip_sign].
    change (beq "-"%byte "+"%byte) with false. change (beq "-"%byte "-"%byte) with true. cbv iota.
    destruct ds as [|d ds]; [congruence|]. exists d, ds. split; [reflexivity|].
    inversion Hd'; subst. split; [assumption|].
    rewrite Z.opp_involutive. apply scan_exp_digits; [lia|exact Hd'|exact Hlt].
Qed.

(** Reading digits, optional fraction, exponent. *)
Lemma read_float_exp (neg : bool) ip (dot : bool) fs et e : ip <> [] ->
  all_digits ip -> all_digits fs -> (dot = false -> fs = []) -> rfc_exp et e ->
  read_float (minus neg ++ ip ++ (if dot then "."%byte :: fs else []) ++ et)
  = Some (neg, dec_value (ip ++ fs), e - Z.of_nat (length fs), false).
Proof.
  intros Hne Hip Hfs Hdot He.
  destruct (exp_shape et e He) as (ec & er & -> & HE1 & HE2 & HE3 & HE4 & HE5 & HE6).
  destruct ip as [|c r]; [congruence|]. inversion Hip as [|? ? Hc Hr]; subst.
  unfold read_float. cbn [app]. unfold minus. rewrite strip_sign_digit by exact Hc.
  set (T := (if dot then "."%byte :: fs else []) ++ ec :: er).
  assert (strip_hex (c :: r ++ T) = (false, c :: r ++ T)) as ->.
  { unfold strip_hex. destruct (r ++ T) as [|c1 [|c2 t]] eqn:ET; try reflexivity.
    assert (beq (lowerb c1) "x"%byte = false) as ->; [|rewrite andb_false_r; reflexivity].
    destruct r as [|r0 r].
    - cbn [app] in ET. unfold T in ET. destruct dot; injection ET as <- _; [reflexivity|exact HE5].
    - injection ET as <- _. inversion Hr as [|? ? Hr0 _]; subst.
      destruct (digit_facts r0 Hr0) as (_ & _ & _ & _ & _ & ->). apply beq_neq. intros ->. discriminate. }
  assert (exists b, digits_acc 0 (c :: r) = Some b) as [b Hb] by (apply digits_acc_total; exact Hip).
  change (c :: r ++ T) with ((c :: r) ++ T).
  rewrite (scan_mant_digits (c :: r) 0 0 false false false T b Hip Hb).
  assert (scan_mant false b 0 false true false T
          = (dec_value ((c :: r) ++ fs), Z.of_nat (length fs), true, false, ec :: er)) as ->.
  { assert (digits_acc b fs = Some (dec_value ((c :: r) ++ fs))) as Hv.
    { assert (digits_acc 0 ((c :: r) ++ fs) = Some (dec_value ((c :: r) ++ fs))) as Hv.
      { apply dec_value_acc, digits_all, Forall_app. split; assumption. }
      rewrite digits_acc_app, Hb in Hv. exact Hv. }
    unfold T. destruct dot.
    - cbn [app scan_mant]. change (beq "."%byte "_"%byte) with false.
      change (beq "."%byte "."%byte) with true. cbv iota.
      rewrite (scan_mant_digits fs b 0 true true false (ec :: er) _ Hfs Hv).
      cbn [scan_mant]. rewrite HE3, HE4, HE2. destruct fs; reflexivity.
    - rewrite (Hdot eq_refl) in *. cbn [app scan_mant]. rewrite HE3, HE4, HE2.
      simpl in Hv. injection Hv as ->. reflexivity. }
  cbn [negb]. rewrite HE1.
  destruct (strip_sign er) as [eneg r''].
  destruct HE6 as (d & r' & -> & Hd & Hsc). rewrite Hd, Hsc. cbn [andb].
  destruct eneg; rewrite ?Z.opp_involutive; reflexivity.
Qed.

(** *** The token level *)

Lemma num_char_nodelim c : is_digit c = true \/ c = "-"%byte \/ c = "+"%byte \/ c = "."%byte
  \/ c = "e"%byte \/ c = "E"%byte -> is_delim c = false.
Proof.
  intros [H|H].
  - unfold is_delim. repeat (match goal with |- context [beq c ?b] =>
      let E := fresh in destruct (beq_spec c b) as [E|E]; [subst; discriminate|] end). reflexivity.
  - repeat (destruct H as [->|H]; [reflexivity|]). subst; reflexivity.
Qed.

Lemma digits_nodelim s : all_digits s -> Forall (fun c => is_delim c = false) s.
Proof. apply Forall_impl. intros c H. apply num_char_nodelim. auto. Qed.

Lemma minus_nodelim neg : Forall (fun c => is_delim c = false) (minus neg).
Proof. destruct neg; repeat constructor. Qed.

Lemma exp_nodelim et e : rfc_exp et e -> Forall (fun c => is_delim c = false) et.
Proof.
  destruct 1 as [c sgn ds Hc [_ Hd] _ Hs|c ds Hc [_ Hd] _].
  - constructor; [apply num_char_nodelim; tauto|]. apply Forall_app. split.
    + destruct Hs as [-> | ->]; repeat constructor.
    + apply digits_nodelim, digits_all, Hd.
  - constructor; [apply num_char_nodelim; tauto|]. constructor; [reflexivity|].
    apply digits_nodelim, digits_all, Hd.
Qed.

(** A token starting with a digit, or with a minus and a digit, is a number
    candidate: not a keyword, not a reference, not quoted. *)
Lemma bare_value_num (neg : bool) c r : is_digit c = true ->
  bare_value (minus neg ++ c :: r)
  = match parse_int (minus neg ++ c :: r) with
    | Some z => Some (JInt z)
    | None => match parse_float F64 (minus neg ++ c :: r) with
              | Some f => Some (JFloat f 0)
              | None => Some (JString (minus neg ++ c :: r))
              end
    end.
Proof.
  intros Hc. unfold bare_value.
  assert (exists h t, minus neg ++ c :: r = h :: t /\ (h = "-"%byte \/ is_digit h = true)) as (h & t & -> & Hh).
  { destruct neg; cbn [minus app]; eauto. }
  assert (beq (hd x00 (h :: t)) "<"%byte = false) as ->.
  { simpl. apply beq_neq. intros ->. destruct Hh; discriminate. }
  cbn [andb].
  assert (forall w ws, is_digit w = false -> w <> "-"%byte -> bseq (lowers (h :: t)) (w :: ws) = false) as X.
  { intros w ws Hw Hw'. cbn [lowers map bseq]. assert (beq (lowerb h) w = false) as ->; [|reflexivity].
    apply beq_neq. intros E. destruct Hh as [-> |Hh].
    - change (lowerb "-"%byte) with "-"%byte in E. congruence.
    - destruct (digit_facts h Hh) as (_ & _ & _ & _ & _ & EL). rewrite EL in E. congruence. }
  unfold kw_null, kw_none, kw_true, kw_yes, kw_false, kw_no.
  rewrite !X by (reflexivity || discriminate). reflexivity.
Qed.

Lemma num_tok_ok (neg : bool) c r v : is_digit c = true ->
  Forall (fun c => is_delim c = false) (c :: r) ->
  bare_value (minus neg ++ c :: r) = Some v -> tok_ok (minus neg ++ c :: r) v.
Proof.
  intros Hc Hd Hv. split; [destruct neg; discriminate|]. split; [apply Forall_app; split; [apply minus_nodelim|exact Hd]|].
  split; [|exact Hv]. destruct neg; [reflexivity|]. cbn [minus app hd].
  unfold opener. repeat (match goal with |- context [beq c ?b] =>
      let E := fresh in destruct (beq_spec c b) as [E|E]; [subst; discriminate|] end). reflexivity.
Qed.

Lemma parse_int_digits (neg : bool) ip : ip <> [] -> all_digits ip ->
  parse_int (minus neg ++ ip) = let z := if neg then - dec_value ip else dec_value ip in
                                if in_int64 z then Some z else None.
Proof.
  intros Hne Hd. assert (digits_acc 0 ip = Some (dec_value ip)) as Hv by (apply dec_value_acc, digits_all, Hd).
  destruct ip as [|c r]; [congruence|]. inversion Hd as [|? ? Hc _]; subst.
  destruct (digit_not_sign c Hc) as [N1 N2].
  destruct neg; cbn [minus app parse_int].
  - change (beq "-"%byte "+"%byte) with false. change (beq "-"%byte "-"%byte) with true. cbv iota.
    unfold parse_digits. rewrite Hv. reflexivity.
  - rewrite N1, N2. unfold parse_digits. rewrite Hv. reflexivity.
Qed.

Lemma parse_int_nondigit (neg : bool) ip a r : ip <> [] -> all_digits ip -> is_digit a = false ->
  parse_int (minus neg ++ ip ++ a :: r) = None.
Proof.
  intros Hne Hd Ha. assert (forall z, digits_acc z (ip ++ a :: r) = None) as Hv.
  { intros z. rewrite digits_acc_app. destruct (digits_acc z ip); [|reflexivity]. simpl. rewrite Ha. reflexivity. }
  destruct ip as [|c ip]; [congruence|]. inversion Hd as [|? ? Hc _]; subst.
  destruct (digit_not_sign c Hc) as [N1 N2].
  destruct neg; cbn [minus app parse_int].
  - change (beq "-"%byte "+"%byte) with false. change (beq "-"%byte "-"%byte) with true. cbv iota.
    unfold parse_digits. cbn [app] in Hv. rewrite Hv. reflexivity.
  - rewrite N1, N2. unfold parse_digits. cbn [app] in Hv. rewrite Hv. reflexivity.
Qed.

Lemma in_int64_spec z : in_int64 z = true <-> - 2 ^ 63 <= z < 2 ^ 63.
Proof. unfold in_int64, int64_min, int64_max. rewrite andb_true_iff, !Z.leb_le. lia. Qed.

(** What the float reader makes of a parsed decimal. *)
Lemma parse_float_of_read s neg c j : parse_special s = None -> read_float s = Some (neg, c, j, false) ->
  parse_float F64 s = if c =? 0 then Some (fzero F64 neg)
    else match round_dec F64 c j with Some (m, e) => Some (FFin neg m e) | None => None end.
Proof. intros H1 H2. unfold parse_float. rewrite H1, H2. reflexivity. Qed.

Lemma number_float_value s neg c j v : parse_int s = None -> parse_special s = None ->
  read_float s = Some (neg, c, j, false) -> number_value neg c j false v ->
  match parse_int s with
  | Some z => Some (JInt z)
  | None => match parse_float F64 s with Some f => Some (JFloat f 0) | None => Some (JString s) end
  end = Some v.
Proof.
  intros H1 H2 H3 HV. rewrite H1, (parse_float_of_read s neg c j H2 H3).
  inversion HV as [|? ? E1 E2 E3 E4|? ? ? ? m e Hc Hw CR NO E1 E2 E3 E4]; subst.
  - reflexivity.
  - destruct (Z.eqb_spec c 0); [lia|].
    rewrite (round_dec_complete F64 c j m e F64_valid Hc CR NO). reflexivity.
Qed.

Lemma rfc_number_tok t neg c j whole v : rfc_number t neg c j whole -> number_value neg c j whole v -> tok_ok t v.
Proof.
  destruct 1 as [neg ip [[Hne Hd] _]|neg ip fs [[Hne Hd] _] [Hfn Hf]
                |neg ip et e [[Hne Hd] _] He|neg ip fs et e [[Hne Hd] _] [Hfn Hf] He]; intros HV;
    apply digits_all in Hd; destruct ip as [|c0 r0]; try congruence; clear Hne;
    assert (c0 :: r0 <> []) as Hne by discriminate;
    assert (is_digit c0 = true) as Hc0 by (inversion Hd; assumption).
  - apply num_tok_ok; [assumption|apply digits_nodelim; exact Hd|].
    rewrite bare_value_num, parse_int_digits by assumption. cbv zeta.
    inversion HV as [? ? HR E1 E2 E3|? ? E1 E2 E3 E4|? ? ? ? m e Hc Hw CR NO E1 E2 E3 E4]; subst.
    + apply in_int64_spec in HR. rewrite HR. reflexivity.
    + destruct (Hw eq_refl) as [_ HNR].
      destruct (in_int64 _) eqn:EI; [apply in_int64_spec in EI; contradiction|].
      pose proof (parse_float_int F64 neg (c0 :: r0) (dec_value (c0 :: r0)) Hne
                 ltac:(apply dec_value_acc, digits_all, Hd)) as PF.
      change (if neg then ["-"%byte] else []) with (minus neg) in PF. rewrite PF.
      destruct (Z.eqb_spec (dec_value (c0 :: r0)) 0); [lia|].
      rewrite (round_dec_complete F64 _ 0 m e F64_valid Hc CR NO). reflexivity.
  - apply digits_all in Hf. cbn [app].
    apply num_tok_ok; [assumption| |].
    + change (Forall (fun c => is_delim c = false) ((c0 :: r0) ++ "."%byte :: fs)).
      apply Forall_app. split; [apply digits_nodelim; exact Hd|].
      constructor; [reflexivity|apply digits_nodelim; exact Hf].
    + rewrite bare_value_num by assumption.
      assert (digits_acc 0 ((c0 :: r0) ++ fs) = Some (dec_value ((c0 :: r0) ++ fs))) as Hv.
      { apply dec_value_acc, digits_all, Forall_app. split; assumption. }
      apply (number_float_value _ neg (dec_value ((c0 :: r0) ++ fs)) (- Z.of_nat (length fs))).
      * apply (parse_int_nondigit neg (c0 :: r0)); [discriminate|exact Hd|reflexivity].
      * apply (parse_special_digit neg c0). exact Hc0.
      * apply (read_float_frac neg (c0 :: r0) fs _ Hne Hv).
      * exact HV.
  - pose proof (exp_shape et e He) as (ec & er & Eet & _ & HE2 & _).
    cbn [app]. apply num_tok_ok; [assumption| |].
    + change (Forall (fun c => is_delim c = false) ((c0 :: r0) ++ et)).
      apply Forall_app. split; [apply digits_nodelim; exact Hd|eapply exp_nodelim; exact He].
    + rewrite bare_value_num by assumption.
      apply (number_float_value _ neg (dec_value (c0 :: r0)) e).
      * rewrite Eet. apply (parse_int_nondigit neg (c0 :: r0)); [discriminate|exact Hd|exact HE2].
      * apply (parse_special_digit neg c0). exact Hc0.
      * pose proof (read_float_exp neg (c0 :: r0) false [] et e Hne Hd (Forall_nil _) ltac:(auto) He) as R.
        rewrite app_nil_r in R. cbn [length app Z.of_nat] in R. rewrite Z.sub_0_r in R. exact R.
      * exact HV.
  - apply digits_all in Hf. cbn [app]. apply num_tok_ok; [assumption| |].
    + change (Forall (fun c => is_delim c = false) ((c0 :: r0) ++ "."%byte :: fs ++ et)).
      apply Forall_app. split; [apply digits_nodelim; exact Hd|]. constructor; [reflexivity|].
      apply Forall_app. split; [apply digits_nodelim; exact Hf|eapply exp_nodelim; exact He].
    + rewrite bare_value_num by assumption.
      apply (number_float_value _ neg (dec_value ((c0 :: r0) ++ fs)) (e - Z.of_nat (length fs))).
      * apply (parse_int_nondigit neg (c0 :: r0)); [discriminate|exact Hd|reflexivity].
      * apply (parse_special_digit neg c0). exact Hc0.
      * apply (read_float_exp neg (c0 :: r0) true fs et e Hne Hd Hf ltac:(discriminate) He).
      * exact HV.
Qed.

(** ** Objects *)

Lemma lookup_sm_get {V} (m : smap V) k : lookup k m = sm_get m k.
Proof. induction m as [|[k' v] m IH]; simpl; [reflexivity|]. destruct (bseq k k'); auto. Qed.

Lemma last_member_binding ms k : last_member k ms = last_binding ms k.
Proof. induction ms as [|[k' v] ms IH]; simpl; [reflexivity|]. rewrite IH. reflexivity. Qed.

Lemma fold_members_plain ms : Forall (fun kv : bytes * json => fst kv <> jnid_key) ms -> forall nid acc,
  fold_members ms nid acc = Some (nid, sm_of_list ms acc).
Proof.
  induction 1 as [|[k v] ms H _ IH]; intros nid acc; simpl; [reflexivity|].
  simpl in H. destruct (bseq_spec k jnid_key); [contradiction|]. apply IH.
Qed.

Lemma object_value_of_list ms kvs : object_value ms kvs -> sm_of_list ms [] = kvs.
Proof.
  intros [H1 H2]. apply sm_ext.
  - apply sm_of_list_ok. exact I.
  - apply sm_ok_strong. exact H1.
  - intros k. rewrite sm_of_list_get, <- last_member_binding, <- H2, lookup_sm_get.
    destruct (sm_get kvs k); reflexivity.
Qed.



Scheme rfc_value_mut := Minimality for rfc_value Sort Prop
  with rfc_elements_mut := Minimality for rfc_elements Sort Prop
  with rfc_members_mut := Minimality for rfc_members Sort Prop
  with rfc_member_mut := Minimality for rfc_member Sort Prop.
Combined Scheme rfc_ind from rfc_value_mut, rfc_elements_mut, rfc_members_mut, rfc_member_mut.

Theorem rfc_gram :
  (forall t v, rfc_value not_reserved t v -> exists b, gval b t v [])
  /\ (forall t l, rfc_elements not_reserved t l -> gelems t l [])
  /\ (forall t ms, rfc_members not_reserved t ms -> gmembers t ms []
        /\ Forall (fun kv => fst kv <> jnid_key) ms)
  /\ (forall t m, rfc_member not_reserved t m -> fst m <> jnid_key /\
        exists w1 kt w2 w3 b t0 w4, t = w1 ++ kt ++ w2 ++ ":"%byte :: w3 ++ t0 ++ w4
          /\ wsp w1 /\ quoted_ok kt (fst m) /\ wsp w2 /\ wsp w3 /\ gval b t0 (snd m) [] /\ wsp w4).
Proof.
  apply rfc_ind.
  - exists false. constructor. repeat split; [discriminate|repeat constructor].
  - exists false. constructor. repeat split; [discriminate|repeat constructor].
  - exists false. constructor. repeat split; [discriminate|repeat constructor].
  - intros t neg c j whole v HN HV. exists false. constructor. eapply rfc_number_tok; eassumption.
  - intros t s H. exists true. constructor. apply rfc_string_quoted. exact H.
  - intros w H. exists true. apply g_arr0. apply rfc_ws_wsp. exact H.
  - intros t l _ H. exists true. apply (g_arr t l []). exact H.
  - intros w H. exists true. apply g_obj0. apply rfc_ws_wsp. exact H.
  - intros t ms kvs _ [H HF] HO. exists true.
    apply (g_obj t ms 0 kvs []); [exact H|].
    rewrite fold_members_plain by exact HF. rewrite (object_value_of_list ms kvs HO). reflexivity.
  - intros w1 t w2 v H1 _ [b Hb] H2.
    apply (ge_one w1 b); auto using rfc_ws_wsp.
  - intros w1 t w2 v t' l H1 _ [b Hb] H2 _ IH.
    apply (ge_more w1 b t w2 v [] t' l []); auto using rfc_ws_wsp.
  - intros t [k v] _ (HK & w1 & kt & w2 & w3 & b & t0 & w4 & -> & H1 & H2 & H3 & H4 & H5 & H6).
    split; [|repeat constructor; exact HK]. eapply gm_one; eassumption.
  - intros t [k v] t' ms _ (HK & w1 & kt & w2 & w3 & b & t0 & w4 & -> & H1 & H2 & H3 & H4 & H5 & H6) _ [IH IHF].
    split; [|constructor; assumption].
    pose proof (gm_more w1 kt k w2 w3 b t0 w4 v [] t' ms [] H1 H2 H3 H4 H5 H6 IH) as G.
    rewrite <- !app_assoc. cbn [app]. rewrite <- !app_assoc. exact G.
  - intros w1 kt k w2 w3 t w4 v H1 H2 HK H3 H4 _ [b Hb] H5. split; [exact HK|].
    exists w1, kt, w2, w3, b, t, w4. cbn [fst snd].
    repeat split; auto using rfc_ws_wsp, rfc_string_quoted.
Qed.

Theorem rfc_text_parse s v : rfc_text not_reserved s v -> exists r, parse_suffix s = POk v r /\ wsp r.
Proof.
  destruct 1 as [w1 t w2 v H1 H2 H3]. destruct (proj1 rfc_gram t v H2) as [b Hb].
  exists w2. split; [|apply rfc_ws_wsp; exact H3].
  apply (gram_parse_suffix b w1 t v []); [apply rfc_ws_wsp; exact H1|exact Hb|constructor|].
  intros _. apply rfc_ws_wsp in H3. destruct H3 as [|c w Hc _]; [exact I|].
  pose proof (rest_ok_ws [c] " "%byte [] ltac:(repeat constructor; exact Hc) eq_refl) as X. exact X.
Qed.
