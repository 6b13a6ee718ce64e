(** Panics, truncation, escapes, streams. *)
From Coq Require Import QArith Sorting.Sorted.
From Verif Require Import Base Strconv StrconvFacts SortedMap SortedMapFacts
  Utf8 Json SpecJson SpecRFC SpecText SpecPrint Printer Parser ParserFacts ParserFacts2 Gram RfcFacts PrintFacts PrintFacts2.
Open Scope Z_scope.

(** ** Escapes *)

Lemma utf8_or_surrogate cp : 0 <= cp < 65536 ->
  (exists u, utf8 cp u) \/ 55296 <= cp <= 57343.
Proof.
  intros H. destruct (Z_lt_ge_dec cp 128).
  - left. exists [zb cp]. rewrite <- (bz_zb cp) at 1 by lia. constructor. rewrite bz_zb by lia. lia.
  - destruct (Z_lt_ge_dec cp 2048).
    + left. exists [zb (192 + cp / 64); zb (128 + cp mod 64)].
      pose proof (Z.mod_pos_bound cp 64 ltac:(lia)). pose proof (Z.div_mod cp 64 ltac:(lia)).
      assert (2 <= cp / 64 < 32) by lia.
      apply (utf8_2 cp _ _ (cp / 64) (cp mod 64)); try lia; rewrite bz_zb; lia.
    + destruct (Z_le_gt_dec 55296 cp); [destruct (Z_le_gt_dec cp 57343); [right; lia|]|];
      left; exists [zb (224 + cp / 4096); zb (128 + (cp / 64) mod 64); zb (128 + cp mod 64)];
      pose proof (Z.mod_pos_bound cp 64 ltac:(lia)); pose proof (Z.div_mod cp 64 ltac:(lia));
      pose proof (Z.mod_pos_bound (cp / 64) 64 ltac:(lia)); pose proof (Z.div_mod (cp / 64) 64 ltac:(lia));
      assert (cp / 4096 = (cp / 64) / 64) as E by (rewrite Z.div_div by lia; reflexivity);
      rewrite <- E in *;
      assert (0 <= cp / 4096 < 16) by lia;
      apply (utf8_3 cp _ _ _ (cp / 4096) ((cp / 64) mod 64) (cp mod 64)); try lia; rewrite bz_zb; lia.
Qed.

Lemma hexchar_digit c v : hexchar2num c = Some v -> hex_digit c v.
Proof.
  unfold hexchar2num, hex_digit. intros H.
  destruct ((48 <=? bz c) && (bz c <=? 57)) eqn:E1; [injection H as <-; lia|].
  destruct ((97 <=? bz c) && (bz c <=? 102)) eqn:E2; [injection H as <-; lia|].
  destruct ((65 <=? bz c) && (bz c <=? 70)) eqn:E3; [injection H as <-; lia|discriminate].
Qed.

Lemma hexstr2byte_digits a b z : hexstr2byte a b = Some z ->
  exists x y, hex_digit a x /\ hex_digit b y /\ z = x * 16 + y.
Proof.
  unfold hexstr2byte. destruct (hexchar2num a) as [x|] eqn:EA; [|discriminate].
  destruct (hexchar2num b) as [y|] eqn:EB; [|discriminate]. intros [= <-].
  apply hexchar_digit in EA. apply hexchar_digit in EB. exists x, y. repeat split; try assumption.
  apply hex_digit_num in EA. apply hex_digit_num in EB. rewrite Z.mod_small by lia. reflexivity.
Qed.

Lemma hexstr2rune_digits a b c d z : hexstr2rune a b c d = Some z ->
  exists x y x' y', hex_digit a x /\ hex_digit b y /\ hex_digit c x' /\ hex_digit d y'
    /\ z = ((x * 16 + y) * 16 + x') * 16 + y'.
Proof.
  unfold hexstr2rune. destruct (hexstr2byte a b) as [v1|] eqn:E1; [|discriminate].
  destruct (hexstr2byte c d) as [v2|] eqn:E2; [|discriminate]. intros [= <-].
  apply hexstr2byte_digits in E1 as (x & y & H1 & H2 & ->).
  apply hexstr2byte_digits in E2 as (x' & y' & H3 & H4 & ->).
  exists x, y, x', y'. repeat split; try assumption. ring.
Qed.

Lemma encode_surrogate cp : 55296 <= cp <= 57343 -> encode_rune cp = [xef; xbf; xbd].
Proof.
  intros H. unfold encode_rune.
  destruct (Z.ltb_spec cp 128); [lia|]. destruct (Z.ltb_spec cp 2048); [lia|].
  destruct (Z.leb_spec 55296 cp), (Z.leb_spec cp 57343); try lia. reflexivity.
Qed.

Lemma lib_char_parse q t u acc rest : lib_char q t u -> rest <> [] ->
  parse_quoted q acc (t ++ rest) = parse_quoted q (rev u ++ acc) rest.
Proof.
  intros H Hr.
  destruct H as [c H1 H2| | | | | |e He|h1 h2 h3 h4 a b c d u H1 H2 H3 H4 HU|h1 h2 h3 h4 a b c d H1 H2 H3 H4 HS|h1 h2 a b c H1 H2 HC];
    try reflexivity.
  - cbn [app parse_quoted]. apply beq_neq in H2. apply beq_neq in H1. rewrite H2, H1. reflexivity.
  - cbn [app parse_quoted]. change (beq "\"%byte "\"%byte) with true. cbv iota.
    repeat (match goal with |- context [beq e ?b] => destruct (beq_spec e b) as [->|_];
       [exfalso; apply He; simpl; tauto|] end || idtac).
    destruct (beq_spec e "\"%byte) as [->|_]; reflexivity.
  - destruct rest as [|r0 rest]; [congruence|]. cbn [app parse_quoted].
    change (beq "\"%byte "\"%byte) with true. change (beq "u"%byte "u"%byte) with true. cbv iota.
    rewrite (hexstr2rune_spec h1 h2 h3 h4 a b c d) by assumption.
    rewrite (utf8_encode _ _ HU). reflexivity.
  - destruct rest as [|r0 rest]; [congruence|]. cbn [app parse_quoted].
    change (beq "\"%byte "\"%byte) with true. change (beq "u"%byte "u"%byte) with true. cbv iota.
    rewrite (hexstr2rune_spec h1 h2 h3 h4 a b c d) by assumption.
    rewrite (encode_surrogate _ HS). reflexivity.
  - destruct rest as [|r0 rest]; [congruence|]. cbn [app parse_quoted].
    change (beq "\"%byte "\"%byte) with true. change (beq "x"%byte "u"%byte) with false.
    change (beq "x"%byte "x"%byte) with true. cbv iota.
    apply hex_digit_num in H1 as [E1 R1]. apply hex_digit_num in H2 as [E2 R2].
    unfold hexstr2byte. rewrite E1, E2. rewrite Z.mod_small by lia. rewrite <- HC, zb_bz. reflexivity.
Qed.

Lemma lib_chars_parse q t u : q <> "\"%byte -> lib_chars q t u -> forall acc rest,
  parse_quoted q acc (t ++ q :: rest) = POk (rev acc ++ u) rest.
Proof.
  intros Hq. induction 1 as [|t u ts us H _ IH]; intros acc rest.
  - cbn [app parse_quoted]. apply beq_neq in Hq. rewrite Hq, beq_refl, app_nil_r. reflexivity.
  - rewrite <- app_assoc. rewrite (lib_char_parse q t u) by (assumption || (destruct ts; discriminate)).
    rewrite IH, rev_app_distr, rev_involutive, <- app_assoc. reflexivity.
Qed.

(** Conversely: whatever is accepted is made of such characters. *)
Lemma lib_chars_complete q : forall n s acc t r, (length s <= n)%nat ->
  parse_quoted q acc s = POk t r ->
  exists body u, lib_chars q body u /\ t = rev acc ++ u
    /\ (s = body ++ q :: r \/ (r = [] /\ s = body)).
Proof.
  induction n as [|n IH]; intros s acc t r Hn HP.
  - destruct s; [|simpl in Hn; lia]. injection HP as <- <-.
    exists [], []. rewrite app_nil_r. split; [constructor|]. split; [reflexivity|]. right. split; reflexivity.
  - destruct s as [|c s].
    { injection HP as <- <-.
      exists [], []. rewrite app_nil_r. split; [constructor|]. split; [reflexivity|]. right. split; reflexivity. }
    assert (forall tx ux s', lib_char q tx ux -> c :: s = tx ++ s' -> (length s' <= n)%nat ->
              parse_quoted q (rev ux ++ acc) s' = POk t r ->
              exists body u, lib_chars q body u /\ t = rev acc ++ u
                /\ (c :: s = body ++ q :: r \/ (r = [] /\ c :: s = body))) as STEP.
    { intros tx ux s' HC E HL H. apply IH in H; [|exact HL]. destruct H as (body & u & HB & -> & HR).
      exists (tx ++ body), (ux ++ u). split; [constructor; assumption|].
      split; [rewrite rev_app_distr, rev_involutive, <- app_assoc; reflexivity|].
      rewrite E. destruct HR as [-> | [-> ->]]; [left|right; split; [reflexivity|]]; rewrite <- ?app_assoc; reflexivity. }
    cbn [parse_quoted] in HP. simpl in Hn.
    destruct (beq_spec c "\"%byte) as [->|NB].
    + destruct s as [|e s]; [discriminate|]. simpl in Hn.
      destruct (beq_spec e "u"%byte) as [->|N1].
      { destruct s as [|h1 [|h2 [|h3 [|h4 s]]]]; try discriminate.
        destruct s as [|s0 s]; [discriminate|].
        destruct (hexstr2rune h1 h2 h3 h4) as [z|] eqn:EH; [|discriminate].
        apply hexstr2rune_digits in EH as (x & y & x' & y' & H1 & H2 & H3 & H4 & EZ).
        pose proof (proj2 (hex_digit_num _ _ H1)). pose proof (proj2 (hex_digit_num _ _ H2)).
        pose proof (proj2 (hex_digit_num _ _ H3)). pose proof (proj2 (hex_digit_num _ _ H4)).
        simpl in Hn.
        destruct (utf8_or_surrogate z ltac:(lia)) as [[u HU]|HS].
        - rewrite (utf8_encode _ _ HU) in HP. rewrite EZ in HU.
          eapply (STEP ["\"%byte; "u"%byte; h1; h2; h3; h4] u (s0 :: s)); [eapply lc_u; eassumption|reflexivity|simpl; lia|exact HP].
        - rewrite (encode_surrogate _ HS) in HP. rewrite EZ in HS.
          eapply (STEP ["\"%byte; "u"%byte; h1; h2; h3; h4] [xef; xbf; xbd] (s0 :: s));
            [eapply lc_surrogate; eassumption|reflexivity|simpl; lia|exact HP]. }
      destruct (beq_spec e "x"%byte) as [->|N2].
      { destruct s as [|h1 [|h2 s]]; try discriminate. destruct s as [|s0 s]; [discriminate|].
        destruct (hexstr2byte h1 h2) as [z|] eqn:EH; [|discriminate].
        apply hexstr2byte_digits in EH as (x & y & H1 & H2 & EZ).
        pose proof (proj2 (hex_digit_num _ _ H1)). pose proof (proj2 (hex_digit_num _ _ H2)).
        simpl in Hn.
        eapply (STEP ["\"%byte; "x"%byte; h1; h2] [zb z] (s0 :: s));
          [eapply lc_x; [eassumption|eassumption|rewrite bz_zb; lia]|reflexivity|simpl; lia|exact HP]. }
      destruct (beq_spec e "n"%byte) as [->|N3];
        [apply (STEP ["\"%byte; "n"%byte] [x0a] s); [constructor|reflexivity|simpl; lia|exact HP]|].
      destruct (beq_spec e "r"%byte) as [->|N4];
        [apply (STEP ["\"%byte; "r"%byte] [x0d] s); [constructor|reflexivity|simpl; lia|exact HP]|].
      destruct (beq_spec e "t"%byte) as [->|N5];
        [apply (STEP ["\"%byte; "t"%byte] [x09] s); [constructor|reflexivity|simpl; lia|exact HP]|].
      destruct (beq_spec e "b"%byte) as [->|N6];
        [apply (STEP ["\"%byte; "b"%byte] [x08] s); [constructor|reflexivity|simpl; lia|exact HP]|].
      destruct (beq_spec e "f"%byte) as [->|N7];
        [apply (STEP ["\"%byte; "f"%byte] [x0c] s); [constructor|reflexivity|simpl; lia|exact HP]|].
      assert (parse_quoted q (e :: acc) s = POk t r) as HP' by (destruct (beq_spec e "\"%byte) as [->|_]; exact HP).
      apply (STEP ["\"%byte; e] [e] s); [|reflexivity|simpl; lia|exact HP'].
      apply lc_other. simpl. intuition congruence.
    + destruct (beq_spec c q) as [->|NQ].
      * injection HP as <- <-. exists [], []. rewrite app_nil_r. split; [constructor|]. split; [reflexivity|].
        left. reflexivity.
      * apply (STEP [c] [c] s); [constructor; assumption|reflexivity|lia|exact HP].
Qed.

(** ** Panics *)

Definition vhead1 (s : bytes) : Prop := match s with c :: _ => ~ In c [","; ":"; "}"]%byte | [] => True end.
Definition vhead2 (s : bytes) : Prop := match s with c :: _ => ~ In c [","; ":"; "}"; "]"]%byte | [] => True end.

Definition slots_ok (s : bytes) : Prop := forall a b r, s = a ++ b :: r ->
  (In b ["["; ","]%byte -> vhead1 (skip_empty r)) /\ (b = ":"%byte -> vhead2 (skip_empty r)).

Lemma slots_suffix r s : suffix r s -> slots_ok s -> slots_ok r.
Proof.
  intros [p ->] H a b r' ->. apply (H (p ++ a) b r'). rewrite <- app_assoc. reflexivity.
Qed.

Lemma reserved_suffix r s : suffix r s -> ~ may_spell_reserved s -> ~ may_spell_reserved r.
Proof.
  intros [p ->] H C. apply H. destruct C as [(a & b & ->)|C].
  - left. exists (p ++ a), b. rewrite <- app_assoc. reflexivity.
  - right. apply in_or_app. right. exact C.
Qed.

Lemma not_slot_start s : ~ empty_slot s -> vhead2 (skip_empty s).
Proof.
  intros H. destruct (skip_empty s) as [|c r] eqn:E; [exact I|]. cbn [vhead2].
  destruct (skip_empty_cons_split s c r E) as (w & Es & Hw & _). intros C. apply H. rewrite Es.
  apply es_start; [|exact C]. revert Hw. apply Forall_impl. intros a Ha. unfold is_ws in Ha.
  destruct (beq_spec a " "%byte); [left; assumption|]. destruct (beq_spec a x09); [auto|].
  destruct (beq_spec a x0a); [auto|]. destruct (beq_spec a x0d); [auto|discriminate].
Qed.

Lemma wsp_rfc w : wsp w -> rfc_ws w.
Proof.
  apply Forall_impl. intros a Ha. unfold is_ws in Ha.
  destruct (beq_spec a " "%byte); [left; assumption|]. destruct (beq_spec a x09); [auto|].
  destruct (beq_spec a x0a); [auto|]. destruct (beq_spec a x0d); [auto|discriminate].
Qed.

Lemma not_slot_slots s : ~ empty_slot s -> slots_ok s.
Proof.
  intros H a b r ->. split; intros Hb.
  - destruct (skip_empty r) as [|c r'] eqn:E; [exact I|]. cbn [vhead1].
    destruct (skip_empty_cons_split r c r' E) as (w & -> & Hw & _). intros C. apply H.
    apply es_elem; auto using wsp_rfc.
  - destruct (skip_empty r) as [|c r'] eqn:E; [exact I|]. cbn [vhead2].
    destruct (skip_empty_cons_split r c r' E) as (w & -> & Hw & _). intros C. apply H. subst b.
    apply es_member; auto using wsp_rfc.
Qed.

(** A token is the literal text when there is no backslash. *)
Lemma parse_quoted_plain q : forall s acc t r, ~ In "\"%byte s -> parse_quoted q acc s = POk t r ->
  exists p, s = p ++ (match r with [] => [] | _ => r end) /\ exists u x, t = rev acc ++ u /\ p = u ++ x.
Proof.
  induction s as [|c s IH]; intros acc t r HB HP.
  - injection HP as <- <-. exists []. split; [reflexivity|]. exists [], []. rewrite app_nil_r. auto.
  - cbn [parse_quoted] in HP. destruct (beq_spec c "\"%byte) as [->|_]; [exfalso; apply HB; left; reflexivity|].
    destruct (beq_spec c q) as [->|_].
    + injection HP as <- <-. exists [q]. split; [destruct s; reflexivity|]. exists [], [q]. rewrite app_nil_r. auto.
    + apply IH in HP; [|intros C; apply HB; right; exact C].
      destruct HP as (p & E & u & x & -> & ->). exists (c :: u ++ x). split; [cbn [app]; rewrite <- E; reflexivity|].
      exists (c :: u), x. split; [|reflexivity]. cbn [rev]. rewrite <- app_assoc. reflexivity.
Qed.

Lemma parse_string_not_reserved s b r : ~ may_spell_reserved s -> parse_string s = POk (jnid_key, b) r -> False.
Proof.
  intros H. destruct s as [|c s]; [discriminate|]. unfold parse_string.
  destruct (beq c """"%byte || beq c "'"%byte).
  - destruct (parse_quoted c [] s) as [t r'|e r'|p|] eqn:EP; try discriminate. intros [= -> _ _].
    assert (~ In "\"%byte s) as HB by (intros C; apply H; right; right; exact C).
    destruct (parse_quoted_plain c s [] _ _ HB EP) as (p & E & u & x & E1 & ->).
    cbn [rev app] in E1. subst u. apply H. left.
    exists [c], (x ++ match r' with [] => [] | _ => r' end). rewrite E at 1. rewrite <- app_assoc. reflexivity.
  - destruct (bare_token (c :: s)) as [t r'] eqn:EB. intros [= -> _ _].
    apply bare_token_split in EB as (E & _). apply H. left. exists [], r'. exact E.
Qed.

Definition no_panic {A} (r : pres A) : Prop := match r with PPanic _ => False | _ => True end.
Arguments no_panic {A} !r.

Lemma vhead2_delim c s : vhead2 (c :: s) -> is_ws c = false -> is_delim c = false.
Proof.
  cbn [vhead2]. unfold is_ws, is_delim. intros H W.
  destruct (beq_spec c " "%byte); [discriminate|]. destruct (beq_spec c x09); [discriminate|].
  destruct (beq_spec c x0a); [discriminate|]. destruct (beq_spec c x0d); [discriminate|].
  repeat match goal with |- context [beq c ?b] => destruct (beq_spec c b) as [->|_]; [exfalso; apply H; simpl; tauto|] end.
  reflexivity.
Qed.

Lemma parse_scalar_no_panic c s : is_delim c = false -> no_panic (parse_scalar (c :: s)).
Proof.
  intros H. pose proof (parse_string_suffix c s) as P. unfold parse_scalar.
  destruct (parse_string (c :: s)) as [[t [|]] r|e r|p|]; try exact I; try contradiction.
  - destruct t; exact I.
  - destruct P as (_ & _ & _ & P). destruct t as [|a t]; [exfalso; apply (P eq_refl H); reflexivity|].
    destruct (bare_value (a :: t)); exact I.
Qed.

Lemma parse_no_panic n :
  (forall sess s, slots_ok s -> ~ may_spell_reserved s -> vhead2 s -> s <> [] ->
     is_ws (hd x00 s) = false -> no_panic (parse_value n sess s))
  /\ (forall sess acc s, slots_ok s -> ~ may_spell_reserved s ->
        match dict_loop n sess acc 0 s with PPanic _ => False | POk (_, nid, _) _ => nid = 0 | _ => True end)
  /\ (forall sess acc s, slots_ok s -> ~ may_spell_reserved s -> vhead1 (skip_empty s) ->
        no_panic (array_loop n sess acc s)).
Proof.
  induction n as [|n (IHv & IHd & IHa)]; [repeat split; intros; exact I|].
  assert (forall sess s v ss r, s <> [] -> parse_value n sess s = POk (v, ss) r -> suffix r s) as SUF.
  { intros sess s v ss r Hne H.
    pose proof (proj1 (parse_good (n + 2 * length s)) sess s Hne ltac:(lia)) as G.
    rewrite (proj1 (parse_mono n (n + 2 * length s)%nat ltac:(lia)) sess s) in G by congruence.
    rewrite H in G. cbn in G. apply ssuffix_suffix. exact G. }
  split; [|split].
  - intros sess s HS HR HV Hne HW. destruct s as [|c s]; [congruence|]. cbn [hd] in HW. cbn [parse_value].
    destruct (beq_spec c "["%byte) as [->|N1].
    + assert (no_panic (array_loop n sess [] s)) as X.
      { apply IHa.
        - eapply slots_suffix; [|exact HS]. exists ["["%byte]. reflexivity.
        - eapply reserved_suffix; [|exact HR]. exists ["["%byte]. reflexivity.
        - apply (proj1 (HS [] "["%byte s eq_refl)). left. reflexivity. }
      destruct (array_loop n sess [] s) as [[l ss] r|e r|p|]; try exact I. exact X.
    + destruct (beq_spec c "{"%byte) as [->|N2].
      * assert (suffix s ("{"%byte :: s)) as SX by (exists ["{"%byte]; reflexivity).
        pose proof (IHd sess sm_empty s (slots_suffix _ _ SX HS) (reserved_suffix _ _ SX HR)) as X.
        destruct (dict_loop n sess sm_empty 0 s) as [[[kvs nid] ss] r|e r|p|]; try exact I; [|exact X].
        subst nid. exact I.
      * pose proof (parse_scalar_no_panic c s (vhead2_delim _ _ HV HW)) as X.
        destruct (parse_scalar (c :: s)); try exact I. exact X.
  - intros sess acc s HS HR. cbn [dict_loop]. destruct s as [|a s]; [reflexivity|].
    destruct (skip_empty (a :: s)) as [|c s1] eqn:E1; [exact I|].
    assert (suffix (c :: s1) (a :: s)) as SX1 by (rewrite <- E1; apply skip_empty_suffix).
    destruct (beq c "}"%byte); [reflexivity|].
    pose proof (parse_string_suffix c s1) as PS.
    destruct (parse_string (c :: s1)) as [[key b] s2|e r|p|] eqn:EP; try exact I; try contradiction.
    destruct PS as (SX2 & _).
    destruct (skip_empty s2) as [|c3 s3] eqn:E3; [exact I|].
    assert (suffix (c3 :: s3) (a :: s)) as SX3.
    { eapply suffix_trans; [|exact SX1]. eapply suffix_trans; [|exact SX2]. rewrite <- E3. apply skip_empty_suffix. }
    destruct (beq_spec c3 ":"%byte) as [->|N3]; cbn [negb]; [|exact I].
    pose proof (slots_suffix _ _ SX3 HS) as HS3.
    pose proof (proj2 (HS3 [] ":"%byte s3 eq_refl) eq_refl) as HV.
    destruct (skip_empty s3) as [|c4 s4] eqn:E4; [exact I|].
    assert (suffix (c4 :: s4) (a :: s)) as SX4.
    { eapply suffix_trans; [|exact SX3]. eapply suffix_trans; [rewrite <- E4; apply skip_empty_suffix|].
      exists [":"%byte]. reflexivity. }
    pose proof (IHv sess (c4 :: s4) (slots_suffix _ _ SX4 HS) (reserved_suffix _ _ SX4 HR) HV
                  ltac:(discriminate) (skip_empty_head _ _ _ E4)) as X.
    destruct (parse_value n sess (c4 :: s4)) as [[v ss] s5|e r|p|] eqn:EV; try exact I; [|exact X].
    apply SUF in EV; [|discriminate].
    destruct (bseq_spec key jnid_key) as [EK|NK].
    { exfalso. subst key. eapply parse_string_not_reserved; [|exact EP]. eapply reserved_suffix; [exact SX1|exact HR]. }
    destruct (skip_empty s5) as [|c6 s6] eqn:E6; [exact I|].
    assert (suffix (c6 :: s6) (a :: s)) as SX6.
    { eapply suffix_trans; [|exact SX4]. eapply suffix_trans; [|exact EV]. rewrite <- E6. apply skip_empty_suffix. }
    destruct (beq c6 ","%byte).
    + apply IHd; [eapply slots_suffix|eapply reserved_suffix]; try (eapply suffix_uncons; exact SX6); assumption.
    + destruct (beq c6 "}"%byte); [reflexivity|exact I].
  - intros sess acc s HS HR HV. cbn [array_loop]. destruct s as [|a s]; [exact I|].
    destruct (skip_empty (a :: s)) as [|c s1] eqn:E1; [exact I|].
    assert (suffix (c :: s1) (a :: s)) as SX1 by (rewrite <- E1; apply skip_empty_suffix).
    destruct (beq_spec c "]"%byte) as [->|N1]; [exact I|].
    assert (vhead2 (c :: s1)) as HV2.
    { cbn [vhead1 vhead2] in *. intros C. apply HV. simpl in *. intuition congruence. }
    pose proof (IHv sess (c :: s1) (slots_suffix _ _ SX1 HS) (reserved_suffix _ _ SX1 HR) HV2
                  ltac:(discriminate) (skip_empty_head _ _ _ E1)) as X.
    destruct (parse_value n sess (c :: s1)) as [[v ss] s5|e r|p|] eqn:EV; try exact I; [|exact X].
    apply SUF in EV; [|discriminate].
    destruct (skip_empty s5) as [|c6 s6] eqn:E6; [exact I|].
    assert (suffix (c6 :: s6) (a :: s)) as SX6.
    { eapply suffix_trans; [|exact SX1]. eapply suffix_trans; [|exact EV]. rewrite <- E6. apply skip_empty_suffix. }
    destruct (beq_spec c6 ","%byte) as [->|N6].
    + pose proof (slots_suffix _ _ SX6 HS) as HS6.
      apply IHa; [eapply slots_suffix|eapply reserved_suffix|];
        try (eapply suffix_uncons; exact SX6); try assumption.
      apply (proj1 (HS6 [] ","%byte s6 eq_refl)). right. left. reflexivity.
    + destruct (beq c6 "]"%byte); exact I.
Qed.

Theorem parse_suffix_no_panic s : ~ empty_slot s -> ~ may_spell_reserved s -> no_panic (parse_suffix s).
Proof.
  intros H1 H2. pose proof (not_slot_start s H1) as HV. unfold parse_suffix.
  pose proof (skip_empty_suffix s) as SX. pose proof (skip_empty_head s) as HH.
  destruct (skip_empty s) as [|c s1]; [exact I|].
  pose proof (proj1 (parse_no_panic (parse_fuel (c :: s1))) [] (c :: s1)
    (slots_suffix _ _ SX (not_slot_slots s H1)) (reserved_suffix _ _ SX H2) HV ltac:(discriminate)
    (HH _ _ eq_refl)) as X.
  destruct (parse_value _ [] (c :: s1)) as [[v ss] r|e r|p|]; try exact I. exact X.
Qed.
