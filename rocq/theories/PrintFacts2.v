(** Serialised values are RFC 8259 texts; PrettyString. *)
From Coq Require Import QArith Sorting.Sorted.
From Verif Require Import Base Strconv StrconvFacts SpecFloat RoundFacts FloatText RoundUnique SortedMap SortedMapFacts
  Utf8 Json SpecJson SpecRFC SpecPrint Printer Parser ParserFacts ParserFacts2 Gram RfcFacts PrintFacts.
Open Scope Z_scope.

(** ** Strings *)

Lemma escape_char_rfc c : rfc_char (escape_char c) [c].
Proof.
  unfold escape_char.
  destruct (beq_spec c """"%byte) as [->|N1]; [constructor|].
  destruct (beq_spec c "\"%byte) as [->|N2]; [constructor|].
  destruct (beq_spec c x08) as [->|N3]; [constructor|].
  destruct (beq_spec c x0c) as [->|N4]; [constructor|].
  destruct (beq_spec c x0a) as [->|N5]; [constructor|].
  destruct (beq_spec c x0d) as [->|N6]; [constructor|].
  destruct (beq_spec c x09) as [->|N7]; [constructor|].
  destruct (Z.ltb_spec (bz c) 32) as [L|L].
  - pose proof (bz_range c) as R.
    assert (forall n, 0 <= n < 16 -> hex_digit (hexdigit_byte n) n) as HD.
    { intros n Hn. unfold hex_digit, hexdigit_byte. destruct (Z.ltb_spec n 10).
      - left. rewrite bz_zb by lia. lia.
      - right; right. rewrite bz_zb by lia. lia. }
    apply (rc_u _ _ _ _ 0 0 (bz c / 16) (bz c mod 16) [c]).
    + left. vm_compute. intuition discriminate.
    + left. vm_compute. intuition discriminate.
    + apply HD. split; [apply Z.div_pos; lia|apply Z.div_lt_upper_bound; lia].
    + apply HD. apply Z.mod_pos_bound. lia.
    + replace (((0 * 16 + 0) * 16 + bz c / 16) * 16 + bz c mod 16) with (bz c).
      * constructor. lia.
      * rewrite (Z.div_mod (bz c) 16) at 1 by lia. lia.
  - constructor; assumption.
Qed.

Lemma quote_string_rfc s : rfc_string (quote_string s) s.
Proof.
  constructor. induction s as [|c s IH]; [constructor|].
  cbn [flat_map]. change (c :: s) with ([c] ++ s). constructor; [apply escape_char_rfc|exact IH].
Qed.

(** ** Numbers *)

Lemma digits_of_all s : s <> [] -> all_digits s -> digits s.
Proof. intros H1 H2. split; [exact H1|apply digits_all; exact H2]. Qed.

Lemma digits_acc_value s n : digits_acc 0 s = Some n -> dec_value s = n.
Proof.
  intros H. pose proof (digits_acc_some _ _ _ H) as Hd. apply digits_all in Hd.
  rewrite (dec_value_acc s Hd) in H. congruence.
Qed.

Lemma digit_byte_not_zero d : 0 < d < 10 -> digit_byte d <> "0"%byte.
Proof.
  intros H E. assert (bz (digit_byte d) = 48) as X by (rewrite E; reflexivity).
  unfold digit_byte in X. rewrite bz_zb in X by lia. lia.
Qed.

Lemma format_uint_rfc n : 0 <= n -> rfc_int (format_uint n) /\ dec_value (format_uint n) = n.
Proof.
  intros Hn. destruct (format_uint_spec n Hn) as (Hd & Hv & d & r & E & Hr & Hs & Hp).
  split; [|apply digits_acc_value; exact Hv].
  split; [apply digits_of_all; [rewrite E; discriminate|exact Hd]|].
  destruct (Z.eq_dec n 0) as [->|N]; [left; reflexivity|].
  right. rewrite E. cbn [hd]. apply digit_byte_not_zero. lia.
Qed.

Lemma format_int_rfc z : in_int64 z = true -> exists neg c, rfc_number (format_int z) neg c 0 true
  /\ number_value neg c 0 true (JInt z).
Proof.
  intros Hz. apply in_int64_spec in Hz. unfold format_int. destruct (Z.ltb_spec z 0) as [L|L].
  - destruct (format_uint_rfc (- z) ltac:(lia)) as [HR HV].
    exists true, (- z). split.
    + rewrite <- HV at 2. exact (rn_int true _ HR).
    + pose proof (nv_int true (- z)) as X. cbv iota in X. rewrite Z.opp_involutive in X. exact (X Hz).
  - destruct (format_uint_rfc z L) as [HR HV].
    exists false, z. split.
    + rewrite <- HV at 2. exact (rn_int false _ HR).
    + exact (nv_int false z Hz).
Qed.

Lemma hd_app_ne {A} (x : A) a b : a <> [] -> hd x (a ++ b) = hd x a.
Proof. destruct a; [congruence|reflexivity]. Qed.

Lemma hd_firstn {A} (x : A) n l : (0 < n)%nat -> hd x (firstn n l) = hd x l.
Proof. destruct n; [lia|]. destruct l; reflexivity. Qed.

Lemma layout_rfc d j : 0 < d ->
  (0 <= j /\ exists ip, layout_f d j = ip /\ rfc_int ip /\ dec_value ip = d * 10 ^ j)
  \/ (j < 0 /\ exists ip fs, layout_f d j = ip ++ "."%byte :: fs /\ rfc_int ip /\ digits fs
        /\ dec_value (ip ++ fs) = d /\ Z.of_nat (length fs) = - j).
Proof.
  intros Hd. destruct (format_uint_spec d ltac:(lia)) as (Hds & Hv & d0 & r & E & Hr & Hs & Hp).
  assert (hd x00 (format_uint d) <> "0"%byte) as Hh.
  { rewrite E. cbn [hd]. apply digit_byte_not_zero. lia. }
  assert (format_uint d <> []) as Hne by (rewrite E; discriminate).
  destruct (Z_le_gt_dec 0 j) as [Hj|Hj].
  - left. split; [exact Hj|]. unfold layout_f. destruct (Z.leb_spec 0 j); [|lia].
    exists (format_uint d ++ zeros j). split; [reflexivity|]. split.
    + split.
      * apply digits_of_all; [destruct (format_uint d); [congruence|discriminate]|].
        apply Forall_app. split; [exact Hds|apply zeros_digits].
      * right. rewrite hd_app_ne by exact Hne. exact Hh.
    + apply digits_acc_value. rewrite digits_acc_app, Hv. apply digits_acc_zeros. exact Hj.
  - right. split; [lia|]. unfold layout_f. destruct (Z.leb_spec 0 j); [lia|].
    set (ds := format_uint d) in *. set (l := Z.of_nat (length ds)).
    destruct (Z.ltb_spec 0 (l + j)) as [L|L].
    + exists (firstn (Z.to_nat (l + j)) ds), (skipn (Z.to_nat (l + j)) ds).
      assert (length (firstn (Z.to_nat (l + j)) ds) = Z.to_nat (l + j)) as HL.
      { rewrite firstn_length. unfold l in *. lia. }
      assert (length (skipn (Z.to_nat (l + j)) ds) = Z.to_nat (- j)) as HL2.
      { rewrite skipn_length. unfold l in *. lia. }
      assert (all_digits (firstn (Z.to_nat (l + j)) ds) /\ all_digits (skipn (Z.to_nat (l + j)) ds)) as [D1 D2].
      { unfold all_digits in *. rewrite <- (firstn_skipn (Z.to_nat (l + j)) ds) in Hds.
        apply Forall_app in Hds. exact Hds. }
      split; [reflexivity|]. split; [|split; [|split]].
      * split.
        -- apply digits_of_all; [|exact D1]. intros C. rewrite C in HL. simpl in HL. lia.
        -- right. rewrite hd_firstn by lia. exact Hh.
      * apply digits_of_all; [|exact D2]. intros C. rewrite C in HL2. simpl in HL2. lia.
      * rewrite firstn_skipn. apply digits_acc_value. exact Hv.
      * lia.
    + exists ["0"%byte], (zeros (- j - l) ++ ds).
      split; [reflexivity|]. split; [|split; [|split]].
      * split; [|left; reflexivity]. apply digits_of_all; [discriminate|repeat constructor].
      * apply digits_of_all; [destruct (zeros (- j - l)); [exact Hne|discriminate]|].
        apply Forall_app. split; [apply zeros_digits|exact Hds].
      * apply digits_acc_value. cbn [app]. change (digits_acc 0 ("0"%byte :: zeros (- j - l) ++ ds))
          with (digits_acc 0 (zeros (- j - l) ++ ds)).
        rewrite digits_acc_app, digits_acc_zeros by lia. exact Hv.
      * rewrite app_length, Nat2Z.inj_add, zeros_length by lia. unfold l. lia.
Qed.

(** The printed form of a finite float64 is an RFC number denoting what the
    reader makes of it. *)
Lemma format_float_rfc neg m e bit : canon F64 m e = true ->
  exists v ng c j w, reads_as (JFloat (FFin neg m e) bit) v
    /\ rfc_number (format_float F64 (FFin neg m e)) ng c j w /\ number_value ng c j w v.
Proof.
  intros Hok. destruct (Z.eq_dec m 0) as [->|Hm0].
  - exists (JInt 0), neg, 0, 0, true. split; [constructor|].
    assert (rfc_int ["0"%byte]) as R0.
    { split; [apply digits_of_all; [discriminate|repeat constructor]|left; reflexivity]. }
    split; [exact (rn_int neg ["0"%byte] R0)|].
    pose proof (nv_int neg 0) as X. destruct neg; apply X; lia.
  - assert (0 < m) as Hm by (apply canon_spec in Hok; lia).
    destruct (format_float_tok (FFin neg m e) bit Hok) as (v & R & T).
    exists v. cbn [format_float] in *. destruct (Z.eqb_spec m 0); [contradiction|].
    destruct (shortest F64 m e) as [d k] eqn:HS.
    destruct (shortest_reads F64 m e d k F64_valid Hok Hm HS) as [Hd RD].
    pose proof (round_dec_nearest F64 d k m e F64_valid Hd RD) as CR.
    assert (~ overflows F64 (decq d k)) as NO.
    { intros O. apply (round_dec_overflow F64 d k F64_valid Hd) in O. congruence. }
    assert (bare_value (minus neg ++ layout_f d k) = Some v) as BV by exact (proj2 (proj2 (proj2 T))).
    destruct (layout_head d k Hd) as (c0 & r0 & EL & Hc0 & _).
    pose proof (parse_float_layout F64 neg d k Hd) as PF. rewrite RD in PF.
    change (if neg then ["-"%byte] else []) with (minus neg) in PF |- *.
    rewrite EL in BV. rewrite bare_value_num in BV by exact Hc0. rewrite <- EL in BV. rewrite PF in BV.
    destruct (layout_rfc d k Hd) as [(Hk & ip & E & HI & HV)|(Hk & ip & fs & E & HI & HF & HV & HL)].
    + (* whole *)
      exists neg, (d * 10 ^ k), 0, true. split; [exact R|].
      split; [rewrite E, <- HV; apply rn_int; exact HI|].
      assert (0 < d * 10 ^ k) as Hpos by (pose proof (pow10_pos k Hk); nia).
      pose proof (parse_int_layout_int neg d k Hd Hk) as PI. cbv zeta in PI.
      change (if neg then ["-"%byte] else []) with (minus neg) in PI. rewrite PI in BV.
      destruct (in_int64 (if neg then - (d * 10 ^ k) else d * 10 ^ k)) eqn:II; injection BV as <-.
      * apply in_int64_spec in II. apply nv_int. exact II.
      * assert (decq (d * 10 ^ k) 0 == decq d k)%Q as EQ.
        { rewrite !decq_int by lia. rewrite Z.pow_0_r, Z.mul_1_r. reflexivity. }
        apply nv_float; [exact Hpos| | |].
        -- intros _. split; [reflexivity|]. intros B. apply in_int64_spec in B. congruence.
        -- eapply correctly_rounded_eq; [symmetry; exact EQ|exact CR].
        -- unfold overflows in *. rewrite EQ. exact NO.
    + exists neg, d, k, false. split; [exact R|].
      pose proof (parse_int_layout_frac neg d k Hd Hk) as PI.
      change (if neg then ["-"%byte] else []) with (minus neg) in PI. rewrite PI in BV. injection BV as <-.
      split.
      * rewrite E. replace k with (- Z.of_nat (length fs)) by lia. rewrite <- HV. apply rn_frac; assumption.
      * apply nv_float; [exact Hd|discriminate|exact CR|exact NO].
Qed.

(** ** Containers *)

Section PrintRfc.
Variable K : bytes -> Prop.
Definition rprints (v : json) : Prop := exists v', rfc_value K (build_string v) v' /\ reads_as v v'.

Lemma ws_nil : rfc_ws []. Proof. constructor. Qed.

Lemma arr_text_rfc l : Forall rprints l -> l <> [] ->
  exists l', rfc_elements K (arr_text 0 l) l' /\ Forall2 reads_as l l'.
Proof.
  induction l as [|v l IH]; [congruence|]. intros HF _. inversion HF as [|? ? (v' & G & R) HF']; subst.
  cbn [arr_text]. change (Nat.ltb 0 0) with false. cbn [app]. rewrite arr_text_S.
  destruct l as [|w l].
  - exists [v']. split; [|repeat constructor; exact R]. rewrite !app_nil_r.
    pose proof (el_one K [] (build_string v) [] v' ws_nil G ws_nil) as X.
    cbn [app] in X. rewrite app_nil_r in X. exact X.
  - destruct (IH HF' ltac:(discriminate)) as (l' & GE & R'). exists (v' :: l'). split; [|constructor; assumption].
    exact (el_more K [] (build_string v) [] v' _ l' ws_nil G ws_nil GE).
Qed.

Lemma dict_text_rfc kvs : Forall (fun kv => rprints (snd kv) /\ K (fst kv)) kvs -> kvs <> [] ->
  exists kvs', rfc_members K (dict_text 0 kvs) kvs' /\ Forall2 member_rel kvs kvs'.
Proof.
  induction kvs as [|[k v] kvs IH]; [congruence|]. intros HF _.
  inversion HF as [|? ? ((v' & G & R) & HKk) HF']; subst. cbn [fst snd] in *.
  cbn [dict_text]. change (Nat.ltb 0 0) with false. cbn [app]. rewrite dict_text_S.
  pose proof (mb K [] (quote_string k) k [] [] (build_string v) [] v'
      ws_nil (quote_string_rfc k) HKk ws_nil ws_nil G ws_nil) as X.
  cbn [app] in X. rewrite app_nil_r in X.
  destruct kvs as [|kv kvs].
  - exists [(k, v')]. split; [|repeat constructor; exact R].
    rewrite !app_nil_r. apply mb_one. exact X.
  - destruct (IH HF' ltac:(discriminate)) as (l' & GE & R'). exists ((k, v') :: l').
    split; [|constructor; [split; [reflexivity|exact R]|assumption]].
    pose proof (mb_more K _ _ _ _ X GE) as Y. rewrite <- app_assoc in Y. exact Y.
Qed.

Lemma object_value_self kvs : keys_increasing kvs -> object_value kvs kvs.
Proof.
  intros H. split; [exact H|]. intros k.
  rewrite lookup_sm_get, last_member_binding.
  rewrite <- (sm_of_list_self kvs H) at 1. rewrite sm_of_list_get.
  destruct (last_binding kvs k); reflexivity.
Qed.

Definition all_keys (v : json) : Prop :=
  forall nid kvs k, subvalue (JDict nid kvs) v -> In k (map fst kvs) -> K k.

Theorem print_rfc v : json_ok v -> only_float64 v -> plain_json v -> all_keys v -> rprints v.
Proof.
  induction v as [|b|z|f bit|s|l IH|nid kvs IH|n] using json_ind'; intros HO HF (HP1 & HP2 & HP3) HKS.
  - exists JNull. split; constructor.
  - exists (JBool b). split; [|constructor]. destruct b; constructor.
  - inversion HO; subst. destruct (format_int_rfc z ltac:(assumption)) as (neg & c & H1 & H2).
    exists (JInt z). split; [|constructor]. eapply rv_number; eassumption.
  - inversion HO; subst. destruct (HP1 f bit (sub_refl _)) as (neg & m & e & ->).
    destruct (format_float_rfc neg m e bit ltac:(assumption)) as (v & ng & c & j & w & R & H1 & H2).
    exists v. split; [|exact R]. cbn [build_string]. unfold float_string.
    assert (bit <> 32) as N by (apply (HF (FFin neg m e) bit); constructor). apply Z.eqb_neq in N. rewrite N.
    eapply rv_number; eassumption.
  - exists (JString s). split; [|constructor]. constructor. apply quote_string_rfc.
  - inversion HO as [| | | | |? HO'| |]; subst.
    assert (Forall rprints l) as HL.
    { rewrite Forall_forall in *. intros x Hx. apply IH; auto.
      - intros f bit Hs. apply (HF f bit). eapply sub_elem; eassumption.
      - split; [|split].
        + intros f bit Hs. apply (HP1 f bit). eapply sub_elem; eassumption.
        + intros n Hs. apply (HP2 n). eapply sub_elem; eassumption.
        + intros i kvs Hs. apply (HP3 i kvs). eapply sub_elem; eassumption.
      - intros i kvs k Hs. apply (HKS i kvs k). eapply sub_elem; eassumption. }
    unfold rprints. rewrite build_array.
    destruct l as [|x l].
    + exists (JArray []). split; [exact (rv_array_empty K [] ws_nil)|repeat constructor].
    + destruct (arr_text_rfc (x :: l) HL ltac:(discriminate)) as (l' & GE & R).
      exists (JArray l'). split; [exact (rv_array K _ _ GE)|constructor; exact R].
  - inversion HO as [| | | | | |? ? HK HO' Hnid|]; subst.
    assert (Forall (fun kv => rprints (snd kv) /\ K (fst kv)) kvs) as HL.
    { rewrite Forall_forall in *. intros [k x] Hx. cbn [fst snd].
      split; [|apply (HKS nid kvs k (sub_refl _)); change k with (fst (k, x)); apply in_map; exact Hx]. apply (IH _ Hx).
      - apply (HO' _ Hx).
      - intros f bit Hs. apply (HF f bit). eapply sub_member; eassumption.
      - split; [|split].
        + intros f bit Hs. apply (HP1 f bit). eapply sub_member; eassumption.
        + intros n Hs. apply (HP2 n). eapply sub_member; eassumption.
        + intros i kvs' Hs. apply (HP3 i kvs'). eapply sub_member; eassumption.
      - intros i kvs' k' Hs. apply (HKS i kvs' k'). eapply sub_member; eassumption. }
    pose proof (HP3 nid kvs (sub_refl _)) as HN.
    unfold rprints. rewrite build_dict. destruct (Z.ltb_spec 0 nid) as [Lp|Lp]; [lia|]. cbn [app].
    destruct kvs as [|kv kvs].
    + exists (JDict 0 []). split; [exact (rv_object_empty K [] ws_nil)|].
      replace 0 with (Z.max 0 nid) by lia. repeat constructor.
    + destruct (dict_text_rfc (kv :: kvs) HL ltac:(discriminate)) as (kvs' & GM & R).
      exists (JDict 0 kvs'). split.
      * apply (rv_object K _ kvs' kvs' GM). apply object_value_self. unfold keys_increasing.
        rewrite (member_rel_keys _ _ R). exact HK.
      * replace 0 with (Z.max 0 nid) by lia. constructor. exact R.
  - exfalso. apply (HP2 n). constructor.
Qed.
End PrintRfc.

(** ** PrettyString *)

Ltac napp X := repeat (progress (rewrite <- ?app_assoc in X; rewrite ?app_nil_r in X; cbn [app] in X));
  repeat (progress (rewrite <- ?app_assoc; rewrite ?app_nil_r; cbn [app])).

Lemma plain_key_ok k : ~ In """"%byte k -> ~ In "\"%byte k -> quoted_ok ([""""%byte] ++ k ++ [""""%byte]) k.
Proof.
  intros H1 H2. exists """"%byte, k. repeat split; [left; reflexivity|].
  induction k as [|c k IH]; intros acc rest.
  - cbn. rewrite app_nil_r. reflexivity.
  - cbn [app parse_quoted].
    destruct (beq_spec c "\"%byte) as [->|_]; [exfalso; apply H2; left; reflexivity|].
    destruct (beq_spec c """"%byte) as [->|_]; [exfalso; apply H1; left; reflexivity|].
    rewrite IH; [|intros C; apply H1; right; exact C|intros C; apply H2; right; exact C].
    cbn [rev]. rewrite <- app_assoc. reflexivity.
Qed.

Lemma tabs_ws n : wsp (tabs n).
Proof. induction n as [|n IH]; [constructor|]. cbn [tabs app]. repeat (constructor; [reflexivity|]). exact IH. Qed.

Section Pretty.
Variable level : nat.

Fixpoint parr (idx : nat) (l : list json) : bytes :=
  match l with
  | [] => []
  | v :: l' => (if Nat.ltb 0 idx then [","%byte] else [])
                 ++ [x0a] ++ pretty_string (level + 1) v ++ parr (S idx) l'
  end.

Definition pmember (v : json) : bytes :=
  match v with
  | JDict _ _ | JArray _ => [x0a] ++ pretty_string (level + 2) v
  | _ => [" "%byte] ++ build_string v
  end.

Fixpoint pdict (idx : nat) (kvs : list (bytes * json)) : bytes :=
  match kvs with
  | [] => []
  | (k, v) :: kvs' =>
      (if Nat.ltb 0 idx then [","%byte] else [])
        ++ [x0a] ++ tabs level ++ [" "%byte; " "%byte]
        ++ [""""%byte] ++ k ++ [""""%byte; ":"%byte] ++ pmember v ++ pdict (S idx) kvs'
  end.
End Pretty.

Lemma pretty_array level l : pretty_string level (JArray l)
  = tabs level ++ "["%byte :: parr level 0 l ++ (match l with [] => [] | _ => [x0a] ++ tabs level end) ++ ["]"%byte].
Proof. reflexivity. Qed.

Lemma pretty_dict level nid kvs : pretty_string level (JDict nid kvs)
  = tabs level ++ "{"%byte :: pdict level 0 kvs ++ (match kvs with [] => [] | _ => [x0a] ++ tabs level end) ++ ["}"%byte].
Proof. reflexivity. Qed.

Lemma parr_idx level l : forall i j, parr level (S i) l = parr level (S j) l.
Proof.
  induction l as [|v l IH]; intros i j; [reflexivity|]. cbn [parr]. rewrite (IH (S i) (S j)). reflexivity.
Qed.
Lemma pdict_idx level l : forall i j, pdict level (S i) l = pdict level (S j) l.
Proof.
  induction l as [|[k v] l IH]; intros i j; [reflexivity|]. cbn [pdict]. rewrite (IH (S i) (S j)). reflexivity.
Qed.
Lemma parr_S level i l : parr level (S i) l = match l with [] => [] | _ => ","%byte :: parr level 0 l end.
Proof.
  rewrite (parr_idx level l i 0). destruct l as [|v l]; [reflexivity|]. cbn [parr].
  rewrite (parr_idx level l 1 0). reflexivity.
Qed.
Lemma pdict_S level i l : pdict level (S i) l = match l with [] => [] | _ => ","%byte :: pdict level 0 l end.
Proof.
  rewrite (pdict_idx level l i 0). destruct l as [|[k v] l]; [reflexivity|]. cbn [pdict].
  rewrite (pdict_idx level l 1 0). reflexivity.
Qed.

(** The pretty text of v is white space and a text with the meaning of v
    without node ids; so is the member form. *)
Definition pprints (v : json) : Prop := forall level,
  (exists w b t v', pretty_string level v = w ++ t /\ wsp w /\ gval b t v' [] /\ reads_as (strip_ids v) v')
  /\ (exists w b t v', pmember level v = w ++ t /\ wsp w /\ gval b t v' [] /\ reads_as (strip_ids v) v').

Lemma wsp_app a b : wsp a -> wsp b -> wsp (a ++ b).
Proof. intros H1 H2. apply Forall_app. split; assumption. Qed.

Lemma wsp_nl_tabs n : wsp (x0a :: tabs n).
Proof. constructor; [reflexivity|apply tabs_ws]. Qed.

Lemma parr_gram level l e : wsp e -> Forall pprints l -> l <> [] ->
  exists l', gelems (parr level 0 l ++ e) l' [] /\ Forall2 reads_as (map strip_ids l) l'.
Proof.
  intros He. induction l as [|v l IH]; [congruence|]. intros HF _. inversion HF as [|? ? HP HF']; subst.
  destruct (HP (level + 1)%nat) as [(w & b & t & v' & E & Hw & G & R) _].
  cbn [parr]. change (Nat.ltb 0 0) with false. cbn [app map]. rewrite parr_S, E.
  assert (wsp (x0a :: w)) as Hw' by (constructor; [reflexivity|exact Hw]).
  destruct l as [|w0 l].
  - exists [v']. split; [|repeat constructor; exact R]. rewrite app_nil_r, <- app_assoc.
    exact (ge_one (x0a :: w) b t e v' [] Hw' G He).
  - destruct (IH HF' ltac:(discriminate)) as (l' & GE & R'). exists (v' :: l'). split; [|constructor; assumption].
    pose proof (ge_more (x0a :: w) b t [] v' [] _ l' [] Hw' G wsp_nil GE) as X. cbn [app] in X.
    rewrite <- !app_assoc. cbn [app]. exact X.
Qed.

Lemma pdict_gram level kvs e : wsp e ->
  Forall (fun kv => pprints (snd kv) /\ ~ In """"%byte (fst kv) /\ ~ In "\"%byte (fst kv)) kvs -> kvs <> [] ->
  exists kvs', gmembers (pdict level 0 kvs ++ e) kvs' []
    /\ Forall2 member_rel (map (fun kv => (fst kv, strip_ids (snd kv))) kvs) kvs'.
Proof.
  intros He. induction kvs as [|[k v] kvs IH]; [congruence|]. intros HF _.
  inversion HF as [|? ? (HP & Hk1 & Hk2) HF']; subst. cbn [fst snd] in *.
  destruct (HP level) as [_ (w & b & t & v' & E & Hw & G & R)].
  cbn [pdict]. change (Nat.ltb 0 0) with false. cbn [map fst snd]. rewrite pdict_S, E.
  assert (wsp (x0a :: tabs level ++ [" "%byte; " "%byte])) as Hw'.
  { constructor; [reflexivity|]. apply wsp_app; [apply tabs_ws|repeat constructor]. }
  pose proof (plain_key_ok k Hk1 Hk2) as HQ.
  destruct kvs as [|kv kvs].
  - exists [(k, v')]. split; [|repeat constructor; exact R].
    pose proof (gm_one _ _ k [] w b t e v' [] Hw' HQ wsp_nil Hw G He) as X.
    napp X. exact X.
  - destruct (IH HF' ltac:(discriminate)) as (l' & GE & R'). exists ((k, v') :: l').
    split; [|constructor; [split; [reflexivity|exact R]|assumption]].
    pose proof (gm_more _ _ k [] w b t [] v' [] _ l' [] Hw' HQ wsp_nil Hw G wsp_nil GE) as X.
    napp X. exact X.
Qed.

Lemma pprints_scalar v b : (forall level, pretty_string level v = tabs level ++ build_string v) ->
  (forall level, pmember level v = [" "%byte] ++ build_string v) ->
  (exists v', gval b (build_string v) v' [] /\ reads_as (strip_ids v) v') -> pprints v.
Proof.
  intros H1 H2 (v' & G & R) level. split.
  - exists (tabs level), b, (build_string v), v'. rewrite H1. auto using tabs_ws.
  - exists [" "%byte], b, (build_string v), v'. rewrite H2. repeat split; auto. repeat constructor.
Qed.

Lemma strip_ids_keys kvs : map fst (map (fun kv : bytes * json => (fst kv, strip_ids (snd kv))) kvs) = map fst kvs.
Proof. rewrite map_map. reflexivity. Qed.

Theorem pretty_gram v : json_ok v -> only_float64 v -> no_reserved_key v -> plain_keys v -> pprints v.
Proof.
  induction v as [|b|z|f bit|s|l IH|nid kvs IH|n] using json_ind'; intros HO HF HR HK.
  1,2,3,4,5,8: destruct (print_gram _ HO HF HR) as (b' & v' & G & R);
    apply (pprints_scalar _ b'); [reflexivity|reflexivity|exists v'; split; [exact G|exact R]].
  - inversion HO as [| | | | |? HO'| |]; subst.
    assert (Forall pprints l) as HL.
    { rewrite Forall_forall in *. intros x Hx. apply IH; auto.
      - intros f bit Hs. apply (HF f bit). eapply sub_elem; eassumption.
      - intros i kvs Hs. apply (HR i kvs). eapply sub_elem; eassumption.
      - intros i kvs k Hs. apply (HK i kvs k). eapply sub_elem; eassumption. }
    assert (forall level, exists w b t v', pretty_string level (JArray l) = w ++ t /\ wsp w
              /\ gval b t v' [] /\ reads_as (strip_ids (JArray l)) v') as X.
    { intros level. rewrite pretty_array. exists (tabs level), true. destruct l as [|x l].
      - exists ["["%byte; "]"%byte], (JArray []). split; [reflexivity|]. split; [apply tabs_ws|].
        split; [exact (g_arr0 [] wsp_nil)|repeat constructor].
      - destruct (parr_gram level (x :: l) (x0a :: tabs level) (wsp_nl_tabs level) HL ltac:(discriminate))
          as (l' & GE & R).
        exists ("["%byte :: (parr level 0 (x :: l) ++ x0a :: tabs level) ++ ["]"%byte]), (JArray l').
        split; [rewrite <- !app_assoc; reflexivity|]. split; [apply tabs_ws|].
        split; [apply g_arr; exact GE|constructor; exact R]. }
    intros level. split; [apply X|].
    destruct (X (level + 2)%nat) as (w & b & t & v' & E & Hw & G & R).
    exists (x0a :: w), b, t, v'. unfold pmember. rewrite E. split; [reflexivity|].
    split; [constructor; [reflexivity|exact Hw]|]. split; assumption.
  - inversion HO as [| | | | | |? ? HS HO' Hnid|]; subst.
    assert (Forall (fun kv => pprints (snd kv) /\ ~ In """"%byte (fst kv) /\ ~ In "\"%byte (fst kv)) kvs) as HL.
    { rewrite Forall_forall in *. intros [k x] Hx. cbn [fst snd]. split.
      - apply (IH _ Hx).
        + apply (HO' _ Hx).
        + intros f bit Hs. apply (HF f bit). eapply sub_member; eassumption.
        + intros i kvs' Hs. apply (HR i kvs'). eapply sub_member; eassumption.
        + intros i kvs' k' Hs. apply (HK i kvs' k'). eapply sub_member; eassumption.
      - apply (HK nid kvs k (sub_refl _)). change k with (fst (k, x)). apply in_map. exact Hx. }
    pose proof (HR nid kvs (sub_refl _)) as HNK.
    assert (forall level, exists w b t v', pretty_string level (JDict nid kvs) = w ++ t /\ wsp w
              /\ gval b t v' [] /\ reads_as (strip_ids (JDict nid kvs)) v') as X.
    { intros level. rewrite pretty_dict. exists (tabs level), true. destruct kvs as [|kv kvs].
      - exists ["{"%byte; "}"%byte], (JDict 0 []). split; [reflexivity|]. split; [apply tabs_ws|].
        split; [exact (g_obj0 [] wsp_nil)|]. exact (ra_dict 0 [] [] (Forall2_nil _)).
      - destruct (pdict_gram level (kv :: kvs) (x0a :: tabs level) (wsp_nl_tabs level) HL ltac:(discriminate))
          as (kvs' & GM & R).
        exists ("{"%byte :: (pdict level 0 (kv :: kvs) ++ x0a :: tabs level) ++ ["}"%byte]), (JDict 0 kvs').
        split; [rewrite <- !app_assoc; reflexivity|]. split; [apply tabs_ws|]. split.
        + assert (fold_members kvs' 0 [] = Some (0, kvs')) as FM.
          { pose proof (member_rel_keys _ _ R) as EK. rewrite strip_ids_keys in EK.
            rewrite fold_members_plain.
            - rewrite sm_of_list_self; [reflexivity|]. unfold keys_increasing. rewrite EK. exact HS.
            - apply keys_not_in_forall. rewrite EK. exact HNK. }
          exact (g_obj _ _ 0 kvs' _ GM FM).
        + exact (ra_dict 0 _ kvs' R). }
    intros level. split; [apply X|].
    destruct (X (level + 2)%nat) as (w & b & t & v' & E & Hw & G & R).
    exists (x0a :: w), b, t, v'. unfold pmember. rewrite E. split; [reflexivity|].
    split; [constructor; [reflexivity|exact Hw]|]. split; assumption.
Qed.

Theorem pretty_parse_suffix v : json_ok v -> only_float64 v -> no_reserved_key v -> plain_keys v ->
  exists v', reads_as (strip_ids v) v' /\ parse_suffix (PrettyString v) = POk v' [].
Proof.
  intros H1 H2 H3 H4. destruct (pretty_gram v H1 H2 H3 H4 0%nat) as [(w & b & t & v' & E & Hw & G & R) _].
  exists v'. split; [exact R|]. unfold PrettyString. rewrite E.
  pose proof (gram_parse_suffix b w t v' [] [] Hw G (NoDup_nil _)) as P. rewrite app_nil_r in P.
  apply P. intros _. exact I.
Qed.
