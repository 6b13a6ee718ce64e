(** Serialised values parse back. *)
From Coq Require Import QArith Qpower Qfield Sorting.Sorted.
From Verif Require Import Base Strconv StrconvFacts SpecFloat RoundFacts FloatText RoundUnique SortedMap SortedMapFacts
  Utf8 Json SpecJson SpecRFC SpecPrint Printer Parser ParserFacts ParserFacts2 Gram RfcFacts.
Open Scope Z_scope.

(** ** Quoting *)

Lemma escape_char_parse q c acc rest : rest <> [] -> (q = """"%byte \/ q = "'"%byte /\ c <> q) ->
  parse_quoted q acc (escape_char c ++ rest) = parse_quoted q (c :: acc) rest.
Proof.
  intros Hr Hq. unfold escape_char.
  destruct (beq_spec c """"%byte) as [->|N1]; [reflexivity|].
  destruct (beq_spec c "\"%byte) as [->|N2]; [reflexivity|].
  destruct (beq_spec c x08) as [->|N3]; [reflexivity|].
  destruct (beq_spec c x0c) as [->|N4]; [reflexivity|].
  destruct (beq_spec c x0a) as [->|N5]; [reflexivity|].
  destruct (beq_spec c x0d) as [->|N6]; [reflexivity|].
  destruct (beq_spec c x09) as [->|N7]; [reflexivity|].
  destruct (Z.ltb_spec (bz c) 32) as [L|L].
  - cbn [app]. destruct rest as [|r0 rest]; [congruence|].
    assert (hexstr2rune "0"%byte "0"%byte (hexdigit_byte (bz c / 16)) (hexdigit_byte (bz c mod 16)) = Some (bz c)
            /\ encode_rune (bz c) = [c]) as [E1 E2].
    { clear - L. destruct c; try (exfalso; vm_compute in L; discriminate L); split; reflexivity. }
    cbn [parse_quoted]. change (beq "\"%byte "\"%byte) with true. change (beq "u"%byte "u"%byte) with true.
    cbv iota. rewrite E1, E2. reflexivity.
  - cbn [app parse_quoted]. apply beq_neq in N2. rewrite N2.
    destruct (beq_spec c q) as [E|_]; [|reflexivity].
    destruct Hq as [-> | [-> Hne]]; contradiction.
Qed.

Lemma quote_string_ok s : quoted_ok (quote_string s) s.
Proof.
  exists """"%byte, (flat_map escape_char s). repeat split; [left; reflexivity|].
  induction s as [|c s IH]; intros acc rest.
  - cbn. rewrite app_nil_r. reflexivity.
  - cbn [flat_map]. rewrite <- app_assoc.
    rewrite escape_char_parse; [|destruct (flat_map escape_char s); discriminate|left; reflexivity].
    rewrite IH. cbn [rev]. rewrite <- app_assoc. reflexivity.
Qed.

(** ** Tokens *)

Lemma format_int_tok z : in_int64 z = true -> tok_ok (format_int z) (JInt z).
Proof.
  intros Hz. pose proof (parse_int_format z Hz) as P. unfold format_int in *.
  destruct (Z.ltb_spec z 0) as [L|L].
  - pose proof (format_uint_digits (- z) ltac:(lia)) as Hd.
    pose proof (format_uint_nonempty (- z) ltac:(lia)) as Hne.
    destruct (format_uint (- z)) as [|c r]; [congruence|].
    assert (is_digit c = true) as Hc by (inversion Hd; assumption).
    apply (num_tok_ok true c r); [exact Hc|apply digits_nodelim; exact Hd|].
    rewrite bare_value_num by exact Hc. change (minus true ++ c :: r) with ("-"%byte :: c :: r).
    rewrite P. reflexivity.
  - pose proof (format_uint_digits z L) as Hd.
    pose proof (format_uint_nonempty z L) as Hne.
    destruct (format_uint z) as [|c r]; [congruence|].
    assert (is_digit c = true) as Hc by (inversion Hd; assumption).
    apply (num_tok_ok false c r); [exact Hc|apply digits_nodelim; exact Hd|].
    rewrite bare_value_num by exact Hc. change (minus false ++ c :: r) with (c :: r).
    rewrite P. reflexivity.
Qed.

Lemma layout_head d j : 0 < d -> exists c r, layout_f d j = c :: r /\ is_digit c = true
  /\ Forall (fun c => is_delim c = false) (c :: r).
Proof.
  intros Hd. destruct (layout_f_shape d j Hd) as [(_ & ds & -> & Hne & Hv)|(_ & ds & fs & -> & Hne & Hv & _)].
  - pose proof (digits_acc_some _ _ _ Hv) as Hds. destruct ds as [|c r]; [congruence|].
    exists c, r. split; [reflexivity|]. split; [inversion Hds; assumption|apply digits_nodelim; exact Hds].
  - pose proof (digits_acc_some _ _ _ Hv) as Hds. destruct ds as [|c r]; [congruence|].
    exists c, (r ++ "."%byte :: fs). split; [reflexivity|]. split; [inversion Hds; assumption|].
    apply Forall_app in Hds as [H1 H2].
    change (Forall (fun c => is_delim c = false) ((c :: r) ++ "."%byte :: fs)).
    apply Forall_app. split; [apply digits_nodelim; exact H1|].
    constructor; [reflexivity|apply digits_nodelim; exact H2].
Qed.

(** small_integral of SpecPrint against the side condition of FloatText. *)
Lemma small_integral_dec m e : canon F64 m e = true -> 0 < m -> small_integral m e \/ ~ small_integral m e.
Proof.
  intros Hc Hm. destruct (Z_le_gt_dec 0 e) as [He|He].
  - destruct (Qlt_le_dec (fq m e) (inject_Z (2 ^ 63))) as [L|L].
    + left. split; [|exact L]. exists (m * 2 ^ e). apply fq_int. exact He.
    + right. intros [_ H]. apply (Qlt_not_le _ _ H L).
  - destruct (Qlt_le_dec (fq m e) (inject_Z (2 ^ 63))) as [L|L].
    + destruct (Z.eq_dec (m mod 2 ^ (- e)) 0) as [D|D].
      * left. split; [|exact L]. exists (m / 2 ^ (- e)).
        apply Z_div_exact_full_2 in D; [|pose proof (pow2_pos (- e) ltac:(lia)); lia].
        assert (inject_Z m == inject_Z (2 ^ (- e)) * inject_Z (m / 2 ^ (- e)))%Q as E
          by (rewrite <- inject_Z_mult, <- D; reflexivity).
        unfold fq. rewrite E, <- (qpow2_Z (- e)) by lia. rewrite Qpower_opp.
        field. pose proof (qpow2_pos e). intros C. rewrite C in H. apply (Qlt_irrefl 0 H).
      * right. intros [[n Hn] _]. apply D. apply Z.mod_divide; [pose proof (pow2_pos (- e) ltac:(lia)); lia|].
        exists n. unfold fq in Hn.
        assert (inject_Z m == inject_Z n * Qpower 2 (- e))%Q as E.
        { rewrite <- Hn, Qpower_opp. field. pose proof (qpow2_pos e). intros C. rewrite C in H. apply (Qlt_irrefl 0 H). }
        rewrite (qpow2_Z (- e)) in E by lia. rewrite <- inject_Z_mult in E.
        apply (proj1 (inject_Z_injective _ _)) in E. exact E.
    + right. intros [_ H]. apply (Qlt_not_le _ _ H L).
Qed.

Lemma float_of_int_abs z neg m e : 0 < m -> float_of_int z = FFin neg m e ->
  exists n, 0 < n /\ z = (if neg then - n else n) /\ round_dec F64 n 0 = Some (m, e).
Proof.
  intros Hm. unfold float_of_int. destruct (Z.eqb_spec z 0) as [->|Hz].
  - intros [= _ <- _]. lia.
  - destruct (round_pos F64 (Z.abs z) 1) as [[m' e']|] eqn:R; [|discriminate].
    intros [= <- <- <-]. exists (Z.abs z). split; [lia|].
    split; [destruct (Z.ltb_spec z 0); lia|].
    unfold round_dec. change (0 <=? 0) with true. cbv iota. rewrite Z.pow_0_r, Z.mul_1_r. exact R.
Qed.

Lemma format_float_tok f bit : fl_ok F64 f = true ->
  exists v, reads_as (JFloat f bit) v /\ tok_ok (format_float F64 f) v.
Proof.
  intros Hok. destruct f as [|neg|neg m e].
  - exists (JFloat FNaN 0). split; [constructor|]. repeat split; [discriminate|repeat constructor].
  - exists (JFloat (FInf neg) 0). split; [constructor|].
    destruct neg; (repeat split; [discriminate|repeat constructor]).
  - cbn [fl_ok] in Hok. destruct (Z.eq_dec m 0) as [->|Hm0].
    + exists (JInt 0). split; [constructor|].
      destruct neg; (repeat split; [discriminate|repeat constructor]).
    + assert (0 < m) as Hm by (apply canon_spec in Hok; lia).
      pose proof (parse_format_float' F64 (FFin neg m e) F64_valid Hok) as PF.
      assert (exists c r, format_float F64 (FFin neg m e) = minus neg ++ c :: r /\ is_digit c = true
              /\ Forall (fun c => is_delim c = false) (c :: r)) as (c & r & EF & Hc & Hnd).
      { cbn [format_float]. destruct (Z.eqb_spec m 0); [contradiction|].
        destruct (shortest F64 m e) as [d k] eqn:HS.
        destruct (shortest_reads F64 m e d k F64_valid Hok Hm HS) as [Hd _].
        destruct (layout_head d k Hd) as (c & r & -> & H1 & H2). exists c, r. auto. }
      destruct (small_integral_dec m e Hok Hm) as [HI|HI].
      * destruct (float_text_int neg m e Hok Hm (proj1 HI) (proj2 HI)) as (z & PI & HZ).
        destruct (float_of_int_abs z neg m e Hm HZ) as (n & Hn & -> & R).
        exists (JInt (if neg then - n else n)). split.
        -- apply ra_float_int; auto.
           ++ apply parse_int_range in PI. apply in_int64_spec in PI.
              split; [exact Hn|]. destruct neg; [|lia].
              assert (n <> 2 ^ 63); [|lia]. intros ->.
              vm_compute in R. injection R as <- <-.
              destruct HI as [_ HI]. revert HI. apply Qle_not_lt. vm_compute. discriminate.
           ++ pose proof (round_dec_nearest F64 n 0 m e F64_valid Hn R) as CR.
              eapply correctly_rounded_eq; [|exact CR]. rewrite decq_int by lia.
              rewrite Z.pow_0_r, Z.mul_1_r. reflexivity.
        -- rewrite EF in *. apply num_tok_ok; try assumption.
           rewrite bare_value_num by exact Hc. rewrite PI. reflexivity.
      * exists (JFloat (FFin neg m e) 0). split; [constructor; assumption|].
        pose proof (float_text_not_int neg m e Hok Hm HI) as PI.
        rewrite EF in *. apply num_tok_ok; try assumption.
        rewrite bare_value_num by exact Hc. rewrite PI, PF. reflexivity.
Qed.

Lemma ptr_string_tok n : in_int64 n = true -> tok_ok (ptr_string n) (JPtr n).
Proof.
  intros Hn. pose proof (parse_int_format n Hn) as P.
  destruct (format_int_tok n Hn) as (Hne & Hd & _ & _).
  unfold ptr_string. repeat split.
  - discriminate.
  - cbn [app]. constructor; [reflexivity|]. apply Forall_app. split; [exact Hd|repeat constructor].
  - unfold bare_value. cbn [app hd tl]. change (beq "<"%byte "<"%byte) with true. cbn [andb].
    rewrite app_comm_cons, last_last. change (beq ">"%byte ">"%byte) with true. cbv iota.
    rewrite removelast_last, P. reflexivity.
Qed.

(** ** Containers *)

Fixpoint arr_text (idx : nat) (l : list json) : bytes :=
  match l with
  | [] => []
  | v :: l' => (if Nat.ltb 0 idx then [","%byte] else []) ++ build_string v ++ arr_text (S idx) l'
  end.

Fixpoint dict_text (idx : nat) (kvs : list (bytes * json)) : bytes :=
  match kvs with
  | [] => []
  | (k, v) :: kvs' => (if Nat.ltb 0 idx then [","%byte] else [])
                        ++ quote_string k ++ [":"%byte] ++ build_string v ++ dict_text (S idx) kvs'
  end.

Lemma build_array l : build_string (JArray l) = "["%byte :: arr_text 0 l ++ ["]"%byte].
Proof. reflexivity. Qed.

Lemma build_dict nid kvs : build_string (JDict nid kvs)
  = "{"%byte :: ((if 0 <? nid then quote_string jnid_key ++ [":"%byte] ++ format_int nid else [])
       ++ dict_text (if 0 <? nid then 1%nat else 0%nat) kvs) ++ ["}"%byte].
Proof. cbn [build_string app]. rewrite <- app_assoc. reflexivity. Qed.

Lemma arr_text_idx l : forall i j, arr_text (S i) l = arr_text (S j) l.
Proof.
  induction l as [|v l IH]; intros i j; [reflexivity|]. cbn [arr_text].
  rewrite (IH (S i) (S j)). reflexivity.
Qed.

Lemma dict_text_idx kvs : forall i j, dict_text (S i) kvs = dict_text (S j) kvs.
Proof.
  induction kvs as [|[k v] kvs IH]; intros i j; [reflexivity|]. cbn [dict_text].
  rewrite (IH (S i) (S j)). reflexivity.
Qed.

Lemma arr_text_S i l : arr_text (S i) l = match l with [] => [] | _ => ","%byte :: arr_text 0 l end.
Proof. rewrite (arr_text_idx l i 0). destruct l as [|v l]; [reflexivity|]. cbn [arr_text]. rewrite (arr_text_idx l 1 0). reflexivity. Qed.

Lemma dict_text_S i kvs : dict_text (S i) kvs = match kvs with [] => [] | _ => ","%byte :: dict_text 0 kvs end.
Proof.
  rewrite (dict_text_idx kvs i 0). destruct kvs as [|[k v] kvs]; [reflexivity|].
  cbn [dict_text]. rewrite (dict_text_idx kvs 1 0). reflexivity.
Qed.

Lemma wsp_nil : wsp []. Proof. constructor. Qed.

Definition member_rel (a b : bytes * json) : Prop := fst a = fst b /\ reads_as (snd a) (snd b).

Definition gprints (v : json) : Prop := exists b v', gval b (build_string v) v' (node_ids v) /\ reads_as v v'.

Lemma arr_text_gram l : Forall gprints l -> l <> [] ->
  exists l', gelems (arr_text 0 l) l' (flat_map node_ids l) /\ Forall2 reads_as l l'.
Proof.
  induction l as [|v l IH]; [congruence|]. intros HF _. inversion HF as [|? ? (b & v' & G & R) HF']; subst.
  cbn [arr_text]. change (Nat.ltb 0 0) with false. cbn [app]. rewrite arr_text_S. cbn [flat_map].
  destruct l as [|w l].
  - exists [v']. split; [|repeat constructor; exact R].
    cbn [flat_map]. rewrite !app_nil_r.
    pose proof (ge_one [] b (build_string v) [] v' (node_ids v) wsp_nil G wsp_nil) as X.
    cbn [app] in X. rewrite app_nil_r in X. exact X.
  - destruct (IH HF' ltac:(discriminate)) as (l' & GE & R'). exists (v' :: l'). split; [|constructor; assumption].
    exact (ge_more [] b (build_string v) [] v' (node_ids v) _ l' _ wsp_nil G wsp_nil GE).
Qed.

Lemma dict_text_gram kvs : Forall (fun kv => gprints (snd kv)) kvs -> kvs <> [] ->
  exists kvs', gmembers (dict_text 0 kvs) kvs' (flat_map (fun kv => node_ids (snd kv)) kvs)
               /\ Forall2 member_rel kvs kvs'.
Proof.
  induction kvs as [|[k v] kvs IH]; [congruence|]. intros HF _.
  inversion HF as [|? ? (b & v' & G & R) HF']; subst. cbn [snd] in *.
  cbn [dict_text]. change (Nat.ltb 0 0) with false. cbn [app]. rewrite dict_text_S. cbn [flat_map snd].
  destruct kvs as [|kv kvs].
  - exists [(k, v')]. split; [|repeat constructor; exact R].
    cbn [flat_map]. rewrite !app_nil_r.
    pose proof (gm_one [] (quote_string k) k [] [] b (build_string v) [] v' (node_ids v)
      wsp_nil (quote_string_ok k) wsp_nil wsp_nil G wsp_nil) as X.
    cbn [app] in X. rewrite app_nil_r in X. exact X.
  - destruct (IH HF' ltac:(discriminate)) as (l' & GE & R'). exists ((k, v') :: l').
    split; [|constructor; [split; [reflexivity|exact R]|assumption]].
    exact (gm_more [] (quote_string k) k [] [] b (build_string v) [] v' (node_ids v) _ l' _
      wsp_nil (quote_string_ok k) wsp_nil wsp_nil G wsp_nil GE).
Qed.

Lemma member_rel_keys kvs kvs' : Forall2 member_rel kvs kvs' -> map fst kvs' = map fst kvs.
Proof. induction 1 as [|a b l l' [E _] _ IH]; simpl; [reflexivity|]. rewrite E, IH. reflexivity. Qed.

Lemma sm_of_list_self (kvs : list (bytes * json)) : keys_increasing kvs -> sm_of_list kvs [] = kvs.
Proof. intros H. apply sm_of_list_sorted. apply sm_ok_strong. exact H. Qed.

Lemma keys_not_in_forall (kvs : list (bytes * json)) k : ~ In k (map fst kvs) -> Forall (fun kv => fst kv <> k) kvs.
Proof.
  intros H. apply Forall_forall. intros kv Hin E. apply H. rewrite <- E. apply in_map. exact Hin.
Qed.

Theorem print_gram v : json_ok v -> only_float64 v -> no_reserved_key v -> gprints v.
Proof.
  induction v as [|b|z|f bit|s|l IH|nid kvs IH|n] using json_ind'; intros HO HF HR.
  - exists false, JNull. split; [|constructor]. apply g_tok. repeat split; [discriminate|repeat constructor].
  - exists false, (JBool b). split; [|constructor]. apply g_tok.
    destruct b; (repeat split; [discriminate|repeat constructor]).
  - exists false, (JInt z). split; [|constructor]. apply g_tok. apply format_int_tok. inversion HO; assumption.
  - inversion HO; subst. destruct (format_float_tok f bit ltac:(assumption)) as (v' & R & T).
    exists false, v'. split; [|exact R]. apply g_tok. cbn [build_string]. unfold float_string.
    assert (bit <> 32) as N by (apply (HF f bit); constructor). apply Z.eqb_neq in N. rewrite N. exact T.
  - exists true, (JString s). split; [|constructor]. apply g_str. apply quote_string_ok.
  - inversion HO as [| | | | |? HO'| |]; subst.
    assert (Forall gprints l) as HL.
    { rewrite Forall_forall in *. intros x Hx. apply IH; auto.
      - intros f bit Hs. apply (HF f bit). eapply sub_elem; eassumption.
      - intros i kvs Hs. apply (HR i kvs). eapply sub_elem; eassumption. }
    rewrite <- (app_nil_r (node_ids (JArray l))) || idtac.
    unfold gprints. rewrite build_array. cbn [node_ids].
    destruct l as [|x l].
    + exists true, (JArray []). split; [exact (g_arr0 [] wsp_nil)|repeat constructor].
    + destruct (arr_text_gram (x :: l) HL ltac:(discriminate)) as (l' & GE & R).
      exists true, (JArray l'). split; [apply g_arr; exact GE|constructor; exact R].
  - inversion HO as [| | | | | |? ? HK HO' Hnid|]; subst.
    assert (Forall (fun kv => gprints (snd kv)) kvs) as HL.
    { rewrite Forall_forall in *. intros [k x] Hx. cbn [snd]. apply (IH _ Hx).
      - apply (HO' _ Hx).
      - intros f bit Hs. apply (HF f bit). eapply sub_member; eassumption.
      - intros i kvs' Hs. apply (HR i kvs'). eapply sub_member; eassumption. }
    pose proof (HR nid kvs (sub_refl _)) as HNK.
    unfold gprints. rewrite build_dict. cbn [node_ids].
    destruct (Z.ltb_spec 0 nid) as [Lp|Lp].
    + destruct kvs as [|kv kvs].
      * exists true, (JDict nid []). split.
        -- cbn [dict_text]. rewrite app_nil_r. cbn [flat_map app].
           pose proof (gm_one [] (quote_string jnid_key) jnid_key [] [] false (format_int nid) [] (JInt nid) []
             wsp_nil (quote_string_ok _) wsp_nil wsp_nil (g_tok _ _ (format_int_tok nid Hnid)) wsp_nil) as X.
           cbn [app] in X. rewrite app_nil_r in X.
           pose proof (g_obj _ _ nid [] [] X eq_refl) as G. cbn [app] in G.
           rewrite (proj2 (Z.ltb_lt 0 nid) Lp) in G. exact G.
        -- rewrite <- (Z.max_r 0 nid) at 2 by lia. repeat constructor.
      * destruct (dict_text_gram (kv :: kvs) HL ltac:(discriminate)) as (kvs' & GM & R).
        exists true, (JDict nid kvs'). split.
        -- pose proof (gm_more [] (quote_string jnid_key) jnid_key [] [] false (format_int nid) [] (JInt nid) []
             _ _ _ wsp_nil (quote_string_ok _) wsp_nil wsp_nil (g_tok _ _ (format_int_tok nid Hnid)) wsp_nil GM) as X.
           assert (fold_members ((jnid_key, JInt nid) :: kvs') 0 [] = Some (nid, kvs')) as FM.
           { cbn [fold_members]. rewrite bseq_refl. rewrite fold_members_plain.
             - rewrite sm_of_list_self; [reflexivity|]. unfold keys_increasing.
               rewrite (member_rel_keys _ _ R). exact HK.
             - apply keys_not_in_forall. rewrite (member_rel_keys _ _ R). exact HNK. }
           pose proof (g_obj _ _ nid kvs' _ X FM) as G. cbn [app] in G.
           rewrite (proj2 (Z.ltb_lt 0 nid) Lp) in G.
           rewrite (dict_text_S 0). rewrite <- !app_assoc in G |- *. cbn [app] in G |- *.
           rewrite <- !app_assoc in G |- *. exact G.
        -- rewrite <- (Z.max_r 0 nid) at 2 by lia. constructor. exact R.
    + cbn [app]. destruct kvs as [|kv kvs].
      * exists true, (JDict 0 []). split; [exact (g_obj0 [] wsp_nil)|].
        replace 0 with (Z.max 0 nid) by lia. repeat constructor.
      * destruct (dict_text_gram (kv :: kvs) HL ltac:(discriminate)) as (kvs' & GM & R).
        exists true, (JDict 0 kvs'). split.
        -- assert (fold_members kvs' 0 [] = Some (0, kvs')) as FM.
           { rewrite fold_members_plain.
             - rewrite sm_of_list_self; [reflexivity|]. unfold keys_increasing.
               rewrite (member_rel_keys _ _ R). exact HK.
             - apply keys_not_in_forall. rewrite (member_rel_keys _ _ R). exact HNK. }
           pose proof (g_obj _ _ 0 kvs' _ GM FM) as G. cbn [app] in G. exact G.
        -- replace 0 with (Z.max 0 nid) by lia. constructor. exact R.
  - exists false, (JPtr n). split; [|constructor]. apply g_tok. apply ptr_string_tok. inversion HO; assumption.
Qed.

Theorem print_parse_suffix v : json_ok v -> only_float64 v -> no_reserved_key v -> distinct_ids v ->
  exists v', reads_as v v' /\ parse_suffix (build_string v) = POk v' [].
Proof.
  intros H1 H2 H3 H4. destruct (print_gram v H1 H2 H3) as (b & v' & G & R).
  exists v'. split; [exact R|].
  pose proof (gram_parse_suffix b [] (build_string v) v' (node_ids v) [] wsp_nil G) as P.
  cbn [app] in P. rewrite app_nil_r in P. apply P; [exact H4|intros _; exact I].
Qed.
