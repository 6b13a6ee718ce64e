(** Facts about query strings. *)
From Coq Require Import Sorting.Sorted Sorting.Permutation.
From Verif Require Import Base Strconv StrconvFacts SortedMap SortedMapFacts Json SpecJson Printer Access AccessFacts RfcFacts Query SpecQuery.

(** ** The segment order *)

Lemma seg_compare_eq a b : seg_compare a b = 0 <-> a = b.
Proof.
  destruct a as [x|x], b as [y|y]; simpl; split; intros H; try discriminate; try congruence.
  - destruct (x <? y) eqn:E1; [discriminate|]. destruct (y <? x) eqn:E2; [discriminate|]. f_equal. lia.
  - injection H as ->. rewrite Z.ltb_irrefl. reflexivity.
  - destruct (bcmp x y) eqn:E; try discriminate. apply bcmp_eq in E. congruence.
  - injection H as ->. rewrite bcmp_refl. reflexivity.
Qed.

Lemma seg_compare_range a b : seg_compare a b = -1 \/ seg_compare a b = 0 \/ seg_compare a b = 1.
Proof.
  destruct a as [x|x], b as [y|y]; simpl; auto.
  - destruct (x <? y), (y <? x); auto.
  - destruct (bcmp x y); auto.
Qed.

Lemma seg_compare_antisym a b : seg_compare b a = - seg_compare a b.
Proof.
  destruct a as [x|x], b as [y|y]; simpl; try reflexivity.
  - destruct (x <? y) eqn:E1, (y <? x) eqn:E2; try reflexivity; lia.
  - rewrite (bcmp_antisym x y). destruct (bcmp x y); reflexivity.
Qed.

Lemma seg_compare_trans a b c : seg_compare a b = -1 -> seg_compare b c = -1 -> seg_compare a c = -1.
Proof.
  destruct a as [x|x], b as [y|y], c as [z|z]; simpl; try discriminate; try reflexivity.
  - destruct (x <? y) eqn:E1; [|destruct (y <? x); discriminate].
    destruct (y <? z) eqn:E2; [|destruct (z <? y); discriminate].
    assert (x <? z = true) as -> by lia. reflexivity.
  - destruct (bcmp x y) eqn:E1; try discriminate. destruct (bcmp y z) eqn:E2; try discriminate.
    rewrite (blt_trans _ _ _ E1 E2). reflexivity.
Qed.

Lemma less_loop_cons x a y b : less_loop (x :: a) (y :: b) = true <->
  seg_compare x y = -1 \/ (x = y /\ less_loop a b = true).
Proof.
  cbn [less_loop]. cbv zeta. pose proof (seg_compare_range x y) as [E|[E|E]]; rewrite E; simpl.
  - split; auto.
  - split; [intros H; right; split; [apply seg_compare_eq, E|exact H] | intros [H|[_ H]]; [discriminate|exact H]].
  - split; [discriminate|]. intros [H|[-> _]]; [discriminate|].
    rewrite (proj2 (seg_compare_eq y y) eq_refl) in E. discriminate.
Qed.

Lemma less_loop_irrefl a : less_loop a a = false.
Proof.
  induction a as [|x a IH]; [reflexivity|].
  destruct (less_loop (x :: a) (x :: a)) eqn:E; [|reflexivity].
  apply less_loop_cons in E as [E|[_ E]]; [|congruence].
  rewrite (proj2 (seg_compare_eq x x) eq_refl) in E. discriminate.
Qed.

Lemma less_loop_trans a : forall b c, length a = length b -> length b = length c ->
  less_loop a b = true -> less_loop b c = true -> less_loop a c = true.
Proof.
  induction a as [|x a IH]; intros [|y b] [|z c] H1 H2 L1 L2; try discriminate.
  apply less_loop_cons in L1, L2. apply less_loop_cons.
  destruct L1 as [L1|[-> L1]], L2 as [L2|[-> L2]]; auto.
  - left. eapply seg_compare_trans; eassumption.
  - right. split; [reflexivity|]. apply (IH b c); auto.
Qed.

Lemma less_loop_total a : forall b, length a = length b ->
  less_loop a b = true \/ a = b \/ less_loop b a = true.
Proof.
  induction a as [|x a IH]; intros [|y b] H; try discriminate; auto.
  pose proof (seg_compare_range x y) as [E|[E|E]].
  - left. apply less_loop_cons. auto.
  - apply seg_compare_eq in E as ->. destruct (IH b) as [L|[->|L]]; [now injection H| | |]; auto.
    + left. apply less_loop_cons. auto.
    + right; right. apply less_loop_cons. auto.
  - right; right. apply less_loop_cons. left. rewrite seg_compare_antisym. lia.
Qed.

Lemma segs_less_iff a b : segs_less a b = true <->
  (length a < length b)%nat \/ (length a = length b /\ less_loop a b = true).
Proof.
  unfold segs_less. destruct (Nat.ltb_spec (length a) (length b)) as [L|L].
  - split; auto.
  - destruct (Nat.ltb_spec (length b) (length a)) as [L'|L'].
    + split; [discriminate|]. intros [H|[H _]]; lia.
    + split; [intros H; right; split; [lia|exact H] | intros [H|[_ H]]; [lia|exact H]].
Qed.

Lemma segs_less_irrefl a : segs_less a a = false.
Proof.
  destruct (segs_less a a) eqn:E; [|reflexivity]. apply segs_less_iff in E as [E|[_ E]]; [lia|].
  rewrite less_loop_irrefl in E. discriminate.
Qed.

Lemma segs_less_trans a b c : segs_less a b = true -> segs_less b c = true -> segs_less a c = true.
Proof.
  rewrite !segs_less_iff. intros [L1|[E1 L1]] [L2|[E2 L2]]; try (left; lia).
  right. split; [lia|]. eapply less_loop_trans; eassumption.
Qed.

Lemma segs_less_total a b : segs_less a b = true \/ a = b \/ segs_less b a = true.
Proof.
  rewrite !segs_less_iff. destruct (Nat.lt_trichotomy (length a) (length b)) as [L|[L|L]]; auto.
  destruct (less_loop_total a b L) as [H|[H|H]]; auto.
Qed.

Lemma segs_less_asym a b : segs_less a b = true -> segs_less b a = false.
Proof.
  intros H. destruct (segs_less b a) eqn:E; [|reflexivity].
  pose proof (segs_less_trans _ _ _ H E) as X. rewrite segs_less_irrefl in X. discriminate.
Qed.

Lemma segs_less_cons s a b : segs_less (s :: a) (s :: b) = segs_less a b.
Proof.
  apply eq_true_iff_eq. rewrite !segs_less_iff. simpl length. rewrite less_loop_cons.
  assert (seg_compare s s = 0) as E by (apply seg_compare_eq; reflexivity). rewrite E.
  split; intros [H|[H1 H2]]; try (left; lia); right; (split; [lia|]); [destruct H2 as [H2|[_ H2]]; [discriminate|exact H2] | auto].
Qed.

Lemma segs_less_neq a b : a <> b -> segs_less a b = negb (segs_less b a).
Proof.
  intros N. destruct (segs_less_total a b) as [H|[H|H]]; [|contradiction|].
  - rewrite H, (segs_less_asym _ _ H). reflexivity.
  - rewrite H, (segs_less_asym _ _ H). reflexivity.
Qed.

(** ** Sorting *)

Definition slt (a b : list seg) : Prop := segs_less a b = true.
Definition sle (a b : list seg) : Prop := segs_less b a = false.

Lemma insert_perm x l : Permutation (insert_segs x l) (x :: l).
Proof.
  induction l as [|y l IH]; simpl; [reflexivity|]. destruct (segs_less y x); [|reflexivity].
  rewrite IH. apply perm_swap.
Qed.

Lemma sort_perm l : Permutation (sort_segs l) l.
Proof.
  induction l as [|x l IH]; simpl; [reflexivity|].
  rewrite insert_perm. constructor. exact IH.
Qed.

Lemma sle_trans a b c : sle a b -> sle b c -> sle a c.
Proof.
  unfold sle. intros H1 H2. destruct (segs_less c a) eqn:E; [|reflexivity].
  destruct (segs_less_total a b) as [L|[->|L]]; [|congruence|congruence].
  rewrite (segs_less_trans _ _ _ E L) in H2. discriminate.
Qed.

Lemma slt_sle a b : slt a b -> sle a b.
Proof. apply segs_less_asym. Qed.

Lemma insert_sorted x l : StronglySorted sle l -> StronglySorted sle (insert_segs x l).
Proof.
  induction 1 as [|y l S IH F]; simpl; [repeat constructor|].
  destruct (segs_less y x) eqn:E.
  - constructor; [exact IH|]. rewrite (insert_perm x l). constructor; [|exact F].
    apply slt_sle, E.
  - constructor; [constructor; assumption|]. constructor; [exact E|].
    eapply Forall_impl; [|exact F]. intros z. apply sle_trans. exact E.
Qed.

Lemma sort_sorted l : StronglySorted sle (sort_segs l).
Proof. induction l; simpl; [constructor|]. apply insert_sorted. assumption. Qed.

Lemma sle_antisym a b : sle a b -> sle b a -> a = b.
Proof.
  unfold sle. intros H1 H2. destruct (segs_less_total a b) as [L|[L|L]]; congruence.
Qed.

(** A list has only one sorted permutation. *)
Lemma sorted_unique a : forall b, StronglySorted sle a -> StronglySorted sle b -> Permutation a b -> a = b.
Proof.
  induction a as [|x a IH]; intros b Sa Sb P.
  - apply Permutation_nil in P. congruence.
  - destruct b as [|y b]; [apply Permutation_sym, Permutation_nil in P; discriminate|].
    inversion Sa as [|? ? Sa' Fa]; inversion Sb as [|? ? Sb' Fb]; subst.
    assert (x = y) as ->.
    { assert (In x (y :: b)) as I1 by (eapply Permutation_in; [exact P|left; reflexivity]).
      assert (In y (x :: a)) as I2 by (eapply Permutation_in; [apply Permutation_sym, P|left; reflexivity]).
      destruct I1 as [->|I1]; [reflexivity|]. destruct I2 as [->|I2]; [reflexivity|].
      rewrite Forall_forall in Fa, Fb. apply sle_antisym; [apply Fa, I2|apply Fb, I1]. }
    f_equal. apply IH; auto. eapply Permutation_cons_inv, P.
Qed.

Lemma sorted_strict l : StronglySorted sle l -> NoDup l -> StronglySorted slt l.
Proof.
  induction 1 as [|x l S IH F]; intros N; [constructor|].
  inversion N as [|? ? N1 N2]; subst. constructor; [auto|].
  rewrite Forall_forall in *. intros y Hy. specialize (F y Hy). unfold slt, sle in *.
  destruct (segs_less_total x y) as [L|[->|L]]; [exact L|contradiction|congruence].
Qed.

(** ** Split and join *)

Lemma split_nonempty c s : split_on c s <> [].
Proof. destruct s as [|x s]; simpl; [discriminate|]. destruct (beq x c); [discriminate|]. destruct (split_on c s); discriminate. Qed.

Lemma split_app c a b : split_on c (a ++ c :: b) = split_on c a ++ split_on c b.
Proof.
  induction a as [|x a IH]; simpl; [rewrite beq_refl; reflexivity|].
  rewrite IH. destruct (beq x c); [reflexivity|].
  destruct (split_on c a) as [|w ws] eqn:E; [exfalso; exact (split_nonempty _ _ E)|reflexivity].
Qed.

Lemma split_clean c a : ~ In c a -> split_on c a = [a].
Proof.
  induction a as [|x a IH]; intros H; simpl; [reflexivity|].
  destruct (beq_spec x c) as [->|N]; [exfalso; apply H; left; reflexivity|].
  rewrite IH by (intros I; apply H; right; exact I). reflexivity.
Qed.

Lemma split_join c l : l <> [] -> Forall (fun x => ~ In c x) l -> split_on c (join_with c l) = l.
Proof.
  induction l as [|x l IH]; [congruence|]. intros _ F. inversion F as [|? ? Hx F']; subst.
  destruct l as [|y l]; [apply split_clean, Hx|].
  change (join_with c (x :: y :: l)) with (x ++ c :: join_with c (y :: l)).
  rewrite split_app, (split_clean _ _ Hx), IH by (discriminate || assumption). reflexivity.
Qed.

Lemma join_split c s : join_with c (split_on c s) = s.
Proof.
  induction s as [|x s IH]; simpl; [reflexivity|].
  destruct (beq_spec x c) as [->|N].
  - destruct (split_on c s) as [|w ws] eqn:E; [exfalso; exact (split_nonempty _ _ E)|].
    change (join_with c ([] :: w :: ws)) with (c :: join_with c (w :: ws)). rewrite IH. reflexivity.
  - destruct (split_on c s) as [|w ws] eqn:E; [exfalso; exact (split_nonempty _ _ E)|].
    destruct ws as [|w' ws]; simpl in *; rewrite <- IH; reflexivity.
Qed.

Lemma join_inj c l1 l2 : l1 <> [] -> l2 <> [] -> Forall (fun x => ~ In c x) l1 -> Forall (fun x => ~ In c x) l2 ->
  join_with c l1 = join_with c l2 -> l1 = l2.
Proof. intros N1 N2 F1 F2 E. rewrite <- (split_join c l1), <- (split_join c l2), E by assumption. reflexivity. Qed.

Lemma split_pieces_clean c s : Forall (fun x => ~ In c x) (split_on c s).
Proof.
  induction s as [|x s IH]; simpl; [repeat constructor; simpl; tauto|].
  destruct (beq_spec x c) as [->|N]; [constructor; [simpl; tauto|exact IH]|].
  destruct (split_on c s) as [|w ws]; inversion IH; subst; constructor; auto; simpl; intros [H|H]; auto; congruence.
Qed.

(** A decimal text contains only digits and possibly a leading minus. *)
Lemma format_int_bytes z c : In c (format_int z) -> is_digit c = true \/ c = "-"%byte.
Proof.
  unfold format_int. destruct (z <? 0) eqn:E.
  - intros [H|H]; [auto|]. left.
    assert (all_digits (format_uint (- z))) as D by (apply format_uint_digits; lia).
    unfold all_digits in D. rewrite Forall_forall in D. auto.
  - intros H. left. assert (all_digits (format_uint z)) as D by (apply format_uint_digits; lia).
    unfold all_digits in D. rewrite Forall_forall in D. auto.
Qed.

Lemma format_int_nodot z : ~ In "."%byte (format_int z).
Proof. intros H. apply format_int_bytes in H as [H|H]; discriminate. Qed.

Lemma format_int_nonempty z : format_int z <> [].
Proof. unfold format_int. destruct (z <? 0) eqn:E; [discriminate|]. apply format_uint_nonempty. lia. Qed.

(** Segments that survive printing and reading. *)
Definition seg_ok (s : seg) : Prop :=
  match s with
  | SNum n => in_int64 n = true
  | SText t => ~ In "."%byte t /\ parse_int t = None
  end.

Lemma string2seg_string s : seg_ok s -> string2seg (seg_string s) = s.
Proof.
  destruct s as [n|t]; simpl; unfold string2seg.
  - intros H. rewrite (parse_int_format n H). reflexivity.
  - intros [_ ->]. reflexivity.
Qed.

Lemma seg_string_nodot s : seg_ok s -> ~ In "."%byte (seg_string s).
Proof. destruct s as [n|t]; simpl; [intros _; apply format_int_nodot|tauto]. Qed.

Lemma segments_roundtrip l : l <> [] -> Forall seg_ok l -> string2segments (segments2string l) = l.
Proof.
  intros N F. unfold string2segments, segments2string. rewrite split_join.
  - rewrite map_map. rewrite <- (map_id l) at 2. apply map_ext_in. intros s Hs. apply string2seg_string.
    rewrite Forall_forall in F. auto.
  - destruct l; [congruence|discriminate].
  - apply Forall_map. eapply Forall_impl; [|exact F]. apply seg_string_nodot.
Qed.

Lemma parse_int_range s n : parse_int s = Some n -> in_int64 n = true.
Proof.
  unfold parse_int. destruct s as [|c s]; [discriminate|].
  match goal with |- context [let (_, _) := ?t in _] => destruct t as [neg ds] end.
  destruct (parse_digits ds) as [m|]; [|discriminate].
  destruct (in_int64 (if neg then - m else m)) eqn:E; [|discriminate]. congruence.
Qed.

Lemma plain_seg_ok k : plain_key k -> seg_ok (string2seg k) /\ seg_string (string2seg k) = k.
Proof.
  intros [H1 H2]. unfold string2seg. destruct (parse_int k) as [n|] eqn:E; simpl.
  - split; [eapply parse_int_range, E|apply H2; reflexivity].
  - auto.
Qed.

Lemma string2seg_string_iff k : ~ In "."%byte k -> (seg_string (string2seg k) = k <-> plain_key k).
Proof.
  intros D. split.
  - intros E. split; [exact D|]. intros n P. unfold string2seg in E. rewrite P in E. exact E.
  - intros P. apply plain_seg_ok, P.
Qed.

(** ** Escaping *)

Lemma upperhex_hex n : 0 <= n < 16 -> is_hexdigit (upperhex n) = true /\ hexdigit_val (upperhex n) = n.
Proof.
  intros H. assert (n = 0 \/ n = 1 \/ n = 2 \/ n = 3 \/ n = 4 \/ n = 5 \/ n = 6 \/ n = 7 \/ n = 8 \/ n = 9 \/
    n = 10 \/ n = 11 \/ n = 12 \/ n = 13 \/ n = 14 \/ n = 15) as C by lia.
  repeat (destruct C as [->|C]; [split; reflexivity|]). subst. split; reflexivity.
Qed.

Lemma unescape_byte c t : query_unescape (escape_byte c ++ t) = option_map (cons c) (query_unescape t).
Proof.
  unfold escape_byte. destruct (unreserved c) eqn:U.
  - destruct c; try discriminate U; reflexivity.
  - destruct (beq_spec c " "%byte) as [->|N]; [reflexivity|].
    pose proof (bz_range c) as R.
    assert (0 <= bz c / 16 < 16) as R1 by (split; [apply Z.div_pos; lia|apply Z.div_lt_upper_bound; lia]).
    pose proof (Z.mod_pos_bound (bz c) 16 ltac:(lia)) as R2.
    destruct (upperhex_hex _ R1) as [H1 V1]. destruct (upperhex_hex _ R2) as [H2 V2].
    cbn [app query_unescape]. rewrite beq_refl, H1, H2, V1, V2. cbn [andb].
    rewrite <- Z.div_mod by lia. rewrite zb_bz. reflexivity.
Qed.

Lemma unescape_escape s : query_unescape (query_escape s) = Some s.
Proof.
  induction s as [|c s IH]; [reflexivity|]. unfold query_escape. cbn [flat_map]. rewrite unescape_byte.
  fold (query_escape s). rewrite IH. reflexivity.
Qed.

(** Bytes an escaped text can contain. *)
Definition escaped_safe (c : byte) : bool :=
  negb (beq c "&"%byte || beq c "="%byte || beq c ";"%byte).

Lemma escape_byte_safe c : forallb escaped_safe (escape_byte c) = true.
Proof. destruct c; reflexivity. Qed.

Lemma escape_safe s : forallb escaped_safe (query_escape s) = true.
Proof.
  induction s as [|c s IH]; [reflexivity|]. unfold query_escape. cbn [flat_map]. rewrite forallb_app, escape_byte_safe. exact IH.
Qed.

Lemma escape_byte_nonempty c : escape_byte c <> [].
Proof. destruct c; discriminate. Qed.

Lemma escape_nonempty s : s <> [] -> query_escape s <> [].
Proof.
  destruct s as [|c s]; [congruence|]. intros _ E. unfold query_escape in E. cbn [flat_map] in E.
  apply app_eq_nil in E as [E _]. exact (escape_byte_nonempty _ E).
Qed.

Lemma safe_not_in s c : forallb escaped_safe s = true -> escaped_safe c = false -> ~ In c s.
Proof. intros F E I. rewrite forallb_forall in F. rewrite (F c I) in E. discriminate. Qed.

Lemma cut_eq_clean k v : ~ In "="%byte k -> cut_eq (k ++ "="%byte :: v) = (k, v).
Proof.
  induction k as [|c k IH]; intros H; simpl; [reflexivity|].
  destruct (beq_spec c "="%byte) as [->|N]; [exfalso; apply H; left; reflexivity|].
  rewrite IH by (intros I; apply H; right; exact I). reflexivity.
Qed.

Lemma cut_eq_none k : ~ In "="%byte k -> cut_eq k = (k, []).
Proof.
  induction k as [|c k IH]; intros H; simpl; [reflexivity|].
  destruct (beq_spec c "="%byte) as [->|N]; [exfalso; apply H; left; reflexivity|].
  rewrite IH by (intros I; apply H; right; exact I). reflexivity.
Qed.

Lemma existsb_safe s : forallb escaped_safe s = true -> existsb (fun c => beq c ";"%byte) s = false.
Proof.
  intros F. apply Bool.not_true_iff_false. intros H. apply existsb_exists in H as (c & I & E).
  apply beq_eq in E as ->. revert I. apply safe_not_in; [exact F|reflexivity].
Qed.

Lemma parse_query_simple key val : key <> [] -> parse_query (simple_query_string key val) = Some [(key, val)].
Proof.
  intros N. unfold parse_query.
  pose proof (escape_safe key) as Sk. pose proof (escape_safe val) as Sv. pose proof (escape_nonempty key N) as Ne.
  assert (exists t, simple_query_string key val = t /\ ~ In "&"%byte t /\ parse_setting t = Some [(key, val)]) as (t & -> & H1 & H2).
  { destruct key as [|k0 key]; [congruence|]. destruct val as [|v0 val].
    - exists (query_escape (k0 :: key)). split; [reflexivity|]. remember (query_escape (k0 :: key)) as ek eqn:Ek.
      split; [apply safe_not_in; [exact Sk|reflexivity]|].
      unfold parse_setting. rewrite (existsb_safe _ Sk).
      rewrite cut_eq_none by (apply safe_not_in; [exact Sk|reflexivity]). cbn [query_unescape].
      destruct ek as [|e0 ek']; [congruence|]. rewrite Ek, unescape_escape. reflexivity.
    - exists (query_escape (k0 :: key) ++ "="%byte :: query_escape (v0 :: val)). split; [reflexivity|].
      remember (query_escape (k0 :: key)) as ek eqn:Ek. remember (query_escape (v0 :: val)) as ev eqn:Ev.
      split.
      + intros I. apply in_app_iff in I as [I|[I|I]].
        * revert I. apply safe_not_in; [exact Sk|reflexivity].
        * discriminate.
        * revert I. apply safe_not_in; [exact Sv|reflexivity].
      + unfold parse_setting. rewrite existsb_app. cbn [existsb].
        rewrite (existsb_safe _ Sk), (existsb_safe _ Sv). cbn [orb beq Byte.eqb].
        rewrite cut_eq_clean by (apply safe_not_in; [exact Sk|reflexivity]).
        destruct ek as [|e0 ek']; [congruence|]. cbn [app]. rewrite Ek, Ev, !unescape_escape. reflexivity. }
  rewrite (split_clean _ _ H1). cbn [parse_settings]. rewrite H2. reflexivity.
Qed.

Lemma parse_settings_app a b : parse_settings (a ++ b) =
  match parse_settings a, parse_settings b with Some x, Some y => Some (x ++ y) | _, _ => None end.
Proof.
  induction a as [|p a IH]; cbn [app parse_settings].
  - destruct (parse_settings b); reflexivity.
  - rewrite IH. destruct (parse_setting p); [|reflexivity].
    destruct (parse_settings a); [|reflexivity]. destruct (parse_settings b); [|reflexivity].
    rewrite app_assoc. reflexivity.
Qed.

Lemma parse_query_join l rs : Forall2 (fun s r => parse_query s = Some r) l rs ->
  parse_query (join_with "&"%byte l) = Some (concat rs).
Proof.
  induction 1 as [|s r l rs E F IH]; [reflexivity|].
  destruct l as [|s' l].
  - inversion F; subst. cbn [join_with concat]. rewrite app_nil_r. exact E.
  - change (join_with "&"%byte (s :: s' :: l)) with (s ++ "&"%byte :: join_with "&"%byte (s' :: l)).
    unfold parse_query. rewrite split_app, parse_settings_app.
    change (parse_settings (split_on "&"%byte s)) with (parse_query s). rewrite E.
    change (parse_settings (split_on "&"%byte (join_with "&"%byte (s' :: l)))) with (parse_query (join_with "&"%byte (s' :: l))).
    rewrite IH. reflexivity.
Qed.
