(** Facts about the strconv model: integers. *)
From Verif Require Import Base Strconv.
Open Scope Z_scope.

Definition all_digits (s : bytes) : Prop := Forall (fun c => is_digit c = true) s.

Lemma is_digit_val c : is_digit c = true -> 0 <= digit_val c < 10.
Proof. unfold is_digit, digit_val. intros H. apply andb_true_iff in H. lia. Qed.

Lemma digits_acc_app a s t :
  digits_acc a (s ++ t) = match digits_acc a s with Some b => digits_acc b t | None => None end.
Proof.
  revert a; induction s as [|c s IH]; intros a; simpl; [reflexivity|].
  destruct (is_digit c); [apply IH|reflexivity].
Qed.

Lemma digits_acc_some a s b : digits_acc a s = Some b -> all_digits s.
Proof.
  revert a; induction s as [|c s IH]; intros a; simpl; intros H; [constructor|].
  destruct (is_digit c) eqn:E; [|discriminate]. constructor; [exact E|exact (IH _ H)].
Qed.

Lemma digits_acc_total a s : all_digits s -> exists b, digits_acc a s = Some b.
Proof.
  intros H; revert a; induction H as [|c s Hc Hs IH]; intros a; simpl; [eauto|].
  rewrite Hc. apply IH.
Qed.

Lemma digits_acc_shift a s b :
  digits_acc 0 s = Some b -> digits_acc a s = Some (a * 10 ^ Z.of_nat (length s) + b).
Proof.
  revert a b. induction s as [|c s IH] using rev_ind; intros a b.
  - simpl. intros [= <-]. f_equal. lia.
  - rewrite !digits_acc_app. destruct (digits_acc 0 s) as [n|] eqn:E; [|discriminate].
    rewrite (IH a n eq_refl). simpl. destruct (is_digit c); [|discriminate].
    intros [= <-]. f_equal. rewrite app_length. simpl.
    rewrite Nat2Z.inj_add, Z.pow_add_r by lia. change (10 ^ Z.of_nat 1) with 10. ring.
Qed.

Lemma digits_acc_nonneg a s b : 0 <= a -> digits_acc a s = Some b -> 0 <= b.
Proof.
  revert a; induction s as [|c s IH]; intros a Ha; simpl.
  - intros [= <-]; exact Ha.
  - destruct (is_digit c) eqn:E; [|discriminate]. apply IH.
    apply is_digit_val in E. lia.
Qed.

(** Shape and value of the digits written by [fmt_digits]. *)
Lemma fmt_digits_spec fuel : forall n acc, 0 <= n < 10 ^ Z.of_nat fuel -> (fuel > 0)%nat ->
  exists ds, fmt_digits fuel n acc = ds ++ acc /\ all_digits ds
    /\ digits_acc 0 ds = Some n
    /\ (exists d r, ds = digit_byte d :: r /\ 0 <= d < 10 /\ (n < 10 -> r = []) /\ (0 < n -> 0 < d)).
Proof.
  induction fuel as [|k IH]; intros n acc Hn Hf; [lia|].
  simpl. pose proof (Z.mod_pos_bound n 10 eq_refl) as Hm.
  destruct (Z.ltb_spec n 10) as [L|L].
  - exists [digit_byte (n mod 10)]. repeat split.
    + constructor; [apply digit_byte_is_digit; exact Hm|constructor].
    + simpl. rewrite digit_byte_is_digit by exact Hm. rewrite digit_val_byte by exact Hm.
      f_equal. rewrite Z.mod_small by lia. lia.
    + exists (n mod 10), []. repeat split; try lia. rewrite Z.mod_small by lia. lia.
  - rewrite Nat2Z.inj_succ, Z.pow_succ_r in Hn by lia.
    assert (0 <= n / 10 < 10 ^ Z.of_nat k) as H1.
    { split; [apply Z.div_pos; lia|]. apply Z.div_lt_upper_bound; lia. }
    assert (k > 0)%nat as Hk.
    { destruct k; [|lia]. simpl in H1. assert (1 <= n / 10) by (apply Z.div_le_lower_bound; lia). lia. }
    destruct (IH (n / 10) (digit_byte (n mod 10) :: acc) H1 Hk)
      as (ds & E & Hd & Hv & d & r & -> & Hr & Hone & Hpos).
    exists ((digit_byte d :: r) ++ [digit_byte (n mod 10)]). repeat split.
    + rewrite E, <- app_assoc. reflexivity.
    + apply Forall_app; split; [exact Hd|]. constructor; [|constructor].
      apply digit_byte_is_digit; exact Hm.
    + rewrite digits_acc_app, Hv. cbn [digits_acc].
      rewrite digit_byte_is_digit by exact Hm. rewrite digit_val_byte by exact Hm.
      f_equal. pose proof (Z.div_mod n 10 ltac:(lia)). lia.
    + exists d, (r ++ [digit_byte (n mod 10)]). repeat split; try lia.
      intros _. apply Hpos. assert (1 <= n / 10) by (apply Z.div_le_lower_bound; lia). lia.
Qed.

Lemma format_uint_spec n : 0 <= n ->
  all_digits (format_uint n) /\ digits_acc 0 (format_uint n) = Some n
  /\ exists d r, format_uint n = digit_byte d :: r /\ 0 <= d < 10
       /\ (n < 10 -> r = []) /\ (0 < n -> 0 < d).
Proof.
  intros Hn. unfold format_uint.
  assert (0 <= n < 10 ^ Z.of_nat (S (Z.to_nat (Z.log2 n)))) as Hb.
  { split; [exact Hn|].
    rewrite Nat2Z.inj_succ, Z2Nat.id by apply Z.log2_nonneg.
    destruct (Z.eq_dec n 0) as [->|Hnz]; [reflexivity|].
    pose proof (Z.log2_spec n ltac:(lia)) as [_ H].
    eapply Z.lt_le_trans; [exact H|]. apply Z.pow_le_mono_l. lia. }
  destruct (fmt_digits_spec _ n [] Hb ltac:(lia)) as (ds & E & Hd & Hv & R).
  rewrite E, app_nil_r. auto.
Qed.

Lemma format_uint_digits n : 0 <= n -> all_digits (format_uint n).
Proof. intros H; apply format_uint_spec; exact H. Qed.

Lemma format_uint_nonempty n : 0 <= n -> format_uint n <> [].
Proof. intros H. destruct (format_uint_spec n H) as (_ & _ & d & r & -> & _). discriminate. Qed.

Lemma parse_digits_format n : 0 <= n -> parse_digits (format_uint n) = Some n.
Proof.
  intros H. destruct (format_uint_spec n H) as (_ & Hv & d & r & E & _).
  unfold parse_digits. rewrite E in *. exact Hv.
Qed.

Lemma digit_not_sign c : is_digit c = true -> beq c "+"%byte = false /\ beq c "-"%byte = false.
Proof.
  intros H. split; apply beq_neq; intros ->; discriminate.
Qed.

Lemma parse_int_format z : in_int64 z = true -> parse_int (format_int z) = Some z.
Proof.
  intros Hz. unfold format_int. destruct (Z.ltb_spec z 0) as [L|L].
  - unfold parse_int. simpl. rewrite parse_digits_format by lia.
    rewrite Z.opp_involutive, Hz. reflexivity.
  - destruct (format_uint_spec z L) as (Hd & _ & d & r & E & _).
    assert (parse_digits (format_uint z) = Some z) as P by (apply parse_digits_format; exact L).
    rewrite E in *. unfold parse_int.
    inversion Hd as [|? ? Hc _]; subst. destruct (digit_not_sign _ Hc) as [-> ->].
    rewrite P, Hz. reflexivity.
Qed.

Lemma parse_uint_format n : 0 <= n <= uint64_max -> parse_uint (format_uint n) = Some n.
Proof.
  intros H. unfold parse_uint. rewrite parse_digits_format by lia.
  destruct (Z.leb_spec n uint64_max); [reflexivity|lia].
Qed.

Lemma format_uint_inj a b : 0 <= a -> 0 <= b -> format_uint a = format_uint b -> a = b.
Proof.
  intros Ha Hb E. pose proof (parse_digits_format a Ha) as H1.
  rewrite E, parse_digits_format in H1 by exact Hb. congruence.
Qed.

(** ** Rounding *)

Lemma log2_bounds p : 0 < p -> 2 ^ Z.log2 p <= p < 2 * 2 ^ Z.log2 p.
Proof.
  intros H. pose proof (Z.log2_spec p H). rewrite Z.pow_succ_r in H0 by apply Z.log2_nonneg. lia.
Qed.

Lemma pow2_pos k : 0 <= k -> 0 < 2 ^ k.
Proof. intros. apply Z.pow_pos_nonneg; lia. Qed.

Lemma rne_exact m d : 0 < d -> rne (m * d) d = m.
Proof.
  intros Hd. unfold rne. rewrite Z.div_mul, Z.mod_mul by lia.
  destruct (Z.compare_spec (2 * 0) d); try lia.
Qed.

(** p/q compared with m * 2^e, cross-multiplied. *)
Definition frac_eq (p q m e : Z) : Prop := p * 2 ^ Z.max 0 (- e) = m * 2 ^ Z.max 0 e * q.

Lemma scale2_frac_eq p q m e n d : 0 < q -> frac_eq p q m e -> scale2 p q e = (n, d) -> 0 < d /\ n = m * d.
Proof.
  unfold frac_eq, scale2. intros Hq E.
  destruct (Z.leb_spec 0 e) as [H|H]; intros [= <- <-].
  - rewrite (Z.max_l 0 (- e)), (Z.max_r 0 e), Z.pow_0_r in E by lia.
    split; [pose proof (pow2_pos e H); nia|]. lia.
  - rewrite (Z.max_r 0 (- e)), (Z.max_l 0 e), Z.pow_0_r in E by lia. split; lia.
Qed.

Lemma frac_eq_half p q m e : frac_eq p q m e -> frac_eq p q (2 * m) (e - 1).
Proof.
  unfold frac_eq. intros E.
  destruct (Z_le_gt_dec e 0) as [H|H].
  - rewrite (Z.max_r 0 (- e)), (Z.max_l 0 e) in E by lia.
    rewrite (Z.max_r 0 (- (e - 1))), (Z.max_l 0 (e - 1)) by lia.
    replace (- (e - 1)) with (Z.succ (- e)) by lia. rewrite Z.pow_succ_r by lia.
    rewrite Z.pow_0_r in *. nia.
  - rewrite (Z.max_l 0 (- e)), (Z.max_r 0 e) in E by lia.
    rewrite (Z.max_l 0 (- (e - 1))), (Z.max_r 0 (e - 1)) by lia.
    rewrite Z.pow_0_r in *. replace e with (Z.succ (e - 1)) in E by lia.
    rewrite Z.pow_succ_r in E by lia. nia.
Qed.

(** The binary order of magnitude estimate used by [round_pos]. *)
Lemma frac_eq_log p q m e : 0 < p -> 0 < q -> 0 < m -> frac_eq p q m e ->
  Z.log2 p - Z.log2 q - 1 <= Z.log2 m + e <= Z.log2 p - Z.log2 q.
Proof.
  intros Hp Hq Hm E. unfold frac_eq in E.
  set (a := Z.max 0 (- e)) in *. set (b := Z.max 0 e) in *.
  assert (0 <= a /\ 0 <= b /\ b - a = e) as (Ha & Hb & Hab) by lia.
  pose proof (log2_bounds p Hp) as [P1 P2]. pose proof (log2_bounds q Hq) as [Q1 Q2].
  pose proof (log2_bounds m Hm) as [M1 M2].
  pose proof (Z.log2_nonneg p). pose proof (Z.log2_nonneg q). pose proof (Z.log2_nonneg m).
  pose proof (pow2_pos a Ha). pose proof (pow2_pos b Hb).
  set (lp := Z.log2 p) in *. set (lq := Z.log2 q) in *. set (lm := Z.log2 m) in *.
  pose proof (pow2_pos lp ltac:(lia)). pose proof (pow2_pos lq ltac:(lia)).
  pose proof (pow2_pos lm ltac:(lia)).
  (* 2^(lp+a) <= p*2^a = m*2^b*q < 2^(lm+1+b+lq+1) *)
  assert (2 ^ (lp + a) < 2 ^ (lm + b + lq + 2)) as L1.
  { rewrite !Z.pow_add_r by lia. change (2 ^ 2) with 4.
    apply Z.le_lt_trans with (p * 2 ^ a); [nia|]. rewrite E.
    apply Z.lt_le_trans with ((2 * 2 ^ lm) * 2 ^ b * (2 * 2 ^ lq)); [|nia].
    apply Z.mul_lt_mono_nonneg; try nia. }
  assert (2 ^ (lm + b + lq) < 2 ^ (lp + a + 1)) as L2.
  { rewrite !Z.pow_add_r by lia. change (2 ^ 1) with 2.
    apply Z.le_lt_trans with (m * 2 ^ b * q); [|rewrite <- E; nia].
    apply Z.mul_le_mono_nonneg; nia. }
  apply Z.pow_lt_mono_r_iff in L1; [|lia|lia].
  apply Z.pow_lt_mono_r_iff in L2; [|lia|lia]. lia.
Qed.

Definition format_valid (F : fformat) : Prop := 1 < prec F /\ emin F <= emax F.

Lemma F64_valid : format_valid F64. Proof. split; reflexivity || discriminate. Qed.
Lemma F32_valid : format_valid F32. Proof. split; reflexivity || discriminate. Qed.

Lemma canon_spec F m e : canon F m e = true <->
  0 <= m < 2 ^ prec F /\ emin F <= e <= emax F /\ (2 ^ (prec F - 1) <= m \/ e = emin F).
Proof.
  unfold canon. rewrite !andb_true_iff, orb_true_iff, Z.leb_le, Z.ltb_lt, !Z.leb_le, Z.eqb_eq. tauto.
Qed.

Lemma round_pos_exact F p q m e : format_valid F -> canon F m e = true ->
  0 < m -> 0 < p -> 0 < q -> frac_eq p q m e -> round_pos F p q = Some (m, e).
Proof.
  intros [Hprec _] Hc Hm Hp Hq E.
  apply canon_spec in Hc as (Hm2 & He & Hn).
  pose proof (frac_eq_log p q m e Hp Hq Hm E) as HL.
  assert (Z.log2 m <= prec F - 1) as HLm.
  { assert (Z.log2 m < prec F) by (apply Z.log2_lt_pow2; lia). lia. }
  unfold round_pos.
  set (k := Z.log2 p - Z.log2 q) in *.
  set (e0 := Z.max (emin F) (k - prec F)).
  assert (e0 = e \/ (e0 = e - 1 /\ 2 ^ (prec F - 1) <= m)) as He0.
  { destruct Hn as [Hn| ->].
    - assert (prec F - 1 <= Z.log2 m).
      { apply Z.log2_le_pow2 in Hn; lia. }
      lia.
    - destruct (Z_le_gt_dec (2 ^ (prec F - 1)) m) as [G|G].
      + assert (prec F - 1 <= Z.log2 m) by (apply Z.log2_le_pow2 in G; lia). lia.
      + assert (Z.log2 m < prec F - 1) by (apply Z.log2_lt_pow2; lia). lia. }
  destruct (scale2 p q e0) as [n0 d0] eqn:S0.
  assert ((if n0 / d0 <? 2 ^ prec F then e0 else e0 + 1) = e) as Ee.
  { destruct He0 as [-> | [He0 Hbig]].
    - destruct (scale2_frac_eq _ _ _ _ _ _ Hq E S0) as [Hd ->].
      rewrite Z.div_mul by lia. destruct (Z.ltb_spec m (2 ^ prec F)); [reflexivity|lia].
    - rewrite He0 in *.
      destruct (scale2_frac_eq _ _ _ _ _ _ Hq (frac_eq_half _ _ _ _ E) S0) as [Hd ->].
      rewrite Z.div_mul by lia.
      replace (prec F) with (Z.succ (prec F - 1)) at 1 by lia.
      rewrite Z.pow_succ_r by lia.
      destruct (Z.ltb_spec (2 * m) (2 * 2 ^ (prec F - 1))); lia. }
  rewrite Ee. destruct (scale2 p q e) as [n d] eqn:S1.
  destruct (scale2_frac_eq _ _ _ _ _ _ Hq E S1) as [Hd ->].
  rewrite rne_exact by exact Hd.
  destruct (Z.eqb_spec m (2 ^ prec F)); [lia|].
  destruct (Z.ltb_spec (emax F) e); [lia|]. reflexivity.
Qed.

(** ** Shortest decimal *)

Lemma exact_expansion F m e : format_valid F -> canon F m e = true -> 0 < m ->
  let '(d, j) := if 0 <=? e then (m * 2 ^ e, 0) else (m * 5 ^ (- e), e) in
  0 < d /\ round_dec F d j = Some (m, e).
Proof.
  intros HF Hc Hm. destruct (Z.leb_spec 0 e) as [H|H].
  - pose proof (pow2_pos e H). split; [nia|]. unfold round_dec. change (0 <=? 0) with true. cbv iota.
    rewrite Z.pow_0_r, Z.mul_1_r. apply round_pos_exact; try assumption; try nia.
    unfold frac_eq. rewrite (Z.max_l 0 (- e)), (Z.max_r 0 e), Z.pow_0_r by lia. ring.
  - assert (0 < 5 ^ (- e)) by (apply Z.pow_pos_nonneg; lia). split; [nia|].
    unfold round_dec. destruct (Z.leb_spec 0 e); [lia|].
    assert (0 < 10 ^ (- e)) by (apply Z.pow_pos_nonneg; lia).
    apply round_pos_exact; try assumption; try nia.
    unfold frac_eq. rewrite (Z.max_r 0 (- e)), (Z.max_l 0 e), Z.pow_0_r by lia.
    change 10 with (2 * 5). rewrite Z.pow_mul_l. ring.
Qed.

Lemma reads_back_spec F m e c j :
  reads_back F m e c j = true <-> 0 < c /\ round_dec F c j = Some (m, e).
Proof.
  unfold reads_back. rewrite andb_true_iff, Z.ltb_lt.
  destruct (round_dec F c j) as [[m' e']|]; [|intuition congruence].
  rewrite andb_true_iff, !Z.eqb_eq. intuition congruence.
Qed.

Lemma shortest_search_reads F fuel m e j d k : format_valid F -> canon F m e = true -> 0 < m ->
  shortest_search F fuel m e j = (d, k) -> 0 < d /\ round_dec F d k = Some (m, e).
Proof.
  intros HF Hc Hm. revert j. induction fuel as [|n IH]; intros j; cbn [shortest_search].
  - pose proof (exact_expansion F m e HF Hc Hm) as X. intros E. rewrite E in X. exact X.
  - destruct (dec_frac m e j) as [nn dd].
    set (near := rne nn dd). set (far := if near =? nn / dd then nn / dd + 1 else nn / dd).
    destruct (reads_back F m e near j) eqn:R1.
    { intros [= <- <-]. apply reads_back_spec; exact R1. }
    destruct (reads_back F m e far j) eqn:R2.
    { intros [= <- <-]. apply reads_back_spec; exact R2. }
    apply IH.
Qed.

Lemma shortest_reads F m e d k : format_valid F -> canon F m e = true -> 0 < m ->
  shortest F m e = (d, k) -> 0 < d /\ round_dec F d k = Some (m, e).
Proof. intros HF Hc Hm. unfold shortest. apply shortest_search_reads; assumption. Qed.

(** ** Reading back the layout *)

Lemma digit_facts c : is_digit c = true ->
  beq c "_"%byte = false /\ beq c "."%byte = false /\ beq c "+"%byte = false /\ beq c "-"%byte = false
  /\ hexdigit_val c = digit_val c /\ lowerb c = c.
Proof.
  intros H. repeat split; try (apply beq_neq; intros ->; discriminate).
  - unfold hexdigit_val. rewrite H. reflexivity.
  - unfold lowerb. unfold is_digit in H. apply andb_true_iff in H.
    destruct (Z.leb_spec 65 (bz c)); [lia|reflexivity].
Qed.

Lemma scan_mant_digits s : forall mant nfrac dot dig under t b, all_digits s ->
  digits_acc mant s = Some b ->
  scan_mant false mant nfrac dot dig under (s ++ t)
  = scan_mant false b (if dot then nfrac + Z.of_nat (length s) else nfrac) dot
      (match s with [] => dig | _ => true end) under t.
Proof.
  induction s as [|c s IH]; intros mant nfrac dot dig under t b Hs Hb.
  - simpl in *. injection Hb as <-. destruct dot; f_equal; lia.
  - inversion Hs as [|? ? Hc Hs']; subst. destruct (digit_facts c Hc) as (H1 & H2 & _ & _ & H3 & _).
    cbn [digits_acc] in Hb. rewrite Hc in Hb.
    cbn [app scan_mant]. rewrite H1, H2, Hc, H3.
    rewrite (IH _ _ _ _ _ _ b Hs' Hb).
    destruct dot; destruct s; cbn [length]; f_equal; lia.
Qed.

Lemma read_float_nohex t : (forall c r, t = c :: r -> is_digit c = true) ->
  (forall c0 c1 r, t = c0 :: c1 :: r -> is_digit c1 = true \/ c1 = "."%byte) ->
  strip_hex t = (false, t).
Proof.
  intros H0 H1. unfold strip_hex. destruct t as [|c0 [|c1 [|c2 r]]]; try reflexivity.
  assert (beq (lowerb c1) "x"%byte = false) as ->.
  { apply beq_neq. destruct (H1 c0 c1 _ eq_refl) as [D| ->]; [|discriminate].
    destruct (digit_facts c1 D) as (_ & _ & _ & _ & _ & ->). intros ->. discriminate. }
  rewrite andb_false_r. reflexivity.
Qed.

(** strip_sign after an optional minus in front of a digit. *)
Lemma strip_sign_digit (neg : bool) c r : is_digit c = true ->
  strip_sign ((if neg then ["-"%byte] else []) ++ c :: r) = (neg, c :: r).
Proof.
  intros H. destruct (digit_facts c H) as (_ & _ & H1 & H2 & _). destruct neg; simpl.
  - reflexivity.
  - rewrite H1, H2. reflexivity.
Qed.

Lemma parse_special_digit (neg : bool) c r : is_digit c = true ->
  parse_special ((if neg then ["-"%byte] else []) ++ c :: r) = None.
Proof.
  intros H. destruct (digit_facts c H) as (_ & _ & H1 & H2 & _ & HL).
  assert (forall w ws, is_digit w = false -> bseq (lowers (c :: r)) (w :: ws) = false) as X.
  { intros w ws Hw. cbn [lowers map bseq]. rewrite HL.
    assert (beq c w = false) as -> by (apply beq_neq; intros ->; congruence). reflexivity. }
  destruct neg; cbn [app parse_special].
  - change (beq "-"%byte "+"%byte) with false. change (beq "-"%byte "-"%byte) with true. cbv iota.
    unfold kw_inf, kw_infinity. rewrite !X by reflexivity. reflexivity.
  - rewrite H1, H2. unfold kw_inf, kw_infinity, kw_nan. rewrite !X by reflexivity. reflexivity.
Qed.

(** A decimal text: digits, optionally a point and more digits. *)
Lemma read_float_int (neg : bool) ds n : ds <> [] -> digits_acc 0 ds = Some n ->
  read_float ((if neg then ["-"%byte] else []) ++ ds) = Some (neg, n, 0, false).
Proof.
  intros Hne Hv. pose proof (digits_acc_some _ _ _ Hv) as Hd.
  destruct ds as [|c r]; [congruence|].
  inversion Hd as [|? ? Hc Hr]; subst.
  unfold read_float. rewrite strip_sign_digit by exact Hc.
  rewrite read_float_nohex.
  2:{ intros ? ? [= <- <-]; exact Hc. }
  2:{ intros ? ? ? [= <- ->]. inversion Hr; auto. }
  rewrite <- (app_nil_r (c :: r)) at 1.
  rewrite (scan_mant_digits (c :: r) 0 0 false false false [] n Hd Hv).
  cbn [scan_mant]. cbn. reflexivity.
Qed.

Lemma read_float_frac (neg : bool) ds fs n : ds <> [] -> digits_acc 0 (ds ++ fs) = Some n ->
  read_float ((if neg then ["-"%byte] else []) ++ ds ++ "."%byte :: fs)
  = Some (neg, n, - Z.of_nat (length fs), false).
Proof.
  intros Hne Hv. pose proof (digits_acc_some _ _ _ Hv) as Hd.
  apply Forall_app in Hd as [Hd Hf].
  rewrite digits_acc_app in Hv. destruct (digits_acc 0 ds) as [b|] eqn:Hb; [|discriminate].
  destruct ds as [|c r]; [congruence|].
  inversion Hd as [|? ? Hc Hr]; subst.
  unfold read_float. cbn [app].
  change (strip_sign ((if neg then ["-"%byte] else []) ++ c :: (r ++ "."%byte :: fs)))
    with (strip_sign ((if neg then ["-"%byte] else []) ++ c :: (r ++ "."%byte :: fs))).
  rewrite strip_sign_digit by exact Hc.
  rewrite read_float_nohex.
  2:{ intros ? ? [= <- <-]; exact Hc. }
  2:{ intros c0 c1 r' E. injection E as <- E. destruct r as [|r0 r].
      - injection E as <- <-. right; reflexivity.
      - injection E as <- <-. inversion Hr; auto. }
  change (c :: r ++ "."%byte :: fs) with ((c :: r) ++ "."%byte :: fs).
  rewrite (scan_mant_digits (c :: r) 0 0 false false false _ b Hd Hb).
  cbn [scan_mant]. change (beq "."%byte "_"%byte) with false.
  change (beq "."%byte "."%byte) with true. cbv iota.
  rewrite <- (app_nil_r fs) at 1.
  rewrite (scan_mant_digits fs b 0 true true false [] n Hf Hv).
  cbn [scan_mant]. destruct fs; cbn; do 4 f_equal; lia.
Qed.

Lemma parse_float_int F (neg : bool) ds n : ds <> [] -> digits_acc 0 ds = Some n ->
  parse_float F ((if neg then ["-"%byte] else []) ++ ds)
  = if n =? 0 then Some (fzero F neg)
    else match round_dec F n 0 with Some (m, e) => Some (FFin neg m e) | None => None end.
Proof.
  intros Hne Hv. unfold parse_float.
  pose proof (digits_acc_some _ _ _ Hv) as Hd.
  destruct ds as [|c r] eqn:E; [congruence|]. inversion Hd; subst.
  rewrite parse_special_digit by assumption.
  rewrite (read_float_int neg (c :: r) n Hne Hv). reflexivity.
Qed.

Lemma parse_float_frac F (neg : bool) ds fs n : ds <> [] -> digits_acc 0 (ds ++ fs) = Some n ->
  parse_float F ((if neg then ["-"%byte] else []) ++ ds ++ "."%byte :: fs)
  = if n =? 0 then Some (fzero F neg)
    else match round_dec F n (- Z.of_nat (length fs)) with
         | Some (m, e) => Some (FFin neg m e) | None => None end.
Proof.
  intros Hne Hv. unfold parse_float.
  pose proof (digits_acc_some _ _ _ Hv) as Hd. apply Forall_app in Hd as [Hd _].
  rewrite (read_float_frac neg ds fs n Hne Hv).
  destruct ds as [|c r] eqn:E; [congruence|]. inversion Hd; subst.
  cbn [app]. rewrite parse_special_digit by assumption. reflexivity.
Qed.

Lemma zeros_digits n : all_digits (zeros n).
Proof. unfold zeros. apply Forall_forall. intros c H. apply repeat_spec in H. subst. reflexivity. Qed.

Lemma zeros_length n : 0 <= n -> Z.of_nat (length (zeros n)) = n.
Proof. intros H. unfold zeros. rewrite repeat_length. lia. Qed.

Lemma digits_acc_zeros a n : 0 <= n -> digits_acc a (zeros n) = Some (a * 10 ^ n).
Proof.
  intros H. unfold zeros. rewrite <- (Z2Nat.id n) at 2 by exact H.
  induction (Z.to_nat n) as [|k IH] in a |- *.
  - simpl. f_equal. lia.
  - cbn [repeat digits_acc]. change (is_digit "0"%byte) with true. cbv iota.
    rewrite IH. change (digit_val "0"%byte) with 0. f_equal.
    rewrite Nat2Z.inj_succ, Z.pow_succ_r by lia. ring.
Qed.

(** The three shapes of [layout_f]. *)
Lemma layout_f_shape d j : 0 < d ->
  (0 <= j /\ exists ds, layout_f d j = ds /\ ds <> [] /\ digits_acc 0 ds = Some (d * 10 ^ j))
  \/ (j < 0 /\ exists ds fs, layout_f d j = ds ++ "."%byte :: fs /\ ds <> []
        /\ digits_acc 0 (ds ++ fs) = Some d /\ Z.of_nat (length fs) = - j).
Proof.
  intros Hd. destruct (format_uint_spec d ltac:(lia)) as (Hds & Hv & d0 & r & E & _).
  assert (format_uint d <> []) as Hne by (rewrite E; discriminate).
  unfold layout_f. destruct (Z.leb_spec 0 j) as [Hj|Hj].
  - left. split; [exact Hj|]. eexists. split; [reflexivity|]. split.
    + destruct (format_uint d); [congruence|discriminate].
    + rewrite digits_acc_app, Hv. apply digits_acc_zeros. exact Hj.
  - right. split; [exact Hj|]. cbv zeta.
    set (ds := format_uint d) in *. set (l := Z.of_nat (length ds)).
    destruct (Z.ltb_spec 0 (l + j)) as [Hl|Hl].
    + exists (firstn (Z.to_nat (l + j)) ds), (skipn (Z.to_nat (l + j)) ds).
      split; [reflexivity|]. split; [|split].
      * intros C. apply (f_equal (@length byte)) in C. rewrite firstn_length in C.
        simpl in C. destruct ds; [congruence|]. cbn [length] in C. lia.
      * rewrite firstn_skipn. exact Hv.
      * rewrite skipn_length. lia.
    + exists ["0"%byte], (zeros (- j - l) ++ ds). split; [reflexivity|].
      split; [discriminate|]. split.
      * cbn [app digits_acc]. change (is_digit "0"%byte) with true. cbv iota.
        change (0 * 10 + digit_val "0"%byte) with 0.
        rewrite digits_acc_app, digits_acc_zeros by lia. rewrite Z.mul_0_l. exact Hv.
      * rewrite app_length, Nat2Z.inj_add, zeros_length by lia. lia.
Qed.

Lemma parse_float_layout F (neg : bool) d j : 0 < d ->
  parse_float F ((if neg then ["-"%byte] else []) ++ layout_f d j)
  = match round_dec F d j with Some (m, e) => Some (FFin neg m e) | None => None end.
Proof.
  intros Hd. destruct (layout_f_shape d j Hd) as [(Hj & ds & -> & Hne & Hv) | (Hj & ds & fs & -> & Hne & Hv & Hlen)].
  - rewrite (parse_float_int F neg _ _ Hne Hv).
    assert (0 < 10 ^ j) by (apply Z.pow_pos_nonneg; lia).
    destruct (Z.eqb_spec (d * 10 ^ j) 0); [nia|].
    unfold round_dec at 1. cbn [Z.leb]. change (0 <=? 0) with true. cbv iota.
    rewrite Z.pow_0_r, Z.mul_1_r. unfold round_dec.
    destruct (Z.leb_spec 0 j); [reflexivity|lia].
  - rewrite (parse_float_frac F neg _ _ _ Hne Hv).
    destruct (Z.eqb_spec d 0); [lia|]. rewrite Hlen, Z.opp_involutive. reflexivity.
Qed.

(** Printing a float and parsing the text restores it. *)
Theorem parse_format_float F f : format_valid F -> fl_ok F f = true ->
  (forall neg m e, f = FFin neg m e -> m = 0 -> e = emin F) ->
  parse_float F (format_float F f) = Some f.
Proof.
  intros HF Hok Hz. destruct f as [|neg|neg m e].
  - reflexivity.
  - destruct neg; reflexivity.
  - simpl in Hok. cbn [format_float]. destruct (Z.eqb_spec m 0) as [->|Hm].
    + rewrite (parse_float_int F neg ["0"%byte] 0); [|discriminate|reflexivity].
      simpl. rewrite (Hz neg 0 e eq_refl eq_refl). reflexivity.
    + assert (0 < m) as Hm' by (apply canon_spec in Hok; lia).
      destruct (shortest F m e) as [d j] eqn:S.
      destruct (shortest_reads F m e d j HF Hok Hm' S) as [Hd R].
      rewrite parse_float_layout by exact Hd. rewrite R. reflexivity.
Qed.

Lemma canon_zero F e : format_valid F -> canon F 0 e = true -> e = emin F.
Proof.
  intros HF H. apply canon_spec in H as (_ & _ & [H|H]); [|exact H].
  pose proof (pow2_pos (prec F - 1) ltac:(destruct HF; lia)). lia.
Qed.

Theorem parse_format_float' F f : format_valid F -> fl_ok F f = true ->
  parse_float F (format_float F f) = Some f.
Proof.
  intros HF Hok. apply parse_format_float; try assumption.
  intros neg m e -> ->. simpl in Hok. exact (canon_zero F e HF Hok).
Qed.
