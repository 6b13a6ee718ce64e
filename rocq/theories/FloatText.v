(** What the text of a float looks like to the integer and float readers. *)
From Coq Require Import QArith Qabs Qpower Lqa Qfield.
From Verif Require Import Base Strconv StrconvFacts SpecFloat RoundFacts.
Open Scope Q_scope.

Lemma pow10_pos k : (0 <= k)%Z -> (0 < 10 ^ k)%Z.
Proof. intros. apply Z.pow_pos_nonneg; lia. Qed.

Lemma ten_nz : ~ 10 == 0. Proof. intros H; discriminate H. Qed.

Lemma xq_dec c j : (0 <= j)%Z -> xq (c * 10 ^ j) 1 == decq c j.
Proof.
  intros H. unfold xq, decq. rewrite inject_Z_mult, (qpow10_Z j H). change (inject_Z 1) with 1. field.
Qed.

Lemma xq_dec_neg c j : (j < 0)%Z -> xq c (10 ^ (- j)) == decq c j.
Proof.
  intros H. unfold xq, decq. rewrite <- (qpow10_Z (- j)) by lia. rewrite Qpower_opp.
  field. pose proof (Qpower_0_lt 10 j ltac:(reflexivity)). lra.
Qed.

Lemma correctly_rounded_eq F x y m e : x == y -> correctly_rounded F x m e -> correctly_rounded F y m e.
Proof.
  intros E [Hc H]. split; [exact Hc|]. intros m' e' Hc'. destruct (H m' e' Hc') as [H1 H2].
  rewrite E in H1, H2. auto.
Qed.

Theorem round_dec_nearest F c j m e : format_valid F -> (0 < c)%Z ->
  round_dec F c j = Some (m, e) -> correctly_rounded F (decq c j) m e.
Proof.
  intros HF Hc. unfold round_dec. destruct (Z.leb_spec 0 j) as [H|H]; intros E.
  - pose proof (pow10_pos j H).
    eapply correctly_rounded_eq; [apply xq_dec; exact H|].
    apply round_pos_nearest; try assumption; nia.
  - pose proof (pow10_pos (- j) ltac:(lia)).
    eapply correctly_rounded_eq; [apply xq_dec_neg; exact H|].
    apply round_pos_nearest; assumption.
Qed.

Theorem round_dec_overflow F c j : format_valid F -> (0 < c)%Z ->
  round_dec F c j = None <-> overflows F (decq c j).
Proof.
  intros HF Hc. unfold round_dec, overflows. destruct (Z.leb_spec 0 j) as [H|H].
  - pose proof (pow10_pos j H). rewrite round_pos_overflow; try assumption; try nia.
    unfold overflows. rewrite xq_dec by exact H. reflexivity.
  - pose proof (pow10_pos (- j) ltac:(lia)). rewrite round_pos_overflow; try assumption.
    unfold overflows. rewrite xq_dec_neg by exact H. reflexivity.
Qed.

(** A representable bound separates a number from its rounding. *)
Lemma rounded_below F x m e bm be : correctly_rounded F x m e -> canon F bm be = true ->
  fq m e < fq bm be -> x < fq bm be.
Proof.
  intros [_ H] Hb L. destruct (H bm be Hb) as [D _].
  destruct (Qlt_le_dec x (fq bm be)) as [?|G]; [assumption|].
  rewrite (Qabs_pos (x - fq m e)) in D by lra. rewrite (Qabs_pos (x - fq bm be)) in D by lra. lra.
Qed.

Lemma rounded_above F x m e bm be : correctly_rounded F x m e -> canon F bm be = true ->
  fq bm be < fq m e -> fq bm be < x.
Proof.
  intros [_ H] Hb L. destruct (H bm be Hb) as [D _].
  destruct (Qlt_le_dec (fq bm be) x) as [?|G]; [assumption|].
  rewrite (Qabs_neg (x - fq m e)) in D by lra. rewrite (Qabs_neg (x - fq bm be)) in D by lra. lra.
Qed.

(** Rounding a representable number is the identity on its value. *)
Lemma rounded_exact F x m e bm be : correctly_rounded F x m e -> canon F bm be = true ->
  x == fq bm be -> fq m e == x.
Proof.
  intros [_ H] Hb E. destruct (H bm be Hb) as [D _].
  rewrite E in D. setoid_replace (fq bm be - fq bm be) with 0 in D by ring.
  change (Qabs 0) with 0 in D. rewrite E.
  pose proof (Qabs_nonneg (fq bm be - fq m e)).
  assert (Qabs (fq bm be - fq m e) == 0) as Z0 by lra.
  destruct (Qlt_le_dec (fq bm be - fq m e) 0) as [L|L].
  - rewrite Qabs_neg in Z0 by lra. lra.
  - rewrite Qabs_pos in Z0 by lra. lra.
Qed.

Lemma fq_int m e : (0 <= e)%Z -> fq m e == inject_Z (m * 2 ^ e).
Proof. intros H. unfold fq. rewrite inject_Z_mult, (qpow2_Z e H). reflexivity. Qed.

(** Integers up to 2^53 are representable in float64. *)
Lemma small_int_canon n : (0 < n <= 2 ^ 53)%Z ->
  exists m e, canon F64 m e = true /\ inject_Z n == fq m e.
Proof.
  intros H. destruct (Z.eq_dec n (2 ^ 53)) as [->|Hn].
  - exists (2 ^ 52)%Z, 1%Z. split; [reflexivity|]. rewrite fq_int by lia. reflexivity.
  - pose proof (Z.log2_nonneg n). assert (Z.log2 n < 53)%Z by (apply Z.log2_lt_pow2; lia).
    pose proof (log2_bounds n ltac:(lia)) as [L1 L2].
    exists (n * 2 ^ (52 - Z.log2 n))%Z, (Z.log2 n - 52)%Z. split.
    + apply canon_spec. cbn [prec emin emax F64].
      assert (2 ^ (53 - 1) = 2 ^ Z.log2 n * 2 ^ (52 - Z.log2 n))%Z as E1.
      { rewrite <- Z.pow_add_r by lia. f_equal. lia. }
      assert (2 ^ 53 = 2 * (2 ^ Z.log2 n * 2 ^ (52 - Z.log2 n)))%Z as E2.
      { rewrite <- Z.pow_add_r, <- Z.pow_succ_r by lia. f_equal. lia. }
      pose proof (pow2_pos (52 - Z.log2 n) ltac:(lia)).
      split; [nia|]. split; [lia|]. left. nia.
    + unfold fq. rewrite inject_Z_mult, <- qpow2_Z by lia.
      replace (Z.log2 n - 52)%Z with (- (52 - Z.log2 n))%Z by lia.
      rewrite Qpower_opp. field. pose proof (qpow2_pos (52 - Z.log2 n)). lra.
Qed.

(** The value is an integer. *)
Definition integral (m e : Z) : Prop := exists n : Z, fq m e == inject_Z n.

(** The search for the shortest decimal of an integer stops at or before j = 0. *)
Lemma shortest_search_integral F fuel m e j d k : format_valid F -> canon F m e = true -> (0 < m)%Z ->
  integral m e -> (0 <= j)%Z -> (Z.to_nat j < fuel)%nat ->
  shortest_search F fuel m e j = (d, k) -> (0 <= k)%Z.
Proof.
  intros HF Hc Hm [N HN]. revert j.
  induction fuel as [|n IH]; intros j Hj Hf; [lia|].
  cbn [shortest_search]. destruct (dec_frac m e j) as [nn dd] eqn:DF.
  set (near := rne nn dd). set (far := if (near =? nn / dd)%Z then (nn / dd + 1)%Z else (nn / dd)%Z).
  destruct (reads_back F m e near j) eqn:R1. { intros [= <- <-]. exact Hj. }
  destruct (reads_back F m e far j) eqn:R2. { intros [= <- <-]. exact Hj. }
  destruct (Z.eq_dec j 0) as [->|Hj0]; [exfalso|apply IH; lia].
  clear R2 IH. unfold dec_frac in DF. change (0 <=? 0)%Z with true in DF. cbv iota in DF.
  assert (0 < dd /\ nn = N * dd /\ frac_eq N 1 m e)%Z as (Hdd & Enn & FE).
  { unfold frac_eq. rewrite Z.pow_0_r in DF. destruct (Z.leb_spec 0 e) as [G|G]; rewrite Z.mul_1_r in DF.
    - injection DF as <- <-. rewrite fq_int in HN by exact G. apply (proj1 (inject_Z_injective _ _)) in HN.
      rewrite (Z.max_l 0 (- e)), (Z.max_r 0 e), Z.pow_0_r by lia. lia.
    - injection DF as <- <-. pose proof (pow2_pos (- e) ltac:(lia)).
      assert (m = N * 2 ^ (- e))%Z as E.
      { apply inject_Z_injective. rewrite inject_Z_mult, <- HN, <- qpow2_Z by lia.
        unfold fq. rewrite Qpower_opp. field. pose proof (qpow2_pos e). lra. }
      rewrite (Z.max_r 0 (- e)), (Z.max_l 0 e), !Z.pow_0_r by lia. lia. }
  assert (0 < N)%Z as HNpos.
  { unfold frac_eq in FE. pose proof (pow2_pos (Z.max 0 e) ltac:(lia)).
    pose proof (pow2_pos (Z.max 0 (- e)) ltac:(lia)). nia. }
  assert (near = N) as En. { unfold near. rewrite Enn. apply rne_exact. exact Hdd. }
  assert (reads_back F m e near 0 = true) as C; [|congruence].
  rewrite En. apply reads_back_spec. split; [exact HNpos|].
  unfold round_dec. change (0 <=? 0)%Z with true. cbv iota. rewrite Z.pow_0_r, Z.mul_1_r.
  apply round_pos_exact; try assumption; lia.
Qed.

Lemma integral_ge1 m e : (0 < m)%Z -> integral m e -> (0 <= Z.log2 m + e)%Z.
Proof.
  intros Hm [N HN]. destruct (Z_le_gt_dec 0 (Z.log2 m + e)) as [?|G]; [assumption|exfalso].
  assert (0 < fq m e) as P1.
  { unfold fq. pose proof (qpow2_pos e). pose proof (inject_Z_pos m Hm). nra. }
  assert (fq m e < 1) as P2.
  { pose proof (log2_bounds m Hm) as [_ L]. pose proof (Z.log2_nonneg m). unfold fq.
    apply Qlt_le_trans with (inject_Z (2 * 2 ^ Z.log2 m) * 2 ^ e).
    - apply Qmult_lt_r; [apply qpow2_pos|]. rewrite <- Zlt_Qlt. exact L.
    - rewrite <- Z.pow_succ_r by lia. rewrite <- qpow2_Z by lia. rewrite <- Qpower_plus by exact two_nz.
      change 1 with (2 ^ 0). apply Qpower_le_compat_l; [lia|discriminate]. }
  rewrite HN in P1, P2. change 0 with (inject_Z 0) in P1. change 1 with (inject_Z 1) in P2.
  rewrite <- Zlt_Qlt in P1, P2. lia.
Qed.

Lemma shortest_integral F m e d k : format_valid F -> canon F m e = true -> (0 < m)%Z ->
  integral m e -> shortest F m e = (d, k) -> (0 <= k)%Z.
Proof.
  intros HF Hc Hm HI. unfold shortest.
  pose proof (integral_ge1 m e Hm HI) as G.
  assert (0 <= shortest_start m e)%Z as J.
  { unfold shortest_start. destruct (Z.leb_spec 0 (Z.log2 m + e + 1)); [|lia].
    assert (0 <= (Z.log2 m + e + 1) / 3)%Z by (apply Z.div_pos; lia). lia. }
  apply shortest_search_integral; try assumption. lia.
Qed.

Lemma decq_int d k : (0 <= k)%Z -> decq d k == inject_Z (d * 10 ^ k).
Proof. intros H. unfold decq. rewrite inject_Z_mult, (qpow10_Z k H). reflexivity. Qed.

Lemma parse_int_layout_int (neg : bool) d j : (0 < d)%Z -> (0 <= j)%Z ->
  parse_int ((if neg then ["-"%byte] else []) ++ layout_f d j)
  = let z := if neg then (- (d * 10 ^ j))%Z else (d * 10 ^ j)%Z in
    if in_int64 z then Some z else None.
Proof.
  intros Hd Hj. destruct (layout_f_shape d j Hd) as [(_ & ds & -> & Hne & Hv) | (C & _)]; [|lia].
  pose proof (digits_acc_some _ _ _ Hv) as Hds.
  destruct ds as [|c r]; [congruence|]. inversion Hds as [|? ? Hc _]; subst.
  destruct (digit_not_sign c Hc) as [N1 N2].
  destruct neg; cbn [app parse_int].
  - change (beq "-"%byte "+"%byte) with false. change (beq "-"%byte "-"%byte) with true. cbv iota.
    unfold parse_digits. rewrite Hv. reflexivity.
  - rewrite N1, N2. unfold parse_digits. rewrite Hv. reflexivity.
Qed.

Lemma digits_acc_dot a ds fs : digits_acc a (ds ++ "."%byte :: fs) = None.
Proof.
  rewrite digits_acc_app. destruct (digits_acc a ds); reflexivity.
Qed.

Lemma parse_int_layout_frac (neg : bool) d j : (0 < d)%Z -> (j < 0)%Z ->
  parse_int ((if neg then ["-"%byte] else []) ++ layout_f d j) = None.
Proof.
  intros Hd Hj. destruct (layout_f_shape d j Hd) as [(C & _) | (_ & ds & fs & -> & Hne & Hv & _)]; [lia|].
  pose proof (digits_acc_some _ _ _ Hv) as Hds. apply Forall_app in Hds as [Hds _].
  destruct ds as [|c r]; [congruence|]. inversion Hds as [|? ? Hc _]; subst.
  destruct (digit_not_sign c Hc) as [N1 N2].
  destruct neg; cbn [app parse_int].
  - change (beq "-"%byte "+"%byte) with false. change (beq "-"%byte "-"%byte) with true. cbv iota.
    unfold parse_digits. change (c :: r ++ "."%byte :: fs) with ((c :: r) ++ "."%byte :: fs).
    rewrite digits_acc_dot. reflexivity.
  - rewrite N1, N2. unfold parse_digits.
    change (c :: r ++ "."%byte :: fs) with ((c :: r) ++ "."%byte :: fs).
    rewrite digits_acc_dot. reflexivity.
Qed.

(** A non-integral float64 never has a shortest decimal that is an integer. *)
Lemma shortest_fractional m e d k : canon F64 m e = true -> (0 < m)%Z ->
  ~ integral m e -> shortest F64 m e = (d, k) -> (k < 0)%Z.
Proof.
  intros Hc Hm HI HS. destruct (Z_lt_le_dec k 0) as [?|G]; [assumption|exfalso].
  destruct (shortest_reads F64 m e d k F64_valid Hc Hm HS) as [Hd R].
  pose proof (round_dec_nearest F64 d k m e F64_valid Hd R) as CR.
  assert (e < 0)%Z as He.
  { destruct (Z_lt_le_dec e 0); [assumption|]. exfalso. apply HI. exists (m * 2 ^ e)%Z. apply fq_int; assumption. }
  pose proof (pow10_pos k G) as P10.
  assert (fq m e < fq (2 ^ 52) 1) as L.
  { apply Qlt_le_trans with (2 ^ 53); [|rewrite fq_int by lia; discriminate].
    apply (canon_lt F64); [exact Hc|]. cbn [prec F64]. lia. }
  pose proof (rounded_below F64 _ m e (2 ^ 52) 1 CR eq_refl L) as L2.
  rewrite decq_int in L2 by exact G. rewrite fq_int in L2 by lia. rewrite <- Zlt_Qlt in L2.
  destruct (small_int_canon (d * 10 ^ k)) as (m' & e' & Hc' & E').
  { split; [nia|]. lia. }
  apply HI. exists (d * 10 ^ k)%Z. rewrite <- decq_int by exact G.
  apply (rounded_exact F64 _ m e m' e' CR Hc'). rewrite decq_int by exact G. exact E'.
Qed.

(** Rounding an integer to float64: what [float_of_int] computes. *)
Lemma float_of_int_pos z m e : (0 < z)%Z -> round_dec F64 z 0 = Some (m, e) ->
  float_of_int z = FFin false m e /\ float_of_int (- z) = FFin true m e.
Proof.
  intros Hz R. unfold round_dec in R. change (0 <=? 0)%Z with true in R. cbv iota in R.
  rewrite Z.pow_0_r, Z.mul_1_r in R. unfold float_of_int.
  destruct (Z.eqb_spec z 0); [lia|]. destruct (Z.eqb_spec (- z) 0); [lia|].
  rewrite Z.abs_opp, Z.abs_eq by lia. rewrite R.
  destruct (Z.ltb_spec z 0); [lia|]. destruct (Z.ltb_spec (- z) 0); [|lia]. auto.
Qed.

Lemma canon_pow63 : canon F64 (2 ^ 52) 11 = true. Proof. reflexivity. Qed.
Lemma fq_pow63 : fq (2 ^ 52) 11 == inject_Z (2 ^ 63). Proof. reflexivity. Qed.

(** The printed text of a finite float64 is an int64 literal exactly when the
    value is an integer below 2^63 in magnitude; the literal is then an
    integer which converts back to the float. *)
Theorem float_text_int neg m e : canon F64 m e = true -> (0 < m)%Z ->
  integral m e -> fq m e < inject_Z (2 ^ 63) ->
  exists z, parse_int (format_float F64 (FFin neg m e)) = Some z
            /\ float_of_int z = FFin neg m e.
Proof.
  intros Hc Hm HI HL. cbn [format_float]. destruct (Z.eqb_spec m 0); [lia|].
  destruct (shortest F64 m e) as [d k] eqn:HS.
  pose proof (shortest_integral F64 m e d k F64_valid Hc Hm HI HS) as Hk.
  destruct (shortest_reads F64 m e d k F64_valid Hc Hm HS) as [Hd R].
  pose proof (round_dec_nearest F64 d k m e F64_valid Hd R) as CR.
  pose proof (pow10_pos k Hk) as P10.
  rewrite <- fq_pow63 in HL.
  pose proof (rounded_below F64 _ m e _ _ CR canon_pow63 HL) as L2.
  rewrite decq_int, fq_pow63, <- Zlt_Qlt in L2 by exact Hk.
  rewrite parse_int_layout_int by assumption. cbv zeta.
  assert (round_dec F64 (d * 10 ^ k) 0 = Some (m, e)) as R0.
  { rewrite <- R. unfold round_dec. change (0 <=? 0)%Z with true. cbv iota.
    rewrite Z.pow_0_r, Z.mul_1_r. destruct (Z.leb_spec 0 k); [reflexivity|lia]. }
  destruct (float_of_int_pos (d * 10 ^ k) m e ltac:(nia) R0) as [F1 F2].
  exists (if neg then (- (d * 10 ^ k))%Z else (d * 10 ^ k)%Z).
  assert (in_int64 (if neg then (- (d * 10 ^ k))%Z else (d * 10 ^ k)%Z) = true) as ->.
  { unfold in_int64, int64_min, int64_max. apply andb_true_iff. rewrite !Z.leb_le.
    destruct neg; nia. }
  split; [reflexivity|]. destruct neg; assumption.
Qed.

Theorem float_text_not_int neg m e : canon F64 m e = true -> (0 < m)%Z ->
  ~ (integral m e /\ fq m e < inject_Z (2 ^ 63)) ->
  parse_int (format_float F64 (FFin neg m e)) = None.
Proof.
  intros Hc Hm HN. cbn [format_float]. destruct (Z.eqb_spec m 0); [lia|].
  destruct (shortest F64 m e) as [d k] eqn:HS.
  destruct (shortest_reads F64 m e d k F64_valid Hc Hm HS) as [Hd R].
  pose proof (round_dec_nearest F64 d k m e F64_valid Hd R) as CR.
  destruct (Z_lt_le_dec k 0) as [Hk|Hk]; [apply parse_int_layout_frac; assumption|].
  rewrite parse_int_layout_int by assumption. cbv zeta.
  pose proof (pow10_pos k Hk) as P10.
  assert (2 ^ 63 < d * 10 ^ k)%Z as G.
  { assert (~ fq m e < inject_Z (2 ^ 63)) as HG.
    { intros L. apply HN. split; [|exact L].
      destruct (Z_lt_le_dec e 0) as [He|He]; [|exists (m * 2 ^ e)%Z; apply fq_int; exact He].
      (* e < 0: fractional would give k < 0 *)
      assert (exists r, m mod 2 ^ (- e) = r)%Z as [r Hr] by eauto.
      pose proof (pow2_pos (- e) ltac:(lia)) as P2.
      destruct (Z.eq_dec r 0) as [->|Hr0].
      - exists (m / 2 ^ (- e))%Z. unfold fq.
        apply Z.mod_divide in Hr; [|lia]. destruct Hr as [t ->].
        rewrite Z.div_mul by lia. rewrite inject_Z_mult, <- qpow2_Z by lia.
        rewrite Qpower_opp. field. pose proof (qpow2_pos e). lra.
      - exfalso. assert (~ integral m e) as NI.
        { intros [N EN]. apply Hr0. rewrite <- Hr. apply Z.mod_divide; [lia|]. exists N.
          apply inject_Z_injective. rewrite inject_Z_mult, <- EN, <- qpow2_Z by lia.
          unfold fq. rewrite Qpower_opp. field. pose proof (qpow2_pos e). lra. }
        pose proof (shortest_fractional m e d k Hc Hm NI HS). lia. }
    apply Qnot_lt_le in HG. apply Qle_lt_or_eq in HG. destruct HG as [HG|HG].
    - rewrite <- fq_pow63 in HG. pose proof (rounded_above F64 _ m e _ _ CR canon_pow63 HG) as L2.
      rewrite fq_pow63, decq_int, <- Zlt_Qlt in L2 by exact Hk. exact L2.
    - (* exactly 2^63: one concrete number *)
      apply canon_spec in Hc as (Hm2 & He & Hn). cbn [prec emin emax F64] in *.
      assert (e = 11 /\ m = 2 ^ 52)%Z as [-> ->].
      { assert (0 <= e)%Z as He0.
        { destruct (Z_lt_le_dec e 0) as [G|G]; [exfalso|exact G].
          assert (fq m e < 2 ^ 53) as C.
          { apply (canon_lt F64); [apply canon_spec; auto|]. cbn [prec F64]. lia. }
          rewrite <- HG in C. discriminate C. }
        rewrite fq_int in HG by exact He0. apply (proj1 (inject_Z_injective _ _)) in HG.
        destruct Hn as [Hn|Hn]; [|lia].
        assert (e = 11)%Z as ->; [|split; [reflexivity|lia]].
        pose proof (pow2_pos e He0).
        assert (2 ^ (52 + e) <= 2 ^ 63)%Z as A.
        { rewrite Z.pow_add_r by lia. change (2 ^ (53 - 1))%Z with (2 ^ 52)%Z in Hn. nia. }
        assert (2 ^ 63 < 2 ^ (53 + e))%Z as A2.
        { rewrite (Z.pow_add_r 2 53) by lia. nia. }
        apply Z.pow_le_mono_r_iff in A; [|lia|lia].
        apply Z.pow_lt_mono_r_iff in A2; [|lia|lia]. lia. }
      vm_compute in HS. injection HS as <- <-. reflexivity. }
  destruct neg; unfold in_int64, int64_min, int64_max.
  - destruct (Z.leb_spec (- 2 ^ 63) (- (d * 10 ^ k))); [lia|reflexivity].
  - destruct (Z.leb_spec (d * 10 ^ k) (2 ^ 63 - 1)); [lia|].
    rewrite andb_false_r. reflexivity.
Qed.
