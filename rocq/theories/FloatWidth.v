(** float32 variables: rounding to 24 bits and widening. *)
From Coq Require Import QArith Qpower Qabs Lia ZArith.
From Verif Require Import Base Strconv SpecFloat StrconvFacts RoundFacts FloatText RoundUnique Unmarshal.
Open Scope Z_scope.

Lemma F32_valid : format_valid F32.
Proof. repeat split; vm_compute; congruence. Qed.

Lemma xq_bin c k : (xq (if 0 <=? k then c * 2 ^ k else c) (if 0 <=? k then 1 else 2 ^ (- k)) == fq c k)%Q.
Proof.
  unfold xq, fq. destruct (Z.leb_spec 0 k) as [H|H].
  - rewrite inject_Z_mult, <- qpow2_Z by exact H. field.
  - replace k with (- - k) at 2 by lia. rewrite Qpower_opp. rewrite <- qpow2_Z by lia. field. apply Qpower_not_0. exact two_nz.
Qed.

Lemma pow2_pos k : 0 <= k -> 0 < 2 ^ k. Proof. intros. apply Z.pow_pos_nonneg; lia. Qed.

Lemma round_bin_as F c k : round_bin F c k = round_pos F (if 0 <=? k then c * 2 ^ k else c) (if 0 <=? k then 1 else 2 ^ (- k)).
Proof. unfold round_bin. destruct (0 <=? k); reflexivity. Qed.

Lemma round_bin_args c k : 0 < c -> 0 < (if 0 <=? k then c * 2 ^ k else c) /\ 0 < (if 0 <=? k then 1 else 2 ^ (- k)).
Proof. intros Hc. destruct (Z.leb_spec 0 k) as [H|H]; [pose proof (pow2_pos k H); nia|]. split; [exact Hc|apply pow2_pos; lia]. Qed.

Lemma round_bin_nearest F c k m e : format_valid F -> 0 < c -> round_bin F c k = Some (m, e) -> correctly_rounded F (fq c k) m e.
Proof.
  intros HF Hc E. rewrite round_bin_as in E. destruct (round_bin_args c k Hc) as [A B].
  eapply correctly_rounded_eq; [apply (xq_bin c k)|]. apply round_pos_nearest; assumption.
Qed.

Lemma round_bin_overflow F c k : format_valid F -> 0 < c -> (round_bin F c k = None <-> overflows F (fq c k)).
Proof.
  intros HF Hc. rewrite round_bin_as. destruct (round_bin_args c k Hc) as [A B].
  rewrite (round_pos_overflow F _ _ HF A B). unfold overflows. rewrite (xq_bin c k). reflexivity.
Qed.

Lemma fq_pos m e : 0 < m -> (0 < fq m e)%Q.
Proof. intros H. unfold fq. apply Qmult_lt_0_compat; [apply inject_Z_pos; exact H|apply qpow2_pos]. Qed.

Lemma to_f32_rounds neg m e : 0 <= m -> rounds F32 neg (fq m e) (to_f32 (FFin neg m e)).
Proof.
  intros Hm. unfold to_f32. destruct (Z.eqb_spec m 0) as [->|N].
  - left. split; [unfold fq; ring|reflexivity].
  - right. assert (0 < m) as P by lia. destruct (round_bin F32 m e) as [[m' e']|] eqn:E.
    + right. split; [apply fq_pos; exact P|]. split; [|exists m', e'; split; [reflexivity|apply round_bin_nearest; [exact F32_valid|exact P|exact E]]].
      intros O. apply (round_bin_overflow F32 m e F32_valid P) in O. congruence.
    + left. split; [apply fq_pos; exact P|]. split; [|reflexivity]. apply (round_bin_overflow F32 m e F32_valid P). exact E.
Qed.

(** Every float32 is a float64. *)
Lemma f32_in_f64 m e : canon F32 m e = true -> exists m' e', canon F64 m' e' = true /\ (fq m' e' == fq m e)%Q.
Proof.
  intros C. unfold canon in C. rewrite !andb_true_iff, orb_true_iff, !Z.leb_le, !Z.ltb_lt, Z.eqb_eq in C.
  change (prec F32) with 24 in C. change (emin F32) with (-149) in C. change (emax F32) with 104 in C.
  destruct (Z.eq_dec m 0) as [->|N]; [exists 0, (emin F64); split; [reflexivity|unfold fq; ring]|].
  assert (0 < m) as P by lia. pose proof (Z.log2_spec m P) as [L1 L2]. set (k := 52 - Z.log2 m).
  assert (Z.log2 m < 24) as L by (apply Z.log2_lt_pow2; lia). assert (0 <= Z.log2 m) as L0 by apply Z.log2_nonneg.
  exists (m * 2 ^ k), (e - k). split.
  - unfold canon. rewrite !andb_true_iff, orb_true_iff, !Z.leb_le, !Z.ltb_lt, Z.eqb_eq.
    change (prec F64) with 53. change (emin F64) with (-1074). change (emax F64) with 971.
    assert (2 ^ 52 = 2 ^ Z.log2 m * 2 ^ k) as E1 by (rewrite <- Z.pow_add_r by lia; f_equal; lia).
    assert (2 ^ 53 = 2 ^ Z.succ (Z.log2 m) * 2 ^ k) as E2 by (rewrite <- Z.pow_add_r by lia; f_equal; lia).
    pose proof (pow2_pos k ltac:(lia)) as Pk. change (53 - 1) with 52. rewrite E1, E2. repeat split; try lia; try nia.
  - rewrite <- (fq_shift m (e - k) k) by lia. replace (e - k + k) with e by lia. reflexivity.
Qed.

Lemma no_overflow32 m e : canon F32 m e = true -> ~ overflows F64 (fq m e).
Proof.
  intros C O. unfold overflows in O. assert (fq m e < Qpower 2 128)%Q as L.
  { apply (canon_lt F32); [exact C|]. unfold canon in C. rewrite !andb_true_iff, !Z.leb_le in C. change (prec F32) with 24. change (emax F32) with 104 in C. lia. }
  pose proof (Qle_lt_trans _ _ _ O L) as A. vm_compute in A. discriminate A.
Qed.

Lemma to_f64_widens f : fl_ok F32 f = true -> widens f (to_f64 f).
Proof.
  destruct f as [|neg|neg m e]; intros C; cbn in C |- *; try reflexivity.
  destruct (Z.eqb_spec m 0) as [->|N].
  - exists 0, (emin F64). split; [reflexivity|]. split; [reflexivity|unfold fq; ring].
  - assert (0 < m) as P by (unfold canon in C; rewrite !andb_true_iff, !Z.leb_le in C; lia).
    destruct (round_bin F64 m e) as [[m' e']|] eqn:E.
    + exists m', e'. split; [reflexivity|]. pose proof (round_bin_nearest F64 m e m' e' F64_valid P E) as R. split; [exact (proj1 R)|].
      destruct (f32_in_f64 m e C) as (m2 & e2 & C2 & E2). apply (rounded_exact F64 (fq m e) m' e' m2 e2 R C2). symmetry. exact E2.
    + exfalso. apply (no_overflow32 m e C). apply (round_bin_overflow F64 m e F64_valid P). exact E.
Qed.

Lemma rounds_ok F neg x f : rounds F neg x f -> canon F 0 (emin F) = true -> fl_ok F f = true.
Proof. intros [[_ ->]|[(_ & _ & ->)|(_ & _ & m & e & -> & R & _)]] Z; cbn; auto. Qed.

(** A float32 variable gets the number rounded to float32. *)
Lemma set_float32 f : fl_ok F64 f = true -> narrows f (set_float 32 f).
Proof.
  destruct f as [|neg|neg m e]; intros C; unfold set_float; rewrite Z.eqb_refl; cbn [narrows]; try reflexivity.
  assert (0 <= m) as P by (cbn in C; unfold canon in C; rewrite !andb_true_iff, !Z.leb_le in C; lia).
  exists (to_f32 (FFin neg m e)). pose proof (to_f32_rounds neg m e P) as R. split; [exact R|]. apply to_f64_widens. eapply rounds_ok; [exact R|reflexivity].
Qed.

Lemma set_float64 bit f : bit <> 32 -> set_float bit f = f.
Proof. intros N. unfold set_float. destruct (Z.eqb_spec bit 32); [contradiction|reflexivity]. Qed.

(** The values of a float32 variable are kept. *)
Lemma set_float_single f : single f -> set_float 32 f = f.
Proof.
  destruct f as [|neg|neg m e]; unfold set_float; rewrite Z.eqb_refl; try reflexivity. intros (C & m1 & e1 & C1 & E1).
  assert (0 <= m) as P by (unfold canon in C; rewrite !andb_true_iff, !Z.leb_le in C; lia).
  assert (fl_ok F64 (FFin neg m e) = true) as Ok by exact C.
  pose proof (set_float32 _ Ok) as (h & R & W). unfold set_float in W. rewrite Z.eqb_refl in W.
  assert (X : exists m2 e2, h = FFin neg m2 e2 /\ (fq m2 e2 == fq m e)%Q).
  { destruct R as [[Z0 ->]|[(P0 & O & ->)|(P0 & NO & m2 & e2 & -> & R)]].
    - exists 0, (emin F32). split; [reflexivity|]. rewrite Z0. unfold fq. ring.
    - exfalso. assert (~ overflows F32 (fq m1 e1)) as NO; [|apply NO; unfold overflows in *; rewrite E1; exact O].
      intros O1. unfold overflows in O1. assert (0 < m1) as P1.
      { unfold canon in C1. rewrite !andb_true_iff, !Z.leb_le in C1. destruct (Z.eq_dec m1 0) as [->|]; [|lia]. exfalso. rewrite <- E1 in P0. unfold fq in P0. rewrite Qmult_0_l in P0. discriminate P0. }
      pose proof (proj2 (round_bin_overflow F32 m1 e1 F32_valid P1) O1) as B. pose proof (proj1 (round_bin_overflow F32 m1 e1 F32_valid P1) B) as _.
      unfold canon in C1. rewrite !andb_true_iff, !Z.leb_le, !Z.ltb_lt in C1.
      assert ((fq m1 e1 <= fq (2 ^ 24 - 1) 104)%Q) as L.
      { unfold fq. change (prec F32) with 24 in C1. change (emax F32) with 104 in C1. apply Qle_trans with (inject_Z (2 ^ 24 - 1) * Qpower 2 e1)%Q.
        - apply Qmult_le_compat_r; [rewrite <- Zle_Qle; lia|apply Qlt_le_weak, qpow2_pos].
        - rewrite (Qmult_comm (inject_Z _)), (Qmult_comm (inject_Z _)). apply Qmult_le_compat_r; [|rewrite <- (Zle_Qle 0); vm_compute; discriminate].
          apply Qpower_le_compat_l; [lia|]. vm_compute. discriminate. }
      pose proof (Qle_trans _ _ _ O1 L) as A. vm_compute in A. apply A. reflexivity.
    - exists m2, e2. split; [reflexivity|]. apply (rounded_exact F32 (fq m e) m2 e2 m1 e1 R C1). symmetry. exact E1. }
  destruct X as (m2 & e2 & -> & E2). cbn [widens] in W. destruct W as (m3 & e3 & -> & C3 & E3).
  assert (m3 = m /\ e3 = e) as [-> ->]; [|reflexivity]. apply (canon_fq_inj F64 m3 e3 m e F64_valid C3 C). rewrite E3. exact E2.
Qed.
