(** The correct rounding of SpecFloat.v is unique. *)
From Coq Require Import QArith Qabs Qpower Lqa Qfield.
From Verif Require Import Base Strconv StrconvFacts SpecFloat RoundFacts FloatText.
Open Scope Q_scope.

Lemma fq_lt_e F m1 e1 m2 e2 : format_valid F -> canon F m1 e1 = true -> canon F m2 e2 = true ->
  (e1 < e2)%Z -> inject_Z (2 ^ prec F) * Qpower 2 e1 <= fq m2 e2.
Proof.
  intros [Hp _] H1 H2 L. apply canon_spec in H1 as (_ & He1 & _). apply canon_spec in H2 as (_ & _ & [Hm|Hm]); [|lia].
  unfold fq. replace (prec F) with (prec F - 1 + 1)%Z by lia. rewrite Z.pow_add_r, inject_Z_mult by lia.
  change (2 ^ 1)%Z with 2%Z. change (inject_Z 2) with 2.
  assert (2 * Qpower 2 e1 <= Qpower 2 e2) as A.
  { change 2 with (Qpower 2 1) at 1. rewrite <- Qpower_plus by exact two_nz.
    apply Qpower_le_compat_l; [lia|discriminate]. }
  pose proof (qpow2_pos e1). pose proof (qpow2_pos e2).
  assert (inject_Z (2 ^ (prec F - 1)) <= inject_Z m2) as B by (rewrite <- Zle_Qle; exact Hm).
  assert (0 < inject_Z (2 ^ (prec F - 1))) by (apply inject_Z_pos, pow2_pos; lia).
  setoid_replace (inject_Z (2 ^ (prec F - 1)) * 2 * 2 ^ e1) with (inject_Z (2 ^ (prec F - 1)) * (2 * 2 ^ e1)) by ring.
  apply Qle_trans with (inject_Z (2 ^ (prec F - 1)) * 2 ^ e2); nra.
Qed.

Lemma fq_lt_m m1 m2 e : (m1 < m2)%Z -> fq m1 e < fq m2 e.
Proof.
  intros H. unfold fq. apply Qmult_lt_r; [apply qpow2_pos|]. rewrite <- Zlt_Qlt. exact H.
Qed.

(** Equal values have equal canonical representations. *)
Lemma canon_fq_inj F m1 e1 m2 e2 : format_valid F -> canon F m1 e1 = true -> canon F m2 e2 = true ->
  fq m1 e1 == fq m2 e2 -> m1 = m2 /\ e1 = e2.
Proof.
  intros HF H1 H2 E.
  assert (forall m e, canon F m e = true -> fq m e < inject_Z (2 ^ prec F) * Qpower 2 e) as U.
  { intros m e H. apply (fq_lt_m m). apply canon_spec in H. lia. }
  destruct (Z.lt_trichotomy e1 e2) as [L|[->|L]].
  - pose proof (fq_lt_e F _ _ _ _ HF H1 H2 L). pose proof (U _ _ H1). lra.
  - split; [|reflexivity].
    destruct (Z.lt_trichotomy m1 m2) as [L|[->|L]]; [|reflexivity|];
      apply (fq_lt_m _ _ e2) in L; lra.
  - pose proof (fq_lt_e F _ _ _ _ HF H2 H1 L). pose proof (U _ _ H2). lra.
Qed.

(** Between two equidistant canonical numbers, the lower one even, there is a
    strictly nearer one. *)
Lemma even_tie_gap F x m1 e1 m2 e2 : format_valid F -> canon F m1 e1 = true -> canon F m2 e2 = true ->
  fq m1 e1 < fq m2 e2 -> Qabs (x - fq m1 e1) == Qabs (x - fq m2 e2) ->
  Z.even m1 = true -> Z.even m2 = true ->
  exists m e, canon F m e = true /\ Qabs (x - fq m e) < Qabs (x - fq m1 e1).
Proof.
  intros HF H1 H2 L D Ev1 Ev2.
  assert (x - fq m1 e1 == fq m2 e2 - x) as DX.
  { destruct (Qlt_le_dec x (fq m1 e1)) as [C|C].
    - rewrite (Qabs_neg (x - fq m1 e1)), (Qabs_neg (x - fq m2 e2)) in D by lra. lra.
    - destruct (Qlt_le_dec (fq m2 e2) x) as [C'|C'].
      + rewrite (Qabs_pos (x - fq m1 e1)), (Qabs_pos (x - fq m2 e2)) in D by lra. lra.
      + rewrite (Qabs_pos (x - fq m1 e1)), (Qabs_neg (x - fq m2 e2)) in D by lra. lra. }
  pose proof HF as [Hp _].
  apply canon_spec in H1 as H1'. destruct H1' as (Hm1 & He1 & Hn1).
  assert (2 ^ prec F = 2 * 2 ^ (prec F - 1))%Z as P2.
  { rewrite <- Z.pow_succ_r by lia. f_equal. lia. }
  assert (m1 + 1 < 2 ^ prec F)%Z as Hlt.
  { destruct (Z.eq_dec (m1 + 1) (2 ^ prec F)) as [E|E]; [exfalso|lia].
    assert (Z.even (m1 + 1) = true) as C by (rewrite E, P2, Z.even_mul; reflexivity).
    rewrite Z.even_add, Ev1 in C. discriminate. }
  assert (canon F (m1 + 1) e1 = true) as Hc by (apply canon_spec; lia).
  assert (fq (m1 + 1) e1 < fq m2 e2) as Lt2.
  { destruct (Z.lt_trichotomy e1 e2) as [Le|[<-|Le]].
    - eapply Qlt_le_trans; [apply (fq_lt_m _ (2 ^ prec F)); exact Hlt|].
      apply (fq_lt_e F _ _ _ _ HF H1 H2 Le).
    - apply fq_lt_m. destruct (Z.lt_trichotomy m1 m2) as [G|[G|G]].
      + destruct (Z.eq_dec (m1 + 1) m2) as [E|E]; [exfalso|lia].
        rewrite <- E, Z.even_add, Ev1 in Ev2. discriminate.
      + subst. lra.
      + apply (fq_lt_m _ _ e1) in G. lra.
    - exfalso. pose proof (fq_lt_e F _ _ _ _ HF H2 H1 Le) as G.
      apply canon_spec in H2 as (Hm2 & _ & _).
      pose proof (fq_lt_m m2 (2 ^ prec F) e2 ltac:(lia)) as G2. unfold fq at 2 in G2. lra. }
  pose proof (fq_lt_m m1 (m1 + 1) e1 ltac:(lia)) as Lt1.
  exists (m1 + 1)%Z, e1. split; [exact Hc|].
  rewrite (Qabs_pos (x - fq m1 e1)) by lra.
  destruct (Qlt_le_dec (x - fq (m1 + 1) e1) 0) as [C|C].
  - rewrite Qabs_neg by lra. lra.
  - rewrite Qabs_pos by lra. lra.
Qed.

Theorem correctly_rounded_unique F x m1 e1 m2 e2 : format_valid F ->
  correctly_rounded F x m1 e1 -> correctly_rounded F x m2 e2 -> m1 = m2 /\ e1 = e2.
Proof.
  intros HF [H1 R1] [H2 R2].
  destruct (R1 _ _ H2) as [A1 T1]. destruct (R2 _ _ H1) as [A2 T2].
  assert (Qabs (x - fq m1 e1) == Qabs (x - fq m2 e2)) as D by lra.
  destruct (T1 D) as [E|Ev1]; [exact (canon_fq_inj F _ _ _ _ HF H1 H2 E)|].
  destruct (T2 ltac:(lra)) as [E|Ev2]; [destruct (canon_fq_inj F _ _ _ _ HF H2 H1 E); auto|].
  destruct (Q_dec (fq m1 e1) (fq m2 e2)) as [[L|L]|E]; [exfalso|exfalso|exact (canon_fq_inj F _ _ _ _ HF H1 H2 E)].
  - destruct (even_tie_gap F x _ _ _ _ HF H1 H2 L D Ev1 Ev2) as (m & e & Hc & N).
    destruct (R1 _ _ Hc). lra.
  - destruct (even_tie_gap F x _ _ _ _ HF H2 H1 L ltac:(lra) Ev2 Ev1) as (m & e & Hc & N).
    destruct (R2 _ _ Hc). lra.
Qed.

(** The specification determines what the reader computes. *)
Theorem round_dec_complete F c j m e : format_valid F -> (0 < c)%Z ->
  correctly_rounded F (decq c j) m e -> ~ overflows F (decq c j) -> round_dec F c j = Some (m, e).
Proof.
  intros HF Hc CR NO. destruct (round_dec F c j) as [[m' e']|] eqn:E.
  - pose proof (round_dec_nearest F c j m' e' HF Hc E) as CR'.
    destruct (correctly_rounded_unique F _ _ _ _ _ HF CR CR') as [-> ->]. reflexivity.
  - exfalso. apply NO. apply round_dec_overflow; assumption.
Qed.
