(** [round_pos] is the correct rounding of SpecFloat.v. *)
From Coq Require Import QArith Qabs Qpower Lqa Qfield.
From Verif Require Import Base Strconv StrconvFacts SpecFloat.
Open Scope Q_scope.

Lemma two_nz : ~ 2 == 0. Proof. intros H; discriminate H. Qed.

Lemma qpow2_pos e : 0 < Qpower 2 e.
Proof. apply Qpower_0_lt. reflexivity. Qed.

Lemma qpow2_Z e : (0 <= e)%Z -> Qpower 2 e == inject_Z (2 ^ e).
Proof. intros H. rewrite Zpower_Qpower by exact H. reflexivity. Qed.

Lemma qpow10_Z e : (0 <= e)%Z -> Qpower 10 e == inject_Z (10 ^ e).
Proof. intros H. rewrite Zpower_Qpower by exact H. reflexivity. Qed.

Lemma inject_Z_pos z : (0 < z)%Z -> 0 < inject_Z z.
Proof. intros H. unfold Qlt. simpl. lia. Qed.

Lemma inject_Z_nz z : (0 < z)%Z -> ~ inject_Z z == 0.
Proof. intros H E. pose proof (inject_Z_pos z H). lra. Qed.

Lemma scale2_Q p q e n d : (0 < p)%Z -> (0 < q)%Z -> scale2 p q e = (n, d) ->
  (0 < d)%Z /\ (0 < n)%Z /\ inject_Z p / inject_Z q == (inject_Z n / inject_Z d) * Qpower 2 e.
Proof.
  intros Hp Hq. unfold scale2. destruct (Z.leb_spec 0 e) as [H|H]; intros [= <- <-].
  - pose proof (pow2_pos e H). split; [nia|]; split; [nia|].
    rewrite (qpow2_Z e H), inject_Z_mult. field.
    split; apply inject_Z_nz; lia.
  - pose proof (pow2_pos (- e) ltac:(lia)). split; [nia|]; split; [nia|].
    rewrite inject_Z_mult, <- (qpow2_Z (- e)) by lia.
    rewrite Qpower_opp. field. split; [|apply inject_Z_nz; lia].
    pose proof (qpow2_pos e). lra.
Qed.

(** rne is the nearest integer, even on ties. *)
Lemma rne_nearest n d : (0 <= n)%Z -> (0 < d)%Z ->
  (0 <= rne n d)%Z /\ forall k : Z,
  (Z.abs (n - rne n d * d) <= Z.abs (n - k * d))%Z
  /\ (Z.abs (n - rne n d * d) = Z.abs (n - k * d) -> k = rne n d \/ Z.even (rne n d) = true)%Z.
Proof.
  intros Hn Hd. unfold rne.
  pose proof (Z.div_mod n d ltac:(lia)) as E. pose proof (Z.mod_pos_bound n d Hd) as M.
  assert (0 <= n / d)%Z as Hq by (apply Z.div_pos; lia).
  set (q := (n / d)%Z) in *. set (r := (n mod d)%Z) in *.
  destruct (Z.compare_spec (2 * r) d) as [C|C|C].
  - destruct (Z.even q) eqn:Ev.
    + split; [lia|]. intros k. split; [|intros _; right; exact Ev].
      destruct (Z.lt_trichotomy k q) as [L|[->|L]]; nia.
    + split; [lia|]. intros k. split.
      * destruct (Z.lt_trichotomy k q) as [L|[->|L]]; [nia|nia|].
        nia.
      * intros _. right. rewrite Z.even_add, Ev. reflexivity.
  - split; [lia|]. intros k. split.
    + destruct (Z.lt_trichotomy k q) as [L|[->|L]]; nia.
    + intros H. left. destruct (Z.lt_trichotomy k q) as [L|[->|L]]; [nia|reflexivity|nia].
  - split; [lia|]. intros k. split.
    + destruct (Z.lt_trichotomy k (q + 1)) as [L|[->|L]]; nia.
    + intros H. left. destruct (Z.lt_trichotomy k (q + 1)) as [L|[->|L]]; [nia|reflexivity|nia].
Qed.

(** The exponent chosen by [round_pos] (before renormalisation). *)
Definition pick_e (F : fformat) (p q : Z) : Z :=
  let e0 := Z.max (emin F) (Z.log2 p - Z.log2 q - prec F) in
  let '(n0, d0) := scale2 p q e0 in
  if (n0 / d0 <? 2 ^ prec F)%Z then e0 else (e0 + 1)%Z.

Lemma Qdiv_lt_iff a b n d : (0 < d)%Z -> (0 < b)%Z ->
  inject_Z a / inject_Z b < inject_Z n / inject_Z d <-> (a * d < n * b)%Z.
Proof.
  intros Hd Hb. pose proof (inject_Z_pos d Hd). pose proof (inject_Z_pos b Hb).
  split; intros H1.
  - rewrite Zlt_Qlt, !inject_Z_mult.
    setoid_replace (inject_Z a * inject_Z d) with (inject_Z a / inject_Z b * (inject_Z b * inject_Z d))
      by (field; lra).
    setoid_replace (inject_Z n * inject_Z b) with (inject_Z n / inject_Z d * (inject_Z b * inject_Z d))
      by (field; lra).
    apply Qmult_lt_compat_r; [nra|exact H1].
  - rewrite Zlt_Qlt, !inject_Z_mult in H1.
    apply Qlt_shift_div_l; [exact H|].
    setoid_replace (inject_Z a / inject_Z b * inject_Z d) with (inject_Z a * inject_Z d / inject_Z b)
      by (field; lra).
    apply Qlt_shift_div_r; assumption.
Qed.

Definition xq (p q : Z) : Q := inject_Z p / inject_Z q.

Lemma xq_log p q : (0 < p)%Z -> (0 < q)%Z ->
  Qpower 2 (Z.log2 p - Z.log2 q - 1) < xq p q /\ xq p q < Qpower 2 (Z.log2 p - Z.log2 q + 1).
Proof.
  intros Hp Hq. unfold xq.
  pose proof (log2_bounds p Hp) as [P1 P2]. pose proof (log2_bounds q Hq) as [Q1 Q2].
  pose proof (Z.log2_nonneg p). pose proof (Z.log2_nonneg q).
  assert (forall k, Qpower 2 (Z.log2 p - Z.log2 q + k)
           == inject_Z (2 ^ Z.log2 p) / inject_Z (2 ^ Z.log2 q) * Qpower 2 k) as E.
  { intros k. rewrite Qpower_plus by exact two_nz.
    rewrite Qpower_minus by exact two_nz. rewrite !qpow2_Z by lia. reflexivity. }
  pose proof (pow2_pos (Z.log2 p) ltac:(lia)). pose proof (pow2_pos (Z.log2 q) ltac:(lia)).
  set (a := (2 ^ Z.log2 p)%Z) in *. set (b := (2 ^ Z.log2 q)%Z) in *.
  split.
  - replace (Z.log2 p - Z.log2 q - 1)%Z with (Z.log2 p - Z.log2 q + (-1))%Z by lia.
    rewrite E. change (Qpower 2 (-1)) with (1#2).
    setoid_replace (inject_Z a / inject_Z b * (1 # 2)) with (inject_Z a / inject_Z (2 * b)).
    2:{ rewrite inject_Z_mult. field. apply inject_Z_nz. lia. }
    apply Qdiv_lt_iff; try lia. nia.
  - rewrite E. change (Qpower 2 1) with 2.
    setoid_replace (inject_Z a / inject_Z b * 2) with (inject_Z (2 * a) / inject_Z b).
    2:{ rewrite inject_Z_mult. field. apply inject_Z_nz. lia. }
    apply Qdiv_lt_iff; try lia. nia.
Qed.

Lemma div_ltb_Q n d k : (0 < d)%Z -> (n / d <? k)%Z = true <-> inject_Z n / inject_Z d < inject_Z k.
Proof.
  intros Hd. rewrite Z.ltb_lt.
  setoid_replace (inject_Z k) with (inject_Z k / inject_Z 1) by (unfold inject_Z at 3; field).
  rewrite Qdiv_lt_iff by lia. split; intros H.
  - pose proof (Z.div_mod n d ltac:(lia)). pose proof (Z.mod_pos_bound n d Hd). nia.
  - apply Z.div_lt_upper_bound; lia.
Qed.

(** The scaled value lies below 2^prec, and above 2^(prec-1) unless subnormal. *)
Lemma pick_e_spec F p q n d : format_valid F -> (0 < p)%Z -> (0 < q)%Z ->
  scale2 p q (pick_e F p q) = (n, d) ->
  (emin F <= pick_e F p q)%Z
  /\ (n < 2 ^ prec F * d)%Z
  /\ (2 ^ (prec F - 1) * d <= n \/ pick_e F p q = emin F)%Z.
Proof.
  intros [Hprec _] Hp Hq. unfold pick_e.
  set (k := (Z.log2 p - Z.log2 q)%Z).
  pose proof (xq_log p q Hp Hq) as [XL XU]. fold k in XL, XU.
  set (e0 := Z.max (emin F) (k - prec F)).
  destruct (scale2 p q e0) as [n0 d0] eqn:S0.
  destruct (scale2_Q _ _ _ _ _ Hp Hq S0) as (Hd0 & Hn0 & E0).
  fold (xq p q) in E0. pose proof (qpow2_pos e0) as Pe0.
  destruct (Z.ltb_spec (n0 / d0) (2 ^ prec F)) as [L|L]; intros S1.
  - rewrite S0 in S1. injection S1 as <- <-. split; [lia|]. split.
    + pose proof (Z.div_mod n0 d0 ltac:(lia)). pose proof (Z.mod_pos_bound n0 d0 Hd0). nia.
    + destruct (Z_le_gt_dec e0 (emin F)) as [G|G]; [right; lia|left].
      assert (e0 = k - prec F)%Z as Ee by lia.
      assert (inject_Z (2 ^ (prec F - 1)) / inject_Z 1 < inject_Z n0 / inject_Z d0) as HH.
      { setoid_replace (inject_Z (2 ^ (prec F - 1)) / inject_Z 1) with (inject_Z (2 ^ (prec F - 1)))
          by (unfold Qdiv; change (/ inject_Z 1) with (inject_Z 1); ring_simplify; reflexivity).
        rewrite <- qpow2_Z by lia.
        assert (Qpower 2 (prec F - 1) * Qpower 2 e0 < inject_Z n0 / inject_Z d0 * Qpower 2 e0) as G2.
        { rewrite <- E0, <- Qpower_plus by exact two_nz.
          replace (prec F - 1 + e0)%Z with (k - 1)%Z by lia. exact XL. }
        apply Qmult_lt_r in G2; [exact G2|exact Pe0]. }
      rewrite Qdiv_lt_iff in HH by lia. lia.
  - destruct (scale2_Q _ _ _ _ _ Hp Hq S1) as (Hd & Hn & E1). fold (xq p q) in E1.
    pose proof (qpow2_pos (e0 + 1)) as Pe1.
    split; [lia|]. split.
    + (* xq < 2^(k+1) <= 2^(prec + e0 + 1) *)
      assert (inject_Z n / inject_Z d < inject_Z (2 ^ prec F) / inject_Z 1) as HH.
      { setoid_replace (inject_Z (2 ^ prec F) / inject_Z 1) with (inject_Z (2 ^ prec F))
          by (unfold Qdiv; change (/ inject_Z 1) with (inject_Z 1); ring_simplify; reflexivity).
        rewrite <- qpow2_Z by lia.
        assert (inject_Z n / inject_Z d * Qpower 2 (e0 + 1) < Qpower 2 (prec F) * Qpower 2 (e0 + 1)) as G2.
        { rewrite <- E1, <- Qpower_plus by exact two_nz.
          eapply Qlt_le_trans; [exact XU|].
          replace (prec F + (e0 + 1))%Z with ((k + 1) + (prec F + e0 - k))%Z by lia.
          rewrite (Qpower_plus 2 (k + 1)) by exact two_nz.
          rewrite (qpow2_Z (prec F + e0 - k)) by lia.
          pose proof (qpow2_pos (k + 1)).
          assert (inject_Z 1 <= inject_Z (2 ^ (prec F + e0 - k))) as G3.
          { rewrite <- Zle_Qle. pose proof (pow2_pos (prec F + e0 - k) ltac:(lia)). lia. }
          change (inject_Z 1) with 1 in G3. nra. }
        apply Qmult_lt_r in G2; [exact G2|exact Pe1]. }
      rewrite Qdiv_lt_iff in HH by lia. lia.
    + left.
      (* n/d * 2 == n0/d0 >= 2^prec *)
      assert (inject_Z n0 / inject_Z d0 == inject_Z n / inject_Z d * 2) as HE.
      { rewrite E0 in E1. rewrite Qpower_plus in E1 by exact two_nz. change (Qpower 2 1) with 2 in E1.
        setoid_replace (inject_Z n / inject_Z d * (Qpower 2 e0 * 2))
          with (inject_Z n / inject_Z d * 2 * Qpower 2 e0) in E1 by ring.
        apply Qmult_inj_r in E1; [exact E1|]. lra. }
      assert (2 ^ prec F * d0 <= n0)%Z as G.
      { pose proof (Z.div_mod n0 d0 ltac:(lia)). pose proof (Z.mod_pos_bound n0 d0 Hd0). nia. }
      assert (n0 * d = 2 * n * d0)%Z as HZ.
      { pose proof (inject_Z_pos d Hd). pose proof (inject_Z_pos d0 Hd0).
        assert (inject_Z (n0 * d) == inject_Z (2 * n * d0)) as HQ.
        { rewrite !inject_Z_mult. change (inject_Z 2) with 2.
          setoid_replace (inject_Z n0) with (inject_Z n0 / inject_Z d0 * inject_Z d0) by (field; lra).
          rewrite HE. field. lra. }
        apply inject_Z_injective. exact HQ. }
      assert (2 ^ prec F = 2 * 2 ^ (prec F - 1))%Z as P2.
      { rewrite <- Z.pow_succ_r by lia. f_equal. lia. }
      nia.
Qed.

Lemma Qabs_scale a b c : 0 < c -> Qabs (a * c - b * c) == Qabs (a - b) * c.
Proof.
  intros H. setoid_replace (a * c - b * c) with ((a - b) * c) by ring.
  rewrite Qabs_Qmult, (Qabs_pos c) by lra. reflexivity.
Qed.

Lemma Qabs_frac n d k : (0 < d)%Z ->
  Qabs (inject_Z n / inject_Z d - inject_Z k) == inject_Z (Z.abs (n - k * d)) / inject_Z d.
Proof.
  intros Hd. pose proof (inject_Z_pos d Hd).
  setoid_replace (inject_Z n / inject_Z d - inject_Z k) with (inject_Z (n - k * d) / inject_Z d).
  2:{ unfold Z.sub. rewrite inject_Z_plus, inject_Z_opp, inject_Z_mult. field. lra. }
  unfold Qdiv. rewrite Qabs_Qmult. rewrite (Qabs_pos (/ inject_Z d)).
  2:{ apply Qlt_le_weak. apply Qinv_lt_0_compat. exact H. }
  reflexivity.
Qed.

(** Nearest integer, in Q. *)
Lemma rne_nearest_Q n d k : (0 < n)%Z -> (0 < d)%Z ->
  Qabs (inject_Z n / inject_Z d - inject_Z (rne n d)) <= Qabs (inject_Z n / inject_Z d - inject_Z k)
  /\ (Qabs (inject_Z n / inject_Z d - inject_Z (rne n d)) == Qabs (inject_Z n / inject_Z d - inject_Z k)
      -> k = rne n d \/ Z.even (rne n d) = true).
Proof.
  intros Hn Hd. destruct (rne_nearest n d ltac:(lia) Hd) as [_ H]. destruct (H k) as [H1 H2].
  rewrite !Qabs_frac by exact Hd. pose proof (inject_Z_pos d Hd) as Pd. split.
  - unfold Qdiv. apply Qmult_le_compat_r.
    + rewrite <- Zle_Qle. exact H1.
    + apply Qlt_le_weak. apply Qinv_lt_0_compat. exact Pd.
  - intros E. apply H2. apply inject_Z_injective.
    unfold Qdiv in E. apply Qmult_inj_r in E; [exact E|].
    pose proof (Qinv_lt_0_compat _ Pd). lra.
Qed.

Lemma fq_nonneg m e : (0 <= m)%Z -> 0 <= fq m e.
Proof.
  intros H. unfold fq. pose proof (qpow2_pos e).
  assert (0 <= inject_Z m) by (change 0 with (inject_Z 0); rewrite <- Zle_Qle; exact H). nra.
Qed.

Lemma fq_shift m e k : (0 <= k)%Z -> fq m (e + k) == fq (m * 2 ^ k) e.
Proof.
  intros H. unfold fq. rewrite Qpower_plus by exact two_nz.
  rewrite inject_Z_mult, (qpow2_Z k H). ring.
Qed.

Lemma fq_norm F e : (1 < prec F)%Z -> fq (2 ^ prec F) e == fq (2 ^ (prec F - 1)) (e + 1).
Proof.
  intros H. rewrite fq_shift by lia.
  replace (2 ^ (prec F - 1) * 2 ^ 1)%Z with (2 ^ prec F)%Z; [reflexivity|].
  rewrite <- Z.pow_add_r by lia. f_equal. lia.
Qed.

Lemma canon_lt F m e k : canon F m e = true -> (prec F + e <= k)%Z -> fq m e < Qpower 2 k.
Proof.
  intros H Hk. apply canon_spec in H as (Hm & _ & _). unfold fq.
  apply Qlt_le_trans with (inject_Z (2 ^ prec F) * Qpower 2 e).
  - apply Qmult_lt_r; [apply qpow2_pos|]. rewrite <- Zlt_Qlt. lia.
  - assert (0 <= prec F)%Z as Hp.
    { destruct (Z_le_gt_dec 0 (prec F)); [assumption|]. rewrite Z.pow_neg_r in Hm by lia. lia. }
    rewrite <- qpow2_Z by exact Hp. rewrite <- Qpower_plus by exact two_nz.
    apply Qpower_le_compat_l; [lia|]. discriminate.
Qed.

(** Distances to an integer multiple of the unit. *)
Theorem round_pos_nearest F p q m e : format_valid F -> (0 < p)%Z -> (0 < q)%Z ->
  round_pos F p q = Some (m, e) -> correctly_rounded F (xq p q) m e.
Proof.
  intros HF Hp Hq. pose proof HF as [Hprec Hemm].
  unfold round_pos. fold (pick_e F p q).
  set (k := (Z.log2 p - Z.log2 q)%Z).
  assert (forall (A : Type) (f : Z -> A),
    (let '(n0, d0) := scale2 p q (Z.max (emin F) (k - prec F)) in
     f (if (n0 / d0 <? 2 ^ prec F)%Z then Z.max (emin F) (k - prec F) else Z.max (emin F) (k - prec F) + 1)%Z)
    = f (pick_e F p q)) as X.
  { intros A f. unfold pick_e. fold k. destruct (scale2 p q (Z.max (emin F) (k - prec F))). reflexivity. }
  cbv zeta.
  rewrite (X _ (fun e => let '(n, d) := scale2 p q e in
     let '(m0, e0) := if (rne n d =? 2 ^ prec F)%Z then ((2 ^ (prec F - 1))%Z, (e + 1)%Z) else (rne n d, e) in
     if (emax F <? e0)%Z then None else Some (m0, e0))).
  clear X. set (e1 := pick_e F p q).
  destruct (scale2 p q e1) as [n d] eqn:S1.
  destruct (pick_e_spec F p q n d HF Hp Hq S1) as (HE1 & HE2 & HE3). fold e1 in HE1, HE3.
  destruct (scale2_Q _ _ _ _ _ Hp Hq S1) as (Hd & Hn & EX). fold (xq p q) in EX.
  destruct (rne_nearest n d ltac:(lia) Hd) as [R0 Rn].
  assert (rne n d <= 2 ^ prec F)%Z as Rmax.
  { destruct (Z_le_gt_dec (rne n d) (2 ^ prec F)) as [?|G]; [assumption|].
    destruct (Rn (2 ^ prec F)%Z) as [A _]. nia. }
  assert (2 ^ (prec F - 1) <= rne n d \/ e1 = emin F)%Z as Rmin.
  { destruct HE3 as [HE3|HE3]; [left|right; exact HE3].
    destruct (Z_le_gt_dec (2 ^ (prec F - 1)) (rne n d)) as [?|G]; [assumption|].
    destruct (Rn (2 ^ (prec F - 1))%Z) as [A _]. nia. }
  pose proof (pow2_pos (prec F - 1) ltac:(lia)) as PP.
  assert (2 ^ prec F = 2 * 2 ^ (prec F - 1))%Z as P2.
  { rewrite <- Z.pow_succ_r by lia. f_equal. lia. }
  intros Hres.
  (* the result as a multiple of the unit 2^e1 *)
  assert (fq m e == fq (rne n d) e1 /\ canon F m e = true
          /\ (Z.even (rne n d) = true -> Z.even m = true)) as (EV & Hc & HEven).
  { destruct (Z.eqb_spec (rne n d) (2 ^ prec F)) as [EQ|NE].
    - destruct (Z.ltb_spec (emax F) (e1 + 1)); [discriminate|]. injection Hres as <- <-.
      split; [|split].
      + rewrite EQ. symmetry. apply fq_norm. exact Hprec.
      + apply canon_spec. repeat split; try lia.
      + intros _. replace (prec F - 1)%Z with (Z.succ (prec F - 2)) by lia.
        rewrite Z.pow_succ_r by lia. rewrite Z.even_mul. reflexivity.
    - destruct (Z.ltb_spec (emax F) e1); [discriminate|]. injection Hres as <- <-.
      split; [reflexivity|]. split; [|auto].
      apply canon_spec. repeat split; try lia. }
  split; [exact Hc|]. intros m' e' Hc'.
  pose proof (qpow2_pos e1) as PE1.
  rewrite !EV, !EX.
  assert (forall z, Qabs (inject_Z n / inject_Z d * 2 ^ e1 - fq z e1)
            == Qabs (inject_Z n / inject_Z d - inject_Z z) * 2 ^ e1) as DZ.
  { intros z. unfold fq. apply Qabs_scale. exact PE1. }
  pose proof Hc' as Hc''. apply canon_spec in Hc'' as (Hm' & He' & _).
  destruct (Z_le_gt_dec e1 e') as [G|G].
  - (* multiples of the unit *)
    assert (fq m' e' == fq (m' * 2 ^ (e' - e1)) e1) as E2.
    { replace e' with (e1 + (e' - e1))%Z at 1 by lia. apply fq_shift. lia. }
    destruct (rne_nearest_Q n d (m' * 2 ^ (e' - e1)) Hn Hd) as [N1 N2].
    rewrite E2, !DZ. split.
    + apply Qmult_le_compat_r; [exact N1|lra].
    + intros HH. apply Qmult_inj_r in HH; [|lra].
      destruct (N2 HH) as [<-|Ev]; [left; reflexivity|right; auto].
  - (* finer numbers: all below 2^(prec-1) units, which is below x *)
    destruct HE3 as [HE3|HE3]; [|lia].
    destruct (rne_nearest_Q n d (2 ^ (prec F - 1)) Hn Hd) as [N1 N2].
    assert (fq m' e' < fq (2 ^ (prec F - 1)) e1) as LT.
    { unfold fq at 2. rewrite <- qpow2_Z by lia. rewrite <- Qpower_plus by exact two_nz.
      apply (canon_lt F); [exact Hc'|lia]. }
    assert (fq (2 ^ (prec F - 1)) e1 <= inject_Z n / inject_Z d * 2 ^ e1) as LE.
    { unfold fq. apply Qmult_le_compat_r; [|lra].
      apply Qle_shift_div_l; [apply inject_Z_pos; exact Hd|].
      rewrite <- inject_Z_mult, <- Zle_Qle. exact HE3. }
    assert (Qabs (inject_Z n / inject_Z d * 2 ^ e1 - fq (2 ^ (prec F - 1)) e1)
            < Qabs (inject_Z n / inject_Z d * 2 ^ e1 - fq m' e')) as L3.
    { rewrite !Qabs_pos by lra. lra. }
    assert (Qabs (inject_Z n / inject_Z d * 2 ^ e1 - fq (rne n d) e1)
            <= Qabs (inject_Z n / inject_Z d * 2 ^ e1 - fq (2 ^ (prec F - 1)) e1)) as L4.
    { rewrite !DZ. apply Qmult_le_compat_r; [exact N1|lra]. }
    split; [lra|]. intros HH. lra.
Qed.

(** Overflow exactly where IEEE 754 says so. *)
Theorem round_pos_overflow F p q : format_valid F -> (0 < p)%Z -> (0 < q)%Z ->
  round_pos F p q = None <-> overflows F (xq p q).
Proof.
  intros HF Hp Hq. pose proof HF as [Hprec Hemm].
  unfold round_pos, overflows.
  set (k := (Z.log2 p - Z.log2 q)%Z).
  assert (forall (A : Type) (f : Z -> A),
    (let '(n0, d0) := scale2 p q (Z.max (emin F) (k - prec F)) in
     f (if (n0 / d0 <? 2 ^ prec F)%Z then Z.max (emin F) (k - prec F) else Z.max (emin F) (k - prec F) + 1)%Z)
    = f (pick_e F p q)) as X.
  { intros A f. unfold pick_e. fold k. destruct (scale2 p q (Z.max (emin F) (k - prec F))). reflexivity. }
  cbv zeta.
  rewrite (X _ (fun e => let '(n, d) := scale2 p q e in
     let '(m0, e0) := if (rne n d =? 2 ^ prec F)%Z then ((2 ^ (prec F - 1))%Z, (e + 1)%Z) else (rne n d, e) in
     if (emax F <? e0)%Z then None else Some (m0, e0))).
  clear X. set (e1 := pick_e F p q).
  destruct (scale2 p q e1) as [n d] eqn:S1.
  destruct (pick_e_spec F p q n d HF Hp Hq S1) as (HE1 & HE2 & HE3). fold e1 in HE1, HE3.
  destruct (scale2_Q _ _ _ _ _ Hp Hq S1) as (Hd & Hn & EX). fold (xq p q) in EX.
  pose proof (pow2_pos (prec F - 1) ltac:(lia)) as PP.
  assert (2 ^ prec F = 2 * 2 ^ (prec F - 1))%Z as P2.
  { rewrite <- Z.pow_succ_r by lia. f_equal. lia. }
  pose proof (inject_Z_pos d Hd) as Pd. pose proof (qpow2_pos e1) as PE1.
  assert (inject_Z n / inject_Z d < inject_Z (2 ^ prec F)) as XU.
  { apply Qlt_shift_div_r; [exact Pd|]. rewrite <- inject_Z_mult, <- Zlt_Qlt. exact HE2. }
  (* rne reaches 2^prec exactly from half a unit below *)
  assert (rne n d = 2 ^ prec F <-> (2 * 2 ^ prec F - 1) * d <= 2 * n)%Z as RT.
  { destruct (rne_nearest n d ltac:(lia) Hd) as [R0 Rn]. split.
    - intros EQ. destruct (Rn (2 ^ prec F - 1)%Z) as [A _]. rewrite EQ in A. nia.
    - intros H. unfold rne.
      pose proof (Z.div_mod n d ltac:(lia)) as E. pose proof (Z.mod_pos_bound n d Hd) as M.
      assert (n / d = 2 ^ prec F - 1)%Z as Eq.
      { symmetry. apply (Z.div_unique_pos n d _ (n - (2 ^ prec F - 1) * d)); nia. }
      rewrite Eq in *. assert (d <= 2 * (n mod d))%Z by nia.
      destruct (Z.compare_spec (2 * (n mod d)) d); try lia.
      replace (Z.even (2 ^ prec F - 1)) with false; [lia|].
      rewrite P2, Z.even_sub, Z.even_mul. reflexivity. }
  assert (((inject_Z (2 ^ prec F) - (1 # 2)) * 2 ^ e1 <= xq p q) <-> ((2 * 2 ^ prec F - 1) * d <= 2 * n)%Z) as RQ.
  { rewrite EX. rewrite Qmult_le_r by exact PE1.
    setoid_replace (inject_Z (2 ^ prec F) - (1 # 2)) with (inject_Z (2 * 2 ^ prec F - 1) / inject_Z 2).
    2:{ unfold Z.sub. rewrite inject_Z_plus, inject_Z_mult. change (inject_Z 2) with 2.
        change (inject_Z (-(1))) with (-1). field. }
    split; intros H.
    - destruct (Z_le_gt_dec ((2 * 2 ^ prec F - 1) * d) (2 * n)) as [?|G]; [assumption|].
      assert (inject_Z n / inject_Z d < inject_Z (2 * 2 ^ prec F - 1) / inject_Z 2) as C.
      { apply Qdiv_lt_iff; lia. }
      lra.
    - apply Qnot_lt_le. intros C. rewrite Qdiv_lt_iff in C by lia; lia. }
  assert (forall a b : Z, (a <= b)%Z -> 2 ^ a <= 2 ^ b) as MONO.
  { intros a b H. apply Qpower_le_compat_l; [exact H|discriminate]. }
  assert (inject_Z (2 ^ prec F) >= 4) as P4.
  { assert (inject_Z 4 <= inject_Z (2 ^ prec F)) as H4; [|exact H4].
    rewrite <- Zle_Qle. change 4%Z with (2 ^ 2)%Z. apply Z.pow_le_mono_r; lia. }
  set (H0 := inject_Z (2 ^ prec F)) in *.
  destruct (Z.eqb_spec (rne n d) (2 ^ prec F)) as [EQ|NE].
  - apply RT in EQ. pose proof (proj2 RQ EQ) as EQ'.
    destruct (Z.ltb_spec (emax F) (e1 + 1)) as [L|L]; split; intros H; try reflexivity; try discriminate.
    + eapply Qle_trans; [|exact EQ'].
      assert (2 ^ emax F <= 2 ^ e1) by (apply MONO; lia). nra.
    + exfalso. (* x < 2^prec * 2^e1 = 2^(prec-1) * 2^(e1+1) < (2^prec - 1/2) 2^emax *)
      assert (2 ^ (e1 + 1) <= 2 ^ emax F) as M by (apply MONO; lia).
      rewrite Qpower_plus in M by exact two_nz. change (2 ^ 1) with 2 in M.
      assert (xq p q < H0 * 2 ^ e1) as XU'.
      { rewrite EX. apply Qmult_lt_r; assumption. }
      nra.
  - assert (~ (2 * 2 ^ prec F - 1) * d <= 2 * n)%Z as NE' by (intros C; apply NE, RT, C).
    assert (xq p q < (H0 - (1 # 2)) * 2 ^ e1) as XL.
    { apply Qnot_le_lt. intros C. apply NE', RQ, C. }
    destruct (Z.ltb_spec (emax F) e1) as [L|L]; split; intros H; try reflexivity; try discriminate.
    + (* e1 > emax >= emin: x >= 2^(prec-1) 2^e1 >= 2^prec 2^emax *)
      destruct HE3 as [HE3|HE3]; [|lia].
      assert (2 ^ (emax F + 1) <= 2 ^ e1) as M by (apply MONO; lia).
      rewrite Qpower_plus in M by exact two_nz. change (2 ^ 1) with 2 in M.
      assert (inject_Z (2 ^ (prec F - 1)) * 2 ^ e1 <= xq p q) as X3.
      { rewrite EX. apply Qmult_le_compat_r; [|lra].
        apply Qle_shift_div_l; [exact Pd|]. rewrite <- inject_Z_mult, <- Zle_Qle. exact HE3. }
      assert (H0 == 2 * inject_Z (2 ^ (prec F - 1))) as E2.
      { unfold H0. rewrite P2, inject_Z_mult. reflexivity. }
      pose proof (qpow2_pos (emax F)). nra.
    + exfalso. assert (2 ^ e1 <= 2 ^ emax F) as M by (apply MONO; lia). nra.
Qed.
