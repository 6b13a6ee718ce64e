(** The decimal that [shortest] finds: no decimal with a greater exponent, or
    with fewer digits, or with the same exponent and nearer, is read back. *)
From Coq Require Import QArith Qabs Qpower Lqa Qfield.
From Verif Require Import Base Strconv StrconvFacts SpecFloat RoundFacts FloatText RoundUnique.
Open Scope Q_scope.

(** What rounds to a number is an interval around it. *)
Lemma rounded_between F a b m e : correctly_rounded F a m e ->
  (a <= b /\ b <= fq m e) \/ (fq m e <= b /\ b <= a) -> correctly_rounded F b m e.
Proof.
  intros [Hc H] B. split; [exact Hc|]. intros m' e' Hc'. destruct (H m' e' Hc') as [D T]. clear H.
  set (v := fq m e) in *. set (v' := fq m' e') in *.
  assert (forall x, (0 <= x -> Qabs x == x) /\ (x <= 0 -> Qabs x == - x)) as A by (intros x; split; [apply Qabs_pos|apply Qabs_neg]).
  destruct B as [[B1 B2]|[B1 B2]].
  - pose proof (proj2 (A (a - v)) ltac:(lra)) as A1. pose proof (proj2 (A (b - v)) ltac:(lra)) as A2. rewrite A1 in *. rewrite A2 in *.
    destruct (Qlt_le_dec v' v) as [L|L].
    + destruct (Qlt_le_dec a v') as [La|La].
      { pose proof (proj2 (A (a - v')) ltac:(lra)) as A3. rewrite A3 in *. lra. }
      pose proof (proj1 (A (a - v')) ltac:(lra)) as A3. pose proof (proj1 (A (b - v')) ltac:(lra)) as A4. rewrite A3 in *. rewrite A4 in *.
      split; [lra|]. intros E. apply T. lra.
    + pose proof (proj2 (A (b - v')) ltac:(lra)) as A4. rewrite A4 in *. split; [lra|]. intros E. left. lra.
  - pose proof (proj1 (A (a - v)) ltac:(lra)) as A1. pose proof (proj1 (A (b - v)) ltac:(lra)) as A2. rewrite A1 in *. rewrite A2 in *.
    destruct (Qlt_le_dec v v') as [L|L].
    + destruct (Qlt_le_dec v' a) as [La|La].
      { pose proof (proj1 (A (a - v')) ltac:(lra)) as A3. rewrite A3 in *. lra. }
      pose proof (proj2 (A (a - v')) ltac:(lra)) as A3. pose proof (proj2 (A (b - v')) ltac:(lra)) as A4. rewrite A3 in *. rewrite A4 in *.
      split; [lra|]. intros E. apply T. lra.
    + pose proof (proj1 (A (b - v')) ltac:(lra)) as A4. rewrite A4 in *. split; [lra|]. intros E. left. lra.
Qed.

Lemma canon_no_overflow F m e : format_valid F -> canon F m e = true -> ~ overflows F (fq m e).
Proof.
  intros HF C O. unfold overflows in O. apply canon_spec in C as (Hm & He & _).
  assert (fq m e <= inject_Z (2 ^ prec F - 1) * Qpower 2 (emax F)) as L.
  { unfold fq. apply Qle_trans with (inject_Z (2 ^ prec F - 1) * Qpower 2 e)%Q.
    - apply Qmult_le_compat_r; [rewrite <- Zle_Qle; lia|apply Qlt_le_weak, qpow2_pos].
    - rewrite (Qmult_comm (inject_Z _)), (Qmult_comm (inject_Z _)). apply Qmult_le_compat_r; [|rewrite <- (Zle_Qle 0); lia].
      apply Qpower_le_compat_l; [lia|]. discriminate. }
  unfold Z.sub in L. rewrite inject_Z_plus in L. change (inject_Z (- (1))) with (- (1)) in L. pose proof (qpow2_pos (emax F)). nra.
Qed.

(** Read back as (m, e) *)
Definition rd (F : fformat) (m e c j : Z) : Prop := (0 < c)%Z /\ correctly_rounded F (decq c j) m e /\ ~ overflows F (decq c j).

Lemma rd_iff F m e c j : format_valid F -> rd F m e c j <-> reads_back F m e c j = true.
Proof.
  intros HF. rewrite reads_back_spec. unfold rd. split.
  - intros (Hc & R & O). split; [exact Hc|]. apply round_dec_complete; assumption.
  - intros (Hc & R). split; [exact Hc|]. split; [apply round_dec_nearest; assumption|].
    intros O. apply round_dec_overflow in O; [congruence|exact HF|exact Hc].
Qed.

Lemma rd_between F m e a i c j : format_valid F -> rd F m e a i -> (0 < c)%Z ->
  (decq a i <= decq c j /\ decq c j <= fq m e) \/ (fq m e <= decq c j /\ decq c j <= decq a i) -> rd F m e c j.
Proof.
  intros HF (Ha & R & O) Hc B. split; [exact Hc|]. split; [exact (rounded_between _ _ _ _ _ R B)|].
  intros O'. unfold overflows in *. destruct B as [[B1 B2]|[B1 B2]].
  - apply (canon_no_overflow F m e HF (proj1 R)). unfold overflows. lra.
  - apply O. lra.
Qed.

Lemma pow10q_pos j : 0 < Qpower 10 j. Proof. apply Qpower_0_lt. reflexivity. Qed.

(** The fraction of [dec_frac]. *)
Lemma dec_frac_value m e j n d : dec_frac m e j = (n, d) -> (0 < d)%Z /\ fq m e == inject_Z n / inject_Z d * Qpower 10 j.
Proof.
  unfold dec_frac. intros E.
  assert (X : exists p q, (if (0 <=? e)%Z then (m * 2 ^ e, 1) else (m, 2 ^ (- e)))%Z = (p, q) /\ (0 < q)%Z /\ fq m e == inject_Z p / inject_Z q).
  { destruct (Z.leb_spec 0 e) as [H|H].
    - exists (m * 2 ^ e)%Z, 1%Z. split; [reflexivity|]. split; [lia|]. rewrite fq_int by exact H. field.
    - exists m, (2 ^ (- e))%Z. split; [reflexivity|]. split; [apply pow2_pos; lia|]. unfold fq. rewrite <- qpow2_Z by lia. rewrite Qpower_opp. field. pose proof (qpow2_pos e). lra. }
  destruct X as (p & q & Ep & Hq & V). rewrite Ep in E. pose proof (inject_Z_pos q Hq) as Pq.
  destruct (Z.leb_spec 0 j) as [H|H]; injection E as <- <-.
  - pose proof (pow10_pos j H). split; [nia|]. rewrite V, inject_Z_mult, <- qpow10_Z by exact H. field. pose proof (pow10q_pos j). split; lra.
  - split; [exact Hq|]. rewrite V, inject_Z_mult, <- qpow10_Z by lia. rewrite Qpower_opp. field. pose proof (pow10q_pos j). split; lra.
Qed.

Lemma decq_le c c' j : (c <= c')%Z -> decq c j <= decq c' j.
Proof. intros H. unfold decq. apply Qmult_le_compat_r; [rewrite <- Zle_Qle; exact H|apply Qlt_le_weak, pow10q_pos]. Qed.

(** floor and ceiling *)
Lemma below_le n d c j v : (0 < d)%Z -> v == inject_Z n / inject_Z d * Qpower 10 j -> decq c j <= v <-> (c * d <= n)%Z.
Proof.
  intros Hd V. rewrite V. unfold decq. pose proof (inject_Z_pos d Hd) as Pd. rewrite (Qmult_le_r _ _ _ (pow10q_pos j)).
  rewrite Zle_Qle, inject_Z_mult. split; intros H.
  - apply (Qmult_le_compat_r _ _ (inject_Z d)) in H; [|lra]. setoid_replace (inject_Z n / inject_Z d * inject_Z d) with (inject_Z n) in H by (field; lra). exact H.
  - apply Qle_shift_div_l; assumption.
Qed.
Lemma above_le n d c j v : (0 < d)%Z -> v == inject_Z n / inject_Z d * Qpower 10 j -> v <= decq c j <-> (n <= c * d)%Z.
Proof.
  intros Hd V. rewrite V. unfold decq. pose proof (inject_Z_pos d Hd) as Pd. rewrite (Qmult_le_r _ _ _ (pow10q_pos j)).
  rewrite Zle_Qle, inject_Z_mult. split; intros H.
  - apply (Qmult_le_compat_r _ _ (inject_Z d)) in H; [|lra]. setoid_replace (inject_Z n / inject_Z d * inject_Z d) with (inject_Z n) in H by (field; lra). exact H.
  - apply Qle_shift_div_r; assumption.
Qed.

Lemma dist_scaled n d c j v : (0 < d)%Z -> v == inject_Z n / inject_Z d * Qpower 10 j ->
  Qabs (v - decq c j) == inject_Z (Z.abs (n - c * d)) * (Qpower 10 j / inject_Z d).
Proof.
  intros Hd V. pose proof (inject_Z_pos d Hd) as Pd. pose proof (pow10q_pos j) as Pj.
  assert (v - decq c j == inject_Z (n - c * d) * (Qpower 10 j / inject_Z d)) as E.
  { rewrite V. unfold decq, Z.sub. rewrite inject_Z_plus, inject_Z_opp, inject_Z_mult. field. lra. }
  assert (0 < Qpower 10 j / inject_Z d) as P. { apply Qlt_shift_div_l; lra. }
  rewrite E, Qabs_Qmult, (Qabs_pos (Qpower 10 j / inject_Z d)) by lra. unfold Qabs, inject_Z at 1. reflexivity.
Qed.

(** Invariant of the search: nothing with a greater exponent is read back. *)
Lemma shortest_search_best F fuel m e : format_valid F -> canon F m e = true -> (0 < m)%Z -> forall j d k,
  Z.of_nat fuel = (j - Z.min e 0 + 1)%Z -> (forall c i, rd F m e c i -> (i <= j)%Z) ->
  shortest_search F fuel m e j = (d, k) ->
  (forall c i, rd F m e c i -> (i <= k)%Z) /\ (forall c, rd F m e c k -> Qabs (fq m e - decq d k) <= Qabs (fq m e - decq c k)).
Proof.
  intros HF Hc Hm. induction fuel as [|fuel IH]; intros j d k Hf Inv.
  - exfalso. pose proof (exact_expansion F m e HF Hc Hm) as X.
    destruct (if (0 <=? e)%Z then ((m * 2 ^ e)%Z, 0%Z) else ((m * 5 ^ - e)%Z, e)) as [d' j'] eqn:E.
    assert (rd F m e d' j') as R by (apply rd_iff; [exact HF|]; apply reads_back_spec; exact X).
    apply Inv in R. destruct (Z.leb_spec 0 e); injection E as <- <-; lia.
  - cbn [shortest_search]. destruct (dec_frac m e j) as [nn dd] eqn:DF. destruct (dec_frac_value _ _ _ _ _ DF) as [Hd V].
    set (lo := (nn / dd)%Z). set (near := rne nn dd). set (far := if (near =? lo)%Z then (lo + 1)%Z else lo).
    assert (0 <= nn)%Z as Hn.
    { apply (proj1 (below_le nn dd 0 j (fq m e) Hd V)). unfold decq. change (inject_Z 0) with 0. rewrite Qmult_0_l. apply fq_nonneg. lia. }
    pose proof (Z.div_mod nn dd ltac:(lia)) as DM. pose proof (Z.mod_pos_bound nn dd Hd) as MB. fold lo in DM.
    destruct (rne_nearest nn dd Hn Hd) as [N0 NN]. fold near in N0, NN.
    assert (near = lo \/ near = lo + 1)%Z as NL.
    { unfold near, rne. fold lo. destruct (2 * (nn mod dd) ?= dd)%Z; [destruct (Z.even lo)| |]; auto. }
    assert (Lo : decq lo j <= fq m e) by (apply (below_le nn dd lo j _ Hd V); nia).
    assert (Hi : fq m e <= decq (lo + 1) j) by (apply (above_le nn dd _ j _ Hd V); nia).
    assert (0 <= lo)%Z as L0 by (apply Z.div_pos; lia).
    (* any c that is read back lies beyond one of the neighbours *)
    assert (Side : forall c, rd F m e c j -> (c <= lo /\ rd F m e lo j)%Z \/ (lo + 1 <= c /\ rd F m e (lo + 1) j)%Z).
    { intros c R. destruct (Z_le_gt_dec c lo) as [L|L]; [left|right]; (split; [lia|]); apply (rd_between F m e c j); try exact HF; try exact R.
      - destruct R. lia.
      - left. split; [apply decq_le; exact L|exact Lo].
      - destruct R. lia.
      - right. split; [exact Hi|apply decq_le; lia]. }
    destruct (reads_back F m e near j) eqn:R1.
    { intros [= <- <-]. split; [exact Inv|]. intros c _. rewrite !(dist_scaled nn dd _ j _ Hd V). apply Qmult_le_compat_r.
      - rewrite <- Zle_Qle. apply NN.
      - pose proof (inject_Z_pos dd Hd). pose proof (pow10q_pos j). apply Qlt_le_weak, Qlt_shift_div_l; lra. }
    assert (Nn : ~ rd F m e near j) by (rewrite rd_iff by exact HF; congruence).
    destruct (reads_back F m e far j) eqn:R2.
    { intros [= <- <-]. split; [exact Inv|]. intros c R. rewrite !(dist_scaled nn dd _ j _ Hd V). apply Qmult_le_compat_r.
      - rewrite <- Zle_Qle. unfold far in *. destruct (Side c R) as [[L R3]|[L R3]]; destruct (Z.eqb_spec near lo) as [E|E].
        + rewrite E in Nn. contradiction.
        + assert (c * dd <= lo * dd)%Z by nia. lia.
        + assert ((lo + 1) * dd <= c * dd)%Z by nia. lia.
        + destruct NL as [E'|E']; [contradiction|]. rewrite E' in Nn. contradiction.
      - pose proof (inject_Z_pos dd Hd). pose proof (pow10q_pos j). apply Qlt_le_weak, Qlt_shift_div_l; lra. }
    assert (Nf : ~ rd F m e far j) by (rewrite rd_iff by exact HF; congruence).
    apply IH; [lia|]. intros c i R. pose proof (Inv c i R) as L. destruct (Z.eq_dec i j) as [->|]; [exfalso|lia].
    unfold far in *. destruct (Z.eqb_spec near lo) as [E|E]; destruct (Side c R) as [[_ R3]|[_ R3]].
    + rewrite E in Nn. contradiction.
    + contradiction.
    + contradiction.
    + destruct NL as [E'|E']; [contradiction|]. rewrite E' in Nn. contradiction.
Qed.

(** ** The start of the search *)

Lemma fq_lt_log m e : (0 < m)%Z -> fq m e < Qpower 2 (Z.log2 m + e + 1).
Proof.
  intros Hm. pose proof (log2_bounds m Hm) as [_ L]. pose proof (Z.log2_nonneg m). unfold fq.
  replace (Z.log2 m + e + 1)%Z with (Z.log2 m + 1 + e)%Z by lia. rewrite (Qpower_plus _ (Z.log2 m + 1)) by exact two_nz.
  apply Qmult_lt_r; [apply qpow2_pos|]. rewrite qpow2_Z by lia. rewrite <- Zlt_Qlt. rewrite Z.pow_add_r by lia. lia.
Qed.

Lemma start_above m e : (0 < m)%Z -> fq m e < Qpower 10 (shortest_start m e).
Proof.
  intros Hm. eapply Qlt_le_trans; [apply fq_lt_log, Hm|]. unfold shortest_start. set (k := (Z.log2 m + e + 1)%Z).
  destruct (Z.leb_spec 0 k) as [H|H].
  - set (q := (k / 3)%Z). assert (0 <= q /\ k <= 3 * q + 3)%Z as [Hq Hk].
    { unfold q. pose proof (Z.div_mod k 3 ltac:(lia)). pose proof (Z.mod_pos_bound k 3 ltac:(lia)). split; [apply Z.div_pos; lia|lia]. }
    apply Qle_trans with (Qpower 2 (3 * (q + 1))); [apply Qpower_le_compat_l; [lia|discriminate]|].
    rewrite qpow2_Z, qpow10_Z by lia. rewrite <- Zle_Qle. rewrite Z.pow_mul_r by lia. apply Z.pow_le_mono_l. lia.
  - set (q := (k / 4)%Z). assert (q < 0 /\ k <= 4 * q + 3)%Z as [Hq Hk].
    { unfold q. pose proof (Z.div_mod k 4 ltac:(lia)). pose proof (Z.mod_pos_bound k 4 ltac:(lia)). split; [apply Z.div_lt_upper_bound; lia|lia]. }
    apply Qle_trans with (Qpower 2 (4 * q + 3)); [apply Qpower_le_compat_l; [lia|discriminate]|].
    remember (- q)%Z as s eqn:Es. replace q with (- s)%Z by lia. assert (0 < s)%Z by lia.
    replace (4 * - s + 3)%Z with (- (4 * s) + 3)%Z by lia. rewrite !Qpower_plus by (exact two_nz || exact ten_nz). rewrite !Qpower_opp.
    change (Qpower 2 3) with 8. change (Qpower 10 1) with 10. rewrite qpow2_Z, qpow10_Z by lia.
    pose proof (inject_Z_pos (2 ^ (4 * s)) (pow2_pos (4 * s) ltac:(lia))) as P2. pose proof (inject_Z_pos (10 ^ s) (pow10_pos s ltac:(lia))) as P10.
    assert (inject_Z (10 ^ s) <= inject_Z (2 ^ (4 * s))) as L.
    { rewrite <- Zle_Qle. rewrite Z.pow_mul_r by lia. apply Z.pow_le_mono_l. lia. }
    apply Qle_trans with (/ inject_Z (10 ^ s) * 8).
    + apply Qmult_le_compat_r; [|discriminate]. apply Qle_shift_inv_l; [exact P10|]. rewrite Qmult_comm.
      apply Qle_shift_div_r; [exact P2|]. lra.
    + pose proof (Qinv_lt_0_compat _ P10). lra.
Qed.

(** Only numbers below the double are rounded to a number. *)
Lemma rounded_double F x m e : format_valid F -> (0 < m)%Z -> correctly_rounded F x m e -> ~ overflows F x -> x < 2 * fq m e.
Proof.
  intros HF Hm R O. pose proof (proj1 R) as C. apply canon_spec in C as (Hp & He & Hn). destruct HF as [Hprec Hemin].
  destruct (Qlt_le_dec x (2 * fq m e)) as [L|L]; [exact L|exfalso].
  assert (Fp : 0 < fq m e) by (unfold fq; pose proof (qpow2_pos e); pose proof (inject_Z_pos m Hm); nra).
  assert (K : forall m' e', canon F m' e' = true -> fq m' e' == 2 * fq m e -> False).
  { intros m' e' C' E. destruct (proj2 R m' e' C') as [D _]. rewrite E in D.
    rewrite (Qabs_pos (x - fq m e)) in D by lra. rewrite (Qabs_pos (x - 2 * fq m e)) in D by lra. lra. }
  destruct (Z_lt_le_dec m (2 ^ (prec F - 1))) as [S|S].
  - assert (e = emin F) by lia. subst e. apply (K (2 * m)%Z (emin F)).
    + apply canon_spec. assert (2 ^ prec F = 2 * 2 ^ (prec F - 1))%Z by (rewrite <- Z.pow_succ_r by lia; f_equal; lia). repeat split; try lia; nia.
    + unfold fq. rewrite inject_Z_mult. change (inject_Z 2) with 2. ring.
  - destruct (Z_lt_le_dec e (emax F)) as [G|G].
    + apply (K m (e + 1)%Z).
      * apply canon_spec. repeat split; lia.
      * unfold fq. rewrite Qpower_plus by exact two_nz. change (Qpower 2 1) with 2. ring.
    + assert (e = emax F) by lia. subst e. apply O. unfold overflows.
      assert (inject_Z (2 ^ (prec F - 1)) <= inject_Z m) as Sm by (rewrite <- Zle_Qle; exact S).
      assert (inject_Z (2 ^ prec F) == 2 * inject_Z (2 ^ (prec F - 1))) as E2.
      { setoid_replace 2 with (inject_Z 2) by reflexivity. rewrite <- inject_Z_mult. apply inject_Z_injective. rewrite <- Z.pow_succ_r by lia. f_equal. lia. }
      unfold fq in L. pose proof (qpow2_pos (emax F)). rewrite E2. nra.
Qed.

Lemma start_inv F m e c i : format_valid F -> (0 < m)%Z -> rd F m e c i -> (i <= shortest_start m e)%Z.
Proof.
  intros HF Hm (Hc & R & O). destruct (Z_le_gt_dec i (shortest_start m e)) as [L|L]; [exact L|exfalso].
  pose proof (rounded_double F _ m e HF Hm R O) as D. pose proof (start_above m e Hm) as A. set (j := shortest_start m e) in *.
  assert (Qpower 10 (j + 1) <= decq c i) as B.
  { unfold decq. apply Qle_trans with (Qpower 10 i); [apply Qpower_le_compat_l; [lia|discriminate]|].
    rewrite <- (Qmult_1_l (Qpower 10 i)) at 1. apply Qmult_le_compat_r; [|apply Qlt_le_weak, pow10q_pos]. change 1 with (inject_Z 1). rewrite <- Zle_Qle. lia. }
  rewrite Qpower_plus in B by exact ten_nz. change (Qpower 10 1) with 10 in B. pose proof (pow10q_pos j). lra.
Qed.

Theorem shortest_best F m e d k : format_valid F -> canon F m e = true -> (0 < m)%Z -> shortest F m e = (d, k) ->
  rd F m e d k /\ (forall c i, rd F m e c i ->
    (i <= k)%Z /\ (forall n, (0 <= n)%Z -> (10 ^ n <= d)%Z -> (10 ^ n <= c)%Z) /\
    (i = k -> Qabs (fq m e - decq d k) <= Qabs (fq m e - decq c i))).
Proof.
  intros HF Hc Hm S. assert (Rd : rd F m e d k).
  { apply rd_iff; [exact HF|]. apply reads_back_spec. apply (shortest_reads F m e d k HF Hc Hm S). }
  split; [exact Rd|]. unfold shortest in S.
  assert (St : (Z.min e 0 <= shortest_start m e)%Z).
  { pose proof (exact_expansion F m e HF Hc Hm) as X.
    destruct (if (0 <=? e)%Z then ((m * 2 ^ e)%Z, 0%Z) else ((m * 5 ^ - e)%Z, e)) as [d' j'] eqn:E.
    assert (rd F m e d' j') as R by (apply rd_iff; [exact HF|]; apply reads_back_spec; exact X).
    apply (start_inv F m e d' j' HF Hm) in R. destruct (Z.leb_spec 0 e); injection E as <- <-; lia. }
  assert (Hf : Z.of_nat (Z.to_nat (shortest_start m e - Z.min e 0 + 1)) = (shortest_start m e - Z.min e 0 + 1)%Z) by (apply Z2Nat.id; lia).
  destruct (shortest_search_best F _ m e HF Hc Hm _ _ _ Hf (fun c i R => start_inv F m e c i HF Hm R) S) as [B N].
  intros c i R. pose proof (B c i R) as Li. split; [exact Li|]. split; [|intros ->; apply N, R].
  intros n Hn Ln. destruct (Z_le_gt_dec (10 ^ n) c) as [?|G]; [assumption|exfalso].
  assert (decq c i <= decq 1 (k + n)) as L1.
  { unfold decq. change (inject_Z 1) with 1. rewrite Qmult_1_l, Qpower_plus by exact ten_nz.
    apply Qle_trans with (inject_Z c * Qpower 10 k).
    - rewrite !(Qmult_comm (inject_Z c)). apply Qmult_le_compat_r; [apply Qpower_le_compat_l; [lia|discriminate]|]. destruct R. change 0 with (inject_Z 0). rewrite <- Zle_Qle. lia.
    - rewrite (Qmult_comm (Qpower 10 k)). apply Qmult_le_compat_r; [|apply Qlt_le_weak, pow10q_pos]. rewrite qpow10_Z by exact Hn. rewrite <- Zle_Qle. lia. }
  assert (decq 1 (k + n) <= decq d k) as L2.
  { unfold decq. change (inject_Z 1) with 1. rewrite Qmult_1_l, Qpower_plus by exact ten_nz.
    rewrite (Qmult_comm (Qpower 10 k)). apply Qmult_le_compat_r; [|apply Qlt_le_weak, pow10q_pos]. rewrite qpow10_Z by exact Hn. rewrite <- Zle_Qle. lia. }
  assert (rd F m e 1 (k + n)) as R1.
  { destruct (Qlt_le_dec (fq m e) (decq 1 (k + n))) as [V|V].
    - apply (rd_between F m e d k 1 (k + n) HF Rd); [lia|]. right. split; [lra|exact L2].
    - apply (rd_between F m e c i 1 (k + n) HF R); [lia|]. left. split; [exact L1|exact V]. }
  apply B in R1. assert (n = 0)%Z by lia. subst n. destruct R as [R _]. cbn in G. lia.
Qed.
