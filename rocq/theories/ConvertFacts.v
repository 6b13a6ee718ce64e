(** The conversion table names at most one value, and the model's conversions
    agree with it. *)
From Coq Require Import QArith Qpower Qabs Lia ZArith Lqa.
From Verif Require Import Base Strconv SpecFloat StrconvFacts RoundFacts FloatText RoundUnique Json SpecJson SpecRFC SpecScalar RfcFacts PrintFacts2
  ParserFacts2 Access ScalarFacts Gotypes Marshal JErrors Unmarshal FloatWidth SpecConvert.
Open Scope Z_scope.

(** ** Low bits *)

Lemma int_width_pos b : int_width b -> 1 <= b <= 64.
Proof. cbn. intuition lia. Qed.

Lemma low_bits_unique k z x y : low_bits k z x -> low_bits k z y -> int_kind k -> x = y.
Proof.
  destruct k as [b|b]; intros [Hx [p Ep]] [Hy [q Eq]] K; pose proof (int_width_pos b K) as W.
  - assert (2 ^ b = 2 * 2 ^ (b - 1)) as E by (rewrite <- Z.pow_succ_r by lia; f_equal; lia). assert (p = q) by nia. subst. lia.
  - assert (p = q) by nia. subst. lia.
Qed.

Lemma wrap_low_bits k z : int_kind k -> low_bits k z (wrap k z).
Proof.
  destruct k as [b|b]; intros K; pose proof (int_width_pos b K) as W; cbn [low_bits wrap].
  - assert (2 ^ b = 2 * 2 ^ (b - 1)) as E by (rewrite <- Z.pow_succ_r by lia; f_equal; lia).
    assert (0 < 2 ^ b) as P by (apply pow2_pos; lia).
    pose proof (Z.mod_pos_bound (z + 2 ^ (b - 1)) (2 ^ b) P) as B. split; [lia|]. exists ((z + 2 ^ (b - 1)) / 2 ^ b).
    pose proof (Z.div_mod (z + 2 ^ (b - 1)) (2 ^ b) ltac:(lia)). lia.
  - assert (0 < 2 ^ b) as P by (apply pow2_pos; lia). split; [apply Z.mod_pos_bound; exact P|]. exists (z / 2 ^ b).
    pose proof (Z.div_mod z (2 ^ b) ltac:(lia)). lia.
Qed.

Lemma wrap_twice b z : int_width b -> wrap (Unsigned b) (wrap (Unsigned 64) z) = wrap (Unsigned b) z.
Proof.
  intros K. pose proof (int_width_pos b K) as W. cbn [wrap]. symmetry. apply Znumtheory.Zmod_div_mod; try (apply pow2_pos; lia).
  exists (2 ^ (64 - b)). rewrite <- Z.pow_add_r by lia. f_equal. lia.
Qed.

(** ** Floats *)

Lemma rounds_unique F neg x f g : format_valid F -> rounds F neg x f -> rounds F neg x g -> f = g.
Proof.
  intros HF [[A ->]|[(A & O & ->)|(A & O & m & e & -> & R)]] [[A' ->]|[(A' & O' & ->)|(A' & O' & m' & e' & -> & R')]]; try reflexivity; try contradiction;
    try (exfalso; rewrite ?A, ?A' in *; lra).
  destruct (correctly_rounded_unique F x m e m' e' HF R R') as [-> ->]. reflexivity.
Qed.

Lemma widens_unique f g h : widens f g -> widens f h -> g = h.
Proof.
  destruct f as [|neg|neg m e]; cbn [widens]; [congruence..|]. intros (m1 & e1 & -> & C1 & E1) (m2 & e2 & -> & C2 & E2).
  destruct (canon_fq_inj F64 m1 e1 m2 e2 F64_valid C1 C2) as [-> ->]; [rewrite E1, E2; reflexivity|reflexivity].
Qed.

Lemma narrows_unique f g h : narrows f g -> narrows f h -> g = h.
Proof.
  destruct f as [|neg|neg m e]; cbn [narrows]; [congruence..|]. intros (h1 & R1 & W1) (h2 & R2 & W2).
  rewrite (rounds_unique F32 neg _ h1 h2 F32_valid R1 R2) in W1. eapply widens_unique; eassumption.
Qed.

Lemma fits_width_set bit g f : fl_ok F64 g = true -> fits_width bit g f -> f = set_float bit g.
Proof.
  intros Ok [[-> ->]|[-> N]]; [reflexivity|]. eapply narrows_unique; [exact N|]. apply set_float32. exact Ok.
Qed.

Lemma float_of_int_rounds z : rounds F64 (z <? 0) (inject_Z (Z.abs z)) (float_of_int z).
Proof.
  unfold float_of_int. destruct (Z.eqb_spec z 0) as [->|N]; [left; split; reflexivity|].
  assert (X : (xq (Z.abs z) 1 == inject_Z (Z.abs z))%Q) by (unfold xq; field).
  assert (P : (0 < inject_Z (Z.abs z))%Q) by (apply inject_Z_pos; lia). right.
  destruct (round_pos F64 (Z.abs z) 1) as [[m e]|] eqn:E.
  - right. split; [exact P|]. split.
    + intros O. assert (round_pos F64 (Z.abs z) 1 = None); [|congruence]. apply round_pos_overflow; [exact F64_valid|lia|lia|]. unfold overflows in *. rewrite X. exact O.
    + exists m, e. split; [reflexivity|]. eapply correctly_rounded_eq; [exact X|]. apply round_pos_nearest; [exact F64_valid|lia|lia|exact E].
  - left. split; [exact P|]. split; [|reflexivity]. apply round_pos_overflow in E; [|exact F64_valid|lia|lia]. unfold overflows in *. rewrite X in E. exact E.
Qed.

Lemma rounds_fl_ok neg x f : rounds F64 neg x f -> fl_ok F64 f = true.
Proof. intros R. eapply rounds_ok; [exact R|reflexivity]. Qed.

(** ** Truncation *)

Lemma fq_neg_exp m e : e < 0 -> (fq m e == inject_Z m / inject_Z (2 ^ (- e)))%Q.
Proof.
  intros H. unfold fq. rewrite <- qpow2_Z by lia. replace e with (- - e) at 1 by lia. rewrite Qpower_opp. reflexivity.
Qed.

Lemma truncates_f2i f z : truncates f z -> f2i f = z.
Proof.
  intros (neg & m & e & a & -> & Hm & [L U] & -> & R). cbn [f2i].
  assert (A : (if 0 <=? e then m * 2 ^ e else m / 2 ^ (- e)) = a).
  { destruct (Z.leb_spec 0 e) as [H|H].
    - rewrite fq_int in L, U by exact H. rewrite <- Zle_Qle in L. rewrite <- Zlt_Qlt in U. lia.
    - rewrite fq_neg_exp in L, U by exact H. pose proof (pow2_pos (- e) ltac:(lia)) as P.
      assert (P' : (0 < inject_Z (2 ^ (- e)))%Q) by (apply inject_Z_pos; exact P).
      apply (Qmult_le_compat_r _ _ (inject_Z (2 ^ (- e)))) in L; [|lra]. apply (Qmult_lt_r _ _ (inject_Z (2 ^ (- e))) P') in U.
      unfold Qdiv in L, U. rewrite <- Qmult_assoc, (Qmult_comm (/ _)), Qmult_inv_r, Qmult_1_r in L, U by lra.
      rewrite <- inject_Z_mult in L, U. rewrite <- Zle_Qle in L. rewrite <- Zlt_Qlt in U. symmetry. apply Z.div_unique with (m - 2 ^ (- e) * a); [left; nia|lia]. }
  rewrite A. replace (in_int64 (if neg then - a else a)) with true; [reflexivity|]. symmetry. apply in_int64_spec. exact R.
Qed.

(** ** Decimal texts *)

Lemma dec_snoc s c : dec_value (s ++ [c]) = dec_value s * 10 + (bz c - 48).
Proof. unfold dec_value. rewrite fold_left_app. reflexivity. Qed.

Lemma dec_inj : forall s t, length s = length t -> Forall digit s -> Forall digit t -> dec_value s = dec_value t -> s = t.
Proof.
  induction s as [|c s IH] using rev_ind; intros t Hl Hs Ht E.
  - destruct t; [reflexivity|discriminate].
  - destruct t as [|d t _] using rev_ind; [rewrite app_length in Hl; cbn in Hl; lia|].
    rewrite !app_length in Hl. cbn in Hl. apply Forall_app in Hs as [Hs Hc]. apply Forall_app in Ht as [Ht Hd].
    rewrite !dec_snoc in E. inversion Hc as [|? ? Dc _]; subst. inversion Hd as [|? ? Dd _]; subst. unfold digit in Dc, Dd.
    assert (dec_value s = dec_value t /\ bz c = bz d) as [E1 E2] by lia. rewrite (IH t ltac:(lia) Hs Ht E1). f_equal. f_equal. apply bz_inj. exact E2.
Qed.

Lemma dec_bound : forall s, Forall digit s -> 0 <= dec_value s < 10 ^ Z.of_nat (length s).
Proof.
  induction s as [|c s IH] using rev_ind; intros H; [cbn; lia|]. apply Forall_app in H as [H Hc]. inversion Hc as [|? ? Dc _]; subst. unfold digit in Dc.
  rewrite dec_snoc, app_length, Nat2Z.inj_add, Z.pow_add_r by lia. cbn [length]. change (10 ^ Z.of_nat 1) with 10. specialize (IH H). lia.
Qed.

Lemma dec_cons c s : dec_value (c :: s) = (bz c - 48) * 10 ^ Z.of_nat (length s) + dec_value s.
Proof.
  induction s as [|d s IH] using rev_ind; [unfold dec_value; cbn; lia|].
  rewrite app_comm_cons, !dec_snoc, IH, app_length, Nat2Z.inj_add, Z.pow_add_r by lia. cbn [length]. change (10 ^ Z.of_nat 1) with 10. lia.
Qed.

Lemma rfc_int_length s : rfc_int s -> s = ["0"%byte] \/ 10 ^ Z.of_nat (length s - 1) <= dec_value s.
Proof.
  intros [[N D] [H|H]]; [left; exact H|right]. destruct s as [|c s]; [congruence|]. inversion D as [|? ? Dc Ds]; subst. cbn [hd] in H.
  rewrite dec_cons. cbn [length]. replace (Datatypes.S (length s) - 1)%nat with (length s) by lia. pose proof (dec_bound s Ds). unfold digit in Dc.
  assert (bz c <> 48) by (intros X; apply H, bz_inj; rewrite X; reflexivity).
  assert (0 < 10 ^ Z.of_nat (length s)) by (apply Z.pow_pos_nonneg; lia). nia.
Qed.

Lemma rfc_int_unique s t : rfc_int s -> rfc_int t -> dec_value s = dec_value t -> s = t.
Proof.
  intros Hs Ht E. pose proof (proj1 Hs) as [Ns Ds]. pose proof (proj1 Ht) as [Nt Dt].
  pose proof (dec_bound s Ds) as Bs. pose proof (dec_bound t Dt) as Bt.
  destruct (rfc_int_length s Hs) as [->|Ls]; destruct (rfc_int_length t Ht) as [->|Lt]; [reflexivity|exfalso..|].
  - change (dec_value ["0"%byte]) with 0 in E. assert (0 < 10 ^ Z.of_nat (length t - 1)) by (apply Z.pow_pos_nonneg; lia). lia.
  - change (dec_value ["0"%byte]) with 0 in E. assert (0 < 10 ^ Z.of_nat (length s - 1)) by (apply Z.pow_pos_nonneg; lia). lia.
  - apply dec_inj; try assumption. destruct s as [|c s]; [congruence|]. destruct t as [|d t]; [congruence|]. cbn [length] in *.
    replace (Datatypes.S (length s) - 1)%nat with (length s) in Ls by lia. replace (Datatypes.S (length t) - 1)%nat with (length t) in Lt by lia.
    assert (10 ^ Z.of_nat (length s) < 10 ^ Z.of_nat (Datatypes.S (length t))) as A by lia. assert (10 ^ Z.of_nat (length t) < 10 ^ Z.of_nat (Datatypes.S (length s))) as A' by lia.
    apply Z.pow_lt_mono_r_iff in A; [|lia|lia]. apply Z.pow_lt_mono_r_iff in A'; [|lia|lia]. lia.
Qed.

Lemma format_uint_of ip : rfc_int ip -> format_uint (dec_value ip) = ip.
Proof.
  intros H. pose proof (dec_value_nonneg ip (proj2 (proj1 H))) as P. destruct (format_uint_rfc (dec_value ip) P) as [H2 E].
  apply rfc_int_unique; assumption.
Qed.

Lemma decimal_text_format s z : decimal_text s z -> format_int z = s.
Proof.
  intros (ip & Hi & [[-> ->]|(-> & -> & N)]); pose proof (dec_value_nonneg ip (proj2 (proj1 Hi))) as P; unfold format_int.
  - destruct (Z.ltb_spec (dec_value ip) 0); [lia|]. apply format_uint_of. exact Hi.
  - destruct (Z.ltb_spec (- dec_value ip) 0); [|lia]. rewrite Z.opp_involutive. f_equal. apply format_uint_of. exact Hi.
Qed.

Lemma format_decimal_text z : decimal_text (format_int z) z.
Proof.
  unfold decimal_text, format_int. destruct (Z.ltb_spec z 0) as [H|H].
  - destruct (format_uint_rfc (- z) ltac:(lia)) as [R E]. exists (format_uint (- z)). split; [exact R|]. right. rewrite E. split; [reflexivity|lia].
  - destruct (format_uint_rfc z ltac:(lia)) as [R E]. exists (format_uint z). split; [exact R|]. left. rewrite E. split; reflexivity.
Qed.

(** ** Six decimals *)

Definition near (x : Q) (n : Z) : Prop := forall k,
  (Qabs (x - inject_Z n) <= Qabs (x - inject_Z k))%Q /\ ((Qabs (x - inject_Z n) == Qabs (x - inject_Z k))%Q -> k = n \/ Z.even n = true).

Lemma near_unique x n n' : near x n -> near x n' -> n = n'.
Proof.
  intros H H'. destruct (H n') as [A B]. destruct (H' n) as [A' B']. assert (E : (Qabs (x - inject_Z n) == Qabs (x - inject_Z n'))%Q) by (apply Qle_antisym; assumption).
  destruct (B E) as [->|En]; [reflexivity|]. destruct (B' ltac:(symmetry; exact E)) as [->|En']; [reflexivity|].
  destruct (Z.eq_dec n n') as [|N]; [assumption|exfalso].
  assert (G : forall a b, a < b -> Z.even a = true -> Z.even b = true -> near x a -> (Qabs (x - inject_Z a) == Qabs (x - inject_Z b))%Q -> False).
  { clear. intros a b L Ea Eb Ha E. assert (a + 2 <= b) as L2. { destruct (Z.eq_dec b (a + 1)) as [->|]; [|lia]. rewrite Z.even_add in Eb. rewrite Ea in Eb. discriminate. }
    assert (Q1 : (inject_Z a + 2 <= inject_Z b)%Q) by (change 2%Q with (inject_Z 2); rewrite <- inject_Z_plus, <- Zle_Qle; exact L2).
    assert (Q2 : (x - inject_Z a == inject_Z b - x)%Q).
    { destruct (Qlt_le_dec (x - inject_Z a) 0) as [A1|A1]; destruct (Qlt_le_dec (x - inject_Z b) 0) as [A2|A2]; rewrite ?(Qabs_neg (x - inject_Z a)), ?(Qabs_neg (x - inject_Z b)), ?(Qabs_pos (x - inject_Z a)), ?(Qabs_pos (x - inject_Z b)) in E by lra; lra. }
    destruct (Ha (a + 1)) as [C _]. rewrite inject_Z_plus in C. change (inject_Z 1) with 1%Q in C.
    rewrite (Qabs_pos (x - inject_Z a)), (Qabs_pos (x - (inject_Z a + 1))) in C by lra. lra. }
  destruct (Z.lt_trichotomy n n') as [L|[L|L]]; [exact (G n n' L En En' H E)|congruence|exact (G n' n L En' En H' ltac:(symmetry; exact E))].
Qed.

Lemma rne_near n d : 0 <= n -> 0 < d -> near (inject_Z n / inject_Z d) (rne n d).
Proof.
  intros Hn Hd k. destruct (rne_nearest n d Hn Hd) as [_ H]. destruct (H k) as [H1 H2].
  rewrite !Qabs_frac by exact Hd. assert (P : (0 < inject_Z d)%Q) by (apply inject_Z_pos; exact Hd). split.
  - apply Qmult_le_compat_r; [rewrite <- Zle_Qle; exact H1|apply Qinv_le_0_compat; lra].
  - intros E. apply H2. apply Qmult_inj_r in E; [|intros Z0; assert (X : (inject_Z d * / inject_Z d == 1)%Q) by (apply Qmult_inv_r; lra); rewrite Z0 in X; lra].
    rewrite <- inject_Z_injective. exact E.
Qed.

Lemma dec_zeros k s : dec_value (repeat "0"%byte k ++ s) = dec_value s.
Proof.
  induction s as [|c s IH] using rev_ind.
  - rewrite app_nil_r. induction k as [|k IH]; [reflexivity|]. cbn [repeat]. rewrite dec_cons, IH. change (bz "0"%byte - 48) with 0. lia.
  - rewrite app_assoc, !dec_snoc, IH. reflexivity.
Qed.

Lemma digits_zeros k : Forall digit (repeat "0"%byte k).
Proof. induction k; constructor; [vm_compute; split; discriminate|assumption]. Qed.

Lemma pad7_spec n : 0 <= n -> Forall digit (pad7 (format_uint n)) /\ dec_value (pad7 (format_uint n)) = n /\ (7 <= length (pad7 (format_uint n)))%nat
  /\ ((length (pad7 (format_uint n)) = 7)%nat \/ hd x00 (pad7 (format_uint n)) <> "0"%byte).
Proof.
  intros Hn. destruct (format_uint_rfc n Hn) as [[[N D] Z0] E]. unfold pad7, zeros. set (s := format_uint n) in *.
  split; [apply Forall_app; split; [apply digits_zeros|exact D]|]. split; [rewrite dec_zeros; exact E|]. rewrite app_length, repeat_length.
  split; [lia|]. destruct (Z_lt_ge_dec 7 (Z.of_nat (length s))) as [L|L]; [|left; lia]. right.
  replace (Z.to_nat (7 - Z.of_nat (length s))) with 0%nat by lia. cbn [repeat app].
  destruct Z0 as [->|Z0]; [cbn in L; lia|exact Z0].
Qed.

Definition six (f : fl) : Z :=
  match f with FFin _ m e => if 0 <=? e then m * 2 ^ e * 10 ^ 6 else rne (m * 10 ^ 6) (2 ^ (- e)) | _ => 0 end.

Lemma six_near neg m e : 0 <= m -> 0 <= six (FFin neg m e) /\ near (fq m e * inject_Z (10 ^ 6)) (six (FFin neg m e)).
Proof.
  intros Hm. cbn [six]. destruct (Z.leb_spec 0 e) as [H|H].
  - pose proof (pow2_pos e H). split; [nia|].
    assert (E : (fq m e * inject_Z (10 ^ 6) == inject_Z (m * 2 ^ e * 10 ^ 6))%Q) by (rewrite fq_int by exact H; rewrite <- inject_Z_mult; reflexivity).
    intros k. rewrite E. setoid_replace (inject_Z (m * 2 ^ e * 10 ^ 6) - inject_Z (m * 2 ^ e * 10 ^ 6))%Q with 0%Q by ring. change (Qabs 0) with 0%Q.
    split; [apply Qabs_nonneg|]. intros X. left. symmetry in X.
    assert (Y : (inject_Z (m * 2 ^ e * 10 ^ 6) - inject_Z k == 0)%Q).
    { destruct (Qlt_le_dec (inject_Z (m * 2 ^ e * 10 ^ 6) - inject_Z k) 0) as [A|A]; [rewrite Qabs_neg in X by lra|rewrite Qabs_pos in X by lra]; lra. }
    apply inject_Z_injective. lra.
  - pose proof (pow2_pos (- e) ltac:(lia)) as P. destruct (rne_nearest (m * 10 ^ 6) (2 ^ (- e)) ltac:(lia) P) as [R0 _]. split; [exact R0|].
    assert (E : (fq m e * inject_Z (10 ^ 6) == inject_Z (m * 10 ^ 6) / inject_Z (2 ^ (- e)))%Q).
    { rewrite fq_neg_exp by exact H. rewrite inject_Z_mult. field. apply inject_Z_nz. exact P. }
    intros k. rewrite E. apply rne_near; lia.
Qed.

Lemma format_f6_six neg m e : format_f6 (FFin neg m e) =
  (if neg then ["-"%byte] else []) ++ firstn (length (pad7 (format_uint (six (FFin neg m e)))) - 6) (pad7 (format_uint (six (FFin neg m e))))
    ++ "."%byte :: skipn (length (pad7 (format_uint (six (FFin neg m e)))) - 6) (pad7 (format_uint (six (FFin neg m e)))).
Proof. reflexivity. Qed.

Lemma format_f6_decimals f : fl_ok F64 f = true -> six_decimals f (format_f6 f).
Proof.
  destruct f as [|[]|neg m e]; intros Ok; [reflexivity..|]. cbn [six_decimals].
  assert (Hm : 0 <= m) by (cbn in Ok; unfold canon in Ok; rewrite !andb_true_iff, !Z.leb_le in Ok; lia).
  destruct (six_near neg m e Hm) as [H0 Hn]. rewrite format_f6_six. set (n := six (FFin neg m e)) in *.
  destruct (pad7_spec n H0) as (D & E & L & Z0). set (d := pad7 (format_uint n)) in *.
  exists n, (firstn (length d - 6) d), (skipn (length d - 6) d).
  assert (Lf : length (firstn (length d - 6) d) = (length d - 6)%nat) by (rewrite firstn_length; lia).
  assert (Ls : length (skipn (length d - 6) d) = 6%nat) by (rewrite skipn_length; lia).
  pose proof D as D'. rewrite <- (firstn_skipn (length d - 6) d) in D'. apply Forall_app in D' as [D1 D2].
  split; [reflexivity|]. split.
  { split; [split; [destruct (firstn (length d - 6) d); [cbn in Lf; lia|discriminate]|exact D1]|].
    destruct Z0 as [Z0|Z0].
    - rewrite Z0 in *. cbn [Nat.sub] in *. destruct d as [|c d]; [discriminate|]. cbn [firstn]. destruct (beq_spec c "0"%byte) as [->|N]; [left; reflexivity|right; exact N].
    - right. destruct d as [|c d]; [cbn in L; lia|]. destruct (length (c :: d) - 6)%nat eqn:X; [cbn [length] in *; lia|]. exact Z0. }
  split; [split; [intros X; rewrite X in Ls; discriminate|exact D2]|]. split; [exact Ls|]. split; [rewrite firstn_skipn; exact E|]. exact Hn.
Qed.

Lemma six_decimals_format f s : fl_ok F64 f = true -> six_decimals f s -> format_f6 f = s.
Proof.
  destruct f as [|[]|neg m e]; intros Ok; cbn [six_decimals]; [intros ->; reflexivity..|]. intros (n & ds & fs & -> & Rd & [Nf Df] & Lf & E & Hn).
  assert (Hm : 0 <= m) by (cbn in Ok; unfold canon in Ok; rewrite !andb_true_iff, !Z.leb_le in Ok; lia).
  destruct (six_near neg m e Hm) as [H0 Hn']. rewrite format_f6_six. rewrite (near_unique _ _ n Hn' Hn) in *.
  assert (X : pad7 (format_uint n) = ds ++ fs).
  { pose proof Rd as [[Nd Dd] Zd]. destruct Zd as [->|Zd].
    - destruct (pad7_spec n H0) as (D & Ev & L & _).
      assert (B : n < 10 ^ 6). { rewrite <- E. rewrite <- app_comm_cons, dec_cons. change (bz "0"%byte - 48) with 0. pose proof (dec_bound fs Df) as B. rewrite Lf in B. change (Z.of_nat 6) with 6 in B. cbn [app]. lia. }
      apply dec_inj; [|exact D|constructor; [vm_compute; split; discriminate|exact Df]|rewrite Ev, E; reflexivity].
      unfold pad7, zeros. rewrite app_length, repeat_length. cbn [app length]. rewrite Lf.
      assert (length (format_uint n) <= 6)%nat; [|lia]. destruct (format_uint_rfc n H0) as [R Ed]. destruct (rfc_int_length _ R) as [->|G]; [cbn; lia|].
      rewrite Ed in G. assert (10 ^ Z.of_nat (length (format_uint n) - 1) < 10 ^ 6) as G' by lia. apply Z.pow_lt_mono_r_iff in G'; lia.
    - assert (R : rfc_int (ds ++ fs)).
      { split; [split; [destruct ds; [congruence|discriminate]|apply Forall_app; split; assumption]|]. right. destruct ds as [|c ds]; [congruence|exact Zd]. }
      rewrite <- E. unfold pad7, zeros. rewrite (format_uint_of _ R), app_length, Lf.
      destruct ds as [|c ds]; [congruence|]. cbn [length]. replace (Z.to_nat (7 - Z.of_nat (Datatypes.S (length ds) + 6))) with 0%nat by lia. reflexivity. }
  rewrite X, app_length, Lf. replace (length ds + 6 - 6)%nat with (length ds) by lia.
  rewrite firstn_app, skipn_app, firstn_all, skipn_all, Nat.sub_diag. cbn [firstn skipn app]. rewrite app_nil_r. reflexivity.
Qed.

(** ** Words *)

Lemma lowerb_id_digit (b : byte) c : ~ (97 <= bz c <= 122) -> ~ (65 <= bz c <= 90) -> lowerb b = c <-> b = c.
Proof.
  intros N1 N2. unfold lowerb. destruct ((65 <=? bz b) && (bz b <=? 90)) eqn:E; [|reflexivity]. apply andb_prop in E as [E1 E2]. apply Z.leb_le in E1, E2.
  split; intros X; [|subst; lia]. subst c. exfalso. apply N1. rewrite bz_zb by lia. lia.
Qed.

Lemma lowers_word w : Forall (fun c => 97 <= bz c <= 122) w -> forall s, lowers s = w <-> in_case s w.
Proof.
  induction 1 as [|c w Hc Hw IH]; intros s; unfold in_case.
  - split; intros X; [destruct s; [constructor|discriminate]|inversion X; reflexivity].
  - split; intros X.
    + destruct s as [|b s]; [discriminate|]. cbn [lowers map] in X. injection X as X1 X2. constructor; [|apply IH; exact X2].
      apply (lowerb_spec b c Hc) in X1 as [X1|X1]; [left; exact X1|right; split; assumption].
    + inversion X as [|b ? s' ? Hb Hs]; subst. cbn [lowers map]. f_equal; [|apply IH; exact Hs]. apply lowerb_spec; [exact Hc|]. destruct Hb as [->|[_ Hb]]; auto.
Qed.

Lemma says_yes_iff s : says_yes s = true <-> yes_word s.
Proof.
  unfold says_yes, yes_word. cbv zeta. rewrite !orb_true_iff.
  assert (W : forall w, Forall (fun c => 97 <= bz c <= 122) w -> bseq (lowers s) w = true <-> in_case s w).
  { intros w Hw. rewrite <- (lowers_word w Hw). destruct (bseq_spec (lowers s) w); split; intros; congruence. }
  assert (W1 : bseq (lowers s) ["1"%byte] = true <-> s = B "1").
  { change (B "1") with ["1"%byte]. destruct (bseq_spec (lowers s) ["1"%byte]) as [E|E]; split; intros X; try discriminate; try reflexivity.
    - destruct s as [|b [|]]; try discriminate. cbn [lowers map] in E. injection E as E. apply (proj1 (lowerb_id_digit b "1"%byte ltac:(vm_compute; intuition discriminate) ltac:(vm_compute; intuition discriminate))) in E. subst. reflexivity.
    - exfalso. apply E. subst. reflexivity. }
  change w_true with (B "true"). change w_yes with (B "yes"). change w_on with (B "on").
  rewrite !W, W1 by (repeat (constructor; [vm_compute; split; discriminate|]); constructor). tauto.
Qed.
