(** strconv.readFloat accepts exactly Go's floating-point syntax. *)
From Coq Require Import QArith Qpower.
From Verif Require Import Base Strconv SpecFloat SpecFloatText StrconvFacts RoundFacts FloatText RoundUnique ParserFacts2 FloatWidth ConvertFacts.
Open Scope Z_scope.

(** ** Characters *)

Lemma digit_iff (hex : bool) (c : byte) : (if hex then is_hexdigit c else is_digit c) = true <-> exists v, fdigit hex c v.
Proof.
  assert (G : (if hex then is_hexdigit c else is_digit c) = true <->
    (48 <= bz c <= 57) \/ (hex = true /\ 97 <= bz c <= 102) \/ (hex = true /\ 65 <= bz c <= 70)).
  { destruct hex; destruct c; vm_compute; intuition (try discriminate; auto). }
  rewrite G. unfold fdigit. split.
  - intros [H|[[H1 H2]|[H1 H2]]]; eexists; [left|right; left|right; right]; eauto.
  - intros (v & [H|[H|H]]); tauto.
Qed.
Lemma digit_val_is (hex : bool) (c : byte) v : fdigit hex c v -> hexdigit_val c = v.
Proof.
  intros H. assert (G : fdigit true c v) by (destruct H as [H|[(_ & H)|(_ & H)]]; [left|right; left|right; right]; auto). clear H hex.
  unfold fdigit in G. destruct c; vm_compute in G |- *; intuition (try congruence).
Qed.
Lemma digit_of (hex : bool) (c : byte) : (if hex then is_hexdigit c else is_digit c) = true -> fdigit hex c (hexdigit_val c).
Proof. intros H. apply digit_iff in H as (v & H). rewrite (digit_val_is _ _ _ H). exact H. Qed.
Lemma digit_no_us (hex : bool) (c : byte) v : fdigit hex c v -> beq c "_"%byte = false.
Proof. intros H. destruct (beq c "_"%byte) eqn:E; [|reflexivity]. apply beq_eq in E. subst c. unfold fdigit in H. vm_compute in H. intuition discriminate. Qed.
Lemma digit_no_dot (hex : bool) (c : byte) v : fdigit hex c v -> beq c "."%byte = false.
Proof. intros H. destruct (beq c "."%byte) eqn:E; [|reflexivity]. apply beq_eq in E. subst c. unfold fdigit in H. vm_compute in H. intuition discriminate. Qed.
Lemma digit_dec_hex c v : fdigit false c v -> fdigit true c v.
Proof. intros [H|[(E & _)|(E & _)]]; [left; exact H|discriminate|discriminate]. Qed.
Lemma is_digit_val c : is_digit c = true -> digit_val c = hexdigit_val c.
Proof. intros H. unfold hexdigit_val. rewrite H. reflexivity. Qed.

Definition expchar (hex : bool) (x : byte) : Prop := if hex then x = "p"%byte \/ x = "P"%byte else x = "e"%byte \/ x = "E"%byte.
Lemma expchar_iff (hex : bool) (x : byte) : beq (lowerb x) (if hex then "p"%byte else "e"%byte) = true <-> expchar hex x.
Proof. unfold expchar. destruct hex; destruct x; vm_compute; intuition (try discriminate; auto). Qed.
Lemma expchar_stops (hex : bool) (x : byte) : expchar hex x -> beq x "_"%byte = false /\ beq x "."%byte = false /\ (if hex then is_hexdigit x else is_digit x) = false.
Proof. unfold expchar. destruct hex; intros [->| ->]; repeat split; reflexivity. Qed.

(** ** Digits *)

Definition all_dig (hex : bool) (s : bytes) : Prop := Forall (fun c => (if hex then is_hexdigit c else is_digit c) = true) s.
Definition dv (hex : bool) (a : Z) (s : bytes) : Z := fold_left (fun a c => a * (if hex then 16 else 10) + hexdigit_val c) s a.

Lemma fdigits_iff hex s v : fdigits hex s v <-> all_dig hex s /\ v = dv hex 0 s.
Proof.
  split.
  - induction 1 as [|s v c d H [A ->] D]; [split; [constructor|reflexivity]|]. split.
    + apply Forall_app. split; [exact A|]. constructor; [|constructor]. apply digit_iff. eauto.
    + unfold dv. rewrite fold_left_app. cbn. rewrite (digit_val_is _ _ _ D). reflexivity.
  - intros [A ->]. revert A. induction s as [|c s IH] using rev_ind; intros A; [constructor|]. apply Forall_app in A as [A B]. inversion B; subst.
    unfold dv. rewrite fold_left_app. cbn. apply (fdigits_snoc hex s (dv hex 0 s) c (hexdigit_val c)); [apply IH, A|apply digit_of; assumption].
Qed.

Notation nous := without_underscores.
Lemma nous_app s t : nous (s ++ t) = nous s ++ nous t.
Proof. apply filter_app. Qed.
Lemma nous_cons_us s : nous ("_"%byte :: s) = nous s.
Proof. reflexivity. Qed.
Lemma nous_cons c s : beq c "_"%byte = false -> nous (c :: s) = c :: nous s.
Proof. intros H. unfold without_underscores. cbn. rewrite H. reflexivity. Qed.
Definition has_us (s : bytes) : bool := existsb (fun c => beq c "_"%byte) s.
Lemma has_us_app s t : has_us (s ++ t) = has_us s || has_us t.
Proof. apply existsb_app. Qed.

(** ** The mantissa *)

(** Where the scan of the mantissa stops. *)
Definition stops (hex sawdot : bool) (r : bytes) : Prop :=
  match r with [] => True | c :: _ => beq c "_"%byte = false /\ (if hex then is_hexdigit c else is_digit c) = false /\ (beq c "."%byte = true -> sawdot = true) end.

Lemma scan_frac hex s : forall mant nfrac sawdig under r, all_dig hex (nous s) -> stops hex true r ->
  scan_mant hex mant nfrac true sawdig under (s ++ r) =
  (dv hex mant (nous s), nfrac + Z.of_nat (length (nous s)), sawdig || negb (match nous s with [] => true | _ => false end), under || has_us s, r).
Proof.
  induction s as [|c s IH]; intros mant nfrac sawdig under r A St.
  - cbn [app nous filter length]. rewrite Z.add_0_r, orb_false_r, orb_false_r. destruct r as [|c r]; [reflexivity|]. cbn in St |- *.
    destruct St as (S1 & S2 & _). rewrite S1. destruct (beq c "."%byte); [reflexivity|]. rewrite S2. reflexivity.
  - cbn [app scan_mant]. destruct (beq c "_"%byte) eqn:U.
    + apply beq_eq in U. subst c. rewrite nous_cons_us in *. rewrite IH by assumption. cbn [has_us existsb]. rewrite beq_refl, orb_true_r. reflexivity.
    + rewrite nous_cons in * by exact U. inversion A as [|? ? D A']; subst. pose proof (digit_of hex c D) as Dg. rewrite (digit_no_dot _ _ _ Dg), D. rewrite IH by assumption.
      cbn [has_us existsb dv fold_left length]. rewrite U. cbn [orb negb].
      rewrite orb_true_r. replace (nfrac + 1 + Z.of_nat (length (nous s))) with (nfrac + Z.of_nat (S (length (nous s)))) by lia. reflexivity.
Qed.

Lemma scan_whole hex s : forall mant nfrac sawdig under r, all_dig hex (nous s) ->
  scan_mant hex mant nfrac false sawdig under (s ++ r) =
  scan_mant hex (dv hex mant (nous s)) nfrac false (sawdig || negb (match nous s with [] => true | _ => false end)) (under || has_us s) r.
Proof.
  induction s as [|c s IH]; intros mant nfrac sawdig under r A.
  - cbn. rewrite !orb_false_r. reflexivity.
  - cbn [app scan_mant]. destruct (beq c "_"%byte) eqn:U.
    + apply beq_eq in U. subst c. rewrite nous_cons_us in *. rewrite IH by assumption. cbn [has_us existsb]. rewrite beq_refl, orb_true_r. reflexivity.
    + rewrite nous_cons in * by exact U. inversion A as [|? ? D A']; subst. pose proof (digit_of hex c D) as Dg. rewrite (digit_no_dot _ _ _ Dg), D. rewrite IH by assumption.
      cbn [has_us existsb dv fold_left]. rewrite U. cbn [orb negb]. rewrite orb_true_r. reflexivity.
Qed.

(** A point in the text without underscores is one in the text. *)
Lemma nous_split s a c b : nous s = a ++ c :: b -> exists s1 s2, s = s1 ++ c :: s2 /\ nous s1 = a /\ nous s2 = b.
Proof.
  revert a. induction s as [|d s IH]; intros a E; [destruct a; discriminate|]. destruct (beq d "_"%byte) eqn:U.
  - apply beq_eq in U. subst d. rewrite nous_cons_us in E. destruct (IH a E) as (s1 & s2 & -> & <- & <-). exists ("_"%byte :: s1), s2. auto.
  - rewrite nous_cons in E by exact U. destruct a as [|x a]; cbn in E; injection E as -> E.
    + exists [], s. auto.
    + destruct (IH a E) as (s1 & s2 & -> & <- & <-). exists (x :: s1), s2. split; [reflexivity|]. rewrite nous_cons by exact U. auto.
Qed.

(** Every text splits at the end of the mantissa. *)
Lemma scan_split hex s : forall sawdot, exists m r,
  s = m ++ r /\ stops hex (sawdot || existsb (fun c => beq c "."%byte) m) r /\
  (if sawdot then all_dig hex (nous m)
   else all_dig hex (nous m) \/ exists m1 m2, m = m1 ++ "."%byte :: m2 /\ all_dig hex (nous m1) /\ all_dig hex (nous m2)).
Proof.
  induction s as [|c s IH]; intros sawdot.
  - exists [], []. split; [reflexivity|]. split; [exact Logic.I|]. destruct sawdot; [constructor|left; constructor].
  - destruct (beq c "_"%byte) eqn:U.
    { destruct (IH sawdot) as (m & r & -> & St & A). exists (c :: m), r. split; [reflexivity|]. pose proof U as U'. apply beq_eq in U. subst c. split; [exact St|].
      destruct sawdot; [exact A|]. destruct A as [A|(m1 & m2 & -> & A1 & A2)]; [left; exact A|right; exists ("_"%byte :: m1), m2; auto]. }
    destruct (beq c "."%byte) eqn:D.
    { destruct sawdot.
      - exists [], (c :: s). split; [reflexivity|]. split; [|constructor]. apply beq_eq in D. subst c. cbn. destruct hex; repeat split; reflexivity.
      - destruct (IH true) as (m & r & -> & St & A). exists (c :: m), r. split; [reflexivity|]. apply beq_eq in D. subst c. split; [exact St|]. right. exists [], m. split; [reflexivity|]. split; [constructor|exact A]. }
    destruct (if hex then is_hexdigit c else is_digit c) eqn:G.
    + destruct (IH sawdot) as (m & r & -> & St & A). exists (c :: m), r. split; [reflexivity|]. split; [cbn [existsb]; rewrite D; exact St|].
      assert (N : nous (c :: m) = c :: nous m) by (apply nous_cons, U). destruct sawdot; [rewrite N; constructor; assumption|].
      destruct A as [A|(m1 & m2 & -> & A1 & A2)]; [left; rewrite N; constructor; assumption|right; exists (c :: m1), m2]. split; [reflexivity|]. split; [rewrite nous_cons by exact U; constructor; assumption|exact A2].
    + exists [], (c :: s). split; [reflexivity|]. split; [|destruct sawdot; [constructor|left; constructor]]. cbn. rewrite U, G. repeat split. congruence.
Qed.

Definition nonempty (s : bytes) : bool := match s with [] => false | _ => true end.

(** What the scan returns for a mantissa. *)
Lemma scan_mantissa hex m c n r : mantissa hex (nous m) c n -> (forall x r', r = x :: r' -> expchar hex x) ->
  scan_mant hex 0 0 false false false (m ++ r) = (c, n, true, has_us m, r).
Proof.
  intros M Hr.
  assert (St : forall d, stops hex d r).
  { intros d. destruct r as [|x r']; [exact Logic.I|]. destruct (expchar_stops hex x (Hr x r' eq_refl)) as (S1 & S2 & S3). cbn. rewrite S1, S2, S3. repeat split. discriminate. }
  inversion M as [s v Ne D E1 E2 E3|i f v Ne D E1 E2 E3]; subst.
  - apply fdigits_iff in D as [A ->]. rewrite scan_whole by exact A. cbn [orb]. destruct (nous m) as [|x t]; [congruence|]. cbn [negb].
    destruct r as [|x' r']; [reflexivity|]. destruct (St false) as (S1 & S2 & S3). cbn [scan_mant]. rewrite S1, S2. destruct (beq x' "."%byte); [discriminate S3; reflexivity|reflexivity].
  - apply fdigits_iff in D as [A ->]. symmetry in E1. apply nous_split in E1 as (m1 & m2 & -> & E1 & E2). subst i f. apply Forall_app in A as [A1 A2].
    rewrite <- app_assoc. cbn [app]. rewrite scan_whole by exact A1. cbn [scan_mant]. change (beq "."%byte "_"%byte) with false. change (beq "."%byte "."%byte) with true.
    rewrite scan_frac by (try exact A2; apply St). unfold dv at 1 2. rewrite <- fold_left_app. rewrite has_us_app. cbn [has_us existsb]. change (beq "."%byte "_"%byte) with false. cbn [orb].
    f_equal. f_equal. f_equal.
    destruct (nous m1) eqn:N1; [|reflexivity]. destruct (nous m2) eqn:N2; [|reflexivity]. exfalso. apply Ne. reflexivity.
Qed.

(** If the scan has seen a digit, there is a mantissa. *)
Lemma scan_is_mantissa hex s c n u r : scan_mant hex 0 0 false false false s = (c, n, true, u, r) ->
  exists m, s = m ++ r /\ mantissa hex (nous m) c n /\ u = has_us m.
Proof.
  intros E. destruct (scan_split hex s false) as (m & r0 & -> & St & A). destruct A as [A|(m1 & m2 & -> & A1 & A2)].
  - rewrite scan_whole in E by exact A. cbn [orb] in E.
    assert (R : scan_mant hex (dv hex 0 (nous m)) 0 false (negb match nous m with [] => true | _ => false end) (has_us m) r0
      = (dv hex 0 (nous m), 0, negb match nous m with [] => true | _ => false end, has_us m, r0)).
    { destruct r0 as [|x r']; [reflexivity|]. cbn [orb] in St. destruct St as (S1 & S2 & S3). cbn [scan_mant]. rewrite S1, S2. destruct (beq x "."%byte); [|reflexivity].
      exfalso. specialize (S3 eq_refl). assert (N : existsb (fun c => beq c "."%byte) m = false); [|congruence].
      clear - A. induction m as [|d m IH]; [reflexivity|]. destruct (beq d "_"%byte) eqn:U.
      - apply beq_eq in U. subst d. cbn. apply IH, A.
      - rewrite nous_cons in A by exact U. inversion A as [|? ? D A']; subst. cbn. rewrite (digit_no_dot _ _ _ (digit_of _ _ D)). apply IH, A'. }
    rewrite R in E. injection E as <- <- Sd <- <-. exists m. split; [reflexivity|]. split; [|reflexivity]. apply mn_whole; [destruct (nous m); [discriminate Sd|discriminate]|]. apply fdigits_iff. auto.
  - rewrite <- app_assoc in E. cbn [app] in E. rewrite scan_whole in E by exact A1. cbn [scan_mant] in E. change (beq "."%byte "_"%byte) with false in E. change (beq "."%byte "."%byte) with true in E. cbv iota in E.
    assert (St' : stops hex true r0).
    { destruct r0 as [|x r']; [exact Logic.I|]. destruct St as (S1 & S2 & _). repeat split; assumption. }
    rewrite scan_frac in E by assumption. injection E as <- <- Sd <- <-. exists (m1 ++ "."%byte :: m2). split; [rewrite <- app_assoc; reflexivity|].
    rewrite nous_app, nous_cons by reflexivity. split.
    + unfold dv. rewrite <- fold_left_app. apply mn_point.
      * destruct (nous m1); [|discriminate]. destruct (nous m2); [|discriminate]. discriminate Sd.
      * apply fdigits_iff. split; [apply Forall_app; auto|reflexivity].
    + rewrite has_us_app. cbn. reflexivity.
Qed.

(** ** The exponent *)

Lemma dv_nonneg hex s : forall a, 0 <= a -> all_dig hex s -> 0 <= dv hex a s.
Proof.
  induction s as [|c s IH]; intros a Ha A; [exact Ha|]. inversion A as [|? ? D A']; subst. cbn [dv fold_left]. apply IH; [|exact A'].
  pose proof (digit_of hex c D) as G. unfold fdigit in G. destruct hex; lia.
Qed.

(** The clamped value. *)
Fixpoint clamp (e : Z) (s : bytes) : Z :=
  match s with [] => e | c :: s' => clamp (if e <? 10000 then e * 10 + hexdigit_val c else e) s' end.
Lemma clamp_big s : forall e, 10000 <= e -> clamp e s = e.
Proof. induction s as [|c s IH]; intros e H; [reflexivity|]. cbn. destruct (Z.ltb_spec e 10000); [lia|]. apply IH, H. Qed.
Lemma dv_split s : forall a, all_dig false s -> 0 <= a -> dv false a s = a * 10 ^ Z.of_nat (length s) + dv false 0 s /\ 0 <= dv false 0 s < 10 ^ Z.of_nat (length s).
Proof.
  induction s as [|c s IH]; intros a A Ha; [cbn; lia|]. inversion A as [|? ? D A']; subst. pose proof (digit_of false c D) as G. unfold fdigit in G.
  destruct G as [G|[(Q & _)|(Q & _)]]; [|discriminate|discriminate]. cbn [dv fold_left]. change (fold_left (fun a c => a * (if false then 16 else 10) + hexdigit_val c) s ?x) with (dv false x s).
  destruct (IH (a * 10 + hexdigit_val c) A' ltac:(lia)) as [E1 B1]. destruct (IH (0 * 10 + hexdigit_val c) A' ltac:(lia)) as [E2 _].
  fold (dv false (a * 10 + hexdigit_val c) s). fold (dv false (0 * 10 + hexdigit_val c) s). rewrite E1, E2.
  replace (Z.of_nat (length (c :: s))) with (Z.succ (Z.of_nat (length s))) by (cbn [length]; lia). rewrite Z.pow_succ_r by lia. nia.
Qed.
Lemma clamp_cut s : all_dig false s -> forall e, 0 <= e < 100000 ->
  let v := dv false e s in
  (v < 100000 /\ clamp e s = v) \/ (10000 <= clamp e s < 100000 /\ exists k, 0 <= k /\ (v < 100000 -> k = 0) /\ (100000 <= v -> 0 < k) /\ clamp e s = v / 10 ^ k).
Proof.
  induction s as [|c s IH]; intros A e He.
  - left. cbn. lia.
  - inversion A as [|? ? D A']; subst. cbn [clamp]. destruct (Z.ltb_spec e 10000) as [L|L].
    + change (dv false e (c :: s)) with (dv false (e * 10 + hexdigit_val c) s). apply IH; [exact A'|]. destruct (digit_of false c D) as [G|[(Q & _)|(Q & _)]]; [lia|discriminate|discriminate].
    + right. rewrite clamp_big by exact L. split; [lia|]. destruct (dv_split (c :: s) e A ltac:(lia)) as [E B]. cbv zeta. rewrite E. exists (Z.of_nat (length (c :: s))). split; [lia|].
      assert (P : 10 ^ Z.of_nat (length (c :: s)) >= 10).
      { replace (Z.of_nat (length (c :: s))) with (Z.succ (Z.of_nat (length s))) by (cbn [length]; lia). rewrite Z.pow_succ_r by lia. assert (0 < 10 ^ Z.of_nat (length s)) by (apply Z.pow_pos_nonneg; lia). lia. }
      split; [nia|]. split; [cbn [length]; lia|]. rewrite Z.div_add_l by lia. rewrite (Z.div_small (dv false 0 (c :: s))) by exact B. lia.
Qed.
Lemma cut_clamp s : all_dig false s -> cut_exponent (dv false 0 s) (clamp 0 s).
Proof.
  intros A. destruct (clamp_cut s A 0 ltac:(lia)) as [H|(B & k & K & K0 & K1 & E)]; [left; exact H|]. destruct (Z.lt_ge_cases (dv false 0 s) 100000) as [L|L].
  - left. split; [exact L|]. rewrite E, (K0 L), Z.pow_0_r, Z.div_1_r. reflexivity.
  - right. split; [exact B|]. exists k. auto.
Qed.
Lemma cut_unique v e e' : 0 <= v -> cut_exponent v e -> cut_exponent v e' -> e = e'.
Proof.
  assert (G : forall e k, 0 <= v -> 0 < k -> 10000 <= e -> e = v / 10 ^ k -> 100000 <= v).
  { intros x k V K L ->. assert (10 <= 10 ^ k). { replace k with (Z.succ (k - 1)) by lia. rewrite Z.pow_succ_r by lia. assert (0 < 10 ^ (k - 1)) by (apply Z.pow_pos_nonneg; lia). lia. }
    assert (v / 10 ^ k <= v / 10) by (apply Z.div_le_compat_l; lia). pose proof (Z.mul_div_le v 10 ltac:(lia)). lia. }
  intros V [[L ->]|[B (k & K & E)]] [[L' ->]|[B' (k' & K' & E')]]; [reflexivity| | |].
  - pose proof (G e' k' V K' ltac:(lia) E'). lia.
  - pose proof (G e k V K ltac:(lia) E). lia.
  - assert (W : forall x k x' k', 0 < k -> k < k' -> x = v / 10 ^ k -> x' = v / 10 ^ k' -> 10000 <= x < 100000 -> 10000 <= x' -> False).
    { intros x j x' j' J JJ X X' Bx Bx'. assert (v / 10 ^ j' = v / 10 ^ j / 10 ^ (j' - j)).
      { rewrite Z.div_div by (try lia; apply Z.pow_pos_nonneg; lia). rewrite <- Z.pow_add_r by lia. f_equal. f_equal. lia. }
      assert (10 <= 10 ^ (j' - j)). { replace (j' - j) with (Z.succ (j' - j - 1)) by lia. rewrite Z.pow_succ_r by lia. assert (0 < 10 ^ (j' - j - 1)) by (apply Z.pow_pos_nonneg; lia). lia. }
      assert (v / 10 ^ j / 10 ^ (j' - j) <= v / 10 ^ j / 10) by (apply Z.div_le_compat_l; lia).
      assert (v / 10 ^ j / 10 < 10000) by (apply Z.div_lt_upper_bound; lia). lia. }
    destruct (Z.lt_trichotomy k k') as [C|[C|C]].
    + exfalso. eapply W; [exact K|exact C|exact E|exact E'|lia|lia].
    + subst k'. congruence.
    + exfalso. eapply W; [exact K'|exact C|exact E'|exact E|lia|lia].
Qed.

Lemma scan_exp_all s : forall e under, all_dig false (nous s) -> scan_exp e under s = (clamp e (nous s), under || has_us s, []).
Proof.
  induction s as [|c s IH]; intros e under A; [cbn; rewrite orb_false_r; reflexivity|]. cbn [scan_exp]. destruct (beq c "_"%byte) eqn:U.
  - apply beq_eq in U. subst c. rewrite nous_cons_us in *. rewrite IH by exact A. cbn [has_us existsb]. rewrite beq_refl, orb_true_r. reflexivity.
  - rewrite nous_cons in * by exact U. inversion A as [|? ? D A']; subst. rewrite D, (is_digit_val c D), IH by exact A'. cbn [has_us existsb clamp]. rewrite U. reflexivity.
Qed.
Lemma scan_exp_is s : forall e under e' u, scan_exp e under s = (e', u, []) -> all_dig false (nous s).
Proof.
  induction s as [|c s IH]; intros e under e' u E; [constructor|]. cbn [scan_exp] in E. destruct (beq c "_"%byte) eqn:U.
  - apply beq_eq in U. subst c. rewrite nous_cons_us. eapply IH, E.
  - rewrite nous_cons by exact U. destruct (is_digit c) eqn:D; [|discriminate]. constructor; [exact D|]. eapply IH, E.
Qed.

(** ** Signs and underscores *)

Lemma sign_digit_start sg neg c r : sign_text sg neg -> beq c "+"%byte = false -> beq c "-"%byte = false -> strip_sign (sg ++ c :: r) = (neg, c :: r).
Proof. intros [] P M; cbn; rewrite ?P, ?M; reflexivity. Qed.
Lemma strip_sign_is s : exists sg, s = sg ++ snd (strip_sign s) /\ sign_text sg (fst (strip_sign s)).
Proof.
  destruct s as [|c s]; [exists []; split; [reflexivity|constructor]|]. cbn. destruct (beq c "+"%byte) eqn:P; [apply beq_eq in P; subst c; exists ["+"%byte]; split; [reflexivity|constructor]|].
  destruct (beq c "-"%byte) eqn:M; [apply beq_eq in M; subst c; exists ["-"%byte]; split; [reflexivity|constructor]|]. exists []. split; [reflexivity|constructor].
Qed.

Definition dig (hex : bool) (c : byte) : Prop := is_digit c || (hex && is_hexdigit c) = true.
Lemma dig_iff (hex : bool) (c : byte) : dig hex c <-> exists d, fdigit hex c d.
Proof.
  rewrite <- digit_iff. unfold dig. destruct hex; cbn; [|rewrite orb_false_r; tauto].
  assert (is_digit c = true -> is_hexdigit c = true) by (unfold is_hexdigit; intros ->; reflexivity). destruct (is_digit c); cbn; intuition.
Qed.

(** Behind something seen as [w], every underscore is between digits. *)
Definition between_from (hex : bool) (w : saw) (s : bytes) : Prop :=
  (w = SawUnder -> exists c s', s = c :: s' /\ dig hex c) /\
  forall p q, s = p ++ "_"%byte :: q ->
    ((p = [] /\ w = SawDigit) \/ exists p' c, p = p' ++ [c] /\ dig hex c) /\ exists c q', q = c :: q' /\ dig hex c.
Lemma under_scan_iff hex s : forall w, under_scan hex w s = true <-> between_from hex w s.
Proof.
  induction s as [|c s IH]; intros w.
  - cbn. split.
    + intros H. split; [intros ->; discriminate|intros p q E; destruct p; discriminate].
    + intros [H _]. destruct w; try reflexivity. destruct (H eq_refl) as (? & ? & ? & _). discriminate.
  - cbn [under_scan]. destruct (is_digit c || (hex && is_hexdigit c)) eqn:D.
    + rewrite IH. split.
      * intros [_ H]. split; [intros _; exists c, s; auto|]. intros p q E. destruct p as [|x p]; cbn in E; injection E as -> E.
        { exfalso. destruct hex; discriminate D. }
        destruct (H p q E) as [[[-> _]|(p' & d & -> & G)] H2]; (split; [|exact H2]); right; [exists [], x; auto|exists (x :: p'), d; auto].
      * intros [_ H]. split; [discriminate|]. intros p q E. destruct (H (c :: p) q ltac:(cbn; congruence)) as [[[X _]|(p' & d & E' & G)] H2]; [discriminate|]. split; [|exact H2].
        destruct p as [|x p]; [auto|right]. destruct p' as [|y p']; [discriminate|]. injection E' as -> ->. exists p', d. auto.
    + destruct (beq c "_"%byte) eqn:U.
      * apply beq_eq in U. subst c. destruct w.
        1,3,4: split; [discriminate|]; intros [H0 H]; exfalso; destruct (H [] s eq_refl) as [[[_ X]|(p' & d & X & _)] _]; [discriminate|destruct p'; discriminate].
        rewrite IH. split.
        { intros [H0 H]. split; [discriminate|]. intros p q E. destruct p as [|x p]; cbn in E; [injection E as <-|injection E as <- E].
          - split; [auto|]. destruct (H0 eq_refl) as (c & s' & X & G). exists c, s'. auto.
          - destruct (H p q E) as [[[_ X]|(p' & d & -> & G)] H2]; [discriminate|]. split; [|exact H2]. right. exists ("_"%byte :: p'), d. auto. }
        { intros [_ H]. split; [intros _; destruct (H [] s eq_refl) as [_ (c & q' & -> & G)]; exists c, q'; auto|]. intros p q E. destruct (H ("_"%byte :: p) q ltac:(cbn; congruence)) as [[[X _]|(p' & d & E' & G)] H2]; [discriminate|].
          split; [|exact H2]. right. destruct p' as [|y p']; [injection E' as <- ->; destruct hex; discriminate G|]. injection E' as _ ->. exists p', d. auto. }
      * assert (Sub : under_scan hex SawOther s = true <-> forall p q, c :: s = p ++ "_"%byte :: q -> ((p = [] /\ w = SawDigit) \/ exists p' c0, p = p' ++ [c0] /\ dig hex c0) /\ exists c0 q', q = c0 :: q' /\ dig hex c0).
        { rewrite IH. split.
          - intros [_ H] p q E. destruct p as [|x p]; cbn in E; injection E as -> E; [rewrite beq_refl in U; discriminate|].
            destruct (H p q E) as [[[_ X]|(p' & d & -> & G)] H2]; [discriminate|]. split; [|exact H2]. right. exists (x :: p'), d. auto.
          - intros H. split; [discriminate|]. intros p q E. destruct (H (c :: p) q ltac:(cbn; congruence)) as [[[X _]|(p' & d & E' & G)] H2]; [discriminate|]. split; [|exact H2]. right.
            destruct p' as [|y p']; [injection E' as <- ->; unfold dig in G; congruence|]. injection E' as _ ->. exists p', d. auto. }
        destruct w; try (rewrite Sub; split; [intros H; split; [discriminate|exact H]|intros [_ H]; exact H]).
        split; [discriminate|]. intros [H _]. destruct (H eq_refl) as (x & s' & E & G). injection E as <- <-. unfold dig in G. congruence.
Qed.

Lemma no_us_between hex pre s : has_us s = false -> underscores_between hex pre s.
Proof.
  intros N p q E. exfalso. subst s. rewrite has_us_app in N. cbn [has_us existsb] in N. rewrite beq_refl in N. rewrite orb_true_r in N. discriminate.
Qed.

Lemma between_dec s : under_scan false SawBegin s = true <-> underscores_between false [] s.
Proof.
  rewrite under_scan_iff. unfold between_from, underscores_between. split.
  - intros [_ H] p q E. destruct (H p q E) as [[[_ X]|(p' & c & -> & G)] (c' & q' & -> & G')]; [discriminate|]. apply dig_iff in G as (d & G). apply dig_iff in G' as (d' & G').
    split; [right; exists p', c, d; auto|exists c', d', q'; auto].
  - intros H. split; [discriminate|]. intros p q E. destruct (H p q E) as [[[X _]|(p' & c & d & -> & G)] (c' & d' & q' & -> & G')]; [discriminate|].
    split; [right; exists p', c; split; [reflexivity|apply dig_iff; eauto]|exists c', q'; split; [reflexivity|apply dig_iff; eauto]].
Qed.
Lemma between_hex x s : (x = "x"%byte \/ x = "X"%byte) -> under_scan true SawDigit s = true <-> underscores_between true ["0"%byte; x] ("0"%byte :: x :: s).
Proof.
  intros Hx. rewrite under_scan_iff. unfold between_from, underscores_between. split.
  - intros [_ H] p q E. destruct p as [|a [|b p]].
    + exfalso. discriminate E.
    + exfalso. injection E as _ E _. destruct Hx; subst x; discriminate E.
    + injection E as -> -> E. destruct (H p q E) as [[[-> _]|(p' & c & -> & G)] (c' & q' & -> & G')]; apply dig_iff in G' as (d' & G'); (split; [|exists c', d', q'; auto]).
      * left. auto.
      * right. apply dig_iff in G as (d & G). exists (a :: b :: p'), c, d. auto.
  - intros H. split; [discriminate|]. intros p q E. destruct (H ("0"%byte :: x :: p) q ltac:(cbn; congruence)) as [H1 (c' & d' & q' & -> & G')].
    split; [|exists c', q'; split; [reflexivity|apply dig_iff; eauto]]. destruct H1 as [[_ X]|(p' & c & d & X & G)].
    + injection X as ->. auto.
    + right. destruct p' as [|a [|b p']]; [discriminate| |].
      * injection X as _ -> ->. exfalso. destruct Hx; subst c; unfold fdigit in G; vm_compute in G; intuition discriminate.
      * injection X as _ _ ->. exists p', c. split; [reflexivity|apply dig_iff; eauto].
Qed.

(** ** Reading *)

(** The characters of a mantissa. *)
Definition mchar (hex : bool) (c : byte) : bool := beq c "_"%byte || beq c "."%byte || (if hex then is_hexdigit c else is_digit c).
Lemma mant_chars hex m c n : mantissa hex (nous m) c n -> Forall (fun x => mchar hex x = true) m /\ m <> [].
Proof.
  intros M. assert (A : Forall (fun x => mchar hex x = true) (nous m) /\ nous m <> []).
  { assert (W : forall s, all_dig hex s -> Forall (fun x => mchar hex x = true) s).
    { intros s A. eapply Forall_impl; [|exact A]. cbn. intros a H. unfold mchar. rewrite H. apply orb_true_r. }
    inversion M as [s v Ne D E1 E2 E3|i f v Ne D E1 E2 E3]; subst; apply fdigits_iff in D as [A _].
    - split; [apply W, A|exact Ne].
    - apply Forall_app in A as [A1 A2]. split; [|destruct i; discriminate]. apply Forall_app. split; [apply W, A1|]. constructor; [reflexivity|apply W, A2]. }
  destruct A as [A Ne]. split; [|intros ->; apply Ne; reflexivity]. clear M Ne. induction m as [|x m IH]; [constructor|]. destruct (beq x "_"%byte) eqn:U.
  - constructor; [unfold mchar; rewrite U; reflexivity|]. apply IH. apply beq_eq in U. subst x. exact A.
  - rewrite nous_cons in A by exact U. inversion A; subst. constructor; auto.
Qed.
Lemma mchar_plain hex (x : byte) : mchar hex x = true -> beq x "+"%byte = false /\ beq x "-"%byte = false.
Proof. destruct hex; destruct x; vm_compute; intuition discriminate. Qed.
Lemma mchar_dec (x : byte) : mchar false x = true -> beq (lowerb x) "b"%byte || beq (lowerb x) "o"%byte || beq (lowerb x) "x"%byte = false.
Proof. destruct x; vm_compute; intuition discriminate. Qed.
Lemma expchar_dec (x : byte) : expchar false x -> beq (lowerb x) "b"%byte || beq (lowerb x) "o"%byte || beq (lowerb x) "x"%byte = false.
Proof. intros [->| ->]; reflexivity. Qed.

(** No decimal number begins with the prefix of another base. *)
Lemma dec_second m c n r c0 c1 t : mantissa false (nous m) c n -> (forall x r', r = x :: r' -> expchar false x) -> m ++ r = c0 :: c1 :: t ->
  beq (lowerb c1) "b"%byte || beq (lowerb c1) "o"%byte || beq (lowerb c1) "x"%byte = false.
Proof.
  intros M Hr E. destruct (mant_chars _ _ _ _ M) as [A Ne]. destruct m as [|a m]; [congruence|]. cbn in E. injection E as -> E. inversion A as [|? ? _ A']; subst.
  destruct m as [|b m]; cbn in E.
  - apply expchar_dec. eapply Hr, E.
  - injection E as -> _. inversion A'; subst. apply mchar_dec. assumption.
Qed.
Lemma dec_no_hex m c n r : mantissa false (nous m) c n -> (forall x r', r = x :: r' -> expchar false x) -> strip_hex (m ++ r) = (false, m ++ r).
Proof.
  intros M Hr. unfold strip_hex. destruct (m ++ r) as [|c0 [|c1 [|c2 t]]] eqn:E; try reflexivity. pose proof (dec_second _ _ _ _ _ _ _ M Hr E) as H. apply orb_false_iff in H as [_ H]. rewrite H, andb_false_r. reflexivity.
Qed.
Lemma dec_under s neg m c n r : mantissa false (nous m) c n -> (forall x r', r = x :: r' -> expchar false x) -> strip_sign s = (neg, m ++ r) -> underscore_ok s = under_scan false SawBegin (m ++ r).
Proof.
  intros M Hr E. unfold underscore_ok. rewrite E. cbn [snd]. destruct (m ++ r) as [|c0 [|c1 t]] eqn:E2; try reflexivity. rewrite (dec_second _ _ _ _ _ _ _ M Hr E2), andb_false_r. reflexivity.
Qed.
Lemma hex_x (x : byte) : beq (lowerb x) "x"%byte = true <-> x = "x"%byte \/ x = "X"%byte.
Proof. destruct x; vm_compute; intuition (try discriminate; auto). Qed.

(** The sign and the prefix. *)
Definition prefix_text (hex : bool) (p : bytes) : Prop := if hex then p = ["0"; "x"]%byte \/ p = ["0"; "X"]%byte else p = [].
Lemma under_iff s hex neg prefix m c n r : strip_sign s = (neg, prefix ++ m ++ r) -> prefix_text hex prefix -> mantissa hex (nous m) c n -> (forall x r', r = x :: r' -> expchar hex x) ->
  underscore_ok s = true <-> underscores_between hex prefix (prefix ++ m ++ r).
Proof.
  intros E P M Hr. destruct hex; cbn in P.
  - assert (X : exists x, prefix = ["0"%byte; x] /\ (x = "x"%byte \/ x = "X"%byte)) by (destruct P; subst; eauto). destruct X as (x & -> & Hx). cbn [app] in *.
    unfold underscore_ok. rewrite E. cbn [snd]. change (beq "0"%byte "0"%byte) with true. apply hex_x in Hx as Hx'. rewrite Hx', orb_true_r. cbn [andb]. apply between_hex, Hx.
  - subst prefix. cbn [app] in *. rewrite (dec_under s neg m c n r M Hr E). apply between_dec.
Qed.

Lemma exp_head hex e x : exponent hex e x -> forall y r', e = y :: r' -> expchar hex y.
Proof. intros [H|y sg ds neg v x' d r H] z r' E; [discriminate|]. injection E as <- _. exact H. Qed.

Lemma us_split hex prefix m e : prefix_text hex prefix -> has_us (prefix ++ m ++ e) = has_us m || has_us e.
Proof. intros P. rewrite !has_us_app. assert (has_us prefix = false) as ->; [|reflexivity]. destruct hex; cbn in P; [destruct P; subst|subst]; reflexivity. Qed.
Lemma sign_no_us sg neg : sign_text sg neg -> has_us sg = false.
Proof. intros []; reflexivity. Qed.

(** What is behind the mantissa. *)
Definition exp_part (hex : bool) (under : bool) (r : bytes) : option (Z * bool * bytes) :=
  match r with
  | c :: r' =>
      if beq (lowerb c) (if hex then "p"%byte else "e"%byte) then
        let '(eneg, r'') := strip_sign r' in
        match r'' with
        | d :: _ => if is_digit d then
                      let '(e, under', rest) := scan_exp 0 under r'' in Some (if eneg then - e else e, under', rest)
                    else None
        | [] => None
        end
      else None
  | [] => if hex then None else Some (0, under, [])
  end.
Lemma read_float_parts s : read_float s =
  (let '(neg, t) := strip_sign s in
   let '(hex, t) := strip_hex t in
   let '(mant, nfrac, sawdig, under, r) := scan_mant hex 0 0 false false false t in
   if negb sawdig then None else
   match exp_part hex under r with
   | Some (e, under, []) => if under && negb (underscore_ok s) then None else Some (neg, mant, e - (if hex then 4 * nfrac else nfrac), hex)
   | _ => None
   end).
Proof.
  unfold read_float, exp_part. destruct (strip_sign s) as [neg t]. destruct (strip_hex t) as [hex t']. destruct (scan_mant hex 0 0 false false false t') as [[[[mant nfrac] sawdig] under] r].
  destruct sawdig; [|reflexivity]. cbn [negb]. destruct r as [|c r']; [destruct hex; reflexivity|]. destruct (beq _ _); [|reflexivity]. destruct (strip_sign r') as [eneg r'']. destruct r'' as [|d r3]; [reflexivity|].
  destruct (is_digit d); [|reflexivity]. destruct (scan_exp 0 under (d :: r3)) as [[e u] rest]. destruct rest; reflexivity.
Qed.

Lemma exp_part_of hex under e x : exponent hex e x -> exp_part hex under e = Some (x, under || has_us e, []).
Proof.
  intros [H|y sg ds neg v x' d r H S -> Nd D C].
  - subst hex. cbn. rewrite orb_false_r. reflexivity.
  - unfold exp_part. apply expchar_iff in H. rewrite H. assert (U : beq d "_"%byte = false) by (destruct (beq d "_"%byte) eqn:U; [apply beq_eq in U; congruence|reflexivity]).
    rewrite nous_cons in D by exact U. apply fdigits_iff in D as [A ->]. inversion A as [|? ? Dd A']; subst.
    assert (PM : beq d "+"%byte = false /\ beq d "-"%byte = false) by (apply (mchar_plain false); unfold mchar; rewrite Dd; apply orb_true_r). destruct PM as [Pl Mi].
    rewrite (sign_digit_start sg neg d r S Pl Mi), Dd. rewrite scan_exp_all by (rewrite nous_cons by exact U; exact A). rewrite nous_cons by exact U.
    assert (E : clamp 0 (d :: nous r) = x'). { eapply cut_unique; [|apply cut_clamp, A|exact C]. apply dv_nonneg; [lia|exact A]. }
    rewrite E. assert (has_us (y :: sg ++ d :: r) = has_us (d :: r)) as ->; [|reflexivity].
    cbn [has_us existsb]. destruct (beq y "_"%byte) eqn:Y; [apply beq_eq in Y; subst y; destruct hex; discriminate H|]. cbn [orb]. change (existsb (fun c => beq c "_"%byte) (sg ++ d :: r)) with (has_us (sg ++ d :: r)).
    rewrite has_us_app, (sign_no_us _ _ S). reflexivity.
Qed.
Lemma exp_part_is hex under r e u : exp_part hex under r = Some (e, u, []) -> exponent hex r e.
Proof.
  destruct r as [|c r']; cbn.
  - destruct hex; [discriminate|]. intros [= <- <-]. constructor. reflexivity.
  - destruct (beq (lowerb c) _) eqn:X; [|discriminate]. apply expchar_iff in X. destruct (strip_sign_is r') as (sg & E & S). destruct (strip_sign r') as [neg ds]. cbn in E, S.
    destruct ds as [|d r3]; [discriminate|]. destruct (is_digit d) eqn:D; [|discriminate]. destruct (scan_exp 0 under (d :: r3)) as [[x u'] rest] eqn:Sc. intros [= <- <- ->]. rewrite E.
    pose proof (scan_exp_is _ _ _ _ _ Sc) as A. rewrite scan_exp_all in Sc by exact A. injection Sc as <- <-.
    assert (U : d <> "_"%byte) by (intros ->; discriminate D).
    apply (ex_some hex c sg (d :: r3) neg (dv false 0 (nous (d :: r3))) (clamp 0 (nous (d :: r3))) d r3); try assumption; try reflexivity.
    + apply fdigits_iff. auto.
    + apply cut_clamp, A.
Qed.

Lemma read_float_of s neg hex c j : go_float s neg hex c j -> read_float s = Some (neg, c, j, hex).
Proof.
  intros [sg neg' hex' prefix m e c' n x S P M Ex Un]. pose proof (exp_head _ _ _ Ex) as Eh. destruct (mant_chars _ _ _ _ M) as [Mc Mn].
  assert (SS : strip_sign (sg ++ prefix ++ m ++ e) = (neg', prefix ++ m ++ e)).
  { destruct hex'; [destruct P; subst prefix; cbn [app]; apply (sign_digit_start _ _ _ _ S); reflexivity|]. subst prefix. cbn [app]. destruct m as [|a m]; [congruence|]. inversion Mc; subst. destruct (mchar_plain false a ltac:(assumption)). cbn [app]. apply (sign_digit_start _ _ _ _ S); assumption. }
  assert (SH : strip_hex (prefix ++ m ++ e) = (hex', m ++ e)).
  { destruct hex'.
    - destruct m as [|a m]; [congruence|]. destruct P; subst prefix; reflexivity.
    - subst prefix. cbn [app]. eapply dec_no_hex; eassumption. }
  rewrite read_float_parts, SS, SH, (scan_mantissa _ _ _ _ _ M Eh). cbn [negb]. rewrite (exp_part_of _ _ _ _ Ex).
  assert (UO : underscore_ok (sg ++ prefix ++ m ++ e) = true) by (eapply under_iff; eassumption). rewrite UO, andb_false_r. reflexivity.
Qed.

Lemma strip_hex_is t hex t' : strip_hex t = (hex, t') -> exists prefix, t = prefix ++ t' /\ prefix_text hex prefix.
Proof.
  unfold strip_hex. destruct t as [|c0 [|c1 [|c2 t]]]; try (intros [= <- <-]; exists []; split; reflexivity). destruct (beq c0 "0"%byte) eqn:Z0; cbn [andb]; [|intros [= <- <-]; exists []; split; reflexivity].
  destruct (beq (lowerb c1) "x"%byte) eqn:X; [|intros [= <- <-]; exists []; split; reflexivity]. intros [= <- <-]. apply beq_eq in Z0. subst c0. exists ["0"%byte; c1]. split; [reflexivity|]. apply hex_x in X. cbn. destruct X; subst; auto.
Qed.

Lemma read_float_is s neg hex c j : read_float s = Some (neg, c, j, hex) -> go_float s neg hex c j.
Proof.
  rewrite read_float_parts. destruct (strip_sign_is s) as (sg & E & S). destruct (strip_sign s) as [neg' t] eqn:SS. cbn in E, S. destruct (strip_hex t) as [hex' t'] eqn:SH.
  destruct (strip_hex_is _ _ _ SH) as (prefix & -> & P). destruct (scan_mant hex' 0 0 false false false t') as [[[[mant n] sd] u] r] eqn:Sc. destruct sd; [|discriminate]. cbn [negb].
  destruct (exp_part hex' u r) as [[[x u'] rest]|] eqn:Ep; [|discriminate]. destruct rest; [|discriminate]. destruct (u' && negb (underscore_ok s)) eqn:U; [discriminate|]. intros [= <- <- <- <-].
  destruct (scan_is_mantissa _ _ _ _ _ _ Sc) as (m & -> & M & ->). pose proof (exp_part_is _ _ _ _ _ Ep) as Ex. pose proof (exp_head _ _ _ Ex) as Eh.
  rewrite (exp_part_of _ _ _ _ Ex) in Ep. injection Ep as <-.
  assert (Un : underscores_between hex' prefix (prefix ++ m ++ r)).
  { destruct (has_us m || has_us r) eqn:H.
    - cbn [andb] in U. apply negb_false_iff in U. eapply under_iff; eassumption.
    - apply no_us_between. rewrite (us_split hex') by exact P. exact H. }
  rewrite E. apply gf; assumption.
Qed.
Lemma read_float_iff s neg hex c j : read_float s = Some (neg, c, j, hex) <-> go_float s neg hex c j.
Proof. split; [apply read_float_is|apply read_float_of]. Qed.

Lemma lowers_cons (c : byte) s : lowers (c :: s) = lowerb c :: lowers s.
Proof. reflexivity. Qed.
Lemma parse_special_iff s f : parse_special s = Some f <-> special_float s f.
Proof.
  assert (W : forall t, bseq (lowers t) kw_inf || bseq (lowers t) kw_infinity = true <-> lowers t = B "inf" \/ lowers t = B "infinity").
  { intros t. rewrite orb_true_iff, !bseq_eq. reflexivity. }
  unfold parse_special. split.
  - destruct s as [|c s]; [discriminate|]. destruct (beq c "+"%byte) eqn:P.
    { apply beq_eq in P. subst c. destruct (_ || _) eqn:I; [|discriminate]. intros [= <-]. apply W in I. exact (sf_inf ["+"%byte] false s sg_plus I). }
    destruct (beq c "-"%byte) eqn:M.
    { apply beq_eq in M. subst c. destruct (_ || _) eqn:I; [|discriminate]. intros [= <-]. apply W in I. exact (sf_inf ["-"%byte] true s sg_minus I). }
    destruct (bseq (lowers (c :: s)) kw_inf || _) eqn:I.
    { intros [= <-]. apply W in I. exact (sf_inf [] false (c :: s) sg_none I). }
    destruct (bseq _ kw_nan) eqn:N; [|discriminate]. intros [= <-]. apply bseq_eq in N. apply sf_nan. exact N.
  - assert (K : forall c w k, lowers (c :: w) = k -> (exists x r, k = x :: r /\ (x = "i"%byte \/ x = "n"%byte)) -> beq c "+"%byte = false /\ beq c "-"%byte = false).
    { intros c w k H (x & r & -> & X). rewrite lowers_cons in H. injection H as H _. destruct X as [-> | ->]; destruct c; vm_compute in H; try discriminate H; split; reflexivity. }
    intros [sg neg w S I|w I].
    + pose proof (proj2 (W w) I) as I'. destruct S; cbn [app].
      * destruct w as [|c w]; [destruct I; discriminate|]. destruct (K c w _ eq_refl) as [P M]; [destruct I as [I|I]; rewrite I; vm_compute; eauto|]. rewrite P, M, I'. reflexivity.
      * change (beq "+"%byte "+"%byte) with true. cbv iota. rewrite I'. reflexivity.
      * change (beq "-"%byte "+"%byte) with false. change (beq "-"%byte "-"%byte) with true. cbv iota. rewrite I'. reflexivity.
    + destruct w as [|c w]; [discriminate|]. destruct (K c w _ eq_refl) as [P M]; [rewrite I; vm_compute; eauto|]. rewrite P, M, I. reflexivity.
Qed.

(** ** Values *)

Lemma special_no_number s f neg hex c j : special_float s f -> go_float s neg hex c j -> False.
Proof.
  intros Sp G. revert Sp. destruct G as [sg neg' hex' prefix m e c' n x S P M Ex Un]. intros Sp. destruct (mant_chars _ _ _ _ M) as [Mc Mn].
  assert (K : exists a t, prefix ++ m ++ e = a :: t /\ beq a "+"%byte = false /\ beq a "-"%byte = false /\ lowerb a <> "i"%byte /\ lowerb a <> "n"%byte).
  { destruct hex'; [destruct P; subst prefix; eexists; eexists; (split; [reflexivity|repeat split; discriminate])|]. subst prefix. cbn [app]. destruct m as [|a m]; [congruence|]. inversion Mc as [|? ? Ma _]; subst.
    exists a, (m ++ e). split; [reflexivity|]. destruct (mchar_plain false a Ma) as [A B]. split; [exact A|]. split; [exact B|]. destruct a; vm_compute in Ma; try discriminate Ma; split; discriminate. }
  destruct K as (a & t & K & A & B & NI & NN). pose proof (sign_digit_start sg neg' a t S A B) as E1. rewrite <- K in E1.
  remember (sg ++ prefix ++ m ++ e) as w eqn:Ew. clear Ew.
  assert (J : forall y b, strip_sign w = (b, y) -> (exists k r, lowers y = k :: r /\ (k = "i"%byte \/ k = "n"%byte)) -> False).
  { intros y b Ey (k & r & Ek & Hk). rewrite Ey in E1. injection E1 as _ E1. rewrite E1, K, lowers_cons in Ek. injection Ek as Ek _. destruct Hk; subst k; congruence. }
  assert (L : forall y k r, lowers y = k :: r -> (k = "i"%byte \/ k = "n"%byte) -> exists d y', y = d :: y' /\ beq d "+"%byte = false /\ beq d "-"%byte = false).
  { intros y k r Ey Hk. destruct y as [|d y']; [discriminate|]. exists d, y'. split; [reflexivity|]. rewrite lowers_cons in Ey. injection Ey as Ed _. destruct Hk as [-> | ->]; destruct d; vm_compute in Ed; try discriminate Ed; split; reflexivity. }
  inversion Sp as [sg2 neg2 w2 S2 I2 Ew Ef|w2 I2 Ew Ef]; subst.
  - assert (I3 : exists k r, lowers w2 = k :: r /\ (k = "i"%byte \/ k = "n"%byte)) by (destruct I2 as [I2|I2]; rewrite I2; vm_compute; eauto). destruct I3 as (k & r & I3 & Hk).
    destruct (L w2 k r I3 Hk) as (d & y' & -> & D1 & D2). eapply (J (d :: y') neg2); [apply sign_digit_start; assumption|eauto].
  - assert (I3 : exists k r, lowers w = k :: r /\ (k = "i"%byte \/ k = "n"%byte)) by (rewrite I2; vm_compute; eauto). destruct I3 as (k & r & I3 & Hk).
    destruct (L w k r I3 Hk) as (d & y' & -> & D1 & D2). eapply (J (d :: y') false); [apply (sign_digit_start [] false); [constructor|assumption|assumption]|eauto].
Qed.

Lemma number_rounds neg hex c j x g : 0 <= c -> x = (if hex : bool then fq c j else decq c j) ->
  (if c =? 0 then Some (fzero F64 neg) else match (if hex then round_bin F64 c j else round_dec F64 c j) with Some (m, e) => Some (FFin neg m e) | None => None end) = Some g
  <-> ~ overflows F64 x /\ rounds F64 neg x g.
Proof.
  intros Hc ->. assert (R : forall g', (if c =? 0 then Some (fzero F64 neg) else match (if hex then round_bin F64 c j else round_dec F64 c j) with Some (m, e) => Some (FFin neg m e) | None => None end) = Some g'
    -> ~ overflows F64 (if hex then fq c j else decq c j) /\ rounds F64 neg (if hex then fq c j else decq c j) g').
  { intros g'. destruct (Z.eqb_spec c 0) as [->|N].
    - intros [= <-]. assert (Z0 : ((if hex then fq 0 j else decq 0 j) == 0)%Q) by (destruct hex; unfold fq, decq; ring). split; [|left; split; [exact Z0|reflexivity]].
      unfold overflows. rewrite Z0. intros O. vm_compute in O. apply O. reflexivity.
    - assert (P : (0 < (if hex then fq c j else decq c j))%Q) by (destruct hex; [apply fq_pos; lia|unfold decq; apply Qmult_lt_0_compat; [apply inject_Z_pos; lia|apply Qpower_0_lt; reflexivity]]).
      destruct hex.
      + destruct (round_bin F64 c j) as [[m e]|] eqn:E; [|discriminate]. intros [= <-].
        assert (NO : ~ overflows F64 (fq c j)) by (intros O; apply (round_bin_overflow F64 c j F64_valid ltac:(lia)) in O; congruence). split; [exact NO|]. right. right. split; [exact P|]. split; [exact NO|].
        exists m, e. split; [reflexivity|]. apply round_bin_nearest; [exact F64_valid|lia|exact E].
      + destruct (round_dec F64 c j) as [[m e]|] eqn:E; [|discriminate]. intros [= <-].
        assert (NO : ~ overflows F64 (decq c j)) by (intros O; apply (round_dec_overflow F64 c j F64_valid ltac:(lia)) in O; congruence). split; [exact NO|]. right. right. split; [exact P|]. split; [exact NO|].
        exists m, e. split; [reflexivity|]. apply round_dec_nearest; [exact F64_valid|lia|exact E]. }
  split; [apply R|]. intros [NO Rg]. destruct (if c =? 0 then _ else _) as [g'|] eqn:E.
  - destruct (R g' eq_refl) as [_ Rg']. rewrite (rounds_unique F64 neg _ g g' F64_valid Rg Rg'). reflexivity.
  - exfalso. destruct (Z.eqb_spec c 0) as [->|N]; [discriminate|]. apply NO. destruct hex.
    + apply (round_bin_overflow F64 c j F64_valid ltac:(lia)). destruct (round_bin F64 c j) as [[? ?]|]; [discriminate|reflexivity].
    + apply (round_dec_overflow F64 c j F64_valid ltac:(lia)). destruct (round_dec F64 c j) as [[? ?]|]; [discriminate|reflexivity].
Qed.

(** ParseFloat reads exactly Go's syntax and returns the value it stands for. *)
Lemma parse_float_iff s f : parse_float F64 s = Some f <-> float_value s f.
Proof.
  unfold parse_float. split.
  - destruct (parse_special s) as [g|] eqn:Sp.
    + intros [= <-]. apply fv_special. apply parse_special_iff. exact Sp.
    + destruct (read_float s) as [[[[neg c] j] hex]|] eqn:R; [|discriminate]. intros E. pose proof (read_float_nonneg _ _ _ _ _ R) as Hc.
      destruct (proj1 (number_rounds neg hex c j _ f Hc eq_refl) E) as [NO Rf]. apply read_float_iff in R. eapply fv_number; [exact R|reflexivity|exact NO|exact Rf].
  - intros [g Sp|neg hex c j x g G X NO R].
    + apply parse_special_iff in Sp. rewrite Sp. reflexivity.
    + destruct (parse_special s) as [h|] eqn:Sp; [apply parse_special_iff in Sp; destruct (special_no_number _ _ _ _ _ _ Sp G)|]. apply read_float_iff in G. rewrite G.
      apply (number_rounds neg hex c j x g (read_float_nonneg _ _ _ _ _ G) X). auto.
Qed.
