(** Lemmas for the scalar conversions, errors and helpers. *)
From Coq Require Import Sorting.Sorted Logic.FinFun.
From Verif Require Import Base Strconv StrconvFacts SortedMap SortedMapFacts Json SpecJson SpecRFC SpecScalar Printer RfcFacts
  ParserFacts2 PrintFacts2 Access JErrors AccessFacts.
Open Scope Z_scope.

Lemma parse_digits_iff ds n : parse_digits ds = Some n <-> digits ds /\ n = dec_value ds.
Proof.
  split.
  - intros X. unfold parse_digits in X. destruct ds as [|d ds]; [discriminate|].
    pose proof (digits_acc_some _ _ _ X) as Ha. split; [split; [discriminate | apply digits_all; exact Ha]|].
    symmetry. apply digits_acc_value. exact X.
  - intros [[Hne Hd] ->]. unfold parse_digits. destruct ds as [|d ds]; [congruence|]. apply dec_value_acc. exact Hd.
Qed.

Lemma digits_head (c : byte) s : digits (c :: s) -> c <> "+"%byte /\ c <> "-"%byte.
Proof.
  intros [_ H]. inversion H as [|? ? Hc _]; subst. unfold digit in Hc.
  split; intros ->; vm_compute in Hc; destruct Hc as [A B]; first [apply A; reflexivity | apply B; reflexivity].
Qed.

Lemma parse_int_iff s z : parse_int s = Some z <-> numeral s z /\ in_int64 z = true.
Proof.
  split.
  - intros H. unfold parse_int in H. destruct s as [|c s]; [discriminate|].
    destruct (beq_spec c "+"%byte) as [->|_].
    + destruct (parse_digits s) as [n|] eqn:E; [|discriminate]. cbv zeta in H.
      destruct (in_int64 n) eqn:En; [|discriminate]. injection H as <-.
      apply parse_digits_iff in E as [E ->]. split; [constructor; exact E | exact En].
    + destruct (beq_spec c "-"%byte) as [->|_].
      * destruct (parse_digits s) as [n|] eqn:E; [|discriminate]. cbv zeta in H.
        destruct (in_int64 (- n)) eqn:En; [|discriminate]. injection H as <-.
        apply parse_digits_iff in E as [E ->]. split; [constructor; exact E | exact En].
      * destruct (parse_digits (c :: s)) as [n|] eqn:E; [|discriminate]. cbv zeta in H.
        destruct (in_int64 n) eqn:En; [|discriminate]. injection H as <-.
        apply parse_digits_iff in E as [E ->]. split; [constructor; exact E | exact En].
  - intros [H Hz]. inversion H as [ds D|ds D|ds D]; subst.
    + destruct s as [|c s]; [destruct D; congruence|]. pose proof (digits_head _ _ D) as [N1 N2].
      unfold parse_int. destruct (beq_spec c "+"%byte); [congruence|]. destruct (beq_spec c "-"%byte); [congruence|].
      rewrite (proj2 (parse_digits_iff _ _) (conj D eq_refl)). cbv zeta. rewrite Hz. reflexivity.
    + unfold parse_int. change (beq "+" "+") with true. cbv iota.
      rewrite (proj2 (parse_digits_iff _ _) (conj D eq_refl)). cbv zeta. rewrite Hz. reflexivity.
    + unfold parse_int. change (beq "-" "+") with false. change (beq "-" "-") with true. cbv iota.
      rewrite (proj2 (parse_digits_iff _ _) (conj D eq_refl)). cbv zeta. rewrite Hz. reflexivity.
Qed.

Lemma lowerb_spec (b c : byte) : 97 <= bz c <= 122 -> lowerb b = c <-> b = c \/ bz b = bz c - 32.
Proof.
  intros Hc. unfold lowerb. pose proof (bz_range b) as Rb. destruct ((65 <=? bz b) && (bz b <=? 90)) eqn:E.
  - assert (65 <= bz b <= 90) as E' by lia. split.
    + intros <-. right. rewrite bz_zb by lia. lia.
    + intros [->|H]; [lia|]. apply bz_inj. rewrite bz_zb by lia. lia.
  - assert (~ 65 <= bz b <= 90) as E' by lia. split; [auto|]. intros [H|H]; [exact H | lia].
Qed.

Definition lower_word (w : bytes) : Prop := Forall (fun c => 97 <= bz c <= 122) w.

Lemma equal_fold_spec : forall w s, lower_word w -> equal_fold s w = true <-> is_word s w.
Proof.
  induction w as [|c w IH]; intros s Hw.
  - destruct s; cbn [equal_fold]; split; intros H; try discriminate; try constructor; inversion H; reflexivity.
  - inversion Hw as [|? ? Hc Hw']; subst. cbn [equal_fold]. destruct s as [|b s1].
    { split; [discriminate|]. intros H. inversion H as [|a ? ? ? S _ E]; subst. destruct S; discriminate. }
    cbn [equal_fold]. destruct (beq_spec (lowerb b) c) as [E|N].
    + rewrite IH by exact Hw'. apply lowerb_spec in E; [|exact Hc]. split.
      * intros H. change (b :: s1) with ([b] ++ s1). constructor; [|exact H].
        destruct E as [->|E]; [constructor | apply sp_upper; assumption].
      * intros H. inversion H as [|a ? s2 ? S W E2]; subst.
        destruct S as [c|c u R U| |]; simpl in E2; try (injection E2 as -> ->; exact W).
        -- injection E2 as <- _. destruct E as [E|E]; vm_compute in E; discriminate.
        -- injection E2 as <- _. destruct E as [E|E]; vm_compute in E; discriminate.
    + assert (N1 : ~ (b = c \/ bz b = bz c - 32)) by (intros X; apply N; apply lowerb_spec; assumption).
      assert (Q : is_word (b :: s1) (c :: w) <->
        (exists s2, s1 = xbf :: s2 /\ b = xc5 /\ c = "s"%byte /\ is_word s2 w)
        \/ (exists s3, s1 = x84 :: xaa :: s3 /\ b = xe2 /\ c = "k"%byte /\ is_word s3 w)).
      { split.
        - intros H. inversion H as [|a ? s2 ? S W E2]; subst. destruct S as [c|c u R U| |]; simpl in E2.
          + injection E2 as -> ->. exfalso. apply N1. left. reflexivity.
          + injection E2 as -> ->. exfalso. apply N1. right. exact U.
          + injection E2 as <- <-. left. exists s2. auto.
          + injection E2 as <- <-. right. exists s2. auto.
        - intros [(s2 & -> & -> & -> & W)|(s3 & -> & -> & -> & W)].
          + change (xc5 :: xbf :: s2) with ([xc5; xbf] ++ s2). constructor; [constructor | exact W].
          + change (xe2 :: x84 :: xaa :: s3) with ([xe2; x84; xaa] ++ s3). constructor; [constructor | exact W]. }
      rewrite Q. clear Q. destruct s1 as [|b2 s2].
      { split; [discriminate|]. intros [(? & ? & _)|(? & ? & _)]; discriminate. }
      destruct (beq_spec b xc5) as [->|Nb]; [destruct (beq_spec b2 xbf) as [->|Nb2];
        [destruct (beq_spec c "s"%byte) as [->|Nc]|]|]; cbn [andb].
      * rewrite IH by exact Hw'. split.
        -- intros W. left. eauto.
        -- intros [(s' & E & _ & _ & W)|(s' & E & _)]; [injection E as ->; exact W | discriminate].
      * assert (beq xc5 xe2 = false) as -> by reflexivity. cbn [andb].
        split; [destruct s2; discriminate|]. intros [(? & ? & ? & ? & _)|(? & ? & ? & _)]; congruence.
      * assert (beq xc5 xe2 = false) as -> by reflexivity. cbn [andb].
        split; [destruct s2; discriminate|]. intros [(? & ? & ? & ? & _)|(? & ? & ? & _)]; congruence.
      * destruct s2 as [|b3 s3].
        { split; [discriminate|]. intros [(? & ? & ? & _)|(? & ? & _)]; [congruence | discriminate]. }
        destruct (beq_spec b xe2) as [->|M1]; cbn [andb];
          [destruct (beq_spec b2 x84) as [->|M2]; cbn [andb];
            [destruct (beq_spec b3 xaa) as [->|M3]; cbn [andb];
              [destruct (beq_spec c "k"%byte) as [->|M4]|]|]|].
        -- rewrite IH by exact Hw'. split.
           ++ intros W. right. eauto.
           ++ intros [(s' & E & ? & _)|(s' & E & _ & _ & W)]; [discriminate | injection E as ->; exact W].
        -- split; [discriminate|]. intros [(? & ? & ? & _)|(? & ? & ? & ? & _)]; congruence.
        -- split; [discriminate|]. intros [(? & ? & ? & _)|(? & ? & ? & ? & _)]; congruence.
        -- split; [discriminate|]. intros [(? & ? & ? & _)|(? & ? & ? & ? & _)]; congruence.
        -- split; [discriminate|]. intros [(? & ? & ? & _)|(? & ? & ? & ? & _)]; congruence.
Qed.

(** ** Error excerpts *)

Lemma slice_spec s a b : 0 <= a <= b -> b <= Z.of_nat (length s) ->
  slice s a b = Some (firstn (Z.to_nat (b - a)) (skipn (Z.to_nat a) s)).
Proof.
  intros H1 H2. unfold slice. replace ((0 <=? a) && (a <=? b) && (b <=? Z.of_nat (length s))) with true by lia. reflexivity.
Qed.

Lemma json_error_spec str pos : str <> [] ->
  let p := Z.to_nat (Z.max 0 (Z.min pos (Z.of_nat (length str) - 1))) in
  NewJSONError str pos = Some (Z.of_nat p,
    skipn (p - 10) (firstn p str) ++ "^"%byte :: firstn 10 (skipn p str)).
Proof.
  intros Hne p. unfold NewJSONError. destruct (Nat.eqb_spec (length str) 0) as [E|E].
  { destruct str; [congruence | discriminate]. }
  cbv zeta.
  assert (Ep : (if pos <? 0 then 0 else if Z.of_nat (length str) - 1 <? pos then Z.of_nat (length str) - 1 else pos) = Z.of_nat p).
  { unfold p. destruct (Z.ltb_spec pos 0); [lia|]. destruct (Z.ltb_spec (Z.of_nat (length str) - 1) pos); lia. }
  rewrite Ep. clear Ep. assert (Hp : (p < length str)%nat) by (unfold p; lia).
  clearbody p. clear pos.
  set (a := if Z.of_nat p - 10 <? 0 then 0 else Z.of_nat p - 10).
  assert (Ea : a = Z.of_nat (p - 10)) by (unfold a; destruct (Z.ltb_spec (Z.of_nat p - 10) 0); lia).
  rewrite Ea. clear a Ea.
  set (b := if Z.of_nat (length str) <? Z.of_nat p + 10 then Z.of_nat (length str) else Z.of_nat p + 10).
  assert (Eb : b = Z.of_nat (Nat.min (length str) (p + 10)))
    by (unfold b; destruct (Z.ltb_spec (Z.of_nat (length str)) (Z.of_nat p + 10)); lia).
  rewrite Eb. clear b Eb.
  remember (Nat.min (length str) (p + 10)) as b eqn:Db.
  assert (Hb : (p < b <= length str /\ b <= p + 10)%nat) by lia.
  rewrite (proj2 (Z.ltb_ge (Z.of_nat b - Z.of_nat (p - 10) + 1) 0)) by lia.
  rewrite slice_spec by lia.
  set (pre := firstn (Z.to_nat (Z.of_nat p - Z.of_nat (p - 10))) (skipn (Z.to_nat (Z.of_nat (p - 10))) str)).
  assert (Epre : pre = skipn (p - 10) (firstn p str)).
  { unfold pre. rewrite Nat2Z.id, skipn_firstn_comm. f_equal. lia. }
  assert (Lpre : length pre = (p - (p - 10))%nat).
  { rewrite Epre, skipn_length, firstn_length. lia. }
  rewrite slice_spec by lia.
  set (post := firstn (Z.to_nat (Z.of_nat b - Z.of_nat p)) (skipn (Z.to_nat (Z.of_nat p)) str)).
  assert (Lpost : length post = (b - p)%nat).
  { unfold post. rewrite firstn_length, skipn_length. lia. }
  assert (Epost : post = firstn 10 (skipn p str)).
  { unfold post. rewrite Nat2Z.id.
    destruct (Nat.le_gt_cases (p + 10) (length str)).
    - f_equal. lia.
    - rewrite !firstn_all2; [reflexivity| |]; rewrite skipn_length; lia. }
  clearbody pre post.
  set (n := Z.to_nat (Z.of_nat b - Z.of_nat (p - 10) + 1)).
  assert (Hn : n = (length pre + 1 + length post)%nat) by (unfold n; rewrite Lpre, Lpost; lia).
  clearbody n. unfold copy_into. rewrite repeat_length.
  replace ((0 <=? 0) && (0 <=? Z.of_nat n)) with true by lia. cbv zeta.
  cbn [Z.to_nat]. rewrite Nat.sub_0_r. rewrite (Nat.min_r n (length pre)) by lia. rewrite firstn_all. cbn [firstn app].
  assert (Hrep : skipn (0 + length pre) (repeat x00 n) = repeat x00 (1 + length post)).
  { rewrite Hn. replace (length pre + 1 + length post)%nat with (length pre + (1 + length post))%nat by lia.
    rewrite repeat_app. cbn [plus]. rewrite skipn_app, skipn_all2 by (rewrite repeat_length; lia).
    rewrite repeat_length, Nat.sub_diag. reflexivity. }
  rewrite Hrep. unfold assign_at. rewrite app_length, repeat_length.
  assert (Hps : Z.to_nat (Z.of_nat p - Z.of_nat (p - 10)) = length pre) by lia.
  rewrite (proj2 (andb_true_iff (0 <=? Z.of_nat p - Z.of_nat (p - 10))
     (Z.of_nat p - Z.of_nat (p - 10) <? Z.of_nat (length pre + (1 + length post)))))
    by (split; [apply Z.leb_le | apply Z.ltb_lt]; lia).
  rewrite Hps. rewrite firstn_app, firstn_all, Nat.sub_diag. cbn [firstn]. rewrite app_nil_r.
  rewrite skipn_app. rewrite (skipn_all2 pre) by lia. replace (S (length pre) - length pre)%nat with 1%nat by lia.
  cbn [repeat plus skipn app]. rewrite app_length. cbn [length]. rewrite repeat_length.
  rewrite (proj2 (andb_true_iff (0 <=? Z.of_nat p - Z.of_nat (p - 10) + 1)
     (Z.of_nat p - Z.of_nat (p - 10) + 1 <=? Z.of_nat (length pre + S (length post)))))
    by (split; apply Z.leb_le; lia).
  cbv zeta.
  replace (Z.to_nat (Z.of_nat p - Z.of_nat (p - 10) + 1)) with (S (length pre)) by lia.
  replace (length pre + S (length post) - S (length pre))%nat with (length post) by lia. rewrite Nat.min_id, firstn_all.
  rewrite firstn_app. rewrite (firstn_all2 pre) by lia. replace (S (length pre) - length pre)%nat with 1%nat by lia.
  cbn [firstn]. rewrite skipn_all2 by (rewrite app_length; cbn [length]; rewrite repeat_length; lia).
  rewrite app_nil_r, <- app_assoc. cbn [app]. rewrite Epre, Epost. reflexivity.
Qed.

(** ** Currency *)

Lemma delete_byte_filter c s : delete_byte c s = filter (fun b => negb (beq b c)) s.
Proof. induction s as [|b s IH]; simpl; [reflexivity|]. destruct (beq b c); simpl; congruence. Qed.

Lemma index_byte_spec s c : match index_byte s c with
  | Zneg _ => ~ In c s
  | i => exists a b, s = a ++ c :: b /\ ~ In c a /\ i = Z.of_nat (length a)
  end /\ -1 <= index_byte s c.
Proof.
  induction s as [|b s [IH L]]; cbn [index_byte]; [split; [intros [] | lia]|].
  destruct (beq_spec b c) as [->|N].
  - split; [exists [], s; repeat split; intros [] | lia].
  - cbv zeta. destruct (Z.ltb_spec (index_byte s c) 0) as [H|H].
    + destruct (index_byte s c); try lia. split; [|lia]. intros [X|X]; [congruence | exact (IH X)].
    + split; [|lia]. destruct (index_byte s c) as [|i|i] eqn:E; [| |lia];
      destruct IH as (a & d & -> & N1 & E1); (assert (N2 : ~ In c (b :: a)) by (intros [X|X]; [congruence | exact (N1 X)]));
      match goal with |- match ?x with _ => _ end => assert (E2 : x = Z.of_nat (length (b :: a))) by (cbn [length]; lia) end;
      rewrite E2; cbn [length Z.of_nat]; exists (b :: a), d; repeat split; try exact N2.
Qed.

(** ** RFC numbers as the float reader sees them *)

Lemma rfc_number_read t neg c j whole : rfc_number t neg c j whole ->
  parse_special t = None /\ read_float t = Some (neg, c, j, false) /\ 0 <= c.
Proof.
  assert (NN : forall s, digits_acc 0 s = Some (dec_value s) -> 0 <= dec_value s)
    by (intros s X; exact (digits_acc_nonneg 0 s _ ltac:(lia) X)).
  destruct 1 as [neg ip [[Hne Hd] _]|neg ip fs [[Hne Hd] _] [Hfn Hf]
                |neg ip et e [[Hne Hd] _] He|neg ip fs et e [[Hne Hd] _] [Hfn Hf] He];
    apply digits_all in Hd; destruct ip as [|c0 r0]; try congruence; clear Hne;
    assert (c0 :: r0 <> []) as Hne by discriminate;
    assert (is_digit c0 = true) as Hc0 by (inversion Hd; assumption);
    assert (digits_acc 0 (c0 :: r0) = Some (dec_value (c0 :: r0))) as Hv0 by (apply dec_value_acc, digits_all, Hd).
  - split; [apply (parse_special_digit neg c0 r0); exact Hc0|]. split; [|apply NN; exact Hv0].
    apply (read_float_int neg (c0 :: r0) _ Hne Hv0).
  - apply digits_all in Hf.
    assert (digits_acc 0 ((c0 :: r0) ++ fs) = Some (dec_value ((c0 :: r0) ++ fs))) as Hv.
    { apply dec_value_acc, digits_all, Forall_app. split; assumption. }
    split; [apply (parse_special_digit neg c0); exact Hc0|]. split; [|apply NN; exact Hv].
    apply (read_float_frac neg (c0 :: r0) fs _ Hne Hv).
  - split; [apply (parse_special_digit neg c0); exact Hc0|]. split; [|apply NN; exact Hv0].
    pose proof (read_float_exp neg (c0 :: r0) false [] et e Hne Hd (Forall_nil _) ltac:(auto) He) as R.
    rewrite app_nil_r in R. cbn [length app Z.of_nat] in R. rewrite Z.sub_0_r in R. exact R.
  - apply digits_all in Hf.
    assert (digits_acc 0 ((c0 :: r0) ++ fs) = Some (dec_value ((c0 :: r0) ++ fs))) as Hv.
    { apply dec_value_acc, digits_all, Forall_app. split; assumption. }
    split; [apply (parse_special_digit neg c0); exact Hc0|]. split; [|apply NN; exact Hv].
    apply (read_float_exp neg (c0 :: r0) true fs et e Hne Hd Hf ltac:(discriminate) He).
Qed.

(** ** Numbered keys *)

Lemma idx_key_inj i k : idx_key i = idx_key k -> i = k.
Proof.
  unfold idx_key, format_int. destruct (Z.ltb_spec (Z.of_nat i) 0); [lia|]. destruct (Z.ltb_spec (Z.of_nat k) 0); [lia|].
  intros H1. apply format_uint_inj in H1; lia.
Qed.

(** A loop over numbered keys of a finite map stops. *)
Lemma numbered_bound (kvs : smap json) (key : nat -> bytes) a n :
  (forall i k, key i = key k -> i = k) ->
  (forall i, (a <= i < a + n)%nat -> lookup (key i) kvs <> None) -> (n <= length kvs)%nat.
Proof.
  intros Hinj H. rewrite <- (map_length fst kvs).
  replace n with (length (map key (seq a n))) by (rewrite map_length, seq_length; reflexivity).
  apply NoDup_incl_length.
  - apply Injective_map_NoDup; [intros i k; apply Hinj | apply seq_NoDup].
  - intros x Hx. apply in_map_iff in Hx as (i & <- & Hi). apply in_seq in Hi.
    destruct (in_dec (list_eq_dec Byte.byte_eq_dec) (key i) (map fst kvs)) as [I|N]; [exact I|].
    exfalso. apply (H i Hi). apply lookup_none. exact N.
Qed.

(** A text is at most one word. *)
Lemma is_word_fun : forall w s w', lower_word w -> lower_word w' -> is_word s w -> is_word s w' -> w = w'.
Proof.
  assert (X5 : bz xc5 = 197) by reflexivity. assert (X6 : bz xe2 = 226) by reflexivity.
  induction w as [|c w IH]; intros s w' L L' H H'.
  - inversion H; subst. inversion H' as [|a c' s' w2 S W E]; subst; [reflexivity|]. destruct S; discriminate.
  - inversion H as [|a ? s1 ? S W E]; subst. inversion H' as [E0|a' c' s1' w2 S' W' E]; subst.
    { destruct S; discriminate. }
    inversion L as [|? ? Lc Lw]; subst. inversion L' as [|? ? Lc' Lw']; subst.
    destruct S as [c|c u R U| |]; destruct S' as [c'|c' u' R' U'| |]; simpl in E; injection E; clear E; intros; subst; try lia;
      try discriminate; try (f_equal; eapply IH; eassumption).
    f_equal; [apply bz_inj; lia | eapply IH; eassumption].
Qed.

Lemma index_byte_first c b : forall a, ~ In c a -> index_byte (a ++ c :: b) c = Z.of_nat (length a).
Proof.
  induction a as [|x a IH]; intros N; cbn [app index_byte].
  - destruct (beq_spec c c); [reflexivity | congruence].
  - destruct (beq_spec x c) as [->|Nx]; [exfalso; apply N; left; reflexivity|].
    rewrite IH by (intros X; apply N; right; exact X). cbv zeta.
    destruct (Z.ltb_spec (Z.of_nat (length a)) 0); [lia|]. cbn [length]. lia.
Qed.
