(** Facts about the calendar: [date_of] gives the dates of [on_day], the texts
    of [iso_time] are ordered like the instants. *)
From Verif Require Import Base Strconv StrconvFacts SpecRFC SpecTime Time.

Definition mkdate (x : Z * Z * Z) : date := let '(y, m, d) := x in Date y m d.
Definition dof (n : Z) : date := mkdate (date_of n).

Lemma is_leap_leap y : is_leap y = leap y.
Proof.
  unfold is_leap, leap. destruct (y mod 400 =? 0) eqn:E.
  - apply Z.eqb_eq in E. assert (y mod 4 = 0) as ->.
    { pose proof (Z.div_mod y 400 ltac:(lia)). rewrite E in H. rewrite H.
      replace (400 * (y / 400) + 0) with (0 + (100 * (y / 400)) * 4) by ring. rewrite Z_mod_plus_full. reflexivity. }
    simpl. rewrite !Bool.orb_true_r. reflexivity.
  - rewrite !Bool.orb_false_r. reflexivity.
Qed.

(** The number of the day of a date *)
Definition day_number (y m d : Z) : Z :=
  (y - 1) * 365 + (y - 1) / 4 - (y - 1) / 100 + (y - 1) / 400 + days_before (m - 1)
  + (if leap y && (2 <? m) then 1 else 0) + d - 1 - 719162.

Lemma step_div c y : 0 < c -> y / c = (y - 1) / c + if y mod c =? 0 then 1 else 0.
Proof. intros C. destruct (Z.eqb_spec (y mod c) 0); Z.div_mod_to_equations; nia. Qed.

Ltac months Hm :=
  destruct Hm as [->|[->|[->|[->|[->|[->|[->|[->|[->|[->|[->| ->]]]]]]]]]]].
Ltac month_consts :=
  repeat match goal with
    | |- context [days_before ?e] => let v := eval vm_compute in (days_before e) in change (days_before e) with v
    | |- context [?a =? ?b] => let v := eval vm_compute in (a =? b) in change (a =? b) with v
    | |- context [2 <? ?b] => let v := eval vm_compute in (2 <? b) in change (2 <? b) with v
    end; cbn [orb andb].

Lemma twelve m : 1 <= m <= 12 ->
  m = 1 \/ m = 2 \/ m = 3 \/ m = 4 \/ m = 5 \/ m = 6 \/ m = 7 \/ m = 8 \/ m = 9 \/ m = 10 \/ m = 11 \/ m = 12.
Proof. lia. Qed.

Lemma day_number_next x : is_date x ->
  day_number (year (tomorrow x)) (month (tomorrow x)) (day (tomorrow x)) = day_number (year x) (month x) (day x) + 1.
Proof.
  destruct x as [y m d]. unfold is_date, tomorrow; cbn [year month day]. intros [M D].
  pose proof (twelve m M) as Hm.
  destruct (Z.ltb_spec d (month_days y m)) as [L|L].
  - unfold day_number; cbn [year month day]. lia.
  - assert (d = month_days y m) by lia. subst d. destruct (Z.ltb_spec m 12) as [L2|L2]; unfold day_number; cbn [year month day].
    + months Hm; unfold month_days; destruct (leap y); month_consts; lia.
    + assert (m = 12) by lia. subst m. change (month_days y 12) with 31.
      change (days_before (1 - 1)) with 0. change (days_before (12 - 1)) with 334.
      change (2 <? 1) with false. change (2 <? 12) with true. rewrite Bool.andb_false_r, Bool.andb_true_r.
      replace (y + 1 - 1) with y by ring.
      pose proof (step_div 4 y ltac:(lia)) as S4. pose proof (step_div 100 y ltac:(lia)) as S100.
      pose proof (step_div 400 y ltac:(lia)) as S400. unfold leap.
      assert (y mod 400 = 0 -> y mod 100 = 0) by (intros; Z.div_mod_to_equations; lia).
      assert (y mod 100 = 0 -> y mod 4 = 0) by (intros; Z.div_mod_to_equations; lia).
      destruct (Z.eqb_spec (y mod 4) 0), (Z.eqb_spec (y mod 100) 0), (Z.eqb_spec (y mod 400) 0); cbn [negb andb orb]; lia.
Qed.

Lemma tomorrow_is_date x : is_date x -> is_date (tomorrow x).
Proof.
  destruct x as [y m d]. unfold is_date, tomorrow; cbn [year month day]. intros [M D].
  destruct (Z.ltb_spec d (month_days y m)); cbn [year month day]; [lia|].
  destruct (Z.ltb_spec m 12); cbn [year month day]; unfold month_days.
  - split; [lia|]. destruct (m + 1 =? 2); [destruct (leap y)|destruct (_ || _)]; lia.
  - split; [lia|]. change (1 =? 2) with false. cbn. lia.
Qed.

(** The days of a year *)
Definition year_start (y : Z) : Z := (y - 1) * 365 + (y - 1) / 4 - (y - 1) / 100 + (y - 1) / 400 - 719162.
Definition year_length (y : Z) : Z := if leap y then 366 else 365.

Lemma year_start_next y : year_start (y + 1) = year_start y + year_length y.
Proof.
  unfold year_start, year_length. replace (y + 1 - 1) with y by ring.
  pose proof (step_div 4 y ltac:(lia)) as S4. pose proof (step_div 100 y ltac:(lia)) as S100.
  pose proof (step_div 400 y ltac:(lia)) as S400. unfold leap.
  assert (y mod 400 = 0 -> y mod 100 = 0) by (intros; Z.div_mod_to_equations; lia).
  assert (y mod 100 = 0 -> y mod 4 = 0) by (intros; Z.div_mod_to_equations; lia).
  destruct (Z.eqb_spec (y mod 4) 0), (Z.eqb_spec (y mod 100) 0), (Z.eqb_spec (y mod 400) 0); cbn [negb andb orb]; lia.
Qed.
Lemma year_start_mono y y' : y < y' -> year_start (y + 1) <= year_start y'.
Proof.
  intros H. replace y' with (y + 1 + Z.of_nat (Z.to_nat (y' - y - 1))) by lia. generalize (Z.to_nat (y' - y - 1)) as k.
  induction k as [|k IH]; [rewrite Z.add_0_r; lia|].
  rewrite Nat2Z.inj_succ, <- Z.add_1_r. rewrite Z.add_assoc, (year_start_next (y + 1 + Z.of_nat k)).
  unfold year_length. destruct (leap _); lia.
Qed.

Lemma day_number_year x : is_date x ->
  year_start (year x) <= day_number (year x) (month x) (day x) < year_start (year x) + year_length (year x).
Proof.
  destruct x as [y m d]. unfold is_date; cbn [year month day]. intros [M D]. revert D. unfold day_number, year_start, year_length, month_days.
  pose proof (twelve m M) as Hm. months Hm; destruct (leap y); month_consts; intros; lia.
Qed.

Lemma day_number_inj x x' : is_date x -> is_date x' ->
  day_number (year x) (month x) (day x) = day_number (year x') (month x') (day x') -> x = x'.
Proof.
  intros V V' E. pose proof (day_number_year x V) as Y. pose proof (day_number_year x' V') as Y'. rewrite E in Y.
  assert (YE : year x = year x').
  { destruct (Z.lt_trichotomy (year x) (year x')) as [L|[L|L]]; [exfalso|exact L|exfalso];
      apply year_start_mono in L; rewrite year_start_next in L; lia. }
  clear Y Y'. destruct x as [y m d], x' as [y' m' d']. unfold is_date in *; cbn [year month day] in *. subst y'.
  destruct V as [M D], V' as [M' D']. revert D D' E. unfold day_number, month_days.
  pose proof (twelve m M) as Hm. pose proof (twelve m' M') as Hm'.
  months Hm; months Hm'; destruct (leap y); month_consts; intros; first [f_equal; lia | exfalso; lia].
Qed.

(** Time.Date: the year and the day in the year, then month and day *)
Lemma date_of_ok n : is_date (dof n) /\ day_number (year (dof n)) (month (dof n)) (day (dof n)) = n.
Proof.
  unfold dof, date_of. cbv zeta.
  set (d0 := n + 719162). set (q := d0 / 146097). set (d := d0 - 146097 * q).
  assert (D : 0 <= d < 146097) by (subst d q; pose proof (Z.div_mod d0 146097 ltac:(lia)); pose proof (Z.mod_pos_bound d0 146097 ltac:(lia)); lia).
  set (c := d / 36524 - d / 36524 / 4). set (d1 := d - 36524 * c).
  assert (C : 0 <= c <= 3 /\ 0 <= d1 <= 36524 /\ (d1 = 36524 -> c = 3)).
  { subst d1 c. Z.div_mod_to_equations. lia. }
  set (n2 := d1 / 1461). set (d2 := d1 - 1461 * n2).
  assert (N2 : 0 <= n2 <= 24 /\ 0 <= d2 < 1461 /\ (n2 = 24 -> d2 = 1460 -> c = 3)).
  { subst d2 n2. Z.div_mod_to_equations. lia. }
  set (n3 := d2 / 365 - d2 / 365 / 4). set (d3 := d2 - 365 * n3).
  assert (N3 : 0 <= n3 <= 3 /\ 0 <= d3 <= 365 /\ (d3 = 365 -> n3 = 3 /\ d2 = 1460)).
  { subst d3 n3. Z.div_mod_to_equations. lia. }
  set (y := 400 * q + 100 * c + 4 * n2 + n3 + 1).
  assert (Y4 : (y - 1) / 4 = 100 * q + 25 * c + n2) by (symmetry; apply (Z.div_unique_pos _ _ _ n3); subst y; lia).
  assert (Y100 : (y - 1) / 100 = 4 * q + c) by (symmetry; apply (Z.div_unique_pos _ _ _ (4 * n2 + n3)); subst y; lia).
  assert (Y400 : (y - 1) / 400 = q) by (symmetry; apply (Z.div_unique_pos _ _ _ (100 * c + 4 * n2 + n3)); subst y; lia).
  assert (S : n = year_start y + d3).
  { unfold year_start. rewrite Y4, Y100, Y400. subst y d3 d2 d1 d d0. lia. }
  assert (LY : d3 < year_length y).
  { pose proof (year_start_next y) as NX. unfold year_length in *.
    destruct (leap y) eqn:LP; [lia|]. destruct (Z.eq_dec d3 365) as [E|]; [exfalso|lia].
    destruct N3 as (_ & _ & N3). destruct (N3 E) as [E3 E2].
    revert NX. unfold year_start. rewrite Y4, Y100, Y400. replace (y + 1 - 1) with y by ring.
    assert (y / 4 = 100 * q + 25 * c + n2 + 1) as -> by (symmetry; apply (Z.div_unique_pos _ _ _ 0); subst y; lia).
    destruct (Z.eq_dec n2 24) as [E24|E24].
    - destruct N2 as (_ & _ & N2). specialize (N2 E24 E2).
      assert (y / 100 = 4 * q + c + 1) as -> by (symmetry; apply (Z.div_unique_pos _ _ _ 0); subst y; lia).
      assert (y / 400 = q + 1) as -> by (symmetry; apply (Z.div_unique_pos _ _ _ 0); subst y; lia). lia.
    - assert (y / 100 = 4 * q + c) as -> by (symmetry; apply (Z.div_unique_pos _ _ _ (4 * n2 + 4)); subst y; lia).
      assert (y / 400 = q) as -> by (symmetry; apply (Z.div_unique_pos _ _ _ (100 * c + 4 * n2 + 4)); subst y; lia). lia. }
  rewrite !is_leap_leap. clearbody y d3. clear - S LY N3. destruct N3 as (_ & D3 & _).
  assert (G : forall m e, 1 <= m <= 12 /\ 1 <= e <= month_days y m -> d3 = days_before (m - 1) + (if leap y && (2 <? m) then 1 else 0) + e - 1 ->
     is_date (Date y m e) /\ day_number y m e = n).
  { intros m e V E. split; [exact V|]. rewrite S, E. unfold day_number, year_start. ring. }
  unfold year_length in LY.
  destruct (leap y && (d3 =? 59)) eqn:F.
  - apply andb_true_iff in F as [Ly E59]. apply Z.eqb_eq in E59. cbn [mkdate year month day]; apply G; unfold month_days; rewrite Ly; month_consts; lia.
  - set (d4 := if leap y && (59 <? d3) then d3 - 1 else d3).
    assert (D4 : 0 <= d4 <= 364 /\ d3 = d4 + (if leap y && (59 <=? d4) then 1 else 0)).
    { subst d4. destruct (leap y); cbn [andb] in *; [|lia]. apply Z.eqb_neq in F.
      destruct (Z.ltb_spec 59 d3); [destruct (Z.leb_spec 59 (d3 - 1)); lia|destruct (Z.leb_spec 59 d3); lia]. }
    clearbody d4. destruct D4 as [B4 E4].
    pose proof (Z.div_mod d4 31 ltac:(lia)) as DM. pose proof (Z.mod_pos_bound d4 31 ltac:(lia)) as MB.
    set (q4 := d4 / 31) in *. set (r4 := d4 mod 31) in *. clearbody q4 r4.
    assert (Q : q4 = 0 \/ q4 = 1 \/ q4 = 2 \/ q4 = 3 \/ q4 = 4 \/ q4 = 5 \/ q4 = 6 \/ q4 = 7 \/ q4 = 8 \/ q4 = 9 \/ q4 = 10 \/ q4 = 11) by lia.
    clear F LY S. destruct (Z.leb_spec (days_before (q4 + 1)) d4) as [L|L]; cbn [mkdate year month day].
    + revert L; months Q; month_consts; intros L; (apply G; [unfold month_days|revert E4]; destruct (leap y); cbn [andb]; month_consts;
        try destruct (Z.leb_spec 59 d4); lia).
    + revert L; months Q; month_consts; intros L; (apply G; [unfold month_days|revert E4]; destruct (leap y); cbn [andb]; month_consts;
        try destruct (Z.leb_spec 59 d4); lia).
Qed.

Lemma dof_next n : is_date (dof n) /\ dof (n + 1) = tomorrow (dof n).
Proof.
  destruct (date_of_ok n) as [V N]. destruct (date_of_ok (n + 1)) as [V' N']. split; [exact V|].
  apply day_number_inj; [exact V'|apply tomorrow_is_date, V|]. rewrite N', day_number_next by exact V. rewrite N. reflexivity.
Qed.

Lemma month_days_pos y m : 28 <= month_days y m <= 31.
Proof. unfold month_days. destruct (m =? 2); [destruct (leap y)|destruct (_ || _)]; lia. Qed.

Definition date_lt (x y : date) : Prop :=
  year x < year y \/ (year x = year y /\ (month x < month y \/ (month x = month y /\ day x < day y))).
Lemma date_lt_trans x y z : date_lt x y -> date_lt y z -> date_lt x z.
Proof. unfold date_lt. lia. Qed.
Lemma tomorrow_later x : date_lt x (tomorrow x).
Proof. unfold date_lt, tomorrow. destruct (day x <? _); simpl; [lia|]. destruct (month x <? 12); simpl; lia. Qed.

Lemma tomorrow_inj x y : is_date x -> is_date y -> tomorrow x = tomorrow y -> x = y.
Proof.
  destruct x as [y1 m1 d1], y as [y2 m2 d2]. unfold is_date, tomorrow; simpl.
  pose proof (month_days_pos y1 m1). pose proof (month_days_pos y2 m2).
  destruct (Z.ltb_spec d1 (month_days y1 m1)); destruct (Z.ltb_spec d2 (month_days y2 m2)); simpl;
    try destruct (Z.ltb_spec m1 12); try destruct (Z.ltb_spec m2 12); simpl; intros [] [] E; injection E; intros;
    try (exfalso; lia); assert (y1 = y2) by lia; assert (m1 = m2) by lia; subst y2 m2; f_equal; lia.
Qed.

Lemma on_day_dof n : on_day n (dof n).
Proof.
  assert (F : forall k : nat, on_day (Z.of_nat k) (dof (Z.of_nat k)) /\ on_day (- Z.of_nat k) (dof (- Z.of_nat k))).
  { induction k as [|k [I1 I2]].
    - split; exact od_epoch.
    - rewrite Nat2Z.inj_succ, <- Z.add_1_r. split.
      + destruct (dof_next (Z.of_nat k)) as [_ ->]. apply od_later. exact I1.
      + destruct (dof_next (- (Z.of_nat k + 1))) as [V E].
        replace (- (Z.of_nat k + 1) + 1) with (- Z.of_nat k) in E by ring.
        apply od_earlier; [exact V|]. rewrite <- E.
        replace (- (Z.of_nat k + 1) + 1) with (- Z.of_nat k) by ring. exact I2. }
  destruct (Z.le_gt_cases 0 n) as [L|L].
  - destruct (F (Z.to_nat n)) as [H _]. rewrite Z2Nat.id in H by lia. exact H.
  - destruct (F (Z.to_nat (- n))) as [_ H]. rewrite Z2Nat.id in H by lia.
    rewrite Z.opp_involutive in H. exact H.
Qed.

Lemma on_day_unique n x : on_day n x -> x = dof n.
Proof.
  induction 1 as [|n x _ IH|n x V _ IH].
  - reflexivity.
  - destruct (dof_next n) as [_ ->]. rewrite IH. reflexivity.
  - destruct (dof_next n) as [V2 E]. apply tomorrow_inj; [exact V|exact V2|]. congruence.
Qed.

Lemma dof_lt a b : a < b -> date_lt (dof a) (dof b).
Proof.
  intros L. assert (F : forall k : nat, date_lt (dof a) (dof (a + 1 + Z.of_nat k))).
  { induction k as [|k IH].
    - simpl. rewrite Z.add_0_r. destruct (dof_next a) as [_ ->]. apply tomorrow_later.
    - rewrite Nat2Z.inj_succ, <- Z.add_1_r. replace (a + 1 + (Z.of_nat k + 1)) with (a + 1 + Z.of_nat k + 1) by ring.
      destruct (dof_next (a + 1 + Z.of_nat k)) as [_ ->]. eapply date_lt_trans; [exact IH|apply tomorrow_later]. }
  specialize (F (Z.to_nat (b - a - 1))). rewrite Z2Nat.id in F by lia.
  replace (a + 1 + (b - a - 1)) with b in F by ring. exact F.
Qed.

(** comparison of digit strings *)
Lemma bcmp_app s1 t1 s2 t2 : length s1 = length t1 ->
  bcmp (s1 ++ s2) (t1 ++ t2) = match bcmp s1 t1 with Eq => bcmp s2 t2 | c => c end.
Proof.
  revert t1; induction s1 as [|x s1 IH]; intros [|y t1]; simpl; try discriminate; [reflexivity|].
  intros [=L]. destruct (bz x ?= bz y); try reflexivity. apply IH. exact L.
Qed.

Lemma dec_fold s a : fold_left (fun a c => a * 10 + (bz c - 48)) s a = a * 10 ^ Z.of_nat (length s) + dec_value s.
Proof.
  unfold dec_value. revert a; induction s as [|c s IH]; intros a.
  - simpl. ring.
  - cbn [fold_left length]. rewrite IH, (IH (0 * 10 + (bz c - 48))).
    rewrite Nat2Z.inj_succ, Z.pow_succ_r by lia. ring.
Qed.

Lemma dec_cons c s : dec_value (c :: s) = (bz c - 48) * 10 ^ Z.of_nat (length s) + dec_value s.
Proof. unfold dec_value at 1. cbn [fold_left]. rewrite dec_fold. ring. Qed.

Lemma dec_bound s : Forall digit s -> 0 <= dec_value s < 10 ^ Z.of_nat (length s).
Proof.
  induction s as [|c s IH]; intros H; [cbn; lia|]. inversion H as [|? ? D1 D2]; subst.
  rewrite dec_cons. cbn [length]. rewrite Nat2Z.inj_succ, Z.pow_succ_r by lia.
  specialize (IH D2). unfold digit in D1. nia.
Qed.

Lemma bcmp_digits s t : length s = length t -> Forall digit s -> Forall digit t ->
  bcmp s t = (dec_value s ?= dec_value t).
Proof.
  revert t; induction s as [|c s IH]; intros [|e t] L Hs Ht; try discriminate; [reflexivity|].
  inversion Hs as [|? ? A1 A2]; inversion Ht as [|? ? B1 B2]; subst. injection L as L.
  cbn [bcmp]. rewrite !dec_cons, (IH t L A2 B2), <- L.
  pose proof (dec_bound s A2) as S1. pose proof (dec_bound t B2) as T1. rewrite <- L in T1.
  set (p := 10 ^ Z.of_nat (length s)) in *. clearbody p.
  destruct (Z.compare_spec (bz c) (bz e)) as [E|E|E].
  - rewrite E. destruct (Z.compare_spec (dec_value s) (dec_value t)); symmetry;
      [apply Z.compare_eq_iff|apply Z.compare_lt_iff|apply Z.compare_gt_iff]; lia.
  - symmetry; apply Z.compare_lt_iff. nia.
  - symmetry; apply Z.compare_gt_iff. nia.
Qed.

Lemma number_cmp k s t a b : number k s a -> number k t b -> bcmp s t = (a ?= b).
Proof. intros (L1 & D1 & <-) (L2 & D2 & <-). apply bcmp_digits; congruence. Qed.
Lemma number_len k s a k' t b : number k s a -> number k' t b -> k = k' -> length s = length t.
Proof. intros (L1 & _) (L2 & _) ->. congruence. Qed.
Lemma number_pos k s a : number k s a -> 0 <= a.
Proof. intros (_ & D & <-). apply dec_bound in D. lia. Qed.

Definition lexc (c d : comparison) : comparison := match c with Eq => d | _ => c end.

Lemma lexc_lt c d : lexc c d = Lt <-> c = Lt \/ (c = Eq /\ d = Lt).
Proof. destruct c; simpl; intuition congruence. Qed.

Lemma on_day_cmp n x k y : on_day n x -> on_day k y ->
  lexc (year x ?= year y) (lexc (month x ?= month y) (day x ?= day y)) = (n ?= k).
Proof.
  intros Hx%on_day_unique Hy%on_day_unique.
  destruct (Z.compare_spec n k) as [E|E|E].
  - subst. rewrite !Z.compare_refl. reflexivity.
  - apply dof_lt in E. rewrite <- Hx, <- Hy in E. destruct E as [E|[E [F|[F G]]]].
    + apply Z.compare_lt_iff in E. rewrite E. reflexivity.
    + rewrite E, Z.compare_refl. apply Z.compare_lt_iff in F. rewrite F. reflexivity.
    + rewrite E, F, !Z.compare_refl. apply Z.compare_lt_iff in G. exact G.
  - apply dof_lt in E. rewrite <- Hx, <- Hy in E. destruct E as [E|[E [F|[F G]]]].
    + apply Z.compare_gt_iff in E. rewrite E. reflexivity.
    + rewrite E, Z.compare_refl. apply Z.compare_gt_iff in F. rewrite F. reflexivity.
    + rewrite E, F, !Z.compare_refl. apply Z.compare_gt_iff in G. exact G.
Qed.

Lemma lexc_assoc a b c : lexc (lexc a b) c = lexc a (lexc b c).
Proof. destruct a; reflexivity. Qed.

Lemma iso_order s a t b : iso_time s a -> iso_time t b -> bcmp s t = (a ?= b).
Proof.
  intros H1 H2.
  destruct H1 as [ty tm td th ti ts y m d n h mi s Ny Nm Nd On Nh Lh Ni Li Ns Ls].
  destruct H2 as [ty' tm' td' th' ti' ts' y' m' d' n' h' mi' s' Ny' Nm' Nd' On' Nh' Lh' Ni' Li' Ns' Ls'].
  rewrite bcmp_app by (eapply number_len; eauto). rewrite (number_cmp _ _ _ _ _ Ny Ny').
  rewrite bcmp_app by reflexivity. rewrite (bcmp_refl (B "-")).
  rewrite bcmp_app by (eapply number_len; eauto). rewrite (number_cmp _ _ _ _ _ Nm Nm').
  rewrite bcmp_app by reflexivity. rewrite (bcmp_refl (B "-")).
  rewrite bcmp_app by (eapply number_len; eauto). rewrite (number_cmp _ _ _ _ _ Nd Nd').
  rewrite bcmp_app by reflexivity. rewrite (bcmp_refl (B "T")).
  rewrite bcmp_app by (eapply number_len; eauto). rewrite (number_cmp _ _ _ _ _ Nh Nh').
  rewrite bcmp_app by reflexivity. rewrite (bcmp_refl (B ":")).
  rewrite bcmp_app by (eapply number_len; eauto). rewrite (number_cmp _ _ _ _ _ Ni Ni').
  rewrite bcmp_app by reflexivity. rewrite (bcmp_refl (B ":")).
  rewrite bcmp_app by (eapply number_len; eauto). rewrite (number_cmp _ _ _ _ _ Ns Ns').
  rewrite (bcmp_refl (B "Z")).
  pose proof (on_day_cmp _ _ _ _ On On') as E. cbn [year month day] in E.
  apply number_pos in Nh, Nh', Ni, Ni', Ns, Ns'.
  transitivity (lexc (lexc (y ?= y') (lexc (m ?= m') (d ?= d'))) (lexc (h ?= h') (lexc (mi ?= mi') (s ?= s')))).
  { rewrite !lexc_assoc. unfold lexc. destruct (y ?= y'); [|reflexivity..]. destruct (m ?= m'); [|reflexivity..].
    destruct (d ?= d'); [|reflexivity..]. destruct (h ?= h'); [|reflexivity..]. destruct (mi ?= mi'); [|reflexivity..].
    destruct (s ?= s'); reflexivity. }
  rewrite E. unfold lexc.
  destruct (Z.compare_spec n n') as [E1|E1|E1]; [|symmetry; apply Z.compare_lt_iff; nia|symmetry; apply Z.compare_gt_iff; nia].
  destruct (Z.compare_spec h h') as [E2|E2|E2]; [|symmetry; apply Z.compare_lt_iff; nia|symmetry; apply Z.compare_gt_iff; nia].
  destruct (Z.compare_spec mi mi') as [E3|E3|E3]; [|symmetry; apply Z.compare_lt_iff; nia|symmetry; apply Z.compare_gt_iff; nia].
  destruct (Z.compare_spec s s') as [E4|E4|E4];
    [symmetry; apply Z.compare_eq_iff|symmetry; apply Z.compare_lt_iff|symmetry; apply Z.compare_gt_iff]; lia.
Qed.

(** the printed numbers *)
Lemma digits_acc_fold s a b : digits_acc a s = Some b -> fold_left (fun a c => a * 10 + (bz c - 48)) s a = b.
Proof.
  revert a; induction s as [|c s IH]; intros a; simpl; [congruence|].
  destruct (is_digit c); [|discriminate]. intros H. apply IH in H. rewrite <- H. f_equal.
Qed.
Lemma all_digits_digit s : all_digits s -> Forall digit s.
Proof.
  unfold all_digits. intros H. eapply Forall_impl; [|exact H]. intros c C. unfold is_digit in C.
  rewrite Bool.andb_true_iff, !Z.leb_le in C. exact C.
Qed.
Lemma append_int_number k v : 0 <= v < 10 ^ Z.of_nat k -> (k > 0)%nat -> number k (append_int v (Z.of_nat k)) v.
Proof.
  intros H K. unfold append_int. destruct (Z.ltb_spec v 0); [lia|].
  destruct (format_uint_spec v ltac:(lia)) as (A & V & d & r & E & Hd & Hone & Hpos).
  apply all_digits_digit in A. apply digits_acc_fold in V. fold (dec_value (format_uint v)) in V.
  assert (L : (length (format_uint v) <= k)%nat).
  { destruct (Z.eq_dec v 0) as [->|Nz]; [cbn; lia|].
    rewrite E in V. rewrite dec_cons in V. pose proof (dec_bound r) as Br. rewrite E in A. specialize (Br (Forall_inv_tail A)).
    assert (bz (digit_byte d) - 48 = d) by exact (digit_val_byte d Hd).
    rewrite E. cbn [length]. destruct (Nat.le_gt_cases (Datatypes.S (length r)) k) as [|G]; [assumption|exfalso].
    assert (10 ^ Z.of_nat k <= 10 ^ Z.of_nat (length r)) by (apply Z.pow_le_mono_r; lia). nia. }
  assert (Zl : forall z, length (zeros z) = Z.to_nat z) by (intros z; apply repeat_length).
  split; [rewrite app_length, Zl; lia|]. split.
  - apply Forall_app; split; [|exact A]. apply Forall_forall. intros c I%repeat_spec. subst c. unfold digit. cbn. lia.
  - unfold dec_value. rewrite fold_left_app. rewrite dec_fold, V.
    assert (Z0 : forall n : nat, fold_left (fun a c => a * 10 + (bz c - 48)) (repeat "0"%byte n) 0 = 0).
    { induction n as [|n IH]; [reflexivity|]. simpl. exact IH. }
    unfold zeros. rewrite Z0. ring.
Qed.
Lemma append_int2 v : 0 <= v < 100 -> number 2 (append_int v 2) v.
Proof. intros H. apply (append_int_number 2); [exact H|lia]. Qed.
Lemma append_int4 v : 0 <= v < 10000 -> number 4 (append_int v 4) v.
Proof. intros H. apply (append_int_number 4); [exact H|lia]. Qed.

Lemma year_range n : -719528 <= n < 2932897 -> 0 <= year (dof n) < 10000.
Proof.
  intros [L1 L2].
  assert (Y1 : year (dof (-719528)) = 0) by reflexivity.
  assert (Y2 : year (dof 2932896) = 9999) by reflexivity.
  split.
  - destruct (Z.eq_dec n (-719528)) as [->|Ne]; [lia|].
    pose proof (dof_lt (-719528) n ltac:(lia)) as H. unfold date_lt in H. lia.
  - destruct (Z.eq_dec n 2932896) as [->|Ne]; [lia|].
    pose proof (dof_lt n 2932896 ltac:(lia)) as H. unfold date_lt in H. lia.
Qed.

Lemma format_utc_parts t : exists n y m d h mi s, t_sec t = n * 86400 + h * 3600 + mi * 60 + s /\ n = t_sec t / 86400 /\ on_day n (Date y m d) /\
  0 <= m < 100 /\ 0 <= d < 100 /\ 0 <= h < 24 /\ 0 <= mi < 60 /\ 0 <= s < 60 /\ y = year (dof n) /\
  format_utc t = append_int y 4 ++ B "-" ++ append_int m 2 ++ B "-" ++ append_int d 2 ++ B "T" ++ append_int h 2 ++ B ":" ++ append_int mi 2 ++ B ":" ++ append_int s 2 ++ B "Z".
Proof.
  unfold format_utc.
  pose proof (Z.div_mod (t_sec t) 86400 ltac:(lia)) as D.
  pose proof (Z.mod_pos_bound (t_sec t) 86400 ltac:(lia)) as M.
  set (n := t_sec t / 86400) in *. set (r := t_sec t mod 86400) in *.
  pose proof (on_day_dof n) as O. destruct (dof_next n) as [[V1 V2] _].
  pose proof (month_days_pos (year (dof n)) (month (dof n))) as MP.
  exists n. unfold dof in *. destruct (date_of n) as [[y m] d]. cbn [mkdate year month day] in *.
  assert (T : t_sec t = n * 86400 + (r / 3600) * 3600 + (r mod 3600 / 60) * 60 + r mod 60).
  { pose proof (Z.div_mod r 3600 ltac:(lia)). pose proof (Z.div_mod (r mod 3600) 60 ltac:(lia)).
    assert (r mod 3600 mod 60 = r mod 60).
    { pose proof (Z.div_mod r 3600 ltac:(lia)) as Q. rewrite Q at 2.
      replace (3600 * (r / 3600) + r mod 3600) with (r mod 3600 + (60 * (r / 3600)) * 60) by ring.
      rewrite Z_mod_plus_full. reflexivity. }
    lia. }
  pose proof (Z.mod_pos_bound r 3600 ltac:(lia)). pose proof (Z.mod_pos_bound r 60 ltac:(lia)).
  assert (0 <= r / 3600 < 24) by (split; [apply Z.div_pos; lia|apply Z.div_lt_upper_bound; lia]).
  assert (0 <= r mod 3600 / 60 < 60) by (split; [apply Z.div_pos; lia|apply Z.div_lt_upper_bound; lia]).
  exists y, m, d, (r / 3600), (r mod 3600 / 60), (r mod 60). repeat (split; [first [reflexivity|assumption|lia]|]). reflexivity.
Qed.
Lemma format_utc_iso t : -62167219200 <= t_sec t < 253402300800 -> iso_time (format_utc t) (t_sec t).
Proof.
  intros R. destruct (format_utc_parts t) as (n & y & m & d & h & mi & s & T & En & O & Hm & Hd & Hh & Hmi & Hs & Ey & ->).
  pose proof (year_range n ltac:(lia)) as Y. rewrite T.
  apply (it_intro _ _ _ _ _ _ y m d); try apply append_int4; try apply append_int2; try assumption; try lia.
Qed.

(** ** Any year *)
Lemma format_uint_digits v : 0 < v -> exists k, number (Datatypes.S k) (format_uint v) v /\ 10 ^ Z.of_nat k <= v < 10 ^ Z.of_nat (Datatypes.S k).
Proof.
  intros H. destruct (format_uint_spec v ltac:(lia)) as (A & V & d & r & E & Hd & Hone & Hpos).
  apply all_digits_digit in A. apply digits_acc_fold in V. fold (dec_value (format_uint v)) in V.
  exists (length r). split; [split; [rewrite E; reflexivity|auto]|].
  pose proof (dec_bound _ A) as Bd. rewrite V in Bd. split; [|rewrite E in Bd; exact (proj2 Bd)].
  rewrite E in V. rewrite dec_cons in V. rewrite E in A. pose proof (dec_bound r (Forall_inv_tail A)) as Br.
  assert (bz (digit_byte d) - 48 = d) by exact (digit_val_byte d Hd). specialize (Hpos ltac:(lia)). nia.
Qed.
Lemma append_int_year y : year_text (append_int y 4) y.
Proof.
  assert (P : forall v, 0 <= v -> year_text (let t := format_uint v in zeros (4 - Z.of_nat (length t)) ++ t) v).
  { intros v Hv. destruct (Z.lt_ge_cases v 10000) as [L|L].
    - apply yt_four. pose proof (append_int4 v ltac:(lia)) as N. unfold append_int in N. destruct (Z.ltb_spec v 0); [lia|exact N].
    - destruct (format_uint_digits v ltac:(lia)) as (k & N & B1 & B2).
      assert (4 <= k)%nat. { destruct (Nat.le_gt_cases 4 k) as [|G]; [assumption|]. assert (10 ^ Z.of_nat (Datatypes.S k) <= 10 ^ 4) by (apply Z.pow_le_mono_r; lia). lia. }
      cbv zeta. destruct N as [Ln N]. rewrite Ln. replace (zeros (4 - Z.of_nat (Datatypes.S k))) with (@nil byte) by (unfold zeros; replace (Z.to_nat _) with 0%nat by lia; reflexivity).
      apply (yt_more k); [split; assumption|assumption|assumption]. }
  unfold append_int. destruct (Z.ltb_spec y 0) as [L|L]; [|apply P; lia].
  pose proof (yt_before _ _ (P (- y) ltac:(lia)) ltac:(lia)) as W. rewrite Z.opp_involutive in W. exact W.
Qed.
Lemma format_utc_wide t : wide_time (format_utc t) (t_sec t).
Proof.
  destruct (format_utc_parts t) as (n & y & m & d & h & mi & s & T & En & O & Hm & Hd & Hh & Hmi & Hs & Ey & ->). rewrite T.
  apply (wt_intro _ _ _ _ _ _ y m d); try apply append_int_year; try apply append_int2; try assumption; try lia.
Qed.

(** The texts are unambiguous: the parts behind the year have fixed length. *)
Lemma app_tail_eq (a a' b b' : bytes) : length b = length b' -> a ++ b = a' ++ b' -> a = a' /\ b = b'.
Proof.
  intros L. revert a'. induction a as [|x a IH]; intros [|x' a'] E; cbn in *.
  - auto.
  - exfalso. subst b. cbn in L. rewrite app_length in L. lia.
  - exfalso. subst b'. cbn in L. rewrite app_length in L. lia.
  - injection E as -> E. destruct (IH _ E) as [-> ->]. auto.
Qed.
Lemma year_text_fun ty : forall y y', year_text ty y -> year_text ty y' -> y = y'.
Proof.
  intros y y' H. revert y'. induction H as [ty y N|k ty y N Hk L|ty y H IH P]; intros y' H'.
  - inversion H' as [? ? N'|? ? ? N' ? ?|ty' ? ? ?]; subst; try (destruct N as (_ & _ & <-), N' as (_ & _ & <-); reflexivity).
    destruct N as (_ & F & _). inversion F as [|? ? D _]; subst. unfold digit in D. cbn in D. lia.
  - inversion H' as [? ? N'|? ? ? N' ? ?|ty' ? ? ?]; subst; try (destruct N as (_ & _ & <-), N' as (_ & _ & <-); reflexivity).
    destruct N as (_ & F & _). inversion F as [|? ? D _]; subst. unfold digit in D. cbn in D. lia.
  - inversion H' as [? ? N'|? ? ? N' ? ?|? ? ? ?]; subst.
    + destruct N' as (_ & F & _). inversion F as [|? ? D _]; subst. unfold digit in D. cbn in D. lia.
    + destruct N' as (_ & F & _). inversion F as [|? ? D _]; subst. unfold digit in D. cbn in D. lia.
    + f_equal. apply IH. assumption.
Qed.


Lemma number_fun k s v v' : number k s v -> number k s v' -> v = v'.
Proof. intros (_ & _ & <-) (_ & _ & <-). reflexivity. Qed.
Lemma number_inj k s s' v : number k s v -> number k s' v -> s = s'.
Proof. intros H H'. apply bcmp_eq. rewrite (number_cmp _ _ _ _ _ H H'). apply Z.compare_refl. Qed.
Lemma year_text_inj y ty ty' : year_text ty y -> year_text ty' y -> ty = ty'.
Proof.
  assert (Nn : forall ty y, year_text ty y -> 0 <= y -> exists k, number (Datatypes.S k) ty y /\ (3 <= k)%nat /\ (k <> 3%nat -> 10 ^ Z.of_nat k <= y)).
  { intros t v H Hv. inversion H as [? ? N|k ? ? N Hk L|? ? ? ?]; subst; [exists 3%nat; split; [exact N|split; [lia|congruence]]|exists k; split; [exact N|split; [lia|auto]]|lia]. }
  assert (Q : forall y ty ty', 0 <= y -> year_text ty y -> year_text ty' y -> ty = ty').
  { intros v t t' Hv H H'. destruct (Nn _ _ H Hv) as (k & N & K & L), (Nn _ _ H' Hv) as (k' & N' & K' & L').
    assert (B1 : v < 10 ^ Z.of_nat (Datatypes.S k)) by (destruct N as (Ln & F & <-); rewrite <- Ln; apply dec_bound, F).
    assert (B2 : v < 10 ^ Z.of_nat (Datatypes.S k')) by (destruct N' as (Ln & F & <-); rewrite <- Ln; apply dec_bound, F).
    assert (k = k'); [|subst k'; eapply number_inj; eassumption].
    destruct (Nat.lt_trichotomy k k') as [G|[->|G]]; [exfalso|reflexivity|exfalso].
    - specialize (L' ltac:(lia)). assert (10 ^ Z.of_nat (Datatypes.S k) <= 10 ^ Z.of_nat k') by (apply Z.pow_le_mono_r; lia). lia.
    - specialize (L ltac:(lia)). assert (10 ^ Z.of_nat (Datatypes.S k') <= 10 ^ Z.of_nat k) by (apply Z.pow_le_mono_r; lia). lia. }
  assert (Ps : forall t v, number 4 t v -> 0 <= v) by (intros t v (_ & F & <-); apply dec_bound, F).
  intros H H'. destruct (Z.le_gt_cases 0 y) as [G|G]; [eapply Q; eassumption|].
  assert (E : forall t v, year_text t v -> v < 0 -> exists t', t = "-"%byte :: t' /\ year_text t' (- v)).
  { intros t v X Hv. destruct X as [t v N|k t v N Hk L|t v X P]; [apply Ps in N; lia| |exists t; rewrite Z.opp_involutive; auto].
    pose proof (Z.pow_nonneg 10 (Z.of_nat k)). lia. }
  destruct (E _ _ H G) as (t1 & -> & H1), (E _ _ H' G) as (t2 & -> & H2). f_equal. eapply Q; [|eassumption|eassumption]. lia.
Qed.
Lemma wide_fun s a b : wide_time s a -> wide_time s b -> a = b.
Proof.
  intros H H'. destruct H as [ty tm td th ti ts y m d n h mi s Ny Nm Nd On Nh Lh Ni Li Ns Ls].
  inversion H' as [ty' tm' td' th' ti' ts' y' m' d' n' h' mi' s' Ny' Nm' Nd' On' Nh' Lh' Ni' Li' Ns' Ls' E]. subst b.
  assert (L2 : forall k t v, number k t v -> length t = k) by (intros k t v (L & _); exact L).
  pose proof (L2 _ _ _ Nm). pose proof (L2 _ _ _ Nd). pose proof (L2 _ _ _ Nh). pose proof (L2 _ _ _ Ni). pose proof (L2 _ _ _ Ns).
  pose proof (L2 _ _ _ Nm'). pose proof (L2 _ _ _ Nd'). pose proof (L2 _ _ _ Nh'). pose proof (L2 _ _ _ Ni'). pose proof (L2 _ _ _ Ns').
  apply app_tail_eq in E as [<- E]; [|cbn; repeat (rewrite app_length; cbn [length]); cbn; lia].
  cbn in E. injection E as E. apply app_tail_eq in E as [<- E]; [|cbn; repeat (rewrite app_length; cbn [length]); cbn; lia].
  injection E as E. apply app_tail_eq in E as [<- E]; [|cbn; repeat (rewrite app_length; cbn [length]); cbn; lia].
  injection E as E. apply app_tail_eq in E as [<- E]; [|cbn; repeat (rewrite app_length; cbn [length]); cbn; lia].
  injection E as E. apply app_tail_eq in E as [<- E]; [|cbn; repeat (rewrite app_length; cbn [length]); cbn; lia].
  injection E as E. apply app_tail_eq in E as [<- _]; [|reflexivity].
  rewrite (year_text_fun _ _ _ Ny' Ny), (number_fun _ _ _ _ Nm' Nm), (number_fun _ _ _ _ Nd' Nd) in On'.
  rewrite (number_fun _ _ _ _ Nh' Nh), (number_fun _ _ _ _ Ni' Ni), (number_fun _ _ _ _ Ns' Ns).
  pose proof (on_day_cmp _ _ _ _ On On') as X. rewrite !Z.compare_refl in X. symmetry in X. apply Z.compare_eq_iff in X. subst n'. reflexivity.
Qed.
Lemma wide_inj s t a : wide_time s a -> wide_time t a -> s = t.
Proof.
  intros H H'. destruct H as [ty tm td th ti ts y m d n h mi s Ny Nm Nd On Nh Lh Ni Li Ns Ls].
  inversion H' as [ty' tm' td' th' ti' ts' y' m' d' n' h' mi' s' Ny' Nm' Nd' On' Nh' Lh' Ni' Li' Ns' Ls' E1 E]. subst t. clear H'.
  pose proof (number_pos _ _ _ Nh). pose proof (number_pos _ _ _ Ni). pose proof (number_pos _ _ _ Ns).
  pose proof (number_pos _ _ _ Nh'). pose proof (number_pos _ _ _ Ni'). pose proof (number_pos _ _ _ Ns').
  assert (n' = n) as -> by lia. assert (h' = h) as -> by lia. assert (mi' = mi) as -> by lia. assert (s' = s) as -> by lia.
  apply on_day_unique in On. apply on_day_unique in On'. rewrite <- On in On'. injection On' as -> -> ->.
  rewrite (year_text_inj _ _ _ Ny' Ny), (number_inj _ _ _ _ Nm' Nm), (number_inj _ _ _ _ Nd' Nd), (number_inj _ _ _ _ Nh' Nh), (number_inj _ _ _ _ Ni' Ni), (number_inj _ _ _ _ Ns' Ns). reflexivity.
Qed.
