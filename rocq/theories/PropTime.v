(** C42: times as strings (utils.go:62-64, access.go:481-521). *)
From Verif Require Import Base Strconv Json Access SpecRFC SpecTime Time TimeFacts.

(** ** NewTimeString *)

(** The string made from a time of the years 0000 to 9999 means the second the
    time falls in, in UTC. *)
Theorem C42_text_means t :
  -62167219200 <= t_sec t < 253402300800 ->
  exists s, new_time_string t = JString s /\ iso_time s (t_sec t).
Proof. intros H. exists (format_utc t). split; [reflexivity|]. apply format_utc_iso, H. Qed.

(** Texts of this form compare as strings (bytewise) exactly as the instants
    they mean: so each text means one instant and each instant has one text. *)
Theorem C42_order s a t b : iso_time s a -> iso_time t b -> bcmp s t = (a ?= b).
Proof. apply iso_order. Qed.

Theorem C42_text_unique s a t b : iso_time s a -> iso_time t b -> (s = t <-> a = b).
Proof.
  intros H1 H2. pose proof (iso_order _ _ _ _ H1 H2) as E. rewrite <- bcmp_eq, E. apply Z.compare_eq_iff.
Qed.

(** Hence of two times of these years the later one has the greater string,
    and the strings are equal iff the times fall in the same second. *)
Theorem C42_strings_sort t1 t2 s1 s2 :
  -62167219200 <= t_sec t1 < 253402300800 -> -62167219200 <= t_sec t2 < 253402300800 ->
  new_time_string t1 = JString s1 -> new_time_string t2 = JString s2 ->
  bcmp s1 s2 = (t_sec t1 ?= t_sec t2).
Proof. unfold new_time_string. intros H1 H2 E1 E2. injection E1 as <-. injection E2 as <-. apply iso_order; apply format_utc_iso; assumption. Qed.

(** The calendar of the specification is complete: every day has exactly one
    date, every date exactly one day. *)
Theorem C42_calendar :
  (forall n, exists x, on_day n x /\ is_date x) /\
  (forall n x y, on_day n x -> on_day n y -> x = y) /\
  (forall n k x, on_day n x -> on_day k x -> n = k).
Proof.
  split; [|split].
  - intros n. exists (dof n). split; [apply on_day_dof|apply dof_next].
  - intros n x y Hx%on_day_unique Hy%on_day_unique. congruence.
  - intros n k x Hn Hk. pose proof (on_day_cmp _ _ _ _ Hn Hk) as E. rewrite !Z.compare_refl in E.
    symmetry in E. apply Z.compare_eq_iff in E. exact E.
Qed.

(** Outside the years 0000-9999 the text has another form: it means no instant
    (refutation of the unrestricted claim). *)
Theorem C42_beyond_year_9999 :
  exists t, forall s a, new_time_string t = JString s -> ~ iso_time s a.
Proof.
  exists (Instant 253402300800 0). unfold new_time_string.
  assert (L : length (format_utc (Instant 253402300800 0)) = 21%nat) by (vm_compute; reflexivity).
  generalize dependent (format_utc (Instant 253402300800 0)). intros s L s' a [=<-] H.
  destruct H as [ty tm td th ti ts y m d n h mi s Ny Nm Nd On Nh Lh Ni Li Ns Ls].
  destruct Ny as [Ly _], Nm as [Lm _], Nd as [Ld _], Nh as [Lh' _], Ni as [Li' _], Ns as [Ls' _].
  repeat (rewrite app_length in L). rewrite Ly, Lm, Ld, Lh', Li', Ls' in L. cbn in L. discriminate.
Qed.

(** In any year the text has the form with a signed year of four or more
    digits; different seconds have different texts. *)
Theorem C42_any_year t : exists s, new_time_string t = JString s /\ wide_time s (t_sec t).
Proof. exists (format_utc t). split; [reflexivity|]. apply format_utc_wide. Qed.
Theorem C42_any_year_unique s a t b : wide_time s a -> wide_time t b -> (s = t <-> a = b).
Proof. intros H1 H2. split; intros ->; [eapply wide_fun; eassumption|eapply wide_inj; eassumption]. Qed.
Example any_year_example : new_time_string (Instant 253402300800 0) = JString (B "10000-01-01T00:00:00Z") /\
  new_time_string (Instant (-62167219201) 0) = JString (B "-0001-12-31T23:59:59Z").
Proof. split; vm_compute; reflexivity. Qed.

(** ** GetTime *)

(** What GetTime asks of the libraries it calls: timeutils.ParseTimeStr, where
    it accepts a text of this form, gives its meaning; time.Parse with layout
    RFC3339 accepts it with its meaning. *)
Definition iso_readers (P : time_parsers) : Prop :=
  (forall s a x, iso_time s a -> parse_time_str P s = Some x -> x = Instant a 0) /\
  (forall s a, iso_time s a -> rfc3339 P s = Some (Instant a 0)).

(** GetTime of a string of this form gives the instant it means; so it gives
    back the time of NewTimeString, cut to the second.  Partial: the contract
    of the two parsers, which are not in /repo, is a hypothesis. *)
Theorem C42_get_time_partial P s a :
  iso_readers P -> iso_time s a -> GetTime P (JString s) [] = ROk (Instant a 0).
Proof.
  intros [R1 R2] H. unfold GetTime, str_get_time, first_layout. destruct (parse_time_str P s) as [x|] eqn:E.
  - rewrite (R1 _ _ _ H E). reflexivity.
  - rewrite (R2 _ _ H). reflexivity.
Qed.

Theorem C42_round_trip_partial P t :
  iso_readers P -> -62167219200 <= t_sec t < 253402300800 ->
  GetTime P (new_time_string t) [] = ROk (Instant (t_sec t) 0).
Proof. intros R H. apply (C42_get_time_partial P _ _ R). apply format_utc_iso, H. Qed.

(** Whatever the parsers do: the first of the five that accepts the text
    decides; if none does the operation is unsupported. *)
Theorem C42_first_reader_decides P s :
  GetTime P (JString s) [] =
    match parse_time_str P s, rfc3339 P s, rfc1123 P s, unix_date P s, rfc822 P s with
    | Some t, _, _, _, _ | None, Some t, _, _, _ | None, None, Some t, _, _
    | None, None, None, Some t, _ | None, None, None, None, Some t => ROk t
    | None, None, None, None, None => RErr ErrUnsupported
    end.
Proof.
  unfold GetTime, str_get_time, first_layout. destruct (parse_time_str P s); [reflexivity|]. destruct (rfc3339 P s); [reflexivity|].
  destruct (rfc1123 P s); [reflexivity|]. destruct (unix_date P s); [reflexivity|]. destruct (rfc822 P s); reflexivity.
Qed.

(** On a dict GetTime is Get followed by GetTime of the string found there;
    on anything else it fails, for every path. *)
Theorem C42_path P id kvs keys :
  match Get (JDict id kvs) keys with
  | ROk (JString s) => GetTime P (JDict id kvs) keys = GetTime P (JString s) []
  | ROk _ => GetTime P (JDict id kvs) keys = RErr ErrInvalidJsonString
  | RErr e => GetTime P (JDict id kvs) keys = RErr e
  end.
Proof.
  destruct (Get (JDict id kvs) keys) as [v|e] eqn:E; [destruct v|]; unfold GetTime; rewrite E; reflexivity.
Qed.

(** A string has no members. *)
Theorem C42_string_with_keys P s k keys : GetTime P (JString s) (k :: keys) = RErr ErrOutOfKeyRange.
Proof. reflexivity. Qed.

Theorem C42_not_a_string P o keys :
  (forall s, o <> JString s) -> (forall id kvs, o <> JDict id kvs) -> GetTime P o keys = RErr ErrUnsupported.
Proof.
  destruct o; cbn; try reflexivity; intros H1 H2; [destruct (H1 s eq_refl)|destruct (H2 nid kvs eq_refl)].
Qed.

(** ** Instances *)

(** A reader that meets the contract. *)
Definition read_iso (s : bytes) : option instant :=
  let num i k := dec_value (firstn k (skipn i s)) in
  let t := Instant (day_number (num 0%nat 4%nat) (num 5%nat 2%nat) (num 8%nat 2%nat) * 86400 + num 11%nat 2%nat * 3600 + num 14%nat 2%nat * 60 + num 17%nat 2%nat) 0 in
  if bseq (format_utc t) s then Some t else None.

Lemma day_number_on n x : on_day n x -> day_number (year x) (month x) (day x) = n.
Proof. intros H%on_day_unique. subst x. apply date_of_ok. Qed.

Lemma iso_range s a : iso_time s a -> -62167219200 <= a < 253402300800.
Proof.
  intros H. destruct H as [ty tm td th ti ts y m d n h mi s Ny Nm Nd On Nh Lh Ni Li Ns Ls].
  apply number_pos in Nh, Ni, Ns.
  assert (Y : 0 <= y < 10000) by (destruct Ny as (L & D & <-); apply dec_bound in D; rewrite L in D; exact D).
  pose proof (on_day_unique _ _ On) as U.
  assert (-719528 <= n < 2932897); [|lia].
  assert (Y1 : dof (-719529) = Date (-1) 12 31) by (vm_compute; reflexivity).
  assert (Y2 : dof 2932897 = Date 10000 1 1) by (vm_compute; reflexivity).
  split.
  - destruct (Z.le_gt_cases n (-719529)) as [G|G]; [exfalso|lia].
    destruct (Z.eq_dec n (-719529)) as [->|Ne]; [rewrite Y1 in U; injection U; lia|].
    pose proof (dof_lt n (-719529) ltac:(lia)) as X. rewrite Y1, <- U in X. unfold date_lt in X; cbn [year month day] in X. lia.
  - destruct (Z.le_gt_cases 2932897 n) as [G|G]; [exfalso|lia].
    destruct (Z.eq_dec n 2932897) as [->|Ne]; [rewrite Y2 in U; injection U; lia|].
    pose proof (dof_lt 2932897 n ltac:(lia)) as X. rewrite Y2, <- U in X. unfold date_lt in X; cbn [year month day] in X. lia.
Qed.

Ltac len4 s := destruct s as [|? s]; [discriminate|].
Lemma read_iso_ok s a : iso_time s a -> read_iso s = Some (Instant a 0).
Proof.
  intros H. pose proof (iso_range _ _ H) as R. pose proof (format_utc_iso (Instant a 0) R) as F. cbn [t_sec] in F.
  assert (E : format_utc (Instant a 0) = s).
  { apply bcmp_eq. rewrite (iso_order _ _ _ _ F H). apply Z.compare_refl. }
  assert (N : let num i k := dec_value (firstn k (skipn i s)) in
    day_number (num 0%nat 4%nat) (num 5%nat 2%nat) (num 8%nat 2%nat) * 86400 + num 11%nat 2%nat * 3600
    + num 14%nat 2%nat * 60 + num 17%nat 2%nat = a).
  { clear R F E. destruct H as [ty tm td th ti ts y m d n h mi s Ny Nm Nd On Nh Lh Ni Li Ns Ls].
    apply day_number_on in On. cbn [year month day] in On. rewrite <- On. clear On.
    destruct Ny as (A1 & _ & <-), Nm as (A2 & _ & <-), Nd as (A3 & _ & <-), Nh as (A4 & _ & <-), Ni as (A5 & _ & <-), Ns as (A6 & _ & <-).
    len4 ty. len4 ty. len4 ty. len4 ty. destruct ty; [|discriminate].
    len4 tm. len4 tm. destruct tm; [|discriminate]. len4 td. len4 td. destruct td; [|discriminate].
    len4 th. len4 th. destruct th; [|discriminate]. len4 ti. len4 ti. destruct ti; [|discriminate].
    len4 ts. len4 ts. destruct ts; [|discriminate]. reflexivity. }
  unfold read_iso. cbv zeta in N |- *. rewrite N, E. destruct (bseq_spec s s); congruence.
Qed.

Definition p_none : bytes -> option instant := fun _ => None.
Definition p_std : time_parsers :=
  {| parse_time_str := p_none; rfc3339 := read_iso; rfc1123 := p_none; unix_date := p_none; rfc822 := p_none |}.
Example p_std_reads : iso_readers p_std.
Proof. split; [discriminate|]. intros s a H. apply read_iso_ok, H. Qed.
Example round_trip_once : GetTime p_std (new_time_string (Instant 1679573239 206000000)) [] = ROk (Instant 1679573239 0).
Proof. apply (C42_round_trip_partial p_std); [exact p_std_reads|cbn; lia]. Qed.

Example time_text : new_time_string (Instant 1679573239 206000000) = JString (B "2023-03-23T12:07:19Z").
Proof. vm_compute. reflexivity. Qed.
Example time_text_old : new_time_string (Instant (-1) 500000000) = JString (B "1969-12-31T23:59:59Z").
Proof. vm_compute. reflexivity. Qed.
Example time_text_leap : new_time_string (Instant 951782400 0) = JString (B "2000-02-29T00:00:00Z").
Proof. vm_compute. reflexivity. Qed.
Example time_text_first : new_time_string (Instant (-62167219200) 0) = JString (B "0000-01-01T00:00:00Z").
Proof. vm_compute. reflexivity. Qed.
Example time_text_last : new_time_string (Instant 253402300799 999999999) = JString (B "9999-12-31T23:59:59Z").
Proof. vm_compute. reflexivity. Qed.
Example time_text_means : iso_time (B "2023-03-23T12:07:19Z") 1679573239.
Proof. destruct (C42_text_means (Instant 1679573239 206000000) ltac:(cbn; lia)) as (s & E & H). unfold new_time_string in E. injection E as <-. exact H. Qed.
Example read_back : read_iso (B "2023-03-23T12:07:19Z") = Some (Instant 1679573239 0).
Proof. vm_compute. reflexivity. Qed.
