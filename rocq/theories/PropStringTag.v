(** C68: fields with the string option, `json:",string"`, hold numbers and
    booleans as text. *)
From Coq Require Import QArith Qabs Lqa.
From Verif Require Import Base Strconv SpecFloat SpecRFC SortedMap SortedMapFacts Json SpecJson Printer Heap Gotypes Marshal SpecMarshal SpecEncode MarshalFacts MarshalEnc2 MarshalRefs MarshalFinal PropMarshal Access Unmarshal SpecUnmarshal UnmFacts UnmTotal UnmMono FloatWidth PropUnmarshal UnmFrame PropUnmarshal2 SpecConvert ConvertFacts SpecRestore RestoreMem MarshalOrder TextScalars Restore PropRestore Update SpecUpdate PropUpdate StrconvFacts FloatSyntax SpecFloatText JErrors PropScalar Shortest FloatText RoundFacts RoundUnique.
Open Scope Z_scope.

(** What is written for a scalar: the integers as int64 of the same bits, six
    decimals of a float. *)
Definition option_text (v : gval) (s : bytes) : Prop :=
  match v with
  | GBool b => s = if b then B "true" else B "false"
  | GInt _ z => s = format_int (if z <? 2 ^ 63 then z else z - 2 ^ 64)
  | GFloat _ f => six_decimals f s
  | GString s' => s = s'
  | _ => False
  end.

(** A scalar of a Go type. *)
Definition go_scalar (v : gval) : Prop :=
  match v with
  | GBool _ | GString _ => True
  | GInt k z => match k with Signed b | Unsigned b => word b end /\ in_kind k z = true
  | GFloat _ f => fl_ok F64 f = true
  | _ => False
  end.

Theorem C68_written omit st fs j g v :
  marshals omit st (GStruct fs) j -> plain_source fs -> In (g, v) fs -> fi_force_string g = true -> go_scalar v ->
  ~ (omit = true /\ dropped st (Some g) v) ->
  exists nid kvs s, j = JDict nid kvs /\ sm_get kvs (fi_name g) = Some (JString s) /\ option_text v s.
Proof.
  intros M (Pf & Nf) I Hs Sc Nd. apply C30_result_encodes_value in M as [(_ & D & _)|[_ [f En]]].
  { exfalso. apply C30_elements_dropped_iff_nil in D. inversion D as [? X| |]; destruct X. }
  inversion En as [? ? ? Hn| | | | | | | | | |? ? ? nid ps kvs Hf Hps Hd Ho|? ? ? ? Hf| | | | | | | |]; subst; [destruct Hn| |discriminate].
  assert (Ne : emitted_names fs = map (fun fv => fi_name (fst fv)) fs).
  { unfold emitted_names. f_equal. clear - Pf. induction fs as [|[g v] fs IH]; [reflexivity|]. cbn [filter fst]. rewrite (proj1 (Pf g v (or_introl eq_refl))). cbn [negb]. f_equal. apply IH. intros g' v' I. apply (Pf g' v'). right. exact I. }
  destruct (Pf g v I) as (P1 & P3). destruct (enc_fields_pair _ _ _ _ _ g v Hps (eq_ind_r _ Nf Ne) I P1 P3) as [A B].
  assert (Nps : NoDup (map fst ps)) by (eapply enc_fields_nodup; [exact Hps|rewrite Ne; exact Nf]).
  apply A in Nd. apply in_map_iff in Nd as ([k j] & Ek & Ij). cbn in Ek. subst k. specialize (B j Ij).
  assert (Tg : forall k, tag_of fs k = None) by (apply plain_tags; intros g' v' I'; apply (Pf g' v' I')).
  destruct Hd as [Kok Kget]. assert (Ik : sm_get kvs (fi_name g) = Some j) by (apply Kget; right; split; [intros (j' & X & _); rewrite Tg in X; congruence|apply last_pair_in; assumption]).
  assert (Hfo : forced (Some g) = true) by exact Hs.
  destruct v as [b|k z|bit x|s0|o|o|o|l|mm|fs'|p|p|p|p|p|p|]; try contradiction Sc; inversion B; subst; try contradiction; cbn zeta in *; rewrite ?Hfo in *; try discriminate.
  all: eexists nid, kvs, _; split; [reflexivity|]; split; [exact Ik|]; cbn [option_text].
  - destruct b; reflexivity.
  - destruct Sc as [W K]. f_equal. unfold wrap.
    assert (G : - 2 ^ 63 <= z < 2 ^ 64).
    { destruct k as [b|b]; cbn [in_kind] in K; apply andb_prop in K as [K1 K2]; apply Z.leb_le in K1; apply Z.ltb_lt in K2; destruct W as [->|[->|[->| ->]]]; cbn in K1, K2 |- *; lia. }
    destruct (Z.ltb_spec z (2 ^ 63)).
    + rewrite Z.mod_small; cbn in *; lia.
    + replace (z + 2 ^ (64 - 1)) with ((z + 2 ^ (64 - 1) - 2 ^ 64) + 1 * 2 ^ 64) by lia. rewrite Z.mod_add by (cbn; lia). rewrite Z.mod_small; cbn in *; lia.
  - apply format_f6_decimals, Sc.
  - reflexivity.
Qed.

Section Back.
Context (env : nat -> list (finfo * gty)) (locate : list (finfo * gty) -> bytes -> list nat).
Context (match_us match_eu : bytes -> bool) (to_bool : bytes -> bool)
  (parse_time : bytes -> option bytes) (time_json : bytes -> option (option bytes)) (std_ok : bytes -> bool).
Notation Unmarshal := (Unmarshal env locate match_us match_eu to_bool parse_time time_json std_ok).
Notation holds := (SpecRestore.holds env parse_time time_json []).
Notation survives_text := (survives_text match_us match_eu to_bool).

(** A struct of scalars, some with the string option, and a variable of its
    type: what Marshal gives for the struct, Unmarshal reads into the variable,
    and every field that Marshal did not leave out has its value. *)
Theorem C68_comes_back pick fs nm ts m a vars : chooses pick -> plain_source fs ->
  Forall2 (fun fv ft => fst fv = fst ft /\ flat (snd ft) /\ restorable locate (snd ft) /\ holds (snd fv) (snd ft) /\
    (fi_force_string (fst fv) = true -> survives_text (snd fv))) fs ts ->
  (forall i g t, nth_error ts i = Some (g, t) -> locate ts (fi_name g) = [i]) ->
  nth_error m a = Some (VStruct vars) -> length vars = length ts -> NoDup vars -> (forall b, In b vars -> (b < length m)%nat) ->
  exists N j m', forall n, (N <= n)%nat -> Marshal pick n [] (Some (GStruct fs)) = Some j /\ Unmarshal n m (TStruct nm ts) a j [] = TopOk m' /\
    forall i g v b, nth_error fs i = Some (g, v) -> nth_error vars i = Some b -> ~ dropped [] (Some g) v -> nth_error m' b = cell_of v.
Proof using.
  intros HP Pf F L Ea Lv Nv Lb.
  assert (Fl : forall g v, In (g, v) fs -> exists i t, nth_error fs i = Some (g, v) /\ nth_error ts i = Some (g, t) /\ flat t /\ restorable locate t /\ holds v t /\ (fi_force_string g = true -> survives_text v)).
  { intros g v I. apply In_nth_error in I as [i E]. destruct (F2_nth_l _ _ _ F i _ E) as ([g' t] & Et & Eg & A1 & A2 & A3 & A4). cbn [fst snd] in *. subst g'. exists i, t. repeat split; assumption. }
  assert (Leaf : forall v t, flat t -> holds v t -> pointers v = [] /\ structs v = [] /\ held_json v = []).
  { intros v t Ft H. destruct v as [| | | | |o|o|l|mm|fs'|p|p|p|p|p|p|]; destruct t; try contradiction Ft; try absurd_holds H; repeat split. }
  assert (Flat : pointers (GStruct fs) = [] /\ structs (GStruct fs) = [fs] /\ held_json (GStruct fs) = []).
  { assert (G : forall fs', (forall g v, In (g, v) fs' -> In (g, v) fs) -> flat_map (fun fv => pointers (snd fv)) fs' = [] /\ flat_map (fun fv => structs (snd fv)) fs' = [] /\ flat_map (fun fv => held_json (snd fv)) fs' = []).
    { induction fs' as [|[g v] fs' IH]; intros Hin; [repeat split|]. destruct IH as (I1 & I2 & I3); [intros g' v' I'; apply Hin; right; exact I'|].
      destruct (Fl g v (Hin g v (or_introl eq_refl))) as (i & t & _ & _ & Ft & _ & H & _). destruct (Leaf v t Ft H) as (E1 & E2 & E3). cbn [flat_map snd]. rewrite E1, E2, E3, I1, I2, I3. repeat split. }
    destruct (G fs (fun g v I => I)) as (E1 & E2 & E3). repeat split; cbn; [exact E1|f_equal; exact E2|exact E3]. }
  destruct Flat as (Fp & Fs & Fj).
  destruct (C48_update env locate match_us match_eu to_bool parse_time time_json std_ok pick [] (GStruct fs) fs m nm ts a vars) as (N & m' & U & _ & W & _); try assumption.
  - intros x b [->|[]] I. rewrite Fp in I. destruct I.
  - intros x fs' k [->|[]] If. rewrite Fs in If. destruct If as [<-|[]]. intros (d & _ & (c & T & _) & _).
    rewrite (plain_tags fs) in T; [discriminate|]. intros g v I. apply (proj1 Pf g v I).
  - intros b P. assert (Y : forall a b, path [] a b -> False); [|eapply Y, P]. clear. intros a b P. induction P as [x b E I|b x c _ IH _ _]; [destruct a; discriminate|exact IH].
  - intros j I. rewrite Fj in I. destruct I.
  - constructor.
  - constructor.
  - split.
    + intros g v I. destruct (Fl g v I) as (i & t & _ & Et & A1 & A2 & A3 & A4). exists v. split; [constructor|]. right; right. exists i, g, t.
      split; [eapply L, Et|]. split; [exact Et|]. split; [apply (proj1 Pf g v I)|]. auto.
    + intros g v g' v' i I I' E E'. destruct (Fl g v I) as (q & t & _ & Et & _). destruct (Fl g' v' I') as (q' & t' & _ & Et' & _). pose proof (L _ _ _ Et). pose proof (L _ _ _ Et'). congruence.
  - unfold Update.Update in U. pose proof (U N (Nat.le_refl N)) as U0. destruct (Marshal pick N [] (Some (GStruct fs))) as [j|] eqn:Mj; [|discriminate].
    exists N, j, m'. intros n Ln. specialize (U n Ln).
    assert (Mn : Marshal pick n [] (Some (GStruct fs)) = Some j) by (revert Mj; unfold Marshal; intros Mj; eapply marshal_mono; [exact Ln|exact Mj]).
    rewrite Mn in U. split; [exact Mn|]. split; [injection U as U; exact U|].
    intros i g v b E Eb Nd. assert (I : In (g, v) fs) by (eapply nth_error_In, E). destruct (F2_nth_l _ _ _ F i _ E) as ([g' t] & Et & Eg & A1 & A2 & A3 & A4). cbn [fst snd] in *. subst g'.
    destruct (flat_cell env parse_time time_json v t A1 A3) as [X|(c & Ec)]; [destruct Nd; apply D_nil, X|].
    rewrite (W g v v i b I Nd (ar_here _ _) ltac:(congruence) (L _ _ _ Et) Eb). reflexivity.
Qed.

(** A struct with one field, which has the option. *)
Definition quoted (name : bytes) : finfo :=
  {| fi_name := name; fi_ignore := false; fi_omit_empty := false; fi_omit_zero := false;
     fi_omit_false := false; fi_force_string := true; fi_deprecated_by := None |}.

Lemma one_field n nm name t m a b s : locate [(quoted name, t)] name = [0%nat] -> nth_error m a = Some (VStruct [b]) ->
  Unmarshal (S (S n)) m (TStruct nm [(quoted name, t)]) a (JDict 0 [(name, JString s)]) [] =
  match unm env locate match_us match_eu to_bool parse_time time_json std_ok (S n) {| u_mem := m; u_sess := [] |} t b (JString s) with
  | UOk st None => TopOk (u_mem st)
  | UOk st (Some e) => TopErr (u_mem st) (EMany [(name, e)])
  | UPanic => TopPanic
  | UFuel => TopFuel
  end.
Proof using.
  intros L Ea. unfold Unmarshal.Unmarshal. cbn [receiver resolve]. remember (S n) as k eqn:Ek. cbn [Unmarshal.unm]. cbn [Z.ltb Z.compare ubind indirect].
  unfold fields_of. cbn [u_mem with_mem]. rewrite Ea. cbn [un_fields]. cbn [set_field in_strings]. rewrite L. cbn [nth_error]. cbn [u_mem u_sess with_mem].
  cbn [with_mem u_mem u_sess]. change (with_mem {| u_mem := m; u_sess := [] |} m) with {| u_mem := m; u_sess := [] |}.
  destruct (unm env locate match_us match_eu to_bool parse_time time_json std_ok k {| u_mem := m; u_sess := [] |} t b (JString s)) as [st [e|]| |]; cbn; reflexivity.
Qed.

Lemma one_value pick n name v s : mval [] true (S n) new_session v (Some (quoted name)) = Some (new_session, Some (MLeaf (JString s))) ->
  Marshal pick (S (S n)) [] (Some (GStruct [(quoted name, v)])) = Some (JDict 0 [(name, JString s)]).
Proof using.
  intros E. unfold Marshal, marshal_with. remember (S n) as k eqn:Ek. cbn [mval]. cbn [m_fields fi_ignore fi_deprecated_by quoted]. fold (quoted name). rewrite E. cbn [fi_name quoted]. subst k. reflexivity.
Qed.

(** Unsigned integers from 2^63 on are written as negative numbers; reading
    them is an error and the variable keeps its value. *)
Theorem C68_unsigned_refuted pick n nm name z m a b : 2 ^ 63 <= z < 2 ^ 64 ->
  locate [(quoted name, TInt (Unsigned 64))] name = [0%nat] -> nth_error m a = Some (VStruct [b]) ->
  exists j, Marshal pick (S (S n)) [] (Some (GStruct [(quoted name, GInt (Unsigned 64) z)])) = Some j /\
    Unmarshal (S (S n)) m (TStruct nm [(quoted name, TInt (Unsigned 64))]) a j [] = TopErr m (EMany [(name, ENumber)]).
Proof using.
  intros Hz L Ea. exists (JDict 0 [(name, JString (format_int (z - 2 ^ 64)))]). assert (W : wrap (Signed 64) z = z - 2 ^ 64).
  { unfold wrap. replace (z + 2 ^ (64 - 1)) with ((z + 2 ^ (64 - 1) - 2 ^ 64) + 1 * 2 ^ 64) by lia. rewrite Z.mod_add by (cbn; lia). rewrite Z.mod_small; cbn in *; lia. }
  split.
  - apply one_value. cbn [mval]. rewrite W. unfold marshal_int. cbn [flag quoted fi_omit_zero fi_force_string]. rewrite andb_false_r. reflexivity.
  - rewrite (one_field _ _ _ _ _ _ b) by assumption. cbn [Unmarshal.unm indirect step_scalar step_string u_mem with_mem].
    assert (Nz := C35_integers match_us match_eu (z - 2 ^ 64)). destruct (format_int (z - 2 ^ 64)) as [|c s] eqn:Es.
    { unfold format_int in Es. destruct (z - 2 ^ 64 <? 0) eqn:X; [discriminate|apply Z.ltb_ge in X; lia]. }
    rewrite <- Es in *. rewrite Nz. assert (Eu : parse_uint (format_int (z - 2 ^ 64)) = None).
    { unfold format_int. destruct (z - 2 ^ 64 <? 0) eqn:X; [reflexivity|apply Z.ltb_ge in X; lia]. }
    rewrite Eu. reflexivity.
Qed.

(** A struct with the option is written as text and cannot be read back; of a
    slice the text becomes the only element. *)
Theorem C68_struct_refuted pick n nm name z m a b nm' t' : 
  locate [(quoted name, TStruct nm' t')] name = [0%nat] -> nth_error m a = Some (VStruct [b]) ->
  exists s, Marshal pick (S (S (S n))) [] (Some (GStruct [(quoted name, GStruct [(plain (B "x"), GInt (Signed 64) z)])])) = Some (JDict 0 [(name, JString s)]) /\
    Unmarshal (S (S (S n))) m (TStruct nm [(quoted name, TStruct nm' t')]) a (JDict 0 [(name, JString s)]) [] = TopErr m (EMany [(name, EMismatch)]).
Proof using.
  intros L Ea. eexists. split.
  - apply one_value. cbn [mval m_fields fi_ignore fi_deprecated_by plain]. unfold marshal_int. cbn [flag fi_omit_zero fi_force_string]. rewrite andb_false_r. reflexivity.
  - rewrite (one_field _ _ _ _ _ _ b) by assumption. cbn [Unmarshal.unm indirect step_scalar step_string u_mem with_mem]. reflexivity.
Qed.

Theorem C68_slice_refuted pick n nm name l m a b : (l <> []) -> (b < length m)%nat ->
  locate [(quoted name, TSlice TString)] name = [0%nat] -> nth_error m a = Some (VStruct [b]) -> nth_error m b = Some (VSlice None) ->
  exists j m' x, Marshal pick (S (S (S n))) [] (Some (GStruct [(quoted name, GSlice (Some (map GString l)))])) = Some j /\
    Unmarshal (S (S (S n))) m (TStruct nm [(quoted name, TSlice TString)]) a j [] = TopOk m' /\
    nth_error m' b = Some (VSlice (Some ([x], 1%nat))) /\ nth_error m' x = Some (VString (String_ (JArray (map JString l)))).
Proof using.
  intros Nl Hb L Ea Eb. exists (JDict 0 [(name, JString (String_ (JArray (map JString l))))]).
  assert (Em : m_elems (mval [] true (S n)) new_session (map GString l) = Some (new_session, map (fun s => MLeaf (JString s)) l)).
  { clear. assert (E : forall s, mval [] true (S n) new_session (GString s) None = Some (new_session, Some (MLeaf (JString s)))) by (intros []; reflexivity).
    revert E. generalize (mval [] true (S n)). intros mv E. induction l as [|s l IH]; [reflexivity|]. cbn [map m_elems]. rewrite E, IH. reflexivity. }
  eexists _, (length m). split; [|split; [|split]].
  - apply one_value. remember (S n) as k eqn:Ek. destruct l as [|s l]; [congruence|]. cbn [mval]. cbn [map] in *. rewrite Em. unfold finish_container. cbn [flag quoted fi_force_string mj_text map]. rewrite map_map. reflexivity.
  - rewrite (one_field _ _ _ _ _ _ b) by assumption. cbn [Unmarshal.unm indirect step_scalar step_string u_mem with_mem]. unfold resize. cbn [resolve]. rewrite Eb. cbn [orb Nat.ltb Nat.leb times zalloc]. cbn. reflexivity.
  - cbn [u_mem]. rewrite mwrite_other, mwrite_same; [reflexivity|rewrite app_length; lia|lia].
  - cbn [u_mem]. rewrite mwrite_same; [reflexivity|]. rewrite mwrite_length, app_length. cbn. lia.
Qed.

(** What arrives of a finite float: the float64 nearest to its text, which is
    the float to six decimals. *)
Lemma f6_number neg m e : canon F64 m e = true ->
  exists n, near (fq m e * inject_Z (10 ^ 6)) n /\ 0 <= n /\ go_float (format_f6 (FFin neg m e)) neg false n (-6).
Proof using.
  intros C. destruct (format_f6_decimals (FFin neg m e) C) as (n & ds & fs & Es & Rd & [Nf Df] & Lf & E & Hn). exists n. split; [exact Hn|].
  destruct Rd as [[Nd Dd] _]. assert (Da : Forall digit (ds ++ fs)) by (apply Forall_app; split; assumption).
  assert (Fd : fdigits false (ds ++ fs) n).
  { rewrite <- E. clear - Da. revert Da. induction (ds ++ fs) as [|c s IH] using rev_ind; intros Da; [constructor|]. apply Forall_app in Da as [D1 D2]. inversion D2 as [|? ? Hc _]; subst.
    rewrite dec_snoc. replace (dec_value s * 10 + (bz c - 48)) with (dec_value s * radix false + (bz c - 48)) by (cbn; lia). constructor; [apply IH, D1|]. left. split; [exact Hc|reflexivity]. }
  split. { rewrite <- E. pose proof (dec_bound (ds ++ fs) Da). lia. }
  assert (Nu : forall s, Forall digit s -> without_underscores s = s).
  { clear. induction 1 as [|c s Hc _ IH]; [reflexivity|]. unfold without_underscores in *. cbn [filter]. rewrite IH. destruct (beq_spec c "_"%byte) as [->|_]; [exfalso; revert Hc; vm_compute; intros [_ H]; apply H; reflexivity|reflexivity]. }
  rewrite Es. replace (-6) with (0 - Z.of_nat (length fs)) by (rewrite Lf; reflexivity).
  replace (ds ++ "."%byte :: fs) with ([] ++ (ds ++ "."%byte :: fs) ++ []) by (rewrite app_nil_r; reflexivity).
  apply (gf (if neg then ["-"%byte] else []) neg false [] (ds ++ "."%byte :: fs) [] n (Z.of_nat (length fs)) 0).
  - destruct neg; constructor.
  - reflexivity.
  - assert (X : without_underscores (ds ++ "."%byte :: fs) = ds ++ "."%byte :: fs).
    { pose proof (Nu ds Dd) as X1. pose proof (Nu fs Df) as X2. unfold without_underscores in *. rewrite filter_app, X1. cbn [filter]. rewrite X2. reflexivity. }
    rewrite X. apply mn_point; [|exact Fd]. destruct ds; [congruence|discriminate].
  - constructor. reflexivity.
  - apply no_us_between. rewrite app_nil_r. cbn [app].
    assert (H : forall s, Forall digit s -> has_us s = false).
    { clear. induction 1 as [|c s Hc _ IH]; [reflexivity|]. cbn. destruct (beq_spec c "_"%byte) as [->|_]; [exfalso; revert Hc; vm_compute; intros [_ H]; apply H; reflexivity|exact IH]. }
    unfold has_us in *. rewrite existsb_app. cbn [existsb]. rewrite (H ds Dd), (H fs Df). reflexivity.
Qed.

Lemma near_exact x n k : (x == inject_Z k)%Q -> near x n -> n = k.
Proof using.
  intros E H. destruct (H k) as [H1 _]. rewrite E in H1. setoid_replace (inject_Z k - inject_Z k)%Q with 0%Q in H1 by ring. change (Qabs 0) with 0%Q in H1.
  assert (Y : (inject_Z k - inject_Z n == 0)%Q).
  { destruct (Qlt_le_dec (inject_Z k - inject_Z n) 0) as [A|A]; [rewrite Qabs_neg in H1 by lra|rewrite Qabs_pos in H1 by lra]; lra. }
  apply inject_Z_injective. lra.
Qed.

Lemma near_below x n k : (x <= inject_Z k)%Q -> near x n -> n <= k.
Proof using.
  intros E H. destruct (Z_le_gt_dec n k) as [L|L]; [exact L|exfalso]. destruct (H k) as [H1 _].
  assert (A : (inject_Z k < inject_Z n)%Q) by (rewrite <- Zlt_Qlt; lia). rewrite (Qabs_neg (x - inject_Z n)) in H1 by lra. rewrite (Qabs_neg (x - inject_Z k)) in H1 by lra. lra.
Qed.

Lemma decq6 n x : (x * inject_Z (10 ^ 6) == inject_Z n)%Q -> (decq n (-6) == x)%Q.
Proof using.
  intros E. unfold decq. rewrite <- E. change (Qpower 10 (-6)) with (1 # 1000000). change (inject_Z (10 ^ 6)) with 1000000%Q. field.
Qed.

Lemma f6_no_overflow m e n : canon F64 m e = true -> near (fq m e * inject_Z (10 ^ 6)) n -> ~ overflows F64 (decq n (-6)).
Proof using.
  intros C H. destruct (Z_lt_ge_dec e 0) as [L|L].
  - assert (B : (fq m e <= inject_Z (2 ^ 53))%Q).
    { assert (Hm : 0 <= m < 2 ^ 53) by (unfold canon in C; cbn [prec F64] in C; rewrite !andb_true_iff, !Z.leb_le, !Z.ltb_lt in C; lia).
      rewrite fq_neg_exp by exact L. pose proof (pow2_pos (- e) ltac:(lia)). apply Qle_shift_div_r; [change 0%Q with (inject_Z 0); rewrite <- Zlt_Qlt; lia|]. rewrite <- inject_Z_mult, <- Zle_Qle. nia. }
    assert (N : n <= 2 ^ 53 * 10 ^ 6). { apply (near_below (fq m e * inject_Z (10 ^ 6)) n); [|exact H]. rewrite inject_Z_mult. apply Qmult_le_compat_r; [exact B|]. discriminate. }
    unfold overflows, decq. intros O. assert (O' : ((inject_Z (2 ^ prec F64) - (1 # 2)) * Qpower 2 (emax F64) <= inject_Z (2 ^ 53 * 10 ^ 6) * Qpower 10 (-6))%Q).
    { eapply Qle_trans; [exact O|]. apply Qmult_le_compat_r; [rewrite <- Zle_Qle; exact N|discriminate]. }
    revert O'. vm_compute. intros X; apply X; reflexivity.
  - assert (E : (fq m e * inject_Z (10 ^ 6) == inject_Z (m * 2 ^ e * 10 ^ 6))%Q) by (rewrite fq_int by lia; rewrite <- inject_Z_mult; reflexivity).
    pose proof (near_exact _ _ _ E H) as ->. apply decq6 in E. unfold overflows. rewrite E. apply canon_no_overflow; [exact F64_valid|exact C].
Qed.

Lemma exact_rounds neg m e x : canon F64 m e = true -> (x == fq m e)%Q -> rounds F64 neg x (FFin neg m e).
Proof using.
  intros C E. destruct (canon_spec F64 m e) as [Cs _]. destruct (Cs C) as (Hm & He & Hn). destruct (Z.eq_dec m 0) as [->|N].
  - left. split; [rewrite E; unfold fq; ring|]. f_equal. destruct Hn as [Hn|Hn]; [cbn in Hn; lia|exact Hn].
  - right. right. split; [rewrite E; apply fq_pos; lia|]. split; [unfold overflows; rewrite E; apply canon_no_overflow; [exact F64_valid|exact C]|].
    exists m, e. split; [reflexivity|]. split; [exact C|]. intros m' e' C'. assert (Z0 : (Qabs (x - fq m e) == 0)%Q) by (rewrite E; setoid_replace (fq m e - fq m e)%Q with 0%Q by ring; reflexivity).
    rewrite Z0. split; [apply Qabs_nonneg|]. intros Y. left. symmetry in Y.
    destruct (Qlt_le_dec (x - fq m' e') 0) as [A|A]; [rewrite Qabs_neg in Y by lra|rewrite Qabs_pos in Y by lra]; lra.
Qed.

Lemma f6_value neg m e : canon F64 m e = true ->
  exists n f, near (fq m e * inject_Z (10 ^ 6)) n /\ rounds F64 neg (decq n (-6)) f /\ float_value (format_f6 (FFin neg m e)) f.
Proof using.
  intros C. destruct (f6_number neg m e C) as (n & Hn & Pn & G). pose proof (f6_no_overflow m e n C Hn) as NO.
  destruct (if n =? 0 then Some (fzero F64 neg) else match round_dec F64 n (-6) with Some (m, e) => Some (FFin neg m e) | None => None end) as [f|] eqn:E.
  - exists n, f. split; [exact Hn|]. destruct (proj1 (number_rounds neg false n (-6) _ f Pn eq_refl) E) as [_ R]. split; [exact R|].
    eapply fv_number; [exact G|reflexivity|exact NO|exact R].
  - exfalso. destruct (Z.eqb_spec n 0) as [->|N]; [discriminate|]. apply NO. apply (round_dec_overflow F64 n (-6) F64_valid ltac:(lia)). destruct (round_dec F64 n (-6)) as [[? ?]|]; [discriminate|reflexivity].
Qed.

(** A float64 with the option arrives as the float64 nearest to a multiple of
    10^-6 to which no other is nearer.  The condition is that the text is not
    taken for an amount in European notation. *)
Theorem C68_float_arrives pick k nm name neg m e mm a b : canon F64 m e = true ->
  match_us (format_f6 (FFin neg m e)) = true \/ match_eu (format_f6 (FFin neg m e)) = false ->
  locate [(quoted name, TFloat 64)] name = [0%nat] -> nth_error mm a = Some (VStruct [b]) -> (b < length mm)%nat ->
  exists j m' n f, Marshal pick (S (S k)) [] (Some (GStruct [(quoted name, GFloat 64 (FFin neg m e))])) = Some j /\
    Unmarshal (S (S k)) mm (TStruct nm [(quoted name, TFloat 64)]) a j [] = TopOk m' /\ nth_error m' b = Some (VFloat f) /\
    (forall i, Qabs (fq m e * inject_Z (10 ^ 6) - inject_Z n) <= Qabs (fq m e * inject_Z (10 ^ 6) - inject_Z i))%Q /\
    rounds F64 neg (decq n (-6)) f.
Proof using.
  intros C A L Ea Hb. destruct (f6_value neg m e C) as (n & f & Hn & R & V).
  exists (JDict 0 [(name, JString (format_f6 (FFin neg m e)))]), (mwrite mm b (VFloat f)), n, f. split; [|split; [|split; [|split]]].
  - apply one_value. cbn [mval]. unfold marshal_float. cbn [flag quoted fi_omit_zero fi_force_string]. rewrite andb_false_r. reflexivity.
  - rewrite (one_field _ _ _ _ _ _ b) by assumption. cbn [Unmarshal.unm indirect step_scalar step_string u_mem with_mem].
    assert (Nz : normalize_currency match_us match_eu (format_f6 (FFin neg m e)) = format_f6 (FFin neg m e)).
    { destruct (match_us (format_f6 (FFin neg m e))) eqn:Eu.
      - rewrite C35_us by exact Eu. apply no_comma.
      - destruct A as [A|A]; [congruence|]. apply (proj1 (C35_other match_us match_eu _)); assumption. }
    apply parse_float_iff in V. destruct (format_f6 (FFin neg m e)) as [|c s] eqn:Es; [discriminate V|]. rewrite Nz, V. reflexivity.
  - apply mwrite_same, Hb.
  - intros i. apply (Hn i).
  - exact R.
Qed.

(** Floats that are multiples of 10^-6 survive as text, the others do not, in
    general. *)
Theorem C68_exact_floats bit neg m e k : canon F64 m e = true -> (fq m e * inject_Z (10 ^ 6) == inject_Z k)%Q ->
  match_us (format_f6 (FFin neg m e)) = true \/ match_eu (format_f6 (FFin neg m e)) = false ->
  survives_text (GFloat bit (FFin neg m e)).
Proof using.
  intros C E A. split; [|exact A]. destruct (f6_value neg m e C) as (n & f & Hn & R & V). pose proof (near_exact _ _ _ E Hn) as ->.
  rewrite (rounds_unique F64 neg _ (FFin neg m e) f F64_valid (exact_rounds neg m e _ C (decq6 _ _ E)) R) at 2. exact V.
Qed.

Theorem C68_small_floats_refuted pick k nm name neg m e mm a b : canon F64 m e = true -> 0 < m -> (fq m e < 1 # 2000000)%Q ->
  match_us (format_f6 (FFin neg m e)) = true \/ match_eu (format_f6 (FFin neg m e)) = false ->
  locate [(quoted name, TFloat 64)] name = [0%nat] -> nth_error mm a = Some (VStruct [b]) -> (b < length mm)%nat ->
  exists j m', Marshal pick (S (S k)) [] (Some (GStruct [(quoted name, GFloat 64 (FFin neg m e))])) = Some j /\
    Unmarshal (S (S k)) mm (TStruct nm [(quoted name, TFloat 64)]) a j [] = TopOk m' /\ nth_error m' b = Some (VFloat (fzero F64 neg)).
Proof using.
  intros C Hm Sm A L Ea Hb. destruct (C68_float_arrives pick k nm name neg m e mm a b C A L Ea Hb) as (j & m' & n & f & Mj & U & E & Hn & R).
  exists j, m'. split; [exact Mj|]. split; [exact U|]. rewrite E. do 2 f_equal. specialize (Hn 0).
  pose proof (fq_pos m e Hm) as P. set (x := (fq m e * inject_Z (10 ^ 6))%Q) in *. assert (X : (0 < x /\ x < 1 # 2)%Q) by (unfold x; change (inject_Z (10 ^ 6)) with 1000000%Q; lra).
  change (inject_Z 0) with 0%Q in Hn. rewrite (Qabs_pos (x - 0)) in Hn by lra. assert (n = 0) as ->.
  { destruct (Z_lt_ge_dec n 0) as [G|G].
    - assert (Y : (inject_Z n <= -1)%Q) by (change (-1)%Q with (inject_Z (-1)); rewrite <- Zle_Qle; lia). rewrite Qabs_pos in Hn by lra. lra.
    - destruct (Z.eq_dec n 0) as [->|N]; [reflexivity|]. assert (Y : (1 <= inject_Z n)%Q) by (change 1%Q with (inject_Z 1); rewrite <- Zle_Qle; lia). rewrite Qabs_neg in Hn by lra. lra. }
  destruct R as [[_ ->]|[(Q0 & _)|(Q0 & _)]]; [reflexivity|exfalso; revert Q0; vm_compute; discriminate..].
Qed.
End Back.

(** ** Examples *)

Notation st_fs := [(quoted (B "n"), GInt (Signed 64) (-5)); (quoted (B "u"), GInt (Unsigned 32) 7); (quoted (B "f"), GFloat 64 (FFin true 5629499534213120 (-51))); (quoted (B "b"), GBool false); (quoted (B "s"), GString (B "x"))].
Notation st_ts := [(quoted (B "n"), TInt (Signed 64)); (quoted (B "u"), TInt (Unsigned 32)); (quoted (B "f"), TFloat 64); (quoted (B "b"), TBool); (quoted (B "s"), TString)].
Definition st_none (_ : bytes) : bool := false.
Definition st_zero : mem := [VInt 0; VInt 0; VFloat (fzero F64 false); VBool true; VString []; VStruct [0; 1; 2; 3; 4]%nat].

Lemma st_plain : plain_source st_fs.
Proof. split; [intros g v I; cbn in I; intuition; try (injection H as <- <-); try (injection H0 as <- <-); repeat split; reflexivity|repeat constructor; cbn; intuition discriminate]. Qed.

Lemma C68_not_dropped name v : dropped [] (Some (quoted name)) v -> (match v with GInt _ _ | GFloat _ _ | GBool _ => true | _ => false end) = true -> False.
Proof. intros D Hv. inversion D as [? ? X|? ? ? X|? ? ? X|? X|? ? X|? ? X| | ]; subst; try discriminate X; try discriminate Hv; try (destruct X as (? & [= <-] & Xf); discriminate Xf). destruct v; try discriminate Hv; destruct X. Qed.

Example C68_example : exists N j m', forall n, (N <= n)%nat -> Marshal hd n [] (Some (GStruct st_fs)) = Some j /\
  Unmarshal (fun _ => []) by_name st_none st_none says_yes (fun _ => None) (fun _ => None) (fun _ => true) n st_zero (TStruct 0 st_ts) 5%nat j [] = TopOk m' /\
  nth_error m' 2 = Some (VFloat (FFin true 5629499534213120 (-51))) /\ nth_error m' 3 = Some (VBool false).
Proof.
  destruct (C68_comes_back (fun _ => []) by_name st_none st_none says_yes (fun _ => None) (fun _ => None) (fun _ => true) hd st_fs 0 st_ts st_zero 5%nat [0; 1; 2; 3; 4]%nat) as (N & j & m' & H).
  - apply hd_chooses.
  - exact st_plain.
  - repeat apply Forall2_cons; try apply Forall2_nil; cbn [fst snd]; (split; [reflexivity|]); (split; [exact Logic.I|]).
    + split; [right; right; right; reflexivity|]. split; [split; reflexivity|]. intros _. exact Logic.I.
    + split; [right; right; left; reflexivity|]. split; [split; reflexivity|]. intros _. reflexivity.
    + split; [right; reflexivity|]. split; [split; [reflexivity|discriminate]|]. intros _.
      apply (C68_exact_floats st_none st_none says_yes 64 true 5629499534213120 (-51) 2500000); [reflexivity|reflexivity|]. right. reflexivity.
    + split; [exact Logic.I|]. split; [exact Logic.I|]. intros _. reflexivity.
    + split; [exact Logic.I|]. split; [exact Logic.I|]. intros _. exact Logic.I.
  - intros i g t E. do 5 (destruct i as [|i]; [injection E as <- <-; reflexivity|]). destruct i; discriminate.
  - reflexivity.
  - reflexivity.
  - repeat constructor; cbn; intuition discriminate.
  - cbn. intros b I. lia.
  - exists N, j, m'. intros n Ln. destruct (H n Ln) as (Mj & U & W). split; [exact Mj|]. split; [exact U|]. split.
    + apply (W 2%nat (quoted (B "f")) (GFloat 64 (FFin true 5629499534213120 (-51))) 2%nat); try reflexivity. intros D; apply C68_not_dropped in D; [exact D|reflexivity].
    + apply (W 3%nat (quoted (B "b")) (GBool false) 3%nat); try reflexivity. intros D; apply C68_not_dropped in D; [exact D|reflexivity].
Qed.

Example C68_written_example : exists nid kvs s, marshals true [] (GStruct st_fs) (JDict nid kvs) /\ sm_get kvs (B "n") = Some (JString s) /\ s = B "-5".
Proof.
  assert (M : marshals true [] (GStruct st_fs) (JDict 0 [(B "b", JString (B "false")); (B "f", JString (B "-2.500000")); (B "n", JString (B "-5")); (B "s", JString (B "x")); (B "u", JString (B "7"))])).
  { exists hd, 4%nat. split; [apply hd_chooses|]. vm_compute. reflexivity. }
  destruct (C68_written true [] st_fs _ (quoted (B "n")) (GInt (Signed 64) (-5)) M st_plain (or_introl eq_refl) eq_refl) as (nid & kvs & s & E & G & T).
  - split; [right; right; right; reflexivity|reflexivity].
  - intros (_ & D). apply C68_not_dropped in D; [exact D|reflexivity].
  - exists nid, kvs, s. rewrite <- E. split; [exact M|]. split; [exact G|exact T].
Qed.

(** 2^63 and 2^64 - 1 *)
Example C68_unsigned_example : forall z, z = 2 ^ 63 \/ z = 2 ^ 64 - 1 ->
  exists j, Marshal hd 2 [] (Some (GStruct [(quoted (B "n"), GInt (Unsigned 64) z)])) = Some j /\
    Unmarshal (fun _ => []) by_name st_none st_none says_yes (fun _ => None) (fun _ => None) (fun _ => true) 2 [VInt 3; VStruct [0%nat]] (TStruct 0 [(quoted (B "n"), TInt (Unsigned 64))]) 1%nat j [] = TopErr [VInt 3; VStruct [0%nat]] (EMany [(B "n", ENumber)]).
Proof. intros z [-> | ->]; apply (C68_unsigned_refuted _ _ _ _ _ _ _ _ hd 0 0 (B "n") _ [VInt 3; VStruct [0%nat]] 1%nat 0%nat); try reflexivity; split; reflexivity || discriminate. Qed.

Example C68_struct_example : exists s, Unmarshal (fun _ => []) by_name st_none st_none says_yes (fun _ => None) (fun _ => None) (fun _ => true) 3 [VStruct []; VStruct [0%nat]] (TStruct 0 [(quoted (B "n"), TStruct 1 [])]) 1%nat (JDict 0 [(B "n", JString s)]) []
  = TopErr [VStruct []; VStruct [0%nat]] (EMany [(B "n", EMismatch)]).
Proof.
  destruct (C68_struct_refuted (fun _ => []) by_name st_none st_none says_yes (fun _ => None) (fun _ => None) (fun _ => true) hd 0 0 (B "n") 1 [VStruct []; VStruct [0%nat]] 1%nat 0%nat 1 []) as (s & _ & U); [reflexivity..|]. exists s. exact U.
Qed.

Example C68_slice_example : exists m', Unmarshal (fun _ => []) by_name st_none st_none says_yes (fun _ => None) (fun _ => None) (fun _ => true) 3 [VSlice None; VStruct [0%nat]] (TStruct 0 [(quoted (B "n"), TSlice TString)]) 1%nat (JDict 0 [(B "n", JString (B "[""a"",""b""]"))]) [] = TopOk m' /\
  nth_error m' 0 = Some (VSlice (Some ([2%nat], 1%nat))) /\ nth_error m' 2 = Some (VString (B "[""a"",""b""]")).
Proof. eexists. split; [vm_compute; reflexivity|]. split; reflexivity. Qed.

(** 2^-30 *)
Example C68_small_example : exists j m', Marshal hd 2 [] (Some (GStruct [(quoted (B "n"), GFloat 64 (FFin true 4503599627370496 (-82)))])) = Some j /\
  Unmarshal (fun _ => []) by_name st_none st_none says_yes (fun _ => None) (fun _ => None) (fun _ => true) 2 [VFloat FNaN; VStruct [0%nat]] (TStruct 0 [(quoted (B "n"), TFloat 64)]) 1%nat j [] = TopOk m' /\ nth_error m' 0 = Some (VFloat (fzero F64 true)).
Proof.
  apply (C68_small_floats_refuted (fun _ => []) by_name st_none st_none says_yes (fun _ => None) (fun _ => None) (fun _ => true) hd 0 0 (B "n") true); try reflexivity; [right; reflexivity|cbn; lia].
Qed.
