(** Unmarshal does not see the difference between a JSON value that Marshal
    made of a variable and its form in a query string. *)
From Verif Require Import Base Strconv SpecFloat StrconvFacts FloatWidth ConvertFacts SortedMap SortedMapFacts Json SpecJson JErrors JErrors Heap Gotypes SpecMarshal SpecEncode Printer Marshal MarshalEnc2 MarshalFinal PropMarshal Access Unmarshal SpecUnmarshal UnmFacts UnmTotal SpecRestore RestoreMem MarshalOrder PropScalar PropRoundtrip TextScalars Restore TextRestore SpecQuery SpecQueryCarry.
Open Scope Z_scope.

Definition no_comma_b (c : byte) : Prop := c <> ","%byte.
Lemma comma_digit d : 0 <= d < 10 -> no_comma_b (digit_byte d).
Proof. intros H E. unfold digit_byte in E. apply (f_equal bz) in E. rewrite bz_zb in E by lia. change (bz ","%byte) with 44 in E. lia. Qed.
Lemma comma_fmt fuel : forall n acc, Forall no_comma_b acc -> Forall no_comma_b (fmt_digits fuel n acc).
Proof.
  induction fuel as [|k IH]; intros n acc F; [exact F|]. cbn [fmt_digits].
  assert (Fa : Forall no_comma_b (digit_byte (n mod 10) :: acc)) by (constructor; [apply comma_digit, Z.mod_pos_bound; lia|exact F]).
  destruct (n <? 10); [exact Fa|apply IH, Fa].
Qed.
Lemma comma_uint n : Forall no_comma_b (format_uint n).
Proof. apply comma_fmt. constructor. Qed.
Lemma comma_zeros n : Forall no_comma_b (zeros n).
Proof. unfold zeros. induction (Z.to_nat n); constructor; [discriminate|assumption]. Qed.
Lemma comma_layout d j : Forall no_comma_b (layout_f d j).
Proof.
  unfold layout_f. pose proof (comma_uint d) as F. destruct (0 <=? j); [apply Forall_app; split; [exact F|apply comma_zeros]|].
  destruct (0 <? _).
  - rewrite <- (firstn_skipn (Z.to_nat (Z.of_nat (length (format_uint d)) + j)) (format_uint d)) in F. apply Forall_app in F as [F1 F2].
    apply Forall_app. split; [exact F1|]. constructor; [discriminate|exact F2].
  - repeat (constructor; [discriminate|]). apply Forall_app. split; [apply comma_zeros|exact F].
Qed.
Lemma comma_float F f : Forall no_comma_b (format_float F f).
Proof.
  destruct f as [|[]|neg m e]; try (repeat constructor; discriminate). cbn [format_float]. apply Forall_app. split; [destruct neg; repeat constructor; discriminate|].
  destruct (m =? 0); [repeat constructor; discriminate|]. destruct (shortest F m e) as [d j]. apply comma_layout.
Qed.
Lemma filter_no_comma s : Forall no_comma_b s -> filter (fun b => negb (beq b ","%byte)) s = s.
Proof.
  induction 1 as [|c s N _ IH]; [reflexivity|]. cbn [filter]. destruct (beq_spec c ","%byte) as [E|_]; [destruct (N E)|]. cbn [negb]. rewrite IH. reflexivity.
Qed.

Section Text.
Context (env : nat -> list (finfo * gty)) (locate : list (finfo * gty) -> bytes -> list nat).
Context (match_us match_eu : bytes -> bool) (to_bool : bytes -> bool)
  (parse_time : bytes -> option bytes) (time_json : bytes -> option (option bytes)) (std_ok : bytes -> bool).
Notation unm := (unm env locate match_us match_eu to_bool parse_time time_json std_ok).
Notation resolve := (resolve env).
Notation step_string := (step_string match_us match_eu to_bool parse_time).

(** [JInt], [JBool] and [JFloat] give a variable of this type what their texts
    give. *)
Inductive fits_text : gty -> json -> Prop :=
| ft_string t s : fits_text t (JString s)
| ft_scalar t j : (match j with JInt _ | JBool _ | JFloat _ _ => True | _ => False end) ->
    (match t with TStd | TTime | TPtr _ => False | _ => True end) ->
    (exists c, step_string (String_ j) t = Write c /\ step_scalar match_us match_eu to_bool parse_time j t = Write c) -> fits_text t j
| ft_ptr t j : fits_text (resolve t) j -> (forall m a, snd (indirect env t a m) = None) -> fits_text (TPtr t) j
| ft_slice t l : Forall (fits_text (resolve t)) l -> fits_text (TSlice t) (JArray l)
| ft_array n t l : Forall (fits_text t) l -> fits_text (TArray n t) (JArray l)
| ft_map t nid kvs : nid <= 0 -> Forall (fun kv => fits_text (resolve t) (snd kv)) kvs -> fits_text (TMap t) (JDict nid kvs)
| ft_struct nm fs nid kvs : nid <= 0 ->
    Forall (fun kv => exists i info t, locate fs (fst kv) = [i] /\ nth_error fs i = Some (info, t) /\ fi_deprecated_by info = None /\ fits_text t (snd kv)) kvs ->
    fits_text (TStruct nm fs) (JDict nid kvs)
| ft_ser k c nid kvs : fits_text (TStruct c (env c)) (JDict nid kvs) -> fits_text (TSer k (Makes c)) (JDict nid kvs).

Lemma ft_int k z : match k with Signed b | Unsigned b => word b end -> in_kind k z = true -> match k with Unsigned _ => z < 2 ^ 63 | _ => True end ->
  fits_text (TInt k) (JInt (wrap (Signed 64) z)).
Proof using.
  intros W K B. apply ft_scalar; [exact Logic.I|exact Logic.I|]. 
  exists (VInt z). change (String_ (JInt (wrap (Signed 64) z))) with (format_int (wrap (Signed 64) z)).
  rewrite (int_from_text match_us match_eu to_bool parse_time k z W K B). cbn [step_scalar step_int]. pose proof (wrap_id k z W K) as X.
  destruct k as [b|b]; cbn beta iota in X; rewrite X; split; reflexivity.
Qed.

Lemma ft_float bit x : fl_ok F64 x = true -> match_us (float_string x 64) = true \/ match_eu (float_string x 64) = false -> fits_text (TFloat bit) (JFloat x 64).
Proof using.
  intros Ok A. apply ft_scalar; [exact Logic.I|exact Logic.I|]. exists (VFloat (set_float bit x)). change (String_ (JFloat x 64)) with (float_string x 64).
  pose proof (C39_float_text x Ok) as V. cbn [Unmarshal.step_string step_scalar step_float].
  assert (Nz : normalize_currency match_us match_eu (float_string x 64) = float_string x 64).
  { destruct (match_us (float_string x 64)) eqn:Eu.
    - rewrite C35_us by exact Eu. apply filter_no_comma. apply comma_float.
    - destruct A as [A|A]; [congruence|]. apply (proj1 (C35_other match_us match_eu _)); assumption. }
  destruct (float_string x 64) as [|c s] eqn:Es; [exfalso; discriminate V|]. rewrite <- Es in *. rewrite Nz, V. split; reflexivity.
Qed.

Lemma fits_text_kind t j : fits_text t j -> match j with JNull | JPtr _ => False | JDict nid _ => nid <= 0 | _ => True end.
Proof using. induction 1; try exact Logic.I; try assumption. destruct j; contradiction || exact Logic.I. Qed.

Lemma unm_as_text n : forall st t a j, fits_text t j -> unm n st t a (as_text j) = unm n st t a j.
Proof using.
  induction n as [|n IH]; [reflexivity|]. intros st t a j F.
  inversion F as [|? ? J T (c & E1 & E2)|t' ? F' Nd|t' l Fl|k t' l Fl|t' nid kvs Z Fk|nm fs nid kvs Z Fk|k c nid kvs F']; subst.
  - reflexivity.
  - assert (In0 : forall m, indirect env t a m = (fst (indirect env t a m), None)).
    { intros m. destruct t; try contradiction T; cbn [indirect]; try reflexivity. destruct (nth_error m a) as [[| | | | | | | | | | | |[?|]| |]|]; reflexivity. }
    destruct j; try contradiction J; cbn [as_text Unmarshal.unm]; rewrite In0; cbn [step_scalar] in *; rewrite E1, E2; destruct t; try contradiction T; reflexivity.
  - assert (In0 : forall m, snd (indirect env (TPtr t') a m) = None) by (intros m; apply indirect_ptr, Nd).
    assert (E : forall st b, unm n st (resolve t') b (as_text j) = unm n st (resolve t') b j) by (intros; apply IH; assumption).
    pose proof (fits_text_kind _ _ F') as Kd.
    destruct j as [|x|z|fl bit|s|l|nid kvs|p]; [contradiction| | | |reflexivity| | |contradiction]; cbn [as_text] in *.
    1-3: cbn [Unmarshal.unm step_scalar Unmarshal.step_string step_int step_float step_bool]; specialize (In0 (u_mem st)); destruct (indirect env (TPtr t') a (u_mem st)) as [m1 u]; cbn in In0; subst u;
       destruct (nth_error (u_mem (with_mem st m1)) a) as [[| | | | | | | | |[b|]| | | | |]|]; try reflexivity; apply E.
    + cbn [Unmarshal.unm]. specialize (In0 (u_mem st)); destruct (indirect env (TPtr t') a (u_mem st)) as [m1 u]; cbn in In0; subst u.
      destruct (is_list_kind t'); [|reflexivity].
      destruct (nth_error (u_mem (with_mem st m1)) a) as [[| | | | | | | | |[b|]| | | | |]|]; try reflexivity; apply E.
    + assert (Ez : (0 <? nid) = false).
      { apply Z.ltb_ge. exact Kd. }
      cbn [Unmarshal.unm]. rewrite Ez. change (0 <? 0) with false. cbn [ubind].
      specialize (In0 (u_mem st)); destruct (indirect env (TPtr t') a (u_mem st)) as [m1 u]; cbn in In0; subst u.
      destruct (is_dict_kind t'); [|reflexivity].
      destruct (nth_error (u_mem (with_mem st m1)) a) as [[| | | | | | | | |[b|]| | | | |]|]; try reflexivity; apply E.
  - cbn [as_text Unmarshal.unm indirect]. rewrite map_length.
    destruct (resize (length l) (resolve t') a (u_mem (with_mem st (u_mem st))) true) as [m1 vars].
    apply un_elems_eq. clear - Fl IH. induction Fl as [|j l F1 Fl IHl]; [constructor|]. cbn [map]. constructor; [|apply IHl].
    intros st a. apply IH; assumption.
  - cbn [as_text Unmarshal.unm indirect]. rewrite map_length. destruct (negb _); [reflexivity|].
    apply un_elems_eq. clear - Fl IH. induction Fl as [|j l F1 Fl IHl]; [constructor|]. cbn [map]. constructor; [|apply IHl].
    intros st a. apply IH; assumption.
  - cbn [as_text Unmarshal.unm indirect]. rewrite (proj2 (Z.ltb_ge 0 nid) Z). change (0 <? 0) with false. cbn [ubind].
    destruct (map_data a _) as [m1 d]. apply un_members_eq. clear - Fk IH.
    induction Fk as [|[k j] l F1 Fk IHl]; [constructor|]. cbn [map]. constructor; [|apply IHl]. split; [reflexivity|]. cbn [snd] in *. intros st a. apply IH; assumption.
  - cbn [as_text Unmarshal.unm indirect]. rewrite (proj2 (Z.ltb_ge 0 nid) Z). change (0 <? 0) with false. cbn [ubind].
    apply un_fields_eq. clear - Fk IH.
    induction Fk as [|[k j] l (i & info & t & L & N & D & Ft) Fk IHl]; [constructor|]. cbn [map]. constructor; [|apply IHl]. split; [reflexivity|].
    cbn [fst snd] in *. exists i, info, t. repeat split; try assumption. intros st a. apply IH; assumption.
  - assert (E : forall st b, unm n st (TStruct c (env c)) b (as_text (JDict nid kvs)) = unm n st (TStruct c (env c)) b (JDict nid kvs)) by (intros; apply IH; assumption).
    pose proof (fits_text_kind _ _ F') as Z. cbn beta iota in Z.
    cbn [as_text Unmarshal.unm indirect] in *. rewrite (proj2 (Z.ltb_ge 0 nid) Z). change (0 <? 0) with false. cbn [ubind].
    unfold un_serial. destruct (zalloc _ _) as [m1 b]. rewrite E. reflexivity.
Qed.

(** ** Values of variables *)

Context (stg : store) (types : list gty) (f : Z -> option addr).
Notation holds := (holds env parse_time time_json types).
Notation restorable := (restorable locate).
Hypothesis Hst : typed_store env locate parse_time time_json types stg.
Hypothesis Henvr : forall n, restorable (TStruct n (env n)).
Notation carried := (carried match_us match_eu to_bool).

Definition carries (i : option finfo) (v : gval) : Prop := forall i' w, sub stg (i, v) (i', w) -> carried i' w.
Lemma carries_sub i v i' w : (forall p, sub stg (i', w) p -> sub stg (i, v) p) -> carries i v -> carries i' w.
Proof using. intros S T i2 w2 S2. eapply T. apply S. exact S2. Qed.

Definition no_ids (j : json) : Prop := node_ids j = [] /\ ref_ids j = [].
Lemma no_ids_elem l j : In j l -> no_ids (JArray l) -> no_ids j.
Proof using.
  intros I [A B]. cbn in A, B. split; [destruct (node_ids j) as [|x r] eqn:E|destruct (ref_ids j) as [|x r] eqn:E]; try reflexivity; exfalso.
  - assert (X : In x (flat_map node_ids l)) by (apply in_flat_map; exists j; split; [exact I|rewrite E; left; reflexivity]). rewrite A in X. destruct X.
  - assert (X : In x (flat_map ref_ids l)) by (apply in_flat_map; exists j; split; [exact I|rewrite E; left; reflexivity]). rewrite B in X. destruct X.
Qed.
Lemma no_ids_member nid kvs k j : In (k, j) kvs -> no_ids (JDict nid kvs) -> no_ids j.
Proof using.
  intros I [A B]. cbn in A, B. apply app_eq_nil in A as [_ A]. split; [destruct (node_ids j) as [|x r] eqn:E|destruct (ref_ids j) as [|x r] eqn:E]; try reflexivity; exfalso.
  - assert (X : In x (flat_map (fun kv => node_ids (snd kv)) kvs)) by (apply in_flat_map; exists (k, j); split; [exact I|cbn; rewrite E; left; reflexivity]). rewrite A in X. destruct X.
  - assert (X : In x (flat_map (fun kv => ref_ids (snd kv)) kvs)) by (apply in_flat_map; exists (k, j); split; [exact I|cbn; rewrite E; left; reflexivity]). rewrite B in X. destruct X.
Qed.
Lemma no_ids_nid nid kvs : no_ids (JDict nid kvs) -> nid <= 0.
Proof using. intros [A _]. cbn in A. apply app_eq_nil in A as [A _]. destruct (Z.ltb_spec 0 nid); [discriminate|lia]. Qed.

Lemma encodes_fits_text : forall own i v j, encodes stg true f own i v j -> ~ dropped stg i v -> carries i v ->
  forall t, holds v t -> restorable t -> no_ids j -> fits_text t j.
Proof.
  apply (encodes_ind2 stg true f (fun own i v j => ~ dropped stg i v -> carries i v -> forall t, holds v t -> restorable t -> no_ids j -> fits_text t j)
    (fun l js => (forall x, In x l -> carries None x) -> forall t, Forall (fun v => holds v t) l -> restorable t -> (forall j, In j js -> no_ids j) -> Forall (fits_text t) js)
    (fun m ps => (forall k x, In (k, x) m -> carries None x) -> forall t, Forall (fun kv => holds (snd kv) t) m -> restorable t -> forall k j, In (k, j) ps -> no_ids j -> fits_text t j)
    (fun fs ps => (forall g v, In (g, v) fs -> carries (Some g) v) -> (forall g v, In (g, v) fs -> fi_ignore g = false /\ fi_deprecated_by g = None) ->
       forall k j, In (k, j) ps -> exists g v, In (g, v) fs /\ fi_name g = k /\ forall t, holds v t -> restorable t -> no_ids j -> fits_text t j)).
  - intros own i v Hn Nd. destruct Nd. apply D_nil, Hn.
  - intros own i b _ T t H R _. destruct (forced i); [apply ft_string|]. destruct t; try contradiction. apply ft_scalar; [exact Logic.I|exact Logic.I|].
    pose proof (T i _ (S_refl _ _)) as Tb. cbn [SpecQueryCarry.carried] in Tb. exists (VBool b). cbn. destruct b; cbn in Tb |- *; unfold txt_true, txt_false in *; rewrite Tb; split; reflexivity.
  - intros own i k z _ T t H R _. cbn zeta. destruct (forced i); [apply ft_string|]. destruct t; try contradiction. destruct H as [<- K].
    apply ft_int; [destruct k; exact R|exact K|]. pose proof (T i _ (S_refl _ _)) as Tb. destruct k; [exact Logic.I|exact Tb].
  - intros own i bit x _ T t H R _. destruct (forced i) eqn:Fi; [apply ft_string|]. destruct (T i _ (S_refl _ _)) as [X|(-> & Ok & A)]; [congruence|].
    destruct t; try contradiction. apply ft_float; assumption.
  - intros own i s _ _ t _ _ _. apply ft_string.
  - intros own i b _ T t H R _. destruct t; try contradiction. apply ft_scalar; [exact Logic.I|exact Logic.I|]. exists (VString (if b then txt_true else txt_false)). split; destruct b; reflexivity.
  - intros own i o _ _ t _ _ _. apply ft_string.
  - intros own i l js _ _ IH _ T t H R Ni. destruct t as [| | | | | |t| | | | | | | | | | | | | |]; try contradiction.
    apply ft_slice. apply IH; [|apply (holds_slice env parse_time time_json types l t H)|apply (restorable_slice env locate Henvr); exact R|intros j I; eapply no_ids_elem; eassumption].
    intros x I. eapply carries_sub; [|exact T]. intros p. apply S_slice, I.
  - intros own i l js _ _ IH _ T t H R Ni. destruct t as [| | | | | | |k t| | | | | | | | | | | | |]; try contradiction.
    apply ft_array. apply IH; [|apply (holds_array env parse_time time_json types l k t H)|exact R|intros j I; eapply no_ids_elem; eassumption].
    intros x I. eapply carries_sub; [|exact T]. intros p. apply S_array, I.
  - intros own i m n ps kvs _ _ IH Hd Ho _ T t H R Ni. destruct t as [| | | | | | | |t| | | | | | | | | | | |]; try contradiction.
    destruct (holds_map env parse_time time_json types m t H) as [_ Hm].
    apply ft_map; [eapply no_ids_nid, Ni|]. apply Forall_forall. intros [k j] I. cbn [snd].
    apply (IH) with (k := k) (t := resolve t); [|exact Hm|apply (restorable_map env locate Henvr); exact R|eapply dict_of_in; eassumption|eapply no_ids_member; eassumption].
    intros k' x I'. eapply carries_sub; [|exact T]. intros p. eapply S_map, I'.
  - intros own i fs n ps kvs _ _ IH Hd Ho _ T t H R Ni. destruct t as [| | | | | | | | | | |nm ts| | | | | | | | |]; try contradiction.
    pose proof (holds_struct env parse_time time_json types fs nm ts H) as H2. pose proof R as [(P1 & P2 & P3) _].
    assert (Pf : forall g v, In (g, v) fs -> fi_ignore g = false /\ fi_deprecated_by g = None).
    { intros g v I. apply In_nth_error in I as [q Iq]. destruct (F2_nth_l _ _ _ H2 q _ Iq) as ([g' t'] & E' & [Eg _]). cbn in Eg. subst g'. eapply P1, nth_error_In, E'. }
    apply ft_struct; [eapply no_ids_nid, Ni|]. apply Forall_forall. intros [k j] I. cbn [fst snd].
    pose proof (no_ids_member _ _ _ _ I Ni) as Nj.
    apply (struct_dict_in _ _ _ _ _ (plain_tags fs (fun g v I => proj2 (Pf g v I))) Hd) in I.
    destruct (IH (fun g v Ig => carries_sub i _ (Some g) v (fun p => S_field stg i fs g v p Ig (proj1 (Pf g v Ig)) (proj2 (Pf g v Ig))) T) Pf k j I) as (g & v & Ig & Eg & Fg).
    apply In_nth_error in Ig as [q Iq]. destruct (F2_nth_l _ _ _ H2 q _ Iq) as ([g' t'] & E' & [Eg' Hv]). cbn in Eg', Hv. subst g'.
    exists q, g, t'. split; [rewrite <- Eg; eapply P3, E'|]. split; [exact E'|]. split; [apply (P1 g t'); eapply nth_error_In, E'|].
    apply Fg; [exact Hv| |exact Nj]. eapply (restorable_field locate nm ts g t' R). eapply nth_error_In, E'.
  - intros own i v j _ _ _ _ _ _ _ t _ _ _. apply ft_string.
  - intros own i a n Hf _ _ t _ _ [_ X]. discriminate X.
  - intros own i a x j Ex E IH Nd T t H R Ni. destruct t as [| | | | | | | | | |t| | | | | | | | | |]; try contradiction.
    assert (Dt : t <> TTime) by (intros ->; destruct H).
    apply holds_ptr_type in H.
    destruct (store_object env locate parse_time time_json stg types Hst a _ H) as (x' & Ex' & Hx & _ & _ & Rx). assert (x' = x) by congruence. subst x'.
    assert (D : t = TStd \/ t <> TStd) by (destruct t; (left; reflexivity) || (right; discriminate)). destruct D as [->|D].
    { destruct x as [| | | |[]|[]|[]| |[]| |[]|[]|[]|[]| |j0|]; try absurd_holds Hx. assert (j = j0) by (inversion E; subst; try contradiction; congruence). subst j0.
      assert (X : exists s, j = JString s) by (apply (T i (GStd j)); eapply S_ptr; [exact Ex|apply S_refl]). destruct X as [s ->]. apply ft_string. }
    apply ft_ptr; [|eapply (restorable_indirect env locate f); assumption].
    apply IH; [intros X; apply Nd; eapply D_ptr; eassumption| |exact Hx|exact Rx|exact Ni]. eapply carries_sub; [|exact T]. intros p. apply S_ptr, Ex.
  - intros own i x j _ IH Nd T t H R Ni. destruct (holds_iface env parse_time time_json types _ _ H) as (s & k & c & -> & -> & Et).
    assert (F : fits_text (TPtr (TNamed c)) j) by (apply IH; [intros X; apply Nd, D_iface, X| |exact Et|exact Logic.I|exact Ni]; eapply carries_sub; [|exact T]; intros p; apply S_iface).
    inversion F as [|? ? ? X _|? ? F' _| | | | |]; subst; [apply ft_string|contradiction|].
    inversion F' as [|? ? J1 J2 (c0 & E1 & E2)| | | | |? ? ? ? Z Fk|]; subst; [apply ft_string| |apply ft_ser, F'].
    destruct j; try contradiction J1; discriminate E2.
  - intros own i j _ T t H R Ni. destruct (T i _ (S_refl _ _)) as [[s ->]|[b ->]]; [apply ft_string|].
    destruct t as [| | | | | | | | | | | | | | | |k| | | |]; try contradiction. destruct H as [_ K]. injection K as <-.
    apply ft_scalar; [exact Logic.I|exact Logic.I|]. exists (VJson (Some (JBool b))). destruct b; split; reflexivity.
  - intros own i j _ T t H R Ni. destruct (T i _ (S_refl _ _)) as [s ->]. apply ft_string.
  - intros own i j _ _ t Ht. destruct t; contradiction.
  - intros own i j _ T t _ _ _. destruct (T i _ (S_refl _ _)) as [s ->]. apply ft_string.
  - intros own i _ _ t Ht. destruct t; contradiction.
  - constructor.
  - intros v l js O D _ IH T t H R Ni. apply IH; [intros x I; apply T; right; exact I|inversion H; assumption|exact R|exact Ni].
  - intros v l j js Nd _ IH1 _ IH2 T t H R Ni. inversion H; subst. constructor.
    + apply IH1; [intros X; apply Nd; split; [reflexivity|exact X]|apply T; left; reflexivity|assumption|exact R|apply Ni; left; reflexivity].
    + apply IH2; [intros x I; apply T; right; exact I|assumption|exact R|intros x I; apply Ni; right; exact I].
  - intros _ t _ _ k j [].
  - intros k v m ps O D _ IH T t H R k' j' I. inversion H; subst. eapply IH; [intros k2 x I2; apply (T k2); right; exact I2|eassumption|exact R|exact I].
  - intros k v m j ps Nd _ IH1 _ IH2 T t H R k' j' I. inversion H; subst. destruct I as [[=<- <-]|I].
    + apply IH1; [intros X; apply Nd; split; [reflexivity|exact X]|apply (T k); left; reflexivity|assumption|exact R].
    + eapply IH2; [intros k2 x I2; apply (T k2); right; exact I2|eassumption|exact R|exact I].
  - intros _ _ k j [].
  - intros x v fs ps Hi _ _ _ P. destruct (P x v (or_introl eq_refl)) as [P1 _]. congruence.
  - intros x v fs ps Hi _ _ _ P. destruct (P x v (or_introl eq_refl)) as (_ & P1). congruence.
  - intros x v fs ps O D _ IH T P k j I. destruct (IH (fun g w I => T g w (or_intror I)) (fun g w I => P g w (or_intror I)) k j I) as (g & w & Ig & R).
    exists g, w. split; [right; exact Ig|exact R].
  - intros x v fs j ps _ _ Nd _ IH1 _ IH2 T P k j' [[=<- <-]|I].
    + exists x, v. split; [left; reflexivity|]. split; [reflexivity|]. intros t H R Ni. apply IH1; [intros X; apply Nd; split; [reflexivity|exact X]|apply T; left; reflexivity|exact H|exact R|exact Ni].
    + destruct (IH2 (fun g w I => T g w (or_intror I)) (fun g w I => P g w (or_intror I)) k j' I) as (g & w & Ig & R).
      exists g, w. split; [right; exact Ig|exact R].
Qed.
End Text.
