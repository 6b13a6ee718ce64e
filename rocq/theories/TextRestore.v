(** Unmarshal does not see the difference between a JSON value and what comes
    back of its text, for values that Marshal makes of variables. *)
From Coq Require Import QArith.
From Verif Require Import Base Strconv SpecFloat StrconvFacts RoundFacts FloatText RoundUnique ConvertFacts SortedMap SortedMapFacts Json SpecJson SpecPrint ParseInv Heap Gotypes SpecMarshal SpecEncode Printer Marshal MarshalEnc2 MarshalFinal PropMarshal Access Unmarshal SpecUnmarshal UnmFacts UnmTotal FloatWidth SpecRestore RestoreMem MarshalOrder Restore SpecWritable.
Open Scope Z_scope.

Lemma float_of_int_exact (neg : bool) m e (z : Z) : 0 < z < 2 ^ 63 -> correctly_rounded F64 (inject_Z z) m e -> float_of_int (if neg then - z else z) = FFin neg m e.
Proof.
  intros Z C. pose proof (float_of_int_rounds (if neg then - z else z)) as R.
  assert (E : ((if neg then - z else z) <? 0) = neg) by (destruct neg; [apply Z.ltb_lt|apply Z.ltb_ge]; lia). rewrite E in R.
  replace (Z.abs (if neg then - z else z)) with z in R by (destruct neg; lia).
  assert (P : (0 < inject_Z z)%Q) by (change 0%Q with (inject_Z 0); rewrite <- Zlt_Qlt; lia).
  destruct R as [[X _]|[(_ & O & _)|(_ & _ & m' & e' & -> & C')]].
  - rewrite X in P. discriminate P.
  - exfalso. unfold overflows in O. assert ((inject_Z z <= inject_Z (2 ^ 63))%Q) as B' by (rewrite <- Zle_Qle; lia).
    pose proof (Qle_trans _ _ _ O B') as Q. vm_compute in Q. apply Q. reflexivity.
  - destruct (correctly_rounded_unique F64 _ _ _ _ _ F64_valid C C') as [-> ->]. reflexivity.
Qed.

Section Text.
Context (env : nat -> list (finfo * gty)) (locate : list (finfo * gty) -> bytes -> list nat).
Context (match_us match_eu : bytes -> bool) (to_bool : bytes -> bool)
  (parse_time : bytes -> option bytes) (time_json : bytes -> option (option bytes)) (std_ok : bytes -> bool).
Notation unm := (unm env locate match_us match_eu to_bool parse_time time_json std_ok).
Notation resolve := (resolve env).

Inductive fits : gty -> json -> Prop :=
| fit_same t j : text_stable j -> fits t j
| fit_float f bit : fl_ok F64 f = true -> (forall e, f <> FFin true 0 e) -> fits (TFloat 64) (JFloat f bit)
| fit_ptr t j : fits (resolve t) j -> (forall m a, snd (indirect env t a m) = None) -> fits (TPtr t) j
| fit_slice t l : Forall (fits (resolve t)) l -> fits (TSlice t) (JArray l)
| fit_array n t l : Forall (fits t) l -> fits (TArray n t) (JArray l)
| fit_map t nid kvs : Forall (fun kv => fits (resolve t) (snd kv)) kvs -> fits (TMap t) (JDict nid kvs)
| fit_struct nm fs nid kvs :
    Forall (fun kv => exists i info t, locate fs (fst kv) = [i] /\ nth_error fs i = Some (info, t) /\ fi_deprecated_by info = None /\ fits t (snd kv)) kvs ->
    fits (TStruct nm fs) (JDict nid kvs)
| fit_ser k c nid kvs : fits (TStruct c (env c)) (JDict nid kvs) -> fits (TSer k (Makes c)) (JDict nid kvs).

Lemma indirect_ptr t : (forall m a, snd (indirect env t a m) = None) -> forall m a, snd (indirect env (TPtr t) a m) = None.
Proof.
  intros H m a. cbn [indirect]. destruct (nth_error m a) as [[| | | | | | | | |[b|]| | | | |]|]; try apply H;
    destruct (zalloc (resolve t) m); apply H.
Qed.

Lemma un_elems_eq un (t : gty) l l' : Forall2 (fun j j' => forall st a, un st t a j' = un st t a j) l l' ->
  forall st vars, un_elems un st t vars l' = un_elems un st t vars l.
Proof.
  induction 1 as [|j j' l l' E F IH]; intros st vars; [reflexivity|]. destruct vars as [|a vars]; [reflexivity|].
  cbn [un_elems]. rewrite E. destruct (un st t a j) as [st1 [e|]| |]; cbn [ubind]; try reflexivity. apply IH.
Qed.
Lemma un_members_eq un (t : gty) d l l' : Forall2 (fun a b => fst a = fst b /\ forall st x, un st t x (snd b) = un st t x (snd a)) l l' ->
  forall st, un_members un st t d l' = un_members un st t d l.
Proof.
  induction 1 as [|[k j] [k' j'] l l' [E1 E] F IH]; intros st; [reflexivity|]. cbn [un_members]. cbn in E1, E. subst k'.
  destruct (zalloc t (u_mem st)) as [m1 tmp]. rewrite E. destruct (un (with_mem st m1) t tmp j) as [st1 [e|]| |]; cbn [ubind]; try reflexivity.
  destruct (vcopy t tmp (u_mem st1)) as [m2 b]. apply IH.
Qed.
Lemma set_field_eq un fs l k j j' fuel st visited i info t : locate fs k = [i] -> nth_error fs i = Some (info, t) -> fi_deprecated_by info = None ->
  (forall st a, un st t a j' = un st t a j) -> set_field locate un fuel st visited fs l k j' = set_field locate un fuel st visited fs l k j.
Proof.
  intros L N D E. destruct fuel as [|n]; [reflexivity|]. cbn [set_field]. destruct (in_strings k visited); [reflexivity|]. rewrite L, N.
  destruct (nth_error l i) as [a|]; [|reflexivity]. rewrite E. destruct (un st t a j) as [st1 [e|]| |]; cbn [ubind]; try reflexivity. rewrite D. reflexivity.
Qed.
Lemma un_fields_eq un fs l kvs kvs' :
  Forall2 (fun a b => fst a = fst b /\ exists i info t, locate fs (fst a) = [i] /\ nth_error fs i = Some (info, t) /\ fi_deprecated_by info = None /\
     forall st x, un st t x (snd b) = un st t x (snd a)) kvs kvs' ->
  forall st errs, un_fields locate un st fs l kvs' errs = un_fields locate un st fs l kvs errs.
Proof.
  induction 1 as [|[k j] [k' j'] kvs kvs' [E1 (i & info & t & L & N & D & E)] F IH]; intros st errs; [reflexivity|]. cbn [fst snd] in *. subst k'.
  cbn [un_fields]. rewrite (set_field_eq un fs l k j j' _ _ _ i info t L N D E).
  destruct (set_field locate un _ st [] fs l k j) as [st1 r| |]; cbn [ubind]; try reflexivity. apply IH.
Qed.

Lemma unm_reads_as n : forall st t a j j', fits t j -> reads_as j j' -> unm n st t a j' = unm n st t a j.
Proof.
  induction n as [|n IH]; [reflexivity|]. intros st t a j j' F R.
  inversion F as [? ? S|f bit Ok Nz|t' ? F' Nd|t' l Fl|k t' l Fl|t' nid kvs Fk|nm fs nid kvs Fk|k c nid kvs F']; subst.
  - rewrite (reads_as_stable j S j' R). reflexivity.
  - assert (G : j' = JFloat f 0 \/ exists z, j' = JInt z /\ float_of_int z = f).
    { inversion R; subst; auto.
      - right. exists 0. split; [reflexivity|]. destruct neg; [edestruct Nz; reflexivity|].
        cbn in Ok. apply canon_spec in Ok as (_ & _ & [X|X]); [cbn in X; lia|]. subst e. reflexivity.
      - right. eexists. split; [reflexivity|]. apply float_of_int_exact; assumption. }
    destruct G as [->|(z & -> & <-)]; reflexivity.
  - assert (In0 : forall m, snd (indirect env (TPtr t') a m) = None) by (intros m; apply indirect_ptr, Nd).
    assert (E : forall st b, unm n st (resolve t') b j' = unm n st (resolve t') b j) by (intros; apply IH; assumption).
    inversion R; subst; try reflexivity; cbn [Unmarshal.unm step_scalar step_int step_float].
    1-5: specialize (In0 (u_mem st)); destruct (indirect env (TPtr t') a (u_mem st)) as [m1 u]; cbn in In0; subst u;
       destruct (nth_error (u_mem (with_mem st m1)) a) as [[| | | | | | | | |[b|]| | | | |]|]; try reflexivity; apply E.
    + specialize (In0 (u_mem st)); destruct (indirect env (TPtr t') a (u_mem st)) as [m1 u]; cbn in In0; subst u.
      destruct (is_list_kind t'); [|reflexivity].
      destruct (nth_error (u_mem (with_mem st m1)) a) as [[| | | | | | | | |[b|]| | | | |]|]; try reflexivity; apply E.
    + assert (Ez : (0 <? Z.max 0 nid) = (0 <? nid)) by (destruct (Z.ltb_spec 0 nid); [apply Z.ltb_lt|apply Z.ltb_ge]; lia). rewrite Ez.
      assert (Es : (if 0 <? nid then save_node_value st (Z.max 0 nid) a (TPtr t') else UOk st tt) = (if 0 <? nid then save_node_value st nid a (TPtr t') else UOk st tt)).
      { destruct (Z.ltb_spec 0 nid); [|reflexivity]. rewrite Z.max_r by lia. reflexivity. }
      rewrite Es. clear Es Ez. destruct (if 0 <? nid then save_node_value st nid a (TPtr t') else UOk st tt) as [st1 []| |]; cbn [ubind]; try reflexivity.
      specialize (In0 (u_mem st1)); destruct (indirect env (TPtr t') a (u_mem st1)) as [m1 u]; cbn in In0; subst u.
      destruct (is_dict_kind t'); [|reflexivity].
      destruct (nth_error (u_mem (with_mem st1 m1)) a) as [[| | | | | | | | |[b|]| | | | |]|]; try reflexivity; apply E.
  - inversion R as [| | | | | | | | | |? l' F2|]; subst. cbn [Unmarshal.unm indirect].
    assert (Len : length l' = length l) by (clear - F2; induction F2; cbn; congruence). rewrite Len.
    destruct (resize (length l) (resolve t') a (u_mem (with_mem st (u_mem st))) true) as [m1 vars].
    apply un_elems_eq. clear - Fl F2 IH. induction F2 as [|j j' l l' E F2 IHl]; [constructor|]. inversion Fl; subst. constructor; [|apply IHl; assumption].
    intros st a. apply IH; assumption.
  - inversion R as [| | | | | | | | | |? l' F2|]; subst. cbn [Unmarshal.unm indirect].
    assert (Len : length l' = length l) by (clear - F2; induction F2; cbn; congruence). rewrite Len.
    destruct (negb _); [reflexivity|].
    apply un_elems_eq. clear - Fl F2 IH. induction F2 as [|j j' l l' E F2 IHl]; [constructor|]. inversion Fl; subst. constructor; [|apply IHl; assumption].
    intros st a. apply IH; assumption.
  - inversion R as [| | | | | | | | | | |? ? kvs' F2]; subst. cbn [Unmarshal.unm indirect].
    assert (Ez : (0 <? Z.max 0 nid) = (0 <? nid)) by (destruct (Z.ltb_spec 0 nid); [apply Z.ltb_lt|apply Z.ltb_ge]; lia). rewrite Ez.
    assert (Es : (if 0 <? nid then save_node_value st (Z.max 0 nid) a (TMap t') else UOk st tt) = (if 0 <? nid then save_node_value st nid a (TMap t') else UOk st tt)).
    { destruct (Z.ltb_spec 0 nid); [|reflexivity]. rewrite Z.max_r by lia. reflexivity. }
    rewrite Es. clear Es Ez. destruct (if 0 <? nid then save_node_value st nid a (TMap t') else UOk st tt) as [st1 []| |]; cbn [ubind]; try reflexivity.
    destruct (map_data a _) as [m1 d]. apply un_members_eq. clear - Fk F2 IH.
    induction F2 as [|[k j] [k' j'] l l' [E1 E] F2 IHl]; [constructor|]. inversion Fk; subst. constructor; [|apply IHl; assumption].
    split; [exact E1|]. intros st a. apply IH; assumption.
  - inversion R as [| | | | | | | | | | |? ? kvs' F2]; subst. cbn [Unmarshal.unm indirect].
    assert (Ez : (0 <? Z.max 0 nid) = (0 <? nid)) by (destruct (Z.ltb_spec 0 nid); [apply Z.ltb_lt|apply Z.ltb_ge]; lia). rewrite Ez.
    assert (Es : (if 0 <? nid then save_node_value st (Z.max 0 nid) a (TStruct nm fs) else UOk st tt) = (if 0 <? nid then save_node_value st nid a (TStruct nm fs) else UOk st tt)).
    { destruct (Z.ltb_spec 0 nid); [|reflexivity]. rewrite Z.max_r by lia. reflexivity. }
    rewrite Es. clear Es Ez. destruct (if 0 <? nid then save_node_value st nid a (TStruct nm fs) else UOk st tt) as [st1 []| |]; cbn [ubind]; try reflexivity.
    apply un_fields_eq. clear - Fk F2 IH.
    induction F2 as [|[k j] [k' j'] l l' [E1 E] F2 IHl]; [constructor|]. inversion Fk as [|? ? (i & info & t & L & N & D & Ft) Fk']; subst. constructor; [|apply IHl; assumption].
    split; [exact E1|]. exists i, info, t. repeat split; try assumption. intros st a. apply IH; assumption.
  - assert (E : forall st b, unm n st (TStruct c (env c)) b j' = unm n st (TStruct c (env c)) b (JDict nid kvs)) by (intros; apply IH; assumption).
    inversion R as [| | | | | | | | | | |? ? kvs' F2]; subst. cbn [Unmarshal.unm indirect].
    assert (Ez : (0 <? Z.max 0 nid) = (0 <? nid)) by (destruct (Z.ltb_spec 0 nid); [apply Z.ltb_lt|apply Z.ltb_ge]; lia). rewrite Ez.
    assert (Es : (if 0 <? nid then save_node_value st (Z.max 0 nid) a (TSer k (Makes c)) else UOk st tt) = (if 0 <? nid then save_node_value st nid a (TSer k (Makes c)) else UOk st tt)).
    { destruct (Z.ltb_spec 0 nid); [|reflexivity]. rewrite Z.max_r by lia. reflexivity. }
    rewrite Es. clear Es Ez. destruct (if 0 <? nid then save_node_value st nid a (TSer k (Makes c)) else UOk st tt) as [st1 []| |]; cbn [ubind]; try reflexivity.
    unfold un_serial. destruct (zalloc _ _) as [m1 b]. rewrite E. reflexivity.
Qed.

(** ** Values of variables *)

Context (stg : store) (omit : bool) (types : list gty) (f : Z -> option addr).
Notation holds := (holds env parse_time time_json types).
Notation restorable := (restorable locate).
Notation proper := (SpecUnmarshal.proper env).
Hypothesis Hst : typed_store env locate parse_time time_json types stg.
Hypothesis Henvr : forall n, restorable (TStruct n (env n)).

Definition text_ok (i : option finfo) (v : gval) : Prop := forall i' w, sub stg (i, v) (i', w) -> writable w.
Lemma text_ok_sub i v i' w : (forall p, sub stg (i', w) p -> sub stg (i, v) p) -> text_ok i v -> text_ok i' w.
Proof. intros S T i2 w2 S2. eapply T. apply S. exact S2. Qed.

Lemma stable_leaf j : match j with JArray _ | JDict _ _ | JFloat _ _ => False | _ => True end -> text_stable j.
Proof. intros H. split; intros ? ? S; inversion S; subst; contradiction. Qed.

Lemma last_pair_in ps k j : last_pair ps k = Some j -> In (k, j) ps.
Proof.
  induction ps as [|[k' j'] ps IH]; [discriminate|]. cbn. destruct (last_pair ps k) as [x|].
  - intros [=->]. right. apply IH. reflexivity.
  - destruct (bseq k k') eqn:E; [|discriminate]. apply bseq_eq in E. subst. intros [=->]. left. reflexivity.
Qed.
Lemma dict_of_in ps kvs k j : dict_of ps kvs -> In (k, j) kvs -> In (k, j) ps.
Proof. intros [S G] I. apply sm_get_in in I; [|exact S]. rewrite G in I. apply last_pair_in, I. Qed.
Lemma struct_dict_in tag ps kvs k j : (forall k, tag k = None) -> struct_dict tag ps kvs -> In (k, j) kvs -> In (k, j) ps.
Proof.
  intros T [S G] I. apply sm_get_in in I; [|exact S]. apply G in I as [[X _]|[_ X]]; [destruct (X (T k))|apply last_pair_in, X].
Qed.

Lemma restorable_indirect t : restorable (TPtr t) -> t <> TStd -> t <> TTime -> forall m a, snd (indirect env t a m) = None.
Proof.
  intros R Ns Nt. destruct (ptr_cases locate f t R) as [Bt|[C|[C|C]]]; [|destruct t; try contradiction; reflexivity|contradiction|contradiction].
  clear R Ns Nt. induction t as [| | | | | | | | | |t IH| | | | | | | | | |]; try contradiction; try reflexivity. apply indirect_ptr, IH. exact Bt.
Qed.

Lemma encodes_fits : forall own i v j, encodes stg omit f own i v j -> text_ok i v ->
  forall t, holds v t -> restorable t -> fits t j.
Proof.
  apply (encodes_ind2 stg omit f (fun own i v j => text_ok i v -> forall t, holds v t -> restorable t -> fits t j)
    (fun l js => (forall x, In x l -> text_ok None x) -> forall t, Forall (fun v => holds v t) l -> restorable t -> Forall (fits t) js)
    (fun m ps => (forall k x, In (k, x) m -> text_ok None x) -> forall t, Forall (fun kv => holds (snd kv) t) m -> restorable t -> forall k j, In (k, j) ps -> fits t j)
    (fun fs ps => (forall g v, In (g, v) fs -> text_ok (Some g) v) -> (forall g v, In (g, v) fs -> fi_ignore g = false /\ fi_deprecated_by g = None) ->
       forall k j, In (k, j) ps -> exists g v, In (g, v) fs /\ fi_name g = k /\ forall t, holds v t -> restorable t -> fits t j)).
  - intros own i v Hn _ t _ _. apply fit_same, stable_leaf. exact Logic.I.
  - intros own i b _ t _ _. destruct (forced i); apply fit_same, stable_leaf; exact Logic.I.
  - intros own i k z _ t _ _. cbn zeta. destruct (forced i); apply fit_same, stable_leaf; exact Logic.I.
  - intros own i bit x T t H R. destruct (forced i); [apply fit_same, stable_leaf; exact Logic.I|]. destruct (T i _ (S_refl _ _)) as (-> & Ok & Nz).
    destruct t; try contradiction. destruct H as [<- _]. apply fit_float; assumption.
  - intros own i s _ t _ _. apply fit_same, stable_leaf. exact Logic.I.
  - intros own i b _ t _ _. apply fit_same, stable_leaf. exact Logic.I.
  - intros own i o _ t _ _. apply fit_same, stable_leaf. exact Logic.I.
  - intros own i l js _ _ IH T t H R. destruct t as [| | | | | |t| | | | | | | | | | | | | |]; try contradiction.
    apply fit_slice. apply IH; [|apply (holds_slice env parse_time time_json types l t H)|apply (restorable_slice env locate Henvr); exact R].
    intros x I. eapply text_ok_sub; [|exact T]. intros p. apply S_slice, I.
  - intros own i l js _ _ IH T t H R. destruct t as [| | | | | | |k t| | | | | | | | | | | | |]; try contradiction.
    apply fit_array. apply IH; [|apply (holds_array env parse_time time_json types l k t H)|exact R].
    intros x I. eapply text_ok_sub; [|exact T]. intros p. apply S_array, I.
  - intros own i m n ps kvs _ _ IH Hd Ho T t H R. destruct t as [| | | | | | | |t| | | | | | | | | | | |]; try contradiction.
    destruct (holds_map env parse_time time_json types m t H) as [_ Hm].
    apply fit_map. apply Forall_forall. intros [k j] I. cbn [snd]. apply (IH) with (k := k) (t := resolve t); [|exact Hm|apply (restorable_map env locate Henvr); exact R|eapply dict_of_in; eassumption].
    intros k' x I'. eapply text_ok_sub; [|exact T]. intros p. eapply S_map, I'.
  - intros own i fs n ps kvs _ _ IH Hd Ho T t H R. destruct t as [| | | | | | | | | | |nm ts| | | | | | | | |]; try contradiction.
    pose proof (holds_struct env parse_time time_json types fs nm ts H) as H2. pose proof R as [(P1 & P2 & P3) _].
    assert (Pf : forall g v, In (g, v) fs -> fi_ignore g = false /\ fi_deprecated_by g = None).
    { intros g v I. apply In_nth_error in I as [q Iq]. destruct (F2_nth_l _ _ _ H2 q _ Iq) as ([g' t'] & E' & [Eg _]). cbn in Eg. subst g'. eapply P1, nth_error_In, E'. }
    apply fit_struct. apply Forall_forall. intros [k j] I. cbn [fst snd].
    apply (struct_dict_in _ _ _ _ _ (plain_tags fs (fun g v I => proj2 (Pf g v I))) Hd) in I.
    destruct (IH (fun g v Ig => text_ok_sub i _ (Some g) v (fun p => S_field stg i fs g v p Ig (proj1 (Pf g v Ig)) (proj2 (Pf g v Ig))) T) Pf k j I) as (g & v & Ig & Eg & Fg).
    apply In_nth_error in Ig as [q Iq]. destruct (F2_nth_l _ _ _ H2 q _ Iq) as ([g' t'] & E' & [Eg' Hv]). cbn in Eg', Hv. subst g'.
    exists q, g, t'. split; [rewrite <- Eg; eapply P3, E'|]. split; [exact E'|]. split; [apply (P1 g t'); eapply nth_error_In, E'|].
    apply Fg; [exact Hv|]. eapply (restorable_field locate nm ts g t' R). eapply nth_error_In, E'.
  - intros own i v j _ _ _ _ _ _ t _ _. apply fit_same, stable_leaf; exact Logic.I.
  - intros own i a n Hf _ t _ _. apply fit_same, stable_leaf. exact Logic.I.
  - intros own i a x j Ex E IH T t H R. destruct t as [| | | | | | | | | |t| | | | | | | | | |]; try contradiction.
    assert (Dt : t <> TTime) by (intros ->; destruct H).
    apply holds_ptr_type in H.
    destruct (store_object env locate parse_time time_json stg types Hst a _ H) as (x' & Ex' & Hx & _ & _ & Rx). assert (x' = x) by congruence. subst x'.
    assert (D : t = TStd \/ t <> TStd) by (destruct t; (left; reflexivity) || (right; discriminate)). destruct D as [->|D].
    { destruct x as [| | | |[]|[]|[]| |[]| |[]|[]|[]|[]| |j0|]; try absurd_holds Hx. assert (j = j0) by (inversion E; subst; try contradiction; congruence). subst j0.
      apply fit_same. apply (T i (GStd j)). eapply S_ptr; [exact Ex|apply S_refl]. }
    apply fit_ptr; [|apply restorable_indirect; assumption]. apply IH; [|exact Hx|exact Rx]. eapply text_ok_sub; [|exact T]. intros p. apply S_ptr, Ex.
  - intros own i x j _ IH T t H R. destruct (holds_iface env parse_time time_json types _ _ H) as (s & k & c & -> & -> & Et).
    assert (F : fits (TPtr (TNamed c)) j) by (apply IH; [|exact Et|exact Logic.I]; eapply text_ok_sub; [|exact T]; intros p; apply S_iface).
    inversion F as [? ? S| |? ? F' _| | | | |]; subst; [apply fit_same, S|]. inversion F' as [? ? S| | | | | |? ? ? ? Fk|]; subst; [apply fit_same, S|]. apply fit_ser, F'.
  - intros own i j T t _ _. apply fit_same. apply (T i _ (S_refl _ _)).
  - intros own i j T t _ _. apply fit_same. apply (T i _ (S_refl _ _)).
  - intros own i j _ t Ht. destruct t; contradiction.
  - intros own i j T t _ _. apply fit_same. apply (T i _ (S_refl _ _)).
  - intros own i _ t Ht. destruct t; contradiction.
  - constructor.
  - intros v l js O D _ IH T t H R. apply IH; [intros x I; apply T; right; exact I|inversion H; assumption|exact R].
  - intros v l j js _ _ IH1 _ IH2 T t H R. inversion H; subst. constructor; [apply IH1; [apply T; left; reflexivity|assumption|exact R]|].
    apply IH2; [intros x I; apply T; right; exact I|assumption|exact R].
  - intros _ t _ _ k j [].
  - intros k v m ps O D _ IH T t H R k' j' I. inversion H; subst. eapply IH; [intros k2 x I2; apply (T k2); right; exact I2|eassumption|exact R|exact I].
  - intros k v m j ps _ _ IH1 _ IH2 T t H R k' j' I. inversion H; subst. destruct I as [[=<- <-]|I].
    + apply IH1; [apply (T k); left; reflexivity|assumption|exact R].
    + eapply IH2; [intros k2 x I2; apply (T k2); right; exact I2|eassumption|exact R|exact I].
  - intros _ _ k j [].
  - intros x v fs ps Hi _ _ _ P. destruct (P x v (or_introl eq_refl)) as [P1 _]. congruence.
  - intros x v fs ps Hi _ _ _ P. destruct (P x v (or_introl eq_refl)) as (_ & P1). congruence.
  - intros x v fs ps O D _ IH T P k j I. destruct (IH (fun g w I => T g w (or_intror I)) (fun g w I => P g w (or_intror I)) k j I) as (g & w & Ig & R).
    exists g, w. split; [right; exact Ig|exact R].
  - intros x v fs j ps _ _ _ _ IH1 _ IH2 T P k j' [[=<- <-]|I].
    + exists x, v. split; [left; reflexivity|]. split; [reflexivity|]. intros t H R. apply IH1; [apply T; left; reflexivity|exact H|exact R].
    + destruct (IH2 (fun g w I => T g w (or_intror I)) (fun g w I => P g w (or_intror I)) k j' I) as (g & w & Ig & R).
      exists g, w. split; [right; exact Ig|exact R].
Qed.

(** ** The text can be read *)

Definition small (j : json) : Prop := forall n, In n (SpecMarshal.node_ids j ++ ref_ids j) -> n < 2 ^ 63.
Definition readable (j : json) : Prop := json_ok j /\ only_float64 j /\ no_reserved_key j.

Lemma wrap_in_int64 z : in_int64 (wrap (Signed 64) z) = true.
Proof. apply RfcFacts.in_int64_spec. unfold wrap. pose proof (Z.mod_pos_bound (z + 2 ^ (64 - 1)) (2 ^ 64) eq_refl). change (2 ^ (64 - 1)) with (2 ^ 63) in *. lia. Qed.
Lemma readable_leaf j : json_ok j -> match j with JArray _ | JDict _ _ => False | JFloat _ bit => bit <> 32 | _ => True end -> readable j.
Proof.
  intros O H. split; [exact O|]. split; [intros f0 bit S|intros nid kvs S]; inversion S; subst; try contradiction. exact H.
Qed.
Lemma readable_array l : Forall readable l -> readable (JArray l).
Proof.
  intros H. rewrite Forall_forall in H. split; [constructor; apply Forall_forall; intros x I; apply (H x I)|].
  split; [intros f0 bit S|intros nid kvs S]; inversion S as [|x l' I S'|]; subst; eapply (H x I), S'.
Qed.
Lemma readable_dict nid kvs : keys_increasing kvs -> in_int64 nid = true -> ~ In jnid_key (map fst kvs) -> (forall k j, In (k, j) kvs -> readable j) -> readable (JDict nid kvs).
Proof.
  intros K Z N H. split; [constructor; [exact K| |exact Z]; apply Forall_forall; intros [k x] I; apply (H k x I)|].
  split; [intros f0 bit S|intros nid' kvs' S]; inversion S as [| |k x ? ? I S']; subst; try (eapply (H k x I), S'). exact N.
Qed.
Lemma small_elem l j : In j l -> small (JArray l) -> small j.
Proof.
  intros I H n In'. apply H. cbn [SpecMarshal.node_ids ref_ids]. apply in_app_or in In' as [J|J]; apply in_or_app; [left|right]; apply in_flat_map; exists j; auto.
Qed.
Lemma small_member nid kvs k j : In (k, j) kvs -> small (JDict nid kvs) -> small j.
Proof.
  intros I H n In'. apply H. cbn [SpecMarshal.node_ids ref_ids]. apply in_app_or in In' as [J|J]; apply in_or_app; [left; apply in_or_app; right|right]; apply in_flat_map; exists (k, j); auto.
Qed.
Lemma small_nid nid kvs : 0 <= nid -> small (JDict nid kvs) -> in_int64 nid = true.
Proof.
  intros N H. apply RfcFacts.in_int64_spec. split; [lia|]. destruct (Z.ltb_spec 0 nid) as [L|L]; [|lia].
  specialize (H nid). enough (nid < 2 ^ 63) by lia. apply H. cbn [SpecMarshal.node_ids]. rewrite (proj2 (Z.ltb_lt 0 nid) L). left. reflexivity.
Qed.

Hypothesis Hpos : forall n a, f n = Some a -> 0 < n.
Lemma owned_pos own n : owned f own n -> 0 <= n.
Proof. intros [->|(a & E & _)]; [lia|]. apply Hpos in E. lia. Qed.

Lemma encodes_readable : forall own i v j, encodes stg omit f own i v j -> text_ok i v ->
  forall t, holds v t -> restorable t -> small j -> readable j.
Proof.
  apply (encodes_ind2 stg omit f (fun own i v j => text_ok i v -> forall t, holds v t -> restorable t -> small j -> readable j)
    (fun l js => (forall x, In x l -> text_ok None x) -> forall t, Forall (fun v => holds v t) l -> restorable t -> (forall j, In j js -> small j) -> Forall readable js)
    (fun m ps => (forall k x, In (k, x) m -> text_ok None x) -> forall t, Forall (fun kv => holds (snd kv) t) m -> restorable t ->
       forall k j, In (k, j) ps -> In k (map fst m) /\ (small j -> readable j))
    (fun fs ps => (forall g v, In (g, v) fs -> text_ok (Some g) v) -> (forall g v, In (g, v) fs -> fi_ignore g = false /\ fi_deprecated_by g = None) ->
       forall k j, In (k, j) ps -> exists g v, In (g, v) fs /\ fi_name g = k /\ forall t, holds v t -> restorable t -> small j -> readable j)).
  - intros own i v Hn _ t _ _ _. apply readable_leaf; [constructor|exact Logic.I].
  - intros own i b _ t _ _ _. destruct (forced i); (apply readable_leaf; [constructor|exact Logic.I]).
  - intros own i k z _ t _ _ _. cbn zeta. destruct (forced i); [apply readable_leaf; [constructor|exact Logic.I]|]. apply readable_leaf; [constructor; apply wrap_in_int64|exact Logic.I].
  - intros own i bit x T t H R _. destruct (forced i); [apply readable_leaf; [constructor|exact Logic.I]|]. destruct (T i _ (S_refl _ _)) as (-> & Ok & Nz). apply readable_leaf; [constructor; exact Ok|discriminate].
  - intros own i s _ t _ _ _. apply readable_leaf; [constructor|exact Logic.I].
  - intros own i b _ t _ _ _. apply readable_leaf; [constructor|exact Logic.I].
  - intros own i o _ t _ _ _. apply readable_leaf; [constructor|exact Logic.I].
  - intros own i l js _ _ IH T t H R Sm. destruct t as [| | | | | |t| | | | | | | | | | | | | |]; try contradiction.
    apply readable_array. eapply IH; [|apply (holds_slice env parse_time time_json types l t H)|apply (restorable_slice env locate Henvr); exact R|intros j I; eapply small_elem; eassumption].
    intros x I. eapply text_ok_sub; [|exact T]. intros p. apply S_slice, I.
  - intros own i l js _ _ IH T t H R Sm. destruct t as [| | | | | | |k t| | | | | | | | | | | | |]; try contradiction.
    apply readable_array. eapply IH; [|apply (holds_array env parse_time time_json types l k t H)|exact R|intros j I; eapply small_elem; eassumption].
    intros x I. eapply text_ok_sub; [|exact T]. intros p. apply S_array, I.
  - intros own i m n ps kvs _ _ IH Hd Ho T t H R Sm. destruct t as [| | | | | | | |t| | | | | | | | | | | |]; try contradiction.
    destruct (holds_map env parse_time time_json types m t H) as [_ Hm].
    assert (G : forall k j, In (k, j) kvs -> In k (map fst m) /\ (small j -> readable j)).
    { intros k j I. apply (IH) with (t := resolve t); [|exact Hm|apply (restorable_map env locate Henvr); exact R|eapply dict_of_in; eassumption].
      intros k' x I'. eapply text_ok_sub; [|exact T]. intros p. eapply S_map, I'. }
    apply readable_dict.
    + apply sm_ok_strong, (proj1 Hd).
    + eapply small_nid; [eapply owned_pos, Ho|exact Sm].
    + intros I. apply in_map_iff in I as ([k j] & E & I). cbn in E. subst k. apply G in I as [I _]. exact (T i _ (S_refl _ _) I).
    + intros k j I. apply (G k j I). eapply small_member; eassumption.
  - intros own i fs n ps kvs _ _ IH Hd Ho T t H R Sm. destruct t as [| | | | | | | | | | |nm ts| | | | | | | | |]; try contradiction.
    pose proof (holds_struct env parse_time time_json types fs nm ts H) as H2. pose proof R as [(P1 & P2 & P3) _].
    assert (Pf : forall g v, In (g, v) fs -> fi_ignore g = false /\ fi_deprecated_by g = None).
    { intros g v I. apply In_nth_error in I as [q Iq]. destruct (F2_nth_l _ _ _ H2 q _ Iq) as ([g' t'] & E' & [Eg _]). cbn in Eg. subst g'. eapply P1, nth_error_In, E'. }
    assert (G : forall k j, In (k, j) kvs -> exists g v, In (g, v) fs /\ fi_name g = k /\ forall t, holds v t -> restorable t -> small j -> readable j).
    { intros k j I. apply (struct_dict_in _ _ _ _ _ (plain_tags fs (fun g v I => proj2 (Pf g v I))) Hd) in I.
      apply (IH (fun g v Ig => text_ok_sub i _ (Some g) v (fun p => S_field stg i fs g v p Ig (proj1 (Pf g v Ig)) (proj2 (Pf g v Ig))) T) Pf k j I). }
    apply readable_dict.
    + apply sm_ok_strong, (proj1 Hd).
    + eapply small_nid; [eapply owned_pos, Ho|exact Sm].
    + intros I. apply in_map_iff in I as ([k j] & E & I). cbn in E. subst k. apply G in I as (g & w & Ig & Eg & _). apply (T i _ (S_refl _ _)).
      rewrite <- Eg. apply (in_map (fun fv => fi_name (fst fv))) in Ig. exact Ig.
    + intros k j I. pose proof (small_member _ _ _ _ I Sm) as Sj. destruct (G k j I) as (g & w & Ig & Eg & Fg).
      apply In_nth_error in Ig as [q Iq]. destruct (F2_nth_l _ _ _ H2 q _ Iq) as ([g' t'] & E' & [Eg' Hv]). cbn in Eg', Hv. subst g'.
      eapply Fg; [exact Hv| |exact Sj]. eapply (restorable_field locate nm ts g t' R). eapply nth_error_In, E'.
  - intros own i v j _ _ _ _ _ _ t _ _ _. apply readable_leaf; [constructor|exact Logic.I].
  - intros own i a n Hf _ t _ _ Sm. apply readable_leaf; [|exact Logic.I]. constructor. apply Hpos in Hf. apply RfcFacts.in_int64_spec.
    specialize (Sm n (or_introl eq_refl)). lia.
  - intros own i a x j Ex E IH T t H R Sm. destruct t as [| | | | | | | | | |t| | | | | | | | | |]; try contradiction.
    assert (Dt : t <> TTime) by (intros ->; destruct H).
    apply holds_ptr_type in H.
    destruct (store_object env locate parse_time time_json stg types Hst a _ H) as (x' & Ex' & Hx & _ & _ & Rx). assert (x' = x) by congruence. subst x'.
    eapply IH; [|exact Hx|exact Rx|exact Sm]. eapply text_ok_sub; [|exact T]. intros p. apply S_ptr, Ex.
  - intros own i x j _ IH T t H R Sm. destruct (holds_iface env parse_time time_json types _ _ H) as (s & k & c & -> & -> & Et).
    apply IH with (t := TPtr (TNamed c)); [|exact Et|exact Logic.I|exact Sm]. eapply text_ok_sub; [|exact T]. intros p. apply S_iface.
  - intros own i j T t _ _ _. destruct (T i _ (S_refl _ _)) as (A & B & C1 & _). split; [exact A|split; [|exact B]]. intros f0 bit S. apply C1 in S as [-> _]. discriminate.
  - intros own i j T t _ _ _. destruct (T i _ (S_refl _ _)) as (A & B & C1 & _). split; [exact A|split; [|exact B]]. intros f0 bit S. apply C1 in S as [-> _]. discriminate.
  - intros own i j _ t Ht. destruct t; contradiction.
  - intros own i j T t _ _ _. destruct (T i _ (S_refl _ _)) as (A & B & C1 & _). split; [exact A|split; [|exact B]]. intros f0 bit S. apply C1 in S as [-> _]. discriminate.
  - intros own i _ t Ht. destruct t; contradiction.
  - constructor.
  - intros v l js O D _ IH T t H R Sm. eapply IH; [intros x I; apply T; right; exact I|inversion H; eassumption|exact R|exact Sm].
  - intros v l j js _ _ IH1 _ IH2 T t H R Sm. inversion H; subst. constructor; [eapply IH1; [apply T; left; reflexivity|eassumption|exact R|apply Sm; left; reflexivity]|].
    eapply IH2; [intros x I; apply T; right; exact I|eassumption|exact R|intros x I; apply Sm; right; exact I].
  - intros _ t _ _ k j [].
  - intros k v m ps O D _ IH T t H R k' j' I. inversion H; subst.
    destruct (IH (fun k2 x I2 => T k2 x (or_intror I2)) t ltac:(assumption) R k' j' I) as [A B]. split; [right; exact A|exact B].
  - intros k v m j ps _ _ IH1 _ IH2 T t H R k' j' I. inversion H; subst. destruct I as [[=<- <-]|I].
    + split; [left; reflexivity|]. eapply IH1; [apply (T k); left; reflexivity|eassumption|exact R].
    + destruct (IH2 (fun k2 x I2 => T k2 x (or_intror I2)) t ltac:(assumption) R k' j' I) as [A B]. split; [right; exact A|exact B].
  - intros _ _ k j [].
  - intros x v fs ps Hi _ _ _ P. destruct (P x v (or_introl eq_refl)) as [P1 _]. congruence.
  - intros x v fs ps Hi _ _ _ P. destruct (P x v (or_introl eq_refl)) as (_ & P1). congruence.
  - intros x v fs ps O D _ IH T P k j I. destruct (IH (fun g w I => T g w (or_intror I)) (fun g w I => P g w (or_intror I)) k j I) as (g & w & Ig & R).
    exists g, w. split; [right; exact Ig|exact R].
  - intros x v fs j ps _ _ _ _ IH1 _ IH2 T P k j' [[=<- <-]|I].
    + exists x, v. split; [left; reflexivity|]. split; [reflexivity|]. intros t H R. eapply IH1; [apply T; left; reflexivity|exact H|exact R].
    + destruct (IH2 (fun g w I => T g w (or_intror I)) (fun g w I => P g w (or_intror I)) k j' I) as (g & w & Ig & R).
      exists g, w. split; [right; exact Ig|exact R].
Qed.
End Text.
