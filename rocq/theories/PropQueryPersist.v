(** C72: a Go value written as a query string and read back: Marshal,
    QueryString, ParseQueryString, Unmarshal. *)
From Verif Require Import Base Strconv SpecFloat SortedMap SortedMapFacts Json SpecJson Printer Heap Gotypes Marshal SpecMarshal SpecEncode MarshalFacts MarshalEnc2 MarshalRefs MarshalFinal PropMarshal Access Unmarshal SpecUnmarshal UnmFacts UnmTotal PropUnmarshal SpecRestore RestoreMem MarshalOrder Restore PropRestore TextRestore Query SpecQuery PropQuery SpecQueryCarry QueryRestore.
Open Scope Z_scope.

Section C72.
Context (env : nat -> list (finfo * gty)) (locate : list (finfo * gty) -> bytes -> list nat).
Context (match_us match_eu : bytes -> bool) (to_bool : bytes -> bool)
  (parse_time : bytes -> option bytes) (time_json : bytes -> option (option bytes)) (std_ok : bytes -> bool).
Notation Unmarshal := (Unmarshal env locate match_us match_eu to_bool parse_time time_json std_ok).
Notation texts_survive := (texts_survive match_us match_eu to_bool std_ok).
Notation all_carried := (all_carried match_us match_eu to_bool).
Notation same_value := (SpecRestore.same_value time_json).
Context (env_proper : env_ok env) (env_restorable : forall n, restorable locate (TStruct n (env n))).

Lemma unmarshal_as_text t nid kvs : proper env t -> fits_text env locate match_us match_eu to_bool parse_time t (JDict nid kvs) ->
  forall n m a, Unmarshal n m t a (SpecQuery.as_text (JDict nid kvs)) [] = Unmarshal n m t a (JDict nid kvs) [].
Proof using.
  intros P F n m a. unfold Unmarshal.Unmarshal. rewrite (resolve_proper env t P).
  change (receiver (SpecQuery.as_text (JDict nid kvs))) with (SpecQuery.as_text (JDict nid kvs)). cbn [receiver].
  rewrite (unm_as_text env locate match_us match_eu to_bool parse_time time_json std_ok n _ t a _ F). reflexivity.
Qed.

(** Marshal a value [v] of type [t] that becomes a dict, write the dict as a
    query string, read the query string, and Unmarshal what was read into a new
    variable of type [t]: the variable then holds the same value as [v],
    whatever pointers one follows, and nothing that existed before has changed.
    The conditions are those of C29_roundtrip, that the dict has no node ids or
    references in it and a form that a query string can carry ([query_dict], as
    in C24), and that the text of each scalar in [v] means it ([all_carried]). *)
Theorem C72_persists st types v nid kvs t m0 :
  typed_store env locate parse_time time_json types st -> holds env parse_time time_json types v t -> proper env t -> restorable locate t ->
  texts_survive st v -> only_zeros_dropped true st None v -> all_carried st v ->
  marshals true st v (JDict nid kvs) -> node_ids (JDict nid kvs) = [] -> ref_ids (JDict nid kvs) = [] -> query_dict kvs ->
  exists j' N m', ParseQueryString (QueryString (JDict nid kvs)) = ROk j' /\
    (forall n, (N <= n)%nat -> Unmarshal n (fst (zalloc t m0)) t (snd (zalloc t m0)) j' [] = TopOk m') /\
    same_value st v m' (snd (zalloc t m0)) /\
    forall x, (x < length m0)%nat -> nth_error m' x = nth_error m0 x.
Proof using env_proper env_restorable.
  intros Ts H P R Tx Z C M I1 I2 Q.
  destruct (C29_roundtrip env locate match_us match_eu to_bool parse_time time_json std_ok env_proper env_restorable true st types v (JDict nid kvs) t m0 Ts H P R Tx Z M (fun X => X) (no_refs_first _ I2)) as (N & m' & U & S & K).
  apply result_encodes in M as [(_ & Dr & _)|[Nd (f & Hp & En)]].
  { destruct (Z eq_refl None v (S_refl _ _) Dr) as [X _]. destruct X. reflexivity. }
  assert (F : fits_text env locate match_us match_eu to_bool parse_time t (JDict nid kvs)).
  { eapply encodes_fits_text; try eassumption; [|split; assumption]. intros D. destruct (Z eq_refl None v (S_refl _ _) D) as [X _]. destruct X. reflexivity. }
  exists (SpecQuery.as_text (JDict nid kvs)), N, m'. split; [apply C24_query_roundtrip, Q|]. split; [|split; assumption].
  intros n L. rewrite (unmarshal_as_text t nid kvs P F). apply U, L.
Qed.

(** The same for a pointer to an object, which comes back as a new variable of
    the object's type. *)
Theorem C72_pointer_persists st types s v nid kvs t m0 :
  typed_store env locate parse_time time_json types st -> nth_error st s = Some v -> nth_error types s = Some t ->
  match t with TStruct _ _ | TMap _ => True | _ => False end ->
  texts_survive st (GPtr (Some s)) -> only_zeros_dropped true st None (GPtr (Some s)) -> all_carried st (GPtr (Some s)) ->
  marshals true st (GPtr (Some s)) (JDict nid kvs) -> node_ids (JDict nid kvs) = [] -> ref_ids (JDict nid kvs) = [] -> query_dict kvs ->
  exists j' N m', ParseQueryString (QueryString (JDict nid kvs)) = ROk j' /\
    (forall n, (N <= n)%nat -> Unmarshal n (fst (zalloc t m0)) t (snd (zalloc t m0)) j' [] = TopOk m') /\
    same_value st v m' (snd (zalloc t m0)) /\
    forall x, (x < length m0)%nat -> nth_error m' x = nth_error m0 x.
Proof using env_proper env_restorable.
  intros Ts Ev Et B Tx Z C M I1 I2 Q.
  assert (Bt : match t with TPtr _ => basic t | TSer _ _ => False | _ => True end) by (destruct t; contradiction || exact Logic.I).
  destruct (C29_roundtrip_pointer env locate match_us match_eu to_bool parse_time time_json std_ok env_proper env_restorable true st types s v (JDict nid kvs) t m0 Ts Ev Et Bt Tx Z M (fun X => X) (no_refs_first _ I2)) as (N & m' & U & S & K).
  apply result_encodes in M as [(_ & Dr & _)|[Nd (f & Hp & En)]].
  { destruct (Z eq_refl None _ (S_refl _ _) Dr) as [X _]. destruct X. reflexivity. }
  pose proof Ts as (T1 & T2 & T3). destruct (F2_nth_l _ _ _ T1 s v Ev) as (t0 & E0 & H). assert (t0 = t) by congruence. subst t0.
  rewrite Forall_forall in T3. destruct (T3 t (nth_error_In _ _ Et)) as [P R].
  inversion En as [| | | | | | | | | | |? ? ? ? ? ? Hc| |? ? ? x ? Ex Ex'| | | | | |]; subst.
  assert (x = v) by congruence. subst x.
  assert (F : fits_text env locate match_us match_eu to_bool parse_time t (JDict nid kvs)).
  { eapply encodes_fits_text; try eassumption; [| |split; assumption].
    - intros D. destruct (Z eq_refl None _ (S_refl _ _) (D_ptr st None s v Ev D)) as [X _]. destruct X. reflexivity.
    - intros i w Sb. apply (C i w). eapply S_ptr; eassumption. }
  exists (SpecQuery.as_text (JDict nid kvs)), N, m'. split; [apply C24_query_roundtrip, Q|]. split; [|split; assumption].
  intros n L. rewrite (unmarshal_as_text t nid kvs P F). apply U, L.
Qed.

(** All in one for a struct or a map behind a pointer, where no pointers run in
    circles: Marshal returns a dict, and if a query string can carry its form,
    then the query string of it brings the object back. *)
Theorem C72_object_persists pick st types s v t m0 : chooses pick ->
  typed_store env locate parse_time time_json types st -> nth_error st s = Some v -> nth_error types s = Some t ->
  match t with TStruct _ _ | TMap _ => True | _ => False end -> acyclic st ->
  texts_survive st (GPtr (Some s)) -> only_zeros_dropped true st None (GPtr (Some s)) -> all_carried st (GPtr (Some s)) ->
  exists N kvs, (forall n, (N <= n)%nat -> marshal_with true pick n st (Some (GPtr (Some s))) = Some (JDict 0 kvs)) /\
    (query_dict kvs -> exists j' N' m', ParseQueryString (QueryString (JDict 0 kvs)) = ROk j' /\
       (forall n, (N' <= n)%nat -> Unmarshal n (fst (zalloc t m0)) t (snd (zalloc t m0)) j' [] = TopOk m') /\
       same_value st v m' (snd (zalloc t m0)) /\
       forall x, (x < length m0)%nat -> nth_error m' x = nth_error m0 x).
Proof using env_proper env_restorable.
  intros HP Ts Ev Et Ct A Tx Z C.
  assert (Ct' : match t with TStruct _ _ | TMap _ | TSlice _ | TArray _ _ => True | _ => False end) by (destruct t; contradiction || exact Logic.I).
  destruct (C29_object_roundtrip env locate match_us match_eu to_bool parse_time time_json std_ok env_proper env_restorable true pick st types s v t m0 HP Ts Ev Et Ct' Tx (or_introl A) Z) as (N1 & j & m1 & M).
  assert (Mj : marshals true st (GPtr (Some s)) j) by (exists pick, N1; split; [exact HP|apply (M N1), Nat.le_refl]).
  destruct (typed_store_plain env locate parse_time time_json env_restorable types st Ts) as [Pl G].
  assert (Pj : Forall holds_pure_json st) by (eapply Forall_impl; [|exact Pl]; intros x (_ & _ & X); exact X).
  destruct (C31_acyclic_no_references true st (GPtr (Some s)) j) as [I1 I2]; [exact A|intros j' []|exact Pj|exact Mj|].
  pose proof Ts as (T1 & _). destruct (F2_nth_l _ _ _ T1 s v Ev) as (t0 & E0 & H). assert (t0 = t) by congruence. subst t0.
  assert (D : exists kvs, j = JDict 0 kvs).
  { destruct (result_encodes _ _ _ _ Mj) as [(O & Dr & _)|[Nd (f & Hp & En)]]; [destruct (Z O None _ (S_refl _ _) Dr) as [X _]; destruct X; reflexivity|].
    inversion En as [? ? ? Hn| | | | | | | | | | |? ? ? ? ? ? Hc| |? ? ? x ? Ex Ex'| | | | | |]; subst; [destruct Hn|destruct Hc|discriminate I2|].
    assert (x = v) by congruence. subst x.
    assert (NN : ~ is_nil v).
    { intros X. apply Nd. split; [reflexivity|]. eapply D_ptr; [exact Ev|apply D_nil, X]. }
    assert (Ow : forall n kvs, owned f [s] n -> node_ids (JDict n kvs) = [] -> n = 0).
    { intros n kvs [->|(a & Ea & _)] X; [reflexivity|]. exfalso. apply Hp in Ea. cbn in X. apply app_eq_nil in X as [X _]. rewrite (proj2 (Z.ltb_lt 0 n) Ea) in X. discriminate X. }
    destruct t; try contradiction Ct; destruct v; try absurd_holds H; inversion Ex'; subst; try contradiction; try discriminate; try (exfalso; apply NN; first [assumption|exact Logic.I]); try (eexists; reflexivity).
    all: try (match goal with O : owned _ _ ?n |- _ => rewrite (Ow n _ O I1) end; eexists; reflexivity). }
  destruct D as [kvs ->].
  exists N1, kvs. split; [intros n L; apply (M n L)|]. intros Q.
  exact (C72_pointer_persists st types s v 0 kvs t m0 Ts Ev Et Ct Tx Z C Mj I1 I2 Q).
Qed.
End C72.

(** ** Examples *)

Lemma carried_ok mu me tb st L v : (forall p, In p L -> incl (children st p) L) -> In (None, v) L ->
  (forall i w, In (i, w) L -> carried mu me tb i w) -> all_carried mu me tb st v.
Proof. intros C I K i w S. apply (K i w). eapply sub_closed; eassumption. Qed.

(** type filter struct { Details bool; Labels map[string]string; Limit int;
    Names []string; Owner *owner; Ratio float64 },
    type owner struct { Id uint32; Name string } *)
Definition qp_env (n : nat) : list (finfo * gty) :=
  match n with
  | 0%nat => [(plain (nm "details"), TBool); (plain (nm "labels"), TMap TString); (plain (nm "limit"), TInt (Signed 64));
              (plain (nm "names"), TSlice TString); (plain (nm "owner"), TPtr (TNamed 1)); (plain (nm "ratio"), TFloat 64)]
  | 1%nat => [(plain (nm "id"), TInt (Unsigned 32)); (plain (nm "name"), TString)]
  | _ => []
  end.
Definition qp_store : store :=
  [ GStruct [(plain (nm "details"), GBool true); (plain (nm "labels"), GMap (Some [(nm "env", GString (nm "a&b"))])); (plain (nm "limit"), GInt (Signed 64) (-20));
             (plain (nm "names"), GSlice (Some [GString (nm "x"); GString (nm "y z")])); (plain (nm "owner"), GPtr (Some 1%nat)); (plain (nm "ratio"), GFloat 64 PropRoundtrip.tenth)];
    GStruct [(plain (nm "id"), GInt (Unsigned 32) 4000000000); (plain (nm "name"), GString (nm "me"))] ].
Definition qp_t : gty := TStruct 0 (qp_env 0).
Definition qp_types : list gty := [qp_t; TStruct 1 (qp_env 1)].
Definition qp_bool (s : bytes) : bool := bseq s txt_true.
Notation qp_unm := (Unmarshal qp_env by_name (fun _ => false) (fun _ => false) qp_bool (fun _ => None) (fun _ => None) (fun _ => true)).

Lemma qp_env_ok : env_ok qp_env.
Proof. intros [|[|n]]; cbn; repeat split. Qed.
Lemma qp_restorable n : restorable by_name (TStruct n (qp_env n)).
Proof.
  destruct n as [|[|n]]; cbn [qp_env restorable].
  - split; [|cbn; unfold word; tauto]. split; [|split].
    + intros f t I. repeat (destruct I as [E|I]; [injection E as <- <-; repeat split|]). destruct I.
    + repeat constructor; cbn; intuition discriminate.
    + intros [|[|[|[|[|[|i]]]]]] f t E; try (injection E as <- <-; reflexivity). destruct i; discriminate.
  - split; [|cbn; unfold word; tauto]. split; [|split].
    + intros f t I. repeat (destruct I as [E|I]; [injection E as <- <-; repeat split|]). destruct I.
    + repeat constructor; cbn; intuition discriminate.
    + intros [|[|i]] f t E; try (injection E as <- <-; reflexivity). destruct i; discriminate.
  - split; [|exact Logic.I]. split; [intros f t []|]. split; [constructor|]. intros [|i] f t E; discriminate.
Qed.
Lemma qp_typed : typed_store qp_env by_name (fun _ => None) (fun _ => None) qp_types qp_store.
Proof.
  split; [constructor; [|constructor; [|constructor]]; cbn; repeat split; try tauto; discriminate|]. split; [repeat constructor; intros []|].
  constructor; [|constructor; [|constructor]]; (split; [first [exact (qp_env_ok 0%nat)|exact (qp_env_ok 1%nat)]|first [exact (qp_restorable 0)|exact (qp_restorable 1)]]).
Qed.
Definition qp_all : list (option finfo * gval) :=
  let n0 := nth 0 qp_store GOther in let n1 := nth 1 qp_store GOther in
  [(@None finfo, GPtr (Some 0%nat)); (None, n0); (None, GString (nm "x")); (None, GString (nm "y z")); (None, GString (nm "a&b"))] ++
  children qp_store (None, n0) ++ children qp_store (None, n1) ++ [(Some (plain (nm "owner")), n1)].
Ltac qp_closed := intros p Ip; cbn in Ip; repeat (destruct Ip as [<-|Ip]; [intros q Iq; cbn in Iq; repeat (destruct Iq as [<-|Iq]; [cbn; tauto|]); destruct Iq|]); destruct Ip.
Lemma qp_zeros : only_zeros_dropped true qp_store None (GPtr (Some 0%nat)).
Proof.
  apply (zeros_ok true qp_store qp_all).
  - qp_closed.
  - left. reflexivity.
  - intros i w Ip. cbn in Ip. repeat (destruct Ip as [E|Ip]; [injection E as <- <-; cbn; repeat split; try discriminate; tauto|]). destruct Ip.
  - repeat constructor; intros H; inversion H as [? X| |]; destruct X.
Qed.
Lemma qp_carried : all_carried (fun _ => false) (fun _ => false) qp_bool qp_store (GPtr (Some 0%nat)).
Proof.
  apply (carried_ok _ _ _ qp_store qp_all).
  - qp_closed.
  - left. reflexivity.
  - intros i w Ip. cbn in Ip. repeat (destruct Ip as [E|Ip]; [injection E as <- <-; cbn; try exact Logic.I; try reflexivity; right; repeat split; right; reflexivity|]). destruct Ip.
Qed.
Lemma qp_texts : texts_survive (fun _ => false) (fun _ => false) qp_bool (fun _ => true) qp_store (GPtr (Some 0%nat)).
Proof. no_option. Qed.
Lemma qp_acyclic : acyclic qp_store.
Proof.
  assert (K : forall a b, path qp_store a b -> a = 0%nat /\ b = 1%nat).
  { intros a b P. induction P as [x b E I|b x c P IH E I].
    - destruct a as [|[|a]]; cbn in E; [injection E as <-; destruct I as [<-|[]]; split; reflexivity|injection E as <-; destruct I|destruct a; discriminate].
    - destruct IH as [-> ->]. cbn in E. injection E as <-. destruct I. }
  intros a P. destruct (K a a P) as [-> X]. discriminate.
Qed.

Definition qp_kvs : list (bytes * json) :=
  [(nm "details", JBool true); (nm "labels", JDict 0 [(nm "env", JString (nm "a&b"))]); (nm "limit", JInt (-20)); (nm "names", JArray [JString (nm "x"); JString (nm "y z")]);
   (nm "owner", JDict 0 [(nm "id", JInt 4000000000); (nm "name", JString (nm "me"))]); (nm "ratio", JFloat PropRoundtrip.tenth 64)].
Lemma qp_query : query_dict qp_kvs.
Proof.
  assert (P : forall k, In k (map fst qp_kvs ++ [nm "env"; nm "id"; nm "name"]) -> plain_key k).
  { intros k I. cbn in I. repeat (destruct I as [<-|I]; [apply plain_ex; [reflexivity|cbn; intuition discriminate]|]). destruct I. }
  assert (Qs : forall j, is_scalar j -> query_value j) by (intros; apply qv_scalar; assumption).
  split; [repeat constructor|]. repeat (apply Forall_cons; [split; [apply P; cbn; tauto|split; [discriminate|]]; cbn [snd]|]); [..|apply Forall_nil].
  - apply Qs. exact Logic.I.
  - apply qv_dict; [discriminate|repeat constructor|]. repeat (apply Forall_cons; [split; [apply P; cbn; tauto|split; [discriminate|apply Qs; exact Logic.I]]|]). apply Forall_nil.
  - apply Qs. exact Logic.I.
  - apply qv_array; [discriminate|repeat constructor|repeat constructor|vm_compute; discriminate].
  - apply qv_dict; [discriminate|repeat constructor|]. repeat (apply Forall_cons; [split; [apply P; cbn; tauto|split; [discriminate|apply Qs; exact Logic.I]]|]). apply Forall_nil.
  - apply Qs. exact Logic.I.
Qed.

(** The filter behind a pointer through its query string. *)
Example C72_example m0 : exists N j' N' m',
  (forall n, (N <= n)%nat -> Marshal hd n qp_store (Some (GPtr (Some 0%nat))) = Some (JDict 0 qp_kvs)) /\
  QueryString (JDict 0 qp_kvs) = nm "details=true&labels.env=a%26b&limit=-20&names.0=x&names.1=y+z&owner.id=4000000000&owner.name=me&ratio=0.1" /\
  ParseQueryString (QueryString (JDict 0 qp_kvs)) = ROk j' /\
  (forall n, (N' <= n)%nat -> qp_unm n (fst (zalloc qp_t m0)) qp_t (snd (zalloc qp_t m0)) j' [] = TopOk m') /\
  same_value (fun _ => None) qp_store (nth 0 qp_store GOther) m' (snd (zalloc qp_t m0)).
Proof.
  destruct (C72_object_persists qp_env by_name (fun _ => false) (fun _ => false) qp_bool (fun _ => None) (fun _ => None) (fun _ => true)
    qp_env_ok qp_restorable hd qp_store qp_types 0%nat (nth 0 qp_store GOther) qp_t m0 hd_chooses qp_typed eq_refl eq_refl Logic.I qp_acyclic qp_texts qp_zeros qp_carried)
    as (N & kvs & M & C).
  assert (E : kvs = qp_kvs).
  { assert (M1 : Marshal hd 20 qp_store (Some (GPtr (Some 0%nat))) = Some (JDict 0 qp_kvs)) by (vm_compute; reflexivity).
    pose proof (M (N + 20)%nat (Nat.le_add_r _ _)) as M2. unfold Marshal in M1. rewrite (marshal_mono _ _ _ (N + 20)%nat _ _ _ (Nat.le_add_l _ _) M1) in M2. injection M2 as <-. reflexivity. }
  subst kvs. destruct (C qp_query) as (j' & N' & m' & P & U & S & _). exists N, j', N', m'.
  split; [exact M|]. split; [vm_compute; reflexivity|]. split; [exact P|]. split; [exact U|exact S].
Qed.

(** The same filter as a value, not behind a pointer; and the pointer case. *)
Example C72_persists_case := fun m0 => C72_persists qp_env by_name (fun _ => false) (fun _ => false) qp_bool (fun _ => None) (fun _ => None) (fun _ => true)
  qp_env_ok qp_restorable qp_store qp_types (nth 0 qp_store GOther) 0 qp_kvs qp_t m0 qp_typed
  ltac:(cbn; repeat split; try tauto; discriminate) (qp_env_ok 0%nat) (qp_restorable 0)
  ltac:(no_option)
  (fun O i w S => qp_zeros O i w (S_ptr qp_store None 0%nat (nth 0 qp_store GOther) (i, w) eq_refl S))
  (fun i w S => qp_carried i w (S_ptr qp_store None 0%nat (nth 0 qp_store GOther) (i, w) eq_refl S))
  (ex_intro _ hd (ex_intro _ 20%nat (conj hd_chooses eq_refl))) eq_refl eq_refl qp_query.
Example C72_pointer_persists_case := fun m0 => C72_pointer_persists qp_env by_name (fun _ => false) (fun _ => false) qp_bool (fun _ => None) (fun _ => None) (fun _ => true)
  qp_env_ok qp_restorable qp_store qp_types 0%nat (nth 0 qp_store GOther) 0 qp_kvs qp_t m0 qp_typed eq_refl eq_refl Logic.I qp_texts qp_zeros qp_carried
  (ex_intro _ hd (ex_intro _ 20%nat (conj hd_chooses eq_refl))) eq_refl eq_refl qp_query.

(** type R struct { L []string; O JSONObject; P *int; U uint64 } *)
Definition qr_env (n : nat) : list (finfo * gty) :=
  match n with
  | 0%nat => [(plain (nm "l"), TSlice TString); (plain (nm "o"), TJsonObj); (plain (nm "p"), TPtr (TInt (Signed 64))); (plain (nm "u"), TInt (Unsigned 64))]
  | _ => []
  end.
Definition qr_t : gty := TStruct 0 (qr_env 0).
Notation qr_unm := (Unmarshal qr_env by_name (fun _ => false) (fun _ => false) qp_bool (fun _ => None) (fun _ => None) (fun _ => true)).
Definition qr (l : option (list gval)) (o : option json) (u : Z) : gval :=
  GStruct [(plain (nm "l"), GSlice l); (plain (nm "o"), GJsonObj o); (plain (nm "p"), GPtr None); (plain (nm "u"), GInt (Unsigned 64) u)].

(** The value [v] goes through a query string without an error, unless [fails],
    but then the variable does not hold the same value. *)
Definition qlost (omit : bool) (v : gval) (fails : bool) : Prop := exists kvs j',
  SpecRestore.holds qr_env (fun _ => None) (fun _ => None) [] v qr_t /\ marshals omit [] v (JDict 0 kvs) /\
  ParseQueryString (QueryString (JDict 0 kvs)) = ROk j' /\
  if fails then exists m' e, forall n, (20 <= n)%nat -> qr_unm n (fst (zalloc qr_t [])) qr_t (snd (zalloc qr_t [])) j' [] = TopErr m' e
  else exists m', (forall n, (20 <= n)%nat -> qr_unm n (fst (zalloc qr_t [])) qr_t (snd (zalloc qr_t [])) j' [] = TopOk m') /\
    ~ same_value (fun _ => None) [] v m' (snd (zalloc qr_t [])).

Lemma qr_unm_more m j r : qr_unm 20 (fst (zalloc qr_t m)) qr_t (snd (zalloc qr_t m)) j [] = r -> r <> TopFuel ->
  forall n, (20 <= n)%nat -> qr_unm n (fst (zalloc qr_t m)) qr_t (snd (zalloc qr_t m)) j [] = r.
Proof. intros <- N n L. apply Unmarshal_more; [exact L|exact N]. Qed.

(** A uint64 from 2^63 on is a negative number in JSON, whose text is refused
    (while the number itself would have come back). *)
Theorem C72_large_unsigned_refuted : qlost true (qr None None (2 ^ 63)) true.
Proof.
  exists [(nm "u", JInt (- 2 ^ 63))], (JDict 0 [(nm "u", JString (nm "-9223372036854775808"))]).
  split; [cbn; repeat split|]. split; [exists hd, 20%nat; split; [apply hd_chooses|vm_compute; reflexivity]|]. split; [vm_compute; reflexivity|].
  eexists _, _. apply qr_unm_more; [vm_compute; reflexivity|discriminate].
Qed.

(** An empty slice that is not nil is not in the query string. *)
Theorem C72_empty_slice_refuted : qlost true (qr (Some []) None 5) false.
Proof.
  exists [(nm "l", JArray []); (nm "u", JInt 5)], (JDict 0 [(nm "u", JString (nm "5"))]).
  split; [cbn; repeat split|]. split; [exists hd, 20%nat; split; [apply hd_chooses|vm_compute; reflexivity]|]. split; [vm_compute; reflexivity|].
  eexists. split; [apply qr_unm_more; [vm_compute; reflexivity|discriminate]|].
  intros S. specialize (S 0%nat). inversion S as [| | | | | | | | | | |? ? ? E F| | | | | | | | |]; subst. cbn in E. injection E as <-.
  inversion F as [|? ? ? ? F1 _]; subst. inversion F1 as [| | | | | | |? ? ? ? E1 _| | | | | | | | | | | | |]; subst. discriminate.
Qed.

(** A number held by a JSONObject becomes a string. *)
Theorem C72_json_number_refuted : qlost true (qr None (Some (JInt 5)) 5) false.
Proof.
  exists [(nm "o", JInt 5); (nm "u", JInt 5)], (JDict 0 [(nm "o", JString (nm "5")); (nm "u", JString (nm "5"))]).
  split; [cbn; repeat split; discriminate|]. split; [exists hd, 20%nat; split; [apply hd_chooses|vm_compute; reflexivity]|]. split; [vm_compute; reflexivity|].
  eexists. split; [apply qr_unm_more; [vm_compute; reflexivity|discriminate]|].
  intros S. specialize (S 0%nat). inversion S as [| | | | | | | | | | |? ? ? E F| | | | | | | | |]; subst. cbn in E. injection E as <-.
  inversion F as [|? ? ? ? _ F1]; subst. inversion F1 as [|? ? ? ? F2 _]; subst. inversion F2 as [| | | | | | | | | | | | | | | |? ? E1| | | |]; subst. discriminate.
Qed.

(** With MarshalAll a nil pointer is null, that is the empty text, and comes
    back as a pointer to 0. *)
Theorem C72_marshal_all_refuted : qlost false (qr (Some [GString (nm "x")]) (Some (JString [])) 5) false.
Proof.
  exists [(nm "l", JArray [JString (nm "x")]); (nm "o", JString []); (nm "p", JNull); (nm "u", JInt 5)],
    (JDict 0 [(nm "l", JArray [JString (nm "x")]); (nm "o", JString []); (nm "p", JString []); (nm "u", JString (nm "5"))]).
  split; [cbn; repeat split; discriminate|]. split; [exists hd, 20%nat; split; [apply hd_chooses|vm_compute; reflexivity]|]. split; [vm_compute; reflexivity|].
  eexists. split; [apply qr_unm_more; [vm_compute; reflexivity|discriminate]|].
  intros S. specialize (S 0%nat). inversion S as [| | | | | | | | | | |? ? ? E F| | | | | | | | |]; subst. cbn in E. injection E as <-.
  inversion F as [|? ? ? ? _ F1]; subst. inversion F1 as [|? ? ? ? _ F2]; subst. inversion F2 as [|? ? ? ? F3 _]; subst.
  inversion F3 as [| | | | | | | | | | | |? E1| | | | | | | |]; subst. discriminate.
Qed.

Print Assumptions C72_persists.
Print Assumptions C72_pointer_persists.
Print Assumptions C72_object_persists.
