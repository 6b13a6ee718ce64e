(** C49: a Go value written as text and read back: Marshal, String, Parse,
    Unmarshal. *)
From Coq Require Import QArith Sorting.Permutation.
From Verif Require Import Base Strconv SpecFloat SortedMap SortedMapFacts Json SpecJson SpecPrint Printer ParseInv Parser Heap Gotypes Marshal SpecMarshal SpecEncode MarshalFacts MarshalEnc2 MarshalRefs MarshalFinal PropMarshal Access Unmarshal SpecUnmarshal UnmFacts UnmTotal PropUnmarshal SpecRestore RestoreMem MarshalOrder Restore PropRestore SpecWritable TextRestore PropRoundtrip.
Open Scope Z_scope.

(** The node ids and references of a JSON value fit in an int64. *)
Definition ids_fit (j : json) : Prop := forall n, In n (SpecMarshal.node_ids j) \/ In n (ref_ids j) -> n < 2 ^ 63.

Lemma ids_perm j : Permutation (SpecMarshal.node_ids j) (SpecPrint.node_ids j).
Proof.
  induction j as [|b|z|fl bit|s|l IH|nid kvs IH|p] using json_ind'; try constructor.
  - cbn. induction IH as [|x l H _ IHl]; [constructor|]. cbn. apply Permutation_app; assumption.
  - cbn [SpecMarshal.node_ids SpecPrint.node_ids]. rewrite Permutation_app_comm. apply Permutation_app_tail.
    induction IH as [|x l H _ IHl]; [constructor|]. cbn. apply Permutation_app; assumption.
Qed.
Lemma distinct_marshal j : NoDup (SpecMarshal.node_ids j) -> distinct_ids j.
Proof. intros H. eapply Permutation_NoDup; [apply ids_perm|exact H]. Qed.

Section C49.
Context (env : nat -> list (finfo * gty)) (locate : list (finfo * gty) -> bytes -> list nat).
Context (match_us match_eu : bytes -> bool) (to_bool : bytes -> bool)
  (parse_time : bytes -> option bytes) (time_json : bytes -> option (option bytes)) (std_ok : bytes -> bool).
Notation Unmarshal := (Unmarshal env locate match_us match_eu to_bool parse_time time_json std_ok).
Notation texts_survive := (texts_survive match_us match_eu to_bool std_ok).
Notation same_value := (SpecRestore.same_value time_json).
Context (env_proper : env_ok env) (env_restorable : forall n, restorable locate (TStruct n (env n))).

Lemma unmarshal_text t j j' : proper env t -> fits env locate t j -> ~ bare_scalar j -> nodes_first j -> reads_as j j' ->
  forall n m a, Unmarshal n m t a j' [] = Unmarshal n m t a j [].
Proof using.
  intros P F NB NF R n m a. unfold Unmarshal.Unmarshal.
  assert (Rj : receiver j = j). { apply receiver_id; [exact NB|]. intros k ->. destruct (NF [] k [] eq_refl). }
  assert (Rj' : receiver j' = j' \/ j' = JNull /\ j = JNull) by (destruct R; cbn in *; auto; destruct NB; exact Logic.I).
  destruct Rj' as [Rj'|[-> ->]]; [|reflexivity]. rewrite Rj, Rj', (resolve_proper env t P).
  rewrite (unm_reads_as env locate match_us match_eu to_bool parse_time time_json std_ok n _ t a j j' F R). reflexivity.
Qed.

Lemma small_ids j : ids_fit j -> small j.
Proof using. intros H n I. apply H. apply in_app_or in I. exact I. Qed.

(** Marshal (or MarshalAll) a value [v] of type [t], write the result as text,
    parse the text, and Unmarshal what was parsed into a new variable of type
    [t]: the text is accepted as a whole, the variable then holds the same
    value as [v], whatever pointers one follows, and nothing that existed
    before has changed.  The conditions are those of C29_roundtrip, and that
    nothing in [v] is of a kind which text cannot carry ([all_writable]). *)
Theorem C49_persists omit st types v j t m0 :
  typed_store env locate parse_time time_json types st -> holds env parse_time time_json types v t -> proper env t -> restorable locate t ->
  texts_survive st v -> only_zeros_dropped omit st None v -> all_writable st v ->
  marshals omit st v j -> ~ bare_scalar j -> nodes_first j -> distinct_ids j -> ids_fit j ->
  exists j' N m', Parse (String_ j) = SOk j' (length (String_ j)) /\
    (forall n, (N <= n)%nat -> Unmarshal n (fst (zalloc t m0)) t (snd (zalloc t m0)) j' [] = TopOk m') /\
    same_value st v m' (snd (zalloc t m0)) /\
    forall x, (x < length m0)%nat -> nth_error m' x = nth_error m0 x.
Proof using env_proper env_restorable.
  intros Ts H P R Tx Z W M NB NF D I.
  destruct (C29_roundtrip env locate match_us match_eu to_bool parse_time time_json std_ok env_proper env_restorable omit st types v j t m0 Ts H P R Tx Z M NB NF) as (N & m' & U & S & K).
  apply result_encodes in M as [(O & Dr & _)|[_ (f & Hp & En)]].
  { destruct (Z O None v (S_refl _ _) Dr) as [X _]. destruct X. reflexivity. }
  assert (F : fits env locate t j) by (eapply encodes_fits; eassumption).
  assert (Rd : readable j) by (eapply (encodes_readable env locate parse_time); try eassumption; apply small_ids, I).
  destruct Rd as (R1 & R2 & R3). destruct (C01_roundtrip j) as (j' & E & Ra); [repeat split; assumption|].
  exists j', N, m'. split; [exact E|]. split; [|split; assumption].
  intros n L. rewrite (unmarshal_text t j j' P F NB NF Ra). apply U, L.
Qed.

(** The same for a pointer to an object, which comes back as a new variable of
    the object's type. *)
Theorem C49_pointer_persists omit st types s v j t m0 :
  typed_store env locate parse_time time_json types st -> nth_error st s = Some v -> nth_error types s = Some t ->
  match t with TPtr _ => basic t | TSer _ _ => False | _ => True end ->
  texts_survive st (GPtr (Some s)) -> only_zeros_dropped omit st None (GPtr (Some s)) -> all_writable st (GPtr (Some s)) ->
  marshals omit st (GPtr (Some s)) j -> ~ bare_scalar j -> nodes_first j -> distinct_ids j -> ids_fit j ->
  exists j' N m', Parse (String_ j) = SOk j' (length (String_ j)) /\
    (forall n, (N <= n)%nat -> Unmarshal n (fst (zalloc t m0)) t (snd (zalloc t m0)) j' [] = TopOk m') /\
    same_value st v m' (snd (zalloc t m0)) /\
    forall x, (x < length m0)%nat -> nth_error m' x = nth_error m0 x.
Proof using env_proper env_restorable.
  intros Ts Ev Et B Tx Z W M NB NF D I.
  destruct (C29_roundtrip_pointer env locate match_us match_eu to_bool parse_time time_json std_ok env_proper env_restorable omit st types s v j t m0 Ts Ev Et B Tx Z M NB NF) as (N & m' & U & S & K).
  apply result_encodes in M as [(O & Dr & _)|[_ (f & Hp & En)]].
  { destruct (Z O None _ (S_refl _ _) Dr) as [X _]. destruct X. reflexivity. }
  pose proof Ts as (T1 & T2 & T3). destruct (F2_nth_l _ _ _ T1 s v Ev) as (t0 & E0 & H). assert (t0 = t) by congruence. subst t0.
  rewrite Forall_forall in T3. destruct (T3 t (nth_error_In _ _ Et)) as [P R].
  inversion En as [? ? ? Hn| | | | | | | | | | |? ? ? ? ? ? Hc| |? ? ? x ? Ex Ex'| | | | | |]; subst.
  { destruct Hn. } { destruct Hc. } { destruct (NF [] n [] eq_refl). }
  assert (x = v) by congruence. subst x.
  assert (Wx : text_ok st None v) by (intros i w Sb; apply (W i w); eapply S_ptr; eassumption).
  assert (F : fits env locate t j) by (eapply encodes_fits; eassumption).
  assert (Rd : readable j) by (eapply (encodes_readable env locate parse_time); try eassumption; apply small_ids, I).
  destruct Rd as (R1 & R2 & R3). destruct (C01_roundtrip j) as (j' & E & Ra); [repeat split; assumption|].
  exists j', N, m'. split; [exact E|]. split; [|split; assumption].
  intros n L. rewrite (unmarshal_text t j j' P F NB NF Ra). apply U, L.
Qed.

(** All in one for an object behind a pointer, without conditions on the JSON
    value but that its ids fit: Marshal returns, its text parses, and Unmarshal
    of that returns the object. *)
Theorem C49_object_persists omit pick st types s v t m0 : chooses pick ->
  typed_store env locate parse_time time_json types st -> nth_error st s = Some v -> nth_error types s = Some t ->
  match t with TStruct _ _ | TMap _ | TSlice _ | TArray _ _ => True | _ => False end ->
  texts_survive st (GPtr (Some s)) -> tame st (GPtr (Some s)) -> only_zeros_dropped omit st None (GPtr (Some s)) -> all_writable st (GPtr (Some s)) ->
  exists N j, (forall n, (N <= n)%nat -> marshal_with omit pick n st (Some (GPtr (Some s))) = Some j) /\
    (acyclic st -> ids_fit j) /\
    (ids_fit j -> exists j' m', Parse (String_ j) = SOk j' (length (String_ j)) /\
       (forall n, (N <= n)%nat -> Unmarshal n (fst (zalloc t m0)) t (snd (zalloc t m0)) j' [] = TopOk m') /\
       same_value st v m' (snd (zalloc t m0)) /\
       forall x, (x < length m0)%nat -> nth_error m' x = nth_error m0 x).
Proof using env_proper env_restorable.
  intros HP Ts Ev Et Ct Tx Tm Z W.
  destruct (C29_object_roundtrip env locate match_us match_eu to_bool parse_time time_json std_ok env_proper env_restorable omit pick st types s v t m0 HP Ts Ev Et Ct Tx Tm Z) as (N1 & j & m1 & M).
  assert (Mj : marshals omit st (GPtr (Some s)) j) by (exists pick, N1; split; [exact HP|apply (M N1), Nat.le_refl]).
  destruct (typed_store_plain env locate parse_time time_json env_restorable types st Ts) as [Pl G].
  assert (Pj : Forall holds_pure_json st) by (eapply Forall_impl; [|exact Pl]; intros x (_ & _ & X); exact X).
  assert (Ac : acyclic st -> SpecMarshal.node_ids j = [] /\ ref_ids j = []) by (intros A; eapply (C31_acyclic_no_references omit st (GPtr (Some s))); [exact A|intros j' []|exact Pj|exact Mj]).
  assert (Pg : Forall struct_or_map st -> plain_graph st (GPtr (Some s))).
  { intros Sm. split; [|split; [split; [|split]; intros ? []|split; [eapply typed_plain; eassumption|assumption]]].
    intros x a [->|I] Ia; [destruct Ia as [<-|[]]; eapply nth_error_lt; exact Ev|eapply G; eassumption]. }
  assert (NF : nodes_first j).
  { destruct Tm as [A|(Sm & O1 & O2)]; [apply no_refs_first, Ac, A|].
    eapply (C31_nodes_before_references omit st (GPtr (Some s))); [apply Pg, Sm|exact O1|exact O2|exact Mj]. }
  assert (D : distinct_ids j).
  { apply distinct_marshal. destruct Tm as [A|(Sm & _)]; [destruct (Ac A) as [-> _]; constructor|].
    apply (C31_references_resolve omit st (GPtr (Some s)) j (Pg Sm) Mj). }
  assert (NB : ~ bare_scalar j).
  { pose proof Ts as (T1 & _). destruct (F2_nth_l _ _ _ T1 s v Ev) as (t0 & E0 & H). assert (t0 = t) by congruence. subst t0.
    pose proof (C30_result_encodes_value _ _ _ _ Mj) as [(O & Dr & _)|[_ [f En]]]; [destruct (Z O None _ (S_refl _ _) Dr) as [X _]; destruct X; reflexivity|].
    inversion En as [? ? ? Hn| | | | | | | | | | |? ? ? ? ? ? Hc| |? ? ? x ? Ex Ex'| | | | | |]; subst; [destruct Hn|destruct Hc|exact (fun X => X)|].
    assert (x = v) by congruence. subst x. destruct t; try contradiction Ct; destruct v; try absurd_holds H; inversion Ex'; subst; cbn; try exact (fun X => X); try discriminate; try contradiction. }
  assert (C : ids_fit j -> exists j' N m', Parse (String_ j) = SOk j' (length (String_ j)) /\
    (forall n, (N <= n)%nat -> Unmarshal n (fst (zalloc t m0)) t (snd (zalloc t m0)) j' [] = TopOk m') /\
    same_value st v m' (snd (zalloc t m0)) /\ forall x, (x < length m0)%nat -> nth_error m' x = nth_error m0 x).
  { intros I. eapply C49_pointer_persists; try eassumption. destruct t; try exact Logic.I; contradiction. }
  assert (F : ids_fit j \/ ~ ids_fit j).
  { unfold ids_fit. assert (X : forall l, (forall n, In n l -> n < 2 ^ 63) \/ ~ (forall n, In n l -> n < 2 ^ 63)).
    { induction l as [|x l IH]; [left; intros n []|]. destruct (Z.lt_ge_cases x (2 ^ 63)) as [L|L].
      - destruct IH as [IH|IH]; [left; intros n [<-|I]; auto|right; intros Y; apply IH; intros n I; apply Y; right; exact I].
      - right. intros Y. specialize (Y x (or_introl eq_refl)). lia. }
    destruct (X (SpecMarshal.node_ids j ++ ref_ids j)) as [Y|Y]; [left|right]; [intros n I|intros Q]; apply Y; [apply in_or_app; exact I|intros n I; apply Q, in_app_or, I]. }
  assert (Ai : acyclic st -> ids_fit j) by (intros A n [I|I]; destruct (Ac A) as [E1 E2]; [rewrite E1 in I|rewrite E2 in I]; destruct I).
  destruct F as [F|F].
  - destruct (C F) as (j' & N2 & m' & E & U & S & K). exists (N1 + N2)%nat, j. split; [intros n L; apply (M n); lia|]. split; [exact Ai|]. intros _.
    exists j', m'. split; [exact E|]. split; [intros n L; apply U; lia|]. split; assumption.
  - exists N1, j. split; [intros n L; apply (M n L)|]. split; [exact Ai|]. intros X. contradiction.
Qed.
End C49.

(** ** Examples *)

Lemma writable_ok st L v : (forall p, In p L -> incl (children st p) L) -> In (None, v) L ->
  (forall i w, In (i, w) L -> writable w) -> all_writable st v.
Proof. intros C I K i w S. apply (K i w). eapply sub_closed; eassumption. Qed.

Definition rt_all : list (option finfo * gval) :=
  let n0 := nth 0 rt_store GOther in let n1 := nth 1 rt_store GOther in
  [(@None finfo, GPtr (Some 0%nat)); (None, n0); (None, GString (nm "x"))] ++ children rt_store (None, n0) ++ children rt_store (None, n1) ++
  [(Some (plain (nm "next")), n0); (Some (plain (nm "next")), n1); (Some (plain (nm "up")), n1)].
Lemma rt_writable : all_writable rt_store (GPtr (Some 0%nat)).
Proof.
  apply (writable_ok rt_store rt_all).
  - intros p Ip. cbn in Ip. repeat (destruct Ip as [<-|Ip]; [intros q Iq; cbn in Iq; repeat (destruct Iq as [<-|Iq]; [cbn; tauto|]); destruct Iq|]). destruct Ip.
  - left. reflexivity.
  - intros i w Ip. cbn in Ip. repeat (destruct Ip as [E|Ip]; [injection E as <- <-; cbn; try exact Logic.I; intuition discriminate|]). destruct Ip.
Qed.

Lemma rt_texts : texts_survive (fun _ => false) (fun _ => false) (fun _ => true) (fun _ => true) rt_store (GPtr (Some 0%nat)).
Proof. no_option. Qed.

(** The two nodes of C29_example, which point at each other, through text. *)
Example C49_example m0 : exists N j j' m',
  (forall n, (N <= n)%nat -> Marshal hd n rt_store (Some (GPtr (Some 0%nat))) = Some j) /\
  Parse (String_ j) = SOk j' (length (String_ j)) /\
  (forall n, (N <= n)%nat -> rt_unm n (fst (zalloc rt_t m0)) rt_t (snd (zalloc rt_t m0)) j' [] = TopOk m') /\
  same_value (fun _ => None) rt_store (nth 0 rt_store GOther) m' (snd (zalloc rt_t m0)).
Proof.
  destruct (C49_object_persists rt_env by_name (fun _ => false) (fun _ => false) (fun _ => true) (fun _ => None) (fun _ => None) (fun _ => true)
    rt_env_ok rt_restorable true hd rt_store rt_types 0%nat (nth 0 rt_store GOther) rt_t m0 hd_chooses rt_typed eq_refl eq_refl Logic.I rt_texts rt_tame rt_zeros rt_writable)
    as (N & j & M & _ & C).
  assert (E : ids_fit j).
  { assert (M1 : Marshal hd 20 rt_store (Some (GPtr (Some 0%nat))) = Some
      (JDict 1 [(nm "n", JInt 7); (nm "next", JDict 2 [(nm "n", JInt (-8)); (nm "next", JPtr 1); (nm "up", JPtr 2)]); (nm "tags", JArray [JString (nm "x")])])) by (vm_compute; reflexivity).
    pose proof (M (N + 20)%nat (Nat.le_add_r _ _)) as M2. unfold Marshal in M1. rewrite (marshal_mono _ _ _ (N + 20)%nat _ _ _ (Nat.le_add_l _ _) M1) in M2. injection M2 as <-.
    intros n [I|I]; cbn in I; intuition lia. }
  destruct (C E) as (j' & m' & P & U & S & _). exists N, j, j', m'. repeat split; assumption.
Qed.

(** type R struct { A float32; F float64; M map[string]int } *)
Definition pe_env (n : nat) : list (finfo * gty) :=
  match n with
  | 0%nat => [(plain (nm "a"), TFloat 32); (plain (nm "f"), TFloat 64); (plain (nm "m"), TMap (TInt (Signed 64)))]
  | _ => []
  end.
Definition pe_t : gty := TStruct 0 (pe_env 0).
Notation pe_unm := (Unmarshal pe_env by_name (fun _ => false) (fun _ => false) (fun _ => true) (fun _ => None) (fun _ => None) (fun _ => true)).
Definition pe (a f : fl) (m : list (bytes * gval)) : gval :=
  GStruct [(plain (nm "a"), GFloat 32 a); (plain (nm "f"), GFloat 64 f); (plain (nm "m"), GMap (Some m))].

Lemma pe_unm_more m j r : pe_unm 20 (fst (zalloc pe_t m)) pe_t (snd (zalloc pe_t m)) j [] = r -> r <> TopFuel ->
  forall n, (20 <= n)%nat -> pe_unm n (fst (zalloc pe_t m)) pe_t (snd (zalloc pe_t m)) j [] = r.
Proof. intros <- N n L. apply Unmarshal_more; [exact L|exact N]. Qed.


(** Marshal, String, Parse and Unmarshal of [v] succeed, but the variable does
    not hold the same value. *)
Definition lost (v : gval) : Prop := exists j j' m',
  SpecRestore.holds pe_env (fun _ => None) (fun _ => None) [] v pe_t /\ marshals true [] v j /\
  Parse (String_ j) = SOk j' (length (String_ j)) /\
  (forall n, (20 <= n)%nat -> pe_unm n (fst (zalloc pe_t [])) pe_t (snd (zalloc pe_t [])) j' [] = TopOk m') /\
  ~ same_value (fun _ => None) [] v m' (snd (zalloc pe_t [])).

Lemma pe_holds a f m : SpecFloat.single a -> sm_ok m -> Forall (fun kv => exists z, snd kv = GInt (Signed 64) z /\ in_kind (Signed 64) z = true) m ->
  SpecRestore.holds pe_env (fun _ => None) (fun _ => None) [] (pe a f m) pe_t.
Proof.
  intros Sa Sm Fm.
  cbn. split; [reflexivity|]. split; [split; [reflexivity|intros _; exact Sa]|]. split; [reflexivity|]. split; [split; [reflexivity|discriminate]|].
    split; [reflexivity|]. split; [|exact Logic.I]. split; [exact Sm|]. clear - Fm. induction Fm as [|[k x] m (z & E & R) _ IH]; [exact Logic.I|]. cbn in E. subst x.
    split; [split; [reflexivity|exact R]|exact IH].
Qed.

(** Without text these values come back. *)
Lemma pe_restored a f m : SpecFloat.single a -> sm_ok m -> Forall (fun kv => exists z, snd kv = GInt (Signed 64) z /\ in_kind (Signed 64) z = true) m ->
  forall j m0, marshals true [] (pe a f m) j ->
  exists N m', (forall n, (N <= n)%nat -> pe_unm n (fst (zalloc pe_t m0)) pe_t (snd (zalloc pe_t m0)) j [] = TopOk m') /\
    same_value (fun _ => None) [] (pe a f m) m' (snd (zalloc pe_t m0)).
Proof.
  intros Sa Sm Fm j m0 M.
  assert (R0 : forall n, restorable by_name (TStruct n (pe_env n))).
  { intros [|n]; cbn [pe_env restorable].
    - split; [|cbn; unfold word; tauto]. split; [|split].
      + intros g t [E|[E|[E|[]]]]; injection E as <- <-; repeat split.
      + repeat constructor; cbn; intuition discriminate.
      + intros [|[|[|i]]] g t E; try (injection E as <- <-; reflexivity). destruct i; discriminate.
    - split; [|exact Logic.I]. split; [intros g t []|]. split; [constructor|]. intros [|i] g t E; discriminate. }
  assert (E0 : env_ok pe_env) by (intros [|n]; cbn; repeat split).
  destruct (C29_roundtrip_tame pe_env by_name (fun _ => false) (fun _ => false) (fun _ => true) (fun _ => None) (fun _ => None) (fun _ => true) E0 R0
    true [] [] (pe a f m) j pe_t m0) as (N & m' & U & S & _).
  - repeat constructor.
  - apply pe_holds; assumption.
  - exact (E0 0%nat).
  - exact (R0 0%nat).
  - apply no_option_texts; [|reflexivity]. intros x fs g w [->|[]] If Ig. cbn in If. destruct If as [<-|If].
    + destruct Ig as [E|[E|[E|[]]]]; injection E as <- <-; reflexivity.
    + exfalso. rewrite app_nil_r in If. apply in_flat_map in If as (kv & Ikv & If). rewrite Forall_forall in Fm. destruct (Fm kv Ikv) as (z & E & _). rewrite E in If. destruct If.
  - left. intros x P. assert (Y : forall a b, path [] a b -> False) by (clear; intros a b P; induction P as [x b E _|b x c _ _ E _]; [destruct a|destruct b]; discriminate). eapply Y, P.
  - intros _ i' w Sb D. exfalso.
    assert (K : forall p q, sub [] p q -> (match p with (Some g, GInt _ _) | (Some g, GFloat _ _) | (Some g, GMap (Some _)) => unflagged (Some g) | (None, GInt _ _) => True | (None, GStruct fs) => fs = match pe a f m with GStruct fs => fs | _ => [] end | _ => False end) /\
       (match snd p with GMap (Some m') => m' = m | _ => True end) ->
       match q with (Some g, GInt _ _) | (Some g, GFloat _ _) | (Some g, GMap (Some _)) => unflagged (Some g) | (None, GInt _ _) => True | (None, GStruct fs) => True | _ => False end).
    { intros p q Sq. induction Sq as [p|i l x p I Sq IH|i l x p I Sq IH|i m1 k x p I Sq IH|i fs y x p I I1 I2 Sq IH|i s x p I Sq IH|i x p Sq IH]; intros [H1 H2].
      - destruct p as [[g|] w0]; destruct w0; try contradiction H1; try exact H1; exact Logic.I.
      - destruct i; contradiction.
      - destruct i; contradiction.
      - cbn in H2. subst m1. apply IH. rewrite Forall_forall in Fm. destruct (Fm _ I) as (z & E & _). cbn in E. subst x. split; exact Logic.I.
      - destruct i; [contradiction|]. cbn in H1. subst fs. apply IH. destruct I as [E|[E|[E|[]]]]; injection E as <- <-; cbn; auto.
      - destruct s; discriminate.
      - destruct i; contradiction. }
    specialize (K _ _ Sb (conj eq_refl Logic.I)). cbn in K.
    destruct i' as [g|]; destruct w as [b|k z|bit x|s|o|o|l|l|[m1|]|fs|p|x|j1|j1|j1|j1|]; try contradiction K; try (apply (unflagged_dropped [] (Some g) _ K) in D; inversion D as [? X| |]; destruct X).
    all: apply C30_elements_dropped_iff_nil in D; inversion D as [? X| |]; destruct X.
  - exact M.
  - apply C30_result_encodes_value in M as [(_ & D & _)|[_ [g En]]].
    + apply C30_elements_dropped_iff_nil in D. inversion D as [? X| |]; destruct X.
    + inversion En; subst; cbn; exact (fun X => X).
  - exists N, m'. split; assumption.
Qed.

Definition two_half : fl := FFin false 5629499534213120 (-51).
Definition small32 : fl := FFin false 6131424981680128 (-136).
Lemma small32_single : SpecFloat.single small32.
Proof. split; [reflexivity|]. exists 11420669, (-107). split; reflexivity. Qed.

(** A float32: its text is the shortest one for a float32, but it is read as a
    float64 and then rounded to a float32 again, which can give the next one
    (here 7.038531e-26). *)
Theorem C49_float32_refuted : SpecFloat.single small32 /\ lost (pe small32 two_half []).
Proof.
  split; [apply small32_single|].
  eexists (JDict 0 [(nm "a", JFloat small32 32); (nm "f", JFloat _ 64); (nm "m", JDict 0 [])]), (JDict 0 [(nm "a", JFloat (FFin false 6131425250115584 (-136)) 0); (nm "f", JFloat _ 0); (nm "m", JDict 0 [])]), _.
  split; [|split; [|split; [|split]]].
  - apply pe_holds; [apply small32_single|exact Logic.I|constructor].
  - exists hd, 20%nat. split; [apply hd_chooses|vm_compute; reflexivity].
  - vm_compute. reflexivity.
  - apply pe_unm_more; [vm_compute; reflexivity|discriminate].
  - intros S. specialize (S 0%nat). inversion S as [| | | | | | | | | | |? ? ? E F| | | | | | | | |]; subst. cbn in E. injection E as <-.
    inversion F as [|? ? ? ? F1 _]; subst. cbn in F1. inversion F1 as [| |? ? ? E1| | | | | | | | | | | | | | | | | |]; subst. discriminate.
Qed.

(** The negative zero: its text is "-0", which is the integer 0. *)
Theorem C49_negative_zero_refuted : lost (pe (fzero F64 false) (fzero F64 true) []).
Proof.
  eexists (JDict 0 [(nm "a", JFloat (fzero F64 false) 32); (nm "f", JFloat (fzero F64 true) 64); (nm "m", JDict 0 [])]), (JDict 0 [(nm "a", JInt 0); (nm "f", JInt 0); (nm "m", JDict 0 [])]), _.
  split; [|split; [|split; [|split]]].
  - apply pe_holds; [split; [reflexivity|exists 0, (-149); split; reflexivity]|exact Logic.I|constructor].
  - exists hd, 20%nat. split; [apply hd_chooses|vm_compute; reflexivity].
  - vm_compute. reflexivity.
  - apply pe_unm_more; [vm_compute; reflexivity|discriminate].
  - intros S. specialize (S 0%nat). inversion S as [| | | | | | | | | | |? ? ? E F| | | | | | | | |]; subst. cbn in E. injection E as <-.
    inversion F as [|? ? ? ? _ F1]; subst. inversion F1 as [|? ? ? ? F2 _]; subst. cbn in F2. inversion F2 as [| |? ? ? E1| | | | | | | | | | | | | | | | | |]; subst. discriminate.
Qed.

(** A map with the reserved key loses that member. *)
Theorem C49_reserved_key_refuted : lost (pe (fzero F64 false) two_half [(jnid_key, GInt (Signed 64) 5)]).
Proof.
  eexists (JDict 0 [(nm "a", JFloat (fzero F64 false) 32); (nm "f", JFloat two_half 64); (nm "m", JDict 0 [(jnid_key, JInt 5)])]), (JDict 0 [(nm "a", JInt 0); (nm "f", JFloat two_half 0); (nm "m", JDict 5 [])]), _.
  split; [|split; [|split; [|split]]].
  - apply pe_holds; [split; [reflexivity|exists 0, (-149); split; reflexivity]|split; exact Logic.I|]. repeat constructor. exists 5. split; reflexivity.
  - exists hd, 20%nat. split; [apply hd_chooses|vm_compute; reflexivity].
  - vm_compute. reflexivity.
  - apply pe_unm_more; [vm_compute; reflexivity|discriminate].
  - intros S. specialize (S 0%nat). inversion S as [| | | | | | | | | | |? ? ? E F| | | | | | | | |]; subst. cbn in E. injection E as <-.
    inversion F as [|? ? ? ? _ F1]; subst. inversion F1 as [|? ? ? ? _ F2]; subst. inversion F2 as [|? ? ? ? F3 _]; subst. cbn in F3.
    inversion F3 as [| | | | | | | | | |? d ? ? E1 E2 F4| | | | | | | | | |]; subst. cbn in E1. injection E1 as <-. cbn in E2. injection E2 as <-. inversion F4.
Qed.

(** While each of the three comes back without text. *)
Theorem C49_restored_without_text : forall v, In v [pe small32 two_half []; pe (fzero F64 false) (fzero F64 true) []; pe (fzero F64 false) two_half [(jnid_key, GInt (Signed 64) 5)]] ->
  forall j m0, marshals true [] v j ->
  exists N m', (forall n, (N <= n)%nat -> pe_unm n (fst (zalloc pe_t m0)) pe_t (snd (zalloc pe_t m0)) j [] = TopOk m') /\
    same_value (fun _ => None) [] v m' (snd (zalloc pe_t m0)).
Proof.
  assert (Z0 : SpecFloat.single (fzero F64 false)) by (split; [reflexivity|exists 0, (-149); split; reflexivity]).
  intros v [<-|[<-|[<-|[]]]] j m0; apply pe_restored; try exact Z0; try apply small32_single; try exact Logic.I; try (split; exact Logic.I); repeat constructor.
  exists 5. split; reflexivity.
Qed.

Print Assumptions C49_persists.
Print Assumptions C49_pointer_persists.
Print Assumptions C49_object_persists.
Print Assumptions C49_float32_refuted.
