(** Unmarshalling a value without references: it ends, does not panic, and
    keeps memory well typed. *)
From Verif Require Import Base Strconv SortedMap SortedMapFacts Json SpecJson Heap Gotypes Marshal Access Unmarshal SpecUnmarshal UnmFacts.

Lemma in_strings_iff k ks : in_strings k ks = true <-> In k ks.
Proof.
  unfold in_strings. rewrite existsb_exists. split.
  - intros (y & I & B). apply bseq_eq in B as ->. exact I.
  - intros I. exists k. split; [exact I|apply bseq_refl].
Qed.

(** No target waits for a node. *)
(** [D]: the ids of the references; no dict of the value has one of them. *)
Definition quiet (D : Z -> Prop) (s : session) : Prop := forall n nv, find_node s n = Some nv -> (D n -> nv_value nv = None) /\ (~ D n -> nv_targets nv = []).
Definition loose (D : Z -> Prop) (j : json) : Prop := (forall n, subvalue (JPtr n) j -> D n) /\ (forall n kvs, 0 < n -> subvalue (JDict n kvs) j -> ~ D n).

Lemma quiet_nil D : quiet D [].
Proof. intros n nv E. discriminate E. Qed.
Definition outer_of (j : json) (n : Z) : Prop := 0 < n -> subvalue (JPtr n) j.
Lemma loose_out j : references_lead_out j -> loose (outer_of j) j.
Proof. intros H. split; [intros n S _; exact S|]. intros n kvs P S Q. exact (H n kvs P (Q P) S). Qed.
Lemma without_out j : without_references j -> references_lead_out j.
Proof. intros H n kvs _ S. destruct (H n S). Qed.
Lemma loose_part D j j' : (forall x, subvalue x j' -> subvalue x j) -> loose D j -> loose D j'.
Proof. intros H [R N]. split; [intros n S; exact (R n (H _ S))|intros n kvs P S; exact (N n kvs P (H _ S))]. Qed.
Lemma loose_elem D l j : loose D (JArray l) -> In j l -> loose D j.
Proof. intros H I. eapply loose_part; [|exact H]. intros x S. econstructor; eassumption. Qed.
Lemma loose_member D nid kvs k j : loose D (JDict nid kvs) -> In (k, j) kvs -> loose D j.
Proof. intros H I. eapply loose_part; [|exact H]. intros x S. econstructor; eassumption. Qed.
Lemma quiet_put_value D s n x : quiet D s -> ~ D n -> quiet D (put_node s n {| nv_value := Some x; nv_targets := [] |}).
Proof.
  intros Q N k nv. unfold put_node. cbn [find_node]. destruct (Z.eqb_spec n k) as [<-|_]; [|apply Q]. intros E. injection E as <-. split; [intros X; contradiction|reflexivity].
Qed.
Lemma quiet_put_target D s n l : quiet D s -> D n -> quiet D (put_node s n {| nv_value := None; nv_targets := l |}).
Proof.
  intros Q N k nv. unfold put_node. cbn [find_node]. destruct (Z.eqb_spec n k) as [<-|_]; [|apply Q]. intros E. injection E as <-. split; [reflexivity|intros X; contradiction].
Qed.
(** A reference whose dict is not met changes no variable. *)
Lemma set_pointer_loose D st n a t : quiet D (u_sess st) -> D n ->
  exists s, set_pointer_value st n a t = UOk {| u_mem := u_mem st; u_sess := s |} None /\ quiet D s.
Proof.
  intros Q N. unfold set_pointer_value. destruct (find_node (u_sess st) n) as [nv|] eqn:F.
  - destruct (Q _ _ F) as [V _]. specialize (V N). destruct nv as [v ts]. cbn [nv_value nv_targets] in *. subst v. eexists. split; [reflexivity|apply quiet_put_target; assumption].
  - eexists. split; [reflexivity|apply quiet_put_target; assumption].
Qed.

Lemma common_bound {A} (Q : A -> nat -> Prop) (l : list A) :
  (forall x, In x l -> exists N, forall n, (N <= n)%nat -> Q x n) -> exists N, forall n, (N <= n)%nat -> forall x, In x l -> Q x n.
Proof.
  induction l as [|y l IH]; intros H; [exists 0%nat; intros ? ? ? []|].
  destruct (H y (or_introl eq_refl)) as [N1 H1]. destruct IH as [N2 H2]; [intros; apply H; right; assumption|].
  exists (N1 + N2)%nat. intros n L x [<-|I]; [apply H1; lia|apply H2; [lia|exact I]].
Qed.

Section Total.
Context (env : nat -> list (finfo * gty)) (locate : list (finfo * gty) -> bytes -> list nat).
Context (match_us match_eu : bytes -> bool) (to_bool : bytes -> bool)
  (parse_time : bytes -> option bytes) (time_json : bytes -> option (option bytes)) (std_ok : bytes -> bool).
Notation named := (named env).
Notation cell_ok := (cell_ok env).
Context (Lay : addr -> list addr -> Prop) (outer : Z -> Prop).
Notation mok := (mok env Lay).
Notation proper := (proper env).
Notation resolve := (resolve env).
Notation unm := (unm env locate match_us match_eu to_bool parse_time time_json std_ok).
Notation indirect := (indirect env).
Hypothesis Henv : env_ok env.
Hypothesis Hlocate : forall fs k i, In i (locate fs k) -> (i < length fs)%nat.

(** Types inside other types: those that [named] may resolve. *)
Definition inner (t : gty) : Prop := match t with TNamed _ => True | TStruct _ _ => False | _ => proper t end.

Lemma inner_named t : inner t -> proper (named t).
Proof. destruct t; intros H; try exact H; [destruct H|apply Henv]. Qed.

Lemma proper_slice t : proper (TSlice t) -> inner t. Proof. cbn. destruct t; auto. Qed.
Lemma proper_map t : proper (TMap t) -> inner t. Proof. cbn. destruct t; auto. Qed.
Lemma proper_mapo t : proper (TMapOther t) -> inner t. Proof. cbn. destruct t; auto. Qed.
Lemma proper_ptr t : proper (TPtr t) -> inner t. Proof. cbn. destruct t; auto. intros []. Qed.

(** ** UnmarshalJSON *)

Lemma indirect_ok t : inner t -> forall T m a, mok T m -> nth_error T a = Some (Var (named t)) ->
  exists T', mok (T ++ T') (fst (indirect t a m))
    /\ (forall b, snd (indirect t a m) = Some b -> nth_error (T ++ T') b = Some (Var TStd) \/ nth_error (T ++ T') b = Some (Var TTime))
    /\ (forall x b, nth_error m x = Some (VPtr (Some b)) -> nth_error (fst (indirect t a m)) x <> Some (VPtr None))
    /\ (match t with TPtr _ => exists b, nth_error (fst (indirect t a m)) a = Some (VPtr (Some b)) | _ => True end).
Proof.
  induction t as [t Ht|t IH|k t IH|t IH|t IH|t IH|n fs IH] using gty_ind'; intros Hp T m a H E;
    try (exists []; rewrite app_nil_r; cbn [Unmarshal.indirect fst snd]; split; [exact H|split; [discriminate|split; [congruence|exact Logic.I]]]).
  - destruct t; try destruct Ht;
      try (exists []; rewrite app_nil_r; cbn [Unmarshal.indirect fst snd]; split; [exact H|split; [discriminate|split; [congruence|exact Logic.I]]]);
      try (exists []; rewrite app_nil_r; cbn [Unmarshal.indirect fst snd]; split; [exact H|split; [|split; [congruence|exact Logic.I]]]; intros b Eb; injection Eb as <-; cbn [SpecUnmarshal.named] in E; auto; fail).
    exists []. rewrite app_nil_r. cbn [Unmarshal.indirect]. cbn [SpecUnmarshal.named] in E.
    destruct (mok_cell _ _ _ _ _ _ H E) as (c & Ec & C). rewrite Ec.
    assert (La : (a < length m)%nat) by (eapply nth_error_lt; eassumption).
    inversion C; subst. destruct j as [j|]; cbn [fst snd].
    + split; [exact H|split; [discriminate|split; [congruence|exact Logic.I]]].
    + split; [eapply mok_write; [exact H|exact E|exact Logic.I|constructor]|split; [discriminate|split; [|exact Logic.I]]].
      intros x b Ex. destruct (Nat.eq_dec a x) as [<-|N]; [rewrite mwrite_same by exact La; discriminate|rewrite mwrite_other by exact N; congruence].
  - cbn [inner] in Hp. apply proper_ptr in Hp. cbn [SpecUnmarshal.named] in E. cbn [Unmarshal.indirect].
    destruct (mok_cell _ _ _ _ _ _ H E) as (c & Ec & C). rewrite Ec.
    assert (La : (a < length m)%nat) by (eapply nth_error_lt; eassumption).
    assert (K : forall T m b, mok T m -> nth_error T a = Some (Var (TPtr t)) -> nth_error T b = Some (Var (named t)) ->
      nth_error m a = Some (VPtr (Some b)) ->
      exists T', mok (T ++ T') (fst (indirect t b m))
        /\ (forall b', snd (indirect t b m) = Some b' -> nth_error (T ++ T') b' = Some (Var TStd) \/ nth_error (T ++ T') b' = Some (Var TTime))
        /\ (forall x b', nth_error m x = Some (VPtr (Some b')) -> nth_error (fst (indirect t b m)) x <> Some (VPtr None))
        /\ exists b', nth_error (fst (indirect t b m)) a = Some (VPtr (Some b'))).
    { clear T m H E Ec C La c. intros T m b H E Eb Em. destruct (IH Hp T m b H Eb) as (T' & H' & S' & K' & _). exists T'. split; [exact H'|split; [exact S'|split; [exact K'|]]].
      destruct (mok_cell _ _ _ _ a _ H' (nth_error_app_l _ _ _ _ E)) as (c & Ec & C). specialize (K' a b Em). rewrite Ec in *. inversion C; subst; [congruence|eauto]. }
    inversion C; subst.
    + destruct (zalloc_ok env Lay (named t) (inner_named t Hp) T m H) as (T1 & H1 & E1).
      change (resolve t) with (named t). destruct (zalloc (named t) m) as [m1 b] eqn:Z. cbn [fst snd] in *.
      assert (Ea : nth_error (T ++ T1) a = Some (Var (TPtr t))) by (apply nth_error_app_l; exact E).
      assert (La1 : (a < length m1)%nat) by (destruct (mok_cell _ _ _ _ _ _ H1 Ea) as (c & Ec1 & _); eapply nth_error_lt; eassumption).
      destruct (K (T ++ T1) (mwrite m1 a (VPtr (Some b))) b) as (T2 & H2 & S2 & K2 & B2).
      * eapply mok_write; [exact H1|exact Ea|exact Logic.I|]. constructor. exact E1.
      * exact Ea.
      * exact E1.
      * apply mwrite_same. exact La1.
      * exists (T1 ++ T2). rewrite app_assoc. split; [exact H2|split; [exact S2|split; [|exact B2]]].
        intros x b' Ex. destruct (zalloc_keeps (named t) m) as [m0 Z0]. rewrite Z in Z0. cbn [fst] in Z0.
        destruct (Nat.eq_dec a x) as [<-|N]; [congruence|]. eapply K2. rewrite mwrite_other by exact N. rewrite Z0. apply nth_error_app_l. exact Ex.
    + destruct (K T m b H E ltac:(assumption) Ec) as (T2 & M2 & S2 & K2 & B2). exists T2. split; [exact M2|split; [exact S2|split; [exact K2|exact B2]]].
Qed.

Lemma call_std_ok T m a text : mok T m -> nth_error T a = Some (Var TStd) \/ nth_error T a = Some (Var TTime) -> mok T (fst (call_std time_json std_ok m a text)).
Proof.
  intros H E. unfold call_std. destruct E as [E|E]; destruct (mok_cell _ _ _ _ _ _ H E) as (c & -> & C); inversion C; subst.
  - destruct (std_ok text); [eapply mok_write; [exact H|exact E|exact Logic.I|constructor]|exact H].
  - destruct (time_json text); [eapply mok_write; [exact H|exact E|exact Logic.I|constructor]|exact H].
Qed.

(** ** Outcomes *)

Definition state_ok (T : list vty) (st : ustate) : Prop := mok T (u_mem st) /\ quiet outer (u_sess st).
Definition fine {A} (T : list vty) (P : A -> Prop) (r : ures A) : Prop :=
  exists st e T', r = UOk st e /\ state_ok (T ++ T') st /\ P e.
Definition any {A} (x : A) : Prop := True.

Lemma fine_ok {A} T T' (P : A -> Prop) st e : state_ok (T ++ T') st -> P e -> fine T P (UOk st e).
Proof. intros H K. exists st, e, T'. auto. Qed.

Lemma fine_here {A} T (P : A -> Prop) st e : state_ok T st -> P e -> fine T P (UOk st e).
Proof. intros H K. apply (fine_ok T []); [rewrite app_nil_r; exact H|exact K]. Qed.

Lemma fine_more {A} T T' (P : A -> Prop) r : fine (T ++ T') P r -> fine T P r.
Proof. intros (st & e & T2 & -> & H & K). exists st, e, (T' ++ T2). rewrite app_assoc. auto. Qed.

Lemma fine_bind {A C} T (P : A -> Prop) (Q : C -> Prop) r k :
  fine T P r -> (forall T' st e, state_ok (T ++ T') st -> P e -> fine (T ++ T') Q (k st e)) -> fine T Q (ubind r k).
Proof. intros (st & e & T' & -> & H & K) Hk. cbn [ubind]. eapply fine_more, Hk; eassumption. Qed.

Definition good (un : ustate -> gty -> addr -> json -> ures (option uerr)) (t : gty) (j : json) : Prop :=
  forall T st a, state_ok T st -> nth_error T a = Some (Var t) -> fine T any (un st t a j).

(** ** The loops *)

Section Loops.
Context (un : ustate -> gty -> addr -> json -> ures (option uerr)).

Lemma un_elems_ok t js : (forall j, In j js -> good un t j) -> forall l T st, state_ok T st ->
  Forall (fun a => nth_error T a = Some (Var t)) l -> (length js <= length l)%nat -> fine T any (un_elems un st t l js).
Proof.
  induction js as [|j js IH]; intros Hg l T st H F L; [destruct l; (apply fine_here; [exact H|exact Logic.I])|].
  destruct l as [|a l]; [simpl in L; lia|]. inversion F as [|? ? E F']; subst. cbn [un_elems].
  eapply fine_bind; [apply Hg; [left; reflexivity|exact H|exact E]|]. intros T' st1 e H1 _. destruct e; [apply fine_here; [exact H1|exact Logic.I]|].
  apply IH; [intros; apply Hg; right; assumption|exact H1| |simpl in L; lia]. eapply Forall_impl; [|exact F']. intros x Ex. apply nth_error_app_l, Ex.
Qed.

Lemma un_members_ok t kvs : proper t -> (forall k j, In (k, j) kvs -> good un t j) -> forall d T st, state_ok T st ->
  nth_error T d = Some (Data t) -> fine T any (un_members un st t d kvs).
Proof.
  intros Hp. induction kvs as [|[k j] kvs IH]; intros Hg d T st H E; [apply fine_here; [exact H|exact Logic.I]|].
  cbn [un_members]. destruct H as [H Q]. destruct (zalloc_ok env Lay t Hp T _ H) as (T1 & H1 & E1). destruct (zalloc t (u_mem st)) as [m1 tmp]. cbn [fst snd] in *.
  apply (fine_more T T1). eapply fine_bind; [apply (Hg k j (or_introl eq_refl)); [split; [exact H1|exact Q]|exact E1]|].
  intros T' st1 e [H2 Q2] _. destruct e; [apply fine_here; [split; [exact H2|exact Q2]|exact Logic.I]|].
  destruct (vcopy_ok env Lay t Hp _ _ tmp H2 (nth_error_app_l _ _ _ _ E1)) as (T3 & H3 & E3). destruct (vcopy t tmp (u_mem st1)) as [m2 b]. cbn [fst snd] in *.
  apply (fine_more _ T3).
  assert (Ed : nth_error (((T ++ T1) ++ T') ++ T3) d = Some (Data t)) by (repeat apply nth_error_app_l; exact E).
  apply IH; [intros; eapply Hg; right; eassumption| |exact Ed]. split; [|exact Q2]. cbn [u_mem with_mem].
  destruct (mok_cell _ _ _ _ _ _ H3 Ed) as (c & Ec & C). rewrite Ec. inversion C; subst. eapply mok_write; [exact H3|exact Ed|exact Logic.I|].
  constructor. apply Forall_forall. intros [k' x] I. cbn [snd]. apply sm_add_in in I as [I|I]; [injection I as <- <-; exact E3|].
  match goal with F : Forall _ kvs0 |- _ => rewrite Forall_forall in F; exact (F _ I) end.
Qed.

(** Deprecated-by names not visited yet. *)
Definition tags (fs : list (finfo * gty)) : list bytes :=
  flat_map (fun f => match fi_deprecated_by (fst f) with Some k => [k] | None => [] end) fs.
Definition left (fs : list (finfo * gty)) (visited : list bytes) : nat :=
  length (filter (fun k => negb (in_strings k visited)) (tags fs)).

Lemma left_le fs v v' : incl v v' -> (left fs v' <= left fs v)%nat.
Proof.
  intros I. unfold left. induction (tags fs) as [|k l IH]; [simpl; lia|]. cbn [filter].
  destruct (in_strings k v) eqn:E.
  - assert (in_strings k v' = true) as -> by (apply in_strings_iff, I, in_strings_iff, E). cbn [negb]. exact IH.
  - cbn [negb]. destruct (in_strings k v'); cbn [negb]; simpl; lia.
Qed.

Lemma left_lt fs v k : In k (tags fs) -> in_strings k v = false -> (left fs (k :: v) < left fs v)%nat.
Proof.
  intros I N. unfold left. induction (tags fs) as [|x l IH]; [destruct I|]. cbn [filter].
  assert (L : (length (filter (fun x => negb (in_strings x (k :: v))) l) <= length (filter (fun x => negb (in_strings x v)) l))%nat).
  { clear. induction l as [|y l IH]; [simpl; lia|]. cbn [filter]. destruct (in_strings y v) eqn:E.
    - assert (in_strings y (k :: v) = true) as -> by (apply in_strings_iff; right; apply in_strings_iff, E). exact IH.
    - cbn [negb]. destruct (in_strings y (k :: v)); cbn [negb length]; lia. }
  destruct I as [->|I].
  - rewrite N. assert (in_strings k (k :: v) = true) as -> by (apply in_strings_iff; left; reflexivity). cbn [negb length]. lia.
  - specialize (IH I). destruct (in_strings x v) eqn:E.
    + assert (in_strings x (k :: v) = true) as -> by (apply in_strings_iff; right; apply in_strings_iff, E). exact IH.
    + cbn [negb]. destruct (in_strings x (k :: v)); cbn [negb length]; lia.
Qed.

Lemma left_all fs v : (left fs v <= length fs)%nat.
Proof.
  unfold left. transitivity (length (tags fs)); [induction (tags fs) as [|x l IH]; [simpl; lia|cbn [filter]; destruct (negb _); simpl; lia]|]. unfold tags. induction fs as [|f fs IH]; [simpl; lia|]. cbn [flat_map].
  rewrite app_length. destruct (fi_deprecated_by (fst f)); simpl; lia.
Qed.

Lemma set_field_ok fs j : (forall i t, In (i, t) fs -> good un t j) -> forall fuel key visited l T st, state_ok T st ->
  Forall2 (fun a f => nth_error T a = Some (Var (snd f))) l fs ->
  (In key (tags fs) /\ (1 + left fs visited <= fuel)%nat \/ (2 + left fs visited <= fuel)%nat) ->
  fine T (fun r => incl visited (fst r)) (set_field locate un fuel st visited fs l key j).
Proof.
  intros Hg. induction fuel as [|fuel IH]; intros key visited l T st H F Hf; [lia|]. cbn [set_field].
  destruct (in_strings key visited) eqn:V; [apply fine_here; [exact H|cbn [fst]; apply incl_refl]|].
  assert (Hf' : (1 + left fs (key :: visited) <= fuel)%nat).
  { destruct Hf as [[I Hf]|Hf]; [pose proof (left_lt fs visited key I V); lia|]. pose proof (left_le fs visited (key :: visited) ltac:(intros x Ix; right; exact Ix)). lia. }
  clear Hf V.
  assert (Hi : forall i, In i (locate fs key) -> (i < length fs)%nat) by (intros; eapply Hlocate; eassumption).
  revert Hi Hf' T st H F. generalize (incl_tl key (incl_refl visited)). generalize (key :: visited). generalize (locate fs key). intros idx.
  induction idx as [|i idx IHi]; intros v Iv Hi Hf' T st H F; [apply fine_here; [exact H|exact Iv]|].
  destruct (nth_error fs i) as [[info t]|] eqn:Ei; [|apply nth_error_None in Ei; specialize (Hi i (or_introl eq_refl)); lia].
  destruct (Forall2_nth _ _ _ _ _ F Ei) as (a & Ea & Ta). cbn [snd] in Ta. rewrite Ea.
  eapply fine_bind; [apply (Hg info t); [eapply nth_error_In; exact Ei|exact H|exact Ta]|]. intros T1 st1 e H1 _.
  destruct e; [apply fine_here; [exact H1|exact Iv]|].
  assert (F1 : Forall2 (fun a f => nth_error (T ++ T1) a = Some (Var (snd f))) l fs) by (apply F2_app_l, F).
  destruct (fi_deprecated_by info) as [other|] eqn:D.
  - eapply fine_bind.
    { apply (IH other v l (T ++ T1) st1 H1 F1). left. split; [|exact Hf']. unfold tags. apply in_flat_map. exists (info, t). split; [eapply nth_error_In; exact Ei|]. cbn [fst]. rewrite D. left. reflexivity. }
    intros T2 st2 [v2 e2] H2 Iv2. cbn [fst snd] in *. destruct e2; [apply fine_here; [exact H2|cbn [fst]; eapply incl_tran; eassumption]|].
    apply IHi; [eapply incl_tran; eassumption|intros; apply Hi; right; assumption| |exact H2|apply F2_app_l, F1].
    pose proof (left_le fs v v2 Iv2). lia.
  - apply IHi; [exact Iv|intros; apply Hi; right; assumption|exact Hf'|exact H1|exact F1].
Qed.

Lemma un_fields_ok fs kvs : (forall k j, In (k, j) kvs -> forall i t, In (i, t) fs -> good un t j) -> forall l T st errs, state_ok T st ->
  Forall2 (fun a f => nth_error T a = Some (Var (snd f))) l fs -> fine T any (un_fields locate un st fs l kvs errs).
Proof.
  induction kvs as [|[k j] kvs IH]; intros Hg l T st errs H F; [apply fine_here; [exact H|exact Logic.I]|]. cbn [un_fields].
  eapply fine_bind; [eapply set_field_ok; [exact (Hg k j (or_introl eq_refl))|exact H|exact F|right; pose proof (left_all fs []); lia]|].
  intros T1 st1 r H1 _. apply IH; [intros; eapply Hg; [right; eassumption|eassumption]|exact H1|apply F2_app_l, F].
Qed.
End Loops.

(** ** Scalars *)

Definition fits (u : bool) (t : gty) : Prop := no_methods t /\ (u = true -> no_unsigned t).
Definition calm (u : bool) (j : json) : Prop := loose outer j /\ (u = false -> without_bools_and_floats j).
Definition scalar (j : json) : Prop := match j with JBool _ | JInt _ | JFloat _ _ | JString _ => True | _ => False end.

Definition step_fine (T : list vty) (t : gty) (s : step) : Prop :=
  match s with
  | Write c => not_struct c /\ cell_ok T c (Var t)
  | Into t' => t = TPtr t'
  | First t' => t = TSlice t'
  | Panic => False
  | Keep | Fail _ => True
  end.

Lemma step_scalar_fine u T t j : scalar j -> fits u t -> calm u j -> step_fine T t (step_scalar match_us match_eu to_bool parse_time j t).
Proof.
  intros S [M U] [_ B].
  assert (HM : t <> TMethods) by (intros ->; apply (proj1 M); constructor).
  assert (HS : forall n f, t <> TSer n f) by (intros n f ->; apply (proj2 M n f); constructor).
  assert (HU : forall b, t = TInt (Unsigned b) -> match j with JBool _ | JFloat _ _ => False | _ => True end).
  { intros b ->. destruct u; [exfalso; eapply U; [reflexivity|constructor]|]. specialize (B eq_refl). destruct B as [B1 B2].
    destruct j; try exact Logic.I; [eapply B1; constructor|eapply B2; constructor]. }
  destruct j; try destruct S; cbn [step_scalar]; destruct t; try (exfalso; apply HM; reflexivity); try (exfalso; eapply HS; reflexivity);
    unfold step_int, step_bool, step_float, step_string;
    repeat match goal with
           | |- context [match ?k with KDict => _ | _ => _ end] => destruct k
           | |- context [match ?k with Signed _ => _ | Unsigned _ => _ end] => destruct k
           end;
    try (exfalso; eapply HU; reflexivity);
    try (split; [exact Logic.I|constructor]; fail); try exact Logic.I; try reflexivity;
    try (destruct s; cbn [step_fine]; try exact Logic.I; try (split; [exact Logic.I|constructor]; fail);
         match goal with |- context [match ?x with Some _ => _ | None => _ end] => destruct x end; cbn [step_fine]; try exact Logic.I; split; [exact Logic.I|constructor]).
Qed.

(** ** unmarshalValue *)

Context (u : bool).
Hypothesis Hfits : forall n, fits u (TStruct n (env n)).

Lemma fits_part t t' : (forall x, part x t' -> part x t) -> fits u t -> fits u t'.
Proof. intros H [[M M'] U]. split; [split; [intros P; apply M, H, P|intros m f P; apply (M' m f), H, P]|intros E b P; exact (U E b (H _ P))]. Qed.
Lemma fits_named t : fits u t -> fits u (named t).
Proof. intros H. destruct t; try exact H. apply Hfits. Qed.
Lemma fits_ptr t : fits u (TPtr t) -> fits u (named t).
Proof. intros H. apply fits_named. eapply fits_part; [|exact H]. intros x P. constructor. exact P. Qed.
Lemma fits_slice t : fits u (TSlice t) -> fits u (named t).
Proof. intros H. apply fits_named. eapply fits_part; [|exact H]. intros x P. constructor. exact P. Qed.
Lemma fits_map t : fits u (TMap t) -> fits u (named t).
Proof. intros H. apply fits_named. eapply fits_part; [|exact H]. intros x P. constructor. exact P. Qed.
Lemma fits_array n t : fits u (TArray n t) -> fits u t.
Proof. intros H. eapply fits_part; [|exact H]. intros x P. constructor. exact P. Qed.
Lemma fits_field n fs i t : fits u (TStruct n fs) -> In (i, t) fs -> fits u t.
Proof. intros H I. eapply fits_part; [|exact H]. intros x P. econstructor; eassumption. Qed.

Lemma calm_part j j' : (forall x, subvalue x j' -> subvalue x j) -> calm u j -> calm u j'.
Proof.
  intros H [R B]. split; [eapply loose_part; eassumption|]. intros E. destruct (B E) as [B1 B2].
  split; [intros b S; exact (B1 b (H _ S))|intros f bit S; exact (B2 f bit (H _ S))].
Qed.
Lemma calm_elem l j : calm u (JArray l) -> In j l -> calm u j.
Proof. intros H I. eapply calm_part; [|exact H]. intros x S. econstructor; eassumption. Qed.
Lemma calm_member nid kvs k j : calm u (JDict nid kvs) -> In (k, j) kvs -> calm u j.
Proof. intros H I. eapply calm_part; [|exact H]. intros x S. econstructor; eassumption. Qed.

Definition points (t : gty) (a : addr) (m : mem) : Prop :=
  match t with TPtr _ => exists b, nth_error m a = Some (VPtr (Some b)) | _ => True end.

Lemma std_fine T st t a j k : proper t -> state_ok T st -> nth_error T a = Some (Var t) ->
  (forall T' st', state_ok (T ++ T') st' -> points t a (u_mem st') -> fine (T ++ T') any (k st')) ->
  fine T any (let '(m1, d) := indirect t a (u_mem st) in
              match d with
              | Some b => let '(m2, e) := call_std time_json std_ok m1 b (Printer.String_ j) in UOk (with_mem st m2) e
              | None => k (with_mem st m1)
              end).
Proof.
  intros Hp [H Q] E Hk. assert (Hi : inner t \/ exists n fs, t = TStruct n fs) by (destruct t; cbn [inner]; eauto).
  destruct Hi as [Hi|(n & fs & ->)].
  - assert (Et : named t = t) by (destruct t; try reflexivity; destruct Hp).
    destruct (indirect_ok t Hi T _ a H) as (T1 & H1 & S1 & _ & P1); [rewrite Et; exact E|].
    destruct (indirect t a (u_mem st)) as [m1 d]. cbn [fst snd] in *. destruct d as [b|].
    + pose proof (call_std_ok _ _ b (Printer.String_ j) H1 (S1 b eq_refl)) as H2. destruct (call_std _ _ m1 b _) as [m2 e]. cbn [fst] in H2.
      apply (fine_ok T T1); [split; [exact H2|exact Q]|exact Logic.I].
    + apply (fine_more T T1), Hk; [split; [exact H1|exact Q]|exact P1].
  - cbn [Unmarshal.indirect]. apply (fine_more T []), Hk; [rewrite app_nil_r; split; [exact H|exact Q]|exact Logic.I].
Qed.

(** val.Elem() *)
Lemma elem_fine n T st t a j : good (unm n) (named t) j -> state_ok T st -> nth_error T a = Some (Var (TPtr t)) -> points (TPtr t) a (u_mem st) ->
  fine T any (match nth_error (u_mem st) a with Some (VPtr (Some b)) => unm n st (resolve t) b j | _ => UPanic end).
Proof.
  intros Hg H E [b Eb]. rewrite Eb. destruct (mok_cell _ _ _ _ _ _ (proj1 H) E) as (c & Ec & C). rewrite Eb in Ec. injection Ec as <-. inversion C; subst.
  apply Hg; assumption.
Qed.

Lemma write_fine T st t a c : state_ok T st -> nth_error T a = Some (Var t) -> not_struct c -> cell_ok T c (Var t) -> fine T any (UOk (with_mem st (mwrite (u_mem st) a c)) (@None uerr)).
Proof. intros [H Q] E N C. apply fine_here; [|exact Logic.I]. split; [|exact Q]. eapply mok_write; eassumption. Qed.

Lemma resize_ok n t make T m a : proper (TSlice t) -> mok T m -> nth_error T a = Some (Var (TSlice t)) -> (make = true \/ (0 < n)%nat) ->
  exists T', mok (T ++ T') (fst (resize n (named t) a m make)) /\ length (snd (resize n (named t) a m make)) = n
    /\ Forall (fun x => nth_error (T ++ T') x = Some (Var (named t))) (snd (resize n (named t) a m make)).
Proof.
  intros Hp H E Hn.
  assert (Fr : exists T', mok (T ++ T') (fst (let '(m1, l) := times n (zalloc (named t)) m in (mwrite m1 a (VSlice (Some (l, n))), l)))
    /\ length (snd (let '(m1, l) := times n (zalloc (named t)) m in (mwrite m1 a (VSlice (Some (l, n))), l))) = n
    /\ Forall (fun x => nth_error (T ++ T') x = Some (Var (named t))) (snd (let '(m1, l) := times n (zalloc (named t)) m in (mwrite m1 a (VSlice (Some (l, n))), l)))).
  { destruct (times_ok env Lay T m n (zalloc (named t)) (named t)) as (T1 & H1 & F1 & L1); [intros; apply zalloc_ok; [apply inner_named, proper_slice, Hp|assumption]|exact H|].
    destruct (times n (zalloc (named t)) m) as [m1 l]. cbn [fst snd] in *. exists T1. split; [|split; [exact L1|exact F1]].
    eapply mok_write; [exact H1|apply nth_error_app_l, E|exact Logic.I|]. constructor; [exact F1|exact (Nat.eq_le_incl _ _ (eq_sym L1))]. }
  unfold resize. destruct (mok_cell _ _ _ _ _ _ H E) as (c & Ec & C). rewrite Ec. inversion C; subst.
  - assert (make || (0 <? n)%nat = true) as ->; [|exact Fr]. destruct Hn as [->|Hn]; [reflexivity|]. destruct make; [reflexivity|]. cbn [orb]. apply Nat.ltb_lt. exact Hn.
  - destruct (Nat.ltb_spec (length l) n) as [L|L]; [exact Fr|]. exists []. rewrite app_nil_r. cbn [fst snd]. split; [|split].
    + eapply mok_write; [exact H|exact E|exact Logic.I|]. constructor; assumption.
    + apply firstn_length_le. exact L.
    + match goal with F : Forall _ l |- _ => rewrite <- (firstn_skipn n l) in F; apply Forall_app in F; apply F end.
Qed.

Lemma map_data_ok T m a t t0 : (t0 = TMap t \/ t0 = TMapOther t) -> mok T m -> nth_error T a = Some (Var t0) ->
  exists T', mok (T ++ T') (fst (map_data a m)) /\ nth_error (T ++ T') (snd (map_data a m)) = Some (Data (named t)).
Proof.
  intros Ht H E. unfold map_data. destruct (mok_cell _ _ _ _ _ _ H E) as (c & Ec & C). rewrite Ec.
  assert (N : exists T', mok (T ++ T') (mwrite (m ++ [VMapData []]) a (VMap (Some (length m)))) /\ nth_error (T ++ T') (length m) = Some (Data (named t))).
  { exists [Data (named t)]. assert (X : nth_error (T ++ [Data (named t)]) (length m) = Some (Data (named t))) by (apply (mok_end env Lay), H). split; [|exact X].
    eapply mok_write; [apply mok_snoc; [exact H|constructor; constructor]|apply nth_error_app_l, E|exact Logic.I|]. destruct Ht as [->| ->]; constructor; exact X. }
  destruct Ht as [->| ->]; inversion C; subst; cbn [fst snd]; try exact N; exists []; rewrite app_nil_r; cbn [fst snd]; auto.
Qed.

Lemma scalar_good j : scalar j -> calm u j -> forall t, inner t -> fits u (named t) -> exists N, forall n, (N <= n)%nat -> good (unm n) (named t) j.
Proof.
  intros Sj Cj t.
  assert (G : forall t, proper t -> fits u t ->
     (forall t', t = TPtr t' \/ t = TSlice t' -> exists N, forall n, (N <= n)%nat -> good (unm n) (named t') j) ->
     exists N, forall n, (N <= n)%nat -> good (unm n) t j).
  { clear t. intros t Hp Hf Hsub.
    assert (Hsub' : exists N, forall n, (N <= n)%nat -> forall t', t = TPtr t' \/ t = TSlice t' -> good (unm n) (named t') j).
    { destruct t; try (exists 0%nat; intros ? ? ? [D|D]; discriminate).
      - destruct (Hsub t (or_intror eq_refl)) as [N HN]. exists N. intros n L t' [D|D]; [discriminate|]. injection D as <-. apply HN, L.
      - destruct (Hsub t (or_introl eq_refl)) as [N HN]. exists N. intros n L t' [D|D]; [|discriminate]. injection D as <-. apply HN, L. }
    destruct Hsub' as [N HN]. exists (S N). intros n L T st a H E. destruct n as [|n]; [lia|]. specialize (HN n ltac:(lia)).
    pose (body := fun st' : ustate => match step_scalar match_us match_eu to_bool parse_time j t with
        | Write c => UOk (with_mem st' (mwrite (u_mem st') a c)) None
        | Keep => UOk st' None
        | Into t' => match nth_error (u_mem st') a with
                     | Some (VPtr (Some b)) => unm n st' (resolve t') b j
                     | _ => UPanic
                     end
        | First t' =>
            let '(m1, l) := resize 1 (resolve t') a (u_mem st') false in
            match l with
            | b :: _ => unm n (with_mem st' m1) (resolve t') b j
            | [] => UPanic
            end
        | Fail e => UOk st' (Some e)
        | Panic => UPanic
        end : ures (option uerr)).
    assert (K : forall T' st', state_ok (T ++ T') st' -> points t a (u_mem st') -> fine (T ++ T') any (body st')).
    { unfold body. intros T' st' H' P'. assert (E' : nth_error (T ++ T') a = Some (Var t)) by (apply nth_error_app_l; exact E).
      pose proof (step_scalar_fine u (T ++ T') t j Sj Hf Cj) as F. destruct (step_scalar _ _ _ _ j t) as [c| |t'|t'|e|]; cbn [step_fine] in F.
      - destruct F. eapply write_fine; eassumption.
      - apply fine_here; [exact H'|exact Logic.I].
      - subst t. apply elem_fine; [apply HN; left; reflexivity|assumption..].
      - subst t. change (resolve t') with (named t').
        destruct (resize_ok 1 t' false (T ++ T') (u_mem st') a Hp (proj1 H') E' (or_intror Nat.lt_0_1)) as (T1 & H1 & L1 & F1).
        destruct (resize 1 (named t') a (u_mem st') false) as [m1 l]. cbn [fst snd] in *. destruct l as [|b l]; [discriminate|]. inversion F1; subst.
        apply (fine_more _ T1). apply HN; [right; reflexivity|split; [exact H1|exact (proj2 H')]|assumption].
      - apply fine_here; [exact H'|exact Logic.I].
      - destruct F. }
    cbn [Unmarshal.unm]. destruct j; try destruct Sj; [exact (std_fine T st t a _ body Hp H E K)..|].
    pose proof (std_fine T st t a (JString s) body Hp H E K) as Z. destruct t; try exact Z.
    apply (fine_more T []). refine (K [] st _ _); [rewrite app_nil_r; exact H|exact Logic.I]. }
  induction t as [t Ht|t IH|k t IH|t IH|t IH|t IH|m fs IH] using gty_ind'; intros Hp Hf.
  - destruct t; try destruct Ht; cbn [SpecUnmarshal.named] in *; (apply G; [first [exact Hp|apply Henv]|exact Hf|intros ? [D|D]; discriminate]).
  - apply G; [exact Hp|exact Hf|]. intros t' [D|D]; [discriminate|]. injection D as <-. apply IH; [apply proper_slice, Hp|apply fits_slice, Hf].
  - apply G; [exact Hp|exact Hf|intros ? [D|D]; discriminate].
  - apply G; [exact Hp|exact Hf|intros ? [D|D]; discriminate].
  - apply G; [exact Hp|exact Hf|intros ? [D|D]; discriminate].
  - apply G; [exact Hp|exact Hf|]. intros t' [D|D]; [|discriminate]. injection D as <-. apply IH; [apply proper_ptr, Hp|apply fits_ptr, Hf].
  - destruct Hp.
Qed.

Lemma proper_cases t : proper t -> (inner t /\ named t = t) \/ exists n, t = TStruct n (env n).
Proof. intros H. destruct t; try (left; split; [exact H|reflexivity]); [right; destruct H as [-> _]; eauto|destruct H]. Qed.

Definition unmarshals (j : json) : Prop := calm u j -> forall t, proper t -> fits u t -> exists N, forall n, (N <= n)%nat -> good (unm n) t j.

Lemma array_good l : Forall unmarshals l -> unmarshals (JArray l).
Proof.
  intros IH Cj.
  assert (El : forall t, proper t -> fits u t -> exists N, forall n, (N <= n)%nat -> forall j, In j l -> good (unm n) t j).
  { intros t Hp Hf. apply common_bound. intros j I. rewrite Forall_forall in IH. apply IH; [exact I|eapply calm_elem; eassumption|exact Hp|exact Hf]. }
  assert (G : forall t, proper t -> fits u t ->
     (forall t', t = TPtr t' -> is_list_kind t' = true -> exists N, forall n, (N <= n)%nat -> good (unm n) (named t') (JArray l)) ->
     exists N, forall n, (N <= n)%nat -> good (unm n) t (JArray l)).
  { intros t Hp Hf Hptr.
    assert (Hsub : exists N, forall n, (N <= n)%nat ->
       match t with
       | TSlice t' => forall j, In j l -> good (unm n) (named t') j
       | TArray _ t' => forall j, In j l -> good (unm n) t' j
       | TPtr t' => is_list_kind t' = true -> good (unm n) (named t') (JArray l)
       | _ => True
       end).
    { destruct t; try (exists 0%nat; intros; exact Logic.I).
      - apply El; [apply inner_named, proper_slice, Hp|apply fits_slice, Hf].
      - apply El; [exact Hp|eapply fits_array, Hf].
      - destruct (is_list_kind t) eqn:K; [|exists 0%nat; intros; discriminate]. destruct (Hptr t eq_refl K) as [N HN]. exists N. intros n L _. apply HN, L. }
    destruct Hsub as [N HN]. exists (S N). intros n L T st a H E. destruct n as [|n]; [lia|]. specialize (HN n ltac:(lia)). clear El Hptr IH.
    match goal with |- fine T any (Unmarshal.unm _ _ _ _ _ _ _ _ (S n) st t a ?j) => set (j0 := j) in * end.
    pose (body := fun st' : ustate =>
       match t with
       | TJsonVal KArray =>
           match nth_error (u_mem st') a with
           | Some (VJson (Some (JArray old))) => UOk (with_mem st' (mwrite (u_mem st') a (VJson (Some (JArray (array_add old l)))))) None
           | _ => UPanic
           end
       | TJsonPtr KArray | TJsonObj => UOk (with_mem st' (mwrite (u_mem st') a (VJson (Some j0)))) None
       | TJsonVal _ | TJsonPtr _ => UOk st' (Some EMismatch)
       | TString | TTri => UOk (with_mem st' (mwrite (u_mem st') a (VString (Printer.String_ j0)))) None
       | TPtr t' => if is_list_kind t' then match nth_error (u_mem st') a with
                                            | Some (VPtr (Some b)) => unm n st' (resolve t') b j0
                                            | _ => UPanic
                                            end else UOk st' (Some EMismatch)
       | TIface => UOk (with_mem st' (mwrite (u_mem st') a (VIface (Some (DynJsons l))))) None
       | TMethods | TSer _ _ => UPanic
       | TArray size t' =>
           if negb (Nat.eqb size (length l)) then UOk st' (Some EArrayLength)
           else un_elems (unm n) st' t' (elems_of a (u_mem st')) l
       | TSlice t' =>
           let '(m1, vars) := resize (length l) (resolve t') a (u_mem st') true in
           un_elems (unm n) (with_mem st' m1) (resolve t') vars l
       | _ => UOk st' (Some EMismatch)
       end : ures (option uerr)).
    assert (K : forall T' st', state_ok (T ++ T') st' -> points t a (u_mem st') -> fine (T ++ T') any (body st')).
    { unfold body. intros T' st' H' P'. assert (E' : nth_error (T ++ T') a = Some (Var t)) by (apply nth_error_app_l; exact E).
      destruct t; try (apply fine_here; [exact H'|exact Logic.I]); try (eapply write_fine; [exact H'|exact E'|exact Logic.I|constructor]).
      - destruct (resize_ok (length l) t true _ _ a Hp (proj1 H') E' (or_introl eq_refl)) as (T1 & H1 & L1 & F1). change (resolve t) with (named t).
        destruct (resize (length l) (named t) a (u_mem st') true) as [m1 vars]. cbn [fst snd] in *. apply (fine_more _ T1).
        apply un_elems_ok; [exact HN|split; [exact H1|exact (proj2 H')]|exact F1|lia].
      - destruct (Nat.eqb_spec n0 (length l)) as [->|Ne]; cbn [negb]; [|apply fine_here; [exact H'|exact Logic.I]].
        unfold elems_of. destruct (mok_cell _ _ _ _ _ _ (proj1 H') E') as (c & Ec & C). rewrite Ec. inversion C; subst.
        apply un_elems_ok; [exact HN|exact H'|assumption|lia].
      - destruct (is_list_kind t) eqn:Kt; [|apply fine_here; [exact H'|exact Logic.I]]. apply elem_fine; [apply HN; reflexivity|assumption..].
      - exfalso. apply (proj1 (proj1 Hf)). constructor.
      - destruct k; try (apply fine_here; [exact H'|exact Logic.I]). eapply write_fine; [exact H'|exact E'|exact Logic.I|constructor].
      - destruct k; try (apply fine_here; [exact H'|exact Logic.I]).
        destruct (mok_cell _ _ _ _ _ _ (proj1 H') E') as (c & Ec & C). rewrite Ec. inversion C as [| | | | | | | | | | | | | | | | | | | | |j k Hk| | |]; subst.
        destruct j; try discriminate. eapply write_fine; [exact H'|exact E'|exact Logic.I|constructor; reflexivity].
      - exfalso. eapply (proj2 (proj1 Hf)). constructor. }
    exact (std_fine T st t a j0 body Hp H E K). }
  intros t Hp Hf. apply G; [exact Hp|exact Hf|]. intros t' -> Kt. apply G; [apply inner_named, proper_ptr, Hp|apply fits_ptr, Hf|].
  intros t'' D. destruct t'; discriminate.
Qed.

Lemma save_fine nid T st a t : (0 < nid -> ~ outer nid) -> state_ok T st -> fine T any (if 0 <? nid then save_node_value st nid a t else UOk st tt).
Proof.
  intros HD [H Q]. destruct (Z.ltb_spec 0 nid) as [P|_]; [|apply fine_here; [split; assumption|exact Logic.I]]. unfold save_node_value.
  specialize (HD P).
  destruct (find_node (u_sess st) nid) as [nv|] eqn:F.
  - rewrite (proj2 (Q _ _ F) HD). cbn [set_targets]. apply fine_here; [split; [exact H|apply quiet_put_value; assumption]|exact Logic.I].
  - apply fine_here; [split; [exact H|apply quiet_put_value; assumption]|exact Logic.I].
Qed.

Lemma dict_good nid kvs : Forall (fun kv => unmarshals (snd kv)) kvs -> unmarshals (JDict nid kvs).
Proof.
  intros IH Cj.
  assert (El : forall t, proper t -> fits u t -> exists N, forall n, (N <= n)%nat -> forall kv, In kv kvs -> good (unm n) t (snd kv)).
  { intros t Hp Hf. apply common_bound. intros [k j] I. rewrite Forall_forall in IH. apply (IH _ I); [eapply calm_member; eassumption|exact Hp|exact Hf]. }
  assert (G : forall t, proper t -> fits u t ->
     (forall t', t = TPtr t' -> is_dict_kind t' = true -> exists N, forall n, (N <= n)%nat -> good (unm n) (named t') (JDict nid kvs)) ->
     exists N, forall n, (N <= n)%nat -> good (unm n) t (JDict nid kvs)).
  { intros t Hp Hf Hptr.
    assert (Hsub : exists N, forall n, (N <= n)%nat ->
       match t with
       | TMap t' => forall kv, In kv kvs -> good (unm n) (named t') (snd kv)
       | TStruct _ fs => forall i kv, In i fs -> In kv kvs -> good (unm n) (snd i) (snd kv)
       | TPtr t' => is_dict_kind t' = true -> good (unm n) (named t') (JDict nid kvs)
       | _ => True
       end).
    { destruct t; try (exists 0%nat; intros; exact Logic.I).
      - apply El; [apply inner_named, proper_map, Hp|apply fits_map, Hf].
      - destruct (is_dict_kind t) eqn:K; [|exists 0%nat; intros; discriminate]. destruct (Hptr t eq_refl K) as [N HN]. exists N. intros n L _. apply HN, L.
      - destruct (common_bound (fun i n => forall kv, In kv kvs -> good (unm n) (snd i) (snd kv)) fs) as [N HN].
        { intros [i t] I. apply El; [eapply proper_fields; eassumption|eapply fits_field; eassumption]. }
        exists N. intros n L i kv Ii Ik. exact (HN n L i Ii kv Ik). }
    destruct Hsub as [N HN]. exists (S N). intros n L T st a H E. destruct n as [|n]; [lia|]. specialize (HN n ltac:(lia)). clear El Hptr IH.
    match goal with |- fine T any (Unmarshal.unm _ _ _ _ _ _ _ _ (S n) st t a ?j) => set (j0 := j) in * end.
    pose (body := fun st' : ustate =>
            match t with
            | TJsonVal KDict =>
                match nth_error (u_mem st') a with
                | Some (VJson (Some (JDict id old))) => UOk (with_mem st' (mwrite (u_mem st') a (VJson (Some (JDict id (dict_update old j0)))))) None
                | _ => UPanic
                end
            | TJsonPtr KDict | TJsonObj => UOk (with_mem st' (mwrite (u_mem st') a (VJson (Some j0)))) None
            | TJsonVal _ | TJsonPtr _ => UOk st' (Some EMismatch)
            | TString | TTri => UOk (with_mem st' (mwrite (u_mem st') a (VString (Printer.String_ j0)))) None
            | TMap t' =>
                let '(m1, d) := map_data a (u_mem st') in
                un_members (unm n) (with_mem st' m1) (resolve t') d kvs
            | TMapOther _ => let '(m1, _) := map_data a (u_mem st') in UOk (with_mem st' m1) (Some EMapKey)
            | TStruct _ fs => un_fields locate (unm n) st' fs (fields_of a (u_mem st')) kvs []
            | TIface | TMethods => UOk st' (Some EInterface)
            | TSer _ f => un_serial env (unm n) st' f a (JDict nid kvs)
            | TPtr t' => if is_dict_kind t' then match nth_error (u_mem st') a with
                                            | Some (VPtr (Some b)) => unm n st' (resolve t') b j0
                                            | _ => UPanic
                                            end else UOk st' (Some EMismatch)
            | _ => UOk st' (Some EMismatch)
            end : ures (option uerr)).
    assert (K : forall T0 T' st', nth_error T0 a = Some (Var t) -> state_ok (T0 ++ T') st' -> points t a (u_mem st') -> fine (T0 ++ T') any (body st')).
    { unfold body. clear T st H E. intros T T' st' E H' P'. assert (E' : nth_error (T ++ T') a = Some (Var t)) by (apply nth_error_app_l; exact E).
      destruct t; try (apply fine_here; [exact H'|exact Logic.I]); try (eapply write_fine; [exact H'|exact E'|exact Logic.I|constructor]).
      - destruct (map_data_ok _ _ a t _ (or_introl eq_refl) (proj1 H') E') as (T1 & H1 & E1). change (resolve t) with (named t).
        destruct (map_data a (u_mem st')) as [m1 d]. cbn [fst snd] in *. apply (fine_more _ T1).
        apply un_members_ok; [apply inner_named, proper_map, Hp|intros k j I; exact (HN (k, j) I)|split; [exact H1|exact (proj2 H')]|exact E1].
      - destruct (map_data_ok _ _ a t _ (or_intror eq_refl) (proj1 H') E') as (T1 & H1 & E1).
        destruct (map_data a (u_mem st')) as [m1 d]. cbn [fst snd] in *. apply (fine_ok _ T1); [split; [exact H1|exact (proj2 H')]|exact Logic.I].
      - destruct (is_dict_kind t) eqn:Kt; [|apply fine_here; [exact H'|exact Logic.I]]. apply elem_fine; [apply HN; reflexivity|assumption..].
      - unfold fields_of. destruct (mok_cell _ _ _ _ _ _ (proj1 H') E') as (c & Ec & C). rewrite Ec. inversion C; subst.
        apply un_fields_ok; [|exact H'|assumption]. intros k j I i t It. exact (HN (i, t) (k, j) It I).
      - destruct k; try (apply fine_here; [exact H'|exact Logic.I]). eapply write_fine; [exact H'|exact E'|exact Logic.I|constructor].
      - destruct k; try (apply fine_here; [exact H'|exact Logic.I]).
        destruct (mok_cell _ _ _ _ _ _ (proj1 H') E') as (c & Ec & C). rewrite Ec. inversion C as [| | | | | | | | | | | | | | | | | | | | |j k Hk| | |]; subst.
        destruct j; try discriminate. eapply write_fine; [exact H'|exact E'|exact Logic.I|constructor; reflexivity].
      - exfalso. eapply (proj2 (proj1 Hf)). constructor. }
    cbn [Unmarshal.unm]. eapply fine_bind; [apply save_fine; [intros P; eapply (proj2 (proj1 Cj)); [exact P|constructor]|exact H]|]. intros T1 st1 _ H1 _.
    assert (E1 : nth_error (T ++ T1) a = Some (Var t)) by (apply nth_error_app_l; exact E).
    exact (std_fine (T ++ T1) st1 t a j0 body Hp H1 E1 (fun T' st' => K (T ++ T1) T' st' E1)). }
  intros t Hp Hf. apply G; [exact Hp|exact Hf|]. intros t' -> Kt. apply G; [apply inner_named, proper_ptr, Hp|apply fits_ptr, Hf|].
  intros t'' D. destruct t'; discriminate.
Qed.

Lemma scalar_any j : scalar j -> unmarshals j.
Proof.
  intros S C t Hp Hf. destruct (proper_cases t Hp) as [[Hi En]|[n ->]].
  - rewrite <- En. apply scalar_good; [exact S|exact C|exact Hi|rewrite En; exact Hf].
  - exact (scalar_good j S C (TNamed n) Logic.I Hf).
Qed.

Theorem unm_good j : unmarshals j.
Proof.
  induction j as [|x|z|f bit|s|l IH|nid kvs IH|n] using json_ind'.
  - intros _ t Hp _. exists 1%nat. intros n L T st a [H Q] E. destruct n as [|n]; [lia|]. cbn [Unmarshal.unm]. apply fine_here; [|exact Logic.I].
    split; [|exact Q]. apply set_zero_ok; assumption.
  - apply scalar_any; exact Logic.I.
  - apply scalar_any; exact Logic.I.
  - apply scalar_any; exact Logic.I.
  - apply scalar_any; exact Logic.I.
  - apply array_good, IH.
  - apply dict_good, IH.
  - intros [R _] t _ _. exists 1%nat. intros k L T st a [H Q] E. destruct k as [|k]; [lia|]. cbn [Unmarshal.unm].
    destruct (set_pointer_loose outer st n a t Q) as (s & -> & Qs); [apply R; constructor|]. apply fine_here; [split; assumption|exact Logic.I].
Qed.
End Total.
