(** C40: what Unmarshal touches, and how it treats the members of a dict. *)
From Verif Require Import Base Strconv SortedMap SortedMapFacts Json SpecJson SpecDict Heap Gotypes Marshal Access AccessFacts Unmarshal SpecUnmarshal UnmFacts UnmTotal UnmMono UnmFrame UnmAlike PropUnmarshal.

Section C40.
Context (env : nat -> list (finfo * gty)) (locate : list (finfo * gty) -> bytes -> list nat).
Context (match_us match_eu : bytes -> bool) (to_bool : bytes -> bool)
  (parse_time : bytes -> option bytes) (time_json : bytes -> option (option bytes)) (std_ok : bytes -> bool).
Notation Unmarshal := (Unmarshal env locate match_us match_eu to_bool parse_time time_json std_ok).
Notation unm := (unm env locate match_us match_eu to_bool parse_time time_json std_ok).
Notation un_fields := (un_fields locate).
Notation set_field := (set_field locate).
Notation start m := {| u_mem := m; u_sess := [] |}.

(** Whatever the value, the keys and the outcome: a variable to which nothing
    leads from the target keeps its value. *)
Theorem C40_touches_only_reachable : forall n m t a j keys m',
  (a < length m)%nat -> (forall x c y, nth_error m x = Some c -> In y (mentions c) -> (y < length m)%nat) ->
  Unmarshal n m t a j keys = TopOk m' \/ (exists e, Unmarshal n m t a j keys = TopErr m' e) ->
  forall x, (x < length m)%nat -> ~ reaches m a x -> nth_error m' x = nth_error m x.
Proof.
  intros n m t a j keys m' La Hm R x Lx Nx.
  assert (G : exists t' j' e st, unm n (start m) t' a j' = UOk st e /\ u_mem st = m').
  { unfold Unmarshal.Unmarshal in R. destruct (match keys with [] => _ | _ => _ end) as [jo|e]; [|destruct R as [R|[e' R]]; discriminate].
    exists (resolve env t), jo. destruct (unm n _ (resolve env t) a jo) as [st [e|]| |]; destruct R as [R|[e' R]]; try discriminate; injection R as <-; eauto. }
  destruct G as (t' & j' & e & st & E & <-).
  assert (C : closed (reaches m a) (length m) m).
  { split; [lia|]. intros y c z Iy Ey Iz. left. destruct Iy as [Iy|Iy]; [eapply reach_step; eassumption|]. apply nth_error_lt in Ey. lia. }
  pose proof (unm_framed env locate match_us match_eu to_bool parse_time time_json std_ok (reaches m a) (length m) n (start m) t' a j') as F.
  rewrite E in F. apply F; [|left; constructor|exact Lx|exact Nx]. split; [exact C|]. intros k nv D. discriminate D.
Qed.

(** A dict into a struct: only what the fields that its member names select
    lead to. *)
Theorem C40_other_fields_keep : forall n m nm fs a l nid kvs m',
  (forall x c y, nth_error m x = Some c -> In y (mentions c) -> (y < length m)%nat) ->
  nth_error m a = Some (VStruct l) -> nid <= 0 ->
  Unmarshal n m (TStruct nm fs) a (JDict nid kvs) [] = TopOk m' \/ (exists e, Unmarshal n m (TStruct nm fs) a (JDict nid kvs) [] = TopErr m' e) ->
  forall x, (x < length m)%nat ->
    (forall k j i b, In (k, j) kvs -> selects locate fs k i -> nth_error l i = Some b -> ~ reaches m b x) ->
    nth_error m' x = nth_error m x.
Proof.
  intros n m nm fs a l nid kvs m' Hm Ea Hn R x Lx Nx.
  unfold Unmarshal.Unmarshal in R. cbn [receiver resolve] in R. destruct n as [|n]; [destruct R as [R|[e R]]; discriminate|].
  cbn [Unmarshal.unm] in R. assert (E0 : (0 <? nid) = false) by (apply Z.ltb_ge; exact Hn). rewrite E0 in R. cbn [ubind indirect] in R.
  change (with_mem (start m) (u_mem (start m))) with (start m) in R. unfold fields_of in R. cbn [u_mem] in R. rewrite Ea in R.
  set (P := fun y => exists k j i b, In (k, j) kvs /\ selects locate fs k i /\ nth_error l i = Some b /\ reaches m b y).
  pose proof (un_fields_framed locate P (length m) (unm n)
    (fun st t a j H Ha => unm_framed env locate match_us match_eu to_bool parse_time time_json std_ok P (length m) n st t a j H Ha) fs l kvs (start m) []) as F.
  destruct (un_fields (unm n) (start m) fs l kvs []) as [st [e|]| |]; destruct R as [R|[e' R]]; try discriminate; injection R as <-.
  all: apply F; [|intros k j i b I Sl Eb; left; exists k, j, i, b; repeat split; try assumption; constructor|exact Lx|intros (k & j & i & b & I & Sl & Eb & Rb); exact (Nx k j i b I Sl Eb Rb)].
  all: split; [|intros k nv D; discriminate D].
  all: split; [cbn [u_mem]; lia|]; intros y c z Iy Ey Iz; left; destruct Iy as [(k & j & i & b & I & Sl & Eb & Rb)|Iy]; [exists k, j, i, b; repeat split; try assumption; eapply reach_step; eassumption|apply nth_error_lt in Ey; cbn [u_mem] in Ey; lia].
Qed.

(** ** Members *)

Definition outcome (r : ures (option uerr)) : utop :=
  match r with
  | UOk st None => TopOk (u_mem st)
  | UOk st (Some e) => TopErr (u_mem st) e
  | UPanic => TopPanic
  | UFuel => TopFuel
  end.

Lemma alike_outcome D r r' : alike D r r' -> outcome r = outcome r'.
Proof. destruct r as [st e| |], r' as [st' e'| |]; try reflexivity; intros H; try destruct H. subst. destruct H as [E _]. cbn. rewrite E. reflexivity. Qed.

Lemma struct_outcome_loose D n m nm fs a l nid kvs : loose D (JDict nid kvs) -> nth_error m a = Some (VStruct l) ->
  Unmarshal (S n) m (TStruct nm fs) a (JDict nid kvs) [] = outcome (un_fields (unm n) (start m) fs l kvs []).
Proof.
  intros R Ea. change (outcome (unm (S n) (start m) (TStruct nm fs) a (JDict nid kvs)) = outcome (un_fields (unm n) (start m) fs l kvs [])).
  apply (alike_outcome D). cbn [Unmarshal.unm].
  assert (G : forall st, u_mem st = m -> quiet D (u_sess st) -> alike D (un_fields (unm n) (with_mem st (u_mem st)) fs (fields_of a (u_mem st)) kvs []) (un_fields (unm n) (start m) fs l kvs [])).
  { intros st E Q. unfold fields_of. rewrite E, Ea. apply un_fields_alike; [|split; [reflexivity|split; [exact Q|apply quiet_nil]]].
    intros k j I. apply unm_alike. eapply loose_member; eassumption. }
  destruct (Z.ltb_spec 0 nid) as [P|_]; [|exact (G (start m) eq_refl (quiet_nil D))].
  refine (G {| u_mem := m; u_sess := put_node [] nid {| nv_value := Some (a, TStruct nm fs); nv_targets := [] |} |} eq_refl _).
  apply quiet_put_value; [apply quiet_nil|]. eapply (proj2 R); [exact P|constructor].
Qed.
Lemma struct_outcome n m nm fs a l nid kvs : references_lead_out (JDict nid kvs) -> nth_error m a = Some (VStruct l) ->
  Unmarshal (S n) m (TStruct nm fs) a (JDict nid kvs) [] = outcome (un_fields (unm n) (start m) fs l kvs []).
Proof. intros R. apply (struct_outcome_loose _ _ _ _ _ _ _ _ _ (loose_out _ R)). Qed.

(** The errors of the members in turn. *)
Definition report (errs : list (bytes * uerr)) : option uerr := match errs with [] => None | _ => Some (EMany errs) end.
Lemma outcome_report st errs : outcome (UOk st (report errs)) = finish (u_mem st) errs.
Proof. destruct errs; reflexivity. Qed.

Section Un.
Context (un : ustate -> gty -> addr -> json -> ures (option uerr)).

Lemma un_fields_errs fs l kvs : forall st errs,
  un_fields un st fs l kvs errs = UPanic /\ un_fields un st fs l kvs [] = UPanic \/
  un_fields un st fs l kvs errs = UFuel /\ un_fields un st fs l kvs [] = UFuel \/
  exists st' more, un_fields un st fs l kvs errs = UOk st' (report (errs ++ more)) /\ un_fields un st fs l kvs [] = UOk st' (report more).
Proof.
  induction kvs as [|[k j] kvs IH]; intros st errs.
  - right. right. exists st, []. rewrite app_nil_r. split; reflexivity.
  - cbn [Unmarshal.un_fields]. destruct (set_field un _ st [] fs l k j) as [st1 [v e]| |]; cbn [ubind snd]; [|auto..].
    set (e1 := match e with Some e => errs ++ [(k, e)] | None => errs end). set (e2 := match e with Some e => [] ++ [(k, e)] | None => [] end).
    assert (E : exists d, e1 = errs ++ d /\ e2 = d). { subst e1 e2. destruct e; eexists; (split; [reflexivity|]) || idtac; try reflexivity. rewrite app_nil_r. split; reflexivity. }
    destruct E as (d & -> & ->). destruct (IH st1 (errs ++ d)) as [[A B]|[[A B]|(st' & more & A & B)]]; destruct (IH st1 d) as [[A' B']|[[A' B']|(st2 & more2 & A' & B')]]; try congruence; auto.
    right. right. exists st', (d ++ more). rewrite B in B'. injection B' as <- Er. assert (more = more2) as <-.
    { destruct more, more2; try discriminate Er; [reflexivity|]. injection Er as -> ->. reflexivity. }
    rewrite A, A', <- app_assoc. split; reflexivity.
Qed.

Lemma un_fields_app fs l kvs1 kvs2 : forall st errs,
  un_fields un st fs l (kvs1 ++ kvs2) errs =
  match un_fields un st fs l kvs1 errs with
  | UOk st1 r => un_fields un st1 fs l kvs2 (match r with Some (EMany errs1) => errs1 | _ => [] end)
  | UPanic => UPanic | UFuel => UFuel
  end.
Proof.
  induction kvs1 as [|[k j] kvs1 IH]; intros st errs.
  - cbn [app Unmarshal.un_fields]. destruct errs; reflexivity.
  - cbn [app Unmarshal.un_fields]. destruct (set_field un _ st [] fs l k j) as [st1 r| |]; [apply IH|reflexivity..].
Qed.
End Un.

Lemma outcome_finish r m l : outcome r = finish m l -> exists st, r = UOk st (report l) /\ u_mem st = m.
Proof.
  destruct r as [st [e|]| |]; destruct l; cbn; try discriminate; intros D; injection D as D; subst; exists st; auto.
Qed.

Lemma suitable_more j t : suitable env j t -> exists u, calm (outer_of j) u j /\ fits u t /\ forall n, fits u (TStruct n (env n)).
Proof.
  intros (R & Hp & Hm & Hme & [B|[U1 U2]]).
  - exists false. split; [split; [apply loose_out, R|intros _; exact B]|]. split; [split; [exact Hm|discriminate]|]. intros n. split; [apply Hme|discriminate].
  - exists true. split; [split; [apply loose_out, R|discriminate]|]. split; [split; [exact Hm|auto]|]. intros n. split; [apply Hme|intros _; apply U2].
Qed.

(** Unmarshalling into a struct keeps its fields where they are. *)
Lemma struct_kept n T m nm fs a l nid kvs m' errs : env_ok env -> (forall fs k i, In i (locate fs k) -> (i < length fs)%nat) ->
  suitable env (JDict nid kvs) (TStruct nm fs) -> mem_ok env T m -> nth_error T a = Some (Var (TStruct nm fs)) -> nth_error m a = Some (VStruct l) ->
  Unmarshal n m (TStruct nm fs) a (JDict nid kvs) [] = finish m' errs -> nth_error m' a = Some (VStruct l).
Proof.
  intros Henv Hloc Su HT Ta Ea E. destruct (suitable_more _ _ Su) as (u & C & F1 & F2).
  destruct (unm_good env locate match_us match_eu to_bool parse_time time_json std_ok (fun x l' => nth_error m x = Some (VStruct l')) (outer_of (JDict nid kvs)) Henv Hloc u F2 _ C _ (proj1 (proj2 Su)) F1) as [N HN].
  destruct (HN (N + n)%nat ltac:(lia) T (start m) a) as (st & e & T' & Er & [[H' K'] _] & _); [split; [split; [exact HT|auto]|apply quiet_nil]|exact Ta|].
  assert (E' : outcome (unm n (start m) (TStruct nm fs) a (JDict nid kvs)) = finish m' errs) by exact E.
  apply outcome_finish in E' as (st2 & E2 & <-).
  pose proof (unm_mono env locate match_us match_eu to_bool parse_time time_json std_ok n (N + n) (start m) (TStruct nm fs) a (JDict nid kvs) ltac:(lia) ltac:(rewrite E2; discriminate)) as E3.
  rewrite Er, E2 in E3. injection E3 as -> _. apply K', Ea.
Qed.

(** A dict is unmarshalled into a struct member by member: the members of the
    first half and then, into what that gave, those of the second half.  A
    failing member does not keep the others from being set, and the errors of
    all are reported, in order. *)
Theorem C40_members_in_turn : env_ok env -> (forall fs k i, In i (locate fs k) -> (i < length fs)%nat) ->
  forall nm fs nid kvs1 kvs2, suitable env (JDict nid (kvs1 ++ kvs2)) (TStruct nm fs) ->
  forall T m a, mem_ok env T m -> nth_error T a = Some (Var (TStruct nm fs)) ->
  forall n m1 errs1 m2 errs2,
    Unmarshal n m (TStruct nm fs) a (JDict nid kvs1) [] = finish m1 errs1 ->
    Unmarshal n m1 (TStruct nm fs) a (JDict nid kvs2) [] = finish m2 errs2 ->
    Unmarshal n m (TStruct nm fs) a (JDict nid (kvs1 ++ kvs2)) [] = finish m2 (errs1 ++ errs2).
Proof.
  intros Henv Hloc nm fs nid kvs1 kvs2 Su T m a HT Ta n m1 errs1 m2 errs2 E1 E2.
  destruct n as [|n]; [destruct errs1; discriminate E1|].
  destruct (mem_ok_cell _ _ _ _ _ HT Ta) as (c & Ea & C). inversion C as [| | | | | | | | | | | | | | | |l nm0 fs0 F| | | | | | | |]; subst.
  set (D := outer_of (JDict nid (kvs1 ++ kvs2))). pose proof (loose_out _ (proj1 Su)) as LD. fold D in LD.
  assert (R : forall kvs, incl kvs (kvs1 ++ kvs2) -> references_lead_out (JDict nid kvs)).
  { intros kvs I x ms P S S2. destruct Su as [R _]. inversion S as [| |k v ? ? Ik S']; subst.
    assert (S0 : subvalue (JPtr x) (JDict nid (kvs1 ++ kvs2))) by (eapply sub_member; [apply I, Ik|exact S']).
    inversion S2 as [| |k' v' ? ? Ik' S2']; subst; [apply (R nid (kvs1 ++ kvs2) P S0); constructor|]. apply (R x ms P S0). eapply sub_member; [apply I, Ik'|exact S2']. }
  assert (Su1 : suitable env (JDict nid kvs1) (TStruct nm fs)).
  { destruct Su as (R0 & Hp & Hm & Hme & Hb). split; [apply R; intros x Ix; apply in_or_app; left; exact Ix|]. split; [exact Hp|]. split; [exact Hm|]. split; [exact Hme|].
    destruct Hb as [[B1 B2]|U]; [left|right; exact U]. split.
    - intros b S. inversion S as [| |k v ? ? Ik S']; subst. apply (B1 b). eapply sub_member; [apply in_or_app; left; exact Ik|exact S'].
    - intros f bit S. inversion S as [| |k v ? ? Ik S']; subst. apply (B2 f bit). eapply sub_member; [apply in_or_app; left; exact Ik|exact S']. }
  pose proof (struct_kept (S n) T m nm fs a l nid kvs1 m1 errs1 Henv Hloc Su1 HT Ta Ea E1) as Ea1.
  rewrite (struct_outcome n m nm fs a l) in E1 by (try exact Ea; apply R; intros x Ix; apply in_or_app; left; exact Ix).
  rewrite (struct_outcome n m1 nm fs a l) in E2 by (try exact Ea1; apply R; intros x Ix; apply in_or_app; right; exact Ix).
  rewrite (struct_outcome n m nm fs a l) by (try exact Ea; apply R, incl_refl).
  apply outcome_finish in E1 as (st1 & E1 & <-). rewrite un_fields_app, E1.
  assert (Er : match report errs1 with Some (EMany x) => x | _ => [] end = errs1) by (destruct errs1; reflexivity). rewrite Er.
  assert (Q : quiet D (u_sess st1)).
  { assert (Al : alike D (un_fields (unm n) (start m) fs l kvs1 []) (un_fields (unm n) (start m) fs l kvs1 [])).
    { apply un_fields_alike; [|split; [reflexivity|split; apply quiet_nil]]. intros k j I. apply unm_alike. eapply loose_member; [exact LD|apply in_or_app; left; exact I]. }
    rewrite E1 in Al. apply Al. }
  assert (Al : alike D (un_fields (unm n) st1 fs l kvs2 []) (un_fields (unm n) (start (u_mem st1)) fs l kvs2 [])).
  { apply un_fields_alike; [|split; [reflexivity|split; [exact Q|apply quiet_nil]]]. intros k j I. apply unm_alike. eapply loose_member; [exact LD|apply in_or_app; right; exact I]. }
  apply outcome_finish in E2 as (st2 & E2 & <-). rewrite E2 in Al.
  destruct (un_fields_errs (unm n) fs l kvs2 st1 errs1) as [[A B]|[[A B]|(st' & more & A & B)]]; rewrite B in Al; [destruct Al..|].
  destruct Al as [Tw Eq]. assert (more = errs2) as -> by (destruct more, errs2; try discriminate Eq; [reflexivity|injection Eq as -> ->; reflexivity]).
  rewrite A, outcome_report. destruct Tw as [-> _]. reflexivity.
Qed.

(** One member, whose name selects one field without a deprecated-by tag: the
    value is unmarshalled into that field (as by Unmarshal with a key, into the
    field's variable); an error is reported under the name. *)
Theorem C40_one_member : forall n m nm fs a l nid k j i f t b, nid <= 0 -> (forall x, t <> TNamed x) ->
  nth_error m a = Some (VStruct l) -> locate fs k = [i] -> nth_error fs i = Some (f, t) -> fi_deprecated_by f = None -> nth_error l i = Some b ->
  Unmarshal (S n) m (TStruct nm fs) a (JDict nid [(k, j)]) [] =
  match Unmarshal n m t b (JDict 0 [([], j)]) [[]] with
  | TopErr m' e => TopErr m' (EMany [(k, e)])
  | r => r
  end.
Proof.
  intros n m nm fs a l nid k j i f t b Hn Nt Ea El Ei D Eb.
  assert (Er : match Unmarshal n m t b (JDict 0 [([], j)]) [[]] with TopErr m' e => TopErr m' (EMany [(k, e)]) | r => r end =
    match unm n (start m) t b j with UOk st None => TopOk (u_mem st) | UOk st (Some e) => TopErr (u_mem st) (EMany [(k, e)]) | UPanic => TopPanic | UFuel => TopFuel end).
  { change (Unmarshal n m t b (JDict 0 [([], j)]) [[]]) with (outcome (unm n (start m) (resolve env t) b j)).
    replace (resolve env t) with t by (destruct t; try reflexivity; exfalso; eapply Nt; reflexivity). destruct (unm n (start m) t b j) as [st [e|]| |]; reflexivity. }
  rewrite Er. clear Er.
  change (outcome (unm (S n) (start m) (TStruct nm fs) a (JDict nid [(k, j)])) = match unm n (start m) t b j with
    | UOk st None => TopOk (u_mem st) | UOk st (Some e) => TopErr (u_mem st) (EMany [(k, e)]) | UPanic => TopPanic | UFuel => TopFuel end).
  cbn [Unmarshal.unm]. assert (E0 : (0 <? nid) = false) by (apply Z.ltb_ge; exact Hn). rewrite E0. cbn [ubind indirect]. unfold fields_of. cbn [u_mem with_mem]. rewrite Ea.
  cbn [Unmarshal.un_fields Unmarshal.set_field in_strings existsb]. rewrite El, Ei, Eb, D. change (with_mem (start m) m) with (start m).
  destruct (unm n (start m) t b j) as [st [e|]| |]; reflexivity.
Qed.

(** A member whose name selects no field changes nothing and is no error. *)
Theorem C40_unknown_member : forall n m nm fs a nid k j, nid <= 0 -> locate fs k = [] ->
  Unmarshal (S n) m (TStruct nm fs) a (JDict nid [(k, j)]) [] = TopOk m.
Proof.
  intros n m nm fs a nid k j Hn El. change (outcome (unm (S n) (start m) (TStruct nm fs) a (JDict nid [(k, j)])) = TopOk m).
  cbn [Unmarshal.unm]. assert (E0 : (0 <? nid) = false) by (apply Z.ltb_ge; exact Hn). rewrite E0. cbn [ubind indirect].
  cbn [Unmarshal.un_fields Unmarshal.set_field in_strings existsb]. rewrite El. reflexivity.
Qed.

(** Any outcome but a panic is the list of the members' errors, so that the
    three theorems above determine Unmarshal of any dict into any struct. *)
Theorem C40_outcome_is_members_errors : forall n m nm fs a l nid kvs,
  references_lead_out (JDict nid kvs) -> nth_error m a = Some (VStruct l) ->
  match Unmarshal n m (TStruct nm fs) a (JDict nid kvs) [] with
  | TopOk m' => True
  | TopErr m' e => exists errs, e = EMany errs /\ incl (map fst errs) (map fst kvs)
  | TopGet _ => False
  | TopPanic | TopFuel => True
  end.
Proof.
  intros n m nm fs a l nid kvs R Ea. destruct n as [|n]; [exact Logic.I|]. rewrite (struct_outcome n m nm fs a l) by assumption.
  assert (G : forall (all : list (bytes * json)) st errs, incl (map fst errs) (map fst all) -> incl (map fst kvs) (map fst all) ->
    match un_fields (unm n) st fs l kvs errs with UOk st' (Some e) => exists errs, e = EMany errs /\ incl (map fst errs) (map fst all) | _ => True end).
  { intros all. clear R. induction kvs as [|[k j] kvs IH]; intros st errs I1 I2; cbn [Unmarshal.un_fields].
    - destruct errs; [exact Logic.I|]. eexists. split; [reflexivity|exact I1].
    - destruct (set_field (unm n) _ st [] fs l k j) as [st1 [v e]| |]; cbn [ubind]; [|exact Logic.I..]. cbn [snd]. apply IH.
      + destruct e; [|exact I1]. rewrite map_app. apply incl_app; [exact I1|]. intros x [<-|[]]. apply I2. left. reflexivity.
      + intros x Ix. apply I2. right. exact Ix. }
  specialize (G kvs (start m) [] ltac:(intros x []) (incl_refl _)). destruct (un_fields (unm n) (start m) fs l kvs []) as [st [e|]| |]; exact G || exact Logic.I.
Qed.
End C40.

(** ** Examples *)

Lemma ex_suitable : suitable ex_env ex_json ex_t.
Proof.
  split; [|split; [|split; [|split]]].
  - apply without_out. intros n S. pose proof (jall_sub (fun j => match j with JPtr _ => false | _ => true end) _ _ S eq_refl). discriminate.
  - apply (ex_env_ok 0%nat).
  - apply no_methods_check. reflexivity.
  - intros n. apply no_methods_check. destruct n as [|[|n]]; reflexivity.
  - right. split.
    + intros b P. pose proof (tall_part (fun t => negb (is_unsigned t)) _ _ P eq_refl). discriminate.
    + intros n b P. assert (A : tall (fun t => negb (is_unsigned t)) (TStruct n (ex_env n)) = true) by (destruct n as [|[|n]]; reflexivity).
      pose proof (tall_part _ _ _ P A). discriminate.
Qed.

(** The members of C34_example_value in two halves: the first gives no error,
    the second the error for next.tags; all others are set. *)
Definition ex_kvs1 := [(B"in", JDict 0 [(B"x", JArray [JInt 1; JString (B"2.5")])]);
           (B"kids", JDict 0 [(B"k", JDict 0 [(B"val", JBool true)]); (B"n", JNull)])].
Definition ex_kvs2 := [(B"next", JDict 0 [(B"next", JDict 0 [(B"val", JString (B"12"))]); (B"tags", JInt 3)]);
           (B"tags", JArray [JString (B"a"); JInt 7]); (B"val", JFloat (float_of_int 5) 64)].
Definition top_mem (r : utop) : mem := match r with TopOk m | TopErr m _ => m | _ => [] end.
Example C40_members_in_turn_example :
  let m := fst (zalloc ex_t []) in let a := snd (zalloc ex_t []) in
  let r1 := ex_unm 20 m ex_t a (JDict 0 ex_kvs1) [] in
  let r2 := ex_unm 20 (top_mem r1) ex_t a (JDict 0 ex_kvs2) [] in
  ex_unm 20 m ex_t a (JDict 0 (ex_kvs1 ++ ex_kvs2)) [] = finish (top_mem r2) ([] ++ [(B"next", EMany [(B"tags", EMismatch)])]).
Proof.
  intros m a r1 r2.
  destruct (zalloc_ok ex_env (fun _ _ => False) ex_t (ex_env_ok 0%nat) [] []) as (T & [M _] & E); [split; [constructor|intros ? ? []]|].
  apply (C40_members_in_turn ex_env by_name (fun _ => false) (fun _ => false) (fun _ => true) (fun _ => None) (fun _ => None) (fun _ => true)
    ex_env_ok by_name_ok 0%nat (ex_env 0) 0 ex_kvs1 ex_kvs2 ex_suitable ([] ++ T) m a M E 20%nat (top_mem r1) [] (top_mem r2)); subst r1 r2 m a; vm_compute; reflexivity.
Qed.

(** Checks for concrete memories. *)
Definition closed_b (m : mem) : bool := forallb (fun c => forallb (fun y => (y <? length m)%nat) (mentions c)) m.
Lemma closed_b_ok m : closed_b m = true -> forall x c y, nth_error m x = Some c -> In y (mentions c) -> (y < length m)%nat.
Proof.
  intros H x c y E I. unfold closed_b in H. rewrite forallb_forall in H. specialize (H c (nth_error_In _ _ E)). rewrite forallb_forall in H. apply Nat.ltb_lt, H, I.
Qed.
(** From [S] one gets nowhere else. *)
Definition stays_b (S : list addr) (m : mem) : bool :=
  forallb (fun x => match nth_error m x with Some c => forallb (fun y => existsb (Nat.eqb y) S) (mentions c) | None => true end) S.
Lemma stays_b_ok S m a : stays_b S m = true -> In a S -> forall y, reaches m a y -> In y S.
Proof.
  intros H Ia y R. induction R as [|x c y R IH E I]; [exact Ia|]. unfold stays_b in H. rewrite forallb_forall in H. specialize (H x IH). rewrite E in H.
  rewrite forallb_forall in H. specialize (H y I). apply existsb_exists in H as (z & Iz & Ez). apply Nat.eqb_eq in Ez. subst. exact Iz.
Qed.

Notation ex_unm' := (Unmarshal ex_env by_name (fun _ => false) (fun _ => false) (fun _ => true) (fun _ => None) (fun _ => None) (fun _ => true)) (only parsing).

(** Two variables of the type: unmarshalling into the second keeps the first. *)
Definition ex_two : mem := Eval vm_compute in fst (zalloc ex_t (fst (zalloc ex_t []))).
Definition ex_first : addr := Eval vm_compute in snd (zalloc ex_t []).
Definition ex_second : addr := Eval vm_compute in snd (zalloc ex_t (fst (zalloc ex_t []))).
Definition ex_two_after : mem := Eval vm_compute in top_mem (ex_unm 20 ex_two ex_t ex_second ex_json []).
Lemma ex_two_result : ex_unm' 20%nat ex_two ex_t ex_second ex_json [] = TopErr ex_two_after (EMany [(B"next", EMany [(B"tags", EMismatch)])]).
Proof. vm_compute. reflexivity. Qed.
Example C40_touches_only_reachable_example : forall x, (x <= ex_first)%nat -> nth_error ex_two_after x = nth_error ex_two x.
Proof.
  intros x Lx. unfold ex_first in Lx.
  apply (C40_touches_only_reachable ex_env by_name (fun _ => false) (fun _ => false) (fun _ => true) (fun _ => None) (fun _ => None) (fun _ => true) 20 ex_two ex_t ex_second ex_json []).
  - vm_compute. lia.
  - apply closed_b_ok. vm_compute. reflexivity.
  - right. exists (EMany [(B"next", EMany [(B"tags", EMismatch)])]). exact ex_two_result.
  - unfold ex_two. cbn [length]. lia.
  - intros R. apply (stays_b_ok (seq 9 9) ex_two ex_second) in R; [|vm_compute; reflexivity|vm_compute; tauto]. apply in_seq in R. lia.
Qed.

(** {"val": 3, "none": 4} into a struct whose tags are set: the tags stay. *)
Definition ex_set : mem := Eval vm_compute in top_mem (ex_unm 20 (fst (zalloc ex_t [])) ex_t ex_first (JDict 0 [(B"tags", JArray [JString (B"a")])]) []).
Definition ex_kvs3 := [(B"none", JInt 4); (B"val", JInt 3)].
Definition ex_set_after : mem := Eval vm_compute in top_mem (ex_unm 20 ex_set ex_t ex_first (JDict 0 ex_kvs3) []).
Lemma ex_set_result : ex_unm' 20%nat ex_set (TStruct 0 (ex_env 0)) ex_first (JDict 0 ex_kvs3) [] = TopOk ex_set_after.
Proof. vm_compute. reflexivity. Qed.
Example C40_other_fields_keep_example :
  nth_error ex_set 2 = Some (VSlice (Some ([9%nat], 1%nat))) /\ forall x, x = 2%nat \/ x = 9%nat -> nth_error ex_set_after x = nth_error ex_set x.
Proof.
  split; [reflexivity|]. intros x Hx.
  apply (C40_other_fields_keep ex_env by_name (fun _ => false) (fun _ => false) (fun _ => true) (fun _ => None) (fun _ => None) (fun _ => true) 20 ex_set 0 (ex_env 0) ex_first (fields_of ex_first ex_set) 0 ex_kvs3).
  - apply closed_b_ok. vm_compute. reflexivity.
  - reflexivity.
  - lia.
  - left. exact ex_set_result.
  - unfold ex_set. cbn [length]. lia.
  - intros k j i b I Sl Eb R. assert (i = 0%nat) as ->.
    { destruct I as [I|[I|[]]]; injection I as <- <-.
      - inversion Sl as [k0 i0 H|k0 i0 g t o i1 H]; subst; vm_compute in H; destruct H.
      - inversion Sl as [k0 i0 H|k0 i0 g t o i1 H E D]; subst; vm_compute in H; destruct H as [<-|[]]; [reflexivity|]. cbn in E. injection E as <- <-. discriminate D. }
    injection Eb as <-. apply (stays_b_ok [0%nat] ex_set) in R; [|reflexivity|left; reflexivity]. destruct R as [R|[]]. subst x. destruct Hx as [Hx|Hx]; discriminate Hx.
Qed.

Example C40_one_member_example : ex_unm' 3%nat ex_set (TStruct 0 (ex_env 0)) ex_first (JDict 0 [(B"tags", JInt 3)]) [] = TopErr ex_set (EMany [(B"tags", EMismatch)]).
Proof.
  exact (C40_one_member ex_env by_name (fun _ => false) (fun _ => false) (fun _ => true) (fun _ => None) (fun _ => None) (fun _ => true)
    2 ex_set 0 (ex_env 0) ex_first (fields_of ex_first ex_set) 0 (B"tags") (JInt 3) 2 (plain (B"tags")) (TSlice TString) 2 ltac:(lia) ltac:(discriminate) eq_refl eq_refl eq_refl eq_refl eq_refl).
Qed.

Example C40_unknown_member_example : ex_unm' 3%nat ex_set (TStruct 0 (ex_env 0)) ex_first (JDict 0 [(B"Tag", JInt 3)]) [] = TopOk ex_set.
Proof. apply C40_unknown_member; [lia|reflexivity]. Qed.
