(** What is true of every parsed value: its side conditions for serialising. *)
From Coq Require Import QArith Sorting.Sorted.
From Verif Require Import Base Strconv StrconvFacts SpecFloat SortedMap SortedMapFacts
  Utf8 Json SpecJson SpecRFC SpecPrint Printer Parser ParserFacts ParserFacts2 PrintFacts PrintFacts2.
Open Scope Z_scope.

(** Properties of sub-values that hold of every parsed value: no reserved key,
    floats untagged. *)
Inductive parsed_shape : json -> Prop :=
| ps_null : parsed_shape JNull
| ps_bool b : parsed_shape (JBool b)
| ps_int z : parsed_shape (JInt z)
| ps_float f : parsed_shape (JFloat f 0)
| ps_string s : parsed_shape (JString s)
| ps_ptr n : parsed_shape (JPtr n)
| ps_array l : Forall parsed_shape l -> parsed_shape (JArray l)
| ps_dict nid kvs : Forall (fun kv => parsed_shape (snd kv)) kvs -> ~ In jnid_key (map fst kvs) ->
    parsed_shape (JDict nid kvs).

Lemma parsed_shape_sub v x : parsed_shape v -> subvalue x v -> parsed_shape x.
Proof.
  intros H S. induction S as [|w l Hin S IH|k w nid kvs Hin S IH]; [exact H| |].
  - inversion H; subst. apply IH. eapply Forall_forall; eassumption.
  - inversion H as [| | | | | | |? ? HF _]; subst. apply IH.
    rewrite Forall_forall in HF. apply (HF _ Hin).
Qed.

Lemma bare_value_shape t v : bare_value t = Some v -> parsed_shape v.
Proof.
  unfold bare_value. intros H.
  repeat match type of H with context [if ?b then _ else _] => destruct b
    | context [match parse_int ?b with _ => _ end] => destruct (parse_int b)
    | context [match parse_float ?F ?b with _ => _ end] => destruct (parse_float F b) end;
    try discriminate; injection H as <-; constructor.
Qed.

Lemma bare_value_ids t v : bare_value t = Some v -> node_ids v = [].
Proof.
  unfold bare_value. intros H.
  repeat match type of H with context [if ?b then _ else _] => destruct b
    | context [match parse_int ?b with _ => _ end] => destruct (parse_int b)
    | context [match parse_float ?F ?b with _ => _ end] => destruct (parse_float F b) end;
    try discriminate; injection H as <-; reflexivity.
Qed.

Lemma parse_scalar_shape s v r : parse_scalar s = POk v r -> parsed_shape v /\ node_ids v = [].
Proof.
  unfold parse_scalar. destruct (parse_string s) as [[t [|]] r'|e r'|p|]; try discriminate.
  - destruct t; intros [= <- _]; split; constructor.
  - destruct t; [discriminate|]. destruct (bare_value _) eqn:E; [|discriminate].
    intros [= <- _]. split; [eapply bare_value_shape; exact E|eapply bare_value_ids; exact E].
Qed.

Lemma sm_add_keys (m : smap json) k v x : In x (map fst (sm_add m k v)) -> x = k \/ In x (map fst m).
Proof.
  induction m as [|[k0 v0] m IH]; simpl; [intuition|].
  destruct (bcmp k k0) eqn:E; simpl; intuition.
Qed.

Definition mids (kvs : list (bytes * json)) : list Z := flat_map (fun kv => node_ids (snd kv)) kvs.

Lemma sm_add_ids_incl (m : smap json) k v : incl (mids (sm_add m k v)) (node_ids v ++ mids m).
Proof.
  induction m as [|[k0 v0] m IH]; simpl; [apply incl_refl|].
  destruct (bcmp k k0); unfold mids in *; cbn [flat_map snd].
  - apply incl_app; [apply incl_appl, incl_refl|]. apply incl_appr. apply incl_appr. apply incl_refl.
  - apply incl_refl.
  - apply incl_app; [apply incl_appr, incl_appl, incl_refl|].
    intros x Hx. apply IH in Hx. apply in_app_or in Hx as [Hx|Hx]; apply in_or_app; [left; exact Hx|].
    right. apply in_or_app. right. exact Hx.
Qed.

Definition disjoint (a b : list Z) : Prop := forall x, In x a -> ~ In x b.

Lemma NoDup_app_iff {A} (a b : list A) : NoDup (a ++ b) <-> NoDup a /\ NoDup b /\ (forall x, In x a -> ~ In x b).
Proof.
  induction a as [|x a IH]; simpl.
  - split; [intros H; repeat split; auto; constructor|tauto].
  - split.
    + intros H. inversion H as [|? ? H1 H2]; subst. apply IH in H2 as (Ha & Hb & Hd).
      split; [constructor; [intros C; apply H1; apply in_or_app; left; exact C|exact Ha]|].
      split; [exact Hb|]. intros y [->|Hy]; [intros C; apply H1; apply in_or_app; right; exact C|auto].
    + intros (Ha & Hb & Hd). inversion Ha as [|? ? H1 H2]; subst. constructor.
      * intros C. apply in_app_or in C as [C|C]; [contradiction|]. apply (Hd x); auto.
      * apply IH. repeat split; auto.
Qed.

Lemma sm_add_ids_nodup (m : smap json) k v : NoDup (mids m) -> NoDup (node_ids v) ->
  disjoint (node_ids v) (mids m) -> NoDup (mids (sm_add m k v)).
Proof.
  induction m as [|[k0 v0] m IH]; intros Hm Hv Hd; cbn [sm_add].
  - unfold mids. cbn [flat_map snd]. rewrite app_nil_r. exact Hv.
  - unfold mids in *. cbn [flat_map snd] in *. apply NoDup_app_iff in Hm as (H0 & H1 & H2).
    destruct (bcmp k k0); cbn [flat_map snd].
    + apply NoDup_app_iff. repeat split; auto. intros x Hx C. apply (Hd x Hx). apply in_or_app. right. exact C.
    + apply NoDup_app_iff. repeat split; auto. apply NoDup_app_iff. auto.
    + apply NoDup_app_iff. repeat split; auto.
      * apply IH; auto. intros x Hx C. apply (Hd x Hx). apply in_or_app. right. exact C.
      * intros x Hx C. apply sm_add_ids_incl in C. apply in_app_or in C as [C|C].
        -- apply (Hd x C). apply in_or_app. left. exact Hx.
        -- apply (H2 x Hx C).
Qed.

(** The session after parsing: new ids in front, all distinct, covering the
    ids of the value. *)
Definition ids_grow (sess ss : list Z) (ids : list Z) : Prop :=
  exists L, ss = L ++ sess /\ NoDup ss /\ NoDup ids /\ incl ids L.

Lemma parse_inv n :
  (forall sess s v ss r, NoDup sess -> parse_value n sess s = POk (v, ss) r ->
     parsed_shape v /\ ids_grow sess ss (node_ids v))
  /\ (forall sess0 sess acc nid s kvs nid' ss r, dict_loop n sess acc nid s = POk (kvs, nid', ss) r ->
        Forall (fun kv => parsed_shape (snd kv)) acc -> ~ In jnid_key (map fst acc) ->
        ids_grow sess0 sess (mids acc) ->
        Forall (fun kv => parsed_shape (snd kv)) kvs /\ ~ In jnid_key (map fst kvs)
        /\ ids_grow sess0 ss (mids kvs))
  /\ (forall sess0 sess acc s l ss r, array_loop n sess acc s = POk (l, ss) r ->
        Forall parsed_shape acc -> ids_grow sess0 sess (flat_map node_ids (rev acc)) ->
        Forall parsed_shape l /\ ids_grow sess0 ss (flat_map node_ids l)).
Proof.
  induction n as [|n (IHv & IHd & IHa)]; [repeat split; intros; discriminate|].
  assert (forall sess, NoDup sess -> ids_grow sess sess []) as G0.
  { intros sess H. exists []. repeat split; auto; [constructor|apply incl_refl]. }
  split; [|split].
  - intros sess s v ss r HN. cbn [parse_value]. destruct s as [|c s]; [discriminate|].
    destruct (beq c "["%byte).
    { destruct (array_loop n sess [] s) as [[l ss'] r'|e r'|p|] eqn:E; try discriminate. intros [= <- <- <-].
      apply (IHa sess) in E; [|constructor|apply G0; exact HN]. destruct E as [H1 H2].
      split; [constructor; exact H1|exact H2]. }
    destruct (beq c "{"%byte).
    { destruct (dict_loop n sess sm_empty 0 s) as [[[kvs nid] ss'] r'|e r'|p|] eqn:E; try discriminate.
      apply (IHd sess) in E; [|constructor|intros []|apply G0; exact HN]. destruct E as (H1 & H2 & L & -> & ND & NI & IC).
      destruct (0 <? nid) eqn:EN.
      - unfold save_node. destruct (existsb (Z.eqb nid) (L ++ sess)) eqn:EX; [discriminate|].
        intros [= <- <- <-]. split; [constructor; assumption|].
        assert (~ In nid (L ++ sess)) as Hni.
        { intros C. assert (existsb (Z.eqb nid) (L ++ sess) = true); [|congruence].
          apply existsb_exists. exists nid. split; [exact C|apply Z.eqb_refl]. }
        exists (nid :: L). split; [reflexivity|]. split; [constructor; assumption|].
        cbn [node_ids]. rewrite EN. fold (mids kvs). split.
        + apply NoDup_app_iff. split; [exact NI|]. split; [repeat constructor; intros []|].
          intros x Hx [<-|[]]. apply Hni. apply in_or_app. left. apply IC. exact Hx.
        + apply incl_app; [intros x Hx; right; apply IC; exact Hx|].
          intros x [<-|[]]. left. reflexivity.
      - intros [= <- <- <-]. split; [constructor; assumption|].
        exists L. cbn [node_ids]. rewrite EN. fold (mids kvs). rewrite app_nil_r. auto. }
    destruct (parse_scalar (c :: s)) as [v' r'|e r'|p|] eqn:E; try discriminate. intros [= <- <- <-].
    apply parse_scalar_shape in E as [H1 ->]. split; [exact H1|apply G0; exact HN].
  - intros sess0 sess acc nid s kvs nid' ss r H HF HK HG. cbn [dict_loop] in H.
    destruct s as [|a s]; [injection H as <- <- <- <-; auto|].
    destruct (skip_empty (a :: s)) as [|c s1]; [discriminate|].
    destruct (beq c "}"%byte); [injection H as <- <- <- <-; auto|].
    destruct (parse_string (c :: s1)) as [[key b] s2|e r'|p|]; try discriminate.
    destruct (skip_empty s2) as [|c3 s3]; [discriminate|].
    destruct (negb (beq c3 ":"%byte)); [discriminate|].
    destruct (skip_empty s3) as [|c4 s4]; [discriminate|].
    destruct (parse_value n sess (c4 :: s4)) as [[v ss'] s5|e r'|p|] eqn:EV; try discriminate.
    destruct HG as (L & -> & ND & NI & IC).
    apply IHv in EV; [|exact ND]. destruct EV as (PS & L' & -> & ND' & NI' & IC').
    assert (ids_grow sess0 (L' ++ L ++ sess0) (mids acc)) as HG1.
    { exists (L' ++ L). rewrite app_assoc in *. split; [reflexivity|]. split; [exact ND'|]. split; [exact NI|].
      apply incl_appr. exact IC. }
    destruct (bseq_spec key jnid_key) as [EK|NK].
    + destruct v; try discriminate. destruct (skip_empty s5) as [|c6 s6]; [discriminate|].
      destruct (beq c6 ","%byte); [eapply IHd; eassumption|].
      destruct (beq c6 "}"%byte); [|discriminate]. injection H as <- <- <- <-. auto.
    + assert (Forall (fun kv => parsed_shape (snd kv)) (sm_add acc key v)) as HF1 by (apply Forall_sm_add; assumption).
      assert (~ In jnid_key (map fst (sm_add acc key v))) as HK1.
      { intros C. apply sm_add_keys in C as [C|C]; [congruence|contradiction]. }
      assert (disjoint (node_ids v) (mids acc)) as HD.
      { intros x Hx C. apply IC' in Hx. apply IC in C. apply NoDup_app_iff in ND' as (_ & _ & D).
        apply (D x Hx). apply in_or_app. left. exact C. }
      assert (ids_grow sess0 (L' ++ L ++ sess0) (mids (sm_add acc key v))) as HG2.
      { exists (L' ++ L). split; [rewrite app_assoc; reflexivity|]. split; [exact ND'|].
        split; [apply sm_add_ids_nodup; assumption|].
        intros x Hx. apply sm_add_ids_incl in Hx. apply in_app_or in Hx as [Hx|Hx]; apply in_or_app;
          [left; apply IC'; exact Hx|right; apply IC; exact Hx]. }
      destruct (skip_empty s5) as [|c6 s6]; [discriminate|].
      destruct (beq c6 ","%byte); [eapply IHd; eassumption|].
      destruct (beq c6 "}"%byte); [|discriminate]. injection H as <- <- <- <-. auto.
  - intros sess0 sess acc s l ss r H HF HG. cbn [array_loop] in H.
    destruct s as [|a s]; [injection H as <- <- <-; split; [apply Forall_rev; exact HF|exact HG]|].
    destruct (skip_empty (a :: s)) as [|c s1]; [discriminate|].
    destruct (beq c "]"%byte); [injection H as <- <- <-; split; [apply Forall_rev; exact HF|exact HG]|].
    destruct (parse_value n sess (c :: s1)) as [[v ss'] s5|e r'|p|] eqn:EV; try discriminate.
    destruct HG as (L & -> & ND & NI & IC).
    apply IHv in EV; [|exact ND]. destruct EV as (PS & L' & -> & ND' & NI' & IC').
    assert (ids_grow sess0 (L' ++ L ++ sess0) (flat_map node_ids (rev (v :: acc)))) as HG2.
    { exists (L' ++ L). split; [rewrite app_assoc; reflexivity|]. split; [exact ND'|].
      cbn [rev]. rewrite flat_map_app. cbn [flat_map]. rewrite app_nil_r. split.
      - apply NoDup_app_iff. split; [exact NI|]. split; [exact NI'|]. intros x Hx C.
        apply IC' in C. apply IC in Hx. apply NoDup_app_iff in ND' as (_ & _ & D).
        apply (D x C). apply in_or_app. left. exact Hx.
      - intros x Hx. apply in_app_or in Hx as [Hx|Hx]; apply in_or_app;
          [right; apply IC; exact Hx|left; apply IC'; exact Hx]. }
    destruct (skip_empty s5) as [|c6 s6]; [discriminate|].
    destruct (beq c6 ","%byte).
    + eapply (IHa sess0); [exact H| |exact HG2]. constructor; assumption.
    + destruct (beq c6 "]"%byte); [|discriminate]. injection H as <- <- <-.
      split; [|exact HG2]. change (rev acc ++ [v]) with (rev (v :: acc)). apply Forall_rev. constructor; assumption.
Qed.

Theorem parse_printable s v r : parse_suffix s = POk v r -> printable v.
Proof.
  intros H. pose proof (parse_suffix_ok s v r H) as HO.
  unfold parse_suffix in H. destruct (skip_empty s) as [|c s1]; [discriminate|].
  destruct (parse_value _ [] (c :: s1)) as [[v' ss] r'|e r'|p|] eqn:E; try discriminate.
  injection H as -> ->. apply (proj1 (parse_inv _)) in E; [|constructor]. destruct E as (PS & L & _ & _ & ND & _).
  split; [exact HO|]. split; [|split].
  - intros f bit S. apply (parsed_shape_sub _ _ PS) in S. inversion S; subst. discriminate.
  - intros nid kvs S. apply (parsed_shape_sub _ _ PS) in S. inversion S; subst. assumption.
  - exact ND.
Qed.

(** ** reads_as *)

Lemma Forall2_same {A} (R : A -> A -> Prop) l l' : Forall (fun x => forall y, R x y -> x = y) l ->
  Forall2 R l l' -> l = l'.
Proof.
  intros H H2. induction H2 as [|x y l l' HR _ IH]; [reflexivity|].
  inversion H as [|? ? H1 H3]; subst. f_equal; auto.
Qed.

Lemma reads_as_stable v : text_stable v -> forall v', reads_as v v' -> v' = v.
Proof.
  induction v as [|b|z|f bit|s|l IH|nid kvs IH|n] using json_ind'; intros [HF HD] v' R.
  all: try (inversion R; subst; reflexivity).
  - destruct (HF f bit (sub_refl _)) as [-> HS].
    inversion R; subst; try reflexivity.
    + destruct (HS _ _ _ eq_refl). lia.
    + destruct (HS _ _ _ eq_refl). contradiction.
  - inversion R as [| | | | | | | | | |? l' R'|]; subst. f_equal. symmetry.
    apply (Forall2_same reads_as); [|exact R']. apply Forall_forall. intros x Hx y Ry. symmetry.
    rewrite Forall_forall in IH. apply (IH x Hx); [|exact Ry]. split.
    + intros f bit S. apply HF. eapply sub_elem; eassumption.
    + intros i kvs S. apply (HD i kvs). eapply sub_elem; eassumption.
  - pose proof (HD nid kvs (sub_refl _)) as HN.
    inversion R as [| | | | | | | | | | |? ? kvs' R']; subst. rewrite Z.max_r by lia. f_equal. symmetry.
    apply (Forall2_same _ _ _) with (2 := R'). apply Forall_forall. intros [k x] Hx [k' y] [E Ry].
    cbn [fst snd] in *. subst k'. f_equal. symmetry. rewrite Forall_forall in IH.
    apply (IH (k, x) Hx); [|exact Ry]. split.
    + intros f bit S. apply HF. eapply sub_member; eassumption.
    + intros i kvs0 S. apply (HD i kvs0). eapply sub_member; eassumption.
Qed.

(** The result of reading is stable: a second round trip changes nothing. *)
Lemma reads_as_result_stable v : forall v', reads_as v v' -> text_stable v'.
Proof.
  induction v as [|b|z|f bit|s|l IH|nid kvs IH|n] using json_ind'; intros v' R.
  1,2,3,5,8: inversion R; subst; split; [intros ? ? S|intros ? ? S]; inversion S.
  - inversion R; subst; split; try (intros ? ? S; inversion S; subst; fail).
    all: intros g b' S; inversion S; subst; split; [reflexivity|]; intros; try discriminate.
    match goal with H : FFin _ _ _ = FFin _ _ _ |- _ => injection H as <- <- <- end. auto.
  - inversion R as [| | | | | | | | | |? l' R'|]; subst. rewrite Forall_forall in IH.
    assert (forall y, In y l' -> text_stable y) as HY.
    { intros y Hy. apply (Forall2_flip) in R' || idtac.
      clear - R' IH Hy. induction R' as [|a b l l' H _ IHR]; [destruct Hy|].
      destruct Hy as [<-|Hy]; [apply (IH a); [left; reflexivity|exact H]|].
      apply IHR; [|exact Hy]. intros x Hx. apply IH. right. exact Hx. }
    split.
    + intros g b S. inversion S; subst. eapply (proj1 (HY _ ltac:(eassumption))). eassumption.
    + intros i kvs S. inversion S; subst. eapply (proj2 (HY _ ltac:(eassumption))). eassumption.
  - inversion R as [| | | | | | | | | | |? ? kvs' R']; subst. rewrite Forall_forall in IH.
    assert (forall k y, In (k, y) kvs' -> text_stable y) as HY.
    { intros k y Hy. clear - R' IH Hy. induction R' as [|[ka a] [kb b] l l' [_ H] _ IHR]; [destruct Hy|].
      destruct Hy as [E|Hy].
      - injection E as -> ->. apply (IH (ka, a)); [left; reflexivity|exact H].
      - apply IHR; [|exact Hy]. intros x Hx. apply IH. right. exact Hx. }
    split.
    + intros g b S. inversion S; subst. eapply (proj1 (HY _ _ ltac:(eassumption))). eassumption.
    + intros i kvs0 S. inversion S; subst; [lia|]. eapply (proj2 (HY _ _ ltac:(eassumption))). eassumption.
Qed.
