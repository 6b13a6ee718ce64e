(** C29: Marshal then Unmarshal gives back the value; and the order of nodes and
    references in the output of Marshal (C31). *)
From Verif Require Import Base Strconv SortedMap SortedMapFacts Json SpecJson Printer Heap Gotypes Marshal SpecMarshal SpecEncode MarshalFacts MarshalEnc2 MarshalRefs MarshalFinal PropMarshal Access Unmarshal SpecUnmarshal UnmFacts UnmTotal PropUnmarshal SpecRestore RestoreMem MarshalOrder SpecFloat SpecFloatText FloatSyntax Restore.

(** ** C31: nodes before their references; no references without cycles *)

(** If the fields of all structs are declared in the order of their JSON names,
    then in the output of Marshal every dict with a node id starts before any
    reference to it (for a plain graph: see C31_references_resolve). *)
Theorem C31_nodes_before_references omit st v j :
  plain_graph st v -> in_name_order v -> Forall in_name_order st -> marshals omit st v j -> nodes_first j.
Proof.
  intros (G & P & PS & SM) Ov Os (pick & n & HP & E). apply nodes_first_ordered. apply marshal_inv in E as [[-> ->]|(s & r & E & ->)]; [exact Logic.I|].
  assert (bounded new_session) as B by (intros e []).
  destruct (mval_refs st omit PS SM n v new_session None s r (Forall_nil _) B P (no_info _ _) E) as [S _].
  pose proof (mval_tidy st omit PS SM Os n v new_session None s r (Forall_nil _) B P Ov (no_info _ _) E) as [T _].
  destruct r as [m|]; [|exact Logic.I]. destruct S as [S1 S2 S3 S4 S5 S6]. cbn in *. rewrite app_nil_r in *. destruct S6 as [S6 _].
  rewrite set_ids_events; [|exact HP|exact S6|intros o I; apply S4 in I; lia].
  apply (ordered_filter (referred (s_trace s)) (mevents m) []); [|exact T]. intros k I. apply S2. apply mref_events, I.
Qed.

(** In memory without cycles nothing is replaced by a reference and no dict gets
    a node id, whatever the tags and types of fields. *)
Theorem C31_acyclic_no_references omit st v j :
  acyclic st -> holds_pure_json v -> Forall holds_pure_json st -> marshals omit st v j -> node_ids j = [] /\ ref_ids j = [].
Proof.
  intros A P PS (pick & n & HP & E). apply marshal_inv in E as [[-> ->]|(s & r & E & ->)]; [auto|].
  destruct (mval_clean st omit A PS n v new_session None s r) as [T C]; [intros e a []|exact P|exact E|].
  destruct r as [m|]; [|auto]. cbn in T. rewrite T. apply clean_set_ids. inversion C; assumption.
Qed.

Lemma no_refs_first j : ref_ids j = [] -> nodes_first j.
Proof.
  intros H b n aft E. assert (In n (ref_ids j)) as I by (apply ref_events; rewrite E; apply in_or_app; right; left; reflexivity). rewrite H in I. destruct I.
Qed.

(** ** C29 *)

Section C29.
Context (env : nat -> list (finfo * gty)) (locate : list (finfo * gty) -> bytes -> list nat).
Context (match_us match_eu : bytes -> bool) (to_bool : bytes -> bool)
  (parse_time : bytes -> option bytes) (time_json : bytes -> option (option bytes)) (std_ok : bytes -> bool).
Notation Unmarshal := (Unmarshal env locate match_us match_eu to_bool parse_time time_json std_ok).
Notation texts_survive := (texts_survive match_us match_eu to_bool std_ok).
Notation texts := (texts match_us match_eu to_bool std_ok).
Notation shows := (SpecRestore.shows time_json).
Notation alike_to := (SpecRestore.alike_to time_json).
Notation same_value := (SpecRestore.same_value time_json).
Context (env_proper : env_ok env) (env_restorable : forall n, restorable locate (TStruct n (env n))).

(** A JSON value whose own Unmarshal method ignores it. *)
Definition bare_scalar (j : json) : Prop := match j with JBool _ | JInt _ | JFloat _ _ => True | _ => False end.

Lemma receiver_id j : ~ bare_scalar j -> (forall n, j <> JPtr n) -> receiver j = j.
Proof using. destruct j; cbn; intros N P; try reflexivity; try (destruct N; exact Logic.I). edestruct P. reflexivity. Qed.

Lemma pairs_same st m φ : (forall s b, In (s, b) φ -> exists x, nth_error st s = Some x /\ shows (rel φ) (nth_error m) x b) ->
  forall d s b, In (s, b) φ -> alike_to st m d s b.
Proof using.
  intros H. induction d as [|d IH]; intros s b I; [exact Logic.I|]. destruct (H s b I) as (x & Ex & Sx). exists x. split; [exact Ex|].
  eapply shows_mono; [|intros y c Ec; exact Ec|exact Sx]. intros s' b' I'. apply IH, I'.
Qed.

Lemma shows_all R lo hi L m v a : shows R (part_of lo hi L m) v a -> shows R (nth_error m) v a.
Proof using. apply shows_mono; [auto|]. intros x c E. apply part_out in E. apply E. Qed.

Lemma resolve_proper t : proper env t -> resolve env t = t.
Proof using. destruct t; try reflexivity. intros []. Qed.

Lemma texts_at st v x : texts_survive st v -> x = v \/ In x st -> texts st None x.
Proof using. intros H I i w S. apply (H x i w I S). Qed.

Lemma core omit st types own v j t m0 φ f : typed_store env locate parse_time time_json types st ->
  encodes st omit f own None v j -> texts st None v -> only_zeros_dropped omit st None v ->
  holds env parse_time time_json types v t -> proper env t -> restorable locate t -> ~ bare_scalar j -> nodes_first j ->
  place types own v φ t (snd (zalloc t m0)) -> (forall s b, In (s, b) φ -> b = snd (zalloc t m0) /\ nth_error st s = Some v) ->
  exists N m', (forall n, (N <= n)%nat -> Unmarshal n (fst (zalloc t m0)) t (snd (zalloc t m0)) j [] = TopOk m') /\
    same_value st v m' (snd (zalloc t m0)) /\
    forall x, (x < length m0)%nat -> nth_error m' x = nth_error m0 x.
Proof using env_proper env_restorable.
  intros Ts En Tx Z H P R NB NF Pl Hφ. destruct (zalloc_fresh t m0) as (d & Ed & Ld & Fr). rewrite Ed. set (a := snd (zalloc t m0)) in *.
  pose proof (restore env locate match_us match_eu to_bool parse_time time_json std_ok st omit types f env_proper env_restorable Ts own None v j En Tx Z) as Cl.
  destruct (Cl t H P R [] {| u_mem := m0 ++ d; u_sess := [] |} φ (length m0) a) as (N & st' & φ' & U & (I & K & PO & S) & Sh).
  - apply nodes_first_ordered, NF.
  - exact Fr.
  - split; [intros n nv D; discriminate|]. intros n I. apply before_incl in I. destruct I.
  - exact Pl.
  - assert (Rj : receiver j = j).
    { apply receiver_id; [exact NB|]. intros n ->. destruct (NF [] n [] eq_refl). }
    exists N, (u_mem st'). split; [|split].
    + intros n L. unfold Unmarshal.Unmarshal. rewrite Rj, (resolve_proper t P), (U n L). reflexivity.
    + assert (A : forall k s b, In (s, b) φ' -> alike_to st (u_mem st') k s b).
      { apply pairs_same. intros s b Ib. destruct (PO s b Ib) as [Ib'|(x & Ex & Sx)]; [|exists x; split; [exact Ex|eapply shows_all, Sx]].
        destruct (Hφ s b Ib') as [-> Es]. exists v. split; [exact Es|eapply shows_all, Sh]. }
      intros k. eapply shows_mono; [|intros y c Ec; exact Ec|eapply shows_all, Sh]. intros s b Ib. apply A, Ib.
    + intros x Lx. destruct K as [_ K]. cbn [u_mem] in K. rewrite K; [apply nth_error_app1, Lx|rewrite app_length; lia|lia].
Qed.

(** All integers of a type are covered, up to the bounds. *)
Theorem C29_integers_covered b z : word b ->
  (in_kind (Signed b) z = true <-> - 2 ^ (b - 1) <= z <= 2 ^ (b - 1) - 1) /\ (in_kind (Unsigned b) z = true <-> 0 <= z <= 2 ^ b - 1).
Proof. intros _. cbn [in_kind]. rewrite !Bool.andb_true_iff, !Z.leb_le, !Z.ltb_lt. lia. Qed.
Example C29_integers_covered_example : in_kind (Unsigned 64) 0 = true /\ in_kind (Unsigned 64) 18446744073709551615 = true /\ in_kind (Signed 8) (-128) = true.
Proof. repeat split. Qed.

(** Marshal (or MarshalAll) a value [v] of type [t], and Unmarshal the result
    into a new variable of type [t] in any memory: this succeeds, the variable
    then holds the same value as [v], whatever pointers one follows, and nothing
    that existed before has changed; provided that
    - types are [restorable] and what the graph holds is of its types,
    - fields with the string option hold scalars that their text means,
    - Marshal leaves out nothing but zero values of fields,
    - the JSON value is not a bare number or boolean,
    - and its references come after their nodes. *)
Theorem C29_roundtrip omit st types v j t m0 :
  typed_store env locate parse_time time_json types st -> holds env parse_time time_json types v t -> proper env t -> restorable locate t ->
  texts_survive st v -> only_zeros_dropped omit st None v ->
  marshals omit st v j -> ~ bare_scalar j -> nodes_first j ->
  exists N m', (forall n, (N <= n)%nat -> Unmarshal n (fst (zalloc t m0)) t (snd (zalloc t m0)) j [] = TopOk m') /\
    same_value st v m' (snd (zalloc t m0)) /\
    forall x, (x < length m0)%nat -> nth_error m' x = nth_error m0 x.
Proof using env_proper env_restorable.
  intros Ts H P R Tx Z M NB NF. apply C30_result_encodes_value in M as [(O & D & _)|[_ [f En]]].
  - destruct (Z O None v (S_refl _ _) D) as [X _]. destruct X. reflexivity.
  - eapply (core omit st types [] v j t m0 [] f); try eassumption; [eapply texts_at; [exact Tx|left; reflexivity]|destruct v; try exact Logic.I; left; reflexivity|intros s b []].
Qed.

(** The usual call: Marshal a pointer to an object, Unmarshal into a new
    variable of the object's type.  References to the object itself then lead to
    that variable. *)
Theorem C29_roundtrip_pointer omit st types s v j t m0 :
  typed_store env locate parse_time time_json types st -> nth_error st s = Some v -> nth_error types s = Some t ->
  match t with TPtr _ => basic t | TSer _ _ => False | _ => True end ->
  texts_survive st (GPtr (Some s)) -> only_zeros_dropped omit st None (GPtr (Some s)) ->
  marshals omit st (GPtr (Some s)) j -> ~ bare_scalar j -> nodes_first j ->
  exists N m', (forall n, (N <= n)%nat -> Unmarshal n (fst (zalloc t m0)) t (snd (zalloc t m0)) j [] = TopOk m') /\
    same_value st v m' (snd (zalloc t m0)) /\
    forall x, (x < length m0)%nat -> nth_error m' x = nth_error m0 x.
Proof using env_proper env_restorable.
  intros Ts Ev Et B Tx Z M NB NF. apply C30_result_encodes_value in M as [(O & D & _)|[_ [f En]]].
  { destruct (Z O None _ (S_refl _ _) D) as [X _]. destruct X. reflexivity. }
  pose proof Ts as (T1 & T2 & T3).
  assert (H : holds env parse_time time_json types v t).
  { clear - T1 Ev Et. remember types as ts eqn:Hts in Et, T1 at 2. clear Hts. revert s Ev Et. induction T1 as [|x y l l' Hx _ IH]; intros [|s] E1 E2; try discriminate; [injection E1 as <-; injection E2 as <-; exact Hx|eapply IH; eassumption]. }
  rewrite Forall_forall in T3. destruct (T3 t (nth_error_In _ _ Et)) as [P R].
  inversion En as [? ? ? Hn| | | | | | | | | | |? ? ? ? ? ? Hc| |? ? ? x ? Ex Ex'| | | | | |]; subst.
  - destruct Hn.
  - destruct Hc.
  - destruct (NF [] n [] eq_refl).
  - assert (x = v) by congruence. subst x.
    eapply (core omit st types [s] v j t m0 [(s, snd (zalloc t m0))] f); try eassumption.
    + eapply texts_at; [exact Tx|right; eapply nth_error_In, Ev].
    + intros O i' w Sb D. apply (Z O i' w); [|exact D]. eapply S_ptr; eassumption.
    + destruct v; try exact Logic.I.
      * right. exists s. split; [reflexivity|]. split; [left; reflexivity|exact Et].
      * right. exists s. split; [reflexivity|]. split; [left; reflexivity|exact Et].
      * right. clear - H B. match type of H with holds _ _ _ _ (GPtr ?p) _ => destruct p end; destruct t; try contradiction H; exact B.
      * exfalso. clear - H B. destruct t; try absurd_holds H. exact B.
    + intros s' b [E|[]]. injection E as <- <-. auto.
Qed.

(** What the types say about a graph. *)
Definition tagged_value (v : gval) : Prop :=
  (forall fs, In fs (structs v) -> no_deprecated fs /\ NoDup (emitted_names fs)) /\
  (forall m, In m (maps v) -> NoDup (map fst m)) /\
  (forall j, In j (held_json v) -> SpecMarshal.node_ids j = [] /\ ref_ids j = []).
Lemma typed_value types v : forall t, holds env parse_time time_json types v t -> restorable locate t ->
  (forall a, In a (pointers v) -> (a < length types)%nat) /\ tagged_value v.
Proof using env_restorable.
  assert (NONE : forall x, pointers x = [] -> structs x = [] -> maps x = [] -> (forall j, In j (held_json x) -> node_ids j = [] /\ ref_ids j = []) ->
    (forall a, In a (pointers x) -> (a < length types)%nat) /\ tagged_value x).
  { intros x -> E2 E3 E4. split; [intros a []|]. split; [rewrite E2; intros fs []|]. split; [rewrite E3; intros m []|exact E4]. }
  induction v as [b|k z|bit f|s|o|o| |l IH|l IH| |m IH|fs IH|a0| |v IH|j|j|j|j|] using gval_ind'; intros t H R;
    try (apply NONE; [reflexivity..|intros j' []]; fail).
  - destruct t; try contradiction H. apply holds_slice in H. apply (restorable_slice env locate env_restorable) in R. rewrite Forall_forall in IH, H.
    split; [|split; [|split]]; cbn [pointers structs maps held_json]; intros x I; apply in_flat_map in I as (y & Iy & I); destruct (IH y Iy _ (H y Iy) R) as (A & B1 & B2 & B3); auto.
  - destruct t; try contradiction H. apply holds_array in H as [_ H]. cbn [restorable] in R. rewrite Forall_forall in IH, H.
    split; [|split; [|split]]; cbn [pointers structs maps held_json]; intros x I; apply in_flat_map in I as (y & Iy & I); destruct (IH y Iy _ (H y Iy) R) as (A & B1 & B2 & B3); auto.
  - destruct t; try contradiction H. apply holds_map in H as [S H]. apply (restorable_map env locate env_restorable) in R. rewrite Forall_forall in IH, H.
    split; [|split; [|split]]; cbn [pointers structs maps held_json]; intros x I.
    3: destruct I as [<-|I]; [apply sm_ok_nodup, S|].
    all: apply in_flat_map in I as (y & Iy & I); destruct (IH y Iy _ (H y Iy) R) as (A & B1 & B2 & B3); auto.
  - destruct t as [| | | | | | | | | | | | | | | | | | | |]; try contradiction H. apply holds_struct in H.
    assert (G : forall g w, In (g, w) fs -> exists t', In (g, t') fs0 /\ holds env parse_time time_json types w t' /\ restorable locate t').
    { intros g w I. apply In_nth_error in I as [i E]. destruct (F2_nth_l _ _ _ H i _ E) as ([g' t'] & E' & Eg & Hw). cbn [fst snd] in *. subst g'.
      apply nth_error_In in E'. exists t'. split; [exact E'|]. split; [exact Hw|]. eapply restorable_field; eassumption. }
    rewrite Forall_forall in IH. destruct R as [(R1 & R2 & R3) _].
    split; [|split; [|split]]; cbn [pointers structs maps held_json]; intros x I.
    2: destruct I as [<-|I].
    2: { split.
      - intros g w Iw _. destruct (G g w Iw) as (t' & It & _). apply (R1 g t' It).
      - assert (E : emitted_names fs = map (fun ft => fi_name (fst ft)) fs0).
        { assert (X : forall g w, In (g, w) fs -> fi_ignore g = false) by (intros g w Iw; destruct (G g w Iw) as (t' & It & _); apply (R1 g t' It)).
          clear - H X. unfold emitted_names. induction H as [|[g w] [g' t'] l l' [Eg _] _ IHl]; [reflexivity|]. cbn [filter fst map]. rewrite (X g w (or_introl eq_refl)). cbn [negb map fst].
          cbn [fst] in Eg. subst g'. f_equal. apply IHl. intros g0 w0 I0. apply (X g0 w0). right. exact I0. }
        rewrite E. exact R2. }
    all: apply in_flat_map in I as ([g w] & Iy & I); destruct (G g w Iy) as (t' & _ & Hw & Rw); destruct (IH _ Iy t' Hw Rw) as (A & B1 & B2 & B3); auto.
  - destruct a0 as [s|]; [|apply NONE; [reflexivity..|intros j' []]]. destruct t; try contradiction H. apply holds_ptr_type in H.
    split; [intros a [<-|[]]; eapply nth_error_lt; exact H|]. split; [|split]; intros ? [].
  - destruct (holds_iface env parse_time time_json types _ _ H) as (s & k & c & -> & -> & Et). exact (IH (TPtr (TNamed c)) Et Logic.I).
  - destruct j as [j|]; [|apply NONE; [reflexivity..|intros j' []]]. destruct t; try contradiction H. destruct H as [(_ & H) _]. apply NONE; [reflexivity..|]. intros j' [<-|[]]. exact H.
  - destruct j as [j|]; [|apply NONE; [reflexivity..|intros j' []]]. destruct t; try contradiction H. destruct H as (_ & H). apply NONE; [reflexivity..|]. intros j' [<-|[]]. exact H.
  - destruct t; contradiction.
  - assert (P : pure_json j) by (destruct t as [| | | | | | | | | |t| | | | | | | | | |]; try absurd_holds H; [destruct t; try absurd_holds H|]; first [exact H|exact (proj1 H)]). destruct P as [_ P].
    apply NONE; [reflexivity..|]. intros j' [<-|[]]. exact P.
Qed.

(** Fields with the string option hold single values if pointers lead to structs
    and maps only. *)
Lemma typed_flat types st : typed_store env locate parse_time time_json types st -> Forall struct_or_map st -> forall v t, holds env parse_time time_json types v t -> restorable locate t ->
  forall i, texts st i v -> forall fs, In fs (structs v) -> text_fields_flat fs.
Proof using env_restorable.
  intros (T1 & T2 & T3) Sm. rewrite Forall_forall in T2, Sm.
  assert (Obj : forall s t, nth_error types s = Some t -> exists x, nth_error st s = Some x /\ match x with GStruct _ | GMap (Some _) => True | _ => False end).
  { intros s t E. destruct (Forall2_nth _ _ _ _ _ T1 E) as (x & Ex & _). exists x. split; [exact Ex|]. apply nth_error_In in Ex. specialize (T2 x Ex). specialize (Sm x Ex).
    destruct x as [| | | | | | | |[]| | | | | | | |]; try contradiction Sm; try exact Logic.I; apply T2; exact Logic.I. }
  induction v as [b|k z|bit f|s|o|o| |l IH|l IH| |m IH|fs0 IH|a0| |v IH|j|j|j|j|] using gval_ind'; intros t H R i Tx fs I; try (destruct I; fail).
  - destruct t; try contradiction H. apply holds_slice in H. apply (restorable_slice env locate env_restorable) in R. rewrite Forall_forall in IH, H.
    cbn [structs] in I. apply in_flat_map in I as (y & Iy & I). eapply (IH y Iy _ (H y Iy) R None); [|exact I]. eapply texts_sub; [|exact Tx]. intros p. apply S_slice, Iy.
  - destruct t; try contradiction H. apply holds_array in H as [_ H]. cbn [restorable] in R. rewrite Forall_forall in IH, H.
    cbn [structs] in I. apply in_flat_map in I as (y & Iy & I). eapply (IH y Iy _ (H y Iy) R None); [|exact I]. eapply texts_sub; [|exact Tx]. intros p. apply S_array, Iy.
  - destruct t; try contradiction H. apply holds_map in H as [S H]. apply (restorable_map env locate env_restorable) in R. rewrite Forall_forall in IH, H.
    cbn [structs] in I. apply in_flat_map in I as ([k y] & Iy & I). eapply (IH _ Iy _ (H _ Iy) R None); [|exact I]. eapply texts_sub; [|exact Tx]. intros p. eapply S_map, Iy.
  - destruct I as [I|I].
  + subst fs. destruct t as [| | | | | | | | | | | | | | | | | | | |]; try contradiction H. apply holds_struct in H. intros g w Iw _ Fg.
    apply In_nth_error in Iw as [q E]. destruct (F2_nth_l _ _ _ H q _ E) as ([g' t'] & E' & Eg & Hw). cbn [fst snd] in *. subst g'. apply nth_error_In in E'. destruct R as [(R1 & _) _]. destruct (R1 g t' E') as [Ig Dg].
    assert (Tw : texts st (Some g) w) by (eapply texts_sub; [|exact Tx]; intros p; apply S_field; [eapply nth_error_In, E|exact Ig|exact Dg]).
    assert (Ptr : forall s t0, texts st (Some g) (GPtr (Some s)) -> nth_error types s = Some t0 -> False).
    { intros s t0 Ts Es. destruct (Obj s t0 Es) as (x & Ex & Cx). pose proof (texts_here match_us match_eu to_bool std_ok st _ _ (texts_ptr match_us match_eu to_bool std_ok st _ _ _ Ex Ts) Fg) as [_ X].
      destruct x as [| | | | | | | |[]| | | | | | | |]; contradiction. }
    pose proof (texts_here match_us match_eu to_bool std_ok st _ _ Tw Fg) as [_ X].
    destruct w as [| | | | | |[]| |[]| |[s|]|[w|]| | | | |]; try exact Logic.I; try contradiction X; cbn [single_value].
    * destruct t'; try absurd_holds Hw. apply holds_ptr_type in Hw. eapply Ptr; [exact Tw|exact Hw].
    * destruct (holds_iface env parse_time time_json types _ _ Hw) as (s & k & c & -> & -> & Et). eapply Ptr; [|exact Et]. eapply texts_sub; [|exact Tw]. intros p. apply S_iface.
  + destruct t as [| | | | | | | | | | | | | | | | | | | |]; try contradiction H. rewrite Forall_forall in IH. pose proof (holds_struct _ _ _ _ _ _ _ H) as H2.
    apply in_flat_map in I as ([g w] & Iw & I). pose proof Iw as Iw0. apply In_nth_error in Iw0 as [q E]. destruct (F2_nth_l _ _ _ H2 q _ E) as ([g' t'] & E' & Eg & Hw). cbn [fst snd] in *. subst g'. apply nth_error_In in E'.
    eapply (IH _ Iw t' Hw); [eapply restorable_field; eassumption| |exact I]. destruct R as [(R1 & _) _]. destruct (R1 g t' E') as [Ig Dg]. eapply texts_sub; [|exact Tx]; intros p; apply S_field; [exact Iw|exact Ig|exact Dg].
  - destruct (holds_iface env parse_time time_json types _ _ H) as (s & k & c & -> & -> & Et). destruct I.
Qed.

Lemma typed_store_plain types st : typed_store env locate parse_time time_json types st ->
  Forall tagged_value st /\ (forall x a, In x st -> In a (pointers x) -> (a < length st)%nat).
Proof using env_restorable.
  intros (T1 & _ & T3). pose proof (F2_length _ _ _ T1) as L.
  assert (G : forall x, In x st -> exists t, holds env parse_time time_json types x t /\ restorable locate t).
  { intros x I. apply In_nth_error in I as [i E]. destruct (F2_nth_l _ _ _ T1 i _ E) as (t & Et & H). exists t. split; [exact H|].
    rewrite Forall_forall in T3. apply (T3 t). eapply nth_error_In, Et. }
  split.
  - apply Forall_forall. intros x I. destruct (G x I) as (t & H & R). eapply typed_value; eassumption.
  - intros x a I Ia. destruct (G x I) as (t & H & R). rewrite L. eapply (proj1 (typed_value types x t H R)), Ia.
Qed.

Lemma plain_tagged x : tagged_value x -> (forall fs, In fs (structs x) -> text_fields_flat fs) -> plain_value x.
Proof using. intros (A & B & C) F. split; [intros fs I; split; [apply F, I|apply A, I]|]. split; assumption. Qed.

Lemma typed_plain types st v : typed_store env locate parse_time time_json types st -> Forall struct_or_map st -> texts_survive st v -> Forall plain_value st.
Proof using env_restorable.
  intros Ts Sm Tx. destruct (typed_store_plain types st Ts) as [P _]. rewrite Forall_forall in P |- *. intros x I. apply plain_tagged; [apply P, I|].
  pose proof Ts as (T1 & _ & T3). pose proof I as I0. apply In_nth_error in I0 as [i E]. destruct (F2_nth_l _ _ _ T1 i _ E) as (t & Et & H).
  rewrite Forall_forall in T3. eapply (typed_flat types st Ts Sm x t H); [apply (T3 t); eapply nth_error_In, Et|eapply texts_at; [exact Tx|right; exact I]].
Qed.

Lemma typed_plain_graph types st v t : typed_store env locate parse_time time_json types st -> holds env parse_time time_json types v t -> restorable locate t ->
  Forall struct_or_map st -> texts_survive st v -> plain_graph st v.
Proof using env_restorable.
  intros Ts H R S Tx. destruct (typed_store_plain types st Ts) as [_ G]. destruct (typed_value types v t H R) as [A B].
  split; [|split; [apply plain_tagged; [exact B|]; eapply (typed_flat types st Ts S v t H R); eapply texts_at; [exact Tx|left; reflexivity]|split; [eapply typed_plain; eassumption|exact S]]]. intros x a [->|I] Ia; [|eapply G; eassumption].
  destruct Ts as (T1 & _). rewrite (F2_length _ _ _ T1). apply A, Ia.
Qed.

(** The two ways of knowing that nodes come first: without cycles, or with
    fields in the order of their names and pointers to structs and maps only. *)
Definition tame (st : store) (v : gval) : Prop :=
  acyclic st \/ (Forall struct_or_map st /\ in_name_order v /\ Forall in_name_order st).

Lemma tame_first omit types st v t j : typed_store env locate parse_time time_json types st -> holds env parse_time time_json types v t -> restorable locate t ->
  texts_survive st v -> tame st v -> marshals omit st v j -> nodes_first j.
Proof using env_restorable.
  intros Ts H R Tx [A|(S & O1 & O2)] M.
  - destruct (typed_store_plain types st Ts) as [P _]. destruct (typed_value types v t H R) as [_ (_ & _ & B)].
    apply no_refs_first. eapply C31_acyclic_no_references; [exact A|exact B| |exact M]. eapply Forall_impl; [|exact P]. intros x (_ & _ & X). exact X.
  - eapply C31_nodes_before_references; [eapply typed_plain_graph; eassumption|exact O1|exact O2|exact M].
Qed.

Theorem C29_roundtrip_tame omit st types v j t m0 :
  typed_store env locate parse_time time_json types st -> holds env parse_time time_json types v t -> proper env t -> restorable locate t ->
  texts_survive st v -> tame st v -> only_zeros_dropped omit st None v -> marshals omit st v j -> ~ bare_scalar j ->
  exists N m', (forall n, (N <= n)%nat -> Unmarshal n (fst (zalloc t m0)) t (snd (zalloc t m0)) j [] = TopOk m') /\
    same_value st v m' (snd (zalloc t m0)) /\
    forall x, (x < length m0)%nat -> nth_error m' x = nth_error m0 x.
Proof using env_proper env_restorable.
  intros Ts H P R Tx T Z M NB. eapply C29_roundtrip; try eassumption. eapply tame_first; eassumption.
Qed.

(** From the object behind a pointer to a new variable, all in one: Marshal
    returns, and so does Unmarshal of what it returned. *)
Theorem C29_object_roundtrip omit pick st types s v t m0 : chooses pick ->
  typed_store env locate parse_time time_json types st -> nth_error st s = Some v -> nth_error types s = Some t ->
  match t with TStruct _ _ | TMap _ | TSlice _ | TArray _ _ => True | _ => False end ->
  texts_survive st (GPtr (Some s)) -> tame st (GPtr (Some s)) -> only_zeros_dropped omit st None (GPtr (Some s)) ->
  exists N j m', forall n, (N <= n)%nat ->
    marshal_with omit pick n st (Some (GPtr (Some s))) = Some j /\
    Unmarshal n (fst (zalloc t m0)) t (snd (zalloc t m0)) j [] = TopOk m' /\
    same_value st v m' (snd (zalloc t m0)) /\
    forall x, (x < length m0)%nat -> nth_error m' x = nth_error m0 x.
Proof using env_proper env_restorable.
  intros HP Ts Ev Et Ct Tx Tm Z. destruct (typed_store_plain types st Ts) as [Pl G].
  pose proof Ts as (T1 & T2 & T3).
  destruct (F2_nth_l _ _ _ T1 s v Ev) as (t0 & E0 & H). assert (t0 = t) by congruence. subst t0.
  rewrite Forall_forall in T3. destruct (T3 t (nth_error_In _ _ Et)) as [P R].
  destruct (C31_terminates omit pick st (GPtr (Some s))) as (N1 & j & M).
  { intros x a [->|I] Ia; [destruct Ia as [<-|[]]; eapply nth_error_lt; exact Ev|eapply G; eassumption]. }
  { intros x fs k [->|I] If (b & L & (c & Tc & _) & _); [destruct If|]. rewrite Forall_forall in Pl. destruct (Pl x I) as (Px & _). destruct (Px fs If) as (D & _).
    clear - Tc D. assert (tag_of fs b = None); [|congruence]. clear Tc. induction fs as [|[g w] fs IH]; [reflexivity|]. cbn [tag_of].
    rewrite IH by (intros g' w' I' G'; apply (D g' w'); [right; exact I'|exact G']). destruct (fi_ignore g) eqn:Ig; [reflexivity|]. cbn [negb andb].
    destruct (bseq (fi_name g) b); [|reflexivity]. apply (D g w); [left; reflexivity|exact Ig]. }
  assert (Mj : marshals omit st (GPtr (Some s)) j) by (exists pick, N1; split; [exact HP|apply M, Nat.le_refl]).
  assert (NF : nodes_first j).
  { destruct Tm as [A|(S & O1 & O2)].
    - apply no_refs_first. eapply (C31_acyclic_no_references omit st (GPtr (Some s))); [exact A|intros j' []| |exact Mj]. eapply Forall_impl; [|exact Pl]. intros x (_ & _ & X). exact X.
    - eapply (C31_nodes_before_references omit st (GPtr (Some s))); [|exact O1|exact O2|exact Mj]. split; [|split; [split; [|split]; intros ? []|split; [eapply typed_plain; eassumption|assumption]]].
      intros x a [->|I] Ia; [destruct Ia as [<-|[]]; eapply nth_error_lt; exact Ev|eapply G; eassumption]. }
  assert (NB : ~ bare_scalar j).
  { pose proof (C30_result_encodes_value _ _ _ _ Mj) as [(O & D & _)|[_ [f En]]]; [destruct (Z O None _ (S_refl _ _) D) as [X _]; destruct X; reflexivity|].
    inversion En as [? ? ? Hn| | | | | | | | | | |? ? ? ? ? ? Hc| |? ? ? x ? Ex Ex'| | | | | |]; subst; [destruct Hn|destruct Hc|exact (fun X => X)|].
    assert (x = v) by congruence. subst x. destruct t; try contradiction Ct; destruct v; try absurd_holds H; inversion Ex'; subst; cbn; try exact (fun X => X); try discriminate; try contradiction. }
  destruct (C29_roundtrip_pointer omit st types s v j t m0) as (N2 & m' & U & S & K); try assumption; [destruct t; try exact Logic.I; contradiction|].
  exists (N1 + N2)%nat, j, m'. intros n L. split; [apply M; lia|]. split; [apply U; lia|]. split; assumption.
Qed.
End C29.

Lemma Unmarshal_more env locate match_us match_eu to_bool parse_time time_json std_ok n n' m t a j keys : (n <= n')%nat ->
  Unmarshal env locate match_us match_eu to_bool parse_time time_json std_ok n m t a j keys <> TopFuel ->
  Unmarshal env locate match_us match_eu to_bool parse_time time_json std_ok n' m t a j keys =
  Unmarshal env locate match_us match_eu to_bool parse_time time_json std_ok n m t a j keys.
Proof.
  intros L. unfold Unmarshal.Unmarshal. destruct (match keys with [] => ROk (receiver j) | _ => _ end) as [jo|e]; [|reflexivity].
  intros N. rewrite (UnmMono.unm_mono env locate match_us match_eu to_bool parse_time time_json std_ok n n' _ _ _ _ L); [reflexivity|]. intros X. rewrite X in N. apply N. reflexivity.
Qed.

(** ** Examples *)

(** What [sub] leads to, for concrete graphs. *)
Definition children (st : store) (p : option finfo * gval) : list (option finfo * gval) :=
  match snd p with
  | GSlice (Some l) | GArray l => map (fun x => (None, x)) l
  | GMap (Some m) => map (fun kx => (None, snd kx)) m
  | GStruct fs => map (fun fx => (Some (fst fx), snd fx)) fs
  | GPtr (Some a) => match nth_error st a with Some x => [(fst p, x)] | None => [] end
  | GIface (Some x) => [(fst p, x)]
  | _ => []
  end.
Lemma sub_closed st L : (forall p, In p L -> incl (children st p) L) -> forall p q, sub st p q -> In p L -> In q L.
Proof.
  intros H p q S. induction S as [p|i l x p I S IH|i l x p I S IH|i m k x p I S IH|i fs y x p I I1 I2 S IH|i a x p I S IH|i x p S IH]; intros Ip; [exact Ip|..]; apply IH, (H _ Ip); cbn.
  - apply (in_map (fun x => (None, x))), I.
  - apply (in_map (fun x => (None, x))), I.
  - apply (in_map (fun kx : bytes * gval => (@None finfo, snd kx))) in I. exact I.
  - apply (in_map (fun fx : finfo * gval => (Some (fst fx), snd fx))) in I. exact I.
  - rewrite I. left. reflexivity.
  - left. reflexivity.
Qed.

Definition unflagged (i : option finfo) : Prop :=
  match i with Some x => fi_omit_empty x = false /\ fi_omit_zero x = false /\ fi_omit_false x = false | None => True end.
Lemma unflagged_has i p : unflagged i -> has i p -> p = fi_omit_empty \/ p = fi_omit_zero \/ p = fi_omit_false -> False.
Proof. intros U (x & -> & P) [->|[->| ->]]; cbn in U; intuition congruence. Qed.
Lemma unflagged_dropped st i w : unflagged i -> dropped st i w -> leads_to_nil st w.
Proof.
  intros U D. induction D as [i v H|i k z H H'|i b x H H'|i H|i v H H'|i fs H H' _|i a x E D IH|i x D IH]; try (exfalso; eapply unflagged_has; [exact U|exact H|tauto]).
  - apply N_nil, H.
  - eapply N_ptr; eauto.
  - apply N_iface; auto.
Qed.
Lemma zeros_ok omit st L i v : (forall p, In p L -> incl (children st p) L) -> In (i, v) L ->
  (forall i w, In (i, w) L -> unflagged i /\ (is_nil w -> i <> None) /\ match w with GIface (Some (GPtr (Some _))) | GIface None => True | GIface _ => False | _ => True end) ->
  Forall (fun x => ~ leads_to_nil st x) st -> only_zeros_dropped omit st i v.
Proof.
  intros C Iv K N _ i' w S D. pose proof (sub_closed st L C _ _ S Iv) as Iw. destruct (K i' w Iw) as (U & H & G).
  apply (unflagged_dropped _ _ _ U) in D. inversion D as [x Hn|a x Ex Dx|x Dx]; subst.
  - split; [apply H, Hn|apply z_nil, Hn].
  - exfalso. rewrite Forall_forall in N. eapply N; [eapply nth_error_In, Ex|exact Dx].
  - exfalso. destruct x as [| | | | | | | | | |[a|]| | | | | |]; try contradiction G. inversion Dx as [? Hn|? y Ey Dy|]; [exact Hn|]. rewrite Forall_forall in N. eapply N; [eapply nth_error_In, Ey|exact Dy].
Qed.

(** Without the string option there is nothing to ask for. *)
Lemma no_option_texts match_us match_eu to_bool std_ok st v :
  (forall x fs g w, x = v \/ In x st -> In fs (structs x) -> In (g, w) fs -> fi_force_string g = false) -> (forall s, std_ok s = true) -> texts_survive match_us match_eu to_bool std_ok st v.
Proof.
  intros N So x i w Ix S. split; [|destruct w; auto; apply So]. intros Fi. exfalso.
  assert (K : forall p q, sub st p q -> forced (fst p) = false -> (forall fs g y, In fs (structs (snd p)) -> In (g, y) fs -> fi_force_string g = false) -> forced (fst q) = false).
  { intros p q Sq. induction Sq as [p|i' l y p I Sq IH|i' l y p I Sq IH|i' m k y p I Sq IH|i' fs y z p I I1 I2 Sq IH|i' a y p I Sq IH|i' y p Sq IH]; intros H1 H2; [exact H1|..]; apply IH; cbn [fst snd] in *; try reflexivity; try exact H1.
    - intros fs g z If Ig. apply (H2 fs g z); [|exact Ig]. cbn [structs]. apply in_flat_map. exists y. split; assumption.
    - intros fs g z If Ig. apply (H2 fs g z); [|exact Ig]. cbn [structs]. apply in_flat_map. exists y. split; assumption.
    - intros fs g z If Ig. apply (H2 fs g z); [|exact Ig]. cbn [structs]. apply in_flat_map. exists (k, y). split; assumption.
    - cbn [forced]. apply (H2 fs y z); [left; reflexivity|exact I].
    - intros gs g u If Ig. apply (H2 gs g u); [|exact Ig]. cbn [structs]. right. apply in_flat_map. exists (y, z). split; assumption.
    - intros fs g z If Ig. apply (N y fs g z); [right; eapply nth_error_In, I|exact If|exact Ig].
    - exact H2. }
  specialize (K _ _ S eq_refl (fun fs g y => N x fs g y Ix)). cbn [fst] in K. congruence.
Qed.
Ltac no_option := apply no_option_texts; [|reflexivity]; let x := fresh in let I := fresh in intros x fs g w I If Ig;
  destruct I as [->|I]; [repeat (destruct If as [<-|If]; [repeat (destruct Ig as [Ig|Ig]; [injection Ig as <- <-; reflexivity|]); destruct Ig|]); destruct If|];
  repeat (destruct I as [<-|I]; [repeat (destruct If as [<-|If]; [repeat (destruct Ig as [Ig|Ig]; [injection Ig as <- <-; reflexivity|]); destruct Ig|]); destruct If|]);
  destruct I.

(** type node struct { N int; Next *node; Tags []string; Up *node } *)
Definition rt_env (n : nat) : list (finfo * gty) :=
  match n with
  | 0%nat => [(plain (nm "n"), TInt (Signed 64)); (plain (nm "next"), TPtr (TNamed 0)); (plain (nm "tags"), TSlice TString); (plain (nm "up"), TPtr (TNamed 0))]
  | _ => []
  end.
Definition rt_store : store :=
  [ GStruct [(plain (nm "n"), GInt (Signed 64) 7); (plain (nm "next"), GPtr (Some 1%nat)); (plain (nm "tags"), GSlice (Some [GString (nm "x")])); (plain (nm "up"), GPtr None)];
    GStruct [(plain (nm "n"), GInt (Signed 64) (-8)); (plain (nm "next"), GPtr (Some 0%nat)); (plain (nm "tags"), GSlice None); (plain (nm "up"), GPtr (Some 1%nat))] ].
Definition rt_t : gty := TStruct 0 (rt_env 0).
Definition rt_types : list gty := [rt_t; rt_t].
Definition rt_unm := Unmarshal rt_env by_name (fun _ => false) (fun _ => false) (fun _ => true) (fun _ => None) (fun _ => None) (fun _ => true).

Lemma rt_env_ok : env_ok rt_env.
Proof. intros [|n]; cbn; repeat split. Qed.
Lemma rt_restorable n : restorable by_name (TStruct n (rt_env n)).
Proof.
  destruct n as [|n]; cbn [rt_env restorable].
  - split; [|cbn; unfold word; tauto]. split; [|split].
    + intros f t [E|[E|[E|[E|[]]]]]; injection E as <- <-; repeat split.
    + repeat constructor; cbn; intuition discriminate.
    + intros [|[|[|[|i]]]] f t E; try (injection E as <- <-; reflexivity). destruct i; discriminate.
  - split; [|exact Logic.I]. split; [intros f t []|]. split; [constructor|]. intros [|i] f t E; discriminate.
Qed.
Lemma rt_typed : typed_store rt_env by_name (fun _ => None) (fun _ => None) rt_types rt_store.
Proof.
  split; [constructor; [|constructor; [|constructor]]; cbn; tauto|]. split; [repeat constructor; intros []|].
  constructor; [|constructor; [|constructor]]; (split; [exact (rt_env_ok 0%nat)|exact (rt_restorable 0)]).
Qed.
Lemma rt_zeros : only_zeros_dropped true rt_store None (GPtr (Some 0%nat)).
Proof.
  set (n0 := nth 0 rt_store GOther). set (n1 := nth 1 rt_store GOther).
  set (L0 := [(@None finfo, GPtr (Some 0%nat)); (None, n0); (None, GString (nm "x"))] ++ children rt_store (None, n0) ++ children rt_store (None, n1) ++
             [(Some (plain (nm "next")), n0); (Some (plain (nm "next")), n1); (Some (plain (nm "up")), n1)]).
  apply (zeros_ok true rt_store L0).
  - intros p Ip. cbn in Ip. repeat (destruct Ip as [<-|Ip]; [intros q Iq; cbn in Iq; repeat (destruct Iq as [<-|Iq]; [cbn; tauto|]); destruct Iq|]). destruct Ip.
  - left. reflexivity.
  - intros i w Ip. cbn in Ip. repeat (destruct Ip as [E|Ip]; [injection E as <- <-; cbn; repeat split; try discriminate; tauto|]). destruct Ip.
  - repeat constructor; intros H; inversion H as [? X| |]; destruct X.
Qed.
Lemma rt_tame : tame rt_store (GPtr (Some 0%nat)).
Proof.
  right. split; [repeat constructor|]. split; [split; intros ? []|].
  repeat constructor; [intros fs [<-|[]]|intros m []|intros fs [<-|[]]|intros m []]; repeat constructor.
Qed.

(** Two nodes that point at each other, one also at itself. *)
Example C29_example m0 : exists N j m', forall n, (N <= n)%nat ->
  Marshal hd n rt_store (Some (GPtr (Some 0%nat))) = Some j /\
  rt_unm n (fst (zalloc rt_t m0)) rt_t (snd (zalloc rt_t m0)) j [] = TopOk m' /\
  same_value (fun _ => None) rt_store (nth 0 rt_store GOther) m' (snd (zalloc rt_t m0)) /\
  forall x, (x < length m0)%nat -> nth_error m' x = nth_error m0 x.
Proof.
  apply (C29_object_roundtrip rt_env by_name (fun _ => false) (fun _ => false) (fun _ => true) (fun _ => None) (fun _ => None) (fun _ => true)
    rt_env_ok rt_restorable true hd rt_store rt_types 0%nat); try reflexivity.
  - apply hd_chooses.
  - apply rt_typed.
  - no_option.
  - apply rt_tame.
  - apply rt_zeros.
Qed.

(** Interfaces that are filled in by their factories: type Shape interface with
    the methods of ISerializable, made as *square; type page struct { A, B, C
    Shape }, type square struct { Back *page; N int }.  Both of the fields A and B
    hold the same square, C is nil, and the square points back to the page. *)
Definition sr_env (n : nat) : list (finfo * gty) :=
  match n with
  | 0%nat => [(plain (nm "a"), TSer 7 (Makes 1)); (plain (nm "b"), TSer 7 (Makes 1)); (plain (nm "c"), TSer 7 (Makes 1))]
  | 1%nat => [(plain (nm "back"), TPtr (TNamed 0)); (plain (nm "n"), TInt (Signed 64))]
  | _ => []
  end.
Definition sr_store : store :=
  [ GStruct [(plain (nm "a"), GIface (Some (GPtr (Some 1%nat)))); (plain (nm "b"), GIface (Some (GPtr (Some 1%nat)))); (plain (nm "c"), GIface None)];
    GStruct [(plain (nm "back"), GPtr (Some 0%nat)); (plain (nm "n"), GInt (Signed 64) 4)] ].
Definition sr_types : list gty := [TStruct 0 (sr_env 0); TStruct 1 (sr_env 1)].
Definition sr_unm := Unmarshal sr_env by_name (fun _ => false) (fun _ => false) (fun _ => true) (fun _ => None) (fun _ => None) (fun _ => true).
Lemma sr_env_ok : env_ok sr_env.
Proof. intros [|[|n]]; cbn; repeat split. Qed.
Lemma sr_restorable n : restorable by_name (TStruct n (sr_env n)).
Proof.
  destruct n as [|[|n]]; cbn [sr_env restorable].
  - split; [|cbn; tauto]. split; [|split].
    + intros f t [E|[E|[E|[]]]]; injection E as <- <-; repeat split.
    + repeat constructor; cbn; intuition discriminate.
    + intros [|[|[|i]]] f t E; try (injection E as <- <-; reflexivity). destruct i; discriminate.
  - split; [|cbn; unfold word; tauto]. split; [|split].
    + intros f t [E|[E|[]]]; injection E as <- <-; repeat split.
    + repeat constructor; cbn; intuition discriminate.
    + intros [|[|i]] f t E; try (injection E as <- <-; reflexivity). destruct i; discriminate.
  - split; [|exact Logic.I]. split; [intros f t []|]. split; [constructor|]. intros [|i] f t E; discriminate.
Qed.
Lemma sr_typed : typed_store sr_env by_name (fun _ => None) (fun _ => None) sr_types sr_store.
Proof.
  split; [constructor; [|constructor; [|constructor]]; cbn; tauto|]. split; [repeat constructor; intros []|].
  constructor; [|constructor; [|constructor]]; [split; [exact (sr_env_ok 0%nat)|exact (sr_restorable 0)]|split; [exact (sr_env_ok 1%nat)|exact (sr_restorable 1)]].
Qed.
Lemma sr_zeros : only_zeros_dropped true sr_store None (GPtr (Some 0%nat)).
Proof.
  set (n0 := nth 0 sr_store GOther). set (n1 := nth 1 sr_store GOther). set (fa := Some (plain (nm "a"))). set (fb := Some (plain (nm "b"))). set (bk := Some (plain (nm "back"))).
  set (L0 := [(@None finfo, GPtr (Some 0%nat)); (None, n0); (bk, n0); (fa, n1); (fb, n1); (fa, GPtr (Some 1%nat)); (fb, GPtr (Some 1%nat))] ++ children sr_store (None, n0) ++ children sr_store (None, n1)).
  apply (zeros_ok true sr_store L0).
  - intros p Ip. cbn in Ip. repeat (destruct Ip as [<-|Ip]; [intros q Iq; cbn in Iq; repeat (destruct Iq as [<-|Iq]; [cbn; tauto|]); destruct Iq|]). destruct Ip.
  - left. reflexivity.
  - intros i w Ip. cbn in Ip. repeat (destruct Ip as [E|Ip]; [injection E as <- <-; cbn; repeat split; try discriminate; tauto|]). destruct Ip.
  - repeat constructor; intros H; inversion H as [? X| |]; destruct X.
Qed.
Lemma sr_tame : tame sr_store (GPtr (Some 0%nat)).
Proof.
  right. split; [repeat constructor|]. split; [split; intros ? []|].
  repeat constructor; [intros fs [<-|[]]|intros m []|intros fs [<-|[]]|intros m []]; repeat constructor.
Qed.
Example C29_interfaces_example m0 : exists N j m', forall n, (N <= n)%nat ->
  Marshal hd n sr_store (Some (GPtr (Some 0%nat))) = Some j /\
  sr_unm n (fst (zalloc (TStruct 0 (sr_env 0)) m0)) (TStruct 0 (sr_env 0)) (snd (zalloc (TStruct 0 (sr_env 0)) m0)) j [] = TopOk m' /\
  same_value (fun _ => None) sr_store (nth 0 sr_store GOther) m' (snd (zalloc (TStruct 0 (sr_env 0)) m0)) /\
  forall x, (x < length m0)%nat -> nth_error m' x = nth_error m0 x.
Proof.
  apply (C29_object_roundtrip sr_env by_name (fun _ => false) (fun _ => false) (fun _ => true) (fun _ => None) (fun _ => None) (fun _ => true)
    sr_env_ok sr_restorable true hd sr_store sr_types 0%nat); try reflexivity.
  - apply hd_chooses.
  - apply sr_typed.
  - no_option.
  - apply sr_tame.
  - apply sr_zeros.
Qed.

(** Fields with the string option: type row struct { B bool
    `json:"b,string"`; F float64 `json:"f,string"`; N int `json:"n,string"`; Next *row }.  Two rows
    that point at each other. *)
Definition as_text (n : string) : finfo :=
  {| fi_name := nm n; fi_ignore := false; fi_omit_empty := false; fi_omit_zero := false; fi_omit_false := false; fi_force_string := true; fi_deprecated_by := None |}.
Definition so_env (n : nat) : list (finfo * gty) :=
  match n with
  | 0%nat => [(as_text "b", TBool); (as_text "f", TFloat 64); (as_text "n", TInt (Signed 64)); (plain (nm "next"), TPtr (TNamed 0))]
  | _ => []
  end.
Definition so_row (n : Z) (b : bool) (f : fl) (next : nat) : gval :=
  GStruct [(as_text "b", GBool b); (as_text "f", GFloat 64 f); (as_text "n", GInt (Signed 64) n); (plain (nm "next"), GPtr (Some next))].
Definition so_store : store := [so_row (-5) true (FFin true 5629499534213120 (-51)) 1; so_row 12 false (FFin false 4503599627370496 (-53)) 0].
Definition so_t : gty := TStruct 0 (so_env 0).
Definition so_types : list gty := [so_t; so_t].
Definition so_unm := Unmarshal so_env by_name (fun _ => false) (fun _ => false) (bseq txt_true) (fun _ => None) (fun _ => None) (fun _ => true).
Definition so_all : list (option finfo * gval) :=
  let n0 := nth 0 so_store GOther in let n1 := nth 1 so_store GOther in
  [(@None finfo, GPtr (Some 0%nat)); (None, n0); (None, n1)] ++ children so_store (None, n0) ++ children so_store (None, n1) ++
  [(Some (plain (nm "next")), n0); (Some (plain (nm "next")), n1)].
Lemma so_env_ok : env_ok so_env.
Proof. intros [|n]; cbn; repeat split. Qed.
Lemma so_restorable n : restorable by_name (TStruct n (so_env n)).
Proof.
  destruct n as [|n]; cbn [so_env restorable].
  - split; [|cbn; unfold word; tauto]. split; [|split].
    + intros f t [E|[E|[E|[E|[]]]]]; injection E as <- <-; repeat split.
    + repeat constructor; cbn; intuition discriminate.
    + intros [|[|[|[|i]]]] f t E; try (injection E as <- <-; reflexivity). destruct i; discriminate.
  - split; [|exact Logic.I]. split; [intros f t []|]. split; [constructor|]. intros [|i] f t E; discriminate.
Qed.
Lemma so_typed : typed_store so_env by_name (fun _ => None) (fun _ => None) so_types so_store.
Proof.
  split; [constructor; [|constructor; [|constructor]]; cbn; intuition discriminate|]. split; [repeat constructor; intros []|].
  constructor; [|constructor; [|constructor]]; (split; [exact (so_env_ok 0%nat)|exact (so_restorable 0)]).
Qed.
Lemma so_closed p : In p so_all -> incl (children so_store p) so_all.
Proof. intros Ip. cbn in Ip. repeat (destruct Ip as [<-|Ip]; [intros q Iq; cbn in Iq; repeat (destruct Iq as [<-|Iq]; [cbn; tauto|]); destruct Iq|]). destruct Ip. Qed.
Lemma so_zeros : only_zeros_dropped true so_store None (GPtr (Some 0%nat)).
Proof.
  apply (zeros_ok true so_store so_all _ _ so_closed).
  - left. reflexivity.
  - intros i w Ip. cbn in Ip. repeat (destruct Ip as [E|Ip]; [injection E as <- <-; cbn; repeat split; try discriminate; tauto|]). destruct Ip.
  - repeat constructor; intros H; inversion H as [? X| |]; destruct X.
Qed.
Lemma so_tame : tame so_store (GPtr (Some 0%nat)).
Proof.
  right. split; [repeat constructor|]. split; [split; intros ? []|].
  repeat constructor; [intros fs [<-|[]]|intros m []|intros fs [<-|[]]|intros m []]; repeat constructor.
Qed.
Lemma so_texts : texts_survive (fun _ => false) (fun _ => false) (bseq txt_true) (fun _ => true) so_store (GPtr (Some 0%nat)).
Proof.
  assert (F1 : float_value (format_f6 (FFin true 5629499534213120 (-51))) (FFin true 5629499534213120 (-51))) by (apply parse_float_iff; vm_compute; reflexivity).
  assert (F2 : float_value (format_f6 (FFin false 4503599627370496 (-53))) (FFin false 4503599627370496 (-53))) by (apply parse_float_iff; vm_compute; reflexivity).
  intros x i w Ix S. split; [|destruct w; reflexivity || exact Logic.I]. intros Fi. assert (Ip : In (i, w) so_all).
  { eapply (sub_closed so_store so_all so_closed); [exact S|]. destruct Ix as [->|[<-|[<-|[]]]]; cbn; tauto. }
  cbn -[format_f6] in Ip. repeat (destruct Ip as [E|Ip]; [injection E as <- <-; try discriminate Fi; cbn -[format_f6]; (split; [first [exact Logic.I|reflexivity|split; [assumption|right; reflexivity]]|exact Logic.I])|]). destruct Ip.
Qed.
Example C29_string_option_example m0 : exists N j m', forall n, (N <= n)%nat ->
  Marshal hd n so_store (Some (GPtr (Some 0%nat))) = Some j /\
  so_unm n (fst (zalloc so_t m0)) so_t (snd (zalloc so_t m0)) j [] = TopOk m' /\
  same_value (fun _ => None) so_store (nth 0 so_store GOther) m' (snd (zalloc so_t m0)) /\
  forall x, (x < length m0)%nat -> nth_error m' x = nth_error m0 x.
Proof.
  apply (C29_object_roundtrip so_env by_name (fun _ => false) (fun _ => false) (bseq txt_true) (fun _ => None) (fun _ => None) (fun _ => true)
    so_env_ok so_restorable true hd so_store so_types 0%nat); try reflexivity.
  - apply hd_chooses.
  - apply so_typed.
  - apply so_texts.
  - apply so_tame.
  - apply so_zeros.
Qed.
(** The text is "-5", "true", "-2.500000". *)
Example C29_string_option_written : Marshal hd 20 so_store (Some (GPtr (Some 0%nat))) =
  Some (JDict 1 [(nm "b", JString (nm "true")); (nm "f", JString (nm "-2.500000")); (nm "n", JString (nm "-5"));
    (nm "next", JDict 2 [(nm "b", JString (nm "false")); (nm "f", JString (nm "0.500000")); (nm "n", JString (nm "12")); (nm "next", JPtr 1)])]).
Proof. vm_compute. reflexivity. Qed.

(** Types with MarshalJSON and UnmarshalJSON, and pointers to them: type doc
    struct { At state; By *state; Due *time.Time; To *state }, where To is nil. *)
Definition sd_due : bytes := nm "2024-05-01T08:00:00Z".
Definition sd_time (s : bytes) : option (option bytes) := if bseq s (String_ (JString sd_due)) then Some (Some sd_due) else None.
Definition sd_env (n : nat) : list (finfo * gty) :=
  match n with
  | 0%nat => [(plain (nm "at"), TStd); (plain (nm "by"), TPtr TStd); (plain (nm "due"), TPtr TTime); (plain (nm "to"), TPtr TStd)]
  | _ => []
  end.
Definition sd_store : store :=
  [ GStruct [(plain (nm "at"), GStd (JString (nm "up"))); (plain (nm "by"), GStd (JDict 0 [(nm "k", JInt 1)])); (plain (nm "due"), GStd (JString sd_due)); (plain (nm "to"), GPtr None)] ].
Definition sd_t : gty := TStruct 0 (sd_env 0).
Definition sd_unm := Unmarshal sd_env by_name (fun _ => false) (fun _ => false) (fun _ => true) (fun _ => None) sd_time (fun _ => true).
Lemma sd_env_ok : env_ok sd_env.
Proof. intros [|n]; cbn; repeat split. Qed.
Lemma sd_restorable n : restorable by_name (TStruct n (sd_env n)).
Proof.
  destruct n as [|n]; cbn [sd_env restorable].
  - split; [|cbn; tauto]. split; [|split].
    + intros f t [E|[E|[E|[E|[]]]]]; injection E as <- <-; repeat split.
    + repeat constructor; cbn; intuition discriminate.
    + intros [|[|[|[|i]]]] f t E; try (injection E as <- <-; reflexivity). destruct i; discriminate.
  - split; [|exact Logic.I]. split; [intros f t []|]. split; [constructor|]. intros [|i] f t E; discriminate.
Qed.
Lemma sd_typed : typed_store sd_env by_name (fun _ => None) sd_time [sd_t] sd_store.
Proof.
  split; [constructor; [|constructor]; cbn -[sd_time String_]; unfold pure_json; repeat split; try discriminate; exact Logic.I|]. split; [repeat constructor; intros []|].
  constructor; [|constructor]; (split; [exact (sd_env_ok 0%nat)|exact (sd_restorable 0)]).
Qed.
Lemma sd_zeros : only_zeros_dropped true sd_store None (GPtr (Some 0%nat)).
Proof.
  set (n0 := nth 0 sd_store GOther).
  apply (zeros_ok true sd_store ([(@None finfo, GPtr (Some 0%nat)); (None, n0)] ++ children sd_store (None, n0))).
  - intros p Ip. cbn in Ip. repeat (destruct Ip as [<-|Ip]; [intros q Iq; cbn in Iq; repeat (destruct Iq as [<-|Iq]; [cbn; tauto|]); destruct Iq|]). destruct Ip.
  - left. reflexivity.
  - intros i w Ip. cbn in Ip. repeat (destruct Ip as [E|Ip]; [injection E as <- <-; cbn; repeat split; try discriminate; tauto|]). destruct Ip.
  - repeat constructor; intros H; inversion H as [? X| |]; destruct X.
Qed.
Lemma sd_tame : tame sd_store (GPtr (Some 0%nat)).
Proof.
  right. split; [repeat constructor|]. split; [split; intros ? []|].
  repeat constructor; [intros fs [<-|[]]|intros m []]; repeat constructor.
Qed.
Example C29_methods_example m0 : exists N j m', forall n, (N <= n)%nat ->
  Marshal hd n sd_store (Some (GPtr (Some 0%nat))) = Some j /\
  sd_unm n (fst (zalloc sd_t m0)) sd_t (snd (zalloc sd_t m0)) j [] = TopOk m' /\
  same_value sd_time sd_store (nth 0 sd_store GOther) m' (snd (zalloc sd_t m0)) /\
  forall x, (x < length m0)%nat -> nth_error m' x = nth_error m0 x.
Proof.
  apply (C29_object_roundtrip sd_env by_name (fun _ => false) (fun _ => false) (fun _ => true) (fun _ => None) sd_time (fun _ => true)
    sd_env_ok sd_restorable true hd sd_store [sd_t] 0%nat); try reflexivity.
  - apply hd_chooses.
  - apply sd_typed.
  - no_option.
  - apply sd_tame.
  - apply sd_zeros.
Qed.

(** ** What does not come back *)

(** A bare number: Unmarshal of it sets the variable to zero (the same for
    booleans and floats). *)
Theorem C29_bare_number_refuted n m : exists z j, 
  marshals true [] (GInt (Signed 64) z) j /\
  rt_unm (S n) (fst (zalloc (TInt (Signed 64)) m)) (TInt (Signed 64)) (snd (zalloc (TInt (Signed 64)) m)) j [] = TopOk (m ++ [VInt 0]) /\
  ~ same_value (fun _ => None) [] (GInt (Signed 64) z) (m ++ [VInt 0]) (length m).
Proof.
  exists 5, (JInt 5). split; [exists hd, 1%nat; split; [apply hd_chooses|reflexivity]|]. split.
  - cbn. f_equal. assert (W : forall c c', mwrite (m ++ [c]) (length m) c' = m ++ [c']) by (intros c c'; clear; induction m as [|x m IH]; [reflexivity|cbn; f_equal; exact IH]). apply W.
  - intros S. specialize (S 0%nat). inversion S as [|? ? ? E| | | | | | | | | | | | | | | | | | |]; subst. rewrite nth_error_last in E. discriminate.
Qed.

(** A shared node that is first met through a field with a later name: type
    node struct { B *node; A *node }.  Marshal gives {"a":<2>,"b":{node 2 ...}},
    and Unmarshal panics at the reference. *)
Definition fw_env (n : nat) : list (finfo * gty) :=
  match n with 0%nat => [(plain (nm "b"), TPtr (TNamed 0)); (plain (nm "a"), TPtr (TNamed 0))] | _ => [] end.
Definition fw_store : store :=
  [ GStruct [(plain (nm "b"), GPtr (Some 1%nat)); (plain (nm "a"), GPtr (Some 1%nat))];
    GStruct [(plain (nm "b"), GPtr (Some 1%nat)); (plain (nm "a"), GPtr None)] ].
Definition fw_t : gty := TStruct 0 (fw_env 0).
Notation fw_unm := (Unmarshal fw_env by_name (fun _ => false) (fun _ => false) (fun _ => true) (fun _ => None) (fun _ => None) (fun _ => true)).
Lemma fw_typed : env_ok fw_env /\ (forall n, restorable by_name (TStruct n (fw_env n))) /\ typed_store fw_env by_name (fun _ => None) (fun _ => None) [fw_t; fw_t] fw_store.
Proof.
  assert (E : env_ok fw_env) by (intros [|n]; cbn; repeat split).
  assert (R : forall n, restorable by_name (TStruct n (fw_env n))).
  { intros [|n]; cbn [fw_env restorable].
    - split; [|cbn; tauto]. split; [|split].
      + intros f t [X|[X|[]]]; injection X as <- <-; repeat split.
      + repeat constructor; cbn; intuition discriminate.
      + intros [|[|i]] f t X; try (injection X as <- <-; reflexivity). destruct i; discriminate.
    - split; [|exact Logic.I]. split; [intros f t []|]. split; [constructor|]. intros [|i] f t X; discriminate. }
  split; [exact E|]. split; [exact R|].
  split; [constructor; [|constructor; [|constructor]]; cbn; tauto|]. split; [repeat constructor; intros []|].
  constructor; [|constructor; [|constructor]]; (split; [exact (E 0%nat)|exact (R 0%nat)]).
Qed.
Theorem C29_forward_reference_refuted : exists j,
  marshals true fw_store (GPtr (Some 0%nat)) j /\ ~ nodes_first j /\
  forall n, (20 <= n)%nat -> fw_unm n (fst (zalloc fw_t [])) fw_t (snd (zalloc fw_t [])) j [] = TopPanic.
Proof.
  exists (JDict 0 [(nm "a", JPtr 2); (nm "b", JDict 2 [(nm "b", JPtr 2)])]). split; [|split].
  - exists hd, 10%nat. split; [apply hd_chooses|reflexivity].
  - intros H. destruct (H [] 2 [Node 2; Ref 2] eq_refl).
  - intros n L. rewrite (Unmarshal_more _ _ _ _ _ _ _ _ 20%nat n _ _ _ _ _ L); [vm_compute; reflexivity|vm_compute; discriminate].
Qed.

(** type T struct { P **int; S []int `json:"s,omitempty"` }. *)
Definition keep_env (n : nat) : list (finfo * gty) :=
  match n with
  | 0%nat => [(plain (nm "p"), TPtr (TPtr (TInt (Signed 64))));
              ({| fi_name := nm "s"; fi_ignore := false; fi_omit_empty := true; fi_omit_zero := false; fi_omit_false := false; fi_force_string := false; fi_deprecated_by := None |}, TSlice (TInt (Signed 64)))]
  | _ => []
  end.
Notation keep_unm := (Unmarshal keep_env by_name (fun _ => false) (fun _ => false) (fun _ => true) (fun _ => None) (fun _ => None) (fun _ => true)).
Definition keep_t : gty := TStruct 0 (keep_env 0).

Lemma keep_unm_more j r : keep_unm 20 (fst (zalloc keep_t [])) keep_t (snd (zalloc keep_t [])) j [] = r -> r <> TopFuel ->
  forall n, (20 <= n)%nat -> keep_unm n (fst (zalloc keep_t [])) keep_t (snd (zalloc keep_t [])) j [] = r.
Proof.
  intros <- N n L. apply Unmarshal_more; [exact L|exact N].
Qed.

(** A pointer to a nil pointer comes back as nil, even with MarshalAll. *)
Theorem C29_pointer_to_nil_refuted : exists st v j m',
  marshals false st v j /\ (forall n, (20 <= n)%nat -> keep_unm n (fst (zalloc keep_t [])) keep_t (snd (zalloc keep_t [])) j [] = TopOk m') /\
  ~ same_value (fun _ => None) st v m' (snd (zalloc keep_t [])).
Proof.
  exists [GPtr None], (GStruct [(fst (nth 0 (keep_env 0) (plain [], TOther)), GPtr (Some 0%nat)); (fst (nth 1 (keep_env 0) (plain [], TOther)), GSlice None)]).
  exists (JDict 0 [(nm "p", JNull); (nm "s", JNull)]), [VPtr None; VSlice None; VStruct [0; 1]%nat].
  split; [exists hd, 10%nat; split; [apply hd_chooses|reflexivity]|]. split.
  - apply keep_unm_more; [vm_compute; reflexivity|discriminate].
  - intros S. specialize (S 0%nat). inversion S as [| | | | | | | | | | |? ? ? E F| | | | | | | | |]; subst. cbn in E. injection E as <-.
    inversion F as [|? ? ? ? F1 _]; subst. cbn in F1. inversion F1 as [| | | | | | | | | | | | |? ? ? E1 _| | | | | | |]; subst. discriminate.
Qed.

(** An empty slice in a field with omitempty comes back as nil with Marshal. *)
Theorem C29_empty_slice_refuted : exists v j m',
  marshals true [] v j /\ (forall n, (20 <= n)%nat -> keep_unm n (fst (zalloc keep_t [])) keep_t (snd (zalloc keep_t [])) j [] = TopOk m') /\
  ~ same_value (fun _ => None) [] v m' (snd (zalloc keep_t [])).
Proof.
  exists (GStruct [(fst (nth 0 (keep_env 0) (plain [], TOther)), GPtr None); (fst (nth 1 (keep_env 0) (plain [], TOther)), GSlice (Some []))]).
  exists (JDict 0 []), [VPtr None; VSlice None; VStruct [0; 1]%nat].
  split; [exists hd, 10%nat; split; [apply hd_chooses|reflexivity]|]. split.
  - apply keep_unm_more; [vm_compute; reflexivity|discriminate].
  - intros S. specialize (S 0%nat). inversion S as [| | | | | | | | | | |? ? ? E F| | | | | | | | |]; subst. cbn in E. injection E as <-.
    inversion F as [|? ? ? ? _ F1]; subst. inversion F1 as [|? ? ? ? F2 _]; subst. cbn in F2. inversion F2; subst; discriminate.
Qed.
