(** Marshal and MarshalAll: C30 (what is left out), C31 (cyclic graphs and
    references), C32 (deprecated fields). *)
From Coq Require Import Sorting.Permutation.
From Verif Require Import Base Strconv SortedMap SortedMapFacts Json SpecJson Printer Heap Gotypes Marshal SpecMarshal SpecEncode HeapFacts2 ParseInv MarshalFacts DepFacts MarshalTerm MarshalEnc MarshalEnc2 MarshalRefs MarshalFinal.

(** Go visits the node map in any order: any choice among the ids of a dict. *)
Definition chooses (pick : list Z -> Z) : Prop := forall l, l <> [] -> In (pick l) l.

(** Marshal ([omit] = true) or MarshalAll ([omit] = false) of [v] in the memory
    [st] returns [j]. *)
Definition marshals (omit : bool) (st : store) (v : gval) (j : json) : Prop :=
  exists pick n, chooses pick /\ marshal_with omit pick n st (Some v) = Some j.

(** ** C31: termination *)

(** No struct of the graph has a deprecated-by chain that enters a loop
    without being part of it. *)
Definition no_trap (st : store) (v : gval) : Prop :=
  forall x fs k, x = v \/ In x st -> In fs (structs x) -> ~ trapped (tag_of fs) k.

(** Every finite graph, however cyclic or shared, is marshalled, with one
    result for all large enough computations. *)
Theorem C31_terminates omit pick st v :
  graph st v -> no_trap st v ->
  exists n j, forall m, (n <= m)%nat -> marshal_with omit pick m st (Some v) = Some j.
Proof.
  intros G T. destruct (marshal_total st omit v (enough st v)) as (s & r & E).
  - apply Forall_forall. intros x I. split; [intros a Ia; apply (G x a); auto|intros fs k If; apply (T x fs k); auto].
  - split; [intros a Ia; apply (G v a); auto|intros fs k If; apply (T v fs k); auto].
  - apply Nat.le_refl.
  - assert (exists j, marshal_with omit pick (enough st v) st (Some v) = Some j) as [j J].
    { unfold marshal_with. destruct v as [| | | | | | | | | |[a|]| | | | | |]; try rewrite E; destruct r; eauto. }
    exists (enough st v), j. intros m L. eapply marshal_mono; eassumption.
Qed.

(** ** C30: what the result is *)

Lemma nil_not_dropped_json st omit f v : is_nil v -> encodes st omit f [] None v JNull.
Proof. apply E_nil. Qed.

Lemma result_encodes omit st v j :
  marshals omit st v j ->
  (omit = true /\ dropped st None v /\ j = JNull) \/
  (~ (omit = true /\ dropped st None v) /\ exists f, (forall n a, f n = Some a -> 0 < n) /\ encodes st omit f [] None v j).
Proof.
  intros (pick & n & HP & E). apply marshal_inv in E as [[-> ->]|(s & r & E & ->)].
  - destruct omit; [left; split; [reflexivity|]; split; [apply D_nil; exact I|reflexivity]|].
    right. split; [intros [X _]; discriminate|]. exists (fun _ => None). split; [discriminate|]. apply E_nil. exact I.
  - assert (good st new_session v) as G by (intros a i []).
    destruct (mval_correct st omit pick HP n v new_session None s r (Forall_nil _) G E) as (_ & D & L & LG & F).
    destruct r as [m|].
    + right. split; [intros X; apply D in X; discriminate|].
      set (f := fun k => option_map snd (find (fun p => fst p =? k) L)).
      exists f. split.
      { intros k a Hk. subst f. cbn in Hk. destruct (find _ L) as [[k' a']|] eqn:Ek; [|discriminate]. apply find_some in Ek as [Ik Ek].
        apply Z.eqb_eq in Ek. cbn in Ek. subst k'. destruct LG as (_ & LF & _). rewrite Forall_forall in LF. apply LF in Ik. cbn in Ik. lia. }
      rewrite <- (add_owners_nil m). apply (F f); [intros e []| |reflexivity|intros x []].
      destruct LG as (_ & _ & ND & _). intros k a I. subst f. simpl. clear - ND I. induction L as [|[k' a'] L IH]; [destruct I|].
      simpl. destruct (Z.eqb_spec k' k) as [->|NE].
      * destruct I as [X|I]; [injection X as ->; reflexivity|]. inversion ND as [|? ? NI _]; subst. destruct NI. apply (in_map fst) in I. exact I.
      * destruct I as [X|I]; [injection X as -> ->; congruence|]. inversion ND; subst. apply IH; assumption.
    + left. destruct (proj1 D eq_refl). auto.
Qed.

(** For every object graph, Marshal and MarshalAll return a JSON value that
    represents it according to SpecEncode: nothing is left out but what
    [dropped] says (null, if that is the whole value), and for MarshalAll
    nothing at all. *)
Theorem C30_result_encodes_value omit st v j :
  marshals omit st v j ->
  (omit = true /\ dropped st None v /\ j = JNull) \/
  (~ (omit = true /\ dropped st None v) /\ exists f, encodes st omit f [] None v j).
Proof. intros M. apply result_encodes in M as [X|[X (f & _ & E)]]; [left; exact X|right; split; [exact X|exists f; exact E]]. Qed.

(** Elements of slices and maps are left out only when nil. *)
Theorem C30_elements_dropped_iff_nil st v : dropped st None v <-> leads_to_nil st v.
Proof.
  split.
  - assert (forall p, ~ has None p) as NH by (intros p (x & X & _); discriminate).
    intros D. remember None as i eqn:Ei. induction D; subst; try (exfalso; eapply NH; eassumption).
    + apply N_nil; assumption.
    + eapply N_ptr; eauto.
    + apply N_iface; auto.
  - induction 1; [apply D_nil; assumption|eapply D_ptr; eassumption|apply D_iface; assumption].
Qed.

Lemma enc_fields_keys st omit f fs ps : enc_fields st omit f fs ps -> incl (map fst ps) (emitted_names fs).
Proof.
  induction 1 as [|x v fs ps Ig _ IH|x v fs ps Dp _ IH|x v fs ps O D _ IH|x v fs j ps Ig Dp K En _ IH]; [apply incl_refl|..]; unfold emitted_names; cbn [filter fst].
  - rewrite Ig. exact IH.
  - destruct (fi_ignore x); [exact IH|apply incl_tl, IH].
  - destruct (fi_ignore x); [exact IH|apply incl_tl, IH].
  - rewrite Ig. cbn [negb map fst]. apply incl_cons; [left; reflexivity|apply incl_tl, IH].
Qed.

Lemma enc_fields_nodup st omit f fs ps : enc_fields st omit f fs ps -> NoDup (emitted_names fs) -> NoDup (map fst ps).
Proof.
  induction 1 as [|x v fs ps Ig _ IH|x v fs ps Dp _ IH|x v fs ps O D _ IH|x v fs j ps Ig Dp K En X IH]; intros N; [constructor|..]; unfold emitted_names in N; cbn [filter fst] in N.
  - rewrite Ig in N. apply IH, N.
  - destruct (fi_ignore x); [apply IH, N|]. inversion N; subst. apply IH; assumption.
  - destruct (fi_ignore x); [apply IH, N|]. inversion N; subst. apply IH; assumption.
  - rewrite Ig in N. cbn [negb map fst] in *. inversion N as [|? ? N1 N2]; subst. constructor; [|apply IH, N2]. intros C. apply N1.
    eapply (enc_fields_keys _ _ _ _ _ X), C.
Qed.

Lemma emitted_in (fs : list (finfo * gval)) x v : In (x, v) fs -> fi_ignore x = false -> In (fi_name x) (emitted_names fs).
Proof. intros I Ig. unfold emitted_names. apply in_map_iff. exists (x, v). split; [reflexivity|]. apply filter_In. split; [exact I|]. simpl. rewrite Ig. reflexivity. Qed.

(** A field that is not ignored nor deprecated has a pair iff it is not left out. *)
Lemma enc_fields_pair st omit f fs ps x v : enc_fields st omit f fs ps -> NoDup (emitted_names fs) ->
  In (x, v) fs -> fi_ignore x = false -> fi_deprecated_by x = None ->
  (In (fi_name x) (map fst ps) <-> ~ (omit = true /\ dropped st (Some x) v)) /\
  (forall j, In (fi_name x, j) ps -> encodes st omit f [] (Some x) v j).
Proof.
  induction 1 as [|y w fs ps Ig _ IH|y w fs ps Dp _ IH|y w fs ps O D X IH|y w fs j ps Ig Dp K En X IH]; intros N I Hx Hd; [destruct I|..];
    unfold emitted_names in N; cbn [filter fst] in N.
  - rewrite Ig in N. destruct I as [I|I]; [injection I as -> ->; congruence|]. apply IH; assumption.
  - assert (NoDup (emitted_names fs)) as N' by (destruct (fi_ignore y); [exact N|inversion N; assumption]).
    destruct I as [I|I]; [injection I as -> ->; congruence|]. apply IH; assumption.
  - destruct I as [I|I].
    + injection I as -> ->. rewrite Hx in N. cbn [negb map fst] in N. inversion N as [|? ? N1 N2]; subst.
      assert (~ In (fi_name x) (map fst ps)) as NI by (intros C; apply N1; apply (enc_fields_keys _ _ _ _ _ X), C).
      split; [split; [intros C; contradiction|intros C; destruct C; auto]|]. intros j C. destruct NI. apply (in_map fst) in C. exact C.
    + assert (NoDup (emitted_names fs)) as N' by (destruct (fi_ignore y); [exact N|inversion N; assumption]). apply IH; assumption.
  - rewrite Ig in N. cbn [negb map fst] in N. inversion N as [|? ? N1 N2]; subst. destruct I as [I|I].
    + injection I as -> ->. split; [split; [auto|left; reflexivity]|]. intros j' [C|C]; [injection C as <-; exact En|].
      exfalso. apply N1. apply (enc_fields_keys _ _ _ _ _ X). apply (in_map fst) in C. exact C.
    + destruct (IH N2 I Hx Hd) as [A B]. cbn [map fst].
      assert (fi_name y <> fi_name x) as NE by (intros C; apply N1; rewrite C; eapply emitted_in; eassumption).
      split; [rewrite <- A; split; [intros [C|C]; [congruence|exact C]|intros C; right; exact C]|].
      intros j' [C|C]; [injection C as C _; congruence|apply B, C].
Qed.

Lemma last_pair_in ps k j : NoDup (map fst ps) -> In (k, j) ps -> last_pair ps k = Some j.
Proof. intros N I. rewrite last_pair_eq. apply last_binding_in; assumption. Qed.
Lemma last_pair_some ps k j : last_pair ps k = Some j -> In (k, j) ps.
Proof.
  induction ps as [|[k' j'] ps IH]; simpl; [discriminate|]. destruct (last_pair ps k) as [w|]; [intros E; right; apply IH, E|].
  destruct (bseq_spec k k') as [->|]; [|discriminate]. intros E. injection E as ->. left. reflexivity.
Qed.
Lemma first_last ps k : NoDup (map fst ps) -> first_pair ps k = last_pair ps k.
Proof.
  induction ps as [|[k' j] ps IH]; intros N; simpl; [reflexivity|]. inversion N as [|? ? N1 N2]; subst. specialize (IH N2).
  destruct (bseq_spec k' k) as [->|NE].
  - rewrite bseq_refl. destruct (last_pair ps k) as [w|] eqn:E; [|reflexivity]. apply last_pair_some in E. destruct N1. apply (in_map fst) in E. exact E.
  - rewrite IH. destruct (last_pair ps k); [reflexivity|]. destruct (bseq_spec k k'); [congruence|reflexivity].
Qed.

Lemma tag_none fs x v : NoDup (emitted_names fs) -> In (x, v) fs -> fi_ignore x = false -> tag_of fs (fi_name x) = fi_deprecated_by x.
Proof.
  induction fs as [|[y w] fs IH]; intros N I Ig; [destruct I|]. unfold emitted_names in N. cbn [filter fst tag_of] in *.
  assert (~ In (fi_name x) (emitted_names fs) -> tag_of fs (fi_name x) = None) as TN.
  { clear. induction fs as [|[z u] fs IH]; intros NI; [reflexivity|]. unfold emitted_names in *. cbn [filter fst tag_of] in *.
    destruct (fi_ignore z); cbn [negb map fst andb] in *; [rewrite IH by exact NI; reflexivity|]. rewrite IH by (intros C; apply NI; right; exact C).
    destruct (bseq_spec (fi_name z) (fi_name x)) as [E|_]; [destruct NI; left; exact E|reflexivity]. }
  destruct I as [I|I].
  - injection I as -> ->. rewrite Ig in *. cbn [negb map fst andb] in *. inversion N as [|? ? N1 N2]; subst. rewrite (TN N1), bseq_refl. reflexivity.
  - destruct (fi_ignore y) eqn:Iy; cbn [negb map fst andb] in *.
    + rewrite (IH N I Ig). destruct (fi_deprecated_by x); reflexivity.
    + inversion N as [|? ? N1 N2]; subst. rewrite (IH N2 I Ig). destruct (fi_deprecated_by x); [reflexivity|].
      destruct (bseq_spec (fi_name y) (fi_name x)) as [E|_]; [|reflexivity]. destruct N1. rewrite E. eapply emitted_in; eassumption.
Qed.

(** A field of a struct whose field names are distinct is missing from the
    dict exactly when it is left out, and otherwise the dict has a
    representation of its value. *)
Theorem C30_field_dropped_iff omit st fs nid kvs x v :
  marshals omit st (GStruct fs) (JDict nid kvs) -> NoDup (emitted_names fs) ->
  In (x, v) fs -> fi_ignore x = false -> fi_deprecated_by x = None ->
  (sm_get kvs (fi_name x) = None <-> omit = true /\ dropped st (Some x) v) /\
  (exists f, forall j, sm_get kvs (fi_name x) = Some j -> encodes st omit f [] (Some x) v j).
Proof.
  intros M N I Ig Dp. apply C30_result_encodes_value in M as [(_ & _ & X)|[_ [f E]]]; [discriminate|].
  inversion E as [? ? ? X| | | | | | | | | |? ? ? ? ps ? Fo EF [Ok SD]| | | | | | | | | ]; subst.
  pose proof (enc_fields_nodup _ _ _ _ _ EF N) as ND. destruct (enc_fields_pair _ _ _ _ _ _ _ EF N I Ig Dp) as [A B].
  assert (forall j, ~ alias (tag_of fs) ps (fi_name x) j) as NA.
  { intros j [T _]. apply T. rewrite (tag_none _ _ _ N I Ig). exact Dp. }
  assert (forall j, sm_get kvs (fi_name x) = Some j <-> In (fi_name x, j) ps) as G.
  { intros j. rewrite SD. split.
    - intros [C|[_ C]]; [destruct (NA _ C)|apply last_pair_some, C].
    - intros C. right. split; [intros [j' C']; exact (NA _ C')|apply last_pair_in; assumption]. }
  split; [|exists f; intros j Gj; apply B, G, Gj]. split.
  - intros Gn. assert (~ ~ (omit = true /\ dropped st (Some x) v)) as NN.
    { intros C. apply A in C. apply in_map_iff in C as ([k j] & Ek & C). simpl in Ek. subst k. apply G in C. congruence. }
    (* left out or kept is decided by the relation itself *)
    clear - EF N I Ig Dp NN.
    induction EF as [|y w fs ps Igy _ IH|y w fs ps Dpy _ IH|y w fs ps O D X IH|y w fs j ps Igy Dpy K En X IH]; [destruct I|..]; unfold emitted_names in N; cbn [filter fst] in N.
    + rewrite Igy in N. destruct I as [I|I]; [injection I as -> ->; congruence|]. apply IH; assumption.
    + assert (NoDup (emitted_names fs)) as N' by (destruct (fi_ignore y); [exact N|inversion N; assumption]).
      destruct I as [I|I]; [injection I as -> ->; congruence|]. apply IH; assumption.
    + assert (NoDup (emitted_names fs)) as N' by (destruct (fi_ignore y); [exact N|inversion N; assumption]).
      destruct I as [I|I]; [injection I as -> ->; auto|]. apply IH; assumption.
    + assert (NoDup (emitted_names fs)) as N' by (destruct (fi_ignore y); [exact N|inversion N; assumption]).
      destruct I as [I|I]; [injection I as -> ->; destruct (NN K)|]. apply IH; assumption.
  - intros C. destruct (sm_get kvs (fi_name x)) as [j|] eqn:Gj; [|reflexivity]. pose proof (proj1 (G j) eq_refl) as Ij. apply (in_map fst) in Ij. apply A in Ij. destruct (Ij C).
Qed.

(** MarshalAll emits every field that is neither ignored nor deprecated. *)
Theorem C30_marshal_all_keeps_fields st fs nid kvs x v :
  marshals false st (GStruct fs) (JDict nid kvs) -> NoDup (emitted_names fs) ->
  In (x, v) fs -> fi_ignore x = false -> fi_deprecated_by x = None -> sm_get kvs (fi_name x) <> None.
Proof.
  intros M N I Ig Dp G. apply (proj1 (C30_field_dropped_iff _ _ _ _ _ _ _ M N I Ig Dp)) in G as [X _]. discriminate.
Qed.

(** Every name in the dict is the name of a field that is not ignored. *)
Theorem C30_only_field_names omit st fs nid kvs k :
  marshals omit st (GStruct fs) (JDict nid kvs) -> sm_get kvs k <> None -> In k (emitted_names fs).
Proof.
  intros M G. apply C30_result_encodes_value in M as [(_ & _ & X)|[_ [f E]]]; [discriminate|].
  inversion E as [? ? ? X| | | | | | | | | |? ? ? ? ps ? Fo EF [Ok SD]| | | | | | | | | ]; subst.
  destruct (sm_get kvs k) as [j|] eqn:Gj; [|congruence]. apply SD in Gj as [[T _]|[_ L]].
  - destruct (tag_of fs k) as [d|] eqn:Td; [|congruence]. clear - Td. revert d Td. induction fs as [|[y w] fs IH]; intros d Td; [discriminate|].
    cbn [tag_of] in Td. unfold emitted_names. cbn [filter fst]. destruct (tag_of fs k) as [d'|] eqn:E1.
    + pose proof (IH d' eq_refl) as I. destruct (fi_ignore y); [exact I|right; exact I].
    + destruct (fi_ignore y); [discriminate|]. cbn [negb andb map fst] in *. destruct (bseq_spec (fi_name y) k); [left; assumption|discriminate].
  - apply last_pair_some in L. apply (in_map fst) in L. exact (enc_fields_keys _ _ _ _ _ EF _ L).
Qed.

(** Marshal and MarshalAll differ only in what is left out: they return the
    same if nothing is. *)
Theorem C30_same_when_nothing_dropped pick n st v :
  full st None v -> Marshal pick n st (Some v) = MarshalAll pick n st (Some v).
Proof.
  intros F. unfold Marshal, MarshalAll, marshal_with. rewrite (mval_same st n new_session v None F). destruct v as [| | | | | | | | | |[a|]| | | | | |]; reflexivity.
Qed.

(** ** C31: references *)

(** On a plain graph (pointers lead to structs and maps; no ForceString, no
    deprecated-by, distinct field names; held JSON values free of references),
    there is an assignment [f] of objects to node ids such that the result
    represents the graph, a dict with node id n represents the object [f n],
    a reference <n> stands for a pointer to the object [f n], node ids are
    positive and not reused, and every reference has its dict. *)
Theorem C31_references_resolve omit st v j :
  plain_graph st v -> marshals omit st v j ->
  ((omit = true /\ dropped st None v /\ j = JNull) \/ exists f, encodes st omit f [] None v j) /\
  NoDup (node_ids j) /\ (forall n, In n (node_ids j) -> 0 < n) /\ incl (ref_ids j) (node_ids j).
Proof.
  intros (G & P & PS & SM) M. split; [apply C30_result_encodes_value in M as [X|[_ X]]; auto|].
  destruct M as (pick & n & HP & E). apply marshal_inv in E as [[-> ->]|(s & r & E & ->)].
  - simpl. split; [constructor|]. split; [intros ? []|apply incl_refl].
  - assert (bounded new_session) as B by (intros e []).
    destruct (mval_refs st omit PS SM n v new_session None s r (Forall_nil _) B P (no_info _ _) E) as [S _].
    destruct r as [m|]; [|simpl; split; [constructor|]; split; [intros ? []|apply incl_refl]].
    destruct S as [S1 S2 S3 S4 S5 S6]. simpl in *. rewrite app_nil_r in *. destruct S6 as [S6 _].
    rewrite set_ids_refs, (set_ids_nodes _ _ _ HP S6) by (intros o I; apply S4 in I; lia).
    split; [apply NoDup_filter, S3|]. split; [intros k I; apply filter_In in I as [I _]; apply S4 in I; lia|].
    intros id I. apply filter_In. specialize (S2 id I). split; [|exact S2].
    apply referred_in in S2 as (e & Ie & <- & _). apply S5; [exact Ie|].
    destruct S1 as (_ & t & S0 & ET & Bm & _ & F). inversion Bm; subst. rewrite ET in Ie. simpl in Ie. rewrite Forall_forall in F. apply F in Ie. simpl in Ie. lia.
Qed.

(** ** C32: deprecated fields *)

(** A deprecated name has no pair of its own. *)
Lemma deprecated_no_pair st omit f fs ps k j d : enc_fields st omit f fs ps -> NoDup (emitted_names fs) -> tag_of fs k = Some d -> ~ In (k, j) ps.
Proof.
  intros EF N T C. revert d T.
  induction EF as [|y w fs ps Ig X IH|y w fs ps Dp X IH|y w fs ps O D X IH|y w fs j' ps Ig Dp K En X IH]; intros d T; [destruct C|..]; unfold emitted_names in N; cbn [filter fst tag_of] in *.
  * rewrite Ig in *. cbn [negb andb] in T. destruct (tag_of fs k) as [d'|] eqn:E1; [exact (IH N C _ eq_refl)|discriminate].
  * destruct (fi_ignore y); cbn [negb andb map fst] in *; [destruct (tag_of fs k) as [d'|] eqn:E1; [exact (IH N C _ eq_refl)|discriminate]|].
    inversion N as [|? ? N1 N2]; subst. destruct (tag_of fs k) as [d'|] eqn:E1; [exact (IH N2 C _ eq_refl)|].
    destruct (bseq_spec (fi_name y) k) as [Ey|]; [|discriminate]. apply N1. rewrite Ey. apply (in_map fst) in C. exact (enc_fields_keys _ _ _ _ _ X _ C).
  * destruct (fi_ignore y); cbn [negb andb map fst] in *; [destruct (tag_of fs k) as [d'|] eqn:E1; [exact (IH N C _ eq_refl)|discriminate]|].
    inversion N as [|? ? N1 N2]; subst. destruct (tag_of fs k) as [d'|] eqn:E1; [exact (IH N2 C _ eq_refl)|].
    destruct (bseq_spec (fi_name y) k) as [Ey|]; [|discriminate]. apply N1. rewrite Ey. apply (in_map fst) in C. exact (enc_fields_keys _ _ _ _ _ X _ C).
  * rewrite Ig in *. cbn [negb andb map fst] in *. inversion N as [|? ? N1 N2]; subst. rewrite Dp in T.
    destruct (tag_of fs k) as [d'|] eqn:E1; [|destruct (bseq (fi_name y) k); discriminate].
    destruct C as [C|C]; [|exact (IH N2 C _ eq_refl)]. injection C as Ck _. apply N1. rewrite Ck.
    clear - E1. revert d' E1. induction fs as [|[z u] fs IH]; intros d' E1; [discriminate|]. cbn [tag_of] in E1. unfold emitted_names. cbn [filter fst].
    destruct (tag_of fs k) as [d2|] eqn:E2; [pose proof (IH d2 eq_refl) as I; destruct (fi_ignore z); [exact I|right; exact I]|].
    destruct (fi_ignore z); [discriminate|]. cbn [negb andb map fst] in *. destruct (bseq_spec (fi_name z) k); [left; assumption|discriminate].
Qed.

(** Under a deprecated name there is what is under the name its chain ends at,
    or nothing if the chain comes back to its start. *)
Theorem C32_chain_value omit st fs nid kvs k e :
  marshals omit st (GStruct fs) (JDict nid kvs) -> NoDup (emitted_names fs) ->
  ends_at (tag_of fs) k e -> sm_get kvs k = sm_get kvs e.
Proof.
  intros M N EA. apply C30_result_encodes_value in M as [(_ & _ & X)|[_ [f E]]]; [discriminate|].
  inversion E as [? ? ? X| | | | | | | | | |? ? ? ? ps ? Fo EF [Ok SD]| | | | | | | | | ]; subst.
  pose proof (enc_fields_nodup _ _ _ _ _ EF N) as ND.
  assert (sm_get kvs e = last_pair ps e) as Ge.
  { assert (forall j, ~ alias (tag_of fs) ps e j) as NA by (intros j [T _]; apply T, EA).
    destruct (last_pair ps e) as [j|] eqn:L.
    - apply SD. right. split; [intros [j' C]; exact (NA _ C)|exact L].
    - destruct (sm_get kvs e) as [j|] eqn:Gj; [|reflexivity]. apply SD in Gj as [C|[_ C]]; [destruct (NA _ C)|congruence]. }
  destruct (tag_of fs k) as [d|] eqn:T.
  - assert (forall j, alias (tag_of fs) ps k j <-> last_pair ps e = Some j) as AL.
    { intros j. split.
      - intros (_ & e' & EA' & F). rewrite (ends_unique _ _ _ _ EA EA'), <- first_last by exact ND. exact F.
      - intros F. split; [congruence|]. exists e. split; [exact EA|]. rewrite first_last by exact ND. exact F. }
    rewrite Ge. destruct (last_pair ps e) as [j|] eqn:L.
    + apply SD. left. apply AL. reflexivity.
    + destruct (sm_get kvs k) as [j|] eqn:Gj; [|reflexivity]. apply SD in Gj as [C|[_ C]]; [apply AL in C; discriminate|].
      exfalso. apply last_pair_some in C. exact (deprecated_no_pair _ _ _ _ _ _ _ _ EF N T C).
  - destruct EA as [L _]. inversion L as [|? b ? Tb]; subst; [reflexivity|congruence].
Qed.

Theorem C32_loop_has_no_value omit st fs nid kvs k :
  marshals omit st (GStruct fs) (JDict nid kvs) -> NoDup (emitted_names fs) ->
  returns (tag_of fs) k -> sm_get kvs k = None.
Proof.
  intros M N R. apply C30_result_encodes_value in M as [(_ & _ & X)|[_ [f E]]]; [discriminate|].
  inversion E as [? ? ? X| | | | | | | | | |? ? ? ? ps ? Fo EF [Ok SD]| | | | | | | | | ]; subst.
  destruct (sm_get kvs k) as [j|] eqn:G; [|reflexivity]. exfalso. apply SD in G as [(T & e & [L Te] & _)|[_ C]].
  - pose proof (returns_back _ _ _ R L) as B. inversion B as [|? ? ? T1]; subst; congruence.
  - apply last_pair_some in C. destruct R as (b & T & _). exact (deprecated_no_pair _ _ _ _ _ _ _ _ EF N T C).
Qed.

(** Resolution, and Marshal with it, terminates when no chain is trapped:
    [C31_terminates].  The full claim is false: with one trapped chain in a
    struct, Marshal and MarshalAll of it never return. *)
Theorem C32_trapped_never_returns omit pick st fs k :
  trapped (tag_of fs) k -> forall n, marshal_with omit pick n st (Some (GStruct fs)) = None.
Proof.
  intros T n. unfold marshal_with. destruct n as [|n]; [reflexivity|]. cbn [mval].
  destruct (m_fields (mval st omit n) new_session fs []) as [[[s1 ps] dep]|] eqn:E1; [|reflexivity].
  assert (forall k, sm_get dep k = tag_of fs k) as TG.
  { intros k'. rewrite (m_fields_tags _ _ _ _ _ _ _ E1). destruct (tag_of fs k'); reflexivity. }
  pose proof (m_fields_sorted _ _ _ _ _ _ _ sm_ok_nil E1) as Ok.
  assert (trapped (fun k => sm_get dep k) k) as TD by (eapply trapped_ext; [|exact T]; intros; symmetry; apply TG).
  destruct (sm_get dep k) as [key|] eqn:K.
  - destruct (dep_pairs n dep dep ps) as [dps|] eqn:E2; [|reflexivity]. exfalso.
    eapply (dep_pairs_each n dep ps dep dps E2 k key); [apply sm_get_in; assumption|]. apply resolve_trapped; assumption.
  - exfalso. destruct TD as (b & Lb & (c & Tc & Lc) & NL). inversion Lb as [|? ? ? Tk]; subst; [|congruence]. simpl in *. congruence.
Qed.

(** ** Cases that meet the hypotheses *)

Definition nm (s : string) : bytes := list_byte_of_string s.
Definition hd (l : list Z) : Z := match l with x :: _ => x | [] => 0 end.
Definition lst (l : list Z) : Z := last l 0.
Lemma hd_chooses : chooses hd.
Proof. intros [|x l] N; [congruence|left; reflexivity]. Qed.
Lemma lst_chooses : chooses lst.
Proof.
  intros l N. unfold lst. destruct l as [|x l]; [congruence|]. clear N. revert x. induction l as [|y l IH]; intros x; [left; reflexivity|].
  right. apply (IH y).
Qed.

(** A node with a link to its parent and a shared leaf:
    type Node struct { Next *Node; Up *Node; N int }, three nodes in a cycle. *)
Definition ring : store :=
  [ GStruct [(plain (nm "next"), GPtr (Some 1%nat)); (plain (nm "up"), GPtr None); (plain (nm "n"), GInt (Signed 64) 7)];
    GStruct [(plain (nm "next"), GPtr (Some 0%nat)); (plain (nm "up"), GPtr (Some 1%nat)); (plain (nm "n"), GInt (Signed 64) 8)] ].
Example ring_marshalled : marshals true ring (GPtr (Some 0%nat))
  (JDict 1 [(nm "n", JInt 7); (nm "next", JDict 2 [(nm "n", JInt 8); (nm "next", JPtr 1); (nm "up", JPtr 2)])]).
Proof. exists hd, 10%nat. split; [apply hd_chooses|reflexivity]. Qed.
Example ring_plain : plain_graph ring (GPtr (Some 0%nat)).
Proof.
  assert (forall fs, emitted_names fs = [nm "next"; nm "up"; nm "n"] -> Forall (fun fv => fi_force_string (fst fv) = false /\ fi_deprecated_by (fst fv) = None) fs ->
    text_fields_flat fs /\ no_deprecated fs /\ NoDup (emitted_names fs)) as P.
  { intros fs E F. rewrite Forall_forall in F. split; [intros i x H _ X; pose proof (proj1 (F _ H)) as Y; cbn in Y; congruence|]. split; [intros i x H _; apply (F _ H)|].
    rewrite E. repeat constructor; cbn; intuition discriminate. }
  split; [|split; [|split]].
  - intros x a [->|[<-|[<-|[]]]] I; simpl in I; intuition; subst; repeat constructor.
  - split; [|split]; intros ? [].
  - apply Forall_forall. intros x [<-|[<-|[]]]; (split; [|split; intros ? []]).
    all: intros fs [<-|[]]; apply P; [reflexivity|repeat constructor].
  - repeat constructor.
Qed.

(** Without the restriction to structs and maps a reference may have no dict:
    type T []*T; p := &T{p}. *)
Theorem C31_slice_refuted : exists st v j id,
  graph st v /\ marshals false st v j /\ In id (ref_ids j) /\ ~ In id (node_ids j).
Proof.
  exists [GSlice (Some [GPtr (Some 0%nat)])], (GPtr (Some 0%nat)), (JArray [JPtr 1]), 1. split; [|split; [|split]].
  - intros x a [->|[<-|[]]] I; simpl in I; intuition; subst; repeat constructor.
  - exists hd, 10%nat. split; [apply hd_chooses|reflexivity].
  - left. reflexivity.
  - intros [].
Qed.

(** Nor with pointers to pointers:
    type S struct { Q **S }; the dict gets the id of one of the two pointers. *)
Theorem C31_double_pointer_refuted : exists st v j id,
  graph st v /\ marshals false st v j /\ In id (ref_ids j) /\ ~ In id (node_ids j).
Proof.
  exists [GPtr (Some 1%nat); GStruct [(plain (nm "q"), GPtr (Some 0%nat))]], (GPtr (Some 0%nat)), (JDict 2 [(nm "q", JPtr 1)]), 1. split; [|split; [|split]].
  - intros x a [->|[<-|[<-|[]]]] I; simpl in I; intuition; subst; repeat constructor.
  - exists hd, 10%nat. split; [apply hd_chooses|reflexivity].
  - left. reflexivity.
  - simpl. intuition discriminate.
Qed.

Definition deprecated (name other : string) : finfo :=
  {| fi_name := nm name; fi_ignore := false; fi_omit_empty := false; fi_omit_zero := false;
     fi_omit_false := false; fi_force_string := false; fi_deprecated_by := Some (nm other) |}.

(** And a deprecated name repeats the dict of the field it stands for, with its
    node id. *)
Theorem C31_alias_refuted : exists st v j, graph st v /\ no_trap st v /\ marshals false st v j /\ ~ NoDup (node_ids j).
Proof.
  exists [GStruct [(plain (nm "self"), GPtr (Some 0%nat))]],
    (GStruct [(plain (nm "a"), GPtr (Some 0%nat)); (deprecated "b" "a", GPtr None)]),
    (JDict 0 [(nm "a", JDict 1 [(nm "self", JPtr 1)]); (nm "b", JDict 1 [(nm "self", JPtr 1)])]). split; [|split; [|split]].
  - intros x a [->|[<-|[]]] I; simpl in I; intuition; subst; repeat constructor.
  - intros x fs k Hx Hf (b & Lb & (c & Tc & Lc) & NL).
    assert (fs = [(plain (nm "self"), GPtr (Some 0%nat))] \/ fs = [(plain (nm "a"), GPtr (Some 0%nat)); (deprecated "b" "a", GPtr None)]) as [-> | ->].
    { destruct Hx as [->|[<-|[]]]; simpl in Hf; intuition. }
    + cbn [tag_of plain fi_ignore fi_name fi_deprecated_by negb andb] in Tc. destruct (bseq (nm "self") b); discriminate.
    + assert (forall y z, tag_of [(plain (nm "a"), GPtr (Some 0%nat)); (deprecated "b" "a", GPtr None)] y = Some z -> y = nm "b" /\ z = nm "a") as TT.
      { intros y z. cbn [tag_of plain deprecated fi_ignore fi_name fi_deprecated_by negb andb]. destruct (bseq_spec (nm "b") y) as [->|].
        - intros H. injection H as <-. auto.
        - destruct (bseq (nm "a") y); discriminate. }
      apply TT in Tc as [-> ->]. inversion Lc as [|? ? ? T2]; subst. apply TT in T2 as [X _]. discriminate.
  - exists hd, 10%nat. split; [apply hd_chooses|reflexivity].
  - intros N. cbn in N. inversion N as [|? ? NI _]; subst. apply NI. left. reflexivity.
Qed.

(** a deprecated by b, b by c: the three names show one value. *)
Example chain_marshalled : marshals true [] (GStruct [(deprecated "a" "b", GBool false); (deprecated "b" "c", GBool false); (plain (nm "c"), GString (nm "v"))])
  (JDict 0 [(nm "a", JString (nm "v")); (nm "b", JString (nm "v")); (nm "c", JString (nm "v"))]).
Proof. exists hd, 10%nat. split; [apply hd_chooses|reflexivity]. Qed.

(** a deprecated by b, b by c, c by b: Marshal does not return. *)
Theorem C32_refuted : exists fs, forall pick omit st n, marshal_with omit pick n st (Some (GStruct fs)) = None.
Proof.
  exists [(deprecated "a" "b", GBool true); (deprecated "b" "c", GBool true); (deprecated "c" "b", GBool true)].
  intros pick omit st n. apply C32_trapped_never_returns with (k := nm "a").
  exists (nm "b"). split; [eapply leads_step; [reflexivity|apply leads_refl]|]. split.
  - exists (nm "c"). split; [reflexivity|]. eapply leads_step; [reflexivity|apply leads_refl].
  - intros L.
    assert (forall y z, leads (tag_of [(deprecated "a" "b", GBool true); (deprecated "b" "c", GBool true); (deprecated "c" "b", GBool true)]) y z -> y = nm "b" \/ y = nm "c" -> z = nm "b" \/ z = nm "c") as H.
    { intros y z H. induction H as [|y u z T _ IH]; [auto|]. intros [-> | ->]; apply IH; injection T as <-; auto. }
    destruct (H _ _ L (or_introl eq_refl)); discriminate.
Qed.

(** Fields left out and kept: omit_zero 0, omit_empty and nil are gone, an
    unflagged 0 stays; MarshalAll keeps all. *)
Definition omit_zero (name : string) : finfo :=
  {| fi_name := nm name; fi_ignore := false; fi_omit_empty := false; fi_omit_zero := true;
     fi_omit_false := false; fi_force_string := false; fi_deprecated_by := None |}.
Definition some_fields : gval := GStruct [(omit_zero "a", GInt (Signed 64) 0); (plain (nm "b"), GInt (Signed 64) 0); (plain (nm "c"), GSlice None)].
Example fields_marshalled :
  marshals true [] some_fields (JDict 0 [(nm "b", JInt 0)]) /\
  marshals false [] some_fields (JDict 0 [(nm "a", JInt 0); (nm "b", JInt 0); (nm "c", JNull)]).
Proof. split; exists hd, 10%nat; (split; [apply hd_chooses|reflexivity]). Qed.
