(** From one call of marshalValue to Marshal and MarshalAll. *)
From Coq Require Import Sorting.Permutation.
From Verif Require Import Base Strconv SortedMap SortedMapFacts Json SpecJson Printer Heap Gotypes Marshal SpecMarshal SpecEncode HeapFacts2 ParseInv MarshalFacts DepFacts MarshalTerm MarshalEnc MarshalEnc2 MarshalRefs.

(** ** More fuel does not change a result *)

Section Mono.
Context (st : store) (omit : bool).

Definition below_mv (f g : session -> gval -> option finfo -> option (session * option mj)) : Prop :=
  forall s v i r, f s v i = Some r -> g s v i = Some r.

Lemma m_elems_mono f g : below_mv f g -> forall l s r, m_elems f s l = Some r -> m_elems g s l = Some r.
Proof using.
  intros H. induction l as [|v l IH]; intros s r E; cbn [m_elems] in *; [exact E|].
  destruct (f s v None) as [[s1 x]|] eqn:E1; [|discriminate]. rewrite (H _ _ _ _ E1).
  destruct (m_elems f s1 l) as [[s2 rs]|] eqn:E2; [|discriminate]. rewrite (IH _ _ E2). exact E.
Qed.
Lemma m_members_mono f g : below_mv f g -> forall l s r, m_members f s l = Some r -> m_members g s l = Some r.
Proof using.
  intros H. induction l as [|[k v] l IH]; intros s r E; cbn [m_members] in *; [exact E|].
  destruct (f s v None) as [[s1 x]|] eqn:E1; [|discriminate]. rewrite (H _ _ _ _ E1).
  destruct (m_members f s1 l) as [[s2 rs]|] eqn:E2; [|discriminate]. rewrite (IH _ _ E2). exact E.
Qed.
Lemma m_fields_mono f g : below_mv f g -> forall l s d r, m_fields f s l d = Some r -> m_fields g s l d = Some r.
Proof using.
  intros H. induction l as [|[x v] l IH]; intros s d r E; cbn [m_fields] in *; [exact E|].
  destruct (fi_ignore x); [apply IH, E|]. destruct (fi_deprecated_by x); [apply IH, E|].
  destruct (f s v (Some x)) as [[s1 y]|] eqn:E1; [|discriminate]. rewrite (H _ _ _ _ E1).
  destruct (m_fields f s1 l d) as [[[s2 rs] d2]|] eqn:E2; [|discriminate]. rewrite (IH _ _ _ E2). exact E.
Qed.

Lemma mval_mono n : forall m s v i r, (n <= m)%nat -> mval st omit n s v i = Some r -> mval st omit m s v i = Some r.
Proof using.
  induction n as [|n IH]; intros m s v i r L E; [discriminate|]. destruct m as [|m]; [lia|].
  assert (below_mv (mval st omit n) (mval st omit m)) as H by (intros s0 v0 i0 r0; apply IH; lia).
  cbn [mval] in *. destruct v as [b|k z|bit f|x|t|t|[l|]|l|[q|]|fs|[a|]|[x|]|[j|]|[j|]|j|j|]; try exact E.
  - destruct l as [|x l]; [exact E|]. destruct (m_elems (mval st omit n) s (x :: l)) as [[s1 rs]|] eqn:E1; [|discriminate].
    rewrite (m_elems_mono _ _ H _ _ _ E1). exact E.
  - destruct l as [|x l]; [exact E|]. destruct (m_elems (mval st omit n) s (x :: l)) as [[s1 rs]|] eqn:E1; [|discriminate].
    rewrite (m_elems_mono _ _ H _ _ _ E1). exact E.
  - destruct q as [|x q]; [exact E|]. destruct (m_members (mval st omit n) s (x :: q)) as [[s1 rs]|] eqn:E1; [|discriminate].
    rewrite (m_members_mono _ _ H _ _ _ E1). exact E.
  - destruct (m_fields (mval st omit n) s fs []) as [[[s1 ps] dep]|] eqn:E1; [|discriminate]. rewrite (m_fields_mono _ _ H _ _ _ _ E1).
    destruct (dep_pairs n dep dep ps) as [dps|] eqn:E2; [|discriminate]. rewrite (dep_pairs_mono n m dep ps ltac:(lia) _ _ E2). exact E.
  - destruct (tr_find None (s_trace s) a) as [t [id|]]; [exact E|]. cbn in *. destruct (nth_error st a) as [x|]; [|exact E].
    match type of E with match mval _ _ _ ?s1 _ _ with _ => _ end = _ => destruct (mval st omit n s1 x i) as [[s2 r2]|] eqn:E1; [|discriminate] end.
    rewrite (H _ _ _ _ E1). exact E.
  - apply H, E.
Qed.
End Mono.

Lemma marshal_mono omit pick n m st v j : (n <= m)%nat -> marshal_with omit pick n st v = Some j -> marshal_with omit pick m st v = Some j.
Proof.
  intros L E. unfold marshal_with in *. destruct v as [v|]; [|exact E].
  assert (forall x, match mval st omit n new_session x None with
    | Some (s, Some m0) => Some (set_ids pick (s_trace s) m0) | Some (s, None) => Some JNull | None => None end = Some j ->
    match mval st omit m new_session x None with
    | Some (s, Some m0) => Some (set_ids pick (s_trace s) m0) | Some (s, None) => Some JNull | None => None end = Some j) as H.
  { intros x X. destruct (mval st omit n new_session x None) as [r|] eqn:E1; [|discriminate]. rewrite (mval_mono _ _ _ _ _ _ _ _ L E1). exact X. }
  destruct v as [| | | | | | | | | |[a|]| | | | | |]; auto.
Qed.

(** What marshal_with computes from the call. *)
Lemma marshal_inv omit pick n st v j : marshal_with omit pick n st (Some v) = Some j ->
  (v = GPtr None /\ j = JNull) \/
  exists s r, mval st omit n new_session v None = Some (s, r) /\ j = match r with Some m => set_ids pick (s_trace s) m | None => JNull end.
Proof.
  intros E. unfold marshal_with in E.
  assert (match mval st omit n new_session v None with
    | Some (s, Some m0) => Some (set_ids pick (s_trace s) m0) | Some (s, None) => Some JNull | None => None end = Some j ->
    exists s r, mval st omit n new_session v None = Some (s, r) /\ j = match r with Some m => set_ids pick (s_trace s) m | None => JNull end) as H.
  { intros X. destruct (mval st omit n new_session v None) as [[s [m|]]|]; [| |discriminate]; injection X as <-; eauto. }
  destruct v as [| | | | | | | | | |[a|]| | | | | |]; auto. left. injection E as <-. auto.
Qed.

(** ** Ids and references of the finished value *)

Lemma set_ids_refs pick T m : ref_ids (set_ids pick T m) = mrefs m.
Proof.
  induction m as [j|l IH|o kvs IH] using mj_ind'; simpl; [reflexivity|..].
  - induction IH as [|x l H _ IHl]; [reflexivity|]. simpl. rewrite H, IHl. reflexivity.
  - induction IH as [|[k x] l H _ IHl]; [reflexivity|]. simpl in *. rewrite H, IHl. reflexivity.
Qed.

Lemma filter_app' {A} (g : A -> bool) (a b : list A) : filter g (a ++ b) = filter g a ++ filter g b.
Proof. induction a as [|x a IH]; simpl; [reflexivity|]. rewrite IH. destruct (g x); reflexivity. Qed.

Lemma set_ids_nodes pick T m : (forall l, l <> [] -> In (pick l) l) -> single m -> (forall o, In o (mowners m) -> 0 < o) ->
  node_ids (set_ids pick T m) = filter (referred T) (mowners m).
Proof.
  intros HP. induction m as [j|l IH|o kvs IH] using mj_ind'; intros S P.
  - simpl in *. rewrite S. reflexivity.
  - cbn [set_ids node_ids mowners]. simpl in S, P. induction IH as [|x l H _ IHl]; [reflexivity|]. simpl in *. destruct S as [S1 S2].
    rewrite filter_app', H, IHl; [reflexivity| |..]; auto; intros o' I'; apply P, in_or_app; auto.
  - cbn [set_ids node_ids mowners]. simpl in S, P. destruct S as [So S]. rewrite filter_app'. f_equal.
    + unfold node_id. destruct o as [|x [|y o]]; [reflexivity| |simpl in So; lia]. simpl. destruct (referred T x); [|reflexivity].
      assert (pick [x] = x) as -> by (destruct (HP [x]) as [E|[]]; [discriminate|symmetry; exact E]).
      assert (0 < x) as Px by (apply P; left; reflexivity). apply Z.ltb_lt in Px. rewrite Px. reflexivity.
    + assert (forall o', In o' (flat_map (fun kv => mowners (snd kv)) kvs) -> 0 < o') as P' by (intros o' I'; apply P, in_or_app; auto).
      clear P So. induction IH as [|[k x] l H _ IHl]; [reflexivity|]. simpl in *. destruct S as [S1 S2].
      rewrite filter_app', H, IHl; [reflexivity| |..]; auto; intros o' I'; apply P', in_or_app; auto.
Qed.

Lemma NoDup_filter' {A} (g : A -> bool) l : NoDup l -> NoDup (filter g l).
Proof. apply NoDup_filter. Qed.

(** ** Where Marshal and MarshalAll agree *)

Section Same.
Context (st : store).
Notation sub := (sub st).
Notation full := (full st).


Lemma m_elems_same f g : forall l s, (forall v s, In v l -> f s v None = g s v None) -> m_elems f s l = m_elems g s l.
Proof using.
  induction l as [|v l IH]; intros s H; cbn [m_elems]; [reflexivity|]. rewrite (H v s (or_introl eq_refl)).
  destruct (g s v None) as [[s1 x]|]; [|reflexivity]. rewrite IH; [reflexivity|]. intros; apply H; right; assumption.
Qed.
Lemma m_members_same f g : forall (l : list (bytes * gval)) s, (forall k v s, In (k, v) l -> f s v None = g s v None) -> m_members f s l = m_members g s l.
Proof using.
  induction l as [|[k v] l IH]; intros s H; cbn [m_members]; [reflexivity|]. rewrite (H k v s (or_introl eq_refl)).
  destruct (g s v None) as [[s1 x]|]; [|reflexivity]. rewrite IH; [reflexivity|]. intros; eapply H; right; eassumption.
Qed.
Lemma m_fields_same2 f g : forall (l : list (finfo * gval)) s d, (forall x v s, In (x, v) l -> fi_ignore x = false -> fi_deprecated_by x = None -> f s v (Some x) = g s v (Some x)) -> m_fields f s l d = m_fields g s l d.
Proof using.
  induction l as [|[x v] l IH]; intros s d H; cbn [m_fields]; [reflexivity|].
  assert (forall s d, m_fields f s l d = m_fields g s l d) as IH' by (intros; apply IH; intros; apply H; [right|..]; assumption).
  destruct (fi_ignore x) eqn:E1; [apply IH'|]. destruct (fi_deprecated_by x) eqn:E2; [apply IH'|].
  rewrite (H x v s (or_introl eq_refl) E1 E2). destruct (g s v (Some x)) as [[s1 y]|]; [|reflexivity]. rewrite IH'. reflexivity.
Qed.

Lemma full_child i v i' w : full i v -> (forall p, sub (i', w) p -> sub (i, v) p) -> full i' w.
Proof using. intros F H j u S. apply F, H, S. Qed.

Lemma mval_same n : forall s v i, full i v -> mval st true n s v i = mval st false n s v i.
Proof using.
  induction n as [|n IH]; intros s v i F; [reflexivity|].
  assert (forall s', mval st true (S n) s v i <> Some (s', None)) as NN.
  { intros s' X. apply none_dropped in X as [_ X]. exact (F i v (S_refl st _) X). }
  cbn [mval] in *.
  assert (forall o1 o2 : option mj, (o1 = None \/ o1 = o2) -> (forall s', Some (s, o1) <> Some (s', None)) -> Some (s, o1) = Some (s, o2)) as SC.
  { intros o1 o2 [->| ->] H; [destruct (H s eq_refl)|reflexivity]. }
  destruct v as [b|k z|bit f|x|t|t|[l|]|l|[q|]|fs|[a|]|[x|]|[j|]|[j|]|j|j|]; try reflexivity;
    try (exfalso; eapply NN; reflexivity).
  - apply SC; [|exact NN]. unfold marshal_bool. rewrite !andb_false_r, !andb_true_r. destruct (negb b && flag i fi_omit_false); auto.
  - apply SC; [|exact NN]. unfold marshal_int. rewrite !andb_false_r, !andb_true_r. destruct ((wrap (Signed 64) z =? 0) && flag i fi_omit_zero); auto.
  - apply SC; [|exact NN]. unfold marshal_float. rewrite !andb_false_r, !andb_true_r. destruct (fl_is_zero f && flag i fi_omit_zero); auto.
  - apply SC; [|exact NN]. destruct x; [|auto]. simpl. rewrite !andb_false_r, !andb_true_r. destruct (flag i fi_omit_empty); auto.
  - destruct t; [reflexivity|]. exfalso. eapply NN. reflexivity.
  - apply SC; [|exact NN]. destruct t; [auto|]. simpl. rewrite !andb_false_r, !andb_true_r. destruct (flag i fi_omit_empty); auto.
  - destruct l as [|x l].
    + rewrite andb_false_r, andb_true_r in *. destruct (flag i fi_omit_empty); [exfalso; eapply NN; reflexivity|reflexivity].
    + rewrite (m_elems_same _ (mval st false n)); [reflexivity|]. intros v0 s0 I0. apply IH. eapply full_child; [exact F|]. intros p. apply S_slice with (1 := I0).
  - destruct l as [|x l].
    + rewrite andb_false_r, andb_true_r in *. destruct (flag i fi_omit_empty); [exfalso; eapply NN; reflexivity|reflexivity].
    + rewrite (m_elems_same _ (mval st false n)); [reflexivity|]. intros v0 s0 I0. apply IH. eapply full_child; [exact F|]. intros p. apply S_array, I0.
  - destruct q as [|x q].
    + rewrite andb_false_r, andb_true_r in *. destruct (flag i fi_omit_empty); [exfalso; eapply NN; reflexivity|reflexivity].
    + rewrite (m_members_same _ (mval st false n)); [reflexivity|]. intros k v0 s0 I0. apply IH. eapply full_child; [exact F|]. intros p. eapply S_map, I0.
  - rewrite (m_fields_same2 _ (mval st false n)) in *.
    2-3: intros y v0 s0 I0 I1 I2; apply IH; eapply full_child; [exact F|]; intros p; eapply S_field; eassumption.
    destruct (m_fields (mval st false n) s fs []) as [[[s1 ps] dep]|]; [|reflexivity]. destruct (dep_pairs n dep dep ps) as [dps|]; [|reflexivity].
    destruct (ps ++ dps); [|reflexivity]. rewrite andb_false_r, andb_true_r in *. destruct (flag i fi_omit_empty); [exfalso; eapply NN; reflexivity|reflexivity].
  - destruct (tr_find None (s_trace s) a) as [t [id|]]; [reflexivity|]. cbn. destruct (nth_error st a) as [x|] eqn:N; [|reflexivity].
    rewrite IH; [reflexivity|]. eapply full_child; [exact F|]. intros p. apply S_ptr, N.
  - apply IH. eapply full_child; [exact F|]. intros p. apply S_iface.
  - apply SC; [|exact NN]. unfold marshal_json_val. rewrite !andb_false_r, !andb_true_r. destruct (json_empty j && flag i fi_omit_empty); auto.
Qed.
End Same.
