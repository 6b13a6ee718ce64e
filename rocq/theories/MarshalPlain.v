(** In memory without cycles Marshal is compositional: each part is converted
    for itself, whatever has been followed before.  Hence the order in which
    maps are visited makes no difference. *)
From Coq Require Import Sorting.Permutation.
From Verif Require Import Base Strconv SortedMap SortedMapFacts Json SpecJson Printer Heap HeapFacts2 Gotypes Marshal SpecMarshal MarshalFacts SpecEncode MarshalEnc MarshalRefs MarshalFinal SpecRestore MarshalOrder.

Section Plain.
Context (st : store) (omit : bool).

Definition texts (ps : list (bytes * mj)) : list (bytes * json) := map (fun kv => (fst kv, mj_text (snd kv))) ps.
Definition t_finish (info : option finfo) (j : json) : json := if flag info fi_force_string then JString (String_ j) else j.

Section Loops.
Context (tv : gval -> option finfo -> option (option json)).
Fixpoint t_elems (l : list gval) : option (list json) :=
  match l with
  | [] => Some []
  | v :: l' => match tv v None, t_elems l' with Some r, Some rs => Some (match r with Some x => x :: rs | None => rs end) | _, _ => None end
  end.
Fixpoint t_members (m : list (bytes * gval)) : option (list (bytes * json)) :=
  match m with
  | [] => Some []
  | (k, v) :: m' => match tv v None, t_members m' with Some r, Some ps => Some (match r with Some x => (k, x) :: ps | None => ps end) | _, _ => None end
  end.
Fixpoint t_fields (fs : list (finfo * gval)) (dep : smap bytes) : option (list (bytes * json) * smap bytes) :=
  match fs with
  | [] => Some ([], dep)
  | (i, v) :: fs' =>
      if fi_ignore i then t_fields fs' dep
      else match fi_deprecated_by i with
           | Some d => t_fields fs' (sm_add dep (fi_name i) d)
           | None => match tv v (Some i), t_fields fs' dep with
                     | Some r, Some (ps, dep2) => Some (match r with Some x => (fi_name i, x) :: ps | None => ps end, dep2)
                     | _, _ => None
                     end
           end
  end.
End Loops.
Fixpoint t_dep (fuel : nat) (dep todo : smap bytes) (pairs : list (bytes * json)) : option (list (bytes * json)) :=
  match todo with
  | [] => Some []
  | (depKey, key) :: todo' =>
      match dep_resolve fuel dep depKey key, t_dep fuel dep todo' pairs with
      | Some r, Some rest =>
          match (match r with Some k => first_pair pairs k | None => None end) with
          | Some v => Some ((depKey, v) :: rest)
          | None => Some rest
          end
      | _, _ => None
      end
  end.

Fixpoint tval (fuel : nat) (v : gval) (info : option finfo) {struct fuel} : option (option json) :=
  match fuel with
  | O => None
  | S n =>
      match v with
      | GBool b => Some (option_map mj_text (marshal_bool omit info b))
      | GInt k z => Some (option_map mj_text (marshal_int omit info (wrap (Signed 64) z)))
      | GFloat bit f => Some (option_map mj_text (marshal_float omit info bit f))
      | GString x => Some (option_map mj_text (marshal_string omit info x))
      | GTri t => Some (option_map mj_text (marshal_tri omit t))
      | GTime t => Some (option_map mj_text (marshal_time omit info t))
      | GSlice (Some l) | GArray l =>
          match l with
          | [] => if flag info fi_omit_empty && omit then Some None else Some (Some (t_finish info (JArray [])))
          | _ => match t_elems (tval n) l with Some rs => Some (Some (t_finish info (JArray rs))) | None => None end
          end
      | GMap (Some m) =>
          match m with
          | [] => if flag info fi_omit_empty && omit then Some None else Some (Some (t_finish info (JDict 0 [])))
          | _ => match t_members (tval n) m with Some ps => Some (Some (t_finish info (JDict 0 (sm_of_list ps [])))) | None => None end
          end
      | GStruct fs =>
          match t_fields (tval n) fs [] with
          | Some (ps, dep) =>
              match t_dep n dep dep ps with
              | Some dps =>
                  match ps ++ dps with
                  | [] => if flag info fi_omit_empty && omit then Some None else Some (Some (t_finish info (JDict 0 [])))
                  | all => Some (Some (t_finish info (JDict 0 (sm_of_list all []))))
                  end
              | None => None
              end
          | None => None
          end
      | GPtr (Some a) => match nth_error st a with Some x => tval n x info | None => None end
      | GIface (Some x) => tval n x info
      | GSlice None | GMap None | GPtr None | GIface None | GJsonPtr None | GJsonObj None => Some (option_map mj_text (nil_or_null omit))
      | GJsonPtr (Some j) | GJsonObj (Some j) | GStd j => Some (Some j)
      | GJsonVal j => Some (option_map mj_text (marshal_json_val omit info j))
      | GOther => Some (Some JNull)
      end
  end.

Lemma text_finish i m : option_map mj_text (finish_container i m) = Some (t_finish i (mj_text m)).
Proof using. unfold finish_container, t_finish. destruct (flag i fi_force_string); reflexivity. Qed.
Lemma texts_add ps k m : texts (sm_add ps k m) = sm_add (texts ps) k (mj_text m).
Proof using.
  induction ps as [|[k' v'] ps IH]; [reflexivity|]. cbn [sm_add texts map fst snd]. destruct (bcmp k k'); cbn [map fst snd]; [reflexivity|reflexivity|].
  f_equal. exact IH.
Qed.
Lemma texts_of_list ps : forall m, texts (sm_of_list ps m) = sm_of_list (texts ps) (texts m).
Proof using. induction ps as [|[k v] ps IH]; intros m; [reflexivity|]. unfold sm_of_list in *. cbn [fold_left]. rewrite IH, texts_add. reflexivity. Qed.
Lemma text_dict ps : mj_text (new_dict ps) = JDict 0 (sm_of_list (texts ps) []).
Proof using. unfold new_dict. cbn [mj_text]. f_equal. exact (texts_of_list ps []). Qed.
Lemma find_text ps k : first_pair (texts ps) k = option_map mj_text (find_value ps k).
Proof using. induction ps as [|[k' v] ps IH]; [reflexivity|]. cbn [texts map first_pair find_value fst snd]. destruct (bseq k' k); [reflexivity|exact IH]. Qed.
Lemma dep_text n dep ps todo : t_dep n dep todo (texts ps) = option_map texts (dep_pairs n dep todo ps).
Proof using.
  induction todo as [|[k d] todo IH]; [reflexivity|]. cbn [t_dep dep_pairs]. rewrite IH. destruct (dep_resolve n dep k d) as [o|]; [|reflexivity].
  destruct (dep_pairs n dep todo ps) as [rest|]; [|reflexivity]. cbn [option_map]. destruct o as [k'|]; [|reflexivity]. rewrite find_text. destruct (find_value ps k'); reflexivity.
Qed.

Hypothesis Hac : acyclic st.
Notation mval := (mval st omit).
Notation above := (above st).

Definition agrees (mv : Marshal.session -> gval -> option finfo -> option (Marshal.session * option mj)) (tv : gval -> option finfo -> option (option json)) (v : gval) : Prop :=
  forall s i, above s v -> match mv s v i with
    | Some (s', r) => s_trace s' = s_trace s /\ tv v i = Some (option_map mj_text r)
    | None => tv v i = None
    end.

Lemma elems_agree mv tv l : (forall v, In v l -> agrees mv tv v) -> forall s, (forall v, In v l -> above s v) ->
  match m_elems mv s l with
  | Some (s', rs) => s_trace s' = s_trace s /\ t_elems tv l = Some (map mj_text rs)
  | None => t_elems tv l = None
  end.
Proof using.
  induction l as [|v l IH]; intros H s A; cbn [m_elems t_elems]; [split; reflexivity|].
  pose proof (H v (or_introl eq_refl) s None (A v (or_introl eq_refl))) as Hv. destruct (mv s v None) as [[s1 r]|]; [|rewrite Hv; reflexivity]. destruct Hv as [T1 E1]. rewrite E1.
  specialize (IH (fun w I => H w (or_intror I)) s1). assert (A1 : forall w, In w l -> above s1 w) by (intros w I; eapply above_same; [exact T1|apply A; right; exact I]). specialize (IH A1).
  destruct (m_elems mv s1 l) as [[s2 rs]|]; [|rewrite IH; reflexivity]. destruct IH as [T2 E2]. rewrite E2. split; [congruence|]. destruct r; reflexivity.
Qed.
Lemma members_agree mv tv (l : list (bytes * gval)) : (forall k v, In (k, v) l -> agrees mv tv v) -> forall s, (forall k v, In (k, v) l -> above s v) ->
  match m_members mv s l with
  | Some (s', rs) => s_trace s' = s_trace s /\ t_members tv l = Some (texts rs)
  | None => t_members tv l = None
  end.
Proof using.
  induction l as [|[k v] l IH]; intros H s A; cbn [m_members t_members]; [split; reflexivity|].
  pose proof (H k v (or_introl eq_refl) s None (A k v (or_introl eq_refl))) as Hv. destruct (mv s v None) as [[s1 r]|]; [|rewrite Hv; reflexivity]. destruct Hv as [T1 E1]. rewrite E1.
  specialize (IH (fun k w I => H k w (or_intror I)) s1). assert (A1 : forall k w, In (k, w) l -> above s1 w) by (intros k' w I; eapply above_same; [exact T1|apply (A k'); right; exact I]). specialize (IH A1).
  destruct (m_members mv s1 l) as [[s2 rs]|]; [|rewrite IH; reflexivity]. destruct IH as [T2 E2]. rewrite E2. split; [congruence|]. destruct r; reflexivity.
Qed.
Lemma fields_agree mv tv (l : list (finfo * gval)) : (forall x v, In (x, v) l -> agrees mv tv v) -> forall s d, (forall x v, In (x, v) l -> above s v) ->
  match m_fields mv s l d with
  | Some (s', rs, d') => s_trace s' = s_trace s /\ t_fields tv l d = Some (texts rs, d')
  | None => t_fields tv l d = None
  end.
Proof using.
  induction l as [|[x v] l IH]; intros H s d A; cbn [m_fields t_fields]; [split; reflexivity|].
  assert (A' : forall k w, In (k, w) l -> above s w) by (intros k' w I; apply (A k'); right; exact I). specialize (IH (fun k w I => H k w (or_intror I))).
  destruct (fi_ignore x); [apply IH, A'|]. destruct (fi_deprecated_by x); [apply IH, A'|].
  pose proof (H x v (or_introl eq_refl) s (Some x) (A x v (or_introl eq_refl))) as Hv. destruct (mv s v (Some x)) as [[s1 r]|]; [|rewrite Hv; reflexivity]. destruct Hv as [T1 E1]. rewrite E1.
  specialize (IH s1 d). assert (A1 : forall k w, In (k, w) l -> above s1 w) by (intros k' w I; eapply above_same; [exact T1|apply (A' k'), I]). specialize (IH A1).
  destruct (m_fields mv s1 l d) as [[[s2 rs] d2]|]; [|rewrite IH; reflexivity]. destruct IH as [T2 E2]. rewrite E2. split; [congruence|]. destruct r; reflexivity.
Qed.

Lemma mval_plain n : forall v, agrees (mval n) (tval n) v.
Proof using Hac.
  induction n as [|n IH]; intros v s i A; [reflexivity|].
  assert (SL : forall l, (v = GSlice (Some l) \/ v = GArray l) ->
    match match l with
          | [] => if flag i fi_omit_empty && omit then Some (s, None) else Some (s, finish_container i (MArr []))
          | _ => match m_elems (mval n) s l with
                 | Some (s1, rs) => Some (s1, finish_container i (MArr rs))
                 | None => None
                 end
          end with
    | Some (s', r) => s_trace s' = s_trace s /\ match l with
          | [] => if flag i fi_omit_empty && omit then Some None else Some (Some (t_finish i (JArray [])))
          | _ => match t_elems (tval n) l with Some rs => Some (Some (t_finish i (JArray rs))) | None => None end
          end = Some (option_map mj_text r)
    | None => match l with
          | [] => if flag i fi_omit_empty && omit then Some None else Some (Some (t_finish i (JArray [])))
          | _ => match t_elems (tval n) l with Some rs => Some (Some (t_finish i (JArray rs))) | None => None end
          end = None
    end).
  { intros l Hv. destruct l as [|x l]; [destruct (flag i fi_omit_empty && omit); (split; [reflexivity|]); [reflexivity|rewrite text_finish; reflexivity]|].
    pose proof (elems_agree (mval n) (tval n) (x :: l) (fun w _ => IH w) s) as E.
    assert (A1 : forall w, In w (x :: l) -> above s w).
    { intros w I. eapply above_child; [exact A|]. destruct Hv as [-> | ->]; cbn [pointers]; intros z Iz; apply in_flat_map; eauto. }
    specialize (E A1). destruct (m_elems (mval n) s (x :: l)) as [[s1 rs]|]; [|rewrite E; reflexivity]. destruct E as [T E]. rewrite E. split; [exact T|]. rewrite text_finish. reflexivity. }
  destruct v as [b|k z|bit f|x|t|t|[l|]|l|[m|]|fs|[a|]|[x|]|[j|]|[j|]|j|j|]; cbn [Marshal.mval tval]; try (split; reflexivity).
  - apply (SL l). auto.
  - apply (SL l). auto.
  - destruct m as [|x m]; [destruct (flag i fi_omit_empty && omit); (split; [reflexivity|]); [reflexivity|rewrite text_finish; reflexivity]|].
    pose proof (members_agree (mval n) (tval n) (x :: m) (fun k w _ => IH w) s) as E.
    assert (A1 : forall k w, In (k, w) (x :: m) -> above s w).
    { intros k w I. eapply above_child; [exact A|]. cbn [pointers]. intros z Iz. apply in_flat_map. exists (k, w). auto. }
    specialize (E A1). destruct (m_members (mval n) s (x :: m)) as [[s1 rs]|]; [|rewrite E; reflexivity]. destruct E as [T E]. rewrite E. split; [exact T|]. rewrite text_finish, text_dict. reflexivity.
  - pose proof (fields_agree (mval n) (tval n) fs (fun k w _ => IH w) s []) as E.
    assert (A1 : forall k w, In (k, w) fs -> above s w).
    { intros k w I. eapply above_child; [exact A|]. cbn [pointers]. intros z Iz. apply in_flat_map. exists (k, w). auto. }
    specialize (E A1). destruct (m_fields (mval n) s fs []) as [[[s1 ps] dep]|]; [|rewrite E; reflexivity]. destruct E as [T E]. rewrite E, dep_text.
    destruct (dep_pairs n dep dep ps) as [dps|]; [|reflexivity]. cbn [option_map].
    assert (X : texts ps ++ texts dps = texts (ps ++ dps)) by (symmetry; apply map_app). rewrite X.
    destruct (ps ++ dps) as [|p0 all]; [destruct (flag i fi_omit_empty && omit); (split; [exact T|]); [reflexivity|rewrite text_finish; reflexivity]|].
    split; [exact T|]. rewrite text_finish, text_dict. reflexivity.
  - destruct (tr_find None (s_trace s) a) as [t [id|]] eqn:F.
    + exfalso. destruct (tr_find_spec _ _ _ _ _ F) as (_ & _ & R & _). destruct (R id eq_refl) as [X|(e & Ie & Ea & _)]; [discriminate|].
      apply (Hac a). rewrite <- Ea at 1. apply A; [exact Ie|left; reflexivity].
    + pose proof (tr_find_miss _ _ _ F) as ->. cbn [new_pointer s_idx s_trace]. destruct (nth_error st a) as [x|] eqn:N; [|reflexivity].
      set (s1 := {| s_idx := s_idx s + 1; s_trace := s_trace s ++ [{| te_addr := a; te_id := s_idx s + 1; te_cnt := 1 |}] |}).
      assert (A1 : above s1 x).
      { intros e b Ie Ib. subst s1. cbn in Ie. apply in_app_or in Ie as [Ie|[<-|[]]].
        - eapply path_more; [apply (A e a Ie); left; reflexivity|exact N|exact Ib].
        - cbn. eapply path_one; eassumption. }
      pose proof (IH x s1 i A1) as E. destruct (mval n s1 x i) as [[s2 r2]|]; [|exact E]. destruct E as [T E]. cbn [s_trace s_idx]. rewrite T, E. subst s1. cbn. rewrite tr_pop_last. cbn.
      split; [reflexivity|]. destruct r2 as [[j|l|o kvs]|]; reflexivity.
  - apply (IH x). exact A.
Qed.
End Plain.

Lemma set_ids_nil pick : forall m, set_ids pick [] m = mj_text m.
Proof.
  fix IH 1. intros [j|l|o kvs]; cbn [set_ids mj_text]; [reflexivity|f_equal|].
  - induction l as [|x l IHl]; [reflexivity|]. cbn [map]. rewrite IH, IHl. reflexivity.
  - assert (N : node_id pick [] o = 0) by (unfold node_id; induction o; [reflexivity|assumption]). rewrite N. f_equal. induction kvs as [|[k x] l IHl]; [reflexivity|]. cbn [map fst snd]. rewrite IH, IHl. reflexivity.
Qed.

Lemma marshal_plain st omit pick n v : acyclic st ->
  marshal_with omit pick n st (Some v) = match v with GPtr None => Some JNull | _ => option_map (fun r => match r with Some j => j | None => JNull end) (tval st omit n v None) end.
Proof.
  intros Ac. pose proof (mval_plain st omit Ac n v new_session None) as E. assert (A : above st new_session v) by (intros e a []). specialize (E A).
  unfold marshal_with. destruct (mval st omit n new_session v None) as [[s r]|].
  - destruct E as [T E]. cbn in T. rewrite E. cbn [option_map]. destruct v as [| | | | | | | | | |[a|]| | | | | |]; try reflexivity; destruct r; rewrite ?T, ?set_ids_nil; reflexivity.
  - rewrite E. destruct v as [| | | | | | | | | |[a|]| | | | | |]; reflexivity.
Qed.
