(** References in the output of Marshal. *)
From Coq Require Import Sorting.Permutation.
From Verif Require Import Base Strconv SortedMap SortedMapFacts Json SpecJson Printer Heap Gotypes Marshal SpecMarshal SpecEncode HeapFacts2 ParseInv MarshalFacts DepFacts MarshalEnc MarshalEnc2.

Lemma sm_add_perm {V} (m : smap V) k v : ~ In k (sm_keys m) -> Permutation (sm_add m k v) ((k, v) :: m).
Proof.
  induction m as [|[k' v'] m IH]; intros N; simpl; [reflexivity|]. destruct (bcmp k k') eqn:E.
  - apply bcmp_eq in E as ->. destruct N. left. reflexivity.
  - reflexivity.
  - rewrite IH; [apply perm_swap|]. intros I. apply N. right. exact I.
Qed.

Lemma sm_of_list_permutation {V} (l : list (bytes * V)) : forall m, NoDup (map fst l) -> (forall k, In k (map fst l) -> ~ In k (sm_keys m)) ->
  Permutation (sm_of_list l m) (m ++ l).
Proof.
  induction l as [|[k v] l IH]; intros m N H; simpl; [rewrite app_nil_r; reflexivity|]. inversion N as [|? ? N1 N2]; subst.
  assert (Permutation (sm_add m k v) ((k, v) :: m)) as P by (apply sm_add_perm, H; left; reflexivity).
  rewrite IH; [|exact N2|].
  - rewrite P. simpl. apply Permutation_middle.
  - intros k' I1 I2. unfold sm_keys in I2. apply (Permutation_in _ (Permutation_map fst P)) in I2. destruct I2 as [<-|I2]; [contradiction|].
    apply (H k'); [right; exact I1|exact I2].
Qed.

Fixpoint mrefs (m : mj) : list Z :=
  match m with
  | MLeaf j => ref_ids j
  | MArr l => flat_map mrefs l
  | MDict _ kvs => flat_map (fun kv => mrefs (snd kv)) kvs
  end.
Fixpoint mowners (m : mj) : list Z :=
  match m with
  | MLeaf j => node_ids j
  | MArr l => flat_map mowners l
  | MDict o kvs => o ++ flat_map (fun kv => mowners (snd kv)) kvs
  end.
Fixpoint single (m : mj) : Prop :=
  match m with
  | MLeaf j => node_ids j = []
  | MArr l => fold_right (fun x p => single x /\ p) True l
  | MDict o kvs => (length o <= 1)%nat /\ fold_right (fun kv p => single (snd kv) /\ p) True kvs
  end.
Definition singles (l : list mj) : Prop := fold_right (fun x p => single x /\ p) True l.

Lemma singles_forall l : singles l <-> Forall single l.
Proof.
  induction l as [|x l IH]; simpl; [split; [constructor|auto]|]. rewrite IH. split; [intros []; constructor; assumption|].
  intros H. inversion H; auto.
Qed.

Lemma referred_in t id : referred t id = true <-> exists e, In e t /\ te_id e = id /\ 1 < te_cnt e.
Proof.
  unfold referred. rewrite existsb_exists. split.
  - intros (e & I & H). apply andb_true_iff in H as [H1 H2]. exists e. split; [exact I|]. split; [apply Z.eqb_eq, H1|apply Z.ltb_lt, H2].
  - intros (e & I & H1 & H2). exists e. split; [exact I|]. apply andb_true_iff. split; [apply Z.eqb_eq, H1|apply Z.ltb_lt, H2].
Qed.

Lemma referred_ext s s' id : ext s s' -> referred (s_trace s) id = true -> referred (s_trace s') id = true.
Proof.
  intros (_ & t & S & E & B & _) R. apply referred_in in R as (e & I & X & C). apply referred_in.
  destruct (bumped_in _ _ _ B I) as (e' & I' & X' & _ & C'). exists e'. rewrite E. split; [apply in_or_app; left; exact I'|]. split; [congruence|lia].
Qed.

Section Refs.
Context (st : store) (omit : bool).
Context (Hst : Forall plain_value st) (Hsm : Forall struct_or_map st).
Notation mval := (mval st omit).

(** What a list of results adds up to. *)
Record sound (s s' : session) (rs : list mj) : Prop := {
  so_ext : ext s s';
  so_refs : forall id, In id (flat_map mrefs rs) -> referred (s_trace s') id = true;
  so_nodup : NoDup (flat_map mowners rs);
  so_range : forall o, In o (flat_map mowners rs) -> s_idx s < o <= s_idx s';
  so_new : forall e, In e (s_trace s') -> s_idx s < te_id e -> In (te_id e) (flat_map mowners rs);
  so_single : singles rs }.

Definition bounded (s : session) : Prop := forall e, In e (s_trace s) -> te_id e <= s_idx s.

Lemma bumped_in_r t t' e' : bumped t t' -> In e' t' -> exists e, In e t /\ te_id e = te_id e' /\ te_cnt e <= te_cnt e'.
Proof using.
  intros H. induction H as [|x y a b (E1 & E2 & E3) _ IH]; intros I; [destruct I|]. destruct I as [<-|I].
  - exists x. split; [left; reflexivity|]. split; [congruence|exact E3].
  - destruct (IH I) as (e & I' & R). exists e. split; [right; exact I'|exact R].
Qed.

Lemma ext_bounded s s' : ext s s' -> bounded s -> bounded s'.
Proof using.
  intros (L & t & S & E & B & _ & F) H e I. rewrite E in I. apply in_app_or in I as [I|I].
  - destruct (bumped_in_r _ _ _ B I) as (e0 & I0 & X & _). rewrite <- X. specialize (H e0 I0). lia.
  - rewrite Forall_forall in F. apply F in I. lia.
Qed.

Lemma sound_nil s s' : ext s s' -> bounded s -> s_trace s' = s_trace s -> sound s s' [].
Proof using.
  intros E B T. split; simpl; try tauto; try apply NoDup_nil.
  - intros e I L. rewrite T in I. specialize (B e I). lia.
Qed.

Lemma sound_app s s1 s2 a b : bounded s -> sound s s1 a -> sound s1 s2 b -> sound s s2 (a ++ b).
Proof using.
  intros Bd A B. pose proof (so_ext _ _ _ A) as EA. pose proof (so_ext _ _ _ B) as EB. split.
  - eapply ext_trans; eassumption.
  - intros id. rewrite flat_map_app. intros I. apply in_app_or in I as [I|I]; [eapply referred_ext; [exact EB|apply (so_refs _ _ _ A), I]|apply (so_refs _ _ _ B), I].
  - rewrite flat_map_app. apply NoDup_app_iff. split; [apply A|]. split; [apply B|]. intros x Ia Ib.
    pose proof (so_range _ _ _ A _ Ia). pose proof (so_range _ _ _ B _ Ib). lia.
  - intros o. rewrite flat_map_app. intros I. pose proof (proj1 EA). pose proof (proj1 EB).
    apply in_app_or in I as [I|I]; [pose proof (so_range _ _ _ A _ I)|pose proof (so_range _ _ _ B _ I)]; lia.
  - intros e I L. rewrite flat_map_app. apply in_or_app. destruct (Z.ltb_spec (s_idx s1) (te_id e)) as [L1|L1]; [right; apply (so_new _ _ _ B); assumption|].
    left. destruct EB as (_ & t & S & E & Bm & _ & F). rewrite E in I. apply in_app_or in I as [I|I].
    + destruct (bumped_in_r _ _ _ Bm I) as (e0 & I0 & X & _). rewrite <- X in *. apply (so_new _ _ _ A); assumption.
    + rewrite Forall_forall in F. apply F in I. lia.
  - apply singles_forall. apply Forall_app. split; apply singles_forall; [apply A|apply B].
Qed.

Definition opt_list {A} (r : option A) : list A := match r with Some x => [x] | None => [] end.

Definition refs_at (mv : session -> gval -> option finfo -> option (session * option mj)) (v : gval) : Prop :=
  forall s i s' r, counts_ok s -> bounded s -> plain_value v -> (flag i fi_force_string = true -> single_value v) -> mv s v i = Some (s', r) ->
  sound s s' (opt_list r) /\
  (struct_or_map v -> (s_trace s' = s_trace s /\ forall o kvs, r <> Some (MDict o kvs)) \/ exists kvs, r = Some (MDict [] kvs)).

Lemma plain_child v w : plain_value v -> incl (structs w) (structs v) -> incl (maps w) (maps v) -> incl (held_json w) (held_json v) -> plain_value w.
Proof using. intros (A & B & C) I1 I2 I3. split; [|split]; auto. Qed.

Lemma no_info (p : finfo -> bool) (Q : Prop) : flag None p = true -> Q.
Proof using. discriminate. Qed.

Lemma m_elems_sound mv l : (forall v, In v l -> refs_at mv v /\ plain_value v) -> forall s s' rs, counts_ok s -> bounded s ->
  m_elems mv s l = Some (s', rs) -> sound s s' rs.
Proof using.
  induction l as [|v l IH]; intros H s s' rs C B E; cbn [m_elems] in E.
  - injection E as <- <-. apply sound_nil; [apply ext_refl|exact B|reflexivity].
  - destruct (mv s v None) as [[s1 r]|] eqn:E1; [|discriminate]. destruct (m_elems mv s1 l) as [[s2 rs2]|] eqn:E2; [|discriminate].
    injection E as <- <-. destruct (H v (or_introl eq_refl)) as [Hv Pv]. destruct (Hv _ None _ _ C B Pv (no_info _ _) E1) as [S1 _].
    pose proof (so_ext _ _ _ S1) as X. assert (sound s s2 (opt_list r ++ rs2)) as S.
    { eapply sound_app; [exact B|exact S1|]. eapply IH; [intros w I; apply H; right; exact I|eapply ext_counts; eassumption|eapply ext_bounded; eassumption|exact E2]. }
    destruct r; exact S.
Qed.
Lemma m_members_sound mv (l : list (bytes * gval)) : (forall k v, In (k, v) l -> refs_at mv v /\ plain_value v) -> forall s s' ps, counts_ok s -> bounded s ->
  m_members mv s l = Some (s', ps) -> sound s s' (map snd ps) /\ (NoDup (map fst l) -> NoDup (map fst ps)) /\ incl (map fst ps) (map fst l).
Proof using.
  induction l as [|[k v] l IH]; intros H s s' ps C B E; cbn [m_members] in E.
  - injection E as <- <-. split; [apply sound_nil; [apply ext_refl|exact B|reflexivity]|]. split; [auto|apply incl_refl].
  - destruct (mv s v None) as [[s1 r]|] eqn:E1; [|discriminate]. destruct (m_members mv s1 l) as [[s2 rs2]|] eqn:E2; [|discriminate].
    injection E as <- <-. destruct (H k v (or_introl eq_refl)) as [Hv Pv]. destruct (Hv _ None _ _ C B Pv (no_info _ _) E1) as [S1 _].
    pose proof (so_ext _ _ _ S1) as X.
    destruct (IH (fun k w I => H k w (or_intror I)) s1 s2 rs2) as (S2 & N2 & I2); [eapply ext_counts; eassumption|eapply ext_bounded; eassumption|exact E2|].
    pose proof (sound_app _ _ _ _ _ B S1 S2) as S. destruct r as [x|]; simpl in *.
    + split; [exact S|]. split; [|apply incl_cons; [left; reflexivity|apply incl_tl, I2]]. intros N. inversion N; subst. constructor; auto.
    + split; [exact S|]. split; [|apply incl_tl, I2]. intros N. inversion N; auto.
Qed.
Lemma m_fields_sound mv (l : list (finfo * gval)) : (forall x v, In (x, v) l -> fi_ignore x = false -> refs_at mv v /\ plain_value v /\ (fi_force_string x = true -> single_value v) /\ fi_deprecated_by x = None) ->
  forall s d s' ps d', counts_ok s -> bounded s ->
  m_fields mv s l d = Some (s', ps, d') -> sound s s' (map snd ps) /\ (NoDup (emitted_names l) -> NoDup (map fst ps)) /\ incl (map fst ps) (emitted_names l) /\ d' = d.
Proof using.
  induction l as [|[x v] l IH]; intros H s d s' ps d' C B E; cbn [m_fields] in E.
  - injection E as <- <- <-. split; [apply sound_nil; [apply ext_refl|exact B|reflexivity]|]. split; [auto|]. split; [apply incl_refl|reflexivity].
  - assert (forall y w, In (y, w) l -> fi_ignore y = false -> refs_at mv w /\ plain_value w /\ (fi_force_string y = true -> single_value w) /\ fi_deprecated_by y = None) as H' by (intros y w I; apply H; right; exact I).
    unfold emitted_names in *. cbn [filter fst]. destruct (fi_ignore x) eqn:Ig; cbn [negb]; [eapply IH; eassumption|].
    destruct (H x v (or_introl eq_refl) Ig) as (Hv & Pv & Fs & Dp). rewrite Dp in E.
    destruct (mv s v (Some x)) as [[s1 r]|] eqn:E1; [|discriminate]. destruct (m_fields mv s1 l d) as [[[s2 rs2] d2]|] eqn:E2; [|discriminate].
    injection E as <- <- <-. destruct (Hv _ (Some x) _ _ C B Pv Fs E1) as [S1 _].
    pose proof (so_ext _ _ _ S1) as X.
    destruct (IH H' s1 d s2 rs2 d2) as (S2 & N2 & I2 & D2); [eapply ext_counts; eassumption|eapply ext_bounded; eassumption|exact E2|].
    pose proof (sound_app _ _ _ _ _ B S1 S2) as S. cbn [map fst]. destruct r as [y|]; simpl in *.
    + split; [exact S|]. split; [|split; [apply incl_cons; [left; reflexivity|apply incl_tl, I2]|exact D2]]. intros N. inversion N; subst. constructor; auto.
    + split; [exact S|]. split; [|split; [apply incl_tl, I2|exact D2]]. intros N. inversion N; auto.
Qed.

Lemma finish_plain i m : flag i fi_force_string = false -> finish_container i m = Some m.
Proof using. unfold finish_container. intros ->. reflexivity. Qed.

Lemma flat_map_map {A B C} (g : B -> list C) (h : A -> B) l : flat_map g (map h l) = flat_map (fun x => g (h x)) l.
Proof using. induction l as [|x l IH]; simpl; [reflexivity|]. rewrite IH. reflexivity. Qed.

(** A new dict holds what its pairs hold. *)
Lemma sound_dict s s' ps : NoDup (map fst ps) -> sound s s' (map snd ps) -> sound s s' [new_dict ps].
Proof using.
  intros N S. pose proof (sm_of_list_permutation ps [] N (fun _ _ (H : In _ []) => H)) as P. simpl in P.
  pose proof (Permutation_map snd P) as P2.
  assert (forall id, In id (flat_map mrefs [new_dict ps]) <-> In id (flat_map mrefs (map snd ps))) as R.
  { intros id. simpl. rewrite app_nil_r, flat_map_map. rewrite !in_flat_map. split; intros (x & I1 & I2); exists x; (split; [|exact I2]); [eapply Permutation_in; [exact P|exact I1]|eapply Permutation_in; [apply Permutation_sym, P|exact I1]]. }
  assert (Permutation (flat_map mowners [new_dict ps]) (flat_map mowners (map snd ps))) as O.
  { simpl. rewrite app_nil_r, flat_map_map. apply Permutation_flat_map, P. }
  split.
  - apply S.
  - intros id I. apply (so_refs _ _ _ S), R, I.
  - eapply Permutation_NoDup; [apply Permutation_sym, O|apply S].
  - intros o I. apply (so_range _ _ _ S). eapply Permutation_in; [exact O|exact I].
  - intros e I L. eapply Permutation_in; [apply Permutation_sym, O|]. apply (so_new _ _ _ S); assumption.
  - simpl. split; [|exact Logic.I]. split; [lia|]. pose proof (so_single _ _ _ S) as G. apply singles_forall in G.
    assert (Forall (fun kv => single (snd kv)) (sm_of_list ps [])) as F.
    { apply Forall_forall. intros kv Ikv. rewrite Forall_forall in G. apply G. apply (Permutation_in _ P) in Ikv. apply in_map, Ikv. }
    clear - F. induction F as [|x l H _ IH]; simpl; auto.
Qed.

Lemma m_fields_same mv : (forall s v i s', mv s v i = Some (s', None) -> s_trace s' = s_trace s) ->
  forall fs s d s' d', m_fields mv s fs d = Some (s', [], d') -> s_trace s' = s_trace s.
Proof using.
  intros H. induction fs as [|[x v] fs IH]; intros s d s' d' E; cbn [m_fields] in E; [injection E as <- _; reflexivity|].
  destruct (fi_ignore x); [eapply IH; exact E|]. destruct (fi_deprecated_by x); [eapply IH; exact E|].
  destruct (mv s v (Some x)) as [[s1 r]|] eqn:E1; [|discriminate]. destruct (m_fields mv s1 fs d) as [[[s2 rs2] d2]|] eqn:E2; [|discriminate].
  destruct r; [discriminate|]. injection E as <- -> _. apply IH in E2. apply H in E1. congruence.
Qed.

Lemma none_same n : forall s v i s', mval n s v i = Some (s', None) -> s_trace s' = s_trace s.
Proof using.
  induction n as [|n IH]; intros s v i s' E; [discriminate|]. cbn [Marshal.mval] in E.
  destruct v as [b|k z|bit f|x|t|t|[l|]|l|[m|]|fs|[a|]|[x|]|[j|]|[j|]|j|j|]; try (injection E as <- _; reflexivity); try discriminate.
  - destruct l as [|x l]; [destruct (flag i fi_omit_empty && omit); congruence|].
    destruct (m_elems (mval n) s (x :: l)) as [[s1 rs]|]; [|discriminate]. exfalso. eapply (finish_some i (MArr rs)). congruence.
  - destruct l as [|x l]; [destruct (flag i fi_omit_empty && omit); congruence|].
    destruct (m_elems (mval n) s (x :: l)) as [[s1 rs]|]; [|discriminate]. exfalso. eapply (finish_some i (MArr rs)). congruence.
  - destruct m as [|x m]; [destruct (flag i fi_omit_empty && omit); congruence|].
    destruct (m_members (mval n) s (x :: m)) as [[s1 rs]|]; [|discriminate]. exfalso. eapply (finish_some i (new_dict rs)). congruence.
  - destruct (m_fields (mval n) s fs []) as [[[s1 ps] dep]|] eqn:E1; [|discriminate].
    destruct (dep_pairs n dep dep ps) as [dps|] eqn:E2; [|discriminate].
    destruct (ps ++ dps) as [|p0 all] eqn:E3; [|exfalso; eapply (finish_some i (new_dict (p0 :: all))); congruence].
    apply app_eq_nil in E3 as [-> _]. assert (s' = s1) as -> by (destruct (flag i fi_omit_empty && omit); congruence).
    eapply m_fields_same; [|exact E1]. exact IH.
  - destruct (tr_find None (s_trace s) a) as [t [id|]] eqn:F; [discriminate|]. pose proof (tr_find_miss _ _ _ F) as ->. cbn in E.
    destruct (nth_error st a) as [x|] eqn:N; [|discriminate].
    match type of E with match mval _ ?s1 _ _ with _ => _ end = _ => destruct (mval n s1 x i) as [[s2 r2]|] eqn:E1; [|discriminate] end.
    destruct r2 as [m|]; [destruct m; discriminate|]. apply IH in E1. injection E as <-. simpl. rewrite E1. simpl. rewrite tr_pop_last. reflexivity.
  - eapply IH, E.
Qed.

Lemma mval_single n s v i s' r : single_value v -> mval (S n) s v i = Some (s', r) ->
  s_trace s' = s_trace s /\ (r = None \/ exists j, r = Some (MLeaf j) /\ (In j (held_json v) \/ node_ids j = [] /\ ref_ids j = [])).
Proof using.
  intros V E. unfold Marshal.mval in E.
  destruct v as [b|k z|bit f|[|c x]|[t|]|[t|]|[l|]|l|[m|]|fs|[a|]|[x|]|[j|]|[j|]|j|j|]; try contradiction V;
    unfold marshal_bool, marshal_int, marshal_float, marshal_string, marshal_time, marshal_tri, marshal_json_val, nil_or_null in E; cbn beta iota in E;
    try (match type of E with context [if ?b then _ else _] => destruct b eqn:? end); try (match type of E with context [if ?b then _ else _] => destruct b eqn:? end);
    injection E as <- <-; (split; [reflexivity|]); try (left; reflexivity); right; eexists; (split; [reflexivity|]); cbn; auto.
Qed.

Lemma mval_refs n : forall v, refs_at (mval n) v.
Proof using Hst Hsm.
  induction n as [|n IH]; intros v s i s' r C B P FS E; [discriminate|].
  pose proof (mval_ext _ _ _ _ _ _ _ _ C E) as X.
  destruct (flag i fi_force_string) eqn:FS0.
  { specialize (FS eq_refl). destruct (mval_single _ _ _ _ _ _ FS E) as [T R]. split; [|intros _; left; split; [exact T|intros o kvs; destruct R as [->|(j & -> & _)]; discriminate]].
    destruct R as [->|(j & -> & Hj)]; [apply sound_nil; [exact X|exact B|exact T]|].
    assert (Hj' : node_ids j = [] /\ ref_ids j = []) by (destruct Hj as [Hj|Hj]; [apply P, Hj|exact Hj]). destruct Hj' as [N R].
    split; simpl; rewrite ?R, ?N; simpl; try tauto; try apply NoDup_nil. intros e I L. rewrite T in I. specialize (B e I). lia. }
  clear FS. rename FS0 into FS. assert (FS' : forall w, flag i fi_force_string = true -> single_value w) by congruence.
  cbn [Marshal.mval] in E.
  assert (forall o, Some (s, o) = Some (s', r) -> s' = s /\ r = o) as PAIR by (intros o Y; split; congruence).
  assert (forall j, s_trace s' = s_trace s -> r = Some (MLeaf j) -> ref_ids j = [] -> node_ids j = [] -> sound s s' (opt_list r) /\
    (struct_or_map v -> (s_trace s' = s_trace s /\ forall o kvs, r <> Some (MDict o kvs)) \/ exists kvs, r = Some (MDict [] kvs))) as LEAF.
  { intros j T -> R N. split; [|intros _; left; split; [exact T|discriminate]]. split; simpl; rewrite ?R, ?N; simpl; try tauto; try apply NoDup_nil.
    - intros e I L. rewrite T in I. specialize (B e I). lia. }
  assert (s_trace s' = s_trace s -> r = None -> sound s s' (opt_list r) /\
    (struct_or_map v -> (s_trace s' = s_trace s /\ forall o kvs, r <> Some (MDict o kvs)) \/ exists kvs, r = Some (MDict [] kvs))) as GONE.
  { intros T ->. split; [apply sound_nil; assumption|intros _; left; split; [exact T|discriminate]]. }
  assert (forall o, o = nil_or_null omit -> Some (s, o) = Some (s', r) -> sound s s' (opt_list r) /\
    (struct_or_map v -> (s_trace s' = s_trace s /\ forall o kvs, r <> Some (MDict o kvs)) \/ exists kvs, r = Some (MDict [] kvs))) as NIL.
  { intros o -> Y. apply PAIR in Y as [-> Y]. unfold nil_or_null in Y. destruct omit; [apply GONE; auto|eapply LEAF; [reflexivity|exact Y|reflexivity..]]. }
  assert (forall l, (v = GSlice (Some l) \/ v = GArray l) -> match l with
          | [] => if flag i fi_omit_empty && omit then Some (s, None) else Some (s, finish_container i (MArr []))
          | _ => match m_elems (mval n) s l with
                 | Some (s1, rs) => Some (s1, finish_container i (MArr rs))
                 | None => None
                 end
          end = Some (s', r) -> sound s s' (opt_list r) /\ (struct_or_map v -> (s_trace s' = s_trace s /\ forall o kvs, r <> Some (MDict o kvs)) \/ exists kvs, r = Some (MDict [] kvs))) as SL.
  { intros l Hv Y. assert (exists rs, m_elems (mval n) s l = Some (s', rs) /\ (r = None /\ s' = s \/ r = finish_container i (MArr rs))) as (rs & EE & RR).
    { destruct l as [|x l]; [destruct (flag i fi_omit_empty && omit); injection Y as <- <-; exists []; auto|].
      destruct (m_elems (mval n) s (x :: l)) as [[s1 rs]|] eqn:E1; [|discriminate]. injection Y as <- <-. eauto. }
    destruct RR as [[-> ->]|RR]; [apply GONE; reflexivity|]. rewrite (finish_plain _ _ FS) in RR. subst r.
    assert (sound s s' rs) as S.
    { eapply m_elems_sound; [|exact C|exact B|exact EE]. intros w Iw. split; [apply IH|].
      eapply plain_child; [exact P|..]; destruct Hv as [-> | ->]; cbn [structs maps held_json]; intros z Iz; apply in_flat_map; eauto. }
    split; [|destruct Hv as [-> | ->]; intros []]. destruct S as [S1 S2 S3 S4 S5 S6]. split; simpl; rewrite ?app_nil_r; auto. }
  destruct v as [b|k z|bit f|x|t|t|[l|]|l|[m|]|fs|[a|]|[x|]|[j|]|[j|]|j|j|]; try (eapply NIL; [reflexivity|exact E]).
  - apply PAIR in E as [-> Er]. unfold marshal_bool in Er. destruct (negb b && flag i fi_omit_false && omit); [apply GONE; auto|].
    rewrite FS in Er. eapply LEAF; [reflexivity|exact Er|reflexivity..].
  - apply PAIR in E as [-> Er]. unfold marshal_int in Er. destruct ((wrap (Signed 64) z =? 0) && flag i fi_omit_zero && omit); [apply GONE; auto|].
    rewrite FS in Er. eapply LEAF; [reflexivity|exact Er|reflexivity..].
  - apply PAIR in E as [-> Er]. unfold marshal_float in Er. destruct (fl_is_zero f && flag i fi_omit_zero && omit); [apply GONE; auto|].
    rewrite FS in Er. eapply LEAF; [reflexivity|exact Er|reflexivity..].
  - apply PAIR in E as [-> Er]. destruct x as [|c x]; simpl in Er; [destruct (flag i fi_omit_empty && omit); [apply GONE; auto|]|]; (eapply LEAF; [reflexivity|exact Er|reflexivity..]).
  - destruct t as [b|]; [|eapply NIL; [reflexivity|exact E]]. apply PAIR in E as [-> Er]. eapply LEAF; [reflexivity|exact Er|reflexivity..].
  - apply PAIR in E as [-> Er]. destruct t as [x|]; simpl in Er; [|destruct (flag i fi_omit_empty && omit); [apply GONE; auto|]]; (eapply LEAF; [reflexivity|exact Er|reflexivity..]).
  - apply (SL l); auto.
  - apply (SL l); auto.
  - assert (exists rs, m_members (mval n) s m = Some (s', rs) /\ (r = None /\ s' = s \/ r = finish_container i (new_dict rs))) as (rs & EE & RR).
    { destruct m as [|x m]; [destruct (flag i fi_omit_empty && omit); injection E as <- <-; exists []; auto|].
      destruct (m_members (mval n) s (x :: m)) as [[s1 rs]|] eqn:E1; [|discriminate]. injection E as <- <-. eauto. }
    destruct RR as [[-> ->]|RR]; [apply GONE; reflexivity|]. rewrite (finish_plain _ _ FS) in RR. subst r.
    destruct (m_members_sound (mval n) m) with (4 := EE) as (S & N & _); [|exact C|exact B|].
    { intros k w Iw. split; [apply IH|]. eapply plain_child; [exact P|..]; cbn [structs maps held_json]; intros z Iz; [|right|]; apply in_flat_map; exists (k, w); auto. }
    split; [|intros _; right; eexists; reflexivity]. simpl. apply sound_dict; [|exact S]. apply N. apply P. left. reflexivity.
  - destruct (m_fields (mval n) s fs []) as [[[s1 ps] dep]|] eqn:E1; [|discriminate].
    destruct P as (P1 & P2 & P3). destruct (P1 fs (or_introl eq_refl)) as (Q1 & Q2 & Q3).
    destruct (m_fields_sound (mval n) fs) with (4 := E1) as (S & N & _ & D); [|exact C|exact B|].
    { intros x w Iw Ig. split; [apply IH|]. split; [|split; [exact (Q1 x w Iw Ig)|exact (Q2 x w Iw Ig)]].
      eapply (plain_child (GStruct fs)); [split; [|split]; assumption|..]; cbn [structs maps held_json]; intros z Iz; [right| |]; apply in_flat_map; exists (x, w); auto. }
    subst dep. cbn [dep_pairs] in E. rewrite app_nil_r in E.
    assert (s' = s1 /\ (r = None /\ ps = [] \/ r = finish_container i (new_dict ps))) as [-> RR].
    { destruct ps; [destruct (flag i fi_omit_empty && omit)|]; injection E as <- <-; auto. }
    destruct RR as [[-> ->]|RR].
    + split; [exact S|]. intros _. left. split; [|discriminate]. eapply m_fields_same; [|exact E1]. intros. eapply none_same. eassumption.
    + rewrite (finish_plain _ _ FS) in RR. subst r. split; [|intros _; right; eexists; reflexivity]. simpl. apply sound_dict; [apply N, Q3|exact S].
  - destruct (tr_find None (s_trace s) a) as [t [id|]] eqn:F.
    + assert (s' = {| s_idx := s_idx s; s_trace := t |} /\ r = Some (MLeaf (JPtr id))) as [-> ->] by (split; congruence).
      split; [|intros []]. destruct (tr_find_hit _ _ _ _ _ F eq_refl C) as (e & Ie & Ei & Ec & _). split; simpl; try tauto; try apply NoDup_nil.
      * intros id' [<-|[]]. apply referred_in. exists e. auto.
      * intros e' I' L. destruct (bumped_in_r _ _ _ (proj1 (tr_find_spec _ _ _ _ _ F)) I') as (e0 & I0 & X0 & _). specialize (B e0 I0). lia.
    + pose proof (tr_find_miss _ _ _ F) as ->. cbn in E. destruct (nth_error st a) as [x|] eqn:N; [|discriminate].
      set (s1 := {| s_idx := s_idx s + 1; s_trace := s_trace s ++ [{| te_addr := a; te_id := s_idx s + 1; te_cnt := 1 |}] |}) in E.
      destruct (mval n s1 x i) as [[s2 r2]|] eqn:E1; [|discriminate].
      assert (s' = {| s_idx := s_idx s2; s_trace := tr_pop (s_trace s2) |} /\ r = set_owner (s_idx s + 1) r2) as [Es Er] by (split; congruence).
      assert (counts_ok s1) as C1 by (eapply counts_push; [exact C|apply bumped_refl]).
      assert (bounded s1) as B1.
      { intros e Ie. subst s1. simpl in *. apply in_app_or in Ie as [Ie|[<-|[]]]; [specialize (B e Ie); lia|simpl; lia]. }
      pose proof (nth_error_In _ _ N) as Ix. rewrite Forall_forall in Hst, Hsm.
      destruct (IH x s1 i s2 r2 C1 B1 (Hst x Ix) (FS' _) E1) as [S SM]. specialize (SM (Hsm x Ix)). split; [|intros []].
      assert (forall e, In e (s_trace s') -> In e (s_trace s2) /\ (s_trace s2 = s_trace s1 -> In e (s_trace s))) as POP.
      { intros e Ie. subst s'. simpl in Ie. split.
        - clear - Ie. revert Ie. generalize (s_trace s2). intros t. induction t as [|y t IHt]; [auto|].
          destruct t as [|z t]; simpl; [destruct (te_cnt y =? 1); [intros []|auto]|]. intros [->|H]; [auto|]. right. apply IHt, H.
        - intros TR. rewrite TR in Ie. subst s1. simpl in Ie. rewrite tr_pop_last in Ie. exact Ie. }
      assert (forall id, referred (s_trace s2) id = true -> referred (s_trace s') id = true) as RP.
      { intros id R. apply referred_in in R as (e & Ie & Ei & Ec). apply referred_in. exists e. split; [|auto]. subst s'. simpl.
        clear - Ie Ec. revert Ie. generalize (s_trace s2). intros t. induction t as [|y t IHt]; [auto|].
        destruct t as [|z t]; simpl; [intros [->|[]]; destruct (Z.eqb_spec (te_cnt e) 1); [lia|left; reflexivity]|].
        intros [->|H]; [left; reflexivity|right; apply IHt, H]. }
      assert (s_idx s1 = s_idx s + 1) as I1 by reflexivity. assert (s_idx s' = s_idx s2) as I2 by (subst s'; reflexivity).
      pose proof (proj1 (so_ext _ _ _ S)) as LE.
      assert (forall (rs : list mj), (forall id, In id (flat_map mrefs rs) -> In id (flat_map mrefs (opt_list r2))) ->
        NoDup (flat_map mowners rs) -> (forall o, In o (flat_map mowners rs) -> o = s_idx s + 1 \/ In o (flat_map mowners (opt_list r2))) ->
        (forall e, In e (s_trace s') -> s_idx s < te_id e -> In (te_id e) (flat_map mowners rs)) -> singles rs -> sound s s' rs) as MK.
      { intros rs K1 K2 K3 K4 K5. split; [exact X| |exact K2| |exact K4|exact K5].
        - intros id I. apply RP, (so_refs _ _ _ S), K1, I.
        - intros o I. destruct (K3 o I) as [->|I']; [lia|]. pose proof (so_range _ _ _ S o I'). lia. }
      destruct SM as [[SM SM']|[kvs ->]].
      * (* nothing was referred to below: popped *)
        assert (forall e, In e (s_trace s') -> s_idx s < te_id e -> False) as NONE.
        { intros e Ie L. destruct (POP e Ie) as [_ Q]. specialize (B e (Q SM)). lia. }
        destruct r2 as [m2|]; [|subst r; apply MK; simpl; try tauto; try apply NoDup_nil; intros e Ie L; exact (NONE e Ie L)].
        pose proof (so_nodup _ _ _ S) as ND. pose proof (so_single _ _ _ S) as SS. simpl in ND, SS. rewrite app_nil_r in ND.
        destruct m2 as [j|l|o kvs]; subst r; cbn [set_owner opt_list].
        -- apply MK; [auto|simpl; rewrite app_nil_r; exact ND|auto|intros e Ie L; destruct (NONE e Ie L)|exact SS].
        -- apply MK; [auto|simpl; rewrite app_nil_r; exact ND|auto|intros e Ie L; destruct (NONE e Ie L)|exact SS].
        -- destruct (SM' o kvs eq_refl).
      * subst r. pose proof (so_nodup _ _ _ S) as ND. pose proof (so_single _ _ _ S) as SS. simpl in ND, SS. rewrite app_nil_r in ND.
        cbn [set_owner opt_list app]. apply MK.
        -- auto.
        -- simpl. rewrite app_nil_r. constructor; [|exact ND]. intros I. pose proof (so_range _ _ _ S (s_idx s + 1)) as Rg. simpl in Rg. rewrite app_nil_r in Rg. specialize (Rg I). lia.
        -- intros o. simpl. rewrite !app_nil_r. intros [<-|I]; [left; reflexivity|right; exact I].
        -- intros e Ie L. destruct (POP e Ie) as [I2' _]. simpl. rewrite app_nil_r.
           destruct (Z.eq_dec (te_id e) (s_idx s + 1)) as [->|NE]; [left; reflexivity|right].
           pose proof (so_new _ _ _ S e I2') as W. simpl in W. rewrite app_nil_r in W. apply W. lia.
        -- simpl in *. split; [|exact Logic.I]. split; [lia|]. apply SS.
  - destruct (IH x s i s' r C B) as [S _]; [eapply plain_child; [exact P|..]; apply incl_refl|exact (FS' _)|exact E|]. split; [exact S|intros []].
  - assert (s' = {| s_idx := s_idx s + 1; s_trace := s_trace s |} /\ r = Some (MLeaf j)) as [-> ->] by (split; congruence).
    destruct P as (_ & _ & P3). destruct (P3 j (or_introl eq_refl)) as [H1 H2]. eapply LEAF; [reflexivity|reflexivity|assumption..].
  - apply PAIR in E as [-> Er]. destruct P as (_ & _ & P3). destruct (P3 j (or_introl eq_refl)) as [H1 H2]. eapply LEAF; [reflexivity|exact Er|assumption..].
  - apply PAIR in E as [-> Er]. destruct P as (_ & _ & P3). destruct (P3 j (or_introl eq_refl)) as [H1 H2].
    unfold marshal_json_val in Er. destruct (json_empty j && flag i fi_omit_empty && omit); [apply GONE; auto|]. eapply LEAF; [reflexivity|exact Er|assumption..].
  - apply PAIR in E as [-> Er]. destruct P as (_ & _ & P3). destruct (P3 j (or_introl eq_refl)) as [H1 H2]. eapply LEAF; [reflexivity|exact Er|assumption..].
  - apply PAIR in E as [-> Er]. eapply LEAF; [reflexivity|exact Er|reflexivity..].
Qed.
End Refs.
