(** In the output of Marshal nodes come before the references to them, if
    fields are declared in the order of their names; and acyclic graphs have no
    references. *)
From Verif Require Import Base Strconv SortedMap SortedMapFacts Json SpecJson Printer Heap Gotypes Marshal SpecMarshal SpecEncode HeapFacts2 ParseInv MarshalFacts DepFacts MarshalEnc MarshalEnc2 MarshalRefs Unmarshal SpecUnmarshal SpecRestore.

Fixpoint ordered (seen : list Z) (evs : list event) : Prop :=
  match evs with
  | [] => True
  | Node n :: evs' => ordered (n :: seen) evs'
  | Ref n :: evs' => In n seen /\ ordered seen evs'
  end.
Fixpoint after (seen : list Z) (evs : list event) : list Z :=
  match evs with
  | [] => seen
  | Node n :: evs' => after (n :: seen) evs'
  | Ref n :: evs' => after seen evs'
  end.
Lemma ordered_app e1 : forall seen e2, ordered seen (e1 ++ e2) <-> ordered seen e1 /\ ordered (after seen e1) e2.
Proof. induction e1 as [|[n|n] e1 IH]; intros seen e2; cbn; [tauto|apply IH|]. rewrite IH. tauto. Qed.
Lemma after_app e1 : forall seen e2, after seen (e1 ++ e2) = after (after seen e1) e2.
Proof. induction e1 as [|[n|n] e1 IH]; intros seen e2; cbn; [reflexivity|apply IH|apply IH]. Qed.

Lemma nodes_first_ordered j : nodes_first j <-> ordered [] (events j).
Proof.
  unfold nodes_first. split.
  - intros H.
    assert (G : forall evs seen, (forall before n aft, evs = before ++ Ref n :: aft -> In (Node n) before \/ In n seen) -> ordered seen evs).
    { induction evs as [|[n|n] evs IH]; intros seen K; cbn [ordered]; [exact Logic.I| |split].
      - apply IH. intros b m aft E. destruct (K (Node n :: b) m aft) as [[D|D]|D]; [rewrite E; reflexivity|injection D as ->; right; left; reflexivity|left; exact D|right; right; exact D].
      - destruct (K [] n evs eq_refl) as [[]|D]; exact D.
      - apply IH. intros b m aft E. destruct (K (Ref n :: b) m aft) as [[D|D]|D]; [rewrite E; reflexivity|discriminate D|left; exact D|right; exact D]. }
    apply G. intros b n aft E. left. eapply H, E.
  - intros H b n aft E. rewrite E in H. apply ordered_app in H as [_ [H _]].
    assert (G : forall evs seen k, In k (after seen evs) -> In (Node k) evs \/ In k seen).
    { induction evs as [|[m|m] evs IH]; intros seen k I; cbn [after] in I; [right; exact I|destruct (IH _ _ I) as [D|[D|D]]; [left; right; exact D|subst; left; left; reflexivity|right; exact D]|destruct (IH _ _ I) as [D|D]; [left; right; exact D|right; exact D]]. }
    destruct (G b [] n H) as [D|[]]. exact D.
Qed.

Lemma ordered_more evs : forall seen seen', incl seen seen' -> ordered seen evs -> ordered seen' evs.
Proof.
  induction evs as [|[n|n] evs IH]; intros seen seen' I H; cbn in *; [exact H|eapply IH; [|exact H]; intros x [->|Ix]; [left; reflexivity|right; apply I, Ix]|].
  destruct H as [H1 H2]. split; [apply I, H1|eapply IH; eassumption].
Qed.
Lemma after_more evs : forall seen seen', incl seen seen' -> incl (after seen evs) (after seen' evs).
Proof.
  induction evs as [|[n|n] evs IH]; intros seen seen' I; cbn; [exact I|apply IH; intros x [->|Ix]; [left; reflexivity|right; apply I, Ix]|apply IH, I].
Qed.
Lemma after_incl evs : forall seen, incl seen (after seen evs).
Proof.
  induction evs as [|[n|n] evs IH]; intros seen; cbn; [apply incl_refl|intros x I; apply IH; right; exact I|apply IH].
Qed.
Lemma ordered_less evs x : forall seen seen', incl seen (x :: seen') -> ~ In (Ref x) evs -> ordered seen evs -> ordered seen' evs.
Proof.
  induction evs as [|[n|n] evs IH]; intros seen seen' I N H; cbn in *; [exact H| |].
  - eapply IH; [|tauto|exact H]. intros y [->|Iy]; [right; left; reflexivity|]. apply I in Iy as [<-|Iy]; [left; reflexivity|right; right; exact Iy].
  - destruct H as [H1 H2]. split; [|eapply IH; [exact I|tauto|exact H2]]. apply I in H1 as [<-|H1]; [tauto|exact H1].
Qed.

(** ** The order of events during the traversal *)

Fixpoint mevents (m : mj) : list event :=
  match m with
  | MLeaf j => events j
  | MArr l => flat_map mevents l
  | MDict o kvs => map Node o ++ flat_map (fun kv => mevents (snd kv)) kvs
  end.

Definition ids (s : Marshal.session) : list Z := map te_id (s_trace s).

Lemma ref_events j n : In (Ref n) (events j) -> In n (ref_ids j).
Proof.
  induction j as [|x|z|g bit|s|l IH|nid kvs IH|m] using json_ind'; cbn; try tauto.
  - intros I. apply in_flat_map in I as (x & Ix & I). apply in_flat_map. exists x. split; [exact Ix|]. rewrite Forall_forall in IH. apply IH; assumption.
  - intros I. apply in_app_or in I as [I|I]; [destruct (0 <? nid); [destruct I as [I|[]]; discriminate|destruct I]|].
    apply in_flat_map in I as (x & Ix & I). apply in_flat_map. exists x. split; [exact Ix|]. rewrite Forall_forall in IH. apply (IH x); assumption.
  - intros [I|[]]. injection I as <-. left. reflexivity.
Qed.
Fixpoint mj_size (m : mj) : nat :=
  match m with
  | MLeaf _ => 1
  | MArr l => S (fold_right (fun x n => mj_size x + n)%nat 0%nat l)
  | MDict _ kvs => S (fold_right (fun x n => mj_size (snd x) + n)%nat 0%nat kvs)
  end.
Lemma mref_events m n : In (Ref n) (mevents m) -> In n (mrefs m).
Proof.
  remember (mj_size m) as k eqn:Ek. assert (Lk : (mj_size m <= k)%nat) by lia. clear Ek. revert m Lk. induction k as [|k IH]; intros m Lk; [destruct m; cbn in Lk; lia|].
  destruct m as [j|l|o kvs]; cbn [mevents mrefs mj_size] in *.
  - apply ref_events.
  - intros I. apply in_flat_map in I as (x & Ix & I). apply in_flat_map. exists x. split; [exact Ix|]. apply IH; [|exact I].
    assert (mj_size x <= fold_right (fun x n => mj_size x + n)%nat 0%nat l)%nat; [|lia]. clear - Ix. induction l as [|y l IHl]; [destruct Ix|]. cbn. destruct Ix as [->|Ix]; [lia|]. apply IHl in Ix. lia.
  - intros I. apply in_app_or in I as [I|I]; [apply in_map_iff in I as (z & D & _); discriminate D|].
    apply in_flat_map in I as (x & Ix & I). apply in_flat_map. exists x. split; [exact Ix|]. apply IH; [|exact I].
    assert (mj_size (snd x) <= fold_right (fun x n => mj_size (snd x) + n)%nat 0%nat kvs)%nat; [|lia]. clear - Ix. induction kvs as [|y l IHl]; [destruct Ix|]. cbn. destruct Ix as [->|Ix]; [lia|]. apply IHl in Ix. lia.
Qed.

Lemma pure_no_events j : node_ids j = [] -> ref_ids j = [] -> events j = [].
Proof.
  induction j as [|x|z|g bit|s|l IH|nid kvs IH|n] using json_ind'; intros H1 H2; try reflexivity; try discriminate.
  - cbn in *. induction l as [|x l IHl]; [reflexivity|]. cbn in *. apply app_eq_nil in H1 as [A1 A2], H2 as [C1 C2]. inversion IH; subst. rewrite H1 by assumption. apply IHl; assumption.
  - cbn in *. apply app_eq_nil in H1 as [A1 A2]. destruct (0 <? nid); [discriminate|]. cbn. clear A1. induction kvs as [|[k x] kvs IHl]; [reflexivity|]. cbn in *.
    apply app_eq_nil in A2 as [A1 A2], H2 as [C1 C2]. inversion IH as [|? ? I1 I2]; subst. cbn [snd] in I1. rewrite I1 by assumption. apply IHl; assumption.
Qed.

Section Order.
Context (st : store) (omit : bool).
Context (Hst : Forall plain_value st) (Hsm : Forall struct_or_map st) (Hno : Forall in_name_order st).
Notation mval := (mval st omit).

Definition tidy (s s' : Marshal.session) (rs : list mj) : Prop :=
  ordered (ids s) (flat_map mevents rs) /\ incl (ids s') (after (ids s) (flat_map mevents rs)).

Lemma tidy_nil s s' : s_trace s' = s_trace s -> tidy s s' [].
Proof using. intros E. split; [exact Logic.I|]. cbn. unfold ids. rewrite E. apply incl_refl. Qed.
Lemma tidy_app s s1 s2 a b : tidy s s1 a -> tidy s1 s2 b -> tidy s s2 (a ++ b).
Proof using.
  intros [A1 A2] [B1 B2]. unfold tidy. rewrite flat_map_app, after_app. split.
  - apply ordered_app. split; [exact A1|]. eapply ordered_more; [exact A2|exact B1].
  - eapply incl_tran; [exact B2|]. apply after_more, A2.
Qed.

Definition tidy_at (mv : Marshal.session -> gval -> option finfo -> option (Marshal.session * option mj)) (v : gval) : Prop :=
  forall s i s' r, counts_ok s -> bounded s -> plain_value v -> in_name_order v -> (flag i fi_force_string = true -> single_value v) -> mv s v i = Some (s', r) -> tidy s s' (opt_list r).

Lemma order_child v w : in_name_order v -> incl (structs w) (structs v) -> incl (maps w) (maps v) -> in_name_order w.
Proof using. intros [A B] I1 I2. split; auto. Qed.

Definition next_ok (mv : Marshal.session -> gval -> option finfo -> option (Marshal.session * option mj)) : Prop :=
  forall s v i s' r, counts_ok s -> bounded s -> mv s v i = Some (s', r) -> counts_ok s' /\ bounded s'.

Lemma m_elems_tidy mv l : next_ok mv -> (forall v, In v l -> tidy_at mv v /\ plain_value v /\ in_name_order v) -> forall s s' rs, counts_ok s -> bounded s ->
  m_elems mv s l = Some (s', rs) -> tidy s s' rs.
Proof using.
  intros Nx. induction l as [|v l IH]; intros H s s' rs C B E; cbn [m_elems] in E.
  - injection E as <- <-. apply tidy_nil; reflexivity.
  - destruct (mv s v None) as [[s1 r]|] eqn:E1; [|discriminate]. destruct (m_elems mv s1 l) as [[s2 rs2]|] eqn:E2; [|discriminate].
    injection E as <- <-. destruct (H v (or_introl eq_refl)) as (Hv & Pv & Ov). pose proof (Hv _ None _ _ C B Pv Ov (no_info _ _) E1) as S1.
    destruct (Nx _ _ _ _ _ C B E1) as [C1 B1].
    assert (tidy s s2 (opt_list r ++ rs2)) as S. { eapply tidy_app; [exact S1|]. eapply IH; [intros w I; apply H; right; exact I|exact C1|exact B1|exact E2]. }
    destruct r; exact S.
Qed.
Lemma m_members_tidy mv (l : list (bytes * gval)) : next_ok mv -> (forall k v, In (k, v) l -> tidy_at mv v /\ plain_value v /\ in_name_order v) -> forall s s' ps, counts_ok s -> bounded s ->
  m_members mv s l = Some (s', ps) -> tidy s s' (map snd ps) /\ incl (map fst ps) (map fst l) /\ (sm_ok l -> sm_ok ps).
Proof using.
  intros Nx. induction l as [|[k v] l IH]; intros H s s' ps C B E; cbn [m_members] in E.
  - injection E as <- <-. split; [apply tidy_nil; reflexivity|]. split; [apply incl_refl|auto].
  - destruct (mv s v None) as [[s1 r]|] eqn:E1; [|discriminate]. destruct (m_members mv s1 l) as [[s2 rs2]|] eqn:E2; [|discriminate].
    injection E as <- <-. destruct (H k v (or_introl eq_refl)) as (Hv & Pv & Ov). pose proof (Hv _ None _ _ C B Pv Ov (no_info _ _) E1) as S1.
    destruct (Nx _ _ _ _ _ C B E1) as [C1 B1].
    destruct (IH (fun k w I => H k w (or_intror I)) s1 s2 rs2 C1 B1 E2) as (S2 & I2 & O2).
    pose proof (tidy_app _ _ _ _ _ S1 S2) as S. destruct r as [x|]; cbn [opt_list app map fst snd] in *.
    + split; [exact S|]. split; [apply incl_cons; [left; reflexivity|apply incl_tl, I2]|]. intros O. apply sm_ok_cons in O as [O F]. apply sm_ok_cons. split; [apply O2, O|].
      apply Forall_forall. intros [k' w] I'. apply (in_map fst) in I'. apply I2 in I'. apply in_map_iff in I' as ([k2 w2] & Ek & I'). cbn [fst] in *. subst k2. rewrite Forall_forall in F. exact (F _ I').
    + split; [exact S|]. split; [apply incl_tl, I2|]. intros O. apply sm_ok_cons in O as [O _]. apply O2, O.
Qed.
Lemma m_fields_tidy mv (l : list (finfo * gval)) : next_ok mv -> (forall x v, In (x, v) l -> fi_ignore x = false -> tidy_at mv v /\ plain_value v /\ in_name_order v /\ (fi_force_string x = true -> single_value v) /\ fi_deprecated_by x = None) ->
  forall s d s' ps d', counts_ok s -> bounded s ->
  m_fields mv s l d = Some (s', ps, d') -> tidy s s' (map snd ps) /\ incl (map fst ps) (emitted_names l) /\ (keys_sorted (emitted_names l) -> sm_ok ps) /\ d' = d.
Proof using.
  intros Nx. induction l as [|[x v] l IH]; intros H s d s' ps d' C B E; cbn [m_fields] in E.
  - injection E as <- <- <-. split; [apply tidy_nil; reflexivity|]. split; [apply incl_refl|split; [auto|reflexivity]].
  - assert (forall y w, In (y, w) l -> fi_ignore y = false -> tidy_at mv w /\ plain_value w /\ in_name_order w /\ (fi_force_string y = true -> single_value w) /\ fi_deprecated_by y = None) as H' by (intros y w I; apply H; right; exact I).
    unfold emitted_names in *. cbn [filter fst]. destruct (fi_ignore x) eqn:Ig; cbn [negb]; [eapply IH; eassumption|].
    destruct (H x v (or_introl eq_refl) Ig) as (Hv & Pv & Ov & Fs & Dp). rewrite Dp in E.
    destruct (mv s v (Some x)) as [[s1 r]|] eqn:E1; [|discriminate]. destruct (m_fields mv s1 l d) as [[[s2 rs2] d2]|] eqn:E2; [|discriminate].
    injection E as <- <- <-. pose proof (Hv _ (Some x) _ _ C B Pv Ov Fs E1) as S1.
    destruct (Nx _ _ _ _ _ C B E1) as [C1 B1].
    destruct (IH H' s1 d s2 rs2 d2 C1 B1 E2) as (S2 & I2 & O2 & D2).
    pose proof (tidy_app _ _ _ _ _ S1 S2) as S. cbn [map fst]. destruct r as [y|]; cbn [opt_list app map fst snd] in *.
    + split; [exact S|]. split; [apply incl_cons; [left; reflexivity|apply incl_tl, I2]|]. split; [|exact D2]. intros O. apply keys_sorted_strong in O. inversion O as [|? ? O1 F]; subst.
      apply sm_ok_cons. split; [apply O2, keys_sorted_strong, O1|].
      apply Forall_forall. intros [k' w] I'. apply (in_map fst) in I'. apply I2 in I'. rewrite Forall_forall in F. apply F, I'.
    + split; [exact S|]. split; [apply incl_tl, I2|]. split; [|exact D2]. intros O. apply keys_sorted_strong in O. inversion O; subst. apply O2, keys_sorted_strong. assumption.
Qed.

Lemma tidy_dict s s' ps : sm_ok ps -> tidy s s' (map snd ps) -> tidy s s' [new_dict ps].
Proof using.
  intros O S. unfold tidy, new_dict in *. cbn [flat_map mevents map]. rewrite (sm_of_list_sorted ps [] O). cbn [app]. rewrite app_nil_r. rewrite flat_map_map in S. exact S.
Qed.

Lemma mval_next n : next_ok (mval n).
Proof using.
  intros s v i s' r C B E. pose proof (mval_ext _ _ _ _ _ _ _ _ C E) as X. split; [eapply ext_counts; eassumption|eapply ext_bounded; eassumption].
Qed.

Lemma mval_tidy n : forall v, tidy_at (mval n) v.
Proof using Hst Hsm Hno.
  induction n as [|n IH]; intros v s i s' r C B P O FS E; [discriminate|].
  pose proof (mval_ext _ _ _ _ _ _ _ _ C E) as X. pose proof (mval_next n) as Nx.
  destruct (flag i fi_force_string) eqn:FS0.
  { specialize (FS eq_refl). destruct (mval_single _ _ _ _ _ _ _ _ FS E) as [T R]. destruct R as [->|(j & -> & Hj)]; [apply tidy_nil; exact T|].
    assert (Hj' : node_ids j = [] /\ ref_ids j = []) by (destruct Hj as [Hj|Hj]; [apply P, Hj|exact Hj]). destruct Hj' as [N R].
    split; cbn; rewrite (pure_no_events j N R); [exact Logic.I|]. cbn. unfold ids. rewrite T. apply incl_refl. }
  clear FS. rename FS0 into FS. assert (FS' : forall w, flag i fi_force_string = true -> single_value w) by congruence.
  cbn [Marshal.mval] in E.
  assert (LEAF : forall j, Some (s, Some (MLeaf j)) = Some (s', r) -> node_ids j = [] -> ref_ids j = [] -> tidy s s' (opt_list r)).
  { intros j Y N R. injection Y as <- <-. split; cbn; rewrite (pure_no_events j N R); [exact Logic.I|apply incl_refl]. }
  assert (GONE : Some (s, None) = Some (s', r) -> tidy s s' (opt_list r)) by (intros Y; injection Y as <- <-; apply tidy_nil; reflexivity).
  assert (NIL : Some (s, nil_or_null omit) = Some (s', r) -> tidy s s' (opt_list r)) by (unfold nil_or_null; destruct omit; [exact GONE|intros Y; eapply LEAF; [exact Y|reflexivity..]]).
  assert (SL : forall l, (v = GSlice (Some l) \/ v = GArray l) -> match l with
          | [] => if flag i fi_omit_empty && omit then Some (s, None) else Some (s, finish_container i (MArr []))
          | _ => match m_elems (mval n) s l with
                 | Some (s1, rs) => Some (s1, finish_container i (MArr rs))
                 | None => None
                 end
          end = Some (s', r) -> tidy s s' (opt_list r)).
  { intros l Hv Y. assert (exists rs, m_elems (mval n) s l = Some (s', rs) /\ (r = None /\ s' = s \/ r = finish_container i (MArr rs))) as (rs & EE & RR).
    { destruct l as [|x l]; [destruct (flag i fi_omit_empty && omit); injection Y as <- <-; exists []; auto|].
      destruct (m_elems (mval n) s (x :: l)) as [[s1 rs]|] eqn:E1; [|discriminate]. injection Y as <- <-. eauto. }
    destruct RR as [[-> ->]|RR]; [apply GONE; reflexivity|]. rewrite (finish_plain _ _ FS) in RR. subst r.
    assert (tidy s s' rs) as S.
    { eapply m_elems_tidy; [exact Nx| |exact C|exact B|exact EE]. intros w Iw. split; [apply IH|split].
      - eapply plain_child; [exact P|..]; destruct Hv as [-> | ->]; cbn [structs maps held_json]; intros z Iz; apply in_flat_map; eauto.
      - eapply order_child; [exact O|..]; destruct Hv as [-> | ->]; cbn [structs maps]; intros z Iz; apply in_flat_map; eauto. }
    unfold tidy in *. cbn. rewrite app_nil_r. exact S. }
  destruct v as [b|k z|bit f|x|t|t|[l|]|l|[m|]|fs|[a|]|[x|]|[j|]|[j|]|j|j|]; try (apply NIL, E).
  - unfold marshal_bool in E. rewrite FS in E. destruct (negb b && flag i fi_omit_false && omit); [apply GONE, E|eapply LEAF; [exact E|reflexivity..]].
  - unfold marshal_int in E. rewrite FS in E. destruct ((wrap (Signed 64) z =? 0) && flag i fi_omit_zero && omit); [apply GONE, E|eapply LEAF; [exact E|reflexivity..]].
  - unfold marshal_float in E. rewrite FS in E. destruct (fl_is_zero f && flag i fi_omit_zero && omit); [apply GONE, E|eapply LEAF; [exact E|reflexivity..]].
  - destruct x as [|c x]; cbn [marshal_string] in E; [destruct (flag i fi_omit_empty && omit); [apply GONE, E|]|]; (eapply LEAF; [exact E|reflexivity..]).
  - destruct t as [b|]; [|apply NIL, E]. eapply LEAF; [exact E|reflexivity..].
  - destruct t as [x|]; cbn [marshal_time] in E; [|destruct (flag i fi_omit_empty && omit); [apply GONE, E|]]; (eapply LEAF; [exact E|reflexivity..]).
  - apply (SL l); auto.
  - apply (SL l); auto.
  - assert (exists rs, m_members (mval n) s m = Some (s', rs) /\ (r = None /\ s' = s \/ r = finish_container i (new_dict rs))) as (rs & EE & RR).
    { destruct m as [|x m]; [destruct (flag i fi_omit_empty && omit); injection E as <- <-; exists []; auto|].
      destruct (m_members (mval n) s (x :: m)) as [[s1 rs]|] eqn:E1; [|discriminate]. injection E as <- <-. eauto. }
    destruct RR as [[-> ->]|RR]; [apply GONE; reflexivity|]. rewrite (finish_plain _ _ FS) in RR. subst r.
    destruct (m_members_tidy (mval n) m Nx) with (4 := EE) as (S & _ & N); [|exact C|exact B|].
    { intros k w Iw. split; [apply IH|split].
      - eapply plain_child; [exact P|..]; cbn [structs maps held_json]; intros z Iz; [|right|]; apply in_flat_map; exists (k, w); auto.
      - eapply order_child; [exact O|..]; cbn [structs maps]; intros z Iz; [|right]; apply in_flat_map; exists (k, w); auto. }
    apply tidy_dict; [|exact S]. apply N. apply O. left. reflexivity.
  - destruct (m_fields (mval n) s fs []) as [[[s1 ps] dep]|] eqn:E1; [|discriminate].
    destruct P as (P1 & P2 & P3). destruct (P1 fs (or_introl eq_refl)) as (Q1 & Q2 & Q3).
    destruct (m_fields_tidy (mval n) fs Nx) with (4 := E1) as (S & _ & N & D); [|exact C|exact B|].
    { intros x w Iw Ig. split; [apply IH|]. split; [|split; [|split; [exact (Q1 x w Iw Ig)|exact (Q2 x w Iw Ig)]]].
      - eapply (plain_child (GStruct fs)); [split; [|split]; assumption|..]; cbn [structs maps held_json]; intros z Iz; [right| |]; apply in_flat_map; exists (x, w); auto.
      - eapply (order_child (GStruct fs)); [exact O|..]; cbn [structs maps]; intros z Iz; [right|]; apply in_flat_map; exists (x, w); auto. }
    subst dep. cbn [dep_pairs] in E. rewrite app_nil_r in E.
    assert (s' = s1 /\ (r = None /\ ps = [] \/ r = finish_container i (new_dict ps))) as [-> RR].
    { destruct ps; [destruct (flag i fi_omit_empty && omit)|]; injection E as <- <-; auto. }
    destruct RR as [[-> ->]|RR]; [exact S|].
    rewrite (finish_plain _ _ FS) in RR. subst r. apply tidy_dict; [|exact S]. apply N. apply O. left. reflexivity.
  - destruct (tr_find None (s_trace s) a) as [t [id|]] eqn:F.
    + assert (s' = {| s_idx := s_idx s; s_trace := t |} /\ r = Some (MLeaf (JPtr id))) as [-> ->] by (split; congruence).
      destruct (tr_find_hit _ _ _ _ _ F eq_refl C) as (e & Ie & Ei & Ec & _).
      assert (Q : forall z, In z (map te_id t) -> In z (ids s)).
      { intros z I. apply in_map_iff in I as (e' & <- & I'). destruct (bumped_in_r _ _ _ (proj1 (tr_find_spec _ _ _ _ _ F)) I') as (e0 & I0 & X0 & _). rewrite <- X0. apply in_map, I0. }
      split; cbn.
      * split; [|exact Logic.I]. apply Q. rewrite <- Ei. apply in_map, Ie.
      * exact Q.
    + pose proof (tr_find_miss _ _ _ F) as ->. cbn in E. destruct (nth_error st a) as [x|] eqn:N; [|discriminate].
      set (s1 := {| s_idx := s_idx s + 1; s_trace := s_trace s ++ [{| te_addr := a; te_id := s_idx s + 1; te_cnt := 1 |}] |}) in E.
      destruct (mval n s1 x i) as [[s2 r2]|] eqn:E1; [|discriminate].
      assert (s' = {| s_idx := s_idx s2; s_trace := tr_pop (s_trace s2) |} /\ r = set_owner (s_idx s + 1) r2) as [Es Er] by (split; congruence).
      assert (counts_ok s1) as C1 by (eapply counts_push; [exact C|apply bumped_refl]).
      assert (bounded s1) as B1.
      { intros e Ie. subst s1. simpl in *. apply in_app_or in Ie as [Ie|[<-|[]]]; [specialize (B e Ie); lia|simpl; lia]. }
      pose proof (nth_error_In _ _ N) as Ix. rewrite Forall_forall in Hst, Hsm, Hno.
      destruct (mval_refs st omit (proj2 (Forall_forall _ _) Hst) (proj2 (Forall_forall _ _) Hsm) n x s1 i s2 r2 C1 B1 (Hst x Ix) (FS' x) E1) as [S SM]. specialize (SM (Hsm x Ix)).
      pose proof (IH x s1 i s2 r2 C1 B1 (Hst x Ix) (Hno x Ix) (FS' _) E1) as [T1 T2].
      assert (I1 : incl (ids s1) ((s_idx s + 1) :: ids s)).
      { intros z Iz. subst s1. unfold ids in *. cbn in Iz. rewrite map_app in Iz. apply in_app_or in Iz as [Iz|[<-|[]]]; [right; exact Iz|left; reflexivity]. }
      assert (POP : incl (ids s') (ids s2)).
      { intros z Iz. subst s'. unfold ids in *. cbn in Iz. apply in_map_iff in Iz as (e & <- & Ie). apply in_map. clear - Ie. revert Ie. generalize (s_trace s2). intros t. induction t as [|y t IHt]; [auto|].
        destruct t as [|z t]; simpl; [destruct (te_cnt y =? 1); [intros []|auto]|]. intros [->|H]; [auto|]. right. apply IHt, H. }
      destruct SM as [[SM SM']|[kvs ->]].
      * assert (Es' : ids s' = ids s) by (subst s'; unfold ids; cbn; rewrite SM; subst s1; cbn; rewrite tr_pop_last; reflexivity).
        assert (Nr : ~ In (Ref (s_idx s + 1)) (flat_map mevents (opt_list r2))).
        { intros I. assert (In (s_idx s + 1) (flat_map mrefs (opt_list r2))) as I'.
          { destruct r2 as [m2|]; [|destruct I]. cbn in I |- *. rewrite app_nil_r in I |- *. apply mref_events, I. }
          apply (so_refs _ _ _ S) in I'. rewrite SM in I'. apply referred_in in I' as (e & Ie & Ei & Ec). subst s1. cbn in Ie. apply in_app_or in Ie as [Ie|[<-|[]]]; [specialize (B e Ie); lia|cbn in Ec; lia]. }
        assert (Ee : flat_map mevents (opt_list r) = flat_map mevents (opt_list r2)).
        { subst r. destruct r2 as [[j|l|o kvs]|]; try reflexivity. destruct (SM' o kvs eq_refl). }
        split; rewrite Ee; [eapply ordered_less; [exact I1|exact Nr|exact T1]|]. rewrite Es'. apply after_incl.
      * subst r. unfold tidy. cbn [set_owner opt_list app flat_map mevents map] in *. split.
        -- cbn [ordered]. eapply ordered_more; [exact I1|exact T1].
        -- eapply incl_tran; [exact POP|]. eapply incl_tran; [exact T2|]. cbn [after]. apply after_more, I1.
  - eapply (IH x); [exact C|exact B|eapply plain_child; [exact P|..]; apply incl_refl|eapply order_child; [exact O|..]; apply incl_refl|exact (FS' _)|exact E].
  - assert (s' = {| s_idx := s_idx s + 1; s_trace := s_trace s |} /\ r = Some (MLeaf j)) as [-> ->] by (split; congruence).
    destruct P as (_ & _ & P3). destruct (P3 j (or_introl eq_refl)) as [H1 H2]. split; cbn; rewrite (pure_no_events j H1 H2); [exact Logic.I|apply incl_refl].
  - destruct P as (_ & _ & P3). destruct (P3 j (or_introl eq_refl)) as [H1 H2]. eapply LEAF; [exact E|assumption..].
  - destruct P as (_ & _ & P3). destruct (P3 j (or_introl eq_refl)) as [H1 H2].
    unfold marshal_json_val in E. destruct (json_empty j && flag i fi_omit_empty && omit); [apply GONE, E|]. eapply LEAF; [exact E|assumption..].
  - destruct P as (_ & _ & P3). destruct (P3 j (or_introl eq_refl)) as [H1 H2]. eapply LEAF; [exact E|assumption..].
  - eapply LEAF; [exact E|reflexivity..].
Qed.
End Order.


(** ** Node ids of the finished result *)

Section Filter.
Context (p : Z -> bool).
Definition kept_event (e : event) : bool := match e with Node n => p n | Ref _ => true end.

Lemma ordered_filter evs : forall seen, (forall n, In (Ref n) evs -> p n = true) -> ordered seen evs -> ordered (filter p seen) (filter kept_event evs).
Proof using.
  induction evs as [|[n|n] evs IH]; intros seen H O; cbn in *; [exact Logic.I| |].
  - specialize (IH (n :: seen) (fun k I => H k (or_intror I)) O). cbn in IH. destruct (p n); exact IH.
  - destruct O as [O1 O2]. split; [apply filter_In; split; [exact O1|apply H; left; reflexivity]|]. apply IH; [intros k I; apply H; right; exact I|exact O2].
Qed.
End Filter.

Lemma events_refs_only j p : node_ids j = [] -> filter (kept_event p) (events j) = events j.
Proof.
  induction j as [|x|z|g bit|s|l IH|nid kvs IH|n] using json_ind'; intros H; try reflexivity.
  - cbn in *. induction l as [|x l IHl]; [reflexivity|]. cbn in *. apply app_eq_nil in H as [A1 A2]. inversion IH; subst. rewrite filter_app. f_equal; auto.
  - cbn in *. apply app_eq_nil in H as [A1 A2]. destruct (0 <? nid); [discriminate|]. cbn. clear A1. induction kvs as [|[k x] kvs IHl]; [reflexivity|]. cbn in *.
    apply app_eq_nil in A2 as [A1 A2]. inversion IH as [|? ? I1 I2]; subst. cbn [snd] in I1. rewrite filter_app. f_equal; auto.
Qed.

Lemma set_ids_events pick t : (forall l, l <> [] -> In (pick l) l) -> forall m, single m -> (forall o, In o (mowners m) -> 0 < o) ->
  events (set_ids pick t m) = filter (kept_event (referred t)) (mevents m).
Proof.
  intros HP m. remember (mj_size m) as k eqn:Ek. assert (Lk : (mj_size m <= k)%nat) by lia. clear Ek. revert m Lk. induction k as [|k IH]; intros m Lk SG PO; [destruct m; cbn in Lk; lia|].
  destruct m as [j|l|o kvs]; cbn [set_ids events mevents mj_size single mowners] in *.
  - rewrite events_refs_only by exact SG. reflexivity.
  - revert Lk SG PO. induction l as [|x l IHl]; intros Lk SG PO; [reflexivity|]. cbn in *. rewrite filter_app. f_equal; [apply IH; [lia|tauto|intros; apply PO, in_or_app; auto]|apply IHl; [lia|tauto|intros; apply PO, in_or_app; auto]].
  - destruct SG as [S1 S2]. rewrite filter_app. f_equal.
    + destruct o as [|z [|z' o]]; [reflexivity| |cbn in S1; lia]. unfold node_id. cbn.
      destruct (referred t z) eqn:R; [|reflexivity]. pose proof (HP [z] ltac:(discriminate)) as [<-|[]].
      assert (0 < z) as Z0 by (apply PO; left; reflexivity). apply Z.ltb_lt in Z0. rewrite Z0. reflexivity.
    + assert (PO' : forall z, In z (flat_map (fun kv => mowners (snd kv)) kvs) -> 0 < z) by (intros z I; apply PO, in_or_app; right; exact I). clear PO S1.
      revert Lk S2 PO'. induction kvs as [|[key x] l IHl]; intros Lk SG PO; [reflexivity|]. cbn in *. rewrite filter_app. f_equal; [apply IH; [lia|tauto|intros; apply PO, in_or_app; auto]|apply IHl; [lia|tauto|intros; apply PO, in_or_app; auto]].
Qed.

(** ** Acyclic graphs *)

Inductive clean : mj -> Prop :=
| C_leaf j : node_ids j = [] -> ref_ids j = [] -> clean (MLeaf j)
| C_arr l : Forall clean l -> clean (MArr l)
| C_dict o kvs : Forall (fun kv => clean (snd kv)) kvs -> clean (MDict o kvs).

Lemma clean_set_ids pick m : clean m -> node_ids (set_ids pick [] m) = [] /\ ref_ids (set_ids pick [] m) = [].
Proof.
  remember (mj_size m) as k eqn:Ek. assert (Lk : (mj_size m <= k)%nat) by lia. clear Ek. revert m Lk. induction k as [|k IH]; intros m Lk H; [destruct m; cbn in Lk; lia|].
  destruct H as [j H1 H2|l H|o kvs H]; cbn [set_ids node_ids ref_ids mj_size] in *.
  - auto.
  - revert Lk. induction H as [|x l Hx _ IHl]; intros Lk; [auto|]. cbn in *. destruct (IH x ltac:(lia) Hx) as [-> ->]. apply IHl. lia.
  - assert (E : node_id pick [] o = 0) by (unfold node_id; induction o; [reflexivity|assumption]). rewrite E. cbn. clear E. revert Lk. induction H as [|[key x] l Hx _ IHl]; intros Lk; [auto|]. cbn in *. destruct (IH x ltac:(lia) Hx) as [-> ->]. apply IHl. lia.
Qed.

Lemma sm_add_forall {V} (P : V -> Prop) m k v : P v -> Forall (fun kv => P (snd kv)) m -> Forall (fun kv => P (snd kv)) (sm_add m k v).
Proof.
  intros Pv H. induction H as [|[k' w] m Hw Hm IH]; cbn; [repeat constructor; exact Pv|]. destruct (bcmp k k'); repeat (constructor; auto).
Qed.
Lemma sm_of_list_forall {V} (P : V -> Prop) l : forall m, Forall (fun kv => P (snd kv)) l -> Forall (fun kv => P (snd kv)) m -> Forall (fun kv => P (snd kv)) (sm_of_list l m).
Proof.
  induction l as [|[k v] l IH]; intros m H Hm; cbn; [exact Hm|]. inversion H; subst. apply IH; [assumption|]. apply sm_add_forall; assumption.
Qed.
Lemma clean_new_dict ps : Forall (fun kv => clean (snd kv)) ps -> clean (new_dict ps).
Proof. intros H. constructor. apply sm_of_list_forall; [exact H|constructor]. Qed.

Lemma find_value_in ps k v : find_value ps k = Some v -> exists k', In (k', v) ps.
Proof.
  induction ps as [|[k0 v0] ps IH]; cbn; [discriminate|]. destruct (bseq k0 k); [intros E; injection E as <-; eauto|]. intros E. destruct (IH E) as [k' I]. eauto.
Qed.
Lemma dep_pairs_clean n dep todo ps : Forall (fun kv => clean (snd kv)) ps -> forall r, dep_pairs n dep todo ps = Some r -> Forall (fun kv => clean (snd kv)) r.
Proof.
  intros H. induction todo as [|[a b] todo IH]; intros r E; cbn in E; [injection E as <-; constructor|].
  destruct (dep_resolve n dep a b) as [o|]; [|discriminate]. destruct (dep_pairs n dep todo ps) as [rest|]; [|discriminate]. specialize (IH rest eq_refl).
  destruct (match o with Some k => find_value ps k | None => None end) as [v|] eqn:F; injection E as <-; [|exact IH].
  constructor; [|exact IH]. destruct o as [k|]; [|discriminate]. destruct (find_value_in _ _ _ F) as [k' I]. rewrite Forall_forall in H. exact (H _ I).
Qed.

Section Acyclic.
Context (st : store) (omit : bool).
Context (Hac : acyclic st) (Hpj : Forall holds_pure_json st).
Notation mval := (mval st omit).

Definition above (s : Marshal.session) (v : gval) : Prop := forall e a, In e (s_trace s) -> In a (pointers v) -> path st (te_addr e) a.
Definition clean_at (mv : Marshal.session -> gval -> option finfo -> option (Marshal.session * option mj)) (v : gval) : Prop :=
  forall s i s' r, above s v -> holds_pure_json v -> mv s v i = Some (s', r) -> s_trace s' = s_trace s /\ Forall clean (opt_list r).

Lemma above_child s v w : above s v -> incl (pointers w) (pointers v) -> above s w.
Proof using. intros A I e a Ie Ia. apply A; auto. Qed.
Lemma above_same s s' v : s_trace s' = s_trace s -> above s v -> above s' v.
Proof using. unfold above. intros ->. auto. Qed.
Lemma pure_child v w : holds_pure_json v -> incl (held_json w) (held_json v) -> holds_pure_json w.
Proof using. intros A I j Ij. apply A; auto. Qed.

Lemma m_elems_clean mv l : (forall v, In v l -> clean_at mv v /\ holds_pure_json v) -> forall s s' rs, (forall v, In v l -> above s v) ->
  m_elems mv s l = Some (s', rs) -> s_trace s' = s_trace s /\ Forall clean rs.
Proof using.
  induction l as [|v l IH]; intros H s s' rs A E; cbn [m_elems] in E.
  - injection E as <- <-. auto.
  - destruct (mv s v None) as [[s1 r]|] eqn:E1; [|discriminate]. destruct (m_elems mv s1 l) as [[s2 rs2]|] eqn:E2; [|discriminate].
    injection E as <- <-. destruct (H v (or_introl eq_refl)) as (Hv & Pv). destruct (Hv s None s1 r (A v (or_introl eq_refl)) Pv E1) as [T1 C1].
    destruct (IH (fun w I => H w (or_intror I)) s1 s2 rs2) as [T2 C2]; [intros w I; eapply above_same; [exact T1|apply A; right; exact I]|exact E2|].
    split; [congruence|]. destruct r; [inversion C1; constructor; assumption|exact C2].
Qed.
Lemma m_members_clean mv (l : list (bytes * gval)) : (forall k v, In (k, v) l -> clean_at mv v /\ holds_pure_json v) -> forall s s' rs, (forall k v, In (k, v) l -> above s v) ->
  m_members mv s l = Some (s', rs) -> s_trace s' = s_trace s /\ Forall (fun kv => clean (snd kv)) rs.
Proof using.
  induction l as [|[k v] l IH]; intros H s s' rs A E; cbn [m_members] in E.
  - injection E as <- <-. auto.
  - destruct (mv s v None) as [[s1 r]|] eqn:E1; [|discriminate]. destruct (m_members mv s1 l) as [[s2 rs2]|] eqn:E2; [|discriminate].
    injection E as <- <-. destruct (H k v (or_introl eq_refl)) as (Hv & Pv). destruct (Hv s None s1 r (A k v (or_introl eq_refl)) Pv E1) as [T1 C1].
    destruct (IH (fun k w I => H k w (or_intror I)) s1 s2 rs2) as [T2 C2]; [intros k' w I; eapply above_same; [exact T1|eapply A; right; exact I]|exact E2|].
    split; [congruence|]. destruct r; [inversion C1; constructor; assumption|exact C2].
Qed.
Lemma m_fields_clean mv (l : list (finfo * gval)) : (forall x v, In (x, v) l -> clean_at mv v /\ holds_pure_json v) -> forall s d s' rs d', (forall x v, In (x, v) l -> above s v) ->
  m_fields mv s l d = Some (s', rs, d') -> s_trace s' = s_trace s /\ Forall (fun kv => clean (snd kv)) rs.
Proof using.
  induction l as [|[x v] l IH]; intros H s d s' rs d' A E; cbn [m_fields] in E.
  - injection E as <- <- <-. auto.
  - pose proof (IH (fun x w I => H x w (or_intror I))) as IH'. assert (A' : forall x v, In (x, v) l -> above s v) by (intros y w I; eapply A; right; exact I).
    destruct (fi_ignore x); [eapply IH'; eassumption|]. destruct (fi_deprecated_by x); [eapply IH'; eassumption|].
    destruct (mv s v (Some x)) as [[s1 r]|] eqn:E1; [|discriminate]. destruct (m_fields mv s1 l d) as [[[s2 rs2] d2]|] eqn:E2; [|discriminate].
    injection E as <- <- <-. destruct (H x v (or_introl eq_refl)) as (Hv & Pv). destruct (Hv s _ s1 r (A x v (or_introl eq_refl)) Pv E1) as [T1 C1].
    destruct (IH' s1 d s2 rs2 d2) as [T2 C2]; [intros k' w I; eapply above_same; [exact T1|eapply A'; exact I]|exact E2|].
    split; [congruence|]. destruct r; [inversion C1; constructor; assumption|exact C2].
Qed.

Lemma finish_clean i m : clean m -> Forall clean (opt_list (finish_container i m)).
Proof using. intros H. unfold finish_container. destruct (flag i fi_force_string); repeat constructor; assumption. Qed.

Ltac cases_if := repeat match goal with |- context [if ?b then Some _ else _] => destruct b | |- context [if ?b then None else _] => destruct b end; repeat constructor.
Lemma mval_clean n : forall v, clean_at (mval n) v.
Proof using Hac Hpj.
  induction n as [|n IH]; intros v s i s' r A P E; [discriminate|].
  cbn [Marshal.mval] in E.
  assert (LEAF : forall o, Some (s, o) = Some (s', r) -> Forall clean (opt_list o) -> s_trace s' = s_trace s /\ Forall clean (opt_list r)) by (intros o Y C; injection Y as <- <-; auto).
  assert (NIL : Some (s, nil_or_null omit) = Some (s', r) -> s_trace s' = s_trace s /\ Forall clean (opt_list r)) by (intros Y; eapply LEAF; [exact Y|]; unfold nil_or_null; destruct omit; repeat constructor).
  assert (SL : forall l, (v = GSlice (Some l) \/ v = GArray l) -> match l with
          | [] => if flag i fi_omit_empty && omit then Some (s, None) else Some (s, finish_container i (MArr []))
          | _ => match m_elems (mval n) s l with
                 | Some (s1, rs) => Some (s1, finish_container i (MArr rs))
                 | None => None
                 end
          end = Some (s', r) -> s_trace s' = s_trace s /\ Forall clean (opt_list r)).
  { intros l Hv Y. assert (exists rs, m_elems (mval n) s l = Some (s', rs) /\ (r = None \/ r = finish_container i (MArr rs))) as (rs & EE & RR).
    { destruct l as [|x l]; [destruct (flag i fi_omit_empty && omit); injection Y as <- <-; exists []; auto|].
      destruct (m_elems (mval n) s (x :: l)) as [[s1 rs]|] eqn:E1; [|discriminate]. injection Y as <- <-. eauto. }
    assert (I1 : forall w, In w l -> incl (pointers w) (pointers v) /\ incl (held_json w) (held_json v)).
    { intros w Iw. split; destruct Hv as [-> | ->]; cbn [pointers held_json]; intros z Iz; apply in_flat_map; eauto. }
    destruct (m_elems_clean (mval n) l) with (3 := EE) as [T C].
    - intros w Iw. split; [apply IH|]. eapply pure_child; [exact P|apply I1, Iw].
    - intros w Iw. eapply above_child; [exact A|apply I1, Iw].
    - split; [exact T|]. destruct RR as [-> | ->]; [constructor|]. apply finish_clean. constructor. exact C. }
  destruct v as [b|k z|bit f|x|t|t|[l|]|l|[m|]|fs|[a|]|[x|]|[j|]|[j|]|j|j|]; try (apply NIL, E).
  - eapply LEAF; [exact E|]. unfold marshal_bool. cases_if.
  - eapply LEAF; [exact E|]. unfold marshal_int. cases_if.
  - eapply LEAF; [exact E|]. unfold marshal_float. cases_if.
  - eapply LEAF; [exact E|]. destruct x; cbn [marshal_string]; cases_if.
  - eapply LEAF; [exact E|]. destruct t; cbn [marshal_tri]; unfold nil_or_null; cases_if.
  - eapply LEAF; [exact E|]. destruct t; cbn [marshal_time]; cases_if.
  - apply (SL l); auto.
  - apply (SL l); auto.
  - assert (exists rs, m_members (mval n) s m = Some (s', rs) /\ (r = None \/ r = finish_container i (new_dict rs))) as (rs & EE & RR).
    { destruct m as [|x m]; [destruct (flag i fi_omit_empty && omit); injection E as <- <-; exists []; auto|].
      destruct (m_members (mval n) s (x :: m)) as [[s1 rs]|] eqn:E1; [|discriminate]. injection E as <- <-. eauto. }
    destruct (m_members_clean (mval n) m) with (3 := EE) as [T C].
    + intros k w Iw. split; [apply IH|]. eapply pure_child; [exact P|]. cbn [held_json]. intros z Iz. apply in_flat_map. exists (k, w). auto.
    + intros k w Iw. eapply above_child; [exact A|]. cbn [pointers]. intros z Iz. apply in_flat_map. exists (k, w). auto.
    + split; [exact T|]. destruct RR as [-> | ->]; [constructor|]. apply finish_clean, clean_new_dict, C.
  - destruct (m_fields (mval n) s fs []) as [[[s1 ps] dep]|] eqn:E1; [|discriminate].
    destruct (dep_pairs n dep dep ps) as [dps|] eqn:E2; [|discriminate].
    destruct (m_fields_clean (mval n) fs) with (3 := E1) as [T C].
    + intros k w Iw. split; [apply IH|]. eapply pure_child; [exact P|]. cbn [held_json]. intros z Iz. apply in_flat_map. exists (k, w). auto.
    + intros k w Iw. eapply above_child; [exact A|]. cbn [pointers]. intros z Iz. apply in_flat_map. exists (k, w). auto.
    + pose proof (dep_pairs_clean _ _ _ _ C _ E2) as C2. assert (C3 : Forall (fun kv => clean (snd kv)) (ps ++ dps)) by (apply Forall_app; auto).
      destruct (ps ++ dps) as [|p0 all]; [destruct (flag i fi_omit_empty && omit)|]; injection E as <- <-; (split; [exact T|]); [constructor|apply finish_clean, clean_new_dict; constructor|apply finish_clean, clean_new_dict, C3].
  - destruct (tr_find None (s_trace s) a) as [t [id|]] eqn:F.
    + exfalso. destruct (tr_find_spec _ _ _ _ _ F) as (_ & _ & R & _). destruct (R id eq_refl) as [X|(e & Ie & Ea & _)]; [discriminate|].
      apply (Hac a). rewrite <- Ea at 1. apply A; [exact Ie|left; reflexivity].
    + pose proof (tr_find_miss _ _ _ F) as ->. cbn in E. destruct (nth_error st a) as [x|] eqn:N; [|discriminate].
      set (s1 := {| s_idx := s_idx s + 1; s_trace := s_trace s ++ [{| te_addr := a; te_id := s_idx s + 1; te_cnt := 1 |}] |}) in E.
      destruct (mval n s1 x i) as [[s2 r2]|] eqn:E1; [|discriminate].
      assert (s' = {| s_idx := s_idx s2; s_trace := tr_pop (s_trace s2) |} /\ r = set_owner (s_idx s + 1) r2) as [-> ->] by (split; congruence).
      pose proof (nth_error_In _ _ N) as Ix. rewrite Forall_forall in Hpj.
      destruct (IH x s1 i s2 r2) as [T C]; [|apply Hpj, Ix|exact E1|].
      { intros e b Ie Ib. subst s1. cbn in Ie. apply in_app_or in Ie as [Ie|[<-|[]]].
        - eapply path_more; [apply (A e a Ie); left; reflexivity|exact N|exact Ib].
        - cbn. eapply path_one; eassumption. }
      cbn. rewrite T. subst s1. cbn. rewrite tr_pop_last. cbn. split; [reflexivity|].
      destruct r2 as [[j|l|o kvs]|]; cbn in *; try exact C. inversion C as [|? ? C1 _]; subst. inversion C1; subst. repeat constructor; assumption.
  - eapply (IH x); [eapply above_child; [exact A|apply incl_refl]|eapply pure_child; [exact P|apply incl_refl]|exact E].
  - assert (s' = {| s_idx := s_idx s + 1; s_trace := s_trace s |} /\ r = Some (MLeaf j)) as [-> ->] by (split; congruence).
    destruct (P j (or_introl eq_refl)). split; [reflexivity|]. repeat constructor; assumption.
  - destruct (P j (or_introl eq_refl)). eapply LEAF; [exact E|]. repeat constructor; assumption.
  - destruct (P j (or_introl eq_refl)). eapply LEAF; [exact E|]. unfold marshal_json_val. cases_if; assumption.
  - destruct (P j (or_introl eq_refl)). eapply LEAF; [exact E|]. repeat constructor; assumption.
  - eapply LEAF; [exact E|]. repeat constructor.
Qed.
End Acyclic.
