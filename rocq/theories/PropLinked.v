(** C50: values with linked references, as Marshal makes them. *)
From Verif Require Import Base Strconv SortedMap SortedMapFacts Json SpecJson SpecDict SpecEquals Printer Access AccessFacts Equals EqualsFacts RfcFacts Heap Gotypes Native Time
  Marshal SpecMarshal PropMarshal Linked SpecLinked.
Open Scope Z_scope.

Section Linked.
Context (links : Z -> option json).
Notation unfold_refs := (unfold_refs links).
Notation unfolded := (unfolded links).
Notation native_l := (native_l links).
Notation equals_l := (equals_l links).

(** ** Interface() *)

Definition nat_elems n := fix elems (l : list json) : option (list gval) :=
                 match l with
                 | [] => Some []
                 | x :: l' => match native_l n x, elems l' with Some v, Some r => Some (GIface v :: r) | _, _ => None end
                 end.
Definition nat_members n := fix members (l : list (bytes * json)) : option (list (bytes * gval)) :=
                 match l with
                 | [] => Some []
                 | (k, x) :: l' => match native_l n x, members l' with Some v, Some r => Some ((k, GIface v) :: r) | _, _ => None end
                 end.
Lemma native_l_array n l : native_l n (JArray l) = match nat_elems n l with Some r => Some (Some (GSlice (Some r))) | None => None end.
Proof. destruct n; reflexivity. Qed.
Lemma native_l_dict n nid kvs : native_l n (JDict nid kvs) = match nat_members n kvs with Some r => Some (Some (GMap (Some r))) | None => None end.
Proof. destruct n; reflexivity. Qed.
Lemma native_l_ptr n p : native_l n (JPtr p) = match links p with None => Some None | Some d => match n with O => None | S m => native_l m d end end.
Proof. destruct n; reflexivity. Qed.
Lemma unfold_array n l : unfold_refs n (JArray l) = JArray (map (unfold_refs n) l).
Proof. destruct n; reflexivity. Qed.
Lemma unfold_dict n nid kvs : unfold_refs n (JDict nid kvs) = JDict nid (map (fun kv => (fst kv, unfold_refs n (snd kv))) kvs).
Proof. destruct n; reflexivity. Qed.
Lemma unfold_ptr n p : unfold_refs n (JPtr p) = match links p, n with Some d, S m => unfold_refs m d | _, _ => JPtr p end.
Proof. destruct n; reflexivity. Qed.
Lemma unfold_leaf n j : match j with JArray _ | JDict _ _ | JPtr _ => False | _ => True end -> unfold_refs n j = j.
Proof. destruct n, j; cbn; intros []; reflexivity. Qed.
Lemma native_l_leaf n j : match j with JArray _ | JDict _ _ | JPtr _ => False | _ => True end -> native_l n j = Some (native j).
Proof. destruct n, j; cbn; intros []; reflexivity. Qed.

Lemma unfolded_leaf j : match j with JArray _ | JDict _ _ | JPtr _ => False | _ => True end -> unfolded j.
Proof. intros H p d L S. inversion S; subst; contradiction. Qed.
Lemma unfolded_array l : unfolded (JArray l) <-> Forall unfolded l.
Proof.
  rewrite Forall_forall. split.
  - intros H x I p d L S. apply (H p d L). eapply sub_elem; eassumption.
  - intros H p d L S. inversion S; subst. eapply H; eassumption.
Qed.
Lemma unfolded_dict nid kvs : unfolded (JDict nid kvs) <-> Forall (fun kv => unfolded (snd kv)) kvs.
Proof.
  rewrite Forall_forall. split.
  - intros H [k x] I p d L S. apply (H p d L). eapply sub_member; eassumption.
  - intros H p d L S. inversion S; subst. match goal with I : In _ kvs |- _ => apply (H _ I p d L) end. assumption.
Qed.

Lemma native_agrees n : forall j,
  (unfolded (unfold_refs n j) -> native_l n j = Some (native (unfold_refs n j))) /\
  (native_l n j <> None -> unfolded (unfold_refs n j)).
Proof.
  induction n as [|n IHn]; induction j as [| | | | |l IH|nid kvs IH|p] using json_ind';
    try (rewrite unfold_leaf by exact Logic.I; rewrite native_l_leaf by exact Logic.I; split; [reflexivity|intros _; apply unfolded_leaf; exact Logic.I]).
  - rewrite unfold_array, native_l_array, unfolded_array. cbn [native].
    induction IH as [|x l [IH1 IH2] F IHl]; [split; [reflexivity|constructor]|]. cbn [map nat_elems] in *.
    destruct IHl as [A C]. split.
    + intros U. inversion U as [|? ? U1 U2]; subst. rewrite (IH1 U1). specialize (A U2).
      destruct (nat_elems 0 l) as [r|]; [|discriminate]. injection A as ->. reflexivity.
    + destruct (native_l 0 x) as [v|] eqn:E; [|congruence]. intros H. constructor; [apply IH2; congruence|].
      apply C. destruct (nat_elems 0 l); [discriminate|congruence].
  - rewrite unfold_dict, native_l_dict, unfolded_dict. cbn [native].
    induction IH as [|[k x] l [IH1 IH2] F IHl]; [split; [reflexivity|constructor]|]. cbn [map nat_members fst snd] in *.
    destruct IHl as [A C]. split.
    + intros U. inversion U as [|? ? U1 U2]; subst. rewrite (IH1 U1). specialize (A U2).
      destruct (nat_members 0 l) as [r|]; [|discriminate]. injection A as ->. reflexivity.
    + destruct (native_l 0 x) as [v|] eqn:E; [|congruence]. intros H. constructor; [apply IH2; congruence|].
      apply C. destruct (nat_members 0 l); [discriminate|congruence].
  - rewrite unfold_ptr, native_l_ptr. destruct (links p) as [d|] eqn:L.
    + split; [|congruence]. intros U. exfalso. apply (U p d L). constructor.
    + split; [reflexivity|]. intros _ q d Lq S. inversion S; subst. congruence.
  - rewrite unfold_array, native_l_array, unfolded_array. cbn [native].
    induction IH as [|x l [IH1 IH2] F IHl]; [split; [reflexivity|constructor]|]. cbn [map nat_elems] in *.
    destruct IHl as [A C]. split.
    + intros U. inversion U as [|? ? U1 U2]; subst. rewrite (IH1 U1). specialize (A U2).
      destruct (nat_elems (S n) l) as [r|]; [|discriminate]. injection A as ->. reflexivity.
    + destruct (native_l (S n) x) as [v|] eqn:E; [|congruence]. intros H. constructor; [apply IH2; congruence|].
      apply C. destruct (nat_elems (S n) l); [discriminate|congruence].
  - rewrite unfold_dict, native_l_dict, unfolded_dict. cbn [native].
    induction IH as [|[k x] l [IH1 IH2] F IHl]; [split; [reflexivity|constructor]|]. cbn [map nat_members fst snd] in *.
    destruct IHl as [A C]. split.
    + intros U. inversion U as [|? ? U1 U2]; subst. rewrite (IH1 U1). specialize (A U2).
      destruct (nat_members (S n) l) as [r|]; [|discriminate]. injection A as ->. reflexivity.
    + destruct (native_l (S n) x) as [v|] eqn:E; [|congruence]. intros H. constructor; [apply IH2; congruence|].
      apply C. destruct (nat_members (S n) l); [discriminate|congruence].
  - rewrite unfold_ptr, native_l_ptr. destruct (links p) as [d|] eqn:L; [apply IHn|].
    split; [reflexivity|]. intros _ q d Lq S. inversion S; subst. congruence.
Qed.

(** Interface() of a value whose references unfold to a finite tree is
    Interface() of that tree; it returns in no other case. *)
Theorem C50_interface n j : unfolded (unfold_refs n j) -> native_l n j = Some (native (unfold_refs n j)).
Proof. apply native_agrees. Qed.

Theorem C50_interface_returns_only_if_finite n j v : native_l n j = Some v -> unfolded (unfold_refs n j) /\ v = native (unfold_refs n j).
Proof.
  intros E. assert (U : unfolded (unfold_refs n j)) by (apply native_agrees; congruence). split; [exact U|].
  rewrite (C50_interface n j U) in E. congruence.
Qed.

Lemma native_sub n : forall x j, subvalue x j -> native_l n j <> None -> native_l n x <> None.
Proof.
  intros x0 j S. induction S as [|x l I S IH|k x nid kvs I S IH]; intros H; [exact H|..]; apply IH; clear IH S.
  - rewrite native_l_array in H. revert H. induction l as [|z l IHl]; [destruct I|]. cbn [nat_elems]. intros H. destruct I as [->|I].
    + destruct (native_l n _); congruence.
    + apply IHl; [exact I|]. destruct (native_l n z); [|congruence]. destruct (nat_elems n l); congruence.
  - rewrite native_l_dict in H. revert H. induction kvs as [|[k' z] l IHl]; [destruct I|]. cbn [nat_members]. intros H. destruct I as [[=-> ->]|I].
    + destruct (native_l n _); congruence.
    + apply IHl; [exact I|]. destruct (native_l n z); [|congruence]. destruct (nat_members n l); congruence.
Qed.

(** On a cycle it never returns. *)
Theorem C50_interface_of_cycle_refuted p d j : links p = Some d -> subvalue (JPtr p) d -> subvalue (JPtr p) j -> forall n, native_l n j = None.
Proof.
  intros L S. assert (G : forall n, native_l n (JPtr p) = None).
  { induction n as [|n IH]; rewrite native_l_ptr, L; [reflexivity|].
    destruct (native_l n d) eqn:E; [|reflexivity]. exfalso. apply (native_sub n _ _ S); [congruence|exact IH]. }
  intros Sj n. destruct (native_l n j) eqn:E; [|reflexivity]. exfalso. apply (native_sub n _ _ Sj); [congruence|apply G].
Qed.

(** ** Equals *)

Definition eql_list n := fix elems (l l2 : list json) : option bool :=
                    match l, l2 with
                    | v :: l', w :: l2' => match equals_l n v w with
                                           | None => None
                                           | Some false => Some false
                                           | Some true => elems l' l2'
                                           end
                    | _, _ => Some true
                    end.
Definition eql_kvs n (kvs2 : smap json) := fix members (m : list (bytes * json)) : option bool :=
                      match m with
                      | [] => Some true
                      | (k, v) :: m' =>
                          match sm_get kvs2 k with
                          | Some w => match equals_l n v w with
                                      | None => None
                                      | Some false => Some false
                                      | Some true => members m'
                                      end
                          | None => members m'
                          end
                      end.
Lemma equals_l_array n l l2 : equals_l n (JArray l) (JArray l2) = if negb (Nat.eqb (length l) (length l2)) then Some false else eql_list n l l2.
Proof. destruct n; reflexivity. Qed.
Lemma equals_l_dict n i i2 kvs kvs2 : equals_l n (JDict i kvs) (JDict i2 kvs2) =
  if negb (Nat.eqb (length kvs) (length kvs2)) then Some false
  else let '(aNoB, _, _, bNoA) := sm_split kvs kvs2 in
       if (Nat.ltb 0 (length aNoB) || Nat.ltb 0 (length bNoA)) then Some false else eql_kvs n kvs2 kvs.
Proof. destruct n; reflexivity. Qed.
Lemma equals_l_ptr n p b : equals_l n (JPtr p) b =
  match links p with None => Some (match b with JNull => true | _ => false end) | Some d => match n with O => None | S m => equals_l m d b end end.
Proof. destruct n; reflexivity. Qed.
Lemma equals_l_leaf n a b : match a with JArray _ | JDict _ _ | JPtr _ => False | _ => True end -> equals_l n a b = Some (equals a b).
Proof. destruct n, a; cbn; intros []; reflexivity. Qed.
Lemma equals_l_array_other n l b : match b with JArray _ => False | _ => True end -> equals_l n (JArray l) b = Some false.
Proof. destruct n, b; cbn; intros []; reflexivity. Qed.
Lemma equals_l_dict_other n i l b : match b with JDict _ _ => False | _ => True end -> equals_l n (JDict i l) b = Some false.
Proof. destruct n, b; cbn; intros []; reflexivity. Qed.

Lemma height_elem l x : In x l -> (height x < height (JArray l))%nat.
Proof. cbn. induction l as [|y l IH]; intros []; cbn; [subst; lia|]. specialize (IH H). lia. Qed.
Lemma height_member nid kvs k x : In (k, x) kvs -> (height x < height (JDict nid kvs))%nat.
Proof. cbn. induction kvs as [|[k' y] l IH]; intros []; cbn; [injection H as -> ->; cbn; lia|]. specialize (IH H). lia. Qed.

Lemma split_map (f : json -> json) (kvs kvs2 : smap json) :
  let kvs' := map (fun kv => (fst kv, f (snd kv))) kvs in
  let '(x, _, _, y) := sm_split kvs kvs2 in let '(x', _, _, y') := sm_split kvs' kvs2 in length x = length x' /\ length y = length y'.
Proof.
  cbn zeta. unfold sm_split. split.
  - induction kvs as [|[k v] l IH]; [reflexivity|]. cbn. destruct (negb (sm_mem kvs2 k)); cbn; rewrite IH; reflexivity.
  - assert (M : forall k, sm_mem (map (fun kv => (fst kv, f (snd kv))) kvs) k = sm_mem kvs k).
    { intros k. unfold sm_mem. induction kvs as [|[k' v] l IH]; [reflexivity|]. cbn. destruct (bseq _ _); auto. }
    induction kvs2 as [|[k v] l IH]; [reflexivity|]. cbn. rewrite M. destruct (negb (sm_mem kvs k)); cbn; rewrite IH; reflexivity.
Qed.

Lemma equals_agrees : dicts_only links -> forall n h a b, (height b <= h)%nat -> (h < n)%nat -> equals_l n a b = Some (equals (unfold_refs n a) b).
Proof.
  intros D. induction n as [|n IHn]; [lia|]. intros h a. revert h.
  induction a as [| | | | |l IH|nid kvs IH|p] using json_ind'; intros h b0 Hb Hn;
    try (rewrite unfold_leaf by exact Logic.I; apply equals_l_leaf; exact Logic.I).
  - rewrite unfold_array. destruct b0 as [| | | | |l2| |]; try (rewrite equals_l_array_other by exact Logic.I; reflexivity).
    rewrite equals_l_array, equals_array, map_length. destruct (Nat.eqb (length l) (length l2)); [cbn [negb andb]|reflexivity].
    assert (X : forall w, In w l2 -> (height w <= h)%nat) by (intros w I; pose proof (height_elem l2 w I); lia).
    clear Hb. revert l2 X. induction IH as [|x l IHx F IHl]; intros l2 X; [destruct l2; reflexivity|].
    destruct l2 as [|w l2]; [reflexivity|]. cbn [eql_list eq_list map]. rewrite (IHx h) by (try apply X; try exact Hn; left; reflexivity).
    destruct (equals (unfold_refs (S n) x) w); [|reflexivity]. cbn [negb]. apply IHl. intros y I. apply X. right. exact I.
  - rewrite unfold_dict. destruct b0 as [| | | | | |nid2 kvs2|]; try (rewrite equals_l_dict_other by exact Logic.I; reflexivity).
    rewrite equals_l_dict, equals_dict, map_length. destruct (Nat.eqb (length kvs) (length kvs2)); [cbn [negb]|reflexivity].
    pose proof (split_map (unfold_refs (S n)) kvs kvs2) as SP. cbn zeta in SP.
    destruct (sm_split kvs kvs2) as [[[x ?] ?] y]. destruct (sm_split (map _ kvs) kvs2) as [[[x' ?] ?] y']. destruct SP as [-> ->].
    destruct (_ || _); [reflexivity|].
    assert (X : forall k w, sm_get kvs2 k = Some w -> (height w <= h)%nat).
    { intros k w I. apply sm_get_some_in in I. pose proof (height_member nid2 kvs2 k w I). lia. }
    clear Hb. induction IH as [|[k v] l IHx F IHl]; [reflexivity|]. cbn [eql_kvs eq_kvs map fst snd] in *.
    destruct (sm_get kvs2 k) as [w|] eqn:Ek; [|exact IHl]. rewrite (IHx h) by (try exact Hn; eapply X, Ek).
    destruct (equals (unfold_refs (S n) v) w); [|reflexivity]. cbn [negb]. exact IHl.
  - rewrite unfold_ptr, equals_l_ptr. destruct (links p) as [d|] eqn:L; [|reflexivity].
    destruct (D p d L) as (nid & kvs & ->).
    destruct b0 as [| | | | | |nid2 kvs2|]; try (rewrite equals_l_dict_other by exact Logic.I; rewrite unfold_dict; reflexivity).
    rewrite unfold_dict, equals_l_dict, equals_dict, map_length. destruct (Nat.eqb (length kvs) (length kvs2)); [cbn [negb]|reflexivity].
    pose proof (split_map (unfold_refs n) kvs kvs2) as SP. cbn zeta in SP.
    destruct (sm_split kvs kvs2) as [[[x ?] ?] y]. destruct (sm_split (map _ kvs) kvs2) as [[[x' ?] ?] y']. destruct SP as [-> ->].
    destruct (_ || _); [reflexivity|].
    assert (X : forall k w, sm_get kvs2 k = Some w -> (height w < h)%nat).
    { intros k w I. apply sm_get_some_in in I. pose proof (height_member nid2 kvs2 k w I). lia. }
    clear - X IHn Hn. induction kvs as [|[k v] l IHl]; [reflexivity|]. cbn [eql_kvs eq_kvs map fst snd].
    destruct (sm_get kvs2 k) as [w|] eqn:Ek; [|exact IHl]. specialize (X k w Ek) as Xw. rewrite (IHn (pred h)) by lia.
    destruct (equals (unfold_refs n v) w); [|reflexivity]. cbn [negb]. exact IHl.
Qed.

(** Equals always returns, also on cycles: it compares the tree that the
    receiver stands for - up to the height of the argument, which is all that
    matters - with the argument as it is. *)
Theorem C50_equals a b : dicts_only links -> forall n, (height b < n)%nat -> equals_l n a b = Some (equals (unfold_refs n a) b).
Proof. intros D n H. eapply equals_agrees; [exact D|apply le_n|exact H]. Qed.

(** A reference in the argument equals nothing: a value with a reference
    inside is not equal to itself. *)
Lemma equals_l_not_ptr n : forall a p, equals_l n a (JPtr p) = Some false \/ equals_l n a (JPtr p) = None.
Proof.
  induction n as [|n IH]; destruct a as [| | | | | | |q]; intros p; try (left; reflexivity); rewrite equals_l_ptr; destruct (links q); auto.
Qed.

Theorem C50_not_equal_to_itself_refuted j p : json_ok j -> subvalue (JPtr p) j -> forall n, equals_l n j j <> Some true.
Proof.
  intros O S n. remember (JPtr p) as x0 eqn:Ex. revert O. induction S as [|x l I S IH|k x nid kvs I S IH]; intros O.
  - subst. destruct (equals_l_not_ptr n (JPtr p) p) as [-> | ->]; discriminate.
  - inversion O as [| | | | |? F| |]; subst. rewrite Forall_forall in F. specialize (IH (F _ I)).
    rewrite equals_l_array, Nat.eqb_refl. cbn [negb]. clear - IH I.
    induction l as [|z l IHl]; [destruct I|]. cbn [eql_list]. destruct I as [->|I].
    + destruct (equals_l n x x) as [[]|]; congruence.
    + destruct (equals_l n z z) as [[]|]; try discriminate. apply IHl, I.
  - inversion O as [| | | | | |? ? K F N|]; subst. rewrite Forall_forall in F. specialize (IH (F _ I)). cbn in IH.
    rewrite equals_l_dict, Nat.eqb_refl. cbn [negb]. destruct (sm_split kvs kvs) as [[[? ?] ?] ?]. destruct (_ || _); [discriminate|].
    assert (G : forall m, In (k, x) m -> eql_kvs n kvs m <> Some true); [|apply G, I].
    induction m as [|[k' z] m IHm]; intros J; [destruct J|]. cbn [eql_kvs]. destruct J as [[=-> ->]|J].
    + assert (sm_get kvs k = Some x) as ->. { apply (proj2 (sm_get_in kvs k x (proj2 (sm_ok_strong kvs) K))). exact I. }
      destruct (equals_l n x x) as [[]|]; congruence.
    + destruct (sm_get kvs k') as [w|]; [|apply IHm, J]. destruct (equals_l n z w) as [[]|]; try discriminate. apply IHm, J.
Qed.

(** ** Paths *)

Lemma Get1 id kvs k : Get (JDict id kvs) [k] = match lookup k kvs with Some v => ROk v | None => RErr ErrJsonDictKeyNotFound end.
Proof. cbn. rewrite lookup_sm_get. destruct (sm_get kvs k); reflexivity. Qed.
Lemma lookup_map (f : json -> json) (kvs : smap json) k : lookup k (map (fun kv => (fst kv, f (snd kv))) kvs) = option_map f (lookup k kvs).
Proof. induction kvs as [|[k' v] l IH]; [reflexivity|]. cbn. destruct (bseq k k'); auto. Qed.
Lemma recv_cases j : dicts_only links -> (exists nid kvs, recv links j = JDict nid kvs) \/ (forall keys, Get_l links j keys = RErr ErrUnsupported).
Proof.
  intros D. unfold Get_l. destruct j as [| | | | | |nid kvs|p]; try (right; reflexivity); [left; exists nid, kvs; reflexivity|].
  cbn. unfold get_node. destruct (links p) as [d|] eqn:L; [|right; reflexivity]. left. exact (D p d L).
Qed.

(** A chain of Gets, one key at a time, goes through references as if the
    dicts stood in their place. *)
Theorem C50_step_by_step keys : dicts_only links -> forall n j v, (length keys <= n)%nat -> walk links j keys = ROk v ->
  exists m, (m <= n <= m + length keys)%nat /\ at_path (unfold_refs n j) keys (unfold_refs m v).
Proof.
  intros D. induction keys as [|k keys IH]; intros n j v Hn W; cbn [walk length] in *.
  - injection W as ->. exists n. split; [lia|constructor].
  - destruct (Get_l links j [k]) as [x|e] eqn:E; [|discriminate]. cbn [rbind] in W.
    destruct j as [| | | | | |nid kvs|p]; try discriminate.
    + unfold Get_l, recv in E. rewrite Get1 in E. destruct (lookup k kvs) as [y|] eqn:L; [|discriminate]. injection E as ->.
      destruct (IH n x v ltac:(lia) W) as (m & Hm & A). exists m. split; [lia|].
      rewrite unfold_dict. econstructor; [|exact A]. rewrite lookup_map, L. reflexivity.
    + unfold Get_l, recv, get_node in E. destruct (links p) as [d|] eqn:Lp; [|discriminate].
      destruct (D p d Lp) as (nid & kvs & ->). rewrite Get1 in E. destruct (lookup k kvs) as [y|] eqn:L; [|discriminate]. injection E as ->.
      destruct n as [|n]; [lia|]. destruct (IH n x v ltac:(lia) W) as (m & Hm & A). exists m. split; [lia|].
      rewrite unfold_ptr, Lp, unfold_dict. econstructor; [|exact A]. rewrite lookup_map, L. reflexivity.
Qed.

Theorem C50_step_by_step_complete keys : dicts_only links -> forall n j w, at_path (unfold_refs n j) keys w ->
  exists m v, walk links j keys = ROk v /\ w = unfold_refs m v.
Proof.
  intros D. induction keys as [|k keys IH]; intros n j w A; cbn [walk].
  - inversion A; subst. exists n, j. split; reflexivity.
  - destruct j as [| | | | |l|nid kvs|p]; try (rewrite unfold_leaf in A by exact Logic.I; inversion A; fail).
    + rewrite unfold_array in A. inversion A.
    + rewrite unfold_dict in A. inversion A as [|? ? ? ? x ? L A']; subst. rewrite lookup_map in L.
      destruct (lookup k kvs) as [y|] eqn:L'; [|discriminate]. injection L as <-. destruct (IH n y w A') as (m & v & W & E).
      exists m, v. split; [|exact E]. unfold Get_l, recv. rewrite Get1, L'. exact W.
    + rewrite unfold_ptr in A. destruct (links p) as [d|] eqn:Lp; [|inversion A]. destruct n as [|n]; [inversion A|].
      destruct (D p d Lp) as (nid & kvs & ->). rewrite unfold_dict in A. inversion A as [|? ? ? ? x ? L A']; subst. rewrite lookup_map in L.
      destruct (lookup k kvs) as [y|] eqn:L'; [|discriminate]. injection L as <-. destruct (IH n y w A') as (m & v & W & E).
      exists m, v. split; [|exact E]. unfold Get_l, recv, get_node. rewrite Lp, Get1, L'. exact W.
Qed.

(** A path of several keys does not pass a reference: Get(k1, k2) is an error
    where Get(k1) and then Get(k2) succeeds, and GetMap(k1) is an error where
    Get(k1) and then GetMap() succeeds. *)
Theorem C50_path_through_reference_refuted nid kvs k1 p nid' kvs' k2 v :
  lookup k1 kvs = Some (JPtr p) -> links p = Some (JDict nid' kvs') -> lookup k2 kvs' = Some v ->
  Get_l links (JDict nid kvs) [k1; k2] = RErr ErrInvalidJsonDict /\ walk links (JDict nid kvs) [k1; k2] = ROk v /\
  GetMap_l links (JDict nid kvs) [k1] = RErr ErrInvalidJsonDict /\ GetMap_l links (JPtr p) [] = ROk kvs'.
Proof.
  intros L1 Lp L2. repeat split.
  - cbn. rewrite <- lookup_sm_get, L1. reflexivity.
  - cbn [walk]. unfold Get_l, recv. rewrite Get1, L1. cbn [rbind]. unfold get_node. rewrite Lp, Get1, L2. reflexivity.
  - cbn. rewrite <- lookup_sm_get, L1. reflexivity.
  - unfold GetMap_l, recv, get_node. rewrite Lp. reflexivity.
Qed.

(** GetString follows the reference it finds at the end of a path, and prints
    the dict there; IsZero asks the dict; and so does GetArray, which refuses a
    dict. *)
Theorem C50_get_string nid kvs k p id' kvs' : lookup k kvs = Some (JPtr p) -> links p = Some (JDict id' kvs') ->
  GetString_l links (JDict nid kvs) [k] = ROk (String_ (JDict id' kvs')) /\ IsZero_l links (JPtr p) = IsZero (JDict id' kvs') /\
  GetArray_l links (JDict nid kvs) [k] = RErr ErrInvalidJsonArray.
Proof.
  intros L Lp. assert (G : Get (JDict nid kvs) [k] = ROk (JPtr p)) by (rewrite Get1, L; reflexivity).
  unfold GetString_l, GetArray_l, IsZero_l. cbn [recv]. rewrite G. cbn [rbind recv]. unfold get_node. rewrite Lp. repeat split.
Qed.

(** Where no reference is met, every method does what it does on values
    without references (C17, C18, C27, C42). *)
Lemma scalar_l_same {A} (f : nat -> json -> list bytes -> option (res A)) :
  (forall n j keys, f (S n) j keys = match j with JDict _ _ => match Get j keys with RErr e => Some (RErr e) | ROk obj => f n obj [] end
                                      | _ => f 1%nat j keys end) ->
  (forall j keys, f 0%nat j keys = None) ->
  forall n j keys, (forall p, j <> JPtr p) -> (forall p, Get j keys <> ROk (JPtr p)) ->
  scalar_l links (f 1%nat) n j keys = f n j keys.
Proof.
  intros S1 S0. induction n as [|n IH]; intros j keys N G; [rewrite S0; reflexivity|]. rewrite S1. cbn [scalar_l].
  destruct j; cbn [recv]; try reflexivity; [|exfalso; eapply N; reflexivity].
  destruct (Get (JDict nid kvs) keys) as [obj|e] eqn:E; [|reflexivity]. apply IH.
  - intros p ->. apply (G p). reflexivity.
  - intros p. destruct obj; try discriminate.
Qed.

Theorem C50_without_references n P j keys : (forall p, j <> JPtr p) -> (forall p, Get j keys <> ROk (JPtr p)) ->
  GetString_l links j keys = GetString j keys /\ GetArray_l links j keys = GetArray j keys /\
  Int_l links n j keys = Int_ n j keys /\ Float_l links n j keys = Float_ n j keys /\ Bool_l links n j keys = Bool_ n j keys /\
  GetTime_l links P j keys = GetTime P j keys /\
  Get_l links j keys = Get j keys /\ (forall ceq, GetIgnoreCases_l links ceq j keys = GetIgnoreCases ceq j keys) /\
  Contains_l links j keys = Contains j keys /\ (forall i, GetAt_l links j i keys = GetAt j i keys) /\
  GetMap_l links j keys = GetMap j keys /\ IsZero_l links j = IsZero j.
Proof.
  intros N G. assert (R : recv links j = j) by (destruct j; try reflexivity; exfalso; eapply N; reflexivity).
  assert (RG : forall v, Get j keys = ROk v -> recv links v = v) by (intros v E; destruct v; try reflexivity; exfalso; eapply G; exact E).
  split; [|split; [|split; [|split; [|split]]]].
  - unfold GetString_l, GetString. rewrite R. destruct keys; [reflexivity|]. destruct j; try reflexivity.
    destruct (Get (JDict nid kvs) (b :: keys)) as [v|e]; [|reflexivity]. cbn [rbind]. rewrite (RG v eq_refl). reflexivity.
  - unfold GetArray_l. rewrite R. destruct j; try reflexivity. cbn [GetArray].
    destruct (Get (JDict nid kvs) keys) as [v|e]; [|reflexivity]. cbn [rbind]. rewrite (RG v eq_refl). reflexivity.
  - apply scalar_l_same; auto. intros m j0 ks. destruct j0; reflexivity.
  - apply scalar_l_same; auto. intros m j0 ks. destruct j0; reflexivity.
  - apply scalar_l_same; auto. intros m j0 ks. destruct j0; reflexivity.
  - unfold GetTime_l, Get_l, GetIgnoreCases_l, Contains_l, GetAt_l, GetMap_l, IsZero_l. rewrite R. repeat split.
Qed.

(** On a linked reference every method is that of the dict behind it; on one
    that is not linked, that of null. *)
Theorem C50_reference_delegates n P p keys d : (forall q, d <> JPtr q) ->
  links p = Some d \/ (links p = None /\ d = JNull) ->
  GetString_l links (JPtr p) keys = GetString_l links d keys /\ GetArray_l links (JPtr p) keys = GetArray_l links d keys /\
  Int_l links n (JPtr p) keys = Int_l links n d keys /\ Float_l links n (JPtr p) keys = Float_l links n d keys /\
  Bool_l links n (JPtr p) keys = Bool_l links n d keys /\ GetTime_l links P (JPtr p) keys = GetTime_l links P d keys /\
  Get_l links (JPtr p) keys = Get d keys /\ (forall ceq, GetIgnoreCases_l links ceq (JPtr p) keys = GetIgnoreCases ceq d keys) /\
  Contains_l links (JPtr p) keys = Contains d keys /\ (forall i, GetAt_l links (JPtr p) i keys = GetAt d i keys) /\
  GetMap_l links (JPtr p) keys = GetMap d keys /\ IsZero_l links (JPtr p) = IsZero d.
Proof.
  intros N L. assert (R : recv links (JPtr p) = d) by (cbn [recv]; unfold get_node; destruct L as [-> |[-> ->]]; reflexivity).
  assert (RD : recv links d = d) by (destruct d; try reflexivity; exfalso; eapply N; reflexivity).
  unfold GetString_l, GetArray_l, GetTime_l, Get_l, GetIgnoreCases_l, Contains_l, GetAt_l, GetMap_l, IsZero_l, Int_l, Float_l, Bool_l.
  rewrite R, RD. repeat split; destruct n as [|n]; cbn [scalar_l]; rewrite ?R, ?RD; reflexivity.
Qed.

(** Int, Float and Bool at a path that ends in a linked reference never
    return: they ask the dict for itself, for ever. *)
Theorem C50_conversion_of_reference_refuted nid kvs keys p id' kvs' :
  Get (JDict nid kvs) keys = ROk (JPtr p) -> links p = Some (JDict id' kvs') -> forall n,
  Int_l links n (JDict nid kvs) keys = None /\ Float_l links n (JDict nid kvs) keys = None /\ Bool_l links n (JDict nid kvs) keys = None /\
  Int_l links n (JPtr p) [] = None.
Proof.
  intros G Lp n.
  assert (D : forall A (leaf : json -> list bytes -> option (res A)) m, scalar_l links leaf m (JDict id' kvs') [] = None).
  { intros A leaf m. induction m as [|m IH]; [reflexivity|]. cbn [scalar_l recv]. exact IH. }
  assert (Q : forall A (leaf : json -> list bytes -> option (res A)) m, scalar_l links leaf m (JPtr p) [] = None).
  { intros A leaf m. destruct m as [|m]; [reflexivity|]. cbn [scalar_l recv]. unfold get_node. rewrite Lp. apply D. }
  assert (E : forall A (leaf : json -> list bytes -> option (res A)) m, scalar_l links leaf m (JDict nid kvs) keys = None).
  { intros A leaf m. destruct m as [|m]; [reflexivity|]. cbn [scalar_l recv]. rewrite G. apply Q. }
  unfold Int_l, Float_l, Bool_l. rewrite !E, Q. auto.
Qed.
End Linked.

(** ** The result of Marshal *)

Section FindDict.
Context (p : Z).
Definition fd_list := fix first (l : list json) : option json :=
    match l with [] => None | x :: l' => match find_dict p x with Some d => Some d | None => first l' end end.
Definition fd_kvs := fix members (l : list (bytes * json)) : option json :=
   match l with [] => None | (_, x) :: l' => match find_dict p x with Some d => Some d | None => members l' end end.

Lemma find_dict_some : forall j d, find_dict p j = Some d -> subvalue d j /\ exists kvs, d = JDict p kvs.
Proof.
  induction j as [| | | | |l IH|nid kvs IH|q] using json_ind'; intros d H; try discriminate.
  - change (fd_list l = Some d) in H.
    assert (exists x, In x l /\ subvalue d x /\ exists kvs, d = JDict p kvs) as (x & I & S & E).
    { induction IH as [|x l IHx F IHl]; [discriminate|]. cbn [fd_list] in H. destruct (find_dict p x) as [e|] eqn:E.
      - injection H as ->. destruct (IHx d eq_refl) as [S X]. exists x. split; [left; reflexivity|]. auto.
      - destruct (IHl H) as (y & I & R). exists y. split; [right; exact I|exact R]. }
    split; [|exact E]. eapply sub_elem; eassumption.
  - cbn in H. destruct (Z.eqb_spec nid p) as [->|Np]; [injection H as <-; split; [constructor|exists kvs; reflexivity]|].
    change (fd_kvs kvs = Some d) in H.
    assert (exists k x, In (k, x) kvs /\ subvalue d x /\ exists kvs, d = JDict p kvs) as (k & x & I & S & E).
    { induction IH as [|[k x] l IHx F IHl]; [discriminate|]. cbn [fd_kvs] in H. destruct (find_dict p x) as [e|] eqn:E.
      - injection H as ->. destruct (IHx d E) as [S X]. exists k, x. split; [left; reflexivity|]. auto.
      - destruct (IHl H) as (k' & y & I & R). exists k', y. split; [right; exact I|exact R]. }
    split; [|exact E]. eapply sub_member; eassumption.
Qed.

Lemma find_dict_none : 0 < p -> forall j, find_dict p j = None -> ~ In p (node_ids j).
Proof.
  intros P. induction j as [| | | | |l IH|nid kvs IH|q] using json_ind'; intros H; cbn [node_ids]; try (intros []).
  - change (fd_list l = None) in H. induction IH as [|x l IHx F IHl]; [intros []|]. cbn [fd_list flat_map] in *.
    destruct (find_dict p x); [discriminate|]. rewrite in_app_iff. intros [X|X]; [apply IHx; auto|apply IHl; auto].
  - cbn in H. destruct (Z.eqb_spec nid p) as [->|Np]; [discriminate|]. change (fd_kvs kvs = None) in H.
    rewrite in_app_iff. intros [X|X]; [destruct (0 <? nid); cbn in X; [destruct X as [->|[]]; congruence|destruct X]|].
    induction IH as [|[k x] l IHx F IHl]; [destruct X|]. cbn [fd_kvs flat_map snd] in *.
    destruct (find_dict p x) eqn:E; [discriminate|]. rewrite in_app_iff in X. destruct X as [X|X]; [eapply IHx; eauto|apply IHl; auto].
Qed.

Lemma sub_id d kvs : 0 < p -> d = JDict p kvs -> forall j, subvalue d j -> In p (node_ids j).
Proof.
  intros P -> j S. induction S as [|x l I S IH|k x nid kvs' I S IH]; cbn [node_ids].
  - apply Z.ltb_lt in P. rewrite P. left. reflexivity.
  - apply in_flat_map. exists x. auto.
  - apply in_or_app. right. apply in_flat_map. exists (k, x). auto.
Qed.

Lemma NoDup_app_l {A} (l r : list A) : NoDup (l ++ r) -> NoDup l /\ NoDup r /\ forall x, In x l -> ~ In x r.
Proof.
  induction l as [|a l IH]; cbn; intros H; [split; [constructor|]; split; [exact H|intros ? []]|].
  inversion H as [|? ? Na Nd]; subst. destruct (IH Nd) as (X & Y & Q). rewrite in_app_iff in Na.
  split; [constructor; auto|]. split; [exact Y|]. intros x [->|I]; auto.
Qed.

Lemma dict_unique : 0 < p -> forall j, NoDup (node_ids j) -> forall a b, subvalue (JDict p a) j -> subvalue (JDict p b) j -> a = b.
Proof.
  intros P. induction j as [| | | | |l IH|nid kvs IH|q] using json_ind'; intros N c1 c2 A B;
    try (inversion A; fail).
  - inversion A as [|x ? I S|]; subst. inversion B as [|y ? I' S'|]; subst. cbn [node_ids] in N. clear A B.
    revert N I I'. induction IH as [|z l IHz F IHl]; intros N I I'; [destruct I|]. cbn [flat_map] in N.
    apply NoDup_app_l in N as (N1 & N2 & N3).
    assert (G : forall w, In w l -> forall c, subvalue (JDict p c) w -> In p (flat_map node_ids l)).
    { intros w Iw c Sc. apply in_flat_map. exists w. split; [exact Iw|]. eapply sub_id; eauto. }
    destruct I as [->|I], I' as [->|I'].
    + apply IHz; assumption.
    + exfalso. apply (N3 p); [eapply sub_id; eauto|eapply G; eauto].
    + exfalso. apply (N3 p); [eapply sub_id; eauto|eapply G; eauto].
    + apply IHl; assumption.
  - cbn [node_ids] in N. apply NoDup_app_l in N as (N1 & N2 & N3).
    assert (G : forall l, (forall kv, In kv l -> In kv kvs) -> forall k w, In (k, w) l -> forall c, subvalue (JDict p c) w -> In p (flat_map (fun kv => node_ids (snd kv)) l)).
    { intros l Hl k w Iw c Sc. apply in_flat_map. exists (k, w). split; [exact Iw|]. eapply sub_id; eauto. }
    assert (P' := P). apply Z.ltb_lt in P'.
    inversion A as [| |k x ? ? I S]; subst; inversion B as [| |k' y ? ? I' S']; subst.
    + reflexivity.
    + exfalso. rewrite P' in N3. eapply N3; [left; reflexivity|]. eapply (G kvs); eauto.
    + exfalso. rewrite P' in N3. eapply N3; [left; reflexivity|]. eapply (G kvs); eauto.
    + clear A B N3 N1 G. revert N2 I I'. induction IH as [|[k2 z] l IHz F IHl]; intros N I I'; [destruct I|]. cbn [flat_map snd] in *.
      apply NoDup_app_l in N as (N1 & N2 & N3).
      assert (G : forall k w, In (k, w) l -> forall c, subvalue (JDict p c) w -> In p (flat_map (fun kv => node_ids (snd kv)) l)).
      { intros k0 w Iw c Sc. apply in_flat_map. exists (k0, w). split; [exact Iw|]. eapply sub_id; eauto. }
      destruct I as [[=-> ->]|I], I' as [[=-> ->]|I'].
      * apply IHz; assumption.
      * exfalso. apply (N3 p); [eapply sub_id; eauto|eapply G; eauto].
      * exfalso. apply (N3 p); [eapply sub_id; eauto|eapply G; eauto].
      * apply IHl; assumption.
Qed.
End FindDict.

Lemma ref_sub : forall j p, subvalue (JPtr p) j -> In p (ref_ids j).
Proof.
  intros j p S. induction S as [|x l I S IH|k x nid kvs I S IH]; cbn [ref_ids].
  - left; reflexivity.
  - apply in_flat_map. exists x. auto.
  - apply in_flat_map. exists (k, x). auto.
Qed.

(** Every reference in what Marshal returns for a plain graph (see C31) is
    linked, to the one dict of the result with its node id. *)
Theorem C50_marshal_links omit st v j p : plain_graph st v -> marshals omit st v j -> subvalue (JPtr p) j ->
  exists kvs, links_of j p = Some (JDict p kvs) /\ subvalue (JDict p kvs) j /\ forall kvs', subvalue (JDict p kvs') j -> kvs' = kvs.
Proof.
  intros G M S. destruct (C31_references_resolve omit st v j G M) as (_ & N & P & R).
  apply ref_sub, R in S. specialize (P p S). unfold links_of.
  destruct (find_dict p j) as [d|] eqn:E; [|destruct (find_dict_none p P j E S)].
  destruct (find_dict_some p j d E) as [Sd (kvs & ->)]. exists kvs. split; [reflexivity|]. split; [exact Sd|].
  intros kvs' S'. eapply dict_unique; eauto.
Qed.

Theorem C50_links_are_dicts j : dicts_only (links_of j).
Proof. intros p d H. apply find_dict_some in H as [_ [kvs ->]]. eauto. Qed.

(** ** Instances *)

(** The ring of two structs of C31 *)
Definition ring_json : json := JDict 1 [(nm "n", JInt 7); (nm "next", JDict 2 [(nm "n", JInt 8); (nm "next", JPtr 1); (nm "up", JPtr 2)])].
Example ring_linked : links_of ring_json 1 = Some ring_json /\ exists kvs, links_of ring_json 2 = Some (JDict 2 kvs).
Proof.
  assert (S1 : subvalue (JPtr 1) ring_json).
  { eapply (sub_member _ (B "next")); [right; left; reflexivity|]. eapply (sub_member _ (B "next")); [right; left; reflexivity|constructor]. }
  assert (S2 : subvalue (JPtr 2) ring_json).
  { eapply (sub_member _ (B "next")); [right; left; reflexivity|]. eapply (sub_member _ (B "up")); [right; right; left; reflexivity|constructor]. }
  split; [|destruct (C50_marshal_links true ring _ ring_json 2 ring_plain ring_marshalled S2) as (kvs & E & _); eauto].
  destruct (C50_marshal_links true ring _ ring_json 1 ring_plain ring_marshalled S1) as (kvs & E & _ & U). rewrite E.
  rewrite <- (U _ (sub_refl _)). reflexivity.
Qed.

Example ring_walk : walk (links_of ring_json) ring_json [B "next"; B "next"; B "next"; B "n"] = ROk (JInt 8).
Proof. vm_compute. reflexivity. Qed.
Example ring_unfolds : at_path (unfold_refs (links_of ring_json) 4 ring_json) [B "next"; B "next"; B "next"; B "n"] (JInt 8).
Proof.
  destruct (C50_step_by_step (links_of ring_json) [B "next"; B "next"; B "next"; B "n"] (C50_links_are_dicts _) 4 _ _ (le_n 4) ring_walk) as (m & _ & A).
  rewrite (unfold_leaf _ m (JInt 8)) in A by exact Logic.I. exact A.
Qed.
Example ring_cycle n : native_l (links_of ring_json) n ring_json = None.
Proof.
  assert (S : subvalue (JPtr 1) ring_json).
  { eapply (sub_member _ (B "next")); [right; left; reflexivity|]. eapply (sub_member _ (B "next")); [right; left; reflexivity|constructor]. }
  eapply (C50_interface_of_cycle_refuted (links_of ring_json) 1 ring_json); [reflexivity|exact S|exact S].
Qed.
Example ring_not_itself n : equals_l (links_of ring_json) n ring_json ring_json <> Some true.
Proof.
  apply (C50_not_equal_to_itself_refuted _ _ 1).
  - repeat (constructor; cbn).
  - eapply (sub_member _ (B "next")); [right; left; reflexivity|]. eapply (sub_member _ (B "next")); [right; left; reflexivity|constructor].
Qed.

(** A struct pointed to twice *)
Definition twice_json : json := JDict 0 [(B "x", JDict 1 [(B "n", JInt 7)]); (B "y", JPtr 1)].
Example twice_interface : native_l (links_of twice_json) 1 twice_json
  = Some (native (JDict 0 [(B "x", JDict 1 [(B "n", JInt 7)]); (B "y", JDict 1 [(B "n", JInt 7)])])).
Proof. vm_compute. reflexivity. Qed.
Example twice_paths : Get_l (links_of twice_json) twice_json [B "y"; B "n"] = RErr ErrInvalidJsonDict
  /\ walk (links_of twice_json) twice_json [B "y"; B "n"] = ROk (JInt 7)
  /\ GetString_l (links_of twice_json) twice_json [B "y"] = ROk (B "{""___jnid_"":1,""n"":7}").
Proof. repeat split; vm_compute; reflexivity. Qed.
Example twice_equals : equals_l (links_of twice_json) 3 twice_json (JDict 0 [(B "x", JDict 0 [(B "n", JInt 7)]); (B "y", JDict 0 [(B "n", JInt 7)])]) = Some true.
Proof. vm_compute. reflexivity. Qed.
