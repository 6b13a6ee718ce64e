(** Properties of dicts and arrays: C14-C20, C23. *)
From Coq Require Import Sorting.Sorted.
From Verif Require Import Base Strconv SortedMap SortedMapFacts Json SpecJson SpecDict Printer RfcFacts Access Equals AccessFacts.

(** * C14 *)

(** One call on a dict: its new members ([None]: it would not return) and
    the answer of the removing calls. *)
Definition step (ceq : bytes -> bytes -> bool) (kvs : list (bytes * json)) (o : op)
  : option (list (bytes * json) * bool) :=
  match o with
  | OpSet k v => Some (dict_set kvs k v, true)
  | OpRemove k => Some (dict_remove kvs k)
  | OpRemoveIgnoreCase k => dict_remove_ic ceq kvs k
  | OpUpdate other => Some (dict_update kvs other, true)
  | OpUpdateDefault other => Some (dict_update_default kvs other, true)
  end.

Fixpoint run (ceq : bytes -> bytes -> bool) (kvs : list (bytes * json)) (ops : list op)
  : option (list (bytes * json)) :=
  match ops with
  | [] => Some kvs
  | o :: ops' => match step ceq kvs o with
                 | Some (kvs', _) => run ceq kvs' ops'
                 | None => None
                 end
  end.

(** The dicts handed to Update are dicts. *)
Definition op_ok (o : op) : Prop :=
  match o with
  | OpUpdate other | OpUpdateDefault other => json_ok other
  | _ => True
  end.

Lemma fm_of_none other : (forall nid kvs, other <> JDict nid kvs) -> forall k, fm_of other k = None.
Proof. intros H k. destruct other; try reflexivity. exfalso; eapply H; reflexivity. Qed.

Lemma step_spec ceq kvs o : keys_increasing kvs -> op_ok o ->
  exists kvs' b, step ceq kvs o = Some (kvs', b) /\ keys_increasing kvs'
    /\ (forall k, lookup k kvs' = op_meaning ceq o (fun x => lookup x kvs) k).
Proof.
  intros Hk Ho. destruct o as [k v|k|k|other|other]; cbn [step op_meaning].
  - exists (dict_set kvs k v), true. split; [reflexivity|]. split; [apply increasing_add; exact Hk|].
    intros k'. apply lookup_add.
  - destruct (dict_remove kvs k) as [m b] eqn:E. exists m, b. split; [reflexivity|].
    unfold dict_remove, dict_remove_ in E. cbn [negb] in E.
    assert (m = fst (sm_delete kvs k)) as -> by (rewrite E; reflexivity).
    split; [apply increasing_delete; exact Hk|]. intros k'. unfold fm_remove.
    rewrite !lookup_sm_get. apply sm_get_delete. apply sm_ok_strong. exact Hk.
  - unfold dict_remove_ic. rewrite remove_ic_spec by lia. eexists _, _. split; [reflexivity|].
    split; [apply increasing_filter; exact Hk|]. intros k'. unfold fm_remove_if.
    rewrite (lookup_filter (fun x => negb (ceq k x))). destruct (ceq k k'); reflexivity.
  - eexists _, _. split; [reflexivity|]. unfold fm_union. destruct other; cbn [dict_update];
      try (split; [exact Hk | intros k'; reflexivity]).
    split; [apply increasing_merge; exact Hk|]. intros k'. cbn [fm_of].
    apply lookup_merge. simpl in Ho. inversion Ho; assumption.
  - eexists _, _. split; [reflexivity|]. unfold fm_union. destruct other; cbn [dict_update_default];
      try (split; [exact Hk | intros k'; cbn [fm_of]; unfold fm_empty; destruct (lookup k' kvs); reflexivity]).
    simpl in Ho. inversion Ho; subst. split; [apply increasing_merge; assumption|]. intros k'. cbn [fm_of].
    apply lookup_merge. exact Hk.
Qed.

Lemma op_meaning_ext ceq o m m' : (forall k, m k = m' k) -> forall k, op_meaning ceq o m k = op_meaning ceq o m' k.
Proof.
  intros H k. destruct o; cbn; unfold fm_set, fm_remove, fm_remove_if, fm_union;
    repeat match goal with |- context [if ?b then _ else _] => destruct b end;
    try rewrite H; reflexivity.
Qed.

Lemma run_spec ceq ops : forall kvs m, keys_increasing kvs -> Forall op_ok ops -> (forall k, lookup k kvs = m k) ->
  exists kvs', run ceq kvs ops = Some kvs' /\ keys_increasing kvs'
    /\ (forall k, lookup k kvs' = fold_left (fun m o => op_meaning ceq o m) ops m k).
Proof.
  induction ops as [|o ops IH]; intros kvs m Hk Ho Hm; cbn [run fold_left].
  - exists kvs. auto.
  - inversion Ho as [|? ? Ho1 Ho2]; subst. destruct (step_spec ceq kvs o) as (kvs1 & b & E & H1 & H2); try assumption. rewrite E.
    apply IH; try assumption. intros k. rewrite H2. apply op_meaning_ext. exact Hm.
Qed.

(** Every sequence of calls on an initially empty dict returns, and leaves a
    dict whose members are those of the finite map the calls denote, with
    the keys in strictly increasing order. *)
Theorem C14_any_history : forall ceq ops, Forall op_ok ops ->
  exists kvs, run ceq [] ops = Some kvs
    /\ keys_increasing kvs
    /\ forall k, fm_of (JDict 0 kvs) k = fold_left (fun m o => op_meaning ceq o m) ops fm_empty k.
Proof. intros ceq ops H. apply run_spec; try assumption; [constructor | reflexivity]. Qed.

(** The same from any dict. *)
Theorem C14_any_history_from : forall ceq nid kvs ops, json_ok (JDict nid kvs) -> Forall op_ok ops ->
  exists kvs', run ceq kvs ops = Some kvs'
    /\ keys_increasing kvs'
    /\ forall k, fm_of (JDict nid kvs') k = fold_left (fun m o => op_meaning ceq o m) ops (fm_of (JDict nid kvs)) k.
Proof. intros ceq nid kvs ops H Ho. inversion H; subst. apply run_spec; try assumption. reflexivity. Qed.

(** What the observers of a dict answer, in terms of the finite map. *)
Theorem C14_observers : forall nid kvs, json_ok (JDict nid kvs) ->
  (forall k, Get (JDict nid kvs) [k] = match fm_of (JDict nid kvs) k with
                                       | Some v => ROk v
                                       | None => RErr ErrJsonDictKeyNotFound
                                       end)
  /\ (forall k, Contains (JDict nid kvs) [k] = true <-> exists v, fm_of (JDict nid kvs) k = Some v)
  /\ (forall k, In k (SortedKeys kvs) <-> exists v, fm_of (JDict nid kvs) k = Some v)
  /\ StronglySorted blt (SortedKeys kvs)
  /\ NoDup (SortedKeys kvs) /\ dict_size kvs = length (SortedKeys kvs)
  /\ exists m, GetMap (JDict nid kvs) [] = ROk m /\ NoDup (map fst m)
       /\ forall k v, In (k, v) m <-> fm_of (JDict nid kvs) k = Some v.
Proof.
  intros nid kvs H. inversion H as [| | | | | |? ? Hk Hf Hn|]; subst.
  assert (G : forall k, Get (JDict nid kvs) [k] = match lookup k kvs with Some v => ROk v | None => RErr ErrJsonDictKeyNotFound end).
  { intros k. unfold Get, get_with. cbn [get_loop]. rewrite lookup_sm_get. reflexivity. }
  assert (ND : NoDup (map fst kvs)) by (apply sm_ok_nodup, sm_ok_strong; exact Hk).
  cbn [fm_of]. split; [exact G|]. split.
  { intros k. unfold Contains. rewrite G. destruct (lookup k kvs); split; intros X; try reflexivity; try discriminate.
    - eauto. - destruct X as [v X]. discriminate. }
  split.
  { intros k. unfold SortedKeys, sm_keys. pose proof (lookup_none kvs k) as L.
    destruct (lookup k kvs) as [v|] eqn:E; split; intros X.
    - eauto.
    - apply lookup_some_in in E. apply (in_map fst) in E. exact E.
    - exfalso. exact (proj1 L eq_refl X).
    - destruct X as [v X]; discriminate. }
  split; [exact Hk|]. split; [exact ND|]. split.
  { unfold dict_size, SortedKeys, sm_keys. rewrite map_length. reflexivity. }
  exists kvs. split; [reflexivity|]. split; [exact ND|].
  intros k v. symmetry. apply lookup_in. exact Hk.
Qed.

(** Remove tells whether the key was there. *)
Theorem C14_remove_reports : forall nid kvs k, json_ok (JDict nid kvs) ->
  snd (dict_remove kvs k) = true <-> exists v, fm_of (JDict nid kvs) k = Some v.
Proof.
  intros nid kvs k _. unfold dict_remove, dict_remove_. cbn [negb fm_of]. rewrite sm_delete_found. unfold sm_mem.
  rewrite lookup_sm_get. destruct (sm_get kvs k); split; intros X; try reflexivity; try discriminate; eauto.
  destruct X; discriminate.
Qed.

(** What a member list holds does not depend on the order of the calls that
    built it. *)
Theorem C14_canonical : forall nid nid' kvs kvs', json_ok (JDict nid kvs) -> json_ok (JDict nid' kvs') ->
  (forall k, fm_of (JDict nid kvs) k = fm_of (JDict nid' kvs') k) -> kvs = kvs'.
Proof.
  intros nid nid' kvs kvs' H H' E. inversion H; subst. inversion H'; subst. apply increasing_ext; assumption.
Qed.

Definition ka : bytes := Eval vm_compute in B "a".
Definition kb : bytes := Eval vm_compute in B "b".
Definition kc : bytes := Eval vm_compute in B "c".
Definition kA : bytes := Eval vm_compute in B "A".
(** ASCII case-insensitive comparison, for the examples *)
Definition ceq_ascii (a b : bytes) : bool := bseq (map lowerb a) (map lowerb b).

Definition some_ops : list op :=
  [OpSet kb (JInt 1); OpSet ka (JInt 2); OpSet kA JNull; OpRemove kc;
   OpUpdate (JDict 0 [(kb, JInt 7); (kc, JInt 8)]); OpUpdateDefault (JDict 0 [(kc, JInt 9)]);
   OpRemoveIgnoreCase kA; OpUpdate (JArray [])].
Example some_ops_ok : Forall op_ok some_ops.
Proof.
  repeat (apply Forall_cons || apply Forall_nil); cbn; try exact I; try (constructor; constructor);
    constructor; try (vm_compute; reflexivity); repeat (constructor; try (vm_compute; reflexivity)).
Qed.
Example some_ops_run : run ceq_ascii [] some_ops = Some [(kb, JInt 7); (kc, JInt 8)].
Proof. vm_compute. reflexivity. Qed.

(** * C15 *)

(** RemoveIgnoreCase returns, keeps exactly the members whose key does not
    compare equal, in their order, and reports whether there were any; for
    every comparison. *)
Theorem C15_remove_ignore_case : forall ceq nid kvs k, json_ok (JDict nid kvs) ->
  exists kvs' b, dict_remove_ic ceq kvs k = Some (kvs', b)
    /\ json_ok (JDict nid kvs')
    /\ (forall k' v, In (k', v) kvs' <-> In (k', v) kvs /\ ceq k k' = false)
    /\ (b = true <-> exists k' v, In (k', v) kvs /\ ceq k k' = true).
Proof.
  intros ceq nid kvs k H. inversion H; subst. unfold dict_remove_ic. rewrite remove_ic_spec by lia.
  eexists _, _. split; [reflexivity|]. split.
  { constructor; [apply increasing_filter; assumption | | assumption].
    rewrite Forall_forall in *. intros x Hx. apply filter_In in Hx as [Hx _]. auto. }
  split.
  - intros k' v. rewrite filter_In. simpl. rewrite negb_true_iff. reflexivity.
  - cbn [orb]. rewrite existsb_exists. split.
    + intros ([k' v] & A & C). exists k', v. auto.
    + intros (k' & v & A & C). exists (k', v). auto.
Qed.

(** A key found ignoring case exists up to case and yields its value;
    otherwise no key matches. *)
Theorem C15_lookup_ignore_case : forall ceq nid kvs k,
  match GetIgnoreCases ceq (JDict nid kvs) [k] with
  | ROk v => exists k', ceq k k' = true /\ In (k', v) kvs
  | RErr e => e = ErrJsonDictKeyNotFound /\ forall k' v, In (k', v) kvs -> ceq k k' = false
  end.
Proof.
  intros ceq nid kvs k. unfold GetIgnoreCases, get_with. cbn [get_loop].
  pose proof (get_ic_spec ceq kvs k) as H. destruct (sm_get_ic ceq kvs k).
  - exact H.
  - split; [reflexivity|]. intros k' v Hin. apply H. apply (in_map fst) in Hin. exact Hin.
Qed.

Theorem C15_contains_ignore_case : forall ceq nid kvs k,
  ContainsIgnoreCases ceq (JDict nid kvs) [k] = true <-> exists k' v, In (k', v) kvs /\ ceq k k' = true.
Proof.
  intros ceq nid kvs k. unfold ContainsIgnoreCases. pose proof (C15_lookup_ignore_case ceq nid kvs k) as H.
  destruct (GetIgnoreCases ceq (JDict nid kvs) [k]) as [v|e]; split; intros X; try reflexivity; try discriminate.
  - destruct H as (k' & A & C). eauto.
  - destruct X as (k' & v & A & C). destruct H as [_ H]. rewrite (H _ _ A) in C. discriminate.
Qed.

(** When the comparison is exact, the case-insensitive calls are the exact ones. *)
Theorem C15_exact_comparison : forall nid kvs k, json_ok (JDict nid kvs) ->
  GetIgnoreCases bseq (JDict nid kvs) [k] = Get (JDict nid kvs) [k]
  /\ dict_remove_ic bseq kvs k = Some (dict_remove kvs k).
Proof.
  intros nid kvs k H. inversion H as [| | | | | |? ? Hk Hf Hn|]; subst. split.
  - unfold GetIgnoreCases, Get, get_with. cbn [get_loop].
    replace (sm_get_ic bseq kvs k) with (sm_get kvs k); [reflexivity|].
    clear. induction kvs as [|[k' v] m IH]; simpl; [reflexivity|]. destruct (bseq k k'); congruence.
  - unfold dict_remove_ic. rewrite remove_ic_spec by lia. unfold dict_remove, dict_remove_. cbn [negb].
    destruct (sm_delete kvs k) as [m b] eqn:E.
    match goal with |- Some (?x, ?y) = _ => enough (x = m /\ y = b) as [X Y] by (rewrite X, Y; reflexivity) end. split.
    + apply increasing_ext; [apply increasing_filter; exact Hk | | ].
      * replace m with (fst (sm_delete kvs k)) by (rewrite E; reflexivity). apply increasing_delete. exact Hk.
      * intros k'. rewrite (lookup_filter (fun x => negb (bseq k x))). rewrite !lookup_sm_get.
        replace m with (fst (sm_delete kvs k)) by (rewrite E; reflexivity).
        rewrite sm_get_delete by (apply sm_ok_strong; exact Hk).
        destruct (bseq_spec k k') as [E1|N]; destruct (bseq_spec k' k) as [E2|N']; try congruence; reflexivity.
    + pose proof (sm_delete_found kvs k) as F. rewrite E in F. cbn [snd] in F. rewrite F. cbn [orb]. unfold sm_mem.
      clear. induction kvs as [|[k' v] m IH]; simpl; [reflexivity|]. destruct (bseq k k'); [reflexivity | exact IH].
Qed.

Example remove_ic_example :
  dict_remove_ic ceq_ascii [(kA, JInt 1); (ka, JInt 2); (kb, JInt 3)] ka = Some ([(kb, JInt 3)], true).
Proof. vm_compute. reflexivity. Qed.

(** * C16 *)

(** A successful Add(v, path): v and everything below it is found at path;
    every path that is neither above nor below it finds what it found
    before; on the way there are dicts, and those that were dicts before are
    still the same node. *)
Theorem C16_add_success : forall v nid kvs path kvs', path <> [] ->
  dict_add kvs v path = (kvs', None) ->
  (forall p w, at_path (JDict nid kvs') (path ++ p) w <-> at_path v p w)
  /\ (forall p w, ~ comparable p path -> at_path (JDict nid kvs') p w <-> at_path (JDict nid kvs) p w)
  /\ (forall p r, path = p ++ r -> r <> [] ->
        exists nid' sub, at_path (JDict nid kvs') p (JDict nid' sub)
          /\ (nid' = 0 \/ exists sub0, at_path (JDict nid kvs) p (JDict nid' sub0))
          /\ (forall n0 sub0, at_path (JDict nid kvs) p (JDict n0 sub0) -> nid' = n0)).
Proof.
  intros v nid kvs path kvs' Hp E. destruct path as [|k path]; [congruence|].
  exact (add_path_success v path nid kvs k kvs' E).
Qed.

Theorem C16_add_then_get : forall v nid kvs path kvs', path <> [] ->
  dict_add kvs v path = (kvs', None) -> Get (JDict nid kvs') path = ROk v.
Proof.
  intros v nid kvs path kvs' Hp E. apply Get_path. rewrite <- (app_nil_r path).
  destruct (C16_add_success v nid kvs path kvs' Hp E) as (H1 & _). apply H1. constructor.
Qed.

(** Add fails exactly when something that is neither null nor a dict sits on
    the way, always with the same error, and then nothing has changed. *)
Theorem C16_add_failure : forall v nid kvs path, json_ok (JDict nid kvs) ->
  (blocked (JDict nid kvs) path <-> snd (dict_add kvs v path) <> None)
  /\ (snd (dict_add kvs v path) <> None -> dict_add kvs v path = (kvs, Some ErrInvalidJsonDict)).
Proof.
  intros v nid kvs path H. destruct path as [|k path].
  - split; [|simpl; congruence]. split; [|simpl; congruence].
    intros (q & r & w & E & Hr & _). destruct q; simpl in E; [|discriminate]. congruence.
  - cbn [dict_add]. destruct (add_path kvs v k path) as [kvs' [e|]] eqn:E; cbn [snd].
    + destruct (add_path_failure v path nid kvs k kvs' e H E) as (-> & -> & Hb). split; [|reflexivity].
      split; [congruence | intros _; exact Hb].
    + split; [|congruence]. split; [|congruence]. intros Hb. apply add_path_blocked with (o := v) in Hb.
      rewrite E in Hb. exact Hb.
Qed.

(** The result is a dict again. *)
Theorem C16_add_ok : forall v nid kvs path, json_ok (JDict nid kvs) -> json_ok v ->
  json_ok (JDict nid (fst (dict_add kvs v path))).
Proof.
  intros v nid kvs path H Hv. destruct path as [|k path]; [exact H|]. cbn [dict_add].
  destruct (add_path kvs v k path) as [kvs' e] eqn:E. eapply add_path_json_ok; eassumption.
Qed.

Example add_example :
  dict_add [(ka, JNull); (kb, JInt 1)] (JString kc) [ka; kb; kc]
  = ([(ka, JDict 0 [(kb, JDict 0 [(kc, JString kc)])]); (kb, JInt 1)], None).
Proof. vm_compute. reflexivity. Qed.
Example add_blocked_example : blocked (JDict 0 [(kb, JInt 1)]) [kb; kc].
Proof.
  exists [kb], [kc], (JInt 1). repeat split; try discriminate. econstructor; [reflexivity | constructor].
Qed.
Example incomparable_example : ~ comparable [ka; kc] [ka; kb; kc].
Proof. intros (r & [E|E]); vm_compute in E; discriminate. Qed.

(** * C17 *)

(** Get follows the path through the nested dicts, and nothing else. *)
Theorem C17_get_is_path : forall nid kvs path v,
  Get (JDict nid kvs) path = ROk v <-> at_path (JDict nid kvs) path v.
Proof. exact Get_path. Qed.

(** Get along a concatenation is Get after Get. *)
Theorem C17_get_app : forall nid kvs p k q v,
  Get (JDict nid kvs) (p ++ k :: q) = ROk v
  <-> exists x, Get (JDict nid kvs) p = ROk x /\ Get x (k :: q) = ROk v.
Proof.
  intros nid kvs p k q v. rewrite Get_path, at_path_app. split.
  - intros (x & H1 & H2). exists x. split; [apply Get_path; exact H1|].
    inversion H2; subst. apply Get_path. econstructor; eassumption.
  - intros (x & H1 & H2). exists x. split; [apply Get_path; exact H1|].
    destruct x; try discriminate. apply Get_path. exact H2.
Qed.

Theorem C17_contains_iff_get : forall j path, Contains j path = true <-> exists v, Get j path = ROk v.
Proof.
  intros j path. unfold Contains. destruct (Get j path); split; intros H; try reflexivity; try discriminate; eauto.
  destruct H; discriminate.
Qed.

Lemma get_loop_errors kvs : forall path nid key, match get_loop sm_get kvs key path with
  | ROk _ => True
  | RErr ErrJsonDictKeyNotFound => exists q k r nid' sub, key :: path = q ++ k :: r
       /\ at_path (JDict nid kvs) q (JDict nid' sub) /\ lookup k sub = None
  | RErr ErrInvalidJsonDict => exists q k r w, key :: path = q ++ k :: r
       /\ at_path (JDict nid kvs) q w /\ (forall n m, w <> JDict n m)
  | RErr _ => False
  end.
Proof.
  intros path. revert kvs. induction path as [|key' path IH]; intros kvs nid key; cbn [get_loop].
  - destruct (sm_get kvs key) as [v|] eqn:E; [exact I|].
    exists [], key, [], nid, kvs. rewrite lookup_sm_get. repeat split; auto. constructor.
  - destruct (sm_get kvs key) as [v|] eqn:E; [|].
    2:{ exists [], key, (key' :: path), nid, kvs. rewrite lookup_sm_get. repeat split; auto. constructor. }
    assert (lookup key kvs = Some v) as El by (rewrite lookup_sm_get; exact E).
    assert (N : (forall n m, v <> JDict n m) -> exists q k r w, key :: key' :: path = q ++ k :: r
       /\ at_path (JDict nid kvs) q w /\ (forall n m, w <> JDict n m)).
    { intros Hv. exists [key], key', path, v. split; [reflexivity|]. split; [|exact Hv].
      econstructor; [exact El | constructor]. }
    destruct v; try (apply N; intros; discriminate).
    specialize (IH kvs0 nid0 key'). destruct (get_loop sm_get kvs0 key' path) as [w|e]; [exact I|].
    destruct e; try exact IH.
    + destruct IH as (q & k & r & w & Eq & Hp & Hw). exists (key :: q), k, r, w.
      split; [rewrite Eq; reflexivity|]. split; [|exact Hw]. econstructor; eassumption.
    + destruct IH as (q & k & r & n' & s' & Eq & Hp & Hw). exists (key :: q), k, r, n', s'.
      split; [rewrite Eq; reflexivity|]. split; [|exact Hw]. econstructor; eassumption.
Qed.

(** The two errors of Get on a dict: the key is missing in a dict on the
    way, or something on the way is not a dict. *)
Theorem C17_get_errors : forall nid kvs path e, Get (JDict nid kvs) path = RErr e ->
  (e = ErrJsonDictKeyNotFound /\ exists q k r nid' sub, path = q ++ k :: r
       /\ at_path (JDict nid kvs) q (JDict nid' sub) /\ lookup k sub = None)
  \/ (e = ErrInvalidJsonDict /\ exists q k r w, path = q ++ k :: r
       /\ at_path (JDict nid kvs) q w /\ (forall n m, w <> JDict n m)).
Proof.
  intros nid kvs path e H. destruct path as [|key path]; [discriminate|].
  pose proof (get_loop_errors kvs path nid key) as L. unfold Get, get_with in H. rewrite H in L.
  destruct e; try contradiction; [right | left]; split; auto.
Qed.

(** The two cases exclude each other and one of them holds whenever the path
    leads nowhere, so the error is determined by the dict. *)
Theorem C17_missing_key_error : forall nid kvs q k r nid' sub,
  at_path (JDict nid kvs) q (JDict nid' sub) -> lookup k sub = None ->
  Get (JDict nid kvs) (q ++ k :: r) = RErr ErrJsonDictKeyNotFound.
Proof.
  intros nid kvs q k r nid' sub Hp Hl.
  destruct (Get (JDict nid kvs) (q ++ k :: r)) as [v|e] eqn:E.
  - apply Get_path, at_path_app in E as (x & A & C). rewrite (at_path_fun _ _ _ _ A Hp) in C.
    inversion C; subst. congruence.
  - pose proof E as E0. apply C17_get_errors in E as [[-> _]|[-> (q' & k' & r' & w & Eq & Hp' & Hw)]]; [reflexivity|].
    exfalso. apply app_eq_app in Eq as (l & [[E1 E2]|[E1 E2]]).
    + subst q. destruct l as [|x l]; simpl in E2.
      * rewrite app_nil_r in Hp. pose proof (at_path_fun _ _ _ _ Hp Hp') as X. subst w. eapply Hw; reflexivity.
      * apply at_path_app in Hp as (y & A & C). rewrite (at_path_fun _ _ _ _ A Hp') in C.
        inversion C; subst. eapply Hw; reflexivity.
    + subst q'. destruct l as [|x l]; simpl in E2.
      * rewrite app_nil_r in Hp'. pose proof (at_path_fun _ _ _ _ Hp Hp') as X. subst w. eapply Hw; reflexivity.
      * injection E2 as <- _. apply at_path_app in Hp' as (y & A & C). rewrite (at_path_fun _ _ _ _ A Hp) in C.
        inversion C; subst. congruence.
Qed.

Theorem C17_get_not_dict : forall j path, (forall nid kvs, j <> JDict nid kvs) -> Get j path = RErr ErrUnsupported.
Proof. intros j path H. destruct j; try reflexivity. exfalso. eapply H. reflexivity. Qed.

Example get_example : Get (JDict 0 [(ka, JDict 3 [(kb, JArray [])])]) [ka; kb] = ROk (JArray [])
  /\ Get (JDict 0 [(ka, JDict 3 [(kb, JArray [])])]) [ka; kc] = RErr ErrJsonDictKeyNotFound
  /\ Get (JDict 0 [(ka, JDict 3 [(kb, JArray [])])]) [ka; kb; kc] = RErr ErrInvalidJsonDict.
Proof. repeat split. Qed.

(** * C18 *)

Theorem C18_get_at : forall l i,
  (0 <= i < Z.of_nat (length l) -> exists v, nth_error l (Z.to_nat i) = Some v /\ GetAt (JArray l) i [] = ROk v)
  /\ (- Z.of_nat (length l) <= i < 0 ->
        exists v, nth_error l (Z.to_nat (Z.of_nat (length l) + i)) = Some v /\ GetAt (JArray l) i [] = ROk v)
  /\ (i < - Z.of_nat (length l) \/ Z.of_nat (length l) <= i -> GetAt (JArray l) i [] = RErr ErrOutOfIndexRange).
Proof.
  intros l i. cbn [GetAt]. unfold array_get_at.
  assert (N : forall n, (n < length l)%nat -> exists v, nth_error l n = Some v).
  { intros n Hn. destruct (nth_error l n) eqn:E; [eauto|]. apply nth_error_None in E. lia. }
  split; [|split]; intros H.
  - replace (i <? 0) with false by lia.
    replace ((0 <=? i) && (i <? Z.of_nat (length l))) with true by lia.
    destruct (N (Z.to_nat i)) as [v E]; [lia|]. rewrite E. eauto.
  - replace (i <? 0) with true by lia.
    replace ((0 <=? Z.of_nat (length l) + i) && (Z.of_nat (length l) + i <? Z.of_nat (length l))) with true by lia.
    destruct (N (Z.to_nat (Z.of_nat (length l) + i))) as [v E]; [lia|]. rewrite E. eauto.
  - destruct (Z.ltb_spec i 0).
    + replace ((0 <=? Z.of_nat (length l) + i) && (Z.of_nat (length l) + i <? Z.of_nat (length l))) with false by lia.
      reflexivity.
    + replace ((0 <=? i) && (i <? Z.of_nat (length l))) with false by lia. reflexivity.
Qed.

(** On a dict, GetAt and GetArray look the array up first. *)
Theorem C18_get_at_path : forall nid kvs path l i,
  Get (JDict nid kvs) path = ROk (JArray l) ->
  GetAt (JDict nid kvs) i path = GetAt (JArray l) i [] /\ GetArray (JDict nid kvs) path = ROk l.
Proof. intros nid kvs path l i H. cbn [GetAt GetArray]. rewrite H. split; reflexivity. Qed.

(** What is not an array and not a dict behaves as documented: extra keys
    are an error; a scalar is the array of itself; null is no array. *)
Theorem C18_get_array : forall j,
  match j with
  | JArray l => GetArray j [] = ROk l
  | JNull | JPtr _ => GetArray j [] = RErr ErrUnsupported
  | JDict _ _ => GetArray j [] = RErr ErrInvalidJsonArray
  | _ => GetArray j [] = ROk [j]
  end
  /\ forall k ks, (forall nid kvs, j <> JDict nid kvs) -> GetArray j (k :: ks) =
       RErr (match j with JNull | JPtr _ => ErrUnsupported | _ => ErrOutOfKeyRange end).
Proof.
  intros j. split.
  - destruct j; reflexivity.
  - intros k ks H. destruct j; try reflexivity. exfalso. eapply H. reflexivity.
Qed.

(** GetAt and GetMap on everything else: what is wrong is told apart. *)
Theorem C18_get_at_errors : forall j i keys,
  match j with
  | JArray _ => forall k ks, keys = k :: ks -> GetAt j i keys = RErr ErrOutOfKeyRange
  | JDict _ _ => (forall e, Get j keys = RErr e -> GetAt j i keys = RErr e)
      /\ (forall v, Get j keys = ROk v -> (forall l, v <> JArray l) -> GetAt j i keys = RErr ErrInvalidJsonArray)
  | _ => GetAt j i keys = RErr ErrUnsupported
  end.
Proof.
  intros j i keys. destruct j; try reflexivity; [intros k ks ->; reflexivity|]. split; intros x H; cbn [GetAt]; rewrite H; [reflexivity|].
  intros N. destruct x; try reflexivity. exfalso. eapply N. reflexivity.
Qed.
Theorem C18_get_map : forall j keys,
  match j with
  | JDict _ _ => match Get j keys with
                 | ROk (JDict _ kvs) => GetMap j keys = ROk kvs
                 | ROk _ => GetMap j keys = RErr ErrInvalidJsonDict
                 | RErr e => GetMap j keys = RErr e
                 end
  | _ => GetMap j keys = RErr ErrUnsupported
  end.
Proof. intros j keys. destruct j; try reflexivity. unfold GetMap. destruct (Get _ keys) as [v|e]; [|reflexivity]. destruct v; reflexivity. Qed.

Lemma array_add_app objs : forall l, array_add l objs = l ++ objs.
Proof.
  unfold array_add. induction objs as [|o objs IH]; intros l; simpl; [rewrite app_nil_r; reflexivity|].
  rewrite IH, <- app_assoc. reflexivity.
Qed.

Theorem C18_add_appends : forall l objs, array_add l objs = l ++ objs.
Proof. intros; apply array_add_app. Qed.

Lemma replace_nth_spec o : forall l n, (n < length l)%nat ->
  exists l', replace_nth n l o = Some l' /\ length l' = length l
    /\ forall m, nth_error l' m = if Nat.eqb m n then Some o else nth_error l m.
Proof.
  induction l as [|x l IH]; intros n Hn; simpl in *; [lia|]. destruct n as [|n].
  - exists (o :: l). repeat split. intros [|m]; reflexivity.
  - destruct (IH n) as (l' & El & E & H); [lia|]. exists (x :: l'). split; [cbn [replace_nth]; rewrite El; reflexivity|].
    split; [simpl; lia|]. intros [|m]; simpl; [reflexivity|]. apply H.
Qed.

Lemma replace_nth_none o : forall l n, (length l <= n)%nat -> replace_nth n l o = None.
Proof.
  induction l as [|x l IH]; intros n Hn; simpl in *; [destruct n; reflexivity|]. destruct n; [lia|]. cbn [replace_nth]. rewrite IH by lia. reflexivity.
Qed.

(** SetAt replaces one position; outside the array it panics. *)
Theorem C18_set_at : forall l i o,
  (0 <= i < Z.of_nat (length l) ->
     exists l', array_set_at l i o = Some l' /\ length l' = length l
       /\ forall m, nth_error l' m = if Nat.eqb m (Z.to_nat i) then Some o else nth_error l m)
  /\ (i < 0 \/ Z.of_nat (length l) <= i -> array_set_at l i o = None).
Proof.
  intros l i o. unfold array_set_at. split; intros H.
  - replace (i <? 0) with false by lia. apply replace_nth_spec. lia.
  - destruct (Z.ltb_spec i 0); [reflexivity|]. apply replace_nth_none. lia.
Qed.

Example get_at_example : GetAt (JArray [JInt 1; JInt 2; JInt 3]) (-1) [] = ROk (JInt 3)
  /\ GetAt (JArray [JInt 1; JInt 2; JInt 3]) (-4) [] = RErr ErrOutOfIndexRange.
Proof. split; reflexivity. Qed.

(** * C19 *)

Theorem C19_update : forall nid kvs other, json_ok (JDict nid kvs) -> json_ok other ->
  json_ok (JDict nid (dict_update kvs other))
  /\ (forall k, fm_of (JDict nid (dict_update kvs other)) k
        = match fm_of other k with Some v => Some v | None => fm_of (JDict nid kvs) k end)
  /\ json_ok (JDict nid (dict_update_default kvs other))
  /\ (forall k, fm_of (JDict nid (dict_update_default kvs other)) k
        = match fm_of (JDict nid kvs) k with Some v => Some v | None => fm_of other k end).
Proof.
  intros nid kvs other H Ho.
  destruct (step_spec bseq kvs (OpUpdate other)) as (m1 & b1 & E1 & I1 & M1); [inversion H; assumption | exact Ho|].
  destruct (step_spec bseq kvs (OpUpdateDefault other)) as (m2 & b2 & E2 & I2 & M2); [inversion H; assumption | exact Ho|].
  injection E1 as <- _. injection E2 as <- _.
  assert (OKO : forall k v, fm_of other k = Some v -> json_ok v).
  { intros k v X. destruct other; try discriminate. cbn [fm_of] in X. inversion Ho; subst. eapply lookup_ok; eassumption. }
  inversion H as [| | | | | |? ? Hk Hf Hn|]; subst. split; [|split; [|split]].
  - constructor; [exact I1 | | exact Hn]. apply Forall_forall. intros [k v] Hin. simpl.
    apply (lookup_in _ _ _ I1) in Hin. rewrite M1 in Hin. cbn [op_meaning] in Hin. unfold fm_union in Hin.
    destruct (fm_of other k) eqn:E; [injection Hin as <-; eapply OKO; exact E | eapply lookup_ok; eassumption].
  - intros k. cbn [fm_of]. rewrite M1. reflexivity.
  - constructor; [exact I2 | | exact Hn]. apply Forall_forall. intros [k v] Hin. simpl.
    apply (lookup_in _ _ _ I2) in Hin. rewrite M2 in Hin. cbn [op_meaning] in Hin. unfold fm_union in Hin.
    destruct (lookup k kvs) eqn:E; [injection Hin as <-; eapply lookup_ok; eassumption | eapply OKO; exact Hin].
  - intros k. cbn [fm_of]. rewrite M2. reflexivity.
Qed.

Example update_example :
  dict_update [(ka, JInt 1); (kb, JInt 2)] (JDict 0 [(kb, JInt 3); (kc, JInt 4)]) = [(ka, JInt 1); (kb, JInt 3); (kc, JInt 4)]
  /\ dict_update_default [(ka, JInt 1); (kb, JInt 2)] (JDict 0 [(kb, JInt 3); (kc, JInt 4)])
     = [(ka, JInt 1); (kb, JInt 2); (kc, JInt 4)].
Proof. split; reflexivity. Qed.

(** * C20 *)

Lemma diff_fold (a b : smap json) : forall ks d s,
  (forall k, In k ks -> exists v w, sm_get a k = Some v /\ sm_get b k = Some w) -> NoDup ks ->
  (forall k, In k ks -> sm_get d k = None /\ sm_get s k = None) -> sm_ok d -> sm_ok s ->
  exists d' s', fold_left (fun '(d, s) k =>
                 match sm_get a k, sm_get b k with
                 | Some aJson, Some bJson =>
                     if negb (equals aJson bJson) then (sm_add d k (JArray [aJson; bJson]), s)
                     else (d, sm_add s k aJson)
                 | _, _ => (d, s)
                 end) ks (d, s) = (d', s')
  /\ sm_ok d' /\ sm_ok s'
  /\ forall k, (~ In k ks -> sm_get d' k = sm_get d k /\ sm_get s' k = sm_get s k)
     /\ (In k ks -> forall v w, sm_get a k = Some v -> sm_get b k = Some w ->
           (equals v w = true -> sm_get d' k = None /\ sm_get s' k = Some v)
           /\ (equals v w = false -> sm_get d' k = Some (JArray [v; w]) /\ sm_get s' k = None)).
Proof.
  induction ks as [|k0 ks IH]; intros d s Hks Hnd Hds Hd Hs; cbn [fold_left].
  - exists d, s. repeat split; auto; contradiction.
  - inversion Hnd as [|? ? Hnin Hnd']; subst.
    destruct (Hks k0 (or_introl eq_refl)) as (v0 & w0 & Ev & Ew). rewrite Ev, Ew.
    assert (X : forall d1 s1, sm_ok d1 -> sm_ok s1 ->
       (forall k, k <> k0 -> sm_get d1 k = sm_get d k /\ sm_get s1 k = sm_get s k) ->
       (equals v0 w0 = true -> sm_get d1 k0 = None /\ sm_get s1 k0 = Some v0) ->
       (equals v0 w0 = false -> sm_get d1 k0 = Some (JArray [v0; w0]) /\ sm_get s1 k0 = None) ->
       exists d' s', fold_left (fun '(d, s) k =>
                 match sm_get a k, sm_get b k with
                 | Some aJson, Some bJson =>
                     if negb (equals aJson bJson) then (sm_add d k (JArray [aJson; bJson]), s)
                     else (d, sm_add s k aJson)
                 | _, _ => (d, s)
                 end) ks (d1, s1) = (d', s')
       /\ sm_ok d' /\ sm_ok s'
       /\ forall k, (~ In k (k0 :: ks) -> sm_get d' k = sm_get d k /\ sm_get s' k = sm_get s k)
          /\ (In k (k0 :: ks) -> forall v w, sm_get a k = Some v -> sm_get b k = Some w ->
           (equals v w = true -> sm_get d' k = None /\ sm_get s' k = Some v)
           /\ (equals v w = false -> sm_get d' k = Some (JArray [v; w]) /\ sm_get s' k = None))).
    { intros d1 s1 O1 O2 Hne Ht Hf. destruct (IH d1 s1) as (d' & s' & E & O3 & O4 & P); auto.
      - intros k Hk. apply Hks. right; exact Hk.
      - intros k Hk. assert (k <> k0) as N by congruence. destruct (Hne k N) as [-> ->]. apply Hds. right; exact Hk.
      - exists d', s'. split; [exact E|]. split; [exact O3|]. split; [exact O4|]. intros k. destruct (P k) as [P1 P2]. split.
        + intros N. assert (k <> k0) as N1 by (intros ->; apply N; left; reflexivity).
          destruct P1 as [Q1 Q2]; [intros Y; apply N; right; exact Y|]. destruct (Hne k N1) as [R1 R2]. split; congruence.
        + intros [->|Hin] v w Ev' Ew'; [|apply P2; assumption].
          rewrite Ev in Ev'. rewrite Ew in Ew'. injection Ev' as <-. injection Ew' as <-.
          destruct (P1 Hnin) as [Q1 Q2]. rewrite Q1, Q2. split; assumption. }
    assert (K0 : sm_get d k0 = None /\ sm_get s k0 = None) by (apply Hds; left; reflexivity). destruct K0 as [K1 K2].
    destruct (equals v0 w0) eqn:Eq; cbn [negb]; apply X; auto using sm_add_ok; try discriminate.
    + intros k N. rewrite sm_get_add. destruct (bseq_spec k k0); [congruence | auto].
    + intros _. rewrite sm_get_add, bseq_refl. auto.
    + intros k N. rewrite sm_get_add. destruct (bseq_spec k k0); [congruence | auto].
    + intros _. rewrite sm_get_add, bseq_refl. auto.
Qed.

(** The four results of Diff: what the key holds on each side decides which
    one of them holds the key, and with which value. *)
Theorem C20_diff : forall n1 n2 a b, json_ok (JDict n1 a) -> json_ok (JDict n2 b) ->
  exists aNoB aDiffB aAndB bNoA, Diff a b = (aNoB, aDiffB, aAndB, bNoA)
    /\ keys_increasing aNoB /\ keys_increasing aDiffB /\ keys_increasing aAndB /\ keys_increasing bNoA
    /\ forall k, (lookup k aNoB, lookup k aDiffB, lookup k aAndB, lookup k bNoA)
         = match lookup k a, lookup k b with
           | Some v, None => (Some v, None, None, None)
           | Some v, Some w => if equals v w then (None, None, Some v, None)
                               else (None, Some (JArray [v; w]), None, None)
           | None, Some w => (None, None, None, Some w)
           | None, None => (None, None, None, None)
           end.
Proof.
  intros n1 n2 a b Ha Hb. inversion Ha as [| | | | | |? ? Ka Fa Na|]; subst. inversion Hb as [| | | | | |? ? Kb Fb Nb|]; subst.
  unfold Diff, sm_split.
  set (aD := filter (fun kv => sm_mem b (fst kv)) a). set (bD := filter (fun kv => sm_mem a (fst kv)) b).
  assert (GA : forall k, sm_get aD k = if sm_mem b k then sm_get a k else None) by (intros; apply (sm_get_filter (sm_mem b))).
  assert (GB : forall k, sm_get bD k = if sm_mem a k then sm_get b k else None) by (intros; apply (sm_get_filter (sm_mem a))).
  destruct (diff_fold aD bD (sm_keys aD) [] []) as (d & s & E & Od & Os & P).
  { intros k Hk. apply sm_mem_in in Hk. unfold sm_mem in Hk. rewrite GA in Hk. rewrite GA, GB. unfold sm_mem in *.
    destruct (sm_get b k); [|discriminate]. destruct (sm_get a k); [|discriminate]. eauto. }
  { apply sm_ok_nodup, sm_filter_ok, sm_ok_strong. exact Ka. }
  { intros; split; reflexivity. }
  { exact I. } { exact I. }
  match type of E with ?l = _ => match goal with |- context [fold_left ?f ?ks ?i] => change (fold_left f ks i) with l end end. rewrite E. eexists _, _, _, _. split; [reflexivity|].
  split; [apply increasing_filter; exact Ka|]. split; [apply sm_ok_strong; exact Od|].
  split; [apply sm_ok_strong; exact Os|]. split; [apply increasing_filter; exact Kb|].
  intros k. rewrite (lookup_filter (fun x => negb (sm_mem b x))), (lookup_filter (fun x => negb (sm_mem a x))).
  rewrite !lookup_sm_get. destruct (P k) as [P1 P2]. rewrite <- sm_mem_in in P1, P2.
  unfold sm_mem in *. rewrite GA in P1, P2. rewrite GB in P2. unfold sm_mem in P1, P2.
  destruct (sm_get a k) as [v|] eqn:Ea; destruct (sm_get b k) as [w|] eqn:Eb; cbn [negb] in *.
  - specialize (P2 eq_refl v w eq_refl eq_refl). destruct (equals v w).
    + destruct P2 as [P2 _]. destruct (P2 eq_refl) as [-> ->]. reflexivity.
    + destruct P2 as [_ P2]. destruct (P2 eq_refl) as [-> ->]. reflexivity.
  - destruct P1 as [-> ->]; [discriminate | reflexivity].
  - destruct P1 as [-> ->]; [discriminate | reflexivity].
  - destruct P1 as [-> ->]; [discriminate | reflexivity].
Qed.

Example diff_example :
  Diff [(ka, JInt 1); (kb, JInt 2); (kc, JInt 3)] [(kA, JNull); (kb, JInt 2); (kc, JString ka)]
  = ([(ka, JInt 1)], [(kc, JArray [JInt 3; JString ka])], [(kb, JInt 2)], [(kA, JNull)]).
Proof. reflexivity. Qed.

(** * C23 *)

Lemma copy_fold (p : bytes -> bool) (f : smap json -> bytes * json -> smap json) : (forall d k v, f d (k, v) = if p k then dict_set d k v else d) ->
  forall kvs d, keys_increasing kvs -> keys_increasing d ->
  keys_increasing (fold_left f kvs d)
  /\ forall k, lookup k (fold_left f kvs d) = if p k then (match lookup k kvs with Some v => Some v | None => lookup k d end) else lookup k d.
Proof.
  intros Hf. induction kvs as [|[k0 v0] kvs IH]; intros d Hk Hd; cbn [fold_left].
  - split; [exact Hd|]. intros k. cbn [lookup]. destruct (p k); reflexivity.
  - rewrite Hf. assert (Hk' : keys_increasing kvs) by (inversion Hk; assumption).
    assert (Hn : lookup k0 kvs = None).
    { apply lookup_none. pose proof (proj2 (sm_ok_strong _) Hk) as X. apply sm_ok_nodup in X. simpl in X.
      inversion X; assumption. }
    destruct (p k0) eqn:E.
    + destruct (IH (dict_set d k0 v0) Hk' (increasing_add _ _ _ Hd)) as [I1 I2]. split; [exact I1|].
      intros k. rewrite I2. unfold dict_set. rewrite lookup_add. cbn [lookup].
      destruct (bseq_spec k k0) as [->|N].
      * rewrite Hn. destruct (p k0); [reflexivity | congruence].
      * destruct (p k); reflexivity.
    + destruct (IH d Hk' Hd) as [I1 I2]. split; [exact I1|]. intros k. rewrite I2. cbn [lookup].
      destruct (bseq_spec k k0) as [->|N]; [rewrite E; reflexivity | reflexivity].
Qed.

Lemma in_strings_spec k ks : in_strings k ks = true <-> In k ks.
Proof.
  unfold in_strings. rewrite existsb_exists. split.
  - intros (x & Hx & E). destruct (bseq_spec k x); [subst; exact Hx | discriminate].
  - intros H. exists k. split; [exact H | apply bseq_refl].
Qed.

(** CopyIncludes keeps the members named, CopyExcludes the others (and
    Copy() all), with their values. *)
Theorem C23_projections : forall nid kvs ks, json_ok (JDict nid kvs) ->
  keys_increasing (copy_includes kvs ks) /\ keys_increasing (copy_excludes kvs ks)
  /\ (forall k v, In (k, v) (copy_includes kvs ks) <-> In (k, v) kvs /\ In k ks)
  /\ (forall k v, In (k, v) (copy_excludes kvs ks) <-> In (k, v) kvs /\ ~ In k ks).
Proof.
  intros nid kvs ks H. inversion H as [| | | | | |? ? Hk Hf Hn|]; subst.
  destruct (copy_fold (fun k => in_strings k ks) (fun d '(k, v) => if in_strings k ks then dict_set d k v else d)
    ltac:(intros; reflexivity) kvs [] Hk ltac:(constructor)) as [I1 L1].
  destruct (copy_fold (fun k => negb (in_strings k ks)) (fun d '(k, v) => if in_strings k ks then d else dict_set d k v)
    ltac:(intros d0 k0 v0; destruct (in_strings k0 ks) eqn:EE; cbv beta iota; rewrite ?EE; reflexivity) kvs [] Hk ltac:(constructor)) as [I2 L2].
  split; [exact I1|]. split; [exact I2|]. split; intros k v.
  - rewrite <- (lookup_in _ _ _ I1), <- (lookup_in _ _ _ Hk), <- in_strings_spec, L1. cbn [lookup].
    destruct (in_strings k ks), (lookup k kvs); intuition congruence.
  - rewrite <- (lookup_in _ _ _ I2), <- (lookup_in _ _ _ Hk), <- in_strings_spec, L2. cbn [lookup].
    destruct (in_strings k ks), (lookup k kvs); cbn [negb]; intuition congruence.
Qed.

Theorem C23_copy_all : forall nid kvs, json_ok (JDict nid kvs) -> copy_excludes kvs [] = kvs.
Proof.
  intros nid kvs H. destruct (C23_projections nid kvs [] H) as (_ & I & _ & E).
  inversion H as [| | | | | |? ? Hk Hf Hn|]; subst. apply increasing_ext; [exact I | exact Hk|].
  intros k. destruct (lookup k kvs) as [v|] eqn:L.
  - apply (lookup_in _ _ _ I). apply E. split; [apply lookup_some_in; exact L | intros []].
  - destruct (lookup k (copy_excludes kvs [])) as [v|] eqn:L2; [|reflexivity].
    apply (lookup_in _ _ _ I) in L2. apply E in L2 as [L2 _]. apply (lookup_in _ _ _ Hk) in L2. congruence.
Qed.

Example copy_example : copy_includes [(ka, JInt 1); (kb, JInt 2)] [kb; kc] = [(kb, JInt 2)]
  /\ copy_excludes [(ka, JInt 1); (kb, JInt 2)] [kb; kc] = [(ka, JInt 1)].
Proof. split; reflexivity. Qed.

Print Assumptions C14_any_history.
Print Assumptions C14_any_history_from.
Print Assumptions C14_observers.
Print Assumptions C14_remove_reports.
Print Assumptions C14_canonical.
Print Assumptions C15_remove_ignore_case.
Print Assumptions C15_lookup_ignore_case.
Print Assumptions C15_contains_ignore_case.
Print Assumptions C15_exact_comparison.
Print Assumptions C16_add_success.
Print Assumptions C16_add_then_get.
Print Assumptions C16_add_failure.
Print Assumptions C16_add_ok.
Print Assumptions C17_get_is_path.
Print Assumptions C17_get_app.
Print Assumptions C17_contains_iff_get.
Print Assumptions C17_get_errors.
Print Assumptions C17_missing_key_error.
Print Assumptions C17_get_not_dict.
Print Assumptions C18_get_at.
Print Assumptions C18_get_at_path.
Print Assumptions C18_get_array.
Print Assumptions C18_add_appends.
Print Assumptions C18_set_at.
Print Assumptions C19_update.
Print Assumptions C20_diff.
Print Assumptions C23_projections.
Print Assumptions C23_copy_all.
