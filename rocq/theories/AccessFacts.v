(** Lemmas about Access.v. *)
From Coq Require Import Sorting.Sorted.
From Verif Require Import Base Strconv StrconvFacts SortedMap SortedMapFacts Json SpecJson SpecDict Printer RfcFacts Access.

Section Ic.
Variable ceq : bytes -> bytes -> bool.

Lemma delete_ic_sub (m : smap json) k : incl (fst (sm_delete_ic ceq m k)) m.
Proof.
  induction m as [|[k' v] m IH]; simpl; [apply incl_refl|].
  destruct (ceq k k'); simpl; [apply incl_tl, incl_refl|].
  destruct (sm_delete_ic ceq m k) as [r ok]. simpl in *. intros x [<-|Hx]; [left; reflexivity | right; apply IH; exact Hx].
Qed.

Lemma delete_ic_len (m : smap json) k : snd (sm_delete_ic ceq m k) = true ->
  S (length (fst (sm_delete_ic ceq m k))) = length m.
Proof.
  induction m as [|[k' v] m IH]; simpl; [discriminate|].
  destruct (ceq k k'); simpl; [reflexivity|].
  destruct (sm_delete_ic ceq m k) as [r ok]. simpl in *. intros H. rewrite IH by exact H. reflexivity.
Qed.

Lemma delete_ic_filter (m : smap json) k :
  filter (fun kv => negb (ceq k (fst kv))) (fst (sm_delete_ic ceq m k)) = filter (fun kv => negb (ceq k (fst kv))) m.
Proof.
  induction m as [|[k' v] m IH]; simpl; [reflexivity|].
  destruct (ceq k k') eqn:E; simpl; [reflexivity|].
  destruct (sm_delete_ic ceq m k) as [r ok]. simpl in *. rewrite E. simpl. rewrite IH. reflexivity.
Qed.

Lemma delete_ic_found (m : smap json) k : snd (sm_delete_ic ceq m k) = existsb (fun kv => ceq k (fst kv)) m.
Proof.
  induction m as [|[k' v] m IH]; simpl; [reflexivity|].
  destruct (ceq k k') eqn:E; simpl; [reflexivity|].
  destruct (sm_delete_ic ceq m k) as [r ok]. simpl in *. exact IH.
Qed.

Lemma delete_ic_none (m : smap json) k : snd (sm_delete_ic ceq m k) = false -> fst (sm_delete_ic ceq m k) = m.
Proof.
  induction m as [|[k' v] m IH]; simpl; [reflexivity|].
  destruct (ceq k k') eqn:E; simpl; [discriminate|].
  destruct (sm_delete_ic ceq m k) as [r ok]. simpl in *. intros H. rewrite IH by exact H. reflexivity.
Qed.

Lemma remove_ic_spec : forall n (m : smap json) k b, (length m < n)%nat ->
  remove_ic_loop n ceq m k b
  = Some (filter (fun kv => negb (ceq k (fst kv))) m, b || existsb (fun kv => ceq k (fst kv)) m).
Proof.
  induction n as [|n IH]; intros m k b Hn; [lia|]. cbn [remove_ic_loop].
  unfold dict_remove_. cbn [negb].
  pose proof (delete_ic_found m k) as Hf. pose proof (delete_ic_len m k) as Hl.
  pose proof (delete_ic_filter m k) as Hfil. pose proof (delete_ic_none m k) as Hno.
  destruct (sm_delete_ic ceq m k) as [m' removed]. cbn [fst snd] in *. destruct removed; cbn [negb].
  - specialize (Hl eq_refl). rewrite IH by lia. rewrite Hfil, <- Hf. rewrite orb_true_r. reflexivity.
  - specialize (Hno eq_refl). subst m'. rewrite <- Hf, orb_false_r. f_equal. f_equal.
    assert (existsb (fun kv => ceq k (fst kv)) m = false) as X by (symmetry; exact Hf).
    clear - X. induction m as [|[k' v] m IH]; simpl in *; [reflexivity|].
    apply orb_false_iff in X as [X1 X2]. rewrite X1. simpl. rewrite <- IH by exact X2. reflexivity.
Qed.

Lemma get_ic_spec (m : smap json) k : match sm_get_ic ceq m k with
  | Some v => exists k', ceq k k' = true /\ In (k', v) m
  | None => forall k', In k' (map fst m) -> ceq k k' = false
  end.
Proof.
  induction m as [|[k' v] m IH]; simpl; [intros k' []|].
  destruct (ceq k k') eqn:E; [exists k'; auto|].
  destruct (sm_get_ic ceq m k) as [w|].
  - destruct IH as (k2 & H1 & H2). exists k2. auto.
  - intros k2 [<-|H]; [exact E | apply IH; exact H].
Qed.
End Ic.

Lemma lookup_filter (p : bytes -> bool) (m : smap json) k :
  lookup k (filter (fun kv => p (fst kv)) m) = if p k then lookup k m else None.
Proof. rewrite !lookup_sm_get. apply sm_get_filter. Qed.

Lemma lookup_add (m : smap json) k v k' : lookup k' (sm_add m k v) = if bseq k' k then Some v else lookup k' m.
Proof. rewrite !lookup_sm_get. apply sm_get_add. Qed.

Lemma lookup_in (m : smap json) k v : keys_increasing m -> lookup k m = Some v <-> In (k, v) m.
Proof. intros H. rewrite lookup_sm_get. apply sm_get_in. apply sm_ok_strong. exact H. Qed.

Lemma lookup_some_in (m : smap json) k v : lookup k m = Some v -> In (k, v) m.
Proof. rewrite lookup_sm_get. apply sm_get_some_in. Qed.

Lemma lookup_none (m : smap json) k : lookup k m = None <-> ~ In k (map fst m).
Proof.
  rewrite lookup_sm_get. pose proof (sm_mem_in m k) as H. unfold sm_mem in H.
  destruct (sm_get m k); split; intros X; try discriminate; try reflexivity.
  - exfalso. apply X. apply H. reflexivity.
  - intros Y. apply H in Y. discriminate.
Qed.

Lemma increasing_add (m : smap json) k v : keys_increasing m -> keys_increasing (sm_add m k v).
Proof. intros H. apply sm_ok_strong. apply sm_add_ok. apply sm_ok_strong. exact H. Qed.

Lemma increasing_merge (a b : smap json) : keys_increasing a -> keys_increasing (sm_merge a b).
Proof. intros H. apply sm_ok_strong. apply sm_merge_ok. apply sm_ok_strong. exact H. Qed.

Lemma increasing_filter f (m : smap json) : keys_increasing m -> keys_increasing (filter f m).
Proof. intros H. apply sm_ok_strong. apply sm_filter_ok. apply sm_ok_strong. exact H. Qed.

Lemma increasing_delete (m : smap json) k : keys_increasing m -> keys_increasing (fst (sm_delete m k)).
Proof. intros H. apply sm_ok_strong. apply sm_delete_ok. apply sm_ok_strong. exact H. Qed.

Lemma increasing_ext (a b : smap json) : keys_increasing a -> keys_increasing b ->
  (forall k, lookup k a = lookup k b) -> a = b.
Proof.
  intros Ha Hb H. apply sm_ext; try (apply sm_ok_strong; assumption). intros k. rewrite <- !lookup_sm_get. apply H.
Qed.

Lemma lookup_merge (a b : smap json) k : keys_increasing b ->
  lookup k (sm_merge a b) = match lookup k b with Some v => Some v | None => lookup k a end.
Proof. intros H. rewrite !lookup_sm_get. apply sm_merge_get. apply sm_ok_strong. exact H. Qed.

(** ** Paths *)

Lemma get_loop_path look kvs key keys v : (forall m k, look m k = lookup k m) ->
  get_loop look kvs key keys = ROk v <-> at_path (JDict 0 kvs) (key :: keys) v.
Proof.
  intros HL. revert kvs key. induction keys as [|key' keys IH]; intros kvs key; cbn [get_loop]; rewrite HL.
  - destruct (lookup key kvs) as [w|] eqn:E; split; intros H; try discriminate.
    + injection H as ->. econstructor; [exact E | constructor].
    + inversion H; subst. match goal with X : at_path _ [] _ |- _ => inversion X; subst end. congruence.
    + inversion H; subst. congruence.
  - destruct (lookup key kvs) as [w|] eqn:E.
    + destruct w; try (split; intros H; [discriminate | inversion H; subst;
        match goal with X : at_path _ (_ :: _) _ |- _ => inversion X; subst; congruence end]).
      rewrite IH. split; intros H.
      * econstructor; [exact E|]. inversion H; subst. econstructor; eassumption.
      * inversion H as [|? ? ? ? x ? Hl Hp]; subst. rewrite E in Hl. injection Hl as <-.
        inversion Hp; subst. econstructor; eassumption.
    + split; intros H; [discriminate | inversion H; subst; congruence].
Qed.

Lemma Get_path nid kvs keys v : Get (JDict nid kvs) keys = ROk v <-> at_path (JDict nid kvs) keys v.
Proof.
  unfold Get, get_with. destruct keys as [|key keys].
  - split; intros H; [injection H as <-; constructor | inversion H; reflexivity].
  - rewrite get_loop_path by (intros; symmetry; apply lookup_sm_get).
    split; intros H; inversion H; subst; econstructor; eassumption.
Qed.

Lemma at_path_app v ks1 : forall ks2 w, at_path v (ks1 ++ ks2) w <-> exists x, at_path v ks1 x /\ at_path x ks2 w.
Proof.
  revert v. induction ks1 as [|k ks1 IH]; intros v ks2 w; simpl.
  - split; [intros H; exists v; split; [constructor | exact H]|]. intros (x & H & H2). inversion H; subst. exact H2.
  - split.
    + intros H. inversion H; subst. match goal with X : at_path _ (_ ++ _) _ |- _ => apply IH in X as (x & A & C) end.
      exists x. split; [econstructor; eassumption | exact C].
    + intros (x & H & H2). inversion H; subst. econstructor; [eassumption|]. apply IH. eauto.
Qed.

Lemma at_path_fun v ks : forall w1 w2, at_path v ks w1 -> at_path v ks w2 -> w1 = w2.
Proof.
  revert v. induction ks as [|k ks IH]; intros v w1 w2 H1 H2; inversion H1; subst; inversion H2; subst; [reflexivity|].
  match goal with A : lookup _ _ = Some _, C : lookup _ _ = Some _ |- _ => rewrite A in C; injection C as <- end.
  eapply IH; eassumption.
Qed.

(** ** Insertion along a path *)

Lemma at_path_cons nid kvs k p w : at_path (JDict nid kvs) (k :: p) w <-> exists v, lookup k kvs = Some v /\ at_path v p w.
Proof.
  split.
  - intros H. inversion H; subst. eauto.
  - intros (v & H1 & H2). econstructor; eassumption.
Qed.

Lemma at_path_nil v w : at_path v [] w <-> w = v.
Proof. split; [intros H; inversion H; reflexivity | intros ->; constructor]. Qed.

Lemma lookup_add_same (m : smap json) k v : keys_increasing m -> lookup k m = Some v -> sm_add m k v = m.
Proof.
  intros Hm Hl. apply increasing_ext; [apply increasing_add; exact Hm | exact Hm|].
  intros k'. rewrite lookup_add. destruct (bseq_spec k' k) as [->|_]; congruence.
Qed.

Lemma lookup_ok (kvs : smap json) k v : Forall (fun kv => json_ok (snd kv)) kvs -> lookup k kvs = Some v -> json_ok v.
Proof. intros H Hl. apply lookup_some_in in Hl. rewrite Forall_forall in H. exact (H _ Hl). Qed.

Lemma comparable_cons k p q : comparable (k :: p) (k :: q) <-> comparable p q.
Proof.
  split; intros (r & [E|E]); exists r; simpl in *; try (injection E as E); subst; auto.
Qed.

(** The sub-dict an inner step of Add works on. *)
Definition inner (kvs : smap json) (key : bytes) : option (Z * smap json) :=
  match lookup key kvs with
  | None | Some JNull => Some (0, [])
  | Some (JDict nid sub) => Some (nid, sub)
  | Some _ => None
  end.

Lemma add_path_step kvs o key key' keys :
  add_path kvs o key (key' :: keys)
  = match inner kvs key with
    | Some (nid, sub) => let '(sub', e) := add_path sub o key' keys in
                         (sm_add (match lookup key kvs with
                                  | None | Some JNull => sm_add kvs key (JDict 0 [])
                                  | Some _ => kvs end) key (JDict nid sub'), e)
    | None => (kvs, Some ErrInvalidJsonDict)
    end.
Proof.
  assert (forall v, sm_get (sm_add kvs key v) key = Some v) as A by (intros v; rewrite sm_get_add, bseq_refl; reflexivity).
  cbn [add_path]. unfold inner, dict_set. rewrite lookup_sm_get. destruct (sm_get kvs key) as [v|] eqn:E.
  - destruct v; cbv iota; rewrite ?A, ?E; reflexivity.
  - cbv iota. rewrite A. reflexivity.
Qed.

Lemma sm_add_twice (m : smap json) k v w : sm_add (sm_add m k v) k w = sm_add m k w.
Proof.
  induction m as [|[k0 v0] m IH]; simpl.
  - replace (bcmp k k) with Eq by (symmetry; apply bcmp_eq; reflexivity). reflexivity.
  - destruct (bcmp k k0) eqn:E; simpl.
    + replace (bcmp k k) with Eq by (symmetry; apply bcmp_eq; reflexivity). reflexivity.
    + replace (bcmp k k) with Eq by (symmetry; apply bcmp_eq; reflexivity). reflexivity.
    + rewrite E, IH. reflexivity.
Qed.

Lemma add_path_step' kvs o key key' keys :
  add_path kvs o key (key' :: keys)
  = match inner kvs key with
    | Some (nid, sub) => let '(sub', e) := add_path sub o key' keys in (sm_add kvs key (JDict nid sub'), e)
    | None => (kvs, Some ErrInvalidJsonDict)
    end.
Proof.
  rewrite add_path_step. destruct (inner kvs key) as [[nid sub]|]; [|reflexivity].
  destruct (add_path sub o key' keys) as [sub' e]. destruct (lookup key kvs) as [[]|]; rewrite ?sm_add_twice; reflexivity.
Qed.

Lemma inner_ok nid kvs key nid' sub : json_ok (JDict nid kvs) -> inner kvs key = Some (nid', sub) -> json_ok (JDict nid' sub).
Proof.
  intros H. inversion H as [| | | | | |? ? Hk Hf Hn|]; subst. unfold inner. destruct (lookup key kvs) as [v|] eqn:E.
  - destruct v; intros [= <- <-]; try (eapply lookup_ok; eassumption); repeat constructor.
  - intros [= <- <-]. repeat constructor.
Qed.

Lemma dict_add_member_ok nid kvs k v : json_ok (JDict nid kvs) -> json_ok v -> json_ok (JDict nid (sm_add kvs k v)).
Proof.
  intros H Hv. inversion H as [| | | | | |? ? Hk Hf Hn|]; subst. constructor; [apply increasing_add; exact Hk | | exact Hn].
  rewrite Forall_forall in *. intros [k' v'] Hin. simpl.
  apply (lookup_in _ _ _ (increasing_add _ k v Hk)) in Hin. rewrite lookup_add in Hin.
  destruct (bseq k' k); [injection Hin as <-; exact Hv|]. apply lookup_some_in in Hin. exact (Hf _ Hin).
Qed.

Lemma add_path_json_ok o : json_ok o -> forall keys nid kvs key kvs' e, json_ok (JDict nid kvs) ->
  add_path kvs o key keys = (kvs', e) -> json_ok (JDict nid kvs').
Proof.
  intros Ho. induction keys as [|key' keys IH]; intros nid kvs key kvs' e H E.
  - cbn [add_path] in E. injection E as <- <-. apply dict_add_member_ok; assumption.
  - rewrite add_path_step' in E. destruct (inner kvs key) as [[nid1 sub]|] eqn:Ei; [|injection E as <- <-; exact H].
    destruct (add_path sub o key' keys) as [sub' e'] eqn:E2. injection E as <- <-.
    apply dict_add_member_ok; [exact H|]. eapply IH; [|exact E2]. eapply inner_ok; eassumption.
Qed.

(** What a successful Add leaves. *)
Lemma add_path_success o : forall keys nid kvs key kvs', add_path kvs o key keys = (kvs', None) ->
  (forall p w, at_path (JDict nid kvs') ((key :: keys) ++ p) w <-> at_path o p w)
  /\ (forall p w, ~ comparable p (key :: keys) -> at_path (JDict nid kvs') p w <-> at_path (JDict nid kvs) p w)
  /\ (forall p r, key :: keys = p ++ r -> r <> [] ->
        exists nid' sub, at_path (JDict nid kvs') p (JDict nid' sub)
          /\ (nid' = 0 \/ exists sub0, at_path (JDict nid kvs) p (JDict nid' sub0))
          /\ (forall n0 sub0, at_path (JDict nid kvs) p (JDict n0 sub0) -> nid' = n0)).
Proof.
  induction keys as [|key' keys IH]; intros nid kvs key kvs' E.
  - cbn [add_path] in E. injection E as <-. unfold dict_set. split; [|split].
    + intros p w. change ([key] ++ p) with (key :: p). rewrite at_path_cons. split.
      * intros (v & H1 & H2). rewrite lookup_add, bseq_refl in H1. injection H1 as <-. exact H2.
      * intros H. exists o. rewrite lookup_add, bseq_refl. auto.
    + intros [|k p] w N; [exfalso; apply N; exists [key]; right; reflexivity|].
      rewrite !at_path_cons. rewrite lookup_add. destruct (bseq_spec k key) as [->|_]; [|reflexivity].
      exfalso. apply N. exists p. left. reflexivity.
    + intros p r Ep Hr. destruct p as [|k p].
      * exists nid, (sm_add kvs key o). split; [constructor|]. split; [right; exists kvs; constructor|].
        intros n0 sub0 H. inversion H; subst; reflexivity.
      * injection Ep as <- Ep. destruct p; [simpl in Ep; subst; congruence | discriminate].
  - rewrite add_path_step' in E. destruct (inner kvs key) as [[nid1 sub]|] eqn:Ei; [|discriminate].
    destruct (add_path sub o key' keys) as [sub' e'] eqn:E2. injection E as <- ->.
    destruct (IH nid1 sub key' sub' E2) as (I1 & I2 & I3). split; [|split].
    + intros p w. change ((key :: key' :: keys) ++ p) with (key :: ((key' :: keys) ++ p)). rewrite at_path_cons, <- I1. split.
      * intros (v & H1 & H2). rewrite lookup_add, bseq_refl in H1. injection H1 as <-. exact H2.
      * intros H. exists (JDict nid1 sub'). rewrite lookup_add, bseq_refl. auto.
    + intros [|k p] w N; [exfalso; apply N; eexists; right; reflexivity|].
      rewrite !at_path_cons. rewrite lookup_add. destruct (bseq_spec k key) as [->|_]; [|reflexivity].
      rewrite comparable_cons in N. specialize (I2 p w N).
      assert (p <> []) as Hp by (intros ->; apply N; eexists; right; reflexivity).
      unfold inner in Ei. split.
      * intros (v & [= <-] & H). apply I2 in H.
        destruct (lookup key kvs) as [v|] eqn:El.
        { destruct v; try discriminate; injection Ei as <- <-.
          - destruct p; [congruence|]. rewrite at_path_cons in H. destruct H as (x & Hx & _). discriminate.
          - eexists. split; [reflexivity | exact H]. }
        injection Ei as <- <-. destruct p; [congruence|]. rewrite at_path_cons in H. destruct H as (x & Hx & _). discriminate.
      * intros (v & H1 & H2). eexists. split; [reflexivity|]. apply I2. rewrite H1 in Ei.
        destruct v; try discriminate; injection Ei as <- <-.
        -- destruct p; [congruence|]. inversion H2.
        -- exact H2.
    + intros p r Ep Hr. destruct p as [|k p].
      * eexists nid, _. split; [constructor|]. split; [right; exists kvs; constructor|].
        intros n0 sub0 H. inversion H; subst; reflexivity.
      * injection Ep as <- Ep. destruct (I3 p r Ep Hr) as (n' & s' & A1 & A2 & A3). exists n', s'.
        split; [|split].
        -- apply at_path_cons. eexists. rewrite lookup_add, bseq_refl. split; [reflexivity | exact A1].
        -- destruct A2 as [A2|(sub0 & A2)]; [left; exact A2|].
           unfold inner in Ei. destruct (lookup key kvs) as [v|] eqn:El.
           { destruct v; try discriminate; injection Ei as <- <-.
             - destruct p; [left; inversion A2; reflexivity|].
               rewrite at_path_cons in A2. destruct A2 as (x & Hx & _). discriminate.
             - right. exists sub0. apply at_path_cons. eexists. split; [exact El | exact A2]. }
           injection Ei as <- <-. destruct p; [left; inversion A2; reflexivity|].
           rewrite at_path_cons in A2. destruct A2 as (x & Hx & _). discriminate.
        -- intros n0 sub0 H. apply at_path_cons in H as (v & H1 & H2). unfold inner in Ei. rewrite H1 in Ei.
           destruct v; try discriminate; injection Ei as <- <-.
           ++ inversion H2.
           ++ eapply A3. exact H2.
Qed.

(** A failing Add changes nothing; it fails exactly when blocked. *)
Lemma add_path_failure o : forall keys nid kvs key kvs' e, json_ok (JDict nid kvs) ->
  add_path kvs o key keys = (kvs', Some e) -> kvs' = kvs /\ e = ErrInvalidJsonDict /\ blocked (JDict nid kvs) (key :: keys).
Proof.
  induction keys as [|key' keys IH]; intros nid kvs key kvs' e H E; [discriminate|].
  rewrite add_path_step' in E. destruct (inner kvs key) as [[nid1 sub]|] eqn:Ei.
  - destruct (add_path sub o key' keys) as [sub' e'] eqn:E2. injection E as <- ->.
    destruct (IH nid1 sub key' sub' e (inner_ok _ _ _ _ _ H Ei) E2) as (-> & -> & q & r & w & Eq & Hr & Hp & Hw1 & Hw2).
    assert (lookup key kvs = Some (JDict nid1 sub)) as El.
    { unfold inner in Ei. destruct q as [|k q]; [apply at_path_nil in Hp; subst w; exfalso; eapply Hw2; reflexivity|].
      apply at_path_cons in Hp as (v & Hp & _).
      destruct (lookup key kvs) as [v0|] eqn:El; [destruct v0; try discriminate|]; injection Ei as <- <-; try discriminate.
      reflexivity. }
    split; [|split; [reflexivity|]].
    + inversion H; subst. apply lookup_add_same; assumption.
    + exists (key :: q), r, w. split; [rewrite Eq; reflexivity|]. split; [exact Hr|]. split; [|auto].
      apply at_path_cons. exists (JDict nid1 sub). auto.
  - injection E as <- <-. split; [reflexivity|]. split; [reflexivity|]. unfold inner in Ei.
    destruct (lookup key kvs) as [v|] eqn:El; [|discriminate].
    exists [key], (key' :: keys), v. split; [reflexivity|]. split; [discriminate|]. split.
    + apply at_path_cons. exists v. split; [exact El | constructor].
    + destruct v; try discriminate; split; intros; discriminate.
Qed.

Lemma add_path_blocked o : forall keys nid kvs key, blocked (JDict nid kvs) (key :: keys) ->
  snd (add_path kvs o key keys) <> None.
Proof.
  induction keys as [|key' keys IH]; intros nid kvs key (q & r & w & Eq & Hr & Hp & Hw1 & Hw2).
  - destruct q as [|k q]; [apply at_path_nil in Hp; subst w; exfalso; eapply Hw2; reflexivity|].
    injection Eq as <- Eq. destruct q; [simpl in Eq; congruence | discriminate].
  - destruct q as [|k q]; [apply at_path_nil in Hp; subst w; exfalso; eapply Hw2; reflexivity|].
    injection Eq as <- Eq. apply at_path_cons in Hp as (v & El & Hp).
    rewrite add_path_step'. unfold inner. rewrite El.
    destruct q as [|k2 q].
    + apply at_path_nil in Hp. subst w. destruct v; try (exfalso; eapply Hw2; reflexivity); try discriminate.
      exfalso; apply Hw1; reflexivity.
    + inversion Hp; subst. assert (blocked (JDict nid0 kvs0) (key' :: keys)) as B1.
      { exists (k2 :: q), r, w. repeat split; auto. }
      specialize (IH _ _ _ B1). destruct (add_path kvs0 o key' keys) as [sub' e']. exact IH.
Qed.
