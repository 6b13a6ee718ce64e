(** Lemmas about Equals.v. *)
From Coq Require Import Sorting.Sorted.
From Verif Require Import Base Strconv StrconvFacts SortedMap SortedMapFacts Json SpecJson SpecEquals RfcFacts Access Equals AccessFacts.

Lemma float_eq_spec f g : fl_ok F64 f = true -> fl_ok F64 g = true -> float_eq f g = true <-> same_number f g.
Proof.
  intros Hf Hg. destruct f as [|n1|n1 m1 e1], g as [|n2|n2 m2 e2]; cbn [float_eq];
    try (split; [discriminate | intros X; inversion X]).
  - rewrite eqb_true_iff. split; [intros ->; constructor | intros X; inversion X; reflexivity].
  - destruct ((m1 =? 0) && (m2 =? 0)) eqn:E.
    + apply andb_true_iff in E as [E1 E2]. apply Z.eqb_eq in E1, E2. subst. split; [constructor | reflexivity].
    + rewrite !andb_true_iff, eqb_true_iff, !Z.eqb_eq. split.
      * intros [[-> ->] ->]. constructor.
      * intros X. inversion X; subst; [auto|]. discriminate.
Qed.

Definition eq_list := fix go (l l2 : list json) : bool :=
                match l, l2 with
                | v :: l', w :: l2' => if negb (equals v w) then false else go l' l2'
                | _, _ => true
                end.
Definition eq_kvs (kvs2 : smap json) := fix go (m : list (bytes * json)) : bool :=
                    match m with
                    | [] => true
                    | (k, v) :: m' =>
                        match sm_get kvs2 k with
                        | Some w => if negb (equals v w) then false else go m'
                        | None => go m'
                        end
                    end.
Lemma equals_array l l2 : equals (JArray l) (JArray l2) = Nat.eqb (length l) (length l2) && eq_list l l2.
Proof. reflexivity. Qed.
Lemma equals_dict n n2 kvs kvs2 : equals (JDict n kvs) (JDict n2 kvs2) =
  if negb (Nat.eqb (length kvs) (length kvs2)) then false
          else
            let '(aNoB, _, _, bNoA) := sm_split kvs kvs2 in
            if (Nat.ltb 0 (length aNoB) || Nat.ltb 0 (length bNoA)) then false
            else eq_kvs kvs2 kvs.
Proof. reflexivity. Qed.

Lemma eq_kvs_spec kvs2 m : eq_kvs kvs2 m = true <->
  forall k v w, In (k, v) m -> lookup k kvs2 = Some w -> equals v w = true.
Proof.
  induction m as [|[k v] m IH]; cbn [eq_kvs].
  - split; [intros _ k v w [] | reflexivity].
  - rewrite <- lookup_sm_get. destruct (lookup k kvs2) as [w|] eqn:E.
    + destruct (equals v w) eqn:Ev; cbn [negb].
      * rewrite IH. split.
        -- intros H k' v' w' [X|X] L; [injection X as <- <-; congruence | eapply H; eassumption].
        -- intros H k' v' w' X L. eapply H; [right; exact X | exact L].
      * split; [discriminate|]. intros H. rewrite <- Ev. eapply H; [left; reflexivity | exact E].
    + rewrite IH. split.
      * intros H k' v' w' [X|X] L; [injection X as <- <-; congruence | eapply H; eassumption].
      * intros H k' v' w' X L. eapply H; [right; exact X | exact L].
Qed.

Lemma eq_list_spec l : forall l2, length l = length l2 -> eq_list l l2 = true <-> Forall2 (fun v w => equals v w = true) l l2.
Proof.
  induction l as [|v l IH]; intros [|w l2] H; try discriminate; cbn [eq_list].
  - split; constructor.
  - injection H as H. destruct (equals v w) eqn:E; cbn [negb].
    + rewrite IH by exact H. split; [constructor; assumption | intros X; inversion X; assumption].
    + split; [discriminate | intros X; inversion X; congruence].
Qed.

Lemma filter_nil {A} (f : A -> bool) l : Nat.ltb 0 (length (filter f l)) = false <-> forall x, In x l -> f x = false.
Proof.
  rewrite Nat.ltb_ge. induction l as [|x l IH]; cbn [filter].
  - split; [intros _ x [] | intros _; simpl; lia].
  - destruct (f x) eqn:E; cbn [length].
    + split; [lia|]. intros H. specialize (H x (or_introl eq_refl)). congruence.
    + rewrite IH. split; [intros H y [<-|Hy]; auto | intros H y Hy; apply H; right; exact Hy].
Qed.

Lemma missing_keys (a b : smap json) : Nat.ltb 0 (length (filter (fun kv => negb (sm_mem b (fst kv))) a)) = false
  <-> forall k, lookup k b = None -> lookup k a = None.
Proof.
  rewrite filter_nil. split.
  - intros H k Hb. destruct (lookup k a) as [v|] eqn:E; [|reflexivity]. apply lookup_some_in in E.
    specialize (H _ E). simpl in H. unfold sm_mem in H. rewrite <- lookup_sm_get, Hb in H. discriminate.
  - intros H [k v] Hin. simpl. unfold sm_mem. rewrite <- lookup_sm_get. destruct (lookup k b) eqn:E; [reflexivity|].
    exfalso. apply H in E. apply lookup_none in E. apply E. apply (in_map fst) in Hin. exact Hin.
Qed.

Lemma same_keys_length (a b : smap json) : keys_increasing a -> keys_increasing b ->
  (forall k, lookup k a = None <-> lookup k b = None) -> length a = length b.
Proof.
  intros Ha Hb H. rewrite <- (map_length fst a), <- (map_length fst b).
  assert (NA : NoDup (map fst a)) by (apply sm_ok_nodup, sm_ok_strong; exact Ha).
  assert (NB : NoDup (map fst b)) by (apply sm_ok_nodup, sm_ok_strong; exact Hb).
  assert (S : forall (x y : smap json), (forall k, lookup k y = None -> lookup k x = None) -> incl (map fst x) (map fst y)).
  { intros x y X k Hk. destruct (in_dec (list_eq_dec Byte.byte_eq_dec) k (map fst y)) as [I|N]; [exact I|].
    apply lookup_none in N. apply X in N. apply lookup_none in N. contradiction. }
  apply Nat.le_antisymm; apply NoDup_incl_length; try assumption; apply S; intros k; apply H.
Qed.

Lemma Forall2_len {A C} (R : A -> C -> Prop) l l' : Forall2 R l l' -> length l = length l'.
Proof. induction 1; simpl; congruence. Qed.

Lemma equals_spec : forall a b, json_ok a -> json_ok b -> no_reference a -> equals a b = true <-> same_content a b.
Proof.
  induction a as [|x|z|f bit|s|l IH|nid kvs IH|n] using json_ind'; intros b Ha Hb Hr.
  - destruct b; cbn [equals]; split; intros X; try discriminate; try (constructor; fail); try (inversion X; fail); reflexivity.
  - destruct b as [|y| | | | | |]; cbn [equals]; try (split; [discriminate | intros X; inversion X]).
    rewrite eqb_true_iff. split; [intros ->; constructor | intros X; inversion X; reflexivity].
  - destruct b as [| |y| | | | |]; cbn [equals]; try (split; [discriminate | intros X; inversion X]).
    rewrite Z.eqb_eq. split; [intros ->; constructor | intros X; inversion X; reflexivity].
  - destruct b as [| | |g bit'| | | |]; cbn [equals]; try (split; [discriminate | intros X; inversion X]).
    inversion Ha; subst. inversion Hb; subst. rewrite float_eq_spec by assumption.
    split; [constructor; assumption | intros X; inversion X; assumption].
  - destruct b as [| | | |t| | |]; cbn [equals]; try (split; [discriminate | intros X; inversion X]).
    destruct (bseq_spec s t) as [->|N]; split; try discriminate; try constructor. intros X; inversion X; congruence.
  - destruct b as [| | | | |l2| |]; try (cbn [equals]; split; [discriminate | intros X; inversion X]).
    rewrite equals_array, andb_true_iff, Nat.eqb_eq. inversion Ha; subst. inversion Hb; subst.
    assert (R : Forall no_reference l).
    { apply Forall_forall. intros v Hv n S. apply (Hr n). econstructor; eassumption. }
    assert (X : Forall2 (fun v w => equals v w = true) l l2 <-> Forall2 same_content l l2).
    { clear Ha Hb Hr.
      match goal with A : Forall json_ok l, C : Forall json_ok l2 |- _ => revert l2 C end.
      induction l as [|v l IHl]; intros l2 Hb.
      - split; intros X; inversion X; constructor.
      - inversion IH; subst. inversion R; subst.
        match goal with A : Forall json_ok (_ :: _) |- _ => inversion A; subst end.
        split; intros X; inversion X; subst; inversion Hb; subst; constructor;
          try (match goal with A : forall b, json_ok _ -> json_ok b -> _ |- _ => apply A; assumption end);
          apply IHl; assumption. }
    split.
    + intros [E H]. constructor. apply X. apply eq_list_spec; assumption.
    + intros H. inversion H as [| | | | |? ? F|]; subst. pose proof (Forall2_len _ _ _ F) as L. split; [exact L|].
      apply eq_list_spec; [exact L|]. apply X. exact F.
  - destruct b as [| | | | | |nid2 kvs2|]; try (cbn [equals]; split; [discriminate | intros X; inversion X]).
    rewrite equals_dict. inversion Ha as [| | | | | |? ? Ka Fa Na|]; subst. inversion Hb as [| | | | | |? ? Kb Fb Nb|]; subst.
    assert (R : forall k v, In (k, v) kvs -> no_reference v).
    { intros k v Hv n S. apply (Hr n). econstructor; eassumption. }
    rewrite Forall_forall in IH, Fa, Fb. unfold sm_split. cbv beta iota zeta.
    split.
    + destruct (Nat.eqb (length kvs) (length kvs2)) eqn:E; cbn [negb]; [|discriminate].
      destruct (Nat.ltb 0 (length (filter (fun kv => negb (sm_mem kvs2 (fst kv))) kvs))) eqn:E1; [discriminate|].
      destruct (Nat.ltb 0 (length (filter (fun kv => negb (sm_mem kvs (fst kv))) kvs2))) eqn:E2; cbn [orb]; [discriminate|].
      rewrite missing_keys in E1, E2. intros H. rewrite eq_kvs_spec in H. constructor.
      * intros k. split; [apply E2 | apply E1].
      * intros k v w L1 L2. pose proof (lookup_some_in _ _ _ L1) as I1. pose proof (lookup_some_in _ _ _ L2) as I2.
        apply (IH _ I1); [exact (Fa _ I1) | exact (Fb _ I2) | exact (R _ _ I1)|]. eapply H; eassumption.
    + intros H. inversion H as [| | | | | |? ? ? ? K V]; subst.
      rewrite (same_keys_length kvs kvs2 Ka Kb K), Nat.eqb_refl. cbn [negb].
      rewrite (proj2 (missing_keys kvs kvs2)) by (intros k; apply K).
      rewrite (proj2 (missing_keys kvs2 kvs)) by (intros k; apply K). cbn [orb].
      apply eq_kvs_spec. intros k v w I1 L2. pose proof (lookup_some_in _ _ _ L2) as I2.
      apply (IH _ I1); [exact (Fa _ I1) | exact (Fb _ I2) | exact (R _ _ I1)|].
      eapply V; [|exact L2]. apply lookup_in; assumption.
  - exfalso. apply (Hr n). constructor.
Qed.

Lemma same_number_sym f g : same_number f g -> same_number g f.
Proof. intros H; inversion H; constructor. Qed.

Lemma same_number_trans f g h : same_number f g -> same_number g h -> same_number f h.
Proof. intros H1 H2; inversion H1; subst; inversion H2; subst; try constructor. Qed.

Lemma same_content_sym : forall a b, same_content a b -> same_content b a.
Proof.
  induction a as [|x|z|f bit|s|l IH|nid kvs IH|n] using json_ind'; intros b H; inversion H; subst; try constructor.
  - apply same_number_sym; assumption.
  - match goal with A : Forall2 same_content _ _ |- _ => revert A end.
    clear H. generalize l'. induction l as [|v l IHl]; intros l2 F; inversion F; subst; constructor;
      inversion IH; subst; auto.
  - intros k. symmetry. auto.
  - intros k v w L1 L2. rewrite Forall_forall in IH. pose proof (lookup_some_in _ _ _ L2) as I2.
    apply (IH _ I2). eauto.
Qed.

Lemma same_content_trans : forall a b c, same_content a b -> same_content b c -> same_content a c.
Proof.
  induction a as [|x|z|f bit|s|l IH|nid kvs IH|n] using json_ind'; intros b c H1 H2; inversion H1; subst;
    inversion H2; subst; try constructor.
  - eapply same_number_trans; eassumption.
  - match goal with A : Forall2 same_content l ?x, C : Forall2 same_content ?x ?y |- _ => revert A C; generalize x, y end.
    clear H1 H2. induction l as [|v l IHl]; intros l2 l3 F1 F2; inversion F1; subst; inversion F2; subst; constructor;
      inversion IH; subst; eauto.
  - intros k. match goal with A : forall k, lookup k kvs = None <-> _, C : forall k, lookup k _ = None <-> lookup k _ = None |- _ => rewrite A end. auto.
  - intros k v w L1 L2. rewrite Forall_forall in IH. pose proof (lookup_some_in _ _ _ L1) as I2.
    match goal with A : forall k, lookup k kvs = None <-> lookup k ?x = None |- _ => destruct (lookup k x) as [y|] eqn:E;
      [| exfalso; apply A in E; congruence] end.
    apply (IH _ I2) with y; eauto.
Qed.

Lemma same_content_refl : forall a, no_reference a -> no_nan a -> same_content a a.
Proof.
  induction a as [|x|z|f bit|s|l IH|nid kvs IH|n] using json_ind'; intros Hr Hn; try (constructor; fail).
  - constructor. destruct f; try constructor. exfalso. apply (Hn bit). constructor.
  - constructor. assert (F : forall v, In v l -> same_content v v).
    { intros v Hv. rewrite Forall_forall in IH. apply IH; [exact Hv | |].
      - intros n S. apply (Hr n). econstructor; eassumption.
      - intros n S. apply (Hn n). econstructor; eassumption. }
    clear -F. induction l as [|v l IHl]; constructor; [apply F; left; reflexivity | apply IHl; intros; apply F; right; assumption].
  - constructor; [reflexivity|]. intros k v w L1 L2. assert (w = v) as -> by congruence.
    apply lookup_some_in in L1. rewrite Forall_forall in IH. apply (IH _ L1).
    + intros n S. apply (Hr n). econstructor; eassumption.
    + intros n S. apply (Hn n). econstructor; eassumption.
  - exfalso. apply (Hr n). constructor.
Qed.

Lemma same_content_nan a b : json_ok a -> same_content a b -> no_nan a.
Proof.
  intros Hok H bit S. revert b Hok H. induction S as [|v l Hv S IH|k v nid kvs Hv S IH]; intros b Hok H.
  - inversion H; subst. match goal with A : same_number _ _ |- _ => inversion A end.
  - inversion H as [| | | | |? ? F|]; subst. inversion Hok; subst.
    destruct (In_nth_error _ _ Hv) as [i Hi]. assert (exists w, same_content v w) as [w W].
    { clear - F Hi. revert i Hi. induction F; intros [|i] Hi; simpl in Hi; try discriminate; [injection Hi as <-; eauto | eauto]. }
    eapply IH; [|exact W]. match goal with A : Forall json_ok l |- _ => rewrite Forall_forall in A; apply A; exact Hv end.
  - inversion H as [| | | | | |? ? ? ? K V]; subst. inversion Hok as [| | | | | |? ? Ka Fa Na|]; subst.
    assert (lookup k kvs = Some v) as L by (apply lookup_in; assumption).
    destruct (lookup k kvs') as [w|] eqn:E; [|exfalso; apply K in E; congruence].
    eapply IH; [|eapply V; eassumption]. rewrite Forall_forall in Fa. exact (Fa _ Hv).
Qed.
