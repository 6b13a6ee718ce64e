(** The query string round trip. *)
From Coq Require Import Sorting.Sorted Sorting.Permutation.
From Verif Require Import Base Strconv StrconvFacts SortedMap SortedMapFacts Json SpecJson Printer Access AccessFacts RfcFacts Query SpecQuery QueryFacts.

(** ** Leaves *)

Definition leaf_text (j : json) : bytes :=
  match j with JNull => [] | JString s => s | _ => String_ j end.

Inductive isleaf : json -> list seg -> bytes -> Prop :=
| il_scalar j : is_scalar j -> isleaf j [] (leaf_text j)
| il_arr l i x q v : nth_error l i = Some x -> isleaf x q v -> isleaf (JArray l) (SNum (Z.of_nat i) :: q) v
| il_dict nid kvs k x q v : In (k, x) kvs -> isleaf x q v -> isleaf (JDict nid kvs) (string2seg k :: q) v.

Lemma as_text_scalar j : is_scalar j -> as_text j = JString (leaf_text j).
Proof. destruct j; simpl; intros H; try contradiction; reflexivity. Qed.

Lemma leaf_depth_scalar j : is_scalar j -> leaf_depth j = O.
Proof. destruct j; simpl; intros H; try contradiction; reflexivity. Qed.

Lemma isleaf_scalar j p v : is_scalar j -> isleaf j p v -> p = [] /\ v = leaf_text j.
Proof. intros S H. inversion H; subst; simpl in S; tauto. Qed.

Lemma isleaf_arr l p v : isleaf (JArray l) p v ->
  exists i x q, p = SNum (Z.of_nat i) :: q /\ nth_error l i = Some x /\ isleaf x q v.
Proof. inversion 1; subst; [simpl in *; contradiction|]. eauto 6. Qed.

Lemma isleaf_dict nid kvs p v : isleaf (JDict nid kvs) p v ->
  exists k x q, p = string2seg k :: q /\ In (k, x) kvs /\ isleaf x q v.
Proof. inversion 1; subst; [simpl in *; contradiction|]. eauto 6. Qed.

Lemma fold_min_le x l : (fold_right Nat.min x l <= x)%nat /\ Forall (fun y => fold_right Nat.min x l <= y)%nat l.
Proof.
  induction l as [|y l [IH1 IH2]]; simpl; [split; [lia|constructor]|]. split; [lia|]. constructor; [lia|].
  eapply Forall_impl; [|exact IH2]. simpl. intros. lia.
Qed.

Lemma min_list_le l y : In y l -> (min_list l <= y)%nat.
Proof.
  destruct l as [|x l]; simpl; [tauto|]. pose proof (fold_min_le x l) as [H1 H2].
  rewrite Forall_forall in H2. intros [->|H]; auto.
Qed.

Lemma min_list_in l : l <> [] -> In (min_list l) l.
Proof.
  destruct l as [|x l]; [congruence|]. intros _. simpl. induction l as [|y l IH]; simpl; [auto|].
  destruct (Nat.min_spec y (fold_right Nat.min x l)) as [[_ ->]|[_ ->]]; [auto|]. destruct IH as [IH|IH]; auto.
Qed.

(** Every value that can be carried has a leaf, at its leaf depth, and none above. *)
Lemma leaf_exists j : query_value j -> exists p v, isleaf j p v /\ length p = leaf_depth j.
Proof.
  induction j as [| | | | |l IH|nid kvs IH|] using json_ind'; intros Q;
    try (eexists _, _; split; [apply il_scalar; exact I|reflexivity]).
  - inversion Q as [j S|l' N F D L|]; subst; [contradiction|]. simpl leaf_depth.
    assert (In (min_list (map leaf_depth l)) (map leaf_depth l)) as M
      by (apply min_list_in; destruct l; [congruence|discriminate]).
    apply in_map_iff in M as (x & Ex & Ix). rewrite Forall_forall in IH, F.
    destruct (IH x Ix (F x Ix)) as (p & v & Hp & Lp). apply In_nth_error in Ix as [i Hi].
    exists (SNum (Z.of_nat i) :: p), v. split; [econstructor; eassumption|]. simpl. congruence.
  - inversion Q as [j S| |nid' kvs' N K F]; subst; [contradiction|]. simpl leaf_depth.
    set (f := fun kv : bytes * json => leaf_depth (snd kv)).
    assert (In (min_list (map f kvs)) (map f kvs)) as M
      by (apply min_list_in; destruct kvs; [congruence|discriminate]).
    apply in_map_iff in M as ([k x] & Ex & Ix). rewrite Forall_forall in IH, F.
    destruct (IH _ Ix (proj2 (proj2 (F _ Ix)))) as (p & v & Hp & Lp).
    exists (string2seg k :: p), v. split; [econstructor; eassumption|]. simpl. rewrite <- Ex. unfold f. simpl in *. congruence.
  - inversion Q; subst; contradiction.
Qed.

Lemma leaf_min j p v : isleaf j p v -> (leaf_depth j <= length p)%nat.
Proof.
  induction 1 as [j S|l i x q v E H IH|nid kvs k x q v I H IH].
  - rewrite leaf_depth_scalar by assumption. simpl. lia.
  - simpl. apply le_n_S. etransitivity; [|exact IH]. apply min_list_le, in_map. eapply nth_error_In, E.
  - simpl. apply le_n_S. etransitivity; [|exact IH]. apply min_list_le.
    apply (in_map (fun kv : bytes * json => leaf_depth (snd kv))) in I. exact I.
Qed.

(** ** The part of a value made of the leaves in a set *)

Fixpoint prune (S : list seg -> bool) (j : json) {struct j} : option json :=
  match j with
  | JArray l =>
      match (fix go (i : Z) (l : list json) : list json :=
               match l with
               | [] => []
               | x :: l' => match prune (fun q => S (SNum i :: q)) x with
                            | Some y => y :: go (i + 1) l'
                            | None => go (i + 1) l'
                            end
               end) 0 l with
      | [] => None
      | l' => Some (JArray l')
      end
  | JDict _ kvs =>
      match (fix go (kvs : list (bytes * json)) : list (bytes * json) :=
               match kvs with
               | [] => []
               | (k, x) :: kvs' => match prune (fun q => S (string2seg k :: q)) x with
                                   | Some y => (k, y) :: go kvs'
                                   | None => go kvs'
                                   end
               end) kvs with
      | [] => None
      | kvs' => Some (JDict 0 kvs')
      end
  | JPtr _ => None
  | _ => if S [] then Some (JString (leaf_text j)) else None
  end.

Section PruneParts.
Context (S : list seg -> bool).
Fixpoint prune_arr (i : Z) (l : list json) : list json :=
  match l with
  | [] => []
  | x :: l' => match prune (fun q => S (SNum i :: q)) x with
               | Some y => y :: prune_arr (i + 1) l'
               | None => prune_arr (i + 1) l'
               end
  end.

Fixpoint prune_dict (kvs : list (bytes * json)) : list (bytes * json) :=
  match kvs with
  | [] => []
  | (k, x) :: kvs' => match prune (fun q => S (string2seg k :: q)) x with
                      | Some y => (k, y) :: prune_dict kvs'
                      | None => prune_dict kvs'
                      end
  end.
End PruneParts.

Lemma prune_JArray S l : prune S (JArray l) = match prune_arr S 0 l with [] => None | l' => Some (JArray l') end.
Proof. reflexivity. Qed.
Lemma prune_JDict S nid kvs : prune S (JDict nid kvs) = match prune_dict S kvs with [] => None | kvs' => Some (JDict 0 kvs') end.
Proof. reflexivity. Qed.
Lemma prune_scalar S j : is_scalar j -> prune S j = if S [] then Some (JString (leaf_text j)) else None.
Proof. destruct j; simpl; intros H; try contradiction; reflexivity. Qed.

Lemma prune_arr_app S a : forall i b, prune_arr S i (a ++ b) = prune_arr S i a ++ prune_arr S (i + Z.of_nat (length a)) b.
Proof.
  induction a as [|x a IH]; intros i b; cbn [app length prune_arr].
  - simpl. rewrite Z.add_0_r. reflexivity.
  - rewrite IH. replace (i + 1 + Z.of_nat (length a)) with (i + Z.of_nat (Datatypes.S (length a))) by lia.
    destruct (prune _ x); reflexivity.
Qed.

(** Only the leaves matter. *)
Lemma prune_ext j : query_value j -> forall S S', (forall p v, isleaf j p v -> S p = S' p) -> prune S j = prune S' j.
Proof.
  induction j as [| | | | |l IH|nid kvs IH|] using json_ind'; intros Q S S' H;
    try (rewrite !prune_scalar by exact I; erewrite H; [reflexivity|apply il_scalar; exact I]).
  - inversion Q as [j Sc|l' N F D L|]; subst; [contradiction|]. rewrite !prune_JArray.
    assert (forall l2 i, (forall n x, nth_error l2 n = Some x -> nth_error l (Z.to_nat (i + Z.of_nat n)) = Some x) -> 0 <= i ->
      prune_arr S i l2 = prune_arr S' i l2) as G.
    { induction l2 as [|x l2 IH2]; intros i Hi Pi; [reflexivity|]. cbn [prune_arr].
      rewrite (IH2 (i + 1)); [|intros n y Hn; replace (i + 1 + Z.of_nat n) with (i + Z.of_nat (Datatypes.S n)) by lia; apply Hi; exact Hn|lia].
      assert (nth_error l (Z.to_nat i) = Some x) as Ex by (rewrite <- (Z.add_0_r i); apply (Hi O); reflexivity).
      pose proof (nth_error_In _ _ Ex) as Ix. rewrite Forall_forall in IH, F.
      rewrite (IH x Ix (F x Ix) (fun q => S (SNum i :: q)) (fun q => S' (SNum i :: q))); [reflexivity|].
      intros p v Hp. eapply H. rewrite <- (Z2Nat.id i Pi). econstructor; eassumption. }
    rewrite (G l 0); [reflexivity| |lia]. intros n x Hn. simpl. rewrite Nat2Z.id. exact Hn.
  - inversion Q as [j Sc| |nid' kvs' N K F]; subst; [contradiction|]. rewrite !prune_JDict.
    assert (forall l2, incl l2 kvs -> prune_dict S l2 = prune_dict S' l2) as G.
    { induction l2 as [|[k x] l2 IH2]; intros Hi; [reflexivity|]. cbn [prune_dict].
      assert (In (k, x) kvs) as Ix by (apply Hi; left; reflexivity). rewrite Forall_forall in IH, F.
      rewrite IH2 by (intros y Hy; apply Hi; right; exact Hy).
      pose proof (IH _ Ix (proj2 (proj2 (F _ Ix))) (fun q => S (string2seg k :: q)) (fun q => S' (string2seg k :: q))) as E0.
      cbn [snd] in E0. rewrite E0; [reflexivity|].
      intros p v Hp. eapply H. econstructor; eassumption. }
    rewrite (G kvs); [reflexivity|apply incl_refl].
  - reflexivity.
Qed.

Lemma prune_none j : query_value j -> forall S, prune S j = None <-> (forall p v, isleaf j p v -> S p = false).
Proof.
  induction j as [| | | | |l IH|nid kvs IH|] using json_ind'; intros Q S;
    try (rewrite prune_scalar by exact I; split;
         [ intros H p v Hp; apply isleaf_scalar in Hp as [-> _]; [|exact I]; destruct (S []); [discriminate|reflexivity]
         | intros H; erewrite H; [reflexivity|apply il_scalar; exact I]]).
  - inversion Q as [j Sc|l' N F D L|]; subst; [contradiction|]. rewrite prune_JArray.
    assert (forall l2 i, incl l2 l -> (prune_arr S i l2 = [] <->
       forall n x p v, nth_error l2 n = Some x -> isleaf x p v -> S (SNum (i + Z.of_nat n) :: p) = false)) as G.
    { induction l2 as [|x l2 IH2]; intros i Hi; cbn [prune_arr].
      - split; [intros _ n x p v Hn; destruct n; discriminate|reflexivity].
      - assert (In x l) as Ix by (apply Hi; left; reflexivity). rewrite Forall_forall in IH, F.
        specialize (IH x Ix (F x Ix) (fun q => S (SNum i :: q))).
        specialize (IH2 (i + 1) ltac:(intros y Hy; apply Hi; right; exact Hy)).
        split.
        + intros E. destruct (prune (fun q => S (SNum i :: q)) x) as [y|]; [discriminate|].
          intros [|n] y p v Hn Hp; simpl in Hn.
          * injection Hn as ->. rewrite Z.add_0_r. apply (proj1 IH eq_refl p v Hp).
          * replace (i + Z.of_nat (Datatypes.S n)) with (i + 1 + Z.of_nat n) by lia. exact (proj1 IH2 E n y p v Hn Hp).
        + intros H. rewrite (proj2 IH).
          * apply IH2. intros n y p v Hn Hp. replace (i + 1 + Z.of_nat n) with (i + Z.of_nat (Datatypes.S n)) by lia. eapply (H (Datatypes.S n)); eassumption.
          * intros p v Hp. rewrite <- (Z.add_0_r i). apply (H O x p v eq_refl Hp). }
    specialize (G l 0 (incl_refl l)). split.
    + intros E p v Hp. apply isleaf_arr in Hp as (i & x & q & -> & Hi & Hq).
      destruct (prune_arr S 0 l) as [|y t]; [|discriminate]. exact (proj1 G eq_refl i x q v Hi Hq).
    + intros H. rewrite (proj2 G); [reflexivity|]. intros n x p v Hn Hp. eapply (H (SNum (Z.of_nat n) :: p)). econstructor; eassumption.
  - inversion Q as [j Sc| |nid' kvs' N K F]; subst; [contradiction|]. rewrite prune_JDict.
    assert (forall l2, incl l2 kvs -> (prune_dict S l2 = [] <->
       forall k x p v, In (k, x) l2 -> isleaf x p v -> S (string2seg k :: p) = false)) as G.
    { induction l2 as [|[k x] l2 IH2]; intros Hi; cbn [prune_dict].
      - split; [intros _ k x p v []|reflexivity].
      - assert (In (k, x) kvs) as Ix by (apply Hi; left; reflexivity). rewrite Forall_forall in IH, F.
        specialize (IH _ Ix (proj2 (proj2 (F _ Ix))) (fun q => S (string2seg k :: q))). simpl in IH.
        specialize (IH2 ltac:(intros y Hy; apply Hi; right; exact Hy)).
        split.
        + intros E. destruct (prune (fun q => S (string2seg k :: q)) x) as [y|]; [discriminate|].
          intros k' y p v [Hn|Hn] Hp.
          * injection Hn as <- <-. apply (proj1 IH eq_refl p v Hp).
          * exact (proj1 IH2 E k' y p v Hn Hp).
        + intros H. rewrite (proj2 IH).
          * apply IH2. intros k' y p v Hn Hp. eapply H; [right; exact Hn|exact Hp].
          * intros p v Hp. eapply H; [left; reflexivity|exact Hp]. }
    specialize (G kvs (incl_refl kvs)). split.
    + intros E p v Hp. apply isleaf_dict in Hp as (k & x & q & -> & Hi & Hq).
      destruct (prune_dict S kvs) as [|y t]; [|discriminate]. exact (proj1 G eq_refl k x q v Hi Hq).
    + intros H. rewrite (proj2 G); [reflexivity|]. intros k x p v Hn Hp. eapply (H (string2seg k :: p)). econstructor; eassumption.
  - inversion Q; subst; contradiction.
Qed.

(** All leaves: the whole value. *)
Lemma prune_all j : query_value j -> forall S, (forall p v, isleaf j p v -> S p = true) -> prune S j = Some (as_text j).
Proof.
  induction j as [| | | | |l IH|nid kvs IH|] using json_ind'; intros Q S H;
    try (rewrite prune_scalar by exact I; erewrite H by (apply il_scalar; exact I); rewrite as_text_scalar by exact I; reflexivity).
  - inversion Q as [j Sc|l' N F D L|]; subst; [contradiction|]. rewrite prune_JArray.
    assert (forall l2 i, incl l2 l -> (forall n x p v, nth_error l2 n = Some x -> isleaf x p v -> S (SNum (i + Z.of_nat n) :: p) = true) ->
      prune_arr S i l2 = map as_text l2) as G.
    { induction l2 as [|x l2 IH2]; intros i Hi Hl; [reflexivity|]. cbn [prune_arr map].
      assert (In x l) as Ix by (apply Hi; left; reflexivity). rewrite Forall_forall in IH, F.
      rewrite (IH x Ix (F x Ix)), IH2; [reflexivity| | |].
      - intros y Hy; apply Hi; right; exact Hy.
      - intros n y p v Hn Hp. replace (i + 1 + Z.of_nat n) with (i + Z.of_nat (Datatypes.S n)) by lia. eapply (Hl (Datatypes.S n)); eassumption.
      - intros p v Hp. rewrite <- (Z.add_0_r i). apply (Hl O x p v eq_refl Hp). }
    rewrite G; [|apply incl_refl|intros n x p v Hn Hp; eapply (H (SNum (Z.of_nat n) :: p)); econstructor; eassumption].
    destruct l; [congruence|reflexivity].
  - inversion Q as [j Sc| |nid' kvs' N K F]; subst; [contradiction|]. rewrite prune_JDict.
    assert (forall l2, incl l2 kvs -> prune_dict S l2 = map (fun kv => (fst kv, as_text (snd kv))) l2) as G.
    { induction l2 as [|[k x] l2 IH2]; intros Hi; [reflexivity|]. cbn [prune_dict map fst snd].
      assert (In (k, x) kvs) as Ix by (apply Hi; left; reflexivity). rewrite Forall_forall in IH, F.
      pose proof (IH _ Ix (proj2 (proj2 (F _ Ix)))) as E0. cbn [snd] in E0. rewrite E0, IH2; [reflexivity| |].
      - intros y Hy; apply Hi; right; exact Hy.
      - intros p v Hp. eapply H. econstructor; eassumption. }
    rewrite G by apply incl_refl. destruct kvs; [congruence|reflexivity].
  - inversion Q; subst; contradiction.
Qed.

(** ** The pruned dict as a map *)

Lemma prune_dict_keys S kvs k y : In (k, y) (prune_dict S kvs) -> In k (map fst kvs).
Proof.
  induction kvs as [|[k' x] kvs IH]; cbn [prune_dict map fst]; [simpl; tauto|].
  destruct (prune _ x).
  - intros [H|H]; [left; congruence|right; auto].
  - intros H. right; auto.
Qed.

Lemma prune_dict_increasing S kvs : keys_increasing kvs -> keys_increasing (prune_dict S kvs).
Proof.
  unfold keys_increasing. induction kvs as [|[k x] kvs IH]; cbn [prune_dict map fst]; intros H; [constructor|].
  inversion H as [|? ? H1 H2]; subst. destruct (prune _ x) as [y|]; [|auto].
  cbn [map fst]. constructor; [auto|]. rewrite Forall_forall in *. intros k' Hk'.
  apply in_map_iff in Hk' as ([k2 y2] & <- & I). apply H2. eapply prune_dict_keys, I.
Qed.

Lemma prune_dict_lookup S kvs k : keys_increasing kvs ->
  lookup k (prune_dict S kvs) = match lookup k kvs with Some x => prune (fun q => S (string2seg k :: q)) x | None => None end.
Proof.
  unfold keys_increasing. induction kvs as [|[k' x] kvs IH]; cbn [prune_dict map fst lookup]; intros H; [reflexivity|].
  inversion H as [|? ? H1 H2]; subst. specialize (IH H1).
  destruct (bseq_spec k k') as [->|N].
  - destruct (prune _ x) as [y|] eqn:E; [cbn [lookup]; rewrite bseq_refl; reflexivity|].
    destruct (lookup k' (prune_dict S kvs)) as [y|] eqn:E2; [|reflexivity].
    apply lookup_some_in in E2. apply prune_dict_keys in E2. rewrite Forall_forall in H2.
    exfalso. exact (blt_irrefl _ (H2 _ E2)).
  - destruct (prune _ x) as [y|] eqn:E; [|exact IH]. cbn [lookup].
    apply bseq_neq in N. rewrite N. exact IH.
Qed.

(** ** One insertion *)

Lemma plain_inj k k' : plain_key k -> plain_key k' -> string2seg k = string2seg k' -> k = k'.
Proof.
  intros P P' E. rewrite <- (proj2 (plain_seg_ok _ P)), <- (proj2 (plain_seg_ok _ P')), E. reflexivity.
Qed.

Lemma replace_nth_app a x b y : replace_nth (length a) (a ++ x :: b) y = Some (a ++ y :: b).
Proof. induction a as [|z a IH]; cbn [length app replace_nth]; [reflexivity|]. rewrite IH. reflexivity. Qed.

Lemma ss_app (R : nat -> nat -> Prop) a x b : StronglySorted R (a ++ x :: b) -> Forall (fun y => R y x) a /\ Forall (R x) b.
Proof.
  induction a as [|z a IH]; simpl; intros H; inversion H as [|? ? H1 H2]; subst; [auto|].
  destruct (IH H1) as [G1 G2]. split; [|exact G2]. constructor; [|exact G1].
  rewrite Forall_forall in H2. apply H2, in_app_iff. right. left. reflexivity.
Qed.

Lemma less_head s s' a b : s <> s' -> segs_less (s :: a) (s' :: b) = negb (segs_less (s' :: b) (s :: a)).
Proof. intros N. apply segs_less_neq. congruence. Qed.

Lemma add_seg_dict nid kvs s segs' val : add_seg (Some (JDict nid kvs)) (s :: segs') val =
  match sm_get kvs (seg_string s) with
  | None => match fst (add_seg None segs' val) with
            | RErr e => (RErr e, JDict nid kvs)
            | ROk next => let b := JDict nid (sm_add kvs (seg_string s) next) in (ROk b, b)
            end
  | Some next => let b := JDict nid (sm_add kvs (seg_string s) (snd (add_seg (Some next) segs' val))) in (ROk b, b)
  end.
Proof. reflexivity. Qed.

Definition inserts (old : option json) (p : list seg) (v : bytes) (new : json) : Prop :=
  match old with
  | None => fst (add_seg None p [v]) = ROk new
  | Some y => snd (add_seg (Some y) p [v]) = new
  end.

(** Inserting into a dict whose member values obey the claim. *)
Lemma insert_dict kvs nid k x q v S S' : keys_increasing kvs ->
  Forall (fun kv => plain_key (fst kv) /\ query_value (snd kv)) kvs ->
  In (k, x) kvs ->
  (forall p w, isleaf (JDict nid kvs) p w -> S p = segs_less p (string2seg k :: q)) ->
  (forall p w, isleaf (JDict nid kvs) p w -> S' p = negb (segs_less (string2seg k :: q) p)) ->
  (exists y', prune (fun r => S' (string2seg k :: r)) x = Some y' /\ inserts (prune (fun r => S (string2seg k :: r)) x) q v y') ->
  forall n0, add_seg (Some (JDict n0 (prune_dict S kvs))) (string2seg k :: q) [v]
     = (ROk (JDict n0 (prune_dict S' kvs)), JDict n0 (prune_dict S' kvs)).
Proof.
  intros K F I HS HS' (y' & E' & Ins) n0.
  rewrite Forall_forall in F. pose proof (F _ I) as [Pk Qx]. simpl in Pk, Qx.
  assert (lookup k kvs = Some x) as Lk by (apply lookup_in; assumption).
  assert (prune_dict S' kvs = sm_add (prune_dict S kvs) k y') as ES.
  { apply increasing_ext.
    - apply prune_dict_increasing, K.
    - apply increasing_add, prune_dict_increasing, K.
    - intros k'. rewrite lookup_add, !prune_dict_lookup by exact K.
      destruct (bseq_spec k' k) as [->|N]; [rewrite Lk; exact E'|].
      destruct (lookup k' kvs) as [x'|] eqn:L'; [|reflexivity].
      apply lookup_some_in in L'. pose proof (F _ L') as [Pk' Qx']. simpl in Pk', Qx'.
      apply prune_ext; [exact Qx'|]. intros p w Hp.
      assert (isleaf (JDict nid kvs) (string2seg k' :: p) w) as Lf by (econstructor; eassumption).
      rewrite (HS' _ _ Lf), (HS _ _ Lf). symmetry. apply less_head. intros X. apply N. apply plain_inj; assumption. }
  rewrite add_seg_dict, (proj2 (plain_seg_ok _ Pk)).
  rewrite <- lookup_sm_get. rewrite prune_dict_lookup by exact K. rewrite Lk. unfold inserts in Ins.
  destruct (prune (fun r => S (string2seg k :: r)) x) as [y|].
  - rewrite Ins, <- ES. reflexivity.
  - rewrite Ins, <- ES. reflexivity.
Qed.

Lemma insert_ok j : query_value j -> forall S S' p v, isleaf j p v ->
  (forall q w, isleaf j q w -> S q = segs_less q p) ->
  (forall q w, isleaf j q w -> S' q = negb (segs_less p q)) ->
  exists y', prune S' j = Some y' /\ inserts (prune S j) p v y'.
Proof.
  induction j as [| | | | |l IH|nid kvs IH|] using json_ind'; intros Q S S' p v Hp HS HS';
    try (apply isleaf_scalar in Hp as [-> ->]; [|exact I]; rewrite !prune_scalar by exact I;
         erewrite HS by (apply il_scalar; exact I); erewrite HS' by (apply il_scalar; exact I);
         eexists; split; reflexivity).
  - (* array *)
    inversion Q as [j Sc|l' N F D L|]; subst; [contradiction|].
    apply isleaf_arr in Hp as (i & x & q & -> & Hi & Hq).
    apply nth_error_split in Hi as (l1 & l2 & -> & Li).
    rewrite Forall_forall in IH, F.
    assert (forall a, In a (l1 ++ x :: l2) -> query_value a) as Fq by (intros; apply F; assumption).
    rewrite map_app in D. cbn [map] in D. apply ss_app in D as [D1 D2]. rewrite Forall_map, Forall_forall in D1, D2.
    assert (forall n a r w, nth_error l1 n = Some a -> isleaf a r w -> isleaf (JArray (l1 ++ x :: l2)) (SNum (Z.of_nat n) :: r) w) as L1.
    { intros n a r w Hn Hr. econstructor; [|exact Hr]. rewrite nth_error_app1; [exact Hn|]. apply nth_error_Some. congruence. }
    assert (forall r w, isleaf x r w -> isleaf (JArray (l1 ++ x :: l2)) (SNum (Z.of_nat i) :: r) w) as Lx.
    { intros r w Hr. econstructor; [|exact Hr]. rewrite nth_error_app2 by lia. rewrite Li, Nat.sub_diag. reflexivity. }
    assert (forall n a r w, nth_error l2 n = Some a -> isleaf a r w -> isleaf (JArray (l1 ++ x :: l2)) (SNum (Z.of_nat (i + 1 + n)) :: r) w) as L2.
    { intros n a r w Hn Hr. econstructor; [|exact Hr]. rewrite nth_error_app2 by lia. replace (i + 1 + n - length l1)%nat with (Datatypes.S n) by lia. exact Hn. }
    destruct (IH x ltac:(apply in_app_iff; right; left; reflexivity) (F x ltac:(apply in_app_iff; right; left; reflexivity))
       (fun r => S (SNum (Z.of_nat i) :: r)) (fun r => S' (SNum (Z.of_nat i) :: r)) q v Hq) as (y' & Ey' & Iy).
    { intros r w Hr. rewrite (HS _ _ (Lx r w Hr)). apply segs_less_cons. }
    { intros r w Hr. rewrite (HS' _ _ (Lx r w Hr)). f_equal. apply segs_less_cons. }
    (* other elements: S and S' agree *)
    assert (forall l0 n0, (forall n a r w, nth_error l0 n = Some a -> isleaf a r w ->
                  S (SNum (n0 + Z.of_nat n) :: r) = S' (SNum (n0 + Z.of_nat n) :: r)) ->
               (forall a, In a l0 -> query_value a) -> prune_arr S n0 l0 = prune_arr S' n0 l0) as EXT.
    { induction l0 as [|a l0 IH0]; intros n0 HH HQ; [reflexivity|]. cbn [prune_arr].
      rewrite (IH0 (n0 + 1)); [|intros n b r w Hn Hr; replace (n0 + 1 + Z.of_nat n) with (n0 + Z.of_nat (Datatypes.S n)) by lia; eapply (HH (Datatypes.S n)); eassumption|intros; apply HQ; right; assumption].
      rewrite (prune_ext a (HQ a (or_introl eq_refl)) (fun r => S (SNum n0 :: r)) (fun r => S' (SNum n0 :: r))); [reflexivity|].
      intros r w Hr. rewrite <- (Z.add_0_r n0). eapply (HH O); [reflexivity|exact Hr]. }
    assert (prune_arr S 0 l1 = prune_arr S' 0 l1) as EX1.
    { apply EXT; [|intros; apply Fq, in_app_iff; auto]. intros n a r w Hn Hr. simpl.
      rewrite (HS _ _ (L1 _ _ _ _ Hn Hr)), (HS' _ _ (L1 _ _ _ _ Hn Hr)). apply less_head.
      assert (n < length l1)%nat by (apply nth_error_Some; congruence). intros X. injection X as X. lia. }
    assert (prune_arr S (Z.of_nat i + 1) l2 = prune_arr S' (Z.of_nat i + 1) l2) as EX2.
    { apply EXT; [|intros; apply Fq, in_app_iff; right; right; auto]. intros n a r w Hn Hr.
      replace (Z.of_nat i + 1 + Z.of_nat n) with (Z.of_nat (i + 1 + n)) by lia.
      rewrite (HS _ _ (L2 _ _ _ _ Hn Hr)), (HS' _ _ (L2 _ _ _ _ Hn Hr)). apply less_head.
      intros X. injection X as X. lia. }
    (* elements on the left are there *)
    assert (length (prune_arr S 0 l1) = i) as LEN.
    { rewrite <- Li.
      assert (forall l0 n0, (forall n a, nth_error l0 n = Some a -> prune (fun r => S (SNum (n0 + Z.of_nat n) :: r)) a <> None) ->
        length (prune_arr S n0 l0) = length l0) as G.
      { induction l0 as [|a l0 IH0]; intros n0 HH; [reflexivity|]. cbn [prune_arr length].
        specialize (IH0 (n0 + 1) ltac:(intros n b Hn; replace (n0 + 1 + Z.of_nat n) with (n0 + Z.of_nat (Datatypes.S n)) by lia; apply (HH (Datatypes.S n)); exact Hn)).
        specialize (HH O a eq_refl). simpl in HH. rewrite Z.add_0_r in HH.
        destruct (prune _ a) as [b|]; [|congruence]. cbn [length]. congruence. }
      apply G. intros n a Hn E0. simpl in E0.
      pose proof (nth_error_In _ _ Hn) as Ia. assert (query_value a) as Qa by (apply Fq, in_app_iff; auto).
      destruct (leaf_exists a Qa) as (r & w & Hr & Lr).
      pose proof (proj1 (prune_none a Qa _) E0 r w Hr) as E1. simpl in E1.
      rewrite (HS _ _ (L1 _ _ _ _ Hn Hr)) in E1.
      specialize (D1 a Ia). pose proof (leaf_min _ _ _ Hq) as Lq.
      assert (n < length l1)%nat by (apply nth_error_Some; congruence).
      enough (segs_less (SNum (Z.of_nat n) :: r) (SNum (Z.of_nat i) :: q) = true) by congruence.
      apply segs_less_iff. simpl length.
      destruct (Nat.eq_dec (length r) (length q)) as [El|Nl]; [right|left; lia].
      split; [lia|]. apply less_loop_cons. left. simpl.
      destruct (Z.ltb_spec (Z.of_nat n) (Z.of_nat i)); [reflexivity|lia]. }
    (* nothing on the right before this element starts *)
    assert (prune (fun r => S (SNum (Z.of_nat i) :: r)) x = None -> prune_arr S (Z.of_nat i + 1) l2 = []) as RIGHT.
    { intros E0.
      assert (forall l0 n0, (forall n a, nth_error l0 n = Some a -> prune (fun r => S (SNum (n0 + Z.of_nat n) :: r)) a = None) ->
        prune_arr S n0 l0 = []) as G.
      { induction l0 as [|a l0 IH0]; intros n0 HH; [reflexivity|]. cbn [prune_arr].
        specialize (IH0 (n0 + 1) ltac:(intros n b Hn; replace (n0 + 1 + Z.of_nat n) with (n0 + Z.of_nat (Datatypes.S n)) by lia; apply (HH (Datatypes.S n)); exact Hn)).
        specialize (HH O a eq_refl). simpl in HH. rewrite Z.add_0_r in HH. rewrite HH. exact IH0. }
      apply G. intros n a Hn. pose proof (nth_error_In _ _ Hn) as Ia.
      assert (query_value a) as Qa by (apply Fq, in_app_iff; right; right; auto).
      apply (prune_none a Qa). intros r w Hr.
      replace (Z.of_nat i + 1 + Z.of_nat n) with (Z.of_nat (i + 1 + n)) by lia.
      rewrite (HS _ _ (L2 _ _ _ _ Hn Hr)).
      assert (query_value x) as Qx by (apply Fq, in_app_iff; right; left; reflexivity).
      destruct (leaf_exists x Qx) as (r0 & w0 & Hr0 & Lr0).
      pose proof (proj1 (prune_none x Qx _) E0 r0 w0 Hr0) as E1. simpl in E1.
      rewrite (HS _ _ (Lx _ _ Hr0)) in E1. rewrite segs_less_cons in E1.
      specialize (D2 a Ia). pose proof (leaf_min _ _ _ Hr) as Lr.
      assert (length q <= length r0)%nat as Lq.
      { destruct (Nat.le_gt_cases (length q) (length r0)) as [X|X]; [exact X|].
        assert (segs_less r0 q = true) by (apply segs_less_iff; left; exact X). congruence. }
      destruct (segs_less (SNum (Z.of_nat (i + 1 + n)) :: r) (SNum (Z.of_nat i) :: q)) eqn:E2; [|reflexivity].
      apply segs_less_iff in E2 as [X|[X1 X2]]; [simpl in X; lia|].
      apply less_loop_cons in X2 as [X2|[X2 _]]; [|injection X2 as X2; lia].
      simpl in X2. destruct (Z.ltb_spec (Z.of_nat (i + 1 + n)) (Z.of_nat i)); [lia|].
      destruct (Z.of_nat i <? Z.of_nat (i + 1 + n)); discriminate. }
    rewrite !prune_JArray, !prune_arr_app. cbn [prune_arr]. simpl Z.add.
    rewrite Li, Ey', <- EX1, <- EX2.
    remember (prune_arr S 0 l1) as A eqn:EA. remember (prune_arr S (Z.of_nat i + 1) l2) as C eqn:EC.
    exists (JArray (A ++ y' :: C)). split; [destruct A; reflexivity|].
    unfold inserts in Iy. destruct (prune (fun r => S (SNum (Z.of_nat i) :: r)) x) as [y|].
    + assert (match A ++ y :: C with [] => None | l' => Some (JArray l') end = Some (JArray (A ++ y :: C))) as ->
        by (destruct A; reflexivity).
      unfold inserts. cbn [add_seg]. cbv beta iota zeta delta [seg_number]. rewrite app_length. cbn [length]. rewrite LEN.
      destruct (Z.ltb_spec (Z.of_nat i) (Z.of_nat (i + Datatypes.S (length C)))) as [_|X]; [|lia].
      unfold array_get_at. cbv zeta. rewrite app_length. cbn [length]. rewrite LEN.
      destruct (Z.ltb_spec (Z.of_nat i) 0) as [X|_]; [lia|].
      rewrite (proj2 (Z.leb_le 0 (Z.of_nat i))) by lia.
      rewrite (proj2 (Z.ltb_lt (Z.of_nat i) (Z.of_nat (i + Datatypes.S (length C))))) by lia. cbn [andb].
      rewrite Nat2Z.id. rewrite <- LEN. rewrite nth_error_app2 by lia. rewrite Nat.sub_diag. cbn [nth_error].
      rewrite replace_nth_app. cbn [snd]. rewrite Iy. reflexivity.
    + rewrite (RIGHT eq_refl). rewrite !app_nil_r.
      unfold inserts. destruct A as [|a A].
      * simpl in LEN. replace (Z.of_nat i) with 0 by lia. cbn [add_seg]. cbv beta iota zeta delta [seg_number]. cbn [length].
        simpl Z.of_nat. cbn [Z.ltb Z.compare Z.eqb]. rewrite Iy. reflexivity.
      * cbn [add_seg]. cbv beta iota zeta delta [seg_number]. rewrite LEN, Z.ltb_irrefl, Z.eqb_refl, Iy. reflexivity.
  - (* dict *)
    inversion Q as [j Sc| |nid' kvs' N K F]; subst; [contradiction|].
    apply isleaf_dict in Hp as (k & x & q & -> & Hi & Hq).
    assert (Forall (fun kv => plain_key (fst kv) /\ query_value (snd kv)) kvs) as F' by (eapply Forall_impl; [|exact F]; simpl; tauto).
    rewrite Forall_forall in IH, F. pose proof (F _ Hi) as (Pk & K0 & Qx). simpl in Pk, K0, Qx.
    assert (forall r w, isleaf x r w -> isleaf (JDict nid kvs) (string2seg k :: r) w) as Lx by (intros; econstructor; eassumption).
    destruct (IH _ Hi Qx (fun r => S (string2seg k :: r)) (fun r => S' (string2seg k :: r)) q v Hq) as (y' & Ey' & Iy).
    { intros r w Hr. rewrite (HS _ _ (Lx r w Hr)). apply segs_less_cons. }
    { intros r w Hr. rewrite (HS' _ _ (Lx r w Hr)). f_equal. apply segs_less_cons. }
    pose proof (insert_dict kvs nid k x q v S S' K F' Hi HS HS' (ex_intro _ y' (conj Ey' Iy)) 0) as INS.
    rewrite !prune_JDict.
    assert (prune_dict S' kvs <> []) as NE.
    { assert (lookup k (prune_dict S' kvs) = Some y') as X.
      { rewrite prune_dict_lookup by exact K. rewrite (proj2 (lookup_in kvs k x K) Hi). exact Ey'. }
      intros E. rewrite E in X. discriminate. }
    exists (JDict 0 (prune_dict S' kvs)). split; [destruct (prune_dict S' kvs); [congruence|reflexivity]|].
    destruct (prune_dict S kvs) as [|kv0 rest] eqn:EP.
    + unfold inserts.
      assert (add_seg None (string2seg k :: q) [v] = add_seg (Some (JDict 0 [])) (string2seg k :: q) [v]) as ->.
      { cbn [add_seg]. destruct (string2seg k) as [[| |]|] eqn:Es; try reflexivity.
        exfalso. apply K0. rewrite <- (proj2 (plain_seg_ok _ Pk)), Es. reflexivity. }
      rewrite INS. reflexivity.
    + unfold inserts. rewrite INS. reflexivity.
  - inversion Q; subst; contradiction.
Qed.
