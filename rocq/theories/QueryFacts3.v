(** The query string round trip: all leaves in order, and their text. *)
From Coq Require Import Sorting.Sorted Sorting.Permutation.
From Verif Require Import Base Strconv StrconvFacts SortedMap SortedMapFacts Json SpecJson Printer Access AccessFacts RfcFacts Query SpecQuery QueryFacts QueryFacts2.

(** ** The list of leaves *)

Fixpoint leaves (j : json) : list (list seg * bytes) :=
  match j with
  | JArray l =>
      (fix go (i : Z) (l : list json) : list (list seg * bytes) :=
         match l with
         | [] => []
         | x :: l' => map (fun pv => (SNum i :: fst pv, snd pv)) (leaves x) ++ go (i + 1) l'
         end) 0 l
  | JDict _ kvs =>
      (fix go (kvs : list (bytes * json)) : list (list seg * bytes) :=
         match kvs with
         | [] => []
         | (k, x) :: kvs' => map (fun pv => (string2seg k :: fst pv, snd pv)) (leaves x) ++ go kvs'
         end) kvs
  | JPtr _ => []
  | _ => [([], leaf_text j)]
  end.

Fixpoint leaves_arr (i : Z) (l : list json) : list (list seg * bytes) :=
  match l with
  | [] => []
  | x :: l' => map (fun pv => (SNum i :: fst pv, snd pv)) (leaves x) ++ leaves_arr (i + 1) l'
  end.
Fixpoint leaves_dict (kvs : list (bytes * json)) : list (list seg * bytes) :=
  match kvs with
  | [] => []
  | (k, x) :: kvs' => map (fun pv => (string2seg k :: fst pv, snd pv)) (leaves x) ++ leaves_dict kvs'
  end.

Lemma leaves_JArray l : leaves (JArray l) = leaves_arr 0 l. Proof. reflexivity. Qed.
Lemma leaves_JDict nid kvs : leaves (JDict nid kvs) = leaves_dict kvs. Proof. reflexivity. Qed.
Lemma leaves_scalar j : is_scalar j -> leaves j = [([], leaf_text j)].
Proof. destruct j; simpl; intros H; try contradiction; reflexivity. Qed.

Lemma leaves_arr_in l : forall i p v, In (p, v) (leaves_arr i l) <->
  exists n x q, p = SNum (i + Z.of_nat n) :: q /\ nth_error l n = Some x /\ In (q, v) (leaves x).
Proof.
  induction l as [|x l IH]; intros i p v; cbn [leaves_arr].
  - split; [intros []|]. intros (n & x & q & _ & H & _). destruct n; discriminate.
  - rewrite in_app_iff, in_map_iff, IH. split.
    + intros [([q w] & E & I)|(n & y & q & -> & Hn & Hq)].
      * injection E as <- <-. exists O, x, q. rewrite Z.add_0_r. auto.
      * exists (S n), y, q. split; [do 2 f_equal; lia|auto].
    + intros (n & y & q & -> & Hn & Hq). destruct n as [|n]; simpl in Hn.
      * injection Hn as ->. left. exists (q, v). rewrite Z.add_0_r. auto.
      * right. exists n, y, q. split; [do 2 f_equal; lia|auto].
Qed.

Lemma leaves_dict_in kvs p v : In (p, v) (leaves_dict kvs) <->
  exists k x q, p = string2seg k :: q /\ In (k, x) kvs /\ In (q, v) (leaves x).
Proof.
  induction kvs as [|[k x] kvs IH]; cbn [leaves_dict].
  - split; [intros []|]. intros (k & x & q & _ & [] & _).
  - rewrite in_app_iff, in_map_iff, IH. split.
    + intros [([q w] & E & I)|(k' & y & q & -> & Hn & Hq)].
      * injection E as <- <-. exists k, x, q. simpl. auto.
      * exists k', y, q. simpl. auto.
    + intros (k' & y & q & -> & [Hn|Hn] & Hq).
      * injection Hn as -> ->. left. exists (q, v). auto.
      * right. exists k', y, q. auto.
Qed.

Lemma leaves_spec j : forall p v, In (p, v) (leaves j) <-> isleaf j p v.
Proof.
  induction j as [| | | | |l IH|nid kvs IH|] using json_ind'; intros p v;
    try (rewrite leaves_scalar by exact I; split;
      [ intros [E|[]]; injection E as <- <-; apply il_scalar; exact I
      | intros H; apply isleaf_scalar in H as [-> ->]; [left; reflexivity|exact I]]).
  - rewrite leaves_JArray, leaves_arr_in. rewrite Forall_forall in IH. split.
    + intros (n & x & q & -> & Hn & Hq). simpl. econstructor; [exact Hn|]. apply IH; [eapply nth_error_In, Hn|exact Hq].
    + intros H. apply isleaf_arr in H as (n & x & q & -> & Hn & Hq). exists n, x, q. repeat split; auto.
      apply IH; [eapply nth_error_In, Hn|exact Hq].
  - rewrite leaves_JDict, leaves_dict_in. rewrite Forall_forall in IH. split.
    + intros (k & x & q & -> & Hn & Hq). econstructor; [exact Hn|]. apply (IH _ Hn). exact Hq.
    + intros H. apply isleaf_dict in H as (k & x & q & -> & Hn & Hq). exists k, x, q. repeat split; auto.
      apply (IH _ Hn). exact Hq.
  - simpl. split; [tauto|]. inversion 1; subst; contradiction.
Qed.

Lemma NoDup_map_cons {A} (s : seg) (l : list (list seg * A)) : NoDup (map fst l) ->
  NoDup (map fst (map (fun pv => (s :: fst pv, snd pv)) l)).
Proof.
  rewrite map_map. simpl. intros H. rewrite <- (map_map fst (cons s)). apply FinFun.Injective_map_NoDup; [|exact H].
  intros a b E. congruence.
Qed.

Lemma nodup_app {A} (a b : list A) : NoDup a -> NoDup b -> (forall x, In x a -> In x b -> False) -> NoDup (a ++ b).
Proof.
  induction 1 as [|x a N H IH]; intros Hb D; simpl; [exact Hb|]. constructor.
  - rewrite in_app_iff. intros [I|I]; [contradiction|]. eapply D; [left; reflexivity|exact I].
  - apply IH; [exact Hb|]. intros y Hy. apply D. right; exact Hy.
Qed.

Lemma leaves_nodup j : query_value j -> NoDup (map fst (leaves j)).
Proof.
  induction j as [| | | | |l IH|nid kvs IH|] using json_ind'; intros Q;
    try (rewrite leaves_scalar by exact I; simpl; repeat constructor; simpl; tauto).
  - inversion Q as [j Sc|l' N F D L|]; subst; [contradiction|]. rewrite leaves_JArray. clear N D L Q.
    generalize 0. induction l as [|x l IHl]; intros i; cbn [leaves_arr]; [constructor|].
    inversion IH; inversion F; subst. rewrite map_app. apply nodup_app; [apply NoDup_map_cons; auto|apply IHl; auto|].
    intros p H H'. apply in_map_iff in H as ([q w] & <- & Hq). apply in_map_iff in Hq as ([q' w'] & E & Hq). injection E as <- <-.
    apply in_map_iff in H' as ([q2 w2] & E2 & H'). apply leaves_arr_in in H' as (n & y & q3 & -> & _ & _).
    simpl in E2. injection E2 as E2 _. lia.
  - inversion Q as [j Sc| |nid' kvs' N K F]; subst; [contradiction|]. rewrite leaves_JDict. clear N Q. unfold keys_increasing in K.
    induction kvs as [|[k x] kvs IHl]; cbn [leaves_dict]; [constructor|].
    inversion IH; inversion F as [|? ? (Pk & _ & Qx)]; inversion K as [|? ? K1 K2]; subst. simpl in Pk, Qx. rewrite map_app.
    apply nodup_app; [apply NoDup_map_cons; auto|apply IHl; auto|].
    intros p Hp Hp'. apply in_map_iff in Hp as ([q w] & <- & Hq). apply in_map_iff in Hq as ([q' w'] & E & Hq). injection E as <- <-.
    apply in_map_iff in Hp' as ([q2 w2] & E2 & H'). apply leaves_dict_in in H' as (k' & y & q3 & -> & I' & _).
    simpl in E2. injection E2 as E2 _.
    match goal with H : Forall _ kvs |- _ => rewrite Forall_forall in H; pose proof (H _ I') as (Pk' & _) end. simpl in Pk'.
    apply plain_inj in E2; [|assumption|assumption]. subst k'. rewrite Forall_forall in K2.
    exact (blt_irrefl _ (K2 k (in_map fst _ _ I'))).
  - constructor.
Qed.

Lemma leaves_dict_nodup kvs : query_dict kvs -> NoDup (map fst (leaves_dict kvs)).
Proof.
  intros [K F]. unfold keys_increasing in K. induction kvs as [|[k x] kvs IHl]; cbn [leaves_dict]; [constructor|].
  inversion F as [|? ? (Pk & _ & Qx) F']; inversion K as [|? ? K1 K2]; subst. simpl in Pk, Qx. rewrite map_app.
  apply nodup_app; [apply NoDup_map_cons, leaves_nodup, Qx|apply IHl; auto|].
  intros p Hp Hp'. apply in_map_iff in Hp as ([q w] & <- & Hq). apply in_map_iff in Hq as ([q' w'] & E & Hq). injection E as <- <-.
  apply in_map_iff in Hp' as ([q2 w2] & E2 & H'). apply leaves_dict_in in H' as (k' & y & q3 & -> & I' & _).
  simpl in E2. injection E2 as E2 _.
  rewrite Forall_forall in F'. pose proof (F' _ I') as (Pk' & _). simpl in Pk'.
  apply plain_inj in E2; [|assumption|assumption]. subst k'. rewrite Forall_forall in K2.
  exact (blt_irrefl _ (K2 k (in_map fst _ _ I'))).
Qed.

(** ** The text of the leaves *)

Definition path_key (key : bytes) (p : list seg) : bytes := fold_left (fun k s => sub_key k (seg_string s)) p key.

Lemma sub_key_nonempty key k : key <> [] -> sub_key key k = key ++ "."%byte :: k.
Proof. destruct key; [congruence|reflexivity]. Qed.

Lemma path_key_cons key s p : path_key key (s :: p) = path_key (sub_key key (seg_string s)) p.
Proof. reflexivity. Qed.

Lemma app_dot_nonempty (a : bytes) b : a ++ "."%byte :: b <> [].
Proof. intros H. apply app_eq_nil in H as [_ H]. discriminate. Qed.

Lemma path_key_text p : forall key, key <> [] -> path_key key p = join_with "."%byte (key :: map seg_string p).
Proof.
  induction p as [|s p IH]; intros key N; [reflexivity|].
  rewrite path_key_cons, sub_key_nonempty, IH by (assumption || apply app_dot_nonempty). cbn [map].
  destruct p as [|s' p]; [reflexivity|]. cbn [map join_with]. rewrite <- app_assoc. reflexivity.
Qed.

Lemma path_key_segments s p : seg_string s <> [] -> path_key [] (s :: p) = segments2string (s :: p).
Proof. intros N. rewrite path_key_cons. change (sub_key [] (seg_string s)) with (seg_string s). rewrite path_key_text by exact N. reflexivity. Qed.

Fixpoint qs_arr (key : bytes) (i : Z) (l : list json) : list bytes :=
  match l with
  | [] => []
  | x :: l' => query_string x (sub_key key (format_int i)) :: qs_arr key (i + 1) l'
  end.
Fixpoint qs_dict (key : bytes) (kvs : list (bytes * json)) : list bytes :=
  match kvs with
  | [] => []
  | (k, x) :: kvs' => query_string x (sub_key key k) :: qs_dict key kvs'
  end.
Lemma query_string_arr l key : query_string (JArray l) key = join_with "&"%byte (qs_arr key 0 l).
Proof.
  cbn [query_string]. f_equal. generalize 0. induction l as [|x l IH]; intros i; [reflexivity|].
  cbn [qs_arr]. f_equal. apply IH.
Qed.
Lemma query_string_dict nid kvs key : query_string (JDict nid kvs) key = join_with "&"%byte (qs_dict key kvs).
Proof.
  cbn [query_string]. f_equal. induction kvs as [|[k x] kvs IH]; [reflexivity|].
  cbn [qs_dict]. f_equal. apply IH.
Qed.

Lemma query_string_scalar j key : is_scalar j -> query_string j key = simple_query_string key (leaf_text j).
Proof. destruct j; simpl; intros H; try contradiction; reflexivity. Qed.

Definition settings key (ls : list (list seg * bytes)) : list (bytes * bytes) := map (fun pv => (path_key key (fst pv), snd pv)) ls.

Lemma settings_cons key s ls : settings key (map (fun pv => (s :: fst pv, snd pv)) ls) = settings (sub_key key (seg_string s)) ls.
Proof. unfold settings. rewrite map_map. reflexivity. Qed.

Lemma parse_query_string j : query_value j -> forall key, key <> [] -> parse_query (query_string j key) = Some (settings key (leaves j)).
Proof.
  induction j as [| | | | |l IH|nid kvs IH|] using json_ind'; intros Q key N;
    try (rewrite query_string_scalar, leaves_scalar by exact I; rewrite parse_query_simple by exact N; reflexivity).
  - inversion Q as [j Sc|l' Nl F D L|]; subst; [contradiction|]. rewrite query_string_arr, leaves_JArray.
    assert (forall i, exists rs, Forall2 (fun s r => parse_query s = Some r) (qs_arr key i l) rs /\ concat rs = settings key (leaves_arr i l)) as G.
    { clear Nl D L Q. induction l as [|x l IHl]; intros i; cbn [qs_arr leaves_arr]; [exists []; split; [constructor|reflexivity]|].
      inversion IH as [|? ? IHx IH']; inversion F as [|? ? Qx F']; subst.
      destruct (IHl IH' F' (i + 1)) as (rs & F2 & C).
      exists (settings (sub_key key (format_int i)) (leaves x) :: rs). split.
      - constructor; [|exact F2]. apply IHx; [exact Qx|]. rewrite sub_key_nonempty by exact N. apply app_dot_nonempty.
      - cbn [concat]. rewrite C. unfold settings at 3. rewrite map_app. f_equal.
        fold (settings key (map (fun pv : list seg * bytes => (SNum i :: fst pv, snd pv)) (leaves x))).
        rewrite settings_cons. reflexivity. }
    destruct (G 0) as (rs & F2 & C). rewrite (parse_query_join _ _ F2), C. reflexivity.
  - inversion Q as [j Sc| |nid' kvs' Nl K F]; subst; [contradiction|]. rewrite query_string_dict, leaves_JDict.
    assert (exists rs, Forall2 (fun s r => parse_query s = Some r) (qs_dict key kvs) rs /\ concat rs = settings key (leaves_dict kvs)) as G.
    { clear Nl K Q. induction kvs as [|[k x] l IHl]; cbn [qs_dict leaves_dict]; [exists []; split; [constructor|reflexivity]|].
      inversion IH as [|? ? IHx IH']; inversion F as [|? ? (Pk & _ & Qx) F']; subst. simpl in IHx, Pk, Qx.
      destruct (IHl IH' F') as (rs & F2 & C).
      exists (settings (sub_key key k) (leaves x) :: rs). split.
      - constructor; [|exact F2]. apply IHx; [exact Qx|]. rewrite sub_key_nonempty by exact N. apply app_dot_nonempty.
      - cbn [concat]. rewrite C. unfold settings at 3. rewrite map_app. f_equal.
        fold (settings key (map (fun pv : list seg * bytes => (string2seg k :: fst pv, snd pv)) (leaves x))).
        rewrite settings_cons, (proj2 (plain_seg_ok _ Pk)). reflexivity. }
    destruct G as (rs & F2 & C). rewrite (parse_query_join _ _ F2), C. reflexivity.
  - inversion Q; subst; contradiction.
Qed.

Lemma parse_query_dict nid kvs : query_dict kvs -> parse_query (QueryString (JDict nid kvs)) = Some (settings [] (leaves_dict kvs)).
Proof.
  intros [K F]. unfold QueryString. rewrite query_string_dict.
  assert (exists rs, Forall2 (fun s r => parse_query s = Some r) (qs_dict [] kvs) rs /\ concat rs = settings [] (leaves_dict kvs)) as G.
  { clear K. induction kvs as [|[k x] l IHl]; cbn [qs_dict leaves_dict]; [exists []; split; [constructor|reflexivity]|].
    inversion F as [|? ? (Pk & Nk & Qx) F']; subst. simpl in Pk, Nk, Qx.
    destruct (IHl F') as (rs & F2 & C).
    exists (settings k (leaves x) :: rs). split.
    - constructor; [|exact F2]. apply parse_query_string; assumption.
    - cbn [concat]. rewrite C. unfold settings at 3. rewrite map_app. f_equal.
      fold (settings [] (map (fun pv : list seg * bytes => (string2seg k :: fst pv, snd pv)) (leaves x))).
      rewrite settings_cons, (proj2 (plain_seg_ok _ Pk)). reflexivity. }
  destruct G as (rs & F2 & C). rewrite (parse_query_join _ _ F2), C. reflexivity.
Qed.

(** Paths of leaves have good segments. *)
Lemma isleaf_seg_ok j p v : query_value j -> isleaf j p v -> Forall seg_ok p.
Proof.
  intros Q H. induction H as [j S|l i x q v E H IH|nid kvs k x q v I H IH]; [constructor| |].
  - inversion Q as [j Sc|l' N F D L|]; subst; [contradiction|]. rewrite Forall_forall in F. constructor.
    + assert (i < length l)%nat by (apply nth_error_Some; congruence). simpl. unfold in_int64, int64_min.
      rewrite (proj2 (Z.leb_le _ _)) by lia. rewrite (proj2 (Z.leb_le _ _)) by lia. reflexivity.
    + apply IH, F. eapply nth_error_In, E.
  - inversion Q as [j Sc| |nid' kvs' N K F]; subst; [contradiction|]. rewrite Forall_forall in F.
    destruct (F _ I) as (Pk & _ & Qx). constructor; [apply plain_seg_ok, Pk|apply IH, Qx].
Qed.

Lemma top_leaf kvs p v : query_dict kvs -> In (p, v) (leaves_dict kvs) ->
  exists k x q, p = string2seg k :: q /\ In (k, x) kvs /\ isleaf x q v /\ plain_key k /\ k <> [] /\ query_value x /\
    path_key [] p = segments2string p /\ string2segments (segments2string p) = p.
Proof.
  intros [K F] I. apply leaves_dict_in in I as (k & x & q & -> & Ik & Hq). apply leaves_spec in Hq.
  rewrite Forall_forall in F. destruct (F _ Ik) as (Pk & Nk & Qx). simpl in Pk, Nk, Qx.
  destruct (plain_seg_ok _ Pk) as [Sk Ek].
  exists k, x, q. repeat (split; [assumption || reflexivity|]). split.
  - apply path_key_segments. rewrite Ek. exact Nk.
  - apply segments_roundtrip; [discriminate|]. constructor; [exact Sk|]. eapply isleaf_seg_ok; eassumption.
Qed.

(** ** Multi-map lookups *)

Lemma dedup_nodup l : NoDup l -> dedup l = l.
Proof.
  induction 1 as [|x l N H IH]; [reflexivity|]. simpl. rewrite IH.
  destruct (in_strings x l) eqn:E; [|reflexivity]. exfalso. apply N.
  unfold in_strings in E. apply existsb_exists in E as (y & I & E). apply bseq_eq in E as ->. exact I.
Qed.

Lemma values_single m k v : NoDup (map fst m) -> In (k, v) m -> values_of m k = [v].
Proof.
  unfold values_of. induction m as [|[k' v'] m IH]; simpl; intros N I; [contradiction|].
  inversion N as [|? ? N1 N2]; subst. destruct I as [E|I].
  - injection E as -> ->. rewrite bseq_refl. simpl. f_equal.
    assert (filter (fun kv => bseq k (fst kv)) m = []) as ->; [|reflexivity].
    destruct (filter (fun kv => bseq k (fst kv)) m) as [|[k2 v2] t] eqn:E; [reflexivity|].
    assert (In (k2, v2) (filter (fun kv => bseq k (fst kv)) m)) as I by (rewrite E; left; reflexivity).
    apply filter_In in I as [I B]. apply bseq_eq in B. simpl in B. subst k2.
    exfalso. apply N1. exact (in_map fst _ _ I).
  - destruct (bseq_spec k k') as [->|_].
    + exfalso. apply N1. exact (in_map fst _ _ I).
    + apply IH; assumption.
Qed.

(** ** All insertions *)

Lemma add_all_prune m nid kvs : query_dict kvs ->
  (forall p v, In (p, v) (leaves_dict kvs) -> values_of m (segments2string p) = [v]) ->
  forall ps S, StronglySorted slt ps ->
  (forall p, In p ps -> exists v, In (p, v) (leaves_dict kvs)) ->
  (forall p v, In (p, v) (leaves_dict kvs) -> S p = true -> forall q, In q ps -> slt p q) ->
  (forall p v, In (p, v) (leaves_dict kvs) -> S p = false -> In p ps) ->
  exists S', (forall p v, In (p, v) (leaves_dict kvs) -> S' p = true) /\
    add_all m (JDict nid (prune_dict S kvs)) ps = ROk (JDict nid (prune_dict S' kvs)).
Proof.
  intros Q V. induction ps as [|p ps IH]; intros S SS A T Fl.
  - exists S. split; [|reflexivity]. intros p v I. destruct (S p) eqn:E; [reflexivity|]. destruct (Fl p v I E).
  - inversion SS as [|? ? SS' FS]; subst. rewrite Forall_forall in FS.
    destruct (A p (or_introl eq_refl)) as [v Iv].
    destruct (top_leaf kvs p v Q Iv) as (k & x & q & -> & Ik & Hq & Pk & Nk & Qx & _ & _).
    set (p := string2seg k :: q) in *.
    cbn [add_all]. rewrite (V p v Iv).
    set (S' := fun r => negb (segs_less p r)).
    assert (forall r w, isleaf (JDict nid kvs) r w -> S r = segs_less r p) as HS.
    { intros r w Hr. apply leaves_spec in Hr. rewrite leaves_JDict in Hr. destruct (S r) eqn:E.
      - symmetry. apply (T r w Hr E p). left; reflexivity.
      - symmetry. destruct (Fl r w Hr E) as [<-|I]; [apply segs_less_irrefl|]. apply segs_less_asym, FS, I. }
    destruct (insert_ok x Qx (fun r => S (string2seg k :: r)) (fun r => S' (string2seg k :: r)) q v Hq) as (y' & Ey & Iy).
    { intros r w Hr. rewrite (HS (string2seg k :: r) w) by (econstructor; eassumption). apply segs_less_cons. }
    { intros r w Hr. unfold S', p. f_equal. apply segs_less_cons. }
    unfold p at 1. rewrite (insert_dict kvs nid k x q v S S' (proj1 Q)); cycle 1.
    { eapply Forall_impl; [|exact (proj2 Q)]. simpl. tauto. }
    { exact Ik. }
    { exact HS. }
    { intros r w Hr. reflexivity. }
    { eauto. }
    cbn [fst snd]. apply IH; [exact SS'| | |].
    + intros r I. apply A. right; exact I.
    + intros r w I E r' I'. unfold S' in E.
      destruct (segs_less_total r p) as [L|[->|L]]; [|exact (FS _ I')|rewrite L in E; discriminate].
      unfold slt. eapply segs_less_trans; [exact L|exact (FS _ I')].
    + intros r w I E. unfold S' in E. destruct (segs_less p r) eqn:L; [|discriminate].
      destruct (S r) eqn:Es.
      * pose proof (T r w I Es p (or_introl eq_refl)) as X. unfold slt in X. rewrite (segs_less_asym _ _ L) in X. discriminate.
      * destruct (Fl r w I Es) as [<-|Ir]; [rewrite segs_less_irrefl in L; discriminate|exact Ir].
Qed.

Lemma prune_dict_all kvs S : query_dict kvs -> (forall p v, In (p, v) (leaves_dict kvs) -> S p = true) ->
  prune_dict S kvs = map (fun kv => (fst kv, as_text (snd kv))) kvs.
Proof.
  intros [K F]. clear K. induction kvs as [|[k x] kvs IH]; intros H; [reflexivity|]. cbn [prune_dict map fst snd].
  inversion F as [|? ? (Pk & _ & Qx) F']; subst. simpl in Qx.
  rewrite (prune_all x Qx), IH; [reflexivity|exact F'| |].
  - intros p v I. eapply H. cbn [leaves_dict]. apply in_app_iff. right. exact I.
  - intros p v Hp. eapply H. cbn [leaves_dict]. apply in_app_iff. left. apply in_map_iff. exists (p, v). split; [reflexivity|].
    apply leaves_spec, Hp.
Qed.

Lemma prune_dict_none kvs : query_dict kvs -> prune_dict (fun _ => false) kvs = [].
Proof.
  intros [_ F]. induction kvs as [|[k x] kvs IH]; [reflexivity|]. cbn [prune_dict].
  inversion F as [|? ? (Pk & _ & Qx) F']; subst. simpl in Qx.
  rewrite (proj2 (prune_none x Qx (fun _ => false))) by reflexivity. apply IH, F'.
Qed.

Lemma map_nodup_inj {A C} (f : A -> C) l : (forall x y, In x l -> In y l -> f x = f y -> x = y) -> NoDup l -> NoDup (map f l).
Proof.
  intros H N. induction N as [|x l Nx N IH]; simpl; [constructor|]. constructor.
  - intros I. apply in_map_iff in I as (y & E & I). apply Nx. rewrite (H x y); [exact I|left; reflexivity|right; exact I|congruence].
  - apply IH. intros a b Ia Ib. apply H; right; assumption.
Qed.

Theorem query_roundtrip nid kvs : query_dict kvs ->
  ParseQueryString (QueryString (JDict nid kvs)) = ROk (as_text (JDict nid kvs)).
Proof.
  intros Q. unfold ParseQueryString. rewrite (parse_query_dict nid kvs Q).
  set (ls := leaves_dict kvs).
  assert (forall pv, In pv ls -> path_key [] (fst pv) = segments2string (fst pv) /\ string2segments (segments2string (fst pv)) = fst pv) as TL.
  { intros [p v] I. destruct (top_leaf kvs p v Q I) as (? & ? & ? & _ & _ & _ & _ & _ & _ & E1 & E2). auto. }
  assert (map fst (settings [] ls) = map segments2string (map fst ls)) as EK.
  { unfold settings. rewrite !map_map. apply map_ext_in. intros pv I. simpl. apply TL, I. }
  assert (NoDup (map fst ls)) as ND by (apply leaves_dict_nodup, Q).
  assert (NoDup (map fst (settings [] ls))) as NK.
  { rewrite EK. apply map_nodup_inj; [|exact ND]. intros a b Ia Ib E.
    apply in_map_iff in Ia as (pa & <- & Ia). apply in_map_iff in Ib as (pb & <- & Ib).
    rewrite <- (proj2 (TL _ Ia)), <- (proj2 (TL _ Ib)), E. reflexivity. }
  unfold map_keys. rewrite (dedup_nodup _ NK), EK, map_map.
  assert (map (fun x => string2segments (segments2string x)) (map fst ls) = map fst ls) as ->.
  { rewrite <- (map_id (map fst ls)) at 2. apply map_ext_in. intros p I. apply in_map_iff in I as (pv & <- & I). apply TL, I. }
  pose proof (sort_perm (map fst ls)) as PP. pose proof (sort_sorted (map fst ls)) as SS.
  apply sorted_strict in SS; [|eapply Permutation_NoDup; [apply Permutation_sym, PP|exact ND]].
  destruct (add_all_prune (settings [] ls) 0 kvs Q) with (ps := sort_segs (map fst ls)) (S := fun _ : list seg => false) as (S' & HS' & E).
  - intros p v I. apply values_single; [exact NK|]. unfold settings. apply in_map_iff. exists (p, v).
    split; [|exact I]. simpl. f_equal. apply (TL (p, v) I).
  - exact SS.
  - intros p I. apply (Permutation_in _ PP) in I. apply in_map_iff in I as ([p' v] & <- & I). exists v. exact I.
  - discriminate.
  - intros p v I _. apply (Permutation_in _ (Permutation_sym PP)). exact (in_map fst _ _ I).
  - rewrite (prune_dict_none kvs Q) in E. rewrite E. rewrite (prune_dict_all kvs S' Q HS'). reflexivity.
Qed.

Lemma as_text_strings j : all_strings j -> as_text j = j.
Proof.
  induction j as [| | | | |l IH|nid kvs IH|] using json_ind'; intros H; inversion H; subst; [reflexivity| |].
  - simpl. f_equal. rewrite <- (map_id l) at 2. apply map_ext_in. rewrite Forall_forall in *. auto.
  - simpl. f_equal. rewrite <- (map_id kvs) at 2. apply map_ext_in. rewrite Forall_forall in *.
    intros [k x] I. simpl. f_equal. apply (IH _ I). apply (H1 _ I).
Qed.
