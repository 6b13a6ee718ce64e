(** Maps with keys of any type: C61. *)
From Coq Require Import Sorting.Sorted Sorting.Permutation Lia.
From Verif Require Import Base Strconv StrconvFacts SortedMap SortedMapFacts Json SpecJson Printer Heap HeapFacts2 Gotypes Marshal SpecMarshal SpecEncode MarshalRefs MarshalFinal SpecRestore MarshalOrder
  MarshalPlain MapKeys SpecMapKeys PropMarshal.
Open Scope Z_scope.

(** ** Order *)

Lemma of_list_perm (l l' : list (bytes * json)) : NoDup (map fst l) -> Permutation l l' -> sm_of_list l [] = sm_of_list l' [].
Proof.
  intros N P. apply sm_of_list_perm; [|apply sm_of_list_ok, sm_ok_nil]. rewrite P. symmetry. apply (sm_of_list_permutation l' []); [|intros k _ []].
  eapply Permutation_NoDup; [|exact N]. apply Permutation_map, P.
Qed.
Lemma members_keys tv m : forall ps, t_members tv m = Some ps -> incl (map fst ps) (map fst m) /\ (NoDup (map fst m) -> NoDup (map fst ps)).
Proof.
  induction m as [|[k v] m IH]; intros ps E; cbn [t_members] in E; [injection E as <-; split; [intros x []|auto]|].
  destruct (tv v None) as [r|]; [|discriminate E]. destruct (t_members tv m) as [qs|]; [|discriminate E]. injection E as <-. destruct (IH qs eq_refl) as [I N]. split.
  - destruct r; intros x Ix; [destruct Ix as [<-|Ix]; [left; reflexivity|]|]; right; apply I, Ix.
  - intros H. inversion H as [|? ? H1 H2]; subst. destruct r; [|apply N, H2]. constructor; [intros X; apply H1, I, X|apply N, H2].
Qed.
Lemma members_perm tv m m' : Permutation m m' ->
  match t_members tv m, t_members tv m' with Some ps, Some ps' => Permutation ps ps' | None, None => True | _, _ => False end.
Proof.
  induction 1 as [|[k v] m m' P IH|[k v] [k' v'] m|m1 m2 m3 P1 IH1 P2 IH2]; cbn [t_members].
  - constructor.
  - destruct (tv v None) as [r|]; [|exact Logic.I]. destruct (t_members tv m), (t_members tv m'); try exact IH. destruct r; [constructor; exact IH|exact IH].
  - destruct (tv v None) as [r|], (tv v' None) as [r'|], (t_members tv m) as [ps|]; try exact Logic.I. destruct r, r'; try apply Permutation_refl. apply perm_swap.
  - destruct (t_members tv m1), (t_members tv m2), (t_members tv m3); try contradiction; try exact Logic.I. eapply Permutation_trans; eassumption.
Qed.

Lemma reordered_at (st st' : store) : Forall2 reordered st st' ->
  forall a, match nth_error st a, nth_error st' a with Some x, Some y => reordered x y | None, None => True | _, _ => False end.
Proof. induction 1 as [|x y l l' R _ IH]; intros [|a]; cbn [nth_error]; [exact Logic.I|exact Logic.I|exact R|apply IH]. Qed.

Section Reorder.
Context (omit : bool) (st st' : store).
Hypothesis Hst : Forall2 reordered st st'.

Lemma elems_reordered tv tv' l l' : (forall x y i, reordered x y -> tv x i = tv' y i) -> Forall2 reordered l l' -> t_elems tv l = t_elems tv' l'.
Proof using. intros H. induction 1 as [|x y l l' R _ IH]; [reflexivity|]. cbn [t_elems]. rewrite (H _ _ None R), IH. reflexivity. Qed.
Lemma members_reordered tv tv' (l l' : list (bytes * gval)) : (forall x y i, reordered x y -> tv x i = tv' y i) ->
  Forall2 (fun x y => fst x = fst y /\ reordered (snd x) (snd y)) l l' -> t_members tv l = t_members tv' l'.
Proof using. intros H. induction 1 as [|[k x] [k' y] l l' [E R] _ IH]; [reflexivity|]. cbn [fst snd] in *. subst k'. cbn [t_members]. rewrite (H _ _ None R), IH. reflexivity. Qed.
Lemma fields_reordered tv tv' (l l' : list (finfo * gval)) : (forall x y i, reordered x y -> tv x i = tv' y i) ->
  Forall2 (fun x y => fst x = fst y /\ reordered (snd x) (snd y)) l l' -> forall d, t_fields tv l d = t_fields tv' l' d.
Proof using.
  intros H. induction 1 as [|[k x] [k' y] l l' [E R] _ IH]; intros d; [reflexivity|]. cbn [fst snd] in *. subst k'. cbn [t_fields]. rewrite (H _ _ (Some k) R), !IH.
  destruct (fi_ignore k); [reflexivity|]. destruct (fi_deprecated_by k); [apply IH|reflexivity].
Qed.
Lemma st_at a : match nth_error st a, nth_error st' a with Some x, Some y => reordered x y | None, None => True | _, _ => False end.
Proof using Hst. exact (reordered_at st st' Hst a). Qed.

Lemma tval_reordered n : forall v w i, reordered v w -> tval st omit n v i = tval st' omit n w i.
Proof using Hst.
  induction n as [|n IH]; intros v w i R; [reflexivity|]. destruct R as [v|l l' F|l l' F|m m' m'' N F P|fs fs' F|x y R].
  - destruct v as [b|k z|bit f|x|t|t|[l|]|l|[m|]|fs|[a|]|[x|]|[j|]|[j|]|j|j|]; cbn [tval]; try reflexivity.
    + rewrite (elems_reordered (tval st omit n) (tval st' omit n) l l IH); [reflexivity|]. clear. induction l; constructor; [apply RO_same|assumption].
    + rewrite (elems_reordered (tval st omit n) (tval st' omit n) l l IH); [reflexivity|]. clear. induction l; constructor; [apply RO_same|assumption].
    + rewrite (members_reordered (tval st omit n) (tval st' omit n) m m IH); [reflexivity|]. clear. induction m; constructor; [split; [reflexivity|apply RO_same]|assumption].
    + rewrite (fields_reordered (tval st omit n) (tval st' omit n) fs fs IH); [reflexivity|]. clear. induction fs; constructor; [split; [reflexivity|apply RO_same]|assumption].
    + pose proof (st_at a) as S. destruct (nth_error st a), (nth_error st' a); try contradiction; [apply IH, S|reflexivity].
    + apply IH, RO_same.
  - cbn [tval]. rewrite (elems_reordered (tval st omit n) (tval st' omit n) l l' IH F). destruct F; reflexivity.
  - cbn [tval]. rewrite (elems_reordered (tval st omit n) (tval st' omit n) l l' IH F). destruct F; reflexivity.
  - cbn [tval]. pose proof (members_reordered (tval st omit n) (tval st' omit n) m m' IH F) as E. pose proof (members_perm (tval st' omit n) _ _ P) as Q. rewrite <- E in Q.
    destruct F as [|x y m m' Fx F]; [apply Permutation_nil in P; subst; reflexivity|]. destruct m'' as [|y' m'']; [apply Permutation_sym, Permutation_nil in P; discriminate P|].
    destruct (t_members (tval st omit n) (x :: m)) as [ps|] eqn:Eps, (t_members (tval st' omit n) (y' :: m'')) as [ps'|]; try contradiction Q; [|reflexivity].
    rewrite (of_list_perm ps ps'); [reflexivity| |exact Q]. eapply members_keys; [exact Eps|exact N].
  - cbn [tval]. rewrite (fields_reordered (tval st omit n) (tval st' omit n) fs fs' IH F). destruct (t_fields (tval st' omit n) fs' []) as [[ps dep]|]; reflexivity.
  - apply IH, R.
Qed.
End Reorder.

(** In memory without cycles the order in which Go visits maps, here or anywhere
    in the graph, does not matter if the members of each have different names. *)
Theorem C61_order_free : forall omit pick pick' n st st' v v', acyclic st -> acyclic st' -> Forall2 reordered st st' -> reordered v v' ->
  marshal_with omit pick n st (Some v) = marshal_with omit pick' n st' (Some v').
Proof.
  intros omit pick pick' n st st' v v' A A' S R. rewrite !marshal_plain by assumption. rewrite (tval_reordered omit st st' S n v v' None R).
  destruct R as [[| | | | | | | | | |[a|]| | | | | |]| | | | |]; reflexivity.
Qed.

(** So a map with keys of any type has one result if their texts differ. *)
Theorem C61_one_result : forall omit st es j j', acyclic st -> NoDup (map (fun kv => key_text (fst kv)) es) ->
  marshals_map omit st es j -> marshals_map omit st es j' -> j = j'.
Proof.
  intros omit st es j j' A N (o & pick & n & [P _] & _ & E) (o' & pick' & n' & [P' _] & _ & E').
  assert (F : forall l, Forall2 (fun x y : bytes * gval => fst x = fst y /\ reordered (snd x) (snd y)) l l) by (induction l; constructor; [split; [reflexivity|apply RO_same]|assumption]).
  assert (R : reordered (keyed o) (keyed o')).
  { eapply RO_map; [|apply F|].
    - rewrite map_map. cbn [fst]. eapply Permutation_NoDup; [|exact N]. apply Permutation_map, P.
    - apply Permutation_map. rewrite <- P. exact P'. }
  assert (S : Forall2 reordered st st) by (clear; induction st; constructor; [apply RO_same|assumption]).
  assert (M : forall k pick o j, marshal_with omit pick k st (Some (keyed o)) = Some j -> marshal_with omit pick (n + n') st (Some (keyed o)) = Some j \/ (n + n' < k)%nat).
  { intros k pk oo jj Ek. destruct (Nat.lt_ge_cases (n + n') k) as [H|H]; [right; exact H|left]. eapply marshal_mono; eassumption. }
  destruct (M n pick o j E) as [E1|E1]; [|lia]. destruct (M n' pick' o' j' E') as [E2|E2]; [|lia].
  rewrite (C61_order_free omit pick pick' (n + n') st st (keyed o) (keyed o') A A S R) in E1. congruence.
Qed.

(** Strings: there is only one order, so one result also where there are cycles
    (for each choice of node ids). *)
Lemma sorted_one (l : list (mapkey * gval)) : forall l', StronglySorted (fun x y => bcmp (key_raw (fst x)) (key_raw (fst y)) <> Gt) l ->
  StronglySorted (fun x y => bcmp (key_raw (fst x)) (key_raw (fst y)) <> Gt) l' -> NoDup (map (fun x => key_raw (fst x)) l) -> Permutation l l' -> l = l'.
Proof.
  induction l as [|x l IH]; intros l' S S' N P; [apply Permutation_nil in P; congruence|].
  destruct l' as [|y l']; [apply Permutation_sym, Permutation_nil in P; discriminate P|].
  assert (x = y) as <-.
  { inversion S as [|? ? _ F]; inversion S' as [|? ? _ F']; subst. rewrite Forall_forall in F, F'.
    assert (Iy : In y (x :: l)) by (eapply Permutation_in; [symmetry; exact P|left; reflexivity]). destruct Iy as [->|Iy]; [reflexivity|].
    assert (Ix : In x (y :: l')) by (eapply Permutation_in; [exact P|left; reflexivity]). destruct Ix as [->|Ix]; [reflexivity|].
    pose proof (F y Iy) as L1. pose proof (F' x Ix) as L2. exfalso. cbn [map] in N. inversion N as [|? ? N1 _]; subst. apply N1.
    assert (Ek : key_raw (fst x) = key_raw (fst y)).
    { destruct (bcmp (key_raw (fst x)) (key_raw (fst y))) eqn:C; [apply bcmp_eq, C| |contradiction L1; reflexivity]. rewrite bcmp_antisym, C in L2. destruct L2. reflexivity. }
    rewrite Ek. apply in_map_iff. exists y. split; [reflexivity|exact Iy]. }
  f_equal. inversion S; inversion S'; inversion N; subst. apply IH; try assumption. eapply Permutation_cons_inv, P.
Qed.
Theorem C61_string_keys : forall es o o', (forall k v, In (k, v) es -> exists s, k = KString s) -> NoDup (map fst es) -> visits es o -> visits es o' -> o = o'.
Proof.
  intros es o o' H N [P S] [P' S']. apply sorted_one; try assumption; [|rewrite <- P; exact P'].
  eapply Permutation_NoDup; [apply Permutation_map, P|]. clear P S P' S' o o'. induction es as [|[k v] es IH]; [constructor|]. inversion N as [|? ? N1 N2]; subst. cbn [map].
  constructor; [|apply IH; [intros k' v' I; eapply H; right; exact I|exact N2]]. intros I. apply in_map_iff in I as ([k' v'] & E & I). cbn [fst] in E.
  destruct (H k v (or_introl eq_refl)) as [s ->]. destruct (H k' v' (or_intror I)) as [s' ->]. cbn in E. subst s'. apply N1. apply in_map_iff. exists (KString s, v'). split; [reflexivity|exact I].
Qed.

(** The texts of integers of one type differ, and those of booleans. *)
Lemma format_int_inj z z' : format_int z = format_int z' -> z = z'.
Proof.
  assert (D : forall n s, 0 <= n -> format_uint n = "-"%byte :: s -> False).
  { intros n s L E. pose proof (format_uint_digits n L) as F. rewrite E in F. inversion F. discriminate. }
  unfold format_int. destruct (Z.ltb_spec z 0), (Z.ltb_spec z' 0); intros E.
  - injection E as E. apply format_uint_inj in E; lia.
  - symmetry in E. apply D in E; [contradiction|lia].
  - apply D in E; [contradiction|lia].
  - apply format_uint_inj in E; lia.
Qed.
Theorem C61_number_texts : forall name,
  (forall z z', key_text (KInt name z) = key_text (KInt name z') -> z = z') /\
  (forall b b', key_text (KBool name b) = key_text (KBool name b') -> b = b') /\
  (forall s s', key_text (KString s) = key_text (KString s') -> s = s').
Proof.
  intros name. split; [|split; [|auto]].
  - intros z z' E. unfold key_text in E. apply app_inv_head in E. apply app_inv_head in E. apply app_inv_head in E. apply app_inj_tail in E as [E _]. apply format_int_inj, E.
  - intros b b' E. unfold key_text in E. apply app_inv_head in E. apply app_inv_head in E. apply app_inv_head in E. apply app_inj_tail in E as [E _]. destruct b, b'; try reflexivity; discriminate E.
Qed.

(** ** What is in the result *)

Lemma members_pair st omit f m ps : enc_members st omit f m ps -> NoDup (map fst m) ->
  incl (map fst ps) (map fst m) /\ NoDup (map fst ps) /\
  forall k v, In (k, v) m -> ((omit = true /\ dropped st None v) /\ ~ In k (map fst ps)) \/ exists j, ~ (omit = true /\ dropped st None v) /\ In (k, j) ps /\ encodes st omit f [] None v j.
Proof.
  induction 1 as [|k v m ps O D _ IH|k v m j ps K E _ IH]; intros N; [split; [intros x []|split; [constructor|intros k v []]]|..]; cbn [map fst] in N; inversion N as [|? ? N1 N2]; subst; destruct (IH N2) as (I & ND & H).
  - split; [intros x Ix; right; apply I, Ix|]. split; [exact ND|]. intros k' v' [X|X]; [|apply H, X]. injection X as <- <-. left. split; [split; [reflexivity|exact D]|]. intros Y. apply N1, I, Y.
  - split; [intros x [<-|Ix]; [left; reflexivity|right; apply I, Ix]|]. split; [constructor; [intros Y; apply N1, I, Y|exact ND]|].
    intros k' v' [X|X]; [injection X as <- <-; right; exists j; split; [exact K|split; [left; reflexivity|exact E]]|].
    destruct (H k' v' X) as [[A B]|(j' & A & B & C)]; [left; split; [exact A|]|right; exists j'; split; [exact A|split; [right; exact B|exact C]]].
    intros [Y|Y]; [|exact (B Y)]. cbn in Y. subst k'. apply N1, in_map_iff. exists (k, v'). split; [reflexivity|exact X].
Qed.

(** The result has a member under the text of each key, which represents its
    value, unless Marshal leaves nil out, and no other members. *)
Theorem C61_members : forall omit st es nid kvs, NoDup (map (fun kv => key_text (fst kv)) es) -> marshals_map omit st es (JDict nid kvs) ->
  (forall k, sm_get kvs k <> None -> exists key v, In (key, v) es /\ k = key_text key) /\
  exists f, forall key v, In (key, v) es ->
    (sm_get kvs (key_text key) = None /\ omit = true /\ leads_to_nil st v) \/
    (exists j, sm_get kvs (key_text key) = Some j /\ ~ (omit = true /\ leads_to_nil st v) /\ encodes st omit f [] None v j).
Proof.
  intros omit st es nid kvs N (o & pick & n & [P _] & C & E).
  assert (M : marshals omit st (keyed o) (JDict nid kvs)) by (exists pick, n; split; [exact C|exact E]).
  apply C30_result_encodes_value in M as [(_ & _ & X)|[_ [f En]]]; [discriminate X|]. unfold keyed in En.
  inversion En as [? ? ? X| | | | | | | | |? ? ? ? ps ? Fo EM [Ok G] Ow| | | | | | | | | |]; subst; try contradiction.
  assert (N' : NoDup (map fst (map (fun kv : mapkey * gval => (key_text (fst kv), snd kv)) o))) by (rewrite map_map; cbn [fst]; eapply Permutation_NoDup; [apply Permutation_map, P|exact N]).
  destruct (members_pair _ _ _ _ _ EM N') as (I & ND & H). split.
  - intros k Gk. rewrite G in Gk. destruct (last_pair ps k) as [j|] eqn:L; [|destruct Gk; reflexivity]. apply last_pair_some in L. apply (in_map fst), I in L. rewrite map_map in L.
    apply in_map_iff in L as ([key v] & Ek & L). cbn [fst snd] in Ek. exists key, v. split; [eapply Permutation_in; [symmetry; exact P|exact L]|congruence].
  - exists f. intros key v Ikv. assert (Io : In (key_text key, v) (map (fun kv : mapkey * gval => (key_text (fst kv), snd kv)) o)).
    { apply in_map_iff. exists (key, v). split; [reflexivity|]. eapply Permutation_in; [exact P|exact Ikv]. }
    rewrite G. destruct (H _ _ Io) as [[[O D] Nk]|(j & K & Ij & Ej)].
    + left. split; [|split; [exact O|apply C30_elements_dropped_iff_nil, D]]. destruct (last_pair ps (key_text key)) as [j|] eqn:L; [|reflexivity]. apply last_pair_some, (in_map fst) in L. contradiction.
    + right. exists j. split; [apply last_pair_in; assumption|]. split; [|exact Ej]. intros [O D]. apply K. split; [exact O|apply C30_elements_dropped_iff_nil, D].
Qed.

(** ** Where it fails *)

(** type N struct { Next *N }; two nodes that point to themselves in a
    map[int]*N: which of them gets the node id 1 is open. *)
Definition loop_field : finfo := plain (B"next").
Definition loop_store : store := [GStruct [(loop_field, GPtr (Some 0%nat))]; GStruct [(loop_field, GPtr (Some 1%nat))]].
Definition loop_map : list (mapkey * gval) := [(KInt (B"int") 1, GPtr (Some 0%nat)); (KInt (B"int") 2, GPtr (Some 1%nat))].
Definition loop_result (a b : Z) : json :=
  JDict 0 [(B"%!s(int=1)", JDict a [(B"next", JPtr a)]); (B"%!s(int=2)", JDict b [(B"next", JPtr b)])].
Theorem C61_cycles_refuted : exists st es j j', NoDup (map (fun kv => key_text (fst kv)) es) /\
  marshals_map true st es j /\ marshals_map true st es j' /\ j <> j'.
Proof.
  exists loop_store, loop_map, (loop_result 1 2), (loop_result 2 1). split; [|split; [|split]].
  - repeat constructor; cbn; intuition discriminate.
  - exists loop_map, (List.hd 0%Z), 10%nat. split; [split; [reflexivity|]|split; [|reflexivity]].
    + repeat constructor; cbn; discriminate.
    + intros [|x l] H; [contradiction|left; reflexivity].
  - exists (rev loop_map), (List.hd 0%Z), 10%nat. split; [split; [apply perm_swap|]|split; [|reflexivity]].
    + repeat constructor; cbn; discriminate.
    + intros [|x l] H; [contradiction|left; reflexivity].
  - discriminate.
Qed.
(** Keys with equal texts: one value is lost, and which one is open. *)
Theorem C61_equal_texts_refuted : exists es j j', NoDup (map fst es) /\ marshals_map true [] es j /\ marshals_map true [] es j' /\ j <> j'.
Proof.
  exists [(KInt (B"int") 1, GBool true); (KOther (B"<int Value>") (B"%!s(int=1)"), GBool false)], (JDict 0 [(B"%!s(int=1)", JBool false)]), (JDict 0 [(B"%!s(int=1)", JBool true)]). split; [|split; [|split]].
  - repeat constructor; cbn; intuition discriminate.
  - eexists. exists (List.hd 0%Z), 10%nat. split; [split; [reflexivity|]|split; [|reflexivity]].
    + repeat constructor; cbn; discriminate.
    + intros [|x l] H; [contradiction|left; reflexivity].
  - eexists. exists (List.hd 0%Z), 10%nat. split; [split; [apply perm_swap|]|split; [|reflexivity]].
    + repeat constructor; cbn; discriminate.
    + intros [|x l] H; [contradiction|left; reflexivity].
  - discriminate.
Qed.

(** ** Examples *)

Definition num_map : list (mapkey * gval) := [(KInt (B"int") 10, GString (B"ten")); (KInt (B"int") (-2), GPtr None); (KInt (B"int") 3, GPtr (Some 0%nat))].
Definition num_store : store := [GMap (Some [(B"b", GBool true); (B"a", GInt (Signed 8) 5)])].
Definition num_result : json := JDict 0 [(B"%!s(int=10)", JString (B"ten")); (B"%!s(int=3)", JDict 0 [(B"a", JInt 5); (B"b", JBool true)])].
Lemma num_marshals : marshals_map true num_store num_map num_result.
Proof.
  exists num_map, (List.hd 0%Z), 10%nat. split; [split; [reflexivity|]|split; [|reflexivity]].
  - repeat constructor; cbn; discriminate.
  - intros [|x l] H; [contradiction|left; reflexivity].
Qed.
Lemma num_nodup : NoDup (map (fun kv => key_text (fst kv)) num_map).
Proof. repeat constructor; cbn; intuition discriminate. Qed.
Lemma num_acyclic : acyclic num_store.
Proof.
  intros a P. assert (G : forall a b, path num_store a b -> False).
  { intros x y Q. induction Q as [z b E I|b z c _ IH E I]; [|exact IH]. destruct x as [|x]; [injection E as <-; exact I|destruct x; discriminate E]. }
  exact (G _ _ P).
Qed.
Example C61_one_result_example : forall j, marshals_map true num_store num_map j -> j = num_result.
Proof. intros j H. eapply C61_one_result; [exact num_acyclic|exact num_nodup|exact H|exact num_marshals]. Qed.
Example C61_order_free_example : forall pick, marshal_with true pick 10 num_store (Some (keyed num_map)) = Some num_result /\
  marshal_with true pick 10 [GMap (Some [(B"a", GInt (Signed 8) 5); (B"b", GBool true)])] (Some (keyed (rev num_map))) = Some num_result.
Proof.
  intros pick. split; [reflexivity|]. rewrite <- (C61_order_free true pick pick 10 num_store _ (keyed num_map)); [reflexivity|exact num_acyclic| | |].
  - intros a P. assert (G : forall a b, path [GMap (Some [(B"a", GInt (Signed 8) 5); (B"b", GBool true)])] a b -> False).
    { intros x y Q. induction Q as [z b E I|b z c _ IH E I]; [|exact IH]. destruct x as [|x]; [injection E as <-; exact I|destruct x; discriminate E]. }
    exact (G _ _ P).
  - constructor; [|constructor]. eapply RO_map; [| |apply perm_swap].
    + repeat constructor; cbn; intuition discriminate.
    + repeat constructor.
  - eapply RO_map; [exact num_nodup| |].
    + repeat constructor.
    + apply (Permutation_map (fun kv => (key_text (fst kv), snd kv)) (Permutation_rev num_map)).
Qed.
Example C61_string_keys_example : forall o, visits [(KString (B"b"), GBool true); (KString (B"a"), GBool false)] o -> o = [(KString (B"a"), GBool false); (KString (B"b"), GBool true)].
Proof.
  intros o V. eapply C61_string_keys; [| |exact V|].
  - intros k v [E|[E|[]]]; injection E as <- <-; eexists; reflexivity.
  - repeat constructor; cbn; intuition discriminate.
  - split; [apply perm_swap|]. repeat constructor; cbn; discriminate.
Qed.
Example C61_number_texts_example : key_text (KInt (B"uint8") 5) = B"%!s(uint8=5)" /\ key_text (KInt (B"int") (-7)) = B"%!s(int=-7)".
Proof. split; reflexivity. Qed.
Example C61_members_example : exists f j, sm_get (match num_result with JDict _ kvs => kvs | _ => [] end) (key_text (KInt (B"int") 3)) = Some j /\ encodes num_store true f [] None (GPtr (Some 0%nat)) j.
Proof.
  destruct (C61_members true num_store num_map 0 _ num_nodup num_marshals) as [_ [f H]]. exists f.
  destruct (H (KInt (B"int") 3) (GPtr (Some 0%nat))) as [(D & _)|(j & G & _ & E)]; [right; right; left; reflexivity|discriminate D|]. exists j. split; [exact G|exact E].
Qed.
