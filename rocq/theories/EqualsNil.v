(** Facts about Equals and DeepCopy on objects that may contain nil or
    themselves. *)
From Coq Require Import Lia Sorting.Permutation Sorting.Sorted.
From Verif Require Import Base Strconv SortedMap SortedMapFacts Json SpecJson Access Printer Query Heap HeapFacts HeapFacts2 SpecHeap SpecShare ShareFacts Gotypes Equals Native HeapRead SpecNil HeapReadFacts.

(** ** Equals *)

Definition krel {A C} (P : A -> C -> Prop) (x : bytes * A) (y : bytes * C) : Prop := fst x = fst y /\ P (snd x) (snd y).
Lemma get_krel {A C} (P : A -> C -> Prop) (m : smap A) (m' : smap C) k : Forall2 (krel P) m m' ->
  match sm_get m k, sm_get m' k with Some x, Some y => P x y | None, None => True | _, _ => False end.
Proof.
  induction 1 as [|[a x] [a' y] m m' [E R] _ IH]; cbn [sm_get fst snd] in *; [exact I|]. subst a'. destruct (bseq k a); [exact R|exact IH].
Qed.
Lemma mem_krel {A C} (P : A -> C -> Prop) (m : smap A) (m' : smap C) k : Forall2 (krel P) m m' -> sm_mem m k = sm_mem m' k.
Proof. intros F. pose proof (get_krel P m m' k F) as G. unfold sm_mem. destruct (sm_get m k), (sm_get m' k); try contradiction; reflexivity. Qed.
Lemma filter_krel {A C} (P : A -> C -> Prop) (m : list (bytes * A)) (m' : list (bytes * C)) f : Forall2 (krel P) m m' ->
  length (filter (fun kv => f (fst kv)) m) = length (filter (fun kv => f (fst kv)) m').
Proof. induction 1 as [|[a x] [a' y] m m' [E R] _ IH]; [reflexivity|]. cbn [filter fst] in *. subst a'. destruct (f a); cbn [length]; congruence. Qed.

Lemma read_array n h a rs v : nth_error h a = Some (CArray rs) -> read (S n) h a = Some v -> exists l, v = JArray l /\
  Forall2 (fun (r : ref) j => exists x, r = Some x /\ read n h x = Some j) rs l.
Proof.
  intros G R. cbn [read] in R. cbv zeta in R. rewrite G in R. dmap R l; [|discriminate R]. injection R as <-. exists l. split; [reflexivity|].
  apply map_opt_forall2 in M. eapply Forall2_impl; [|exact M]. intros [x|] j E; [|discriminate E]. exists x. auto.
Qed.
Lemma read_dict n h a nid rs v : nth_error h a = Some (CDict nid rs) -> read (S n) h a = Some v -> exists l, v = JDict nid l /\
  Forall2 (krel (fun (r : ref) j => exists x, r = Some x /\ read n h x = Some j)) rs l.
Proof.
  intros G R. cbn [read] in R. cbv zeta in R. rewrite G in R. dmap R l; [|discriminate R]. injection R as <-. exists l. split; [reflexivity|].
  apply map_opt_forall2 in M. eapply Forall2_impl; [|exact M]. intros [k [x|]] [k' j] E; cbn [fst snd] in E; [|discriminate E].
  destruct (read n h x) as [j'|] eqn:Rx; [|discriminate E]. injection E as -> ->. split; [reflexivity|]. exists x. auto.
Qed.

Lemma equals_values h n : forall a v b w m, read n h a = Some v -> read m h b = Some w -> h_equals n h a b = Returns (equals v w).
Proof.
  induction n as [|n IH]; intros a v b w m Ra Rb; [discriminate Ra|]. destruct m as [|m]; [discriminate Rb|].
  cbn [h_equals]. destruct (nth_error h a) as [c|] eqn:Ga; [|cbn [read] in Ra; cbv zeta in Ra; rewrite Ga in Ra; discriminate Ra].
  destruct (nth_error h b) as [d|] eqn:Gb; [|cbn [read] in Rb; cbv zeta in Rb; rewrite Gb in Rb; discriminate Rb].
  assert (Hb : match d with
     | CNull => w = JNull | CBool y => w = JBool y | CInt y => w = JInt y | CFloat f bit => w = JFloat f bit | CString s => w = JString s | CPtr k => w = JPtr k
     | CArray rs => exists l, w = JArray l /\ Forall2 (fun (r : ref) j => exists x, r = Some x /\ read m h x = Some j) rs l
     | CDict nid rs => exists l, w = JDict nid l /\ Forall2 (krel (fun (r : ref) j => exists x, r = Some x /\ read m h x = Some j)) rs l
     end).
  { destruct d; try (cbn [read] in Rb; cbv zeta in Rb; rewrite Gb in Rb; injection Rb as <-; reflexivity); [eapply read_array|eapply read_dict]; eassumption. }
  destruct c as [|x|x|f bit|s|rs|nid rs|x]; try (cbn [read] in Ra; cbv zeta in Ra; rewrite Ga in Ra; injection Ra as <-; destruct d; try subst w; try (destruct Hb as (l & -> & _)); reflexivity).
  - destruct (read_array _ _ _ _ _ Ga Ra) as (l & -> & F). destruct d as [| | | | |rs2| |]; try subst w; try (destruct Hb as (l2 & -> & F2)); try reflexivity.
    cbn [equals]. rewrite <- (forall2_length _ _ _ F), <- (forall2_length _ _ _ F2). destruct (Nat.eqb (length rs) (length rs2)); [|reflexivity]. cbn [negb andb].
    clear Ga Gb Ra Rb. revert rs2 l2 F2. induction F as [|r j rs l (x & -> & Rx) F IHF]; intros rs2 l2 F2; [reflexivity|]. destruct F2 as [|r2 j2 rs2 l2 (y & -> & Ry) F2]; [reflexivity|].
    cbn [eq_elems]. rewrite (IH _ _ _ _ _ Rx Ry). destruct (equals j j2); cbn [negb]; [apply IHF, F2|reflexivity].
  - destruct (read_dict _ _ _ _ _ _ Ga Ra) as (l & -> & F). destruct d as [| | | | | |nid2 rs2|]; try subst w; try (destruct Hb as (l2 & -> & F2)); try reflexivity.
    cbn [equals]. rewrite <- (forall2_length _ _ _ F), <- (forall2_length _ _ _ F2). destruct (Nat.eqb (length rs) (length rs2)); [|reflexivity]. cbn [negb]. unfold sm_split.
    assert (E1 : length (filter (fun kv => negb (sm_mem rs2 (fst kv))) rs) = length (filter (fun kv => negb (sm_mem l2 (fst kv))) l)).
    { rewrite (filter_krel _ rs l (fun k => negb (sm_mem rs2 k)) F). f_equal. apply filter_ext. intros kv. rewrite (mem_krel _ rs2 l2 _ F2). reflexivity. }
    assert (E2 : length (filter (fun kv => negb (sm_mem rs (fst kv))) rs2) = length (filter (fun kv => negb (sm_mem l (fst kv))) l2)).
    { rewrite (filter_krel _ rs2 l2 (fun k => negb (sm_mem rs k)) F2). f_equal. apply filter_ext. intros kv. rewrite (mem_krel _ rs l _ F). reflexivity. }
    rewrite E1, E2. destruct (Nat.ltb 0 _ || Nat.ltb 0 _); [reflexivity|].
    clear Ga Gb Ra Rb E1 E2. induction F as [|[k r] [k' j] rs l [Ek (x & Er & Rx)] F IHF]; [reflexivity|]. cbn [fst snd] in *. subst k' r. cbn [eq_members].
    pose proof (get_krel _ rs2 l2 k F2) as G. destruct (sm_get rs2 k) as [r2|], (sm_get l2 k) as [j2|]; try contradiction; [|exact IHF].
    destruct G as (y & -> & Ry). rewrite (IH _ _ _ _ _ Rx Ry). destruct (equals j j2); cbn [negb]; [exact IHF|reflexivity].
Qed.

Section EqMono.
Context (w w' : addr -> addr -> outcome bool).
Hypothesis Hw : forall x y, settled (w x y) (w' x y).
Lemma eq_elems_mono : forall l l2, settled (eq_elems w l l2) (eq_elems w' l l2).
Proof using Hw.
  induction l as [|[x|] l IH]; intros l2 S; destruct l2 as [|[y|] l2]; cbn [eq_elems] in *; try reflexivity.
  pose proof (Hw x y) as H. destruct (w x y) as [[|]| |]; try (rewrite H by discriminate; reflexivity); [rewrite H by discriminate; apply IH, S|contradiction S; reflexivity].
Qed.
Lemma eq_members_mono : forall l l2, settled (eq_members w l l2) (eq_members w' l l2).
Proof using Hw.
  induction l as [|[k r] l IH]; intros l2 S; cbn [eq_members] in *; [reflexivity|]. destruct (sm_get l2 k) as [r2|]; [|apply IH, S]. destruct r as [x|], r2 as [y|]; try reflexivity.
  pose proof (Hw x y) as H. destruct (w x y) as [[|]| |]; try (rewrite H by discriminate; reflexivity); [rewrite H by discriminate; apply IH, S|contradiction S; reflexivity].
Qed.
End EqMono.
Lemma equals_step h n : forall a b, settled (h_equals n h a b) (h_equals (S n) h a b).
Proof.
  induction n as [|n IH]; intros a b S; [contradiction S; reflexivity|].
  cbn [h_equals] in S. cbn [h_equals]. destruct (nth_error h a) as [c|]; [|reflexivity]. destruct (nth_error h b) as [d|]; [|reflexivity].
  destruct c as [| | | | |l|nid l|]; try reflexivity; destruct d as [| | | | |l2|nid2 l2|]; try reflexivity.
  - destruct (negb (Nat.eqb (length l) (length l2))); [reflexivity|]. exact (eq_elems_mono _ _ IH l l2 S).
  - destruct (negb (Nat.eqb (length l) (length l2))); [reflexivity|]. destruct (sm_split l l2) as [[[x1 x2] x3] x4]. destruct (Nat.ltb 0 (length x1) || Nat.ltb 0 (length x4)); [reflexivity|]. exact (eq_members_mono _ _ IH l l2 S).
Qed.
Lemma equals_mono h a b n k : (n <= k)%nat -> settled (h_equals n h a b) (h_equals k h a b).
Proof. induction 1 as [|k L IH]; intros S; [reflexivity|]. specialize (IH S). rewrite <- IH. apply equals_step. rewrite IH. exact S. Qed.

Section EqCases.
Context (w : addr -> addr -> outcome bool).
Lemma eq_elems_panics : forall l l2, eq_elems w l l2 = Panics -> In None l \/ exists x y, In (Some x) l /\ In (Some y) l2 /\ w x y = Panics.
Proof using.
  induction l as [|[x|] l IH]; intros l2 E; destruct l2 as [|[y|] l2]; cbn [eq_elems] in E; try discriminate E; try (left; left; reflexivity).
  destruct (w x y) as [[|]| |] eqn:Exy; try discriminate E; [|right; exists x, y; repeat split; try (left; reflexivity); exact Exy].
  destruct (IH _ E) as [I|(x' & y' & Ix & Iy & W)]; [left; right; exact I|right; exists x', y'; repeat split; try (right; assumption); exact W].
Qed.
Lemma eq_members_panics : forall l l2, eq_members w l l2 = Panics -> In None (map snd l) \/ In None (map snd l2) \/ exists x y, In (Some x) (map snd l) /\ In (Some y) (map snd l2) /\ w x y = Panics.
Proof using.
  induction l as [|[k r] l IH]; intros l2 E; cbn [eq_members] in E; [discriminate E|]. cbn [map snd].
  assert (D : eq_members w l l2 = Panics -> In None (r :: map snd l) \/ In None (map snd l2) \/ exists x y, In (Some x) (r :: map snd l) /\ In (Some y) (map snd l2) /\ w x y = Panics).
  { intros E'. destruct (IH _ E') as [I|[I|(x' & y' & Ix & Iy & W)]]; [left; right; exact I|right; left; exact I|right; right; exists x', y'; repeat split; try assumption; right; exact Ix]. }
  destruct (sm_get l2 k) as [r2|] eqn:G; [|apply D, E]. apply sm_get_some_in in G. apply (in_map snd) in G. cbn [snd] in G. destruct r as [x|]; [|left; left; reflexivity]. destruct r2 as [y|]; [|right; left; exact G].
  destruct (w x y) as [[|]| |] eqn:Exy; try discriminate E; [apply D, E|]. right; right. exists x, y. repeat split; [left; reflexivity|exact G|exact Exy].
Qed.
Lemma eq_elems_runs : forall l l2, eq_elems w l l2 = Runs -> exists x y, In (Some x) l /\ In (Some y) l2 /\ w x y = Runs.
Proof using.
  induction l as [|[x|] l IH]; intros l2 E; destruct l2 as [|[y|] l2]; cbn [eq_elems] in E; try discriminate E.
  destruct (w x y) as [[|]| |] eqn:Exy; try discriminate E; [|exists x, y; repeat split; try (left; reflexivity); exact Exy].
  destruct (IH _ E) as (x' & y' & Ix & Iy & W). exists x', y'; repeat split; try (right; assumption); exact W.
Qed.
Lemma eq_members_runs : forall l l2, eq_members w l l2 = Runs -> exists x y, In (Some x) (map snd l) /\ In (Some y) (map snd l2) /\ w x y = Runs.
Proof using.
  induction l as [|[k r] l IH]; intros l2 E; cbn [eq_members] in E; [discriminate E|]. cbn [map snd].
  assert (D : eq_members w l l2 = Runs -> exists x y, In (Some x) (r :: map snd l) /\ In (Some y) (map snd l2) /\ w x y = Runs).
  { intros E'. destruct (IH _ E') as (x' & y' & Ix & Iy & W). exists x', y'; repeat split; try assumption; right; exact Ix. }
  destruct (sm_get l2 k) as [r2|] eqn:G; [|apply D, E]. apply sm_get_some_in in G. apply (in_map snd) in G. cbn [snd] in G. destruct r as [x|], r2 as [y|]; try discriminate E.
  destruct (w x y) as [[|]| |] eqn:Exy; try discriminate E; [apply D, E|]. exists x, y. repeat split; [left; reflexivity|exact G|exact Exy].
Qed.
Lemma eq_elems_true : forall l l2, length l = length l2 -> eq_elems w l l2 = Returns true -> Forall2 (fun (r r2 : ref) => exists x y, r = Some x /\ r2 = Some y /\ w x y = Returns true) l l2.
Proof using.
  induction l as [|[x|] l IH]; intros l2 L E; destruct l2 as [|[y|] l2]; cbn [eq_elems] in E; try discriminate E; try discriminate L; [constructor|].
  destruct (w x y) as [[|]| |] eqn:Exy; try discriminate E. constructor; [exists x, y; auto|]. apply IH; [injection L as L; exact L|exact E].
Qed.
Lemma eq_members_true : forall l l2, eq_members w l l2 = Returns true -> forall k r r2, In (k, r) l -> sm_get l2 k = Some r2 -> exists x y, r = Some x /\ r2 = Some y /\ w x y = Returns true.
Proof using.
  induction l as [|[k r] l IH]; intros l2 E k' r' r2 I G; [destruct I|]. cbn [eq_members] in E. destruct I as [I|I].
  - injection I as -> ->. rewrite G in E. destruct r' as [x|], r2 as [y|]; try discriminate E. destruct (w x y) as [[|]| |] eqn:Exy; try discriminate E. exists x, y. auto.
  - eapply IH; [|exact I|exact G]. destruct (sm_get l2 k) as [r0|]; [|exact E]. destruct r as [x|], r0 as [y|]; try discriminate E. destruct (w x y) as [[|]| |]; try discriminate E. exact E.
Qed.
End EqCases.

Lemma equals_panics h n : heap_wf h -> forall a b, (a < length h)%nat -> (b < length h)%nat -> h_equals n h a b = Panics -> nil_inside h a \/ nil_inside h b.
Proof.
  intros W. induction n as [|n IH]; intros a b La Lb E; [discriminate E|]. cbn [h_equals] in E.
  destruct (nth_error h a) as [c|] eqn:Ga; [|apply nth_error_None in Ga; lia]. destruct (nth_error h b) as [d|] eqn:Gb; [|apply nth_error_None in Gb; lia].
  assert (D : In None (cell_refs c) \/ In None (cell_refs d) \/ exists x y, In (Some x) (cell_refs c) /\ In (Some y) (cell_refs d) /\ h_equals n h x y = Panics).
  { destruct c as [| | | | |l|nid l|]; try discriminate E; destruct d as [| | | | |l2|nid2 l2|]; try discriminate E.
    - destruct (negb (Nat.eqb (length l) (length l2))); [discriminate E|]. apply eq_elems_panics in E as [I|I]; [left; exact I|right; right; exact I].
    - destruct (negb (Nat.eqb (length l) (length l2))); [discriminate E|]. destruct (sm_split l l2) as [[[x1 x2] x3] x4]. destruct (Nat.ltb 0 (length x1) || Nat.ltb 0 (length x4)); [discriminate E|]. apply eq_members_panics in E. exact E. }
  destruct D as [I|[I|(x & y & Ix & Iy & Exy)]].
  - left. exists a, c. split; [apply reaches_refl|split; assumption].
  - right. exists b, d. split; [apply reaches_refl|split; assumption].
  - destruct (IH x y) as [N|N]; [eapply W; [eapply nth_error_In, Ga|exact Ix]|eapply W; [eapply nth_error_In, Gb|exact Iy]|exact Exy| |].
    + left. eapply nil_step; eassumption.
    + right. eapply nil_step; eassumption.
Qed.
Lemma equals_runs h n : forall a b, h_equals n h a b = Runs -> exists l l2, chain h a l /\ length l = n /\ chain h b l2 /\ length l2 = n.
Proof.
  induction n as [|n IH]; intros a b E; [exists [], []; repeat split; constructor|]. cbn [h_equals] in E.
  destruct (nth_error h a) as [c|] eqn:Ga; [|discriminate E]. destruct (nth_error h b) as [d|] eqn:Gb; [|discriminate E].
  assert (D : exists x y, In (Some x) (cell_refs c) /\ In (Some y) (cell_refs d) /\ h_equals n h x y = Runs).
  { destruct c as [| | | | |l|nid l|]; try discriminate E; destruct d as [| | | | |l2|nid2 l2|]; try discriminate E.
    - destruct (negb (Nat.eqb (length l) (length l2))); [discriminate E|]. apply eq_elems_runs in E. exact E.
    - destruct (negb (Nat.eqb (length l) (length l2))); [discriminate E|]. destruct (sm_split l l2) as [[[x1 x2] x3] x4]. destruct (Nat.ltb 0 (length x1) || Nat.ltb 0 (length x4)); [discriminate E|]. apply eq_members_runs in E. exact E. }
  destruct D as (x & y & Ix & Iy & Exy). destruct (IH _ _ Exy) as (l & l2 & C & L & C2 & L2). exists (a :: l), (b :: l2).
  split; [econstructor; eassumption|]. split; [cbn [length]; congruence|]. split; [econstructor; eassumption|cbn [length]; congruence].
Qed.

Lemma ltb_0_false n : Nat.ltb 0 n = false -> n = 0%nat.
Proof. intros H. apply Nat.ltb_ge in H. lia. Qed.
Lemma filter_none {A} (f : A -> bool) l : length (filter f l) = 0%nat -> forall x, In x l -> f x = false.
Proof.
  intros L x I. destruct (f x) eqn:E; [|reflexivity]. assert (J : In x (filter f l)) by (apply filter_In; auto). destruct (filter f l); [destruct J|discriminate L].
Qed.
Lemma map_opt_all {A C} (f : A -> option C) l : (forall x, In x l -> exists y, f x = Some y) -> exists r, map_opt f l = Some r.
Proof.
  induction l as [|x l IH]; intros H; [exists []; reflexivity|]. destruct (H x (or_introl eq_refl)) as [y E]. destruct (IH (fun z I => H z (or_intror I))) as [r Er].
  exists (y :: r). cbn [map_opt]. rewrite E, Er. reflexivity.
Qed.
Lemma sm_get_nodup {V} (m : smap V) k v : NoDup (map fst m) -> In (k, v) m -> sm_get m k = Some v.
Proof.
  induction m as [|[k' v'] m IH]; intros N I; [destruct I|]. cbn [sm_get]. inversion N as [|? ? N1 N2]; subst. destruct (bseq_spec k k') as [->|D].
  - destruct I as [I|I]; [congruence|]. destruct N1. apply (in_map fst) in I. exact I.
  - destruct I as [I|I]; [congruence|]. apply IH; assumption.
Qed.
Lemma equals_true h n : (forall nid kvs, In (CDict nid kvs) h -> NoDup (map fst kvs)) -> forall a b, h_equals n h a b = Returns true ->
  exists v w, read n h a = Some v /\ read n h b = Some w.
Proof.
  intros S. induction n as [|n IH]; intros a b E; [discriminate E|]. cbn [h_equals] in E. cbn [read]. cbv zeta.
  destruct (nth_error h a) as [c|] eqn:Ga; [|discriminate E]. destruct (nth_error h b) as [d|] eqn:Gb; [|discriminate E].
  destruct c as [|x|x|f bit|s|l|nid l|x]; destruct d as [|y|y|f2 bit2|s2|l2|nid2 l2|y]; try discriminate E; try (eexists; eexists; split; reflexivity).
  - destruct (Nat.eqb_spec (length l) (length l2)) as [L|]; [|discriminate E]. cbn [negb] in E. apply eq_elems_true in E; [|exact L].
    assert (R : exists vs ws, map_opt (fun r : ref => match r with Some x => read n h x | None => None end) l = Some vs /\ map_opt (fun r : ref => match r with Some x => read n h x | None => None end) l2 = Some ws).
    { clear L Ga Gb. induction E as [|r r2 l l2 (x & y & -> & -> & Exy) _ (vs & ws & E1 & E2)]; [exists [], []; split; reflexivity|]. destruct (IH _ _ Exy) as (v & w & Rv & Rw). exists (v :: vs), (w :: ws).
      cbn [map_opt]. rewrite Rv, Rw, E1, E2. split; reflexivity. }
    destruct R as (vs & ws & E1 & E2). exists (JArray vs), (JArray ws). split; [exact (f_equal (option_map JArray) E1)|exact (f_equal (option_map JArray) E2)].
  - destruct (negb (Nat.eqb (length l) (length l2))); [discriminate E|]. unfold sm_split in E.
    destruct (Nat.ltb 0 (length (filter (fun kv => negb (sm_mem l2 (fst kv))) l))) eqn:F1; [discriminate E|].
    destruct (Nat.ltb 0 (length (filter (fun kv => negb (sm_mem l (fst kv))) l2))) eqn:F2; [discriminate E|]. cbn [orb] in E.
    apply ltb_0_false in F1, F2. pose proof (filter_none _ _ F1) as A. pose proof (filter_none _ _ F2) as B.
    assert (E1 : exists vs, map_opt (fun kv => option_map (pair (fst kv)) (match snd kv with Some x => read n h x | None => None end)) l = Some vs).
    { apply map_opt_all. intros [k r] I. specialize (A _ I). cbn [fst snd] in *. unfold sm_mem in A. destruct (sm_get l2 k) as [r2|] eqn:G; [|discriminate A].
      destruct (eq_members_true _ _ _ E k r r2 I G) as (x & y & -> & -> & Exy). destruct (IH _ _ Exy) as (v & w & Rv & _). rewrite Rv. eexists. reflexivity. }
    assert (E2 : exists vs, map_opt (fun kv => option_map (pair (fst kv)) (match snd kv with Some x => read n h x | None => None end)) l2 = Some vs).
    { apply map_opt_all. intros [k r2] I. specialize (B _ I). cbn [fst snd] in *. unfold sm_mem in B. destruct (sm_get l k) as [r|] eqn:G; [|discriminate B]. apply sm_get_some_in in G.
      assert (G2 : sm_get l2 k = Some r2). { apply sm_get_nodup; [|exact I]. eapply S, nth_error_In, Gb. }
      destruct (eq_members_true _ _ _ E k r r2 G G2) as (x & y & -> & -> & Exy). destruct (IH _ _ Exy) as (v & w & _ & Rw). rewrite Rw. eexists. reflexivity. }
    destruct E1 as [vs E1], E2 as [ws E2]. exists (JDict nid vs), (JDict nid2 ws). split; [exact (f_equal (option_map (JDict nid)) E1)|exact (f_equal (option_map (JDict nid2)) E2)].
Qed.

(** ** DeepCopy of values with references *)

Lemma copied_ext h h' : (forall x c, nth_error h x = Some c -> nth_error h' x = Some c) -> forall v r, copied h r v -> copied h' r v.
Proof.
  intros A. induction v as [|x|x|f bit|s|l IH|nid l IH|n] using json_ind'; intros r C; inversion C; subst; try (constructor; apply A; assumption).
  - econstructor; [apply A; eassumption|]. clear - IH H2. induction H2 as [|r v rs l Hr _ IHl]; [constructor|]. inversion IH; subst. constructor; [auto|apply IHl; assumption].
  - econstructor; [apply A; eassumption|]. clear - IH H3. induction H3 as [|r v rs l [Ek Hr] _ IHl]; [constructor|]. inversion IH; subst. constructor; [split; auto|apply IHl; assumption].
Qed.
Lemma adds_keeps h h' : adds h h' -> forall x c, nth_error h x = Some c -> nth_error h' x = Some c.
Proof. intros A x c E. rewrite (adds_old h h' x A); [exact E|]. apply nth_error_Some. rewrite E. discriminate. Qed.
Lemma copied_adds h h' v r : adds h h' -> copied h r v -> copied h' r v.
Proof. intros A. apply copied_ext, adds_keeps, A. Qed.

Definition copies_ok (f : heap -> addr -> dres ref) (n : nat) : Prop :=
  forall h a j, read n h a = Some j -> json_ok j -> exists h' r, f h a = DOk h' r /\ adds h h' /\ copied h' r j.
Lemma copies_elems f n : copies_ok f n -> forall rs h l,
  Forall2 (fun (r : ref) j => match r with Some x => read n h x | None => None end = Some j) rs l -> Forall json_ok l ->
  exists h' rs', copy_elems f h rs = DOk h' rs' /\ adds h h' /\ Forall2 (copied h') rs' l.
Proof.
  intros Hf. induction rs as [|r rs IH]; intros h l F O; inversion F as [|r' j rs' l' E F']; subst.
  - exists h, []. split; [reflexivity|]. split; [apply adds_refl|constructor].
  - inversion O as [|? ? Oj Ol]; subst. destruct r as [x|]; [|discriminate].
    destruct (Hf _ _ _ E Oj) as (h1 & b & E1 & A1 & R1).
    destruct (IH h1 l') as (h2 & rs2 & E2 & A2 & R2); [|exact Ol|].
    { eapply Forall2_impl; [|exact F']. intros [y|] v Ev; [|discriminate]. eapply read_adds; eassumption. }
    exists h2, (b :: rs2). cbn [copy_elems]. rewrite E1, E2. split; [reflexivity|].
    split; [eapply adds_trans; eassumption|]. constructor; [|exact R2]. eapply copied_adds; eassumption.
Qed.
Lemma copies_members f n : copies_ok f n -> forall (kvs : list (bytes * ref)) h (l : list (bytes * json)),
  Forall2 (fun kr kj => fst kr = fst kj /\ match snd kr with Some x => read n h x | None => None end = Some (snd kj)) kvs l -> Forall (fun kv => json_ok (snd kv)) l ->
  exists h' l', copy_members f h kvs = DOk h' l' /\ adds h h' /\ Forall2 (krel (copied h')) l' l.
Proof.
  intros Hf. induction kvs as [|[k r] rs IH]; intros h l F O; inversion F as [|r' [k' j] rs' l' E F']; subst.
  - exists h, []. split; [reflexivity|]. split; [apply adds_refl|constructor].
  - cbn [fst snd] in E. destruct E as [-> E]. inversion O as [|? ? Oj Ol]; subst. destruct r as [x|]; [|discriminate].
    destruct (Hf _ _ _ E Oj) as (h1 & b & E1 & A1 & R1).
    destruct (IH h1 l') as (h2 & rs2 & E2 & A2 & R2); [|exact Ol|].
    { eapply Forall2_impl; [|exact F']. intros [k2 [y|]] v [Ek Ev]; (split; [exact Ek|]); [|discriminate]. eapply read_adds; eassumption. }
    exists h2, ((k', b) :: rs2). cbn [copy_members]. rewrite E1, E2. split; [reflexivity|].
    split; [eapply adds_trans; eassumption|]. constructor; [|exact R2]. split; [reflexivity|]. eapply copied_adds; eassumption.
Qed.
Lemma app_keeps (h : heap) new : forall x c, nth_error h x = Some c -> nth_error (h ++ new) x = Some c.
Proof. intros x c E. rewrite nth_error_app1; [exact E|]. apply nth_error_Some. rewrite E. discriminate. Qed.
Lemma deep_copies ord : (forall h l, Permutation (ord h l) l) -> forall n, copies_ok (deep_copy ord n) n.
Proof.
  intros P. induction n as [|n IH]; intros h a j E O; [discriminate|]. cbn [read] in E. cbv zeta in E. cbn [deep_copy].
  assert (SC : forall c j', cell_refs c = [] -> (forall h' b, nth_error h' b = Some c -> copied h' (Some b) j') ->
     exists h' r, DOk (h ++ [c]) (Some (length h)) = DOk h' r /\ adds h h' /\ copied h' r j').
  { intros c j' Hc R. exists (h ++ [c]), (Some (length h)). split; [reflexivity|]. split; [apply adds_alloc; [apply adds_refl|rewrite Hc; intros x []]|]. apply R, halloc_new. }
  destruct (nth_error h a) as [c|] eqn:G; [|discriminate].
  destruct c; try (injection E as <-; apply SC; [reflexivity|intros h' b1 Hb; constructor; exact Hb]).
  - match type of E with option_map _ ?t = _ => destruct t as [l|] eqn:M; [|discriminate] end. injection E as <-. apply map_opt_forall2 in M. inversion O as [| | | | |? Ol| |]; subst.
    destruct (copies_elems _ _ IH _ _ _ M Ol) as (h1 & rs' & E1 & A1 & R1). rewrite E1.
    exists (h1 ++ [CArray rs']), (Some (length h1)). split; [reflexivity|]. split.
    + apply adds_alloc; [exact A1|]. cbn [cell_refs]. destruct (copy_elems_adds _ (deep_copy_adds ord n) _ _ _ _ E1) as [_ B]. exact B.
    + econstructor; [apply halloc_new|]. eapply Forall2_impl; [|exact R1]. intros r v. apply copied_ext, app_keeps.
  - match type of E with option_map _ ?t = _ => destruct t as [l|] eqn:M; [|discriminate] end. injection E as <-.
    apply map_opt_forall2 in M. inversion O as [| | | | | |? ? KI Ol _|]; subst.
    assert (M' : Forall2 (fun kr kj => fst kr = fst kj /\ match snd kr with Some x => read n h x | None => None end = Some (snd kj)) kvs l).
    { eapply Forall2_impl; [|exact M]. intros [k r] [k' v] Ev. cbn [fst snd] in *.
      destruct (match r with Some x => read n h x | None => None end) as [w|]; [|discriminate]. injection Ev as -> ->. auto. }
    assert (existsb (fun kv : bytes * ref => is_nil (snd kv)) kvs = false) as ->.
    { clear -M'. induction M' as [|[k r] [k' v] kvs l [_ E] _ IH]; [reflexivity|]. cbn [existsb fst snd] in *. rewrite IH. destruct r; [reflexivity|discriminate]. }
    destruct (Permutation_Forall2 (Permutation_sym (P h kvs)) M') as (l1 & Pl & M1).
    assert (Ol1 : Forall (fun kv : bytes * json => json_ok (snd kv)) l1) by (eapply Permutation_Forall; eassumption).
    destruct (copies_members _ _ IH _ _ _ M1 Ol1) as (h1 & l' & E1 & A1 & R1). rewrite E1.
    destruct (copy_members_adds _ (deep_copy_adds ord n) _ _ _ _ E1) as [_ B].
    destruct (Permutation_Forall2 (Permutation_sym Pl) (Forall2_flip' _ _ _ R1)) as (l0 & Pl0 & R0). apply Forall2_flip' in R0.
    assert (EK : map fst l0 = map fst l).
    { clear -R0. induction R0 as [|x y l0 l [Ek _] _ IH]; [reflexivity|]. cbn [map]. rewrite Ek, IH. reflexivity. }
    rewrite (sm_of_list_perm l' l0 Pl0) by (apply sm_ok_strong; change (StronglySorted blt (map fst l0)); rewrite EK; exact KI).
    exists (h1 ++ [CDict 0 l0]), (Some (length h1)). split; [reflexivity|]. split.
    + apply adds_alloc; [exact A1|]. cbn [cell_refs]. intros x I. apply in_map_iff in I as ([k r] & Er & I). cbn [snd] in Er. subst r.
      apply (B k). eapply Permutation_in; [apply Permutation_sym, Pl0|exact I].
    + econstructor; [apply halloc_new|]. eapply Forall2_impl; [|exact R0]. intros x y [Ek Er]. split; [exact Ek|]. revert Er. apply copied_ext, app_keeps.
  - injection E as <-. exists h, None. split; [reflexivity|]. split; [apply adds_refl|constructor].
Qed.

(** What a copy with nil in it looks like. *)
Lemma copied_nil h v : forall b, copied h (Some b) v -> forall n, subvalue (JPtr n) v -> nil_inside h b.
Proof.
  induction v as [|x|x|f bit|s|l IH|nid l IH|m] using json_ind'; intros b C n S; inversion C as [| | | | | |? rs ? G F|? ? rs ? G F]; subst; inversion S as [|v ? Iv Sv|k v ? ? Iv Sv]; subst.
  - clear C S. rewrite Forall_forall in IH.
    destruct (in_forall2 _ _ _ v (Forall2_flip' _ _ _ F) Iv) as (r & Ir & Cr). destruct r as [x|].
    + eapply nil_step; [exact G|exact Ir|]. eapply IH; eassumption.
    + exists b, (CArray rs). split; [apply reaches_refl|split; assumption].
  - clear C S. rewrite Forall_forall in IH.
    destruct (in_forall2 _ _ _ (k, v) (Forall2_flip' _ _ _ F) Iv) as ([k' r] & Ir & Ek & Cr). cbn [fst snd] in *. subst k'. apply (in_map snd) in Ir as Ir'. cbn [snd] in Ir'. destruct r as [x|].
    + eapply nil_step; [exact G|exact Ir'|]. eapply (IH (k, v)); eassumption.
    + exists b, (CDict 0 rs). split; [apply reaches_refl|split; assumption].
Qed.
Lemma copied_chain h v : forall b, copied h (Some b) v -> forall l, chain h b l -> (length l < jsize v)%nat.
Proof.
  induction v as [|x|x|f bit|s|l IH|nid l IH|m] using json_ind'; intros b C ch Ch; inversion C as [| | | | | |? rs ? G F|? ? rs ? G F]; subst.
  1-5: inversion Ch as [|? c y ? Gc I]; subst; [cbn; lia|]; match type of Gc with ?n = _ => match goal with H : n = Some ?d |- _ => lazymatch d with c => fail | _ => rewrite H in Gc; injection Gc as <-; destruct I end end end.
  - inversion Ch as [|? c y ch' Gc I Ch']; subst; [cbn; lia|]. rewrite G in Gc. injection Gc as <-. cbn [cell_refs] in I. destruct (in_forall2 _ _ _ _ F I) as (v & Iv & Cv). rewrite Forall_forall in IH. pose proof (IH v Iv y Cv _ Ch') as L.
    cbn [length jsize]. enough (jsize v <= fold_right (fun x n => jsize x + n) 0 l)%nat by lia. clear - Iv. induction l as [|w l IHl]; [destruct Iv|]. cbn [fold_right]. destruct Iv as [->|Iv]; [lia|]. specialize (IHl Iv). lia.
  - inversion Ch as [|? c y ch' Gc I Ch']; subst; [cbn; lia|]. rewrite G in Gc. injection Gc as <-. cbn [cell_refs] in I. apply in_map_iff in I as ([k r] & Er & I). cbn [snd] in Er. subst r.
    destruct (in_forall2 _ _ _ _ F I) as ([k' v] & Iv & Ek & Cv). cbn [fst snd] in *. rewrite Forall_forall in IH. pose proof (IH (k', v) Iv y Cv _ Ch') as L. cbn [snd] in L.
    cbn [length jsize]. enough (jsize v <= fold_right (fun x n => jsize (snd x) + n) 0 l)%nat by lia. clear - Iv. induction l as [|w l IHl]; [destruct Iv|]. cbn [fold_right]. destruct Iv as [->|Iv]; [cbn [snd]; lia|]. specialize (IHl Iv). lia.
Qed.

(** A walk over a copy with nil in it panics. *)
Lemma copied_panics {E X} (leaf : E -> cell -> X) at_elem at_member arr dict h v b e n : copied h (Some b) v -> subvalue (JPtr n) v ->
  ends (fun k => walk leaf at_elem at_member arr dict k h e b) Panics.
Proof.
  intros C S. destruct (walk leaf at_elem at_member arr dict (jsize v) h e b) as [x| |] eqn:R.
  - exfalso. apply walk_returns in R as (w & Rw & _). eapply holds_no_nil; [eexists; exact Rw|]. eapply copied_nil; eassumption.
  - rewrite <- R. apply walk_ends. rewrite R. discriminate.
  - exfalso. apply walk_runs in R as (l & Cl & L). apply (copied_chain _ _ _ C) in Cl. lia.
Qed.
