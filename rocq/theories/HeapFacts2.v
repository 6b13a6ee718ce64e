(** DeepCopy copies the content. *)
From Coq Require Import Sorting.Permutation Sorting.Sorted.
From Verif Require Import Base Strconv SortedMap SortedMapFacts Json SpecJson SpecEquals Access RfcFacts AccessFacts Heap SpecHeap HeapFacts.

Lemma Forall2_impl {A C} (P Q : A -> C -> Prop) l r : (forall x y, P x y -> Q x y) -> Forall2 P l r -> Forall2 Q l r.
Proof. intros H F. induction F; constructor; auto. Qed.

Lemma Forall2_map_r {A C D} (P : A -> D -> Prop) (g : C -> D) l r : Forall2 (fun x y => P x (g y)) l r -> Forall2 P l (map g r).
Proof. intros F. induction F; constructor; auto. Qed.

Lemma Forall2_flip' {A C} (P : A -> C -> Prop) l r : Forall2 P l r -> Forall2 (fun y x => P x y) r l.
Proof. intros F. induction F; constructor; auto. Qed.

Lemma map_opt_forall2 {A C} (f : A -> option C) l r : map_opt f l = Some r <-> Forall2 (fun x y => f x = Some y) l r.
Proof.
  revert r. induction l as [|x l IH]; intros r; cbn [map_opt].
  - split; [intros E; injection E as <-; constructor|intros F; inversion F; reflexivity].
  - split.
    + intros E. destruct (f x) as [y|] eqn:Ex; [|discriminate]. destruct (map_opt f l) as [r'|]; [|discriminate].
      injection E as <-. constructor; [exact Ex|]. apply IH. reflexivity.
    + intros F. inversion F as [|x' y l' r' Ex Fr]; subst. rewrite Ex. apply IH in Fr. rewrite Fr. reflexivity.
Qed.

(** Reading depends on the part of the heap that was there. *)
Lemma read_ext n : forall h h' a j, (forall x c, nth_error h x = Some c -> nth_error h' x = Some c) ->
  read n h a = Some j -> read n h' a = Some j.
Proof.
  induction n as [|n IH]; intros h h' a j A E; [discriminate|]. cbn [read] in *. cbv zeta in *.
  destruct (nth_error h a) as [c|] eqn:G; [|discriminate]. rewrite (A _ _ G).
  destruct c; try exact E.
  - destruct (map_opt _ rs) as [l|] eqn:M; [|discriminate]. apply map_opt_forall2 in M.
    match goal with |- option_map _ ?t = _ => assert (t = Some l) as ->; [|exact E] end.
    apply map_opt_forall2. eapply Forall2_impl; [|exact M]. intros [x|] y Ey; [apply (IH h); assumption|discriminate].
  - match type of E with option_map _ ?t = _ => destruct t as [l|] eqn:M; [|discriminate] end. apply map_opt_forall2 in M.
    match goal with |- option_map _ ?t = _ => assert (t = Some l) as ->; [|exact E] end.
    apply map_opt_forall2. eapply Forall2_impl; [|exact M]. intros [k [x|]] y Ey; [|discriminate]. simpl in *.
    destruct (read n h x) as [v|] eqn:Ev; [|discriminate]. rewrite (IH _ _ _ _ A Ev). exact Ey.
Qed.

Lemma read_app n h new a j : read n h a = Some j -> read n (h ++ new) a = Some j.
Proof. apply read_ext. intros x c E. rewrite nth_error_app1; [exact E|]. eapply nth_error_lt, E. Qed.

Lemma read_adds n h h' a j : adds h h' -> read n h a = Some j -> read n h' a = Some j.
Proof. intros (new & -> & _). apply read_app. Qed.

Lemma read_mono n : forall m h a j, (n <= m)%nat -> read n h a = Some j -> read m h a = Some j.
Proof.
  induction n as [|n IH]; intros m h a j L E; [discriminate|]. destruct m as [|m]; [lia|]. cbn [read] in *. cbv zeta in *.
  destruct (nth_error h a) as [c|] eqn:G; [|discriminate].
  destruct c; try exact E.
  - destruct (map_opt _ rs) as [l|] eqn:M; [|discriminate]. apply map_opt_forall2 in M.
    match goal with |- option_map _ ?t = _ => assert (t = Some l) as ->; [|exact E] end.
    apply map_opt_forall2. eapply Forall2_impl; [|exact M]. intros [x|] y Ey; [apply IH; [lia|exact Ey]|discriminate].
  - match type of E with option_map _ ?t = _ => destruct t as [l|] eqn:M; [|discriminate] end. apply map_opt_forall2 in M.
    match goal with |- option_map _ ?t = _ => assert (t = Some l) as ->; [|exact E] end.
    apply map_opt_forall2. eapply Forall2_impl; [|exact M]. intros [k [x|]] y Ey; [|discriminate]. simpl in *.
    destruct (read n h x) as [v|] eqn:Ev; [|discriminate]. rewrite (IH m _ _ _ ltac:(lia) Ev). exact Ey.
Qed.

Lemma last_binding_in {V} (l : list (bytes * V)) k v : NoDup (map fst l) -> In (k, v) l -> last_binding l k = Some v.
Proof.
  induction l as [|[k0 v0] l IH]; intros N I; [destruct I|]. cbn [last_binding map fst] in *. inversion N as [|? ? NI N']; subst.
  destruct I as [I|I].
  - injection I as -> ->. assert (last_binding l k = None) as ->.
    { clear -NI. induction l as [|[k1 v1] l IH]; [reflexivity|]. simpl in *. rewrite IH by tauto.
      destruct (bseq_spec k k1) as [->|_]; [tauto|reflexivity]. }
    rewrite bseq_refl. reflexivity.
  - rewrite (IH N' I). reflexivity.
Qed.

Lemma last_binding_none {V} (l : list (bytes * V)) k : ~ In k (map fst l) -> last_binding l k = None.
Proof.
  induction l as [|[k1 v1] l IH]; intros NI; [reflexivity|]. simpl in *. rewrite IH by tauto.
  destruct (bseq_spec k k1) as [->|_]; [tauto|reflexivity].
Qed.

Lemma sm_of_list_perm {V} (l l0 : list (bytes * V)) : Permutation l l0 -> sm_ok l0 -> sm_of_list l [] = l0.
Proof.
  intros P S. pose proof (sm_ok_nodup _ S) as N. unfold sm_keys in N.
  assert (NoDup (map fst l)) as N' by (eapply Permutation_NoDup; [apply Permutation_sym, Permutation_map, P|exact N]).
  apply sm_ext; [apply sm_of_list_ok; exact I|exact S|]. intros k.
  rewrite sm_of_list_get. cbn [sm_get]. rewrite <- (last_binding_sorted l0) by exact S.
  destruct (last_binding l0 k) as [v|] eqn:E.
  - rewrite (last_binding_sorted l0) in E by exact S. apply sm_get_some_in in E.
    rewrite (last_binding_in l k v N'); [reflexivity|]. eapply Permutation_in; [apply Permutation_sym, P|exact E].
  - rewrite (last_binding_none l); [reflexivity|]. intros I. apply (Permutation_in _ (Permutation_map fst P)) in I.
    apply in_map_iff in I as ([k' v] & Ek & I). simpl in Ek. subst k'. rewrite (last_binding_in _ _ _ N I) in E. discriminate.
Qed.

Definition copy_ok (f : heap -> addr -> dres ref) (n : nat) : Prop :=
  forall h a j, read n h a = Some j -> json_ok j -> no_reference j ->
    exists h' b, f h a = DOk h' (Some b) /\ adds h h' /\ read n h' b = Some (drop_ids j).

Lemma copy_elems_ok f n : copy_ok f n -> forall rs h l,
  Forall2 (fun (r : ref) j => match r with Some x => read n h x | None => None end = Some j) rs l ->
  Forall json_ok l -> Forall no_reference l ->
  exists h' rs', copy_elems f h rs = DOk h' rs' /\ adds h h' /\
    Forall2 (fun (r : ref) j => match r with Some x => read n h' x | None => None end = Some (drop_ids j)) rs' l.
Proof.
  intros Hf. induction rs as [|r rs IH]; intros h l F O NR; inversion F as [|r' j rs' l' E F']; subst.
  - exists h, []. split; [reflexivity|]. split; [apply adds_refl|constructor].
  - inversion O as [|? ? Oj Ol]; inversion NR as [|? ? Nj Nl]; subst. destruct r as [x|]; [|discriminate].
    destruct (Hf _ _ _ E Oj Nj) as (h1 & b & E1 & A1 & R1).
    destruct (IH h1 l') as (h2 & rs2 & E2 & A2 & R2); [|exact Ol|exact Nl|].
    { eapply Forall2_impl; [|exact F']. intros [y|] v Ev; [|discriminate]. eapply read_adds; eassumption. }
    exists h2, (Some b :: rs2). cbn [copy_elems]. rewrite E1, E2. split; [reflexivity|].
    split; [eapply adds_trans; eassumption|]. constructor; [|exact R2]. eapply read_adds; eassumption.
Qed.

Lemma copy_members_ok f n : copy_ok f n -> forall (kvs : list (bytes * ref)) h (l : list (bytes * json)),
  Forall2 (fun kr kj => fst kr = fst kj /\ match snd kr with Some x => read n h x | None => None end = Some (snd kj)) kvs l ->
  Forall (fun kv => json_ok (snd kv)) l -> Forall (fun kv => no_reference (snd kv)) l ->
  exists h' l', copy_members f h kvs = DOk h' l' /\ adds h h' /\
    Forall2 (fun kr kj => fst kr = fst kj /\ match snd kr with Some x => read n h' x | None => None end = Some (drop_ids (snd kj))) l' l.
Proof.
  intros Hf. induction kvs as [|[k r] rs IH]; intros h l F O NR; inversion F as [|r' [k' j] rs' l' E F']; subst.
  - exists h, []. split; [reflexivity|]. split; [apply adds_refl|constructor].
  - simpl in E. destruct E as [-> E]. inversion O as [|? ? Oj Ol]; inversion NR as [|? ? Nj Nl]; subst. destruct r as [x|]; [|discriminate].
    destruct (Hf _ _ _ E Oj Nj) as (h1 & b & E1 & A1 & R1).
    destruct (IH h1 l') as (h2 & rs2 & E2 & A2 & R2); [|exact Ol|exact Nl|].
    { eapply Forall2_impl; [|exact F']. intros [k2 [y|]] v [Ek Ev]; (split; [exact Ek|]); [|discriminate]. eapply read_adds; eassumption. }
    exists h2, ((k', Some b) :: rs2). cbn [copy_members]. rewrite E1, E2. split; [reflexivity|].
    split; [eapply adds_trans; eassumption|]. constructor; [|exact R2]. split; [reflexivity|]. eapply read_adds; eassumption.
Qed.

Lemma deep_copy_ok ord : (forall h l, Permutation (ord h l) l) -> forall n, copy_ok (deep_copy ord n) n.
Proof.
  intros P. induction n as [|n IH]; intros h a j E O NR; [discriminate|]. cbn [read] in E. cbv zeta in E. cbn [deep_copy].
  assert (forall (c : cell) (j' : json), cell_refs c = [] -> read (S n) [c] 0%nat = Some j' -> drop_ids j' = j' ->
     exists h' b, DOk (h ++ [c]) (Some (length h)) = DOk h' (Some b) /\ adds h h' /\ read (S n) h' b = Some (drop_ids j')) as SC.
  { intros c j' Hc R D. exists (h ++ [c]), (length h). split; [reflexivity|]. split.
    - apply adds_alloc; [apply adds_refl|rewrite Hc; intros x []].
    - rewrite D, <- R. cbn [read]. rewrite halloc_new. simpl. destruct c; try reflexivity.
      + simpl in Hc. subst rs. reflexivity.
      + simpl in Hc. destruct kvs; [reflexivity|discriminate]. }
  destruct (nth_error h a) as [c|] eqn:G; [|discriminate].
  destruct c; try (injection E as <-; apply SC; reflexivity).
  - destruct (map_opt _ rs) as [l|] eqn:M; [|discriminate]. injection E as <-. apply map_opt_forall2 in M.
    inversion O as [| | | | |? Ol| |]; subst.
    assert (Forall no_reference l) as Nl.
    { apply Forall_forall. intros v Iv m Hm. apply (NR m). eapply sub_elem; eassumption. }
    destruct (copy_elems_ok _ _ IH _ _ _ M Ol Nl) as (h1 & rs' & E1 & A1 & R1). rewrite E1.
    exists (h1 ++ [CArray rs']), (length h1). split; [reflexivity|]. split.
    + apply adds_alloc; [exact A1|]. simpl. destruct (copy_elems_adds _ (deep_copy_adds ord n) _ _ _ _ E1) as [_ B]. exact B.
    + cbn [read]. rewrite halloc_new. cbn [drop_ids].
      assert (map_opt (fun r : ref => match r with Some x => read n (h1 ++ [CArray rs']) x | None => None end) rs' = Some (map drop_ids l)) as ->; [|reflexivity].
      apply map_opt_forall2. apply Forall2_map_r. eapply Forall2_impl; [|exact R1].
      intros [x|] y Ey; [|discriminate]. apply read_app, Ey.
  - match type of E with option_map _ ?t = _ => destruct t as [l|] eqn:M; [|discriminate] end. injection E as <-.
    apply map_opt_forall2 in M. inversion O as [| | | | | |? ? KI Ol _|]; subst.
    assert (Forall (fun kv : bytes * json => no_reference (snd kv)) l) as Nl.
    { apply Forall_forall. intros [k v] Iv m Hm. apply (NR m). eapply sub_member; eassumption. }
    assert (Forall2 (fun kr kj => fst kr = fst kj /\ match snd kr with Some x => read n h x | None => None end = Some (snd kj)) kvs l) as M'.
    { eapply Forall2_impl; [|exact M]. intros [k r] [k' v] Ev. simpl in *.
      destruct (match r with Some x => read n h x | None => None end) as [w|]; [|discriminate]. injection Ev as -> ->. auto. }
    assert (existsb (fun kv : bytes * ref => is_nil (snd kv)) kvs = false) as ->.
    { clear -M'. induction M' as [|[k r] [k' v] kvs l [_ E] _ IH]; [reflexivity|]. simpl in *. rewrite IH.
      destruct r; [reflexivity|discriminate]. }
    destruct (Permutation_Forall2 (Permutation_sym (P h kvs)) M') as (l1 & Pl & M1).
    assert (Forall (fun kv : bytes * json => json_ok (snd kv)) l1) as Ol1 by (eapply Permutation_Forall; eassumption).
    assert (Forall (fun kv : bytes * json => no_reference (snd kv)) l1) as Nl1 by (eapply Permutation_Forall; eassumption).
    destruct (copy_members_ok _ _ IH _ _ _ M1 Ol1 Nl1) as (h1 & l' & E1 & A1 & R1). rewrite E1.
    destruct (copy_members_adds _ (deep_copy_adds ord n) _ _ _ _ E1) as [_ B].
    destruct (Permutation_Forall2 (Permutation_sym Pl) (Forall2_flip' _ _ _ R1)) as (l0 & Pl0 & R0). apply Forall2_flip' in R0.
    assert (map fst l0 = map fst l) as EK.
    { clear -R0. induction R0 as [|x y l0 l [Ek _] _ IH]; [reflexivity|]. simpl. rewrite Ek, IH. reflexivity. }
    rewrite (sm_of_list_perm l' l0 Pl0) by (apply sm_ok_strong; change (StronglySorted blt (map fst l0)); rewrite EK; exact KI).
    exists (h1 ++ [CDict 0 l0]), (length h1). split; [reflexivity|]. split.
    + apply adds_alloc; [exact A1|]. simpl. intros x I. apply in_map_iff in I as ([k r] & Er & I). simpl in Er. subst r.
      apply (B k). eapply Permutation_in; [apply Permutation_sym, Pl0|exact I].
    + cbn [read]. rewrite halloc_new. cbn [drop_ids].
      match goal with |- option_map _ ?t = _ => assert (t = Some (map (fun kv => (fst kv, drop_ids (snd kv))) l)) as ->; [|reflexivity] end.
      apply map_opt_forall2. apply Forall2_map_r. eapply Forall2_impl; [|exact R0].
      intros [k [x|]] [k' v] [Ek Ev]; [|discriminate]. simpl in *. subst k'. rewrite (read_app _ _ _ _ _ Ev). reflexivity.
  - injection E as <-. exfalso. apply (NR nid). constructor.
Qed.
