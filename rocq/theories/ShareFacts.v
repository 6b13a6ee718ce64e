(** Objects that contain each other: facts. *)
From Coq Require Import Sorting.Permutation Sorting.Sorted.
From Verif Require Import Base Strconv SortedMap SortedMapFacts Json SpecJson SpecEquals Access RfcFacts AccessFacts Heap SpecHeap HeapFacts HeapFacts2 SpecShare.

(** ** holds, by cases *)

Definition rholds (h : heap) (r : ref) (j : json) : Prop := exists b, r = Some b /\ holds h b j.

Lemma holds_det h a j j' : holds h a j -> holds h a j' -> j = j'.
Proof.
  intros [n R] [m R']. pose proof (read_mono n (n + m) h a j ltac:(lia) R) as E.
  pose proof (read_mono m (n + m) h a j' ltac:(lia) R') as E'. congruence.
Qed.

Lemma holds_lt h a j : holds h a j -> (a < length h)%nat.
Proof.
  intros [n R]. destruct n; [discriminate|]. cbn [read] in R. destruct (nth_error h a) eqn:G; [|discriminate].
  eapply nth_error_lt, G.
Qed.

Lemma forall2_fuel {A} (h : heap) (g : A -> ref) (l : list A) (js : list json) :
  Forall2 (fun x j => rholds h (g x) j) l js ->
  exists n, Forall2 (fun x j => match g x with Some b => read n h b | None => None end = Some j) l js.
Proof.
  induction 1 as [|x j l js (b & E & n & R) _ (m & IH)]; [exists 0%nat; constructor|].
  exists (n + m)%nat. constructor.
  - rewrite E. eapply read_mono; [|exact R]. lia.
  - eapply Forall2_impl; [|exact IH]. intros y j' E'. cbv beta in E'. destruct (g y); [|discriminate].
    eapply read_mono; [|exact E']. lia.
Qed.

Lemma holds_array h a l : holds h a (JArray l) <->
  exists rs, nth_error h a = Some (CArray rs) /\ Forall2 (rholds h) rs l.
Proof.
  split.
  - intros [n R]. destruct n; [discriminate|]. cbn [read] in R. cbv zeta in R.
    destruct (nth_error h a) as [c|] eqn:G; [|discriminate]. destruct c; try discriminate.
    + destruct (map_opt _ rs) as [l0|] eqn:E in R; [|discriminate]. injection R as ->. exists rs. split; [reflexivity|].
      apply map_opt_forall2 in E. eapply Forall2_impl; [|exact E]. intros r j Er. cbv beta in Er.
      destruct r as [b|]; [|discriminate]. exists b. split; [reflexivity|]. exists n. exact Er.
    + destruct (map_opt _ kvs) in R; discriminate.
  - intros (rs & G & F). destruct (forall2_fuel h (fun r => r) rs l) as [n F'].
    { eapply Forall2_impl; [|exact F]. intros x y H; exact H. }
    exists (S n). cbn [read]. cbv zeta. rewrite G. apply map_opt_forall2 in F'. rewrite F'. reflexivity.
Qed.

Definition mholds (h : heap) (kr : bytes * ref) (kj : bytes * json) : Prop := fst kr = fst kj /\ rholds h (snd kr) (snd kj).

Lemma holds_dict h a nid kvs : holds h a (JDict nid kvs) <->
  exists rs, nth_error h a = Some (CDict nid rs) /\ Forall2 (mholds h) rs kvs.
Proof.
  split.
  - intros [n R]. destruct n; [discriminate|]. cbn [read] in R. cbv zeta in R.
    destruct (nth_error h a) as [c|] eqn:G; [|discriminate]. destruct c as [| | | | |rs|nid0 rs|]; try discriminate.
    + destruct (map_opt _ rs) in R; discriminate.
    + destruct (map_opt _ rs) as [l0|] eqn:E in R; [|discriminate]. injection R as -> ->. exists rs. split; [reflexivity|].
      apply map_opt_forall2 in E. eapply Forall2_impl; [|exact E]. intros [k r] [k' j] Er. cbn [fst snd] in Er.
      destruct r as [b|]; [|discriminate]. destruct (read n h b) as [j0|] eqn:Eb; [|discriminate]. injection Er as -> ->.
      split; [reflexivity|]. exists b. split; [reflexivity|]. exists n. exact Eb.
  - intros (rs & G & F).
    destruct (forall2_fuel h (fun kr : bytes * ref => snd kr) rs (map snd kvs)) as [n F'].
    { apply Forall2_map_r. eapply Forall2_impl; [|exact F]. intros x y [_ H]; exact H. }
    exists (S n). cbn [read]. cbv zeta. rewrite G.
    enough (map_opt (fun kv : bytes * ref => option_map (pair (fst kv)) match snd kv with Some x => read n h x | None => None end) rs = Some kvs) as ->
      by reflexivity.
    apply map_opt_forall2. clear G. revert kvs F F'. induction rs as [|[k r] rs IH]; intros kvs F F'.
    + inversion F; constructor.
    + inversion F as [|? [k' j] ? kvs0 [M _] F0]; subst. simpl in F'. inversion F'; subst. constructor; [|apply IH; assumption].
      simpl in *. match goal with H : _ = Some j |- _ => rewrite H end. simpl. subst. reflexivity.
Qed.

Lemma holds_leaf h a j : ~ is_container j -> holds h a j ->
  exists c, nth_error h a = Some c /\ cell_refs c = [] /\ forall h', nth_error h' a = Some c -> holds h' a j.
Proof.
  intros NC [n R]. destruct n; [discriminate|]. cbn [read] in R. cbv zeta in R.
  destruct (nth_error h a) as [c|] eqn:G; [|discriminate]. exists c. split; [reflexivity|].
  destruct c; try (split; [reflexivity|]; intros h' G'; exists 1%nat; cbn [read]; cbv zeta; rewrite G'; exact R).
  - destruct (map_opt _ rs) in R; [|discriminate]. injection R as <-. destruct NC; exact I.
  - destruct (map_opt _ kvs) in R; [|discriminate]. injection R as <-. destruct NC; exact I.
Qed.

(** ** Paths *)

Lemma leads_app h a p b : leads h a p b -> forall q c, leads h b q c -> leads h a (p ++ q) c.
Proof.
  induction 1 as [a|a nid kvs k b p c E I _ IH|a rs i b p c E I _ IH]; intros q d L; [exact L| |]; simpl.
  - eapply leads_member; [exact E|exact I|]. apply IH, L.
  - eapply leads_element; [exact E|exact I|]. apply IH, L.
Qed.

Lemma reaches_refl h a : reaches h a a.
Proof. exists []. constructor. Qed.

Lemma reaches_trans h a b c : reaches h a b -> reaches h b c -> reaches h a c.
Proof. intros [p L] [q M]. exists (p ++ q). eapply leads_app; eassumption. Qed.

Lemma reaches_ref h a c x : nth_error h a = Some c -> In (Some x) (cell_refs c) -> reaches h a x.
Proof.
  intros G I. destruct c as [| | | | |rs|nid kvs|]; try destruct I.
  - apply In_nth_error in I as [i I]. exists [Idx i]. eapply leads_element; [exact G|exact I|constructor].
  - simpl in I. apply in_map_iff in I as ([k r] & E & I). simpl in E. subst r.
    exists [Key k]. eapply leads_member; [exact G|exact I|constructor].
Qed.

Lemma reaches_closed h a : closed (reaches h a) h.
Proof. intros b c x R G I. eapply reaches_trans; [exact R|]. eapply reaches_ref; eassumption. Qed.

(** What an object stands for depends only on what it contains. *)
Lemma holds_frame h h' a j : (forall b, reaches h a b -> nth_error h' b = nth_error h b) -> holds h a j -> holds h' a j.
Proof.
  intros S [n R]. exists n. rewrite <- R. apply (read_frame (reaches h a)); [apply reaches_closed|exact S|apply reaches_refl].
Qed.

Lemma in_forall2 {A C} (P : A -> C -> Prop) l r x : Forall2 P l r -> In x l -> exists y, In y r /\ P x y.
Proof.
  induction 1 as [|u v l r H _ IH]; intros I; [destruct I|]. destruct I as [->|I]; [exists v; simpl; auto|].
  destruct (IH I) as (y & Iy & Hy). exists y. simpl; auto.
Qed.

Lemma nth_forall2 {A C} (P : A -> C -> Prop) l r i x : Forall2 P l r -> nth_error l i = Some x -> exists y, nth_error r i = Some y /\ P x y.
Proof.
  intros F. revert i. induction F as [|u v l r H _ IH]; intros [|i] E; simpl in E; try discriminate.
  - injection E as ->. exists v. auto.
  - apply IH, E.
Qed.

Lemma forall2_length {A C} (P : A -> C -> Prop) l r : Forall2 P l r -> length l = length r.
Proof. induction 1; simpl; congruence. Qed.

Lemma nth_forall2_r {A C} (P : A -> C -> Prop) l r i y : Forall2 P l r -> nth_error r i = Some y -> exists x, nth_error l i = Some x /\ P x y.
Proof. intros F. apply Forall2_flip' in F. apply (nth_forall2 _ _ _ _ _ F). Qed.

Lemma leads_holds h a p b : leads h a p b -> forall j, holds h a j -> exists jb, holds h b jb /\ value_at j p jb.
Proof.
  induction 1 as [a|a nid kvs k b p c G I _ IH|a rs i b p c G I _ IH]; intros j H.
  - exists j. split; [exact H|constructor].
  - assert (exists kvs', j = JDict nid kvs' /\ Forall2 (mholds h) kvs kvs') as (kvs' & -> & F).
    { destruct H as [n R]. destruct n; [discriminate|]. pose proof R as R0. cbn [read] in R. cbv zeta in R. rewrite G in R.
      destruct (map_opt _ kvs) as [l0|] in R; [|discriminate]. injection R as <-. exists l0. split; [reflexivity|].
      assert (holds h a (JDict nid l0)) as H by (exists (S n); exact R0). apply holds_dict in H as (rs & G' & F). congruence. }
    destruct (in_forall2 _ _ _ _ F I) as ([k' x] & Ix & Ek & b' & Eb & Hb). simpl in *. subst k'. injection Eb as <-.
    destruct (IH _ Hb) as (jc & Hc & Vc). exists jc. split; [exact Hc|]. econstructor; eassumption.
  - assert (exists l, j = JArray l /\ Forall2 (rholds h) rs l) as (l & -> & F).
    { destruct H as [n R]. destruct n; [discriminate|]. pose proof R as R0. cbn [read] in R. cbv zeta in R. rewrite G in R.
      destruct (map_opt _ rs) as [l0|] in R; [|discriminate]. injection R as <-. exists l0. split; [reflexivity|].
      assert (holds h a (JArray l0)) as H by (exists (S n); exact R0). apply holds_array in H as (rs' & G' & F). congruence. }
    destruct (nth_forall2 _ _ _ _ _ F I) as (x & Ix & b' & Eb & Hb). injection Eb as <-.
    destruct (IH _ Hb) as (jc & Hc & Vc). exists jc. split; [exact Hc|]. econstructor; eassumption.
Qed.

Lemma reaches_holds h a j b : holds h a j -> reaches h a b -> exists jb, holds h b jb.
Proof. intros H [p L]. destruct (leads_holds _ _ _ _ L _ H) as (jb & Hb & _). exists jb. exact Hb. Qed.

(** ** No cycles *)

Fixpoint jsize (j : json) : nat :=
  match j with
  | JArray l => S (fold_right (fun x n => jsize x + n)%nat 0%nat l)
  | JDict _ kvs => S (fold_right (fun kv n => jsize (snd kv) + n)%nat 0%nat kvs)
  | _ => 1%nat
  end.

Lemma value_at_size j p v : value_at j p v -> (length p + jsize v <= jsize j)%nat.
Proof.
  induction 1 as [j|nid kvs k x p v I _ IH|l i x p v I _ IH]; simpl; [lia| |].
  - enough (jsize x <= fold_right (fun kv n => jsize (snd kv) + n) 0 kvs)%nat by lia.
    clear IH. induction kvs as [|[k' y] kvs IH]; [destruct I|]. destruct I as [E|I]; simpl; [injection E as -> ->; lia|].
    specialize (IH I). lia.
  - enough (jsize x <= fold_right (fun x n => jsize x + n) 0 l)%nat by lia.
    apply nth_error_In in I. clear IH. induction l as [|y l IH]; [destruct I|]. destruct I as [->|I]; simpl; [lia|].
    specialize (IH I). lia.
Qed.

Lemma acyclic h a j p : holds h a j -> leads h a p a -> p = [].
Proof.
  intros H L. destruct (leads_holds _ _ _ _ L _ H) as (jb & Hb & V). rewrite (holds_det _ _ _ _ Hb H) in V.
  apply value_at_size in V. destruct p; [reflexivity|simpl in V; lia].
Qed.

(** ** Writing one object *)

Lemma replaced_ext v P Q j j' : (forall p, P p <-> Q p) -> replaced v P j j' -> replaced v Q j j'.
Proof.
  intros E R. revert Q E. induction R as [P j H|P j H NC|P l l' H L F IH|P nid kvs kvs' H L F IH]; intros Q E.
  - apply rep_here, E, H.
  - apply rep_leaf; [|exact NC]. rewrite <- E. exact H.
  - apply rep_array; [rewrite <- E; exact H|exact L|]. intros i x y Ex Ey. eapply IH; [exact Ex|exact Ey|]. intros p. apply E.
  - apply rep_dict; [rewrite <- E; exact H|exact L|]. intros i k x y Ex Ey. eapply IH; [exact Ex|exact Ey|]. intros p. apply E.
Qed.

Lemma json_ok_array l : json_ok (JArray l) -> Forall json_ok l.
Proof. intros H; inversion H; assumption. Qed.
Lemma json_ok_dict nid kvs : json_ok (JDict nid kvs) -> keys_increasing kvs /\ Forall (fun kv => json_ok (snd kv)) kvs.
Proof. intros H; inversion H; auto. Qed.

Lemma forall2_choose {A C D} (P : A -> C -> Prop) (Q : A -> C -> D -> Prop) l r :
  Forall2 P l r -> (forall x y, In y r -> P x y -> exists z, Q x y z) ->
  exists zs, Forall2 (fun xy z => Q (fst xy) (snd xy) z) (combine l r) zs /\ length zs = length r /\ length l = length r.
Proof.
  induction 1 as [|x y l r H _ IH]; intros C0; [exists []; simpl; repeat constructor|].
  destruct (C0 x y (or_introl eq_refl) H) as [z Hz]. destruct IH as (zs & F & L1 & L2).
  { intros x' y' I'. apply C0. right. exact I'. }
  exists (z :: zs). simpl. split; [constructor; assumption|lia].
Qed.

Lemma combine_nth' {A C} (l : list A) (r : list C) i x y : nth_error l i = Some x -> nth_error r i = Some y ->
  nth_error (combine l r) i = Some (x, y).
Proof.
  revert r i. induction l as [|u l IH]; intros [|v r] [|i]; simpl; try discriminate; [congruence|]. apply IH.
Qed.

Lemma forall2_nth {A C} (P : A -> C -> Prop) l r : length l = length r ->
  (forall i x y, nth_error l i = Some x -> nth_error r i = Some y -> P x y) -> Forall2 P l r.
Proof.
  revert r. induction l as [|x l IH]; intros [|y r] L H; try discriminate; constructor.
  - apply (H 0%nat); reflexivity.
  - apply IH; [simpl in L; lia|]. intros i u w Eu Ew. apply (H (S i)); assumption.
Qed.

Lemma nth_lt_some {A} (l : list A) i : (i < length l)%nat -> exists x, nth_error l i = Some x.
Proof. intros L. destruct (nth_error l i) eqn:E; [eauto|]. apply nth_error_None in E. lia. Qed.

Lemma nth_ext_opt {A} (l r : list A) : length l = length r ->
  (forall i x y, nth_error l i = Some x -> nth_error r i = Some y -> x = y) -> l = r.
Proof.
  revert r. induction l as [|x l IH]; intros [|y r] L H; try discriminate; [reflexivity|]. f_equal.
  - apply (H 0%nat); reflexivity.
  - apply IH; [simpl in L; lia|]. intros i u w Eu Ew. apply (H (S i)); assumption.
Qed.

Section Write.
Context (h h' : heap) (x : addr) (v : json).
Hypothesis SAME : forall b c, b <> x -> nth_error h b = Some c -> nth_error h' b = Some c.
Hypothesis HV : holds h' x v.

Lemma write_replaces : forall j a, json_ok j -> holds h a j ->
  exists j', holds h' a j' /\ replaced v (fun p => leads h a p x) j j'.
Proof.
  assert (NH : forall a, a <> x -> ~ leads h a [] x) by (intros a N L; inversion L; congruence).
  assert (LEAF : forall j a, ~ is_container j -> a <> x -> holds h a j ->
            exists j', holds h' a j' /\ replaced v (fun p => leads h a p x) j j').
  { intros j a NC N H. exists j. split; [|apply rep_leaf; [apply NH, N|exact NC]].
    destruct (holds_leaf _ _ _ NC H) as (c & G & _ & K). apply K, SAME; assumption. }
  assert (HERE : forall j, exists j', holds h' x j' /\ replaced v (fun p => leads h x p x) j j').
  { intros j. exists v. split; [exact HV|]. apply rep_here. constructor. }
  induction j as [| | | | |l IH|nid kvs IH|] using json_ind'; intros a O H;
    (destruct (Nat.eq_dec a x) as [->|N]; [apply HERE|]); try solve [apply LEAF; [intros []|exact N|exact H]].
  - apply holds_array in H as (rs & G & F). apply json_ok_array in O. rewrite Forall_forall in O, IH.
    destruct (forall2_choose _ (fun r y z => rholds h' r z /\ exists b, r = Some b /\ replaced v (fun p => leads h b p x) y z) _ _ F) as (zs & FZ & L1 & L2).
    { intros r y I (b & -> & Hb). destruct (IH y I b (O y I) Hb) as (z & Hz & Rz). exists z. split; exists b; auto. }
    exists (JArray zs). split.
    + apply holds_array. exists rs. split; [apply SAME; assumption|]. apply forall2_nth; [lia|].
      intros i r z Er Ez. destruct (nth_forall2_r _ _ _ _ _ FZ Ez) as ([r0 y] & E0 & Q & _).
      destruct (nth_lt_some l i) as [y' Ey]; [rewrite <- L2; eapply nth_error_lt, Er|].
      rewrite (combine_nth' _ _ _ _ _ Er Ey) in E0. injection E0 as <- <-. exact Q.
    + apply rep_array; [apply NH, N|lia|]. intros i y z Ey Ez.
      destruct (nth_forall2_r _ _ _ _ _ FZ Ez) as ([r0 y0] & E0 & _ & b & Eb & Rb).
      destruct (nth_lt_some rs i) as [r Er]; [rewrite L2; eapply nth_error_lt, Ey|].
      rewrite (combine_nth' _ _ _ _ _ Er Ey) in E0. injection E0 as <- <-. simpl in *. subst r.
      eapply replaced_ext; [|exact Rb]. intros p. cbv beta. split; intros L.
      * eapply leads_element; eassumption.
      * inversion L; subst. match goal with E : nth_error h a = Some (CArray _) |- _ => rewrite G in E; injection E as <- end.
        match goal with E : nth_error rs i = Some (Some ?b0) |- _ => rewrite Er in E; injection E as <- end. assumption.
  - apply holds_dict in H as (rs & G & F). apply json_ok_dict in O as [KI O]. rewrite Forall_forall in O, IH.
    destruct (forall2_choose _ (fun (kr : bytes * ref) (ky : bytes * json) (kz : bytes * json) =>
       fst kz = fst ky /\ mholds h' kr kz /\ exists b, snd kr = Some b /\ replaced v (fun p => leads h b p x) (snd ky) (snd kz)) _ _ F) as (zs & FZ & L1 & L2).
    { intros [k r] [k' y] I [Ek (b & Eb & Hb)]. simpl in *. subst k' r.
      destruct (IH _ I b (O _ I) Hb) as (z & Hz & Rz). exists (k, z). split; [reflexivity|]. split; [split; [reflexivity|]; exists b; auto|].
      exists b. auto. }
    assert (EK : map fst kvs = map fst zs).
    { clear - FZ L1 L2. revert kvs zs L1 L2 FZ. induction rs as [|r rs IH]; intros [|ky kvs] [|z zs] L1 L2 FZ; simpl in *; try lia; [reflexivity|].
      inversion FZ as [|? ? ? ? (E & _) F']; subst. simpl in E. rewrite E. f_equal. apply IH; [lia|lia|exact F']. }
    exists (JDict nid zs). split.
    + apply holds_dict. exists rs. split; [apply SAME; assumption|]. apply forall2_nth; [lia|].
      intros i r z Er Ez. destruct (nth_forall2_r _ _ _ _ _ FZ Ez) as ([r0 y] & E0 & _ & Q & _).
      destruct (nth_lt_some kvs i) as [y' Ey]; [rewrite <- L2; eapply nth_error_lt, Er|].
      rewrite (combine_nth' _ _ _ _ _ Er Ey) in E0. injection E0 as <- <-. exact Q.
    + apply rep_dict; [apply NH, N|exact EK|]. intros i k y z Ey Ez.
      destruct (nth_forall2_r _ _ _ _ _ FZ Ez) as ([r0 y0] & E0 & _ & _ & b & Eb & Rb).
      destruct (nth_lt_some rs i) as [r Er]; [rewrite L2; eapply nth_error_lt, Ey|].
      rewrite (combine_nth' _ _ _ _ _ Er Ey) in E0. injection E0 as <- <-. destruct r as [k0 r]. simpl in *. subst r.
      destruct (nth_forall2 _ _ _ _ _ F Er) as ([k1 y1] & Ey1 & Ek & _). rewrite Ey in Ey1. injection Ey1 as <- <-. simpl in Ek. subst k0.
      assert (NoDup (map fst rs)) as ND.
      { assert (map fst rs = map fst kvs) as ->.
        { clear - F. induction F as [|[k r] [k' y] rs kvs [E _] _ IH]; simpl in *; [reflexivity|]. congruence. }
        apply sm_ok_nodup. apply sm_ok_strong. exact KI. }
      eapply replaced_ext; [|exact Rb]. intros p. cbv beta. split; intros L.
      * eapply leads_member; [exact G|eapply nth_error_In, Er|exact L].
      * inversion L; subst. match goal with E : nth_error h a = Some (CDict _ _) |- _ => rewrite G in E; injection E as <- <- end.
        match goal with I : In (k, Some ?b0) rs |- _ => assert (b0 = b) as -> end; [|assumption].
        match goal with I : In (k, Some ?b0) rs |- _ => pose proof (last_binding_in rs k (Some b0) ND I) as B1 end.
        pose proof (last_binding_in rs k (Some b) ND ltac:(eapply nth_error_In, Er)) as B2. congruence.
Qed.

Lemma write_becomes : becomes h x v h'.
Proof. split; [exact HV|]. intros a j O H. apply write_replaces; assumption. Qed.
End Write.

(** ** Consequences of [becomes] *)

Lemma replaced_none v P j j' : (forall p, ~ P p) -> replaced v P j j' -> j = j'.
Proof.
  intros N R. revert N. induction R as [P j H|P j H NC|P l l' H L F IH|P nid kvs kvs' H L F IH]; intros N.
  - destruct (N _ H).
  - reflexivity.
  - f_equal. apply nth_ext_opt; [exact L|]. intros i x y Ex Ey. eapply IH; [exact Ex|exact Ey|]. intros p; apply N.
  - f_equal. apply nth_ext_opt; [apply (f_equal (@length _)) in L; rewrite !map_length in L; exact L|].
    intros i [k x] [k' y] Ex Ey. assert (k' = k) as ->.
    { apply (map_nth_error fst) in Ex, Ey. rewrite L in Ex. rewrite Ex in Ey. simpl in Ey. congruence. }
    f_equal. eapply IH; [exact Ex|exact Ey|]. intros p; apply N.
Qed.

Lemma replaced_visible v j p w : value_at j p w -> forall P j', replaced v P j j' -> P p ->
  (forall q r, P q -> P (q ++ r) -> r = []) -> value_at j' p v.
Proof.
  induction 1 as [j|nid kvs k x p w I _ IH|l i x p w I _ IH]; intros P j' R Pp A.
  - inversion R; subst; try contradiction. constructor.
  - inversion R as [? ? H| | |? ? ? kvs' H L F]; subst.
    + specialize (A [] _ H Pp). discriminate.
    + contradiction (H0 Logic.I).
    + apply In_nth_error in I as [i I]. pose proof (nth_error_lt _ _ _ I) as Li.
      destruct (nth_lt_some kvs' i) as [[k' y] Ey]; [apply (f_equal (@length _)) in L; rewrite !map_length in L; lia|].
      assert (k' = k) as ->. { apply (map_nth_error fst) in I. rewrite L in I. apply (map_nth_error fst) in Ey. rewrite Ey in I. simpl in I. congruence. }
      econstructor; [eapply nth_error_In, Ey|]. eapply IH; [eapply F; eassumption|exact Pp|].
      intros q r Pq Pr. apply (A (Key k :: q) r Pq Pr).
  - inversion R as [? ? H| |? ? l' H L F|]; subst.
    + specialize (A [] _ H Pp). discriminate.
    + contradiction (H0 Logic.I).
    + pose proof (nth_error_lt _ _ _ I) as Li. destruct (nth_lt_some l' i) as [y Ey]; [lia|].
      econstructor; [exact Ey|]. eapply IH; [eapply F; eassumption|exact Pp|].
      intros q r Pq Pr. apply (A (Idx i :: q) r Pq Pr).
Qed.

Lemma lookup_in {V} k (x : V) kvs : NoDup (map fst kvs) -> In (k, x) kvs -> lookup k kvs = Some x.
Proof.
  induction kvs as [|[k' y] kvs IH]; intros N I; [destruct I|]. simpl in *. inversion N as [|? ? NI N']; subst.
  destruct (bseq_spec k k') as [->|NE].
  - destruct I as [E|I]; [congruence|]. destruct NI. apply (in_map fst) in I. exact I.
  - destruct I as [E|I]; [congruence|]. apply IH; assumption.
Qed.

Lemma replaced_put v j p w : value_at j p w -> forall P j', json_ok j -> replaced v P j j' -> (forall q, P q <-> q = p) ->
  put_at j p v = Some j'.
Proof.
  induction 1 as [j|nid kvs k x p w I _ IH|l i x p w I _ IH]; intros P j' O R A.
  - cbn [put_at]. f_equal. assert (P []) as P0 by (apply A; reflexivity). inversion R; subst; try contradiction; reflexivity.
  - assert (~ P []) as N0 by (rewrite A; discriminate).
    inversion R as [| | |? ? ? kvs' H L F]; subst; try contradiction; [contradiction (H0 Logic.I)|].
    apply json_ok_dict in O as [KI O]. pose proof (sm_ok_nodup _ (proj2 (sm_ok_strong _) KI)) as ND. unfold sm_keys in ND.
    cbn [put_at]. rewrite (lookup_in _ _ _ ND I). rewrite Forall_forall in O.
    destruct (In_nth_error _ _ I) as [i0 Ei]. pose proof (nth_error_lt _ _ _ Ei) as Li.
    assert (length kvs = length kvs') as LL by (apply (f_equal (@length _)) in L; rewrite !map_length in L; exact L).
    assert (KEQ : forall i k1 x1 k2 y2, nth_error kvs i = Some (k1, x1) -> nth_error kvs' i = Some (k2, y2) -> k2 = k1).
    { intros i k1 x1 k2 y2 E1 E2. apply (map_nth_error fst) in E1, E2. rewrite L in E1. rewrite E1 in E2. simpl in E2. congruence. }
    destruct (nth_lt_some kvs' i0) as [[k' y] Ey]; [lia|]. rewrite (KEQ _ _ _ _ _ Ei Ey) in Ey.
    erewrite IH; [|exact (O _ I)|eapply F; [exact Ei|exact Ey]|].
    2: { intros q. rewrite A. split; [intros E; injection E as ->; reflexivity|intros ->; reflexivity]. }
    do 2 f_equal. apply nth_ext_opt; [rewrite map_length; exact LL|].
    intros i a b Ea Eb. destruct (nth_lt_some kvs i) as [[k1 x1] E1]; [rewrite LL; eapply nth_error_lt, Eb|].
    rewrite (map_nth_error _ _ _ E1) in Ea. injection Ea as <-. destruct b as [k2 y2]. pose proof (KEQ _ _ _ _ _ E1 Eb) as ->.
    simpl. destruct (bseq_spec k1 k) as [->|NK].
    + assert (i = i0) as ->.
      { apply (NoDup_nth_error (map fst kvs)); [exact ND|rewrite map_length; eapply nth_error_lt, E1|].
        rewrite (map_nth_error fst _ _ E1), (map_nth_error fst _ _ Ei). reflexivity. }
      congruence.
    + f_equal. eapply replaced_none; [|eapply F; [exact E1|exact Eb]]. intros q. cbv beta. rewrite A. congruence.
  - assert (~ P []) as N0 by (rewrite A; discriminate).
    inversion R as [| |? ? l' H L F|]; subst; try contradiction; [contradiction (H0 Logic.I)|].
    apply json_ok_array in O. rewrite Forall_forall in O. pose proof (nth_error_lt _ _ _ I) as Li.
    cbn [put_at]. rewrite I. destruct (nth_lt_some l' i) as [y Ey]; [lia|].
    erewrite IH; [|apply O; eapply nth_error_In, I|eapply F; [exact I|exact Ey]|].
    2: { intros q. rewrite A. split; [intros E; injection E as ->; reflexivity|intros ->; reflexivity]. }
    do 2 f_equal. assert (forall n, nth_error l n <> None -> n <> i -> nth_error l n = nth_error l' n) as SAMEN.
    { intros n Hn NE. destruct (nth_error l n) as [a|] eqn:Ea; [|contradiction].
      destruct (nth_lt_some l' n) as [b Eb]; [apply nth_error_lt in Ea; lia|]. rewrite Eb. f_equal.
      eapply replaced_none; [|eapply F; [exact Ea|exact Eb]]. intros q. cbv beta. rewrite A. congruence. }
    clear - Ey SAMEN L Li. revert l' i Li L Ey SAMEN. induction l as [|a l IH]; intros [|b l'] [|i] Li L Ey S; simpl in *; try lia.
    + f_equal; [congruence|]. apply nth_ext_opt; [lia|]. intros n u w Eu Ew. specialize (S (Datatypes.S n)). simpl in S.
      rewrite Eu, Ew in S. specialize (S ltac:(discriminate) ltac:(discriminate)). congruence.
    + f_equal.
      * specialize (S 0%nat). simpl in S. specialize (S ltac:(discriminate) ltac:(discriminate)). congruence.
      * apply IH; [lia|lia|exact Ey|]. intros n Hn NE. apply (S (Datatypes.S n)); [exact Hn|congruence].
Qed.

(** ** The mutating methods *)

(** Adding to the reference maps and to the value maps goes in parallel. *)
Lemma mholds_add h k r j rs kvs : Forall2 (mholds h) rs kvs -> rholds h r j ->
  Forall2 (mholds h) (sm_add rs k r) (sm_add kvs k j).
Proof.
  intros F H. induction F as [|[k1 r1] [k2 j2] rs kvs [E M] F IH]; simpl; [repeat constructor; exact H|].
  simpl in E. subst k2. destruct (bcmp k k1).
  - constructor; [split; [reflexivity|exact H]|exact F].
  - constructor; [split; [reflexivity|exact H]|]. constructor; [split; [reflexivity|exact M]|exact F].
  - constructor; [split; [reflexivity|exact M]|exact IH].
Qed.

Lemma mholds_delete h k rs kvs : Forall2 (mholds h) rs kvs ->
  Forall2 (mholds h) (fst (sm_delete rs k)) (fst (sm_delete kvs k)).
Proof.
  intros F. induction F as [|[k1 r1] [k2 j2] rs kvs [E M] F IH]; simpl; [constructor|].
  simpl in E. subst k2. destruct (bseq k k1); [exact F|].
  destruct (sm_delete rs k), (sm_delete kvs k). simpl in *. constructor; [split; [reflexivity|exact M]|exact IH].
Qed.

Lemma mholds_delete_ic h ceq k rs kvs : Forall2 (mholds h) rs kvs ->
  Forall2 (mholds h) (fst (sm_delete_ic ceq rs k)) (fst (sm_delete_ic ceq kvs k)) /\
  snd (sm_delete_ic ceq rs k) = snd (sm_delete_ic ceq kvs k).
Proof.
  intros F. induction F as [|[k1 r1] [k2 j2] rs kvs [E M] F IH]; simpl; [split; [constructor|reflexivity]|].
  simpl in E. subst k2. destruct (ceq k k1); [split; [exact F|reflexivity]|].
  destruct (sm_delete_ic ceq rs k), (sm_delete_ic ceq kvs k). simpl in *. split; [|apply IH].
  constructor; [split; [reflexivity|exact M]|apply IH].
Qed.

Lemma mholds_of_list h l1 l2 : Forall2 (mholds h) l1 l2 -> forall rs kvs, Forall2 (mholds h) rs kvs ->
  Forall2 (mholds h) (sm_of_list l1 rs) (sm_of_list l2 kvs).
Proof.
  intros F. induction F as [|[k1 r1] [k2 j2] l1 l2 [E M] _ IH]; intros rs kvs G; simpl; [exact G|].
  simpl in E, M. subst k2. apply IH, mholds_add; assumption.
Qed.

Lemma mholds_get h rs kvs k : Forall2 (mholds h) rs kvs ->
  match sm_get rs k, sm_get kvs k with
  | Some r, Some j => rholds h r j
  | None, None => True
  | _, _ => False
  end.
Proof.
  intros F. induction F as [|[k1 r1] [k2 j2] rs kvs [E M] F IH]; simpl; [exact I|].
  simpl in E. subst k2. destruct (bseq k k1); [exact M|exact IH].
Qed.

Lemma mholds_get_ic h ceq rs kvs k : Forall2 (mholds h) rs kvs ->
  match sm_get_ic ceq rs k, sm_get_ic ceq kvs k with
  | Some r, Some j => rholds h r j
  | None, None => True
  | _, _ => False
  end.
Proof.
  intros F. induction F as [|[k1 r1] [k2 j2] rs kvs [E M] F IH]; simpl; [exact I|].
  simpl in E. subst k2. destruct (ceq k k1); [exact M|exact IH].
Qed.

(** One cell is overwritten, whose new content does not contain it. *)
Lemma hwrite_same_others h x c : forall b c', b <> x -> nth_error h b = Some c' -> nth_error (hwrite h x c) b = Some c'.
Proof. intros b c' N G. rewrite hwrite_other by exact N. exact G. Qed.

Lemma holds_hwrite h x c a j : holds h a j -> ~ reaches h a x -> holds (hwrite h x c) a j.
Proof. intros H N. eapply holds_frame; [|exact H]. intros b R. apply hwrite_other. intros ->. exact (N R). Qed.

Lemma rholds_hwrite h x c (rs : list (bytes * ref)) kvs : Forall2 (mholds h) rs kvs ->
  (forall k y, In (k, Some y) rs -> ~ reaches h y x) -> Forall2 (mholds (hwrite h x c)) rs kvs.
Proof.
  intros F N. induction F as [|[k1 r1] [k2 j2] rs kvs [E (b & Eb & M)] F IH]; constructor.
  - simpl in *. subst. split; [reflexivity|]. exists b. split; [reflexivity|]. apply holds_hwrite; [exact M|]. eapply N. left. reflexivity.
  - apply IH. intros k y I0. eapply N. right. exact I0.
Qed.

Lemma erholds_hwrite h x c (rs : list ref) l : Forall2 (rholds h) rs l ->
  (forall y, In (Some y) rs -> ~ reaches h y x) -> Forall2 (rholds (hwrite h x c)) rs l.
Proof.
  intros F N. induction F as [|r1 j2 rs kvs (b & Eb & M) F IH]; constructor.
  - subst. exists b. split; [reflexivity|]. apply holds_hwrite; [exact M|]. eapply N. left. reflexivity.
  - apply IH. intros y I0. eapply N. right. exact I0.
Qed.

Lemma member_not_back h x j c y : holds h x j -> nth_error h x = Some c -> In (Some y) (cell_refs c) -> ~ reaches h y x.
Proof.
  intros H G I [p L]. destruct (reaches_ref _ _ _ _ G I) as [q M].
  assert (q <> []) as NE. { intros ->. inversion M; subst.
    destruct c as [| | | | |rs|nid kvs|]; try destruct I.
    - apply In_nth_error in I as [i I]. assert (leads h y [Idx i] y) as LY by (eapply leads_element; [exact G|exact I|constructor]).
      apply (acyclic _ _ _ _ H) in LY. discriminate.
    - simpl in I. apply in_map_iff in I as ([k r] & E & I). simpl in E. subst r.
      assert (leads h y [Key k] y) as LY by (eapply leads_member; [exact G|exact I|constructor]).
      apply (acyclic _ _ _ _ H) in LY. discriminate. }
  pose proof (leads_app _ _ _ _ M _ _ L) as C. apply (acyclic _ _ _ _ H) in C. apply app_eq_nil in C as [C _]. contradiction.
Qed.

Lemma write_dict h x nid0 kvs0 nid rs kvs :
  holds h x (JDict nid0 kvs0) -> Forall2 (mholds h) rs kvs -> (forall k y, In (k, Some y) rs -> ~ reaches h y x) ->
  becomes h x (JDict nid kvs) (hwrite h x (CDict nid rs)).
Proof.
  intros H F N. apply write_becomes; [apply hwrite_same_others|].
  apply holds_dict. exists rs. split; [apply hwrite_same; eapply holds_lt, H|]. apply rholds_hwrite; assumption.
Qed.

Lemma write_array h x l0 rs l :
  holds h x (JArray l0) -> Forall2 (rholds h) rs l -> (forall y, In (Some y) rs -> ~ reaches h y x) ->
  becomes h x (JArray l) (hwrite h x (CArray rs)).
Proof.
  intros H F N. apply write_becomes; [apply hwrite_same_others|].
  apply holds_array. exists rs. split; [apply hwrite_same; eapply holds_lt, H|]. apply erholds_hwrite; assumption.
Qed.

Lemma get_dict_of h x nid rs : nth_error h x = Some (CDict nid rs) -> get_dict h x = Some (nid, rs).
Proof. unfold get_dict. intros ->. reflexivity. Qed.
Lemma get_arr_of h x rs : nth_error h x = Some (CArray rs) -> get_arr h x = Some rs.
Proof. unfold get_arr. intros ->. reflexivity. Qed.

Lemma members_not_back h x j nid rs : holds h x j -> nth_error h x = Some (CDict nid rs) ->
  forall k y, In (k, Some y) rs -> ~ reaches h y x.
Proof. intros H G k y I. eapply member_not_back; [exact H|exact G|]. simpl. apply (in_map snd) in I. exact I. Qed.

Lemma in_sm_add {V} k (v : V) m k' v' : In (k', v') (sm_add m k v) -> (k' = k /\ v' = v) \/ In (k', v') m.
Proof.
  induction m as [|[k0 v0] m IH]; simpl; [intros [E|[]]; left; injection E as <- <-; auto|].
  destruct (bcmp k k0); simpl; intros [E|I]; try (injection E as <- <-); auto.
  destruct (IH I); auto.
Qed.

Lemma in_sm_of_list {V} (l : list (bytes * V)) : forall m k v, In (k, v) (sm_of_list l m) -> In (k, v) l \/ In (k, v) m.
Proof.
  induction l as [|[k0 v0] l IH]; intros m k v I; simpl in I; [auto|]. apply IH in I as [I|I]; [simpl; auto|].
  apply in_sm_add in I as [[-> ->]|I]; simpl; auto.
Qed.

Lemma h_set_becomes h x k v nid kvs jv : holds h x (JDict nid kvs) -> holds h v jv -> ~ reaches h v x ->
  exists h', h_set h x k (Some v) = Some h' /\ becomes h x (JDict nid (dict_set kvs k jv)) h'.
Proof.
  intros H Hv N. pose proof H as H0. apply holds_dict in H as (rs & G & F). unfold h_set. rewrite (get_dict_of _ _ _ _ G).
  eexists. split; [reflexivity|]. eapply write_dict; [exact H0| |].
  - apply mholds_add; [exact F|]. exists v. auto.
  - intros k' y I. apply in_sm_add in I as [[-> E]|I]; [injection E as ->; exact N|]. eapply members_not_back; eassumption.
Qed.

Lemma h_remove_becomes h x k nid kvs : holds h x (JDict nid kvs) ->
  exists h', h_remove h x k = Some h' /\ becomes h x (JDict nid (fst (dict_remove kvs k))) h'.
Proof.
  intros H. pose proof H as H0. apply holds_dict in H as (rs & G & F). unfold h_remove. rewrite (get_dict_of _ _ _ _ G).
  eexists. split; [reflexivity|]. eapply write_dict; [exact H0|apply mholds_delete, F|].
  intros k' y I. apply sm_delete_sub in I. eapply members_not_back; eassumption.
Qed.

Lemma h_remove_ic_becomes ceq h x k nid kvs kvs' b : holds h x (JDict nid kvs) -> dict_remove_ic ceq kvs k = Some (kvs', b) ->
  exists h', h_remove_ic ceq h x k = Some h' /\ becomes h x (JDict nid kvs') h'.
Proof.
  intros H E. pose proof H as H0. apply holds_dict in H as (rs & G & F). unfold h_remove_ic. rewrite (get_dict_of _ _ _ _ G).
  eexists. split; [reflexivity|]. eapply write_dict; [exact H0| |].
  - unfold dict_remove_ic in E. assert (length rs = length kvs) as -> by (eapply forall2_length, F).
    clear G H0. generalize dependent (S (length kvs)). intros n. generalize false. revert rs kvs F.
    induction n as [|n IH]; intros rs kvs F b0 E; [discriminate|]. cbn [h_remove_ic_loop remove_ic_loop] in *.
    unfold dict_remove_ in E. simpl negb in E. cbv iota in E.
    destruct (mholds_delete_ic h ceq k rs kvs F) as [F' E']. destruct (sm_delete_ic ceq rs k) as [rs1 b1], (sm_delete_ic ceq kvs k) as [kvs1 b2].
    simpl in F', E'. subst b2. destruct b1; simpl in E; [eapply IH; eassumption|]. injection E as <- <-. exact F'.
  - intros k' y I. apply remove_ic_incl in I. eapply members_not_back; eassumption.
Qed.

Lemma holds_is_dict h y jo : holds h y jo ->
  match get_dict h y with
  | Some (nid, rs) => exists kvs, jo = JDict nid kvs /\ Forall2 (mholds h) rs kvs
  | None => forall nid kvs, jo <> JDict nid kvs
  end.
Proof.
  intros H. destruct (get_dict h y) as [[nid rs]|] eqn:G.
  - apply get_dict_spec in G. destruct jo as [| | | | |l|nid' kvs|]; try (exfalso; destruct H as [n R]; destruct n; [discriminate|]; cbn [read] in R; cbv zeta in R; rewrite G in R;
      destruct (map_opt _ rs) in R; discriminate).
    apply holds_dict in H as (rs' & G' & F). rewrite G in G'. injection G' as <- <-. exists kvs. auto.
  - intros nid kvs ->. apply holds_dict in H as (rs' & G' & F). rewrite (get_dict_of _ _ _ _ G') in G. discriminate.
Qed.

Lemma h_update_becomes h x y nid kvs jo : holds h x (JDict nid kvs) -> holds h y jo -> (forall p, leads h y p x -> p = []) ->
  exists h', h_update h x y = Some h' /\ becomes h x (JDict nid (dict_update kvs jo)) h'.
Proof.
  intros H Hy N. pose proof H as H0. apply holds_dict in H as (rs & G & F). unfold h_update. rewrite (get_dict_of _ _ _ _ G).
  pose proof (holds_is_dict _ _ _ Hy) as D. destruct (get_dict h y) as [[nid2 rs2]|] eqn:G2.
  - destruct D as (kvs2 & -> & F2). apply get_dict_spec in G2. eexists. split; [reflexivity|]. cbn [dict_update].
    rewrite !sm_merge_of_list. eapply write_dict; [exact H0|apply mholds_of_list; assumption|].
    intros k z I. apply in_sm_of_list in I as [I|I]; [|eapply members_not_back; eassumption].
    intros [p L]. specialize (N (Key k :: p)). enough (leads h y (Key k :: p) x) as LY by (apply N in LY; discriminate).
    eapply leads_member; eassumption.
  - exists h. split; [reflexivity|]. replace (dict_update kvs jo) with kvs.
    + apply write_becomes; [auto|]. exact H0.
    + destruct jo; try reflexivity. exfalso. eapply D. reflexivity.
Qed.

Lemma h_update_default_becomes h x y nid kvs jo : holds h x (JDict nid kvs) -> holds h y jo -> (forall p, leads h y p x -> p = []) ->
  exists h', h_update_default h x y = Some h' /\ becomes h x (JDict nid (dict_update_default kvs jo)) h'.
Proof.
  intros H Hy N. pose proof H as H0. apply holds_dict in H as (rs & G & F). unfold h_update_default. rewrite (get_dict_of _ _ _ _ G).
  pose proof (holds_is_dict _ _ _ Hy) as D. destruct (get_dict h y) as [[nid2 rs2]|] eqn:G2.
  - destruct D as (kvs2 & -> & F2). apply get_dict_spec in G2. eexists. split; [reflexivity|]. cbn [dict_update_default].
    rewrite !sm_merge_of_list. eapply write_dict; [exact H0|apply mholds_of_list; assumption|].
    intros k z I. apply in_sm_of_list in I as [I|I]; [eapply members_not_back; eassumption|].
    intros [p L]. specialize (N (Key k :: p)). enough (leads h y (Key k :: p) x) as LY by (apply N in LY; discriminate).
    eapply leads_member; eassumption.
  - exists h. split; [reflexivity|]. replace (dict_update_default kvs jo) with kvs.
    + apply write_becomes; [auto|]. exact H0.
    + destruct jo; try reflexivity. exfalso. eapply D. reflexivity.
Qed.

Lemma array_add_app l objs : array_add l objs = l ++ objs.
Proof.
  unfold array_add. revert l. induction objs as [|o objs IH]; intros l; simpl; [rewrite app_nil_r; reflexivity|].
  rewrite IH, <- app_assoc. reflexivity.
Qed.

Lemma elems_not_back h x j rs : holds h x j -> nth_error h x = Some (CArray rs) ->
  forall y, In (Some y) rs -> ~ reaches h y x.
Proof. intros H G y I. eapply member_not_back; [exact H|exact G|exact I]. Qed.

Lemma h_append_becomes h x vs l js : holds h x (JArray l) -> Forall2 (holds h) vs js -> (forall v, In v vs -> ~ reaches h v x) ->
  exists h', h_append h x (map Some vs) = Some h' /\ becomes h x (JArray (array_add l js)) h'.
Proof.
  intros H Hv N. pose proof H as H0. apply holds_array in H as (rs & G & F). unfold h_append. rewrite (get_arr_of _ _ _ G).
  eexists. split; [reflexivity|]. rewrite array_add_app. eapply write_array; [exact H0| |].
  - apply Forall2_app; [exact F|]. clear - Hv. induction Hv as [|v j vs js Hj _ IH]; simpl; constructor; [exists v; auto|exact IH].
  - intros y I. apply in_app_or in I as [I|I]; [eapply elems_not_back; eassumption|].
    apply in_map_iff in I as (v & E & I). injection E as ->. apply N, I.
Qed.

Lemma set_nth_replace h rs l i v jv : Forall2 (rholds h) rs l -> rholds h v jv ->
  match set_nth i rs v, replace_nth i l jv with
  | Some rs', Some l' => Forall2 (rholds h) rs' l'
  | None, None => True
  | _, _ => False
  end.
Proof.
  intros F Hv. revert i. induction F as [|r j rs l H F IH]; intros [|i]; simpl; try exact I.
  - constructor; assumption.
  - specialize (IH i). destruct (set_nth i rs v), (replace_nth i l jv); try exact IH. constructor; assumption.
Qed.

Lemma h_set_at_becomes h x i v l jv : holds h x (JArray l) -> holds h v jv -> ~ reaches h v x ->
  match array_set_at l (Z.of_nat i) jv with
  | Some l' => exists h', h_set_at h x i (Some v) = Some h' /\ becomes h x (JArray l') h'
  | None => h_set_at h x i (Some v) = None
  end.
Proof.
  intros H Hv N. pose proof H as H0. apply holds_array in H as (rs & G & F). unfold h_set_at. rewrite (get_arr_of _ _ _ G).
  unfold array_set_at. destruct (Z.ltb_spec (Z.of_nat i) 0) as [L|_]; [lia|]. rewrite Nat2Z.id.
  pose proof (set_nth_replace h rs l i (Some v) jv F ltac:(exists v; auto)) as S.
  destruct (set_nth i rs (Some v)) as [rs'|] eqn:E1, (replace_nth i l jv) as [l'|] eqn:E2; try contradiction; [|reflexivity].
  eexists. split; [reflexivity|]. eapply write_array; [exact H0|exact S|].
  intros y I. destruct (set_nth_in _ _ _ _ _ E1 I) as [E|I']; [injection E as ->; exact N|]. eapply elems_not_back; eassumption.
Qed.

(** ** Get *)

Section GetLoop.
Context (h : heap) (lookr : smap ref -> bytes -> option ref) (lookj : smap json -> bytes -> option json) (same : bytes -> bytes -> Prop).
Hypothesis LOOK : forall rs kvs k, Forall2 (mholds h) rs kvs ->
  match lookr rs k, lookj kvs k with
  | Some r, Some j => rholds h r j /\ exists k', same k k' /\ In (k', r) rs
  | None, None => True
  | _, _ => False
  end.

Lemma h_get_loop_spec keys : forall a nid kvs key, holds h a (JDict nid kvs) ->
  match get_loop lookj kvs key keys with
  | ROk v => exists x ks, h_get_loop lookr h a key keys = Some (ROk x) /\ holds h x v /\
               Forall2 same (key :: keys) ks /\ leads h a (map Key ks) x
  | RErr e => h_get_loop lookr h a key keys = Some (RErr e)
  end.
Proof.
  induction keys as [|key' keys IH]; intros a nid kvs key H; apply holds_dict in H as (rs & G & F);
    cbn [h_get_loop get_loop]; rewrite (get_dict_of _ _ _ _ G); pose proof (LOOK rs kvs key F) as LK;
    destruct (lookr rs key) as [r|], (lookj kvs key) as [j|]; try contradiction; try reflexivity;
    destruct LK as [(b & -> & Hb) (k' & S & I)].
  - exists b, [k']. repeat split; [exact Hb|constructor; [exact S|constructor]|]. simpl.
    eapply leads_member; [exact G|exact I|constructor].
  - pose proof (holds_is_dict _ _ _ Hb) as D. unfold get_dict in D. destruct (nth_error h b) as [c|] eqn:Gb.
    2: { apply holds_lt in Hb. apply nth_error_None in Gb. lia. }
    destruct c as [| | | | |rs'|nid2 rs2|];
      try (destruct j; try reflexivity; exfalso; eapply D; reflexivity).
    destruct D as (kvs2 & -> & F2). specialize (IH b nid2 kvs2 key' Hb). destruct (get_loop lookj kvs2 key' keys) as [v|e]; [|exact IH].
    destruct IH as (x & ks & E & Hx & FS & L). exists x, (k' :: ks). repeat split; [exact E|exact Hx|constructor; assumption|].
    simpl. eapply leads_member; eassumption.
Qed.
End GetLoop.

Lemma h_get_spec h a nid kvs keys : holds h a (JDict nid kvs) ->
  match Get (JDict nid kvs) keys with
  | ROk v => exists x, h_get h a keys = Some (ROk x) /\ holds h x v /\ leads h a (map Key keys) x
  | RErr e => h_get h a keys = Some (RErr e)
  end.
Proof.
  intros H. destruct keys as [|key keys].
  - cbn. apply holds_dict in H as HD. destruct HD as (rs & G & _). rewrite (get_dict_of _ _ _ _ G).
    exists a. repeat split; [exact H|constructor].
  - assert (LOOK : forall (rs : smap ref) (kvs : smap json) k, Forall2 (mholds h) rs kvs ->
      match sm_get rs k, sm_get kvs k with
      | Some r, Some j => rholds h r j /\ exists k', k = k' /\ In (k', r) rs
      | None, None => True
      | _, _ => False
      end).
    { intros rs kv k F. pose proof (mholds_get h rs kv k F) as M. destruct (sm_get rs k) as [r|] eqn:E, (sm_get kv k); try exact M.
      split; [exact M|]. exists k. split; [reflexivity|]. apply sm_get_some_in, E. }
    pose proof (h_get_loop_spec h sm_get sm_get eq LOOK keys a nid kvs key H) as S. unfold Get, h_get, get_with, h_get_with.
    destruct (get_loop sm_get kvs key keys) as [v|e]; [|exact S]. destruct S as (x & ks & E & Hx & FS & L).
    exists x. repeat split; [exact E|exact Hx|]. enough (key :: keys = ks) as -> by exact L.
    clear - FS. induction FS; congruence.
Qed.

Lemma h_get_ic_spec ceq h a nid kvs keys : holds h a (JDict nid kvs) ->
  match GetIgnoreCases ceq (JDict nid kvs) keys with
  | ROk v => exists x ks, h_get_ic ceq h a keys = Some (ROk x) /\ holds h x v /\
               Forall2 (fun k k' => ceq k k' = true) keys ks /\ leads h a (map Key ks) x
  | RErr e => h_get_ic ceq h a keys = Some (RErr e)
  end.
Proof.
  intros H. destruct keys as [|key keys].
  - cbn. apply holds_dict in H as HD. destruct HD as (rs & G & _). rewrite (get_dict_of _ _ _ _ G).
    exists a, []. repeat split; [exact H|constructor|constructor].
  - assert (LOOK : forall (rs : smap ref) (kvs : smap json) k, Forall2 (mholds h) rs kvs ->
      match sm_get_ic ceq rs k, sm_get_ic ceq kvs k with
      | Some r, Some j => rholds h r j /\ exists k', ceq k k' = true /\ In (k', r) rs
      | None, None => True
      | _, _ => False
      end).
    { intros rs kv k F. pose proof (mholds_get_ic h ceq rs kv k F) as M. destruct (sm_get_ic ceq rs k) as [r|] eqn:E, (sm_get_ic ceq kv k); try exact M.
      split; [exact M|]. clear - E. induction rs as [|[k0 r0] rs IH]; [discriminate|]. simpl in E.
      destruct (ceq k k0) eqn:C; [injection E as ->; exists k0; simpl; auto|]. destruct (IH E) as (k' & C' & I). exists k'. simpl. auto. }
    pose proof (h_get_loop_spec h (sm_get_ic ceq) (sm_get_ic ceq) (fun k k' => ceq k k' = true) LOOK keys a nid kvs key H) as S.
    unfold GetIgnoreCases, h_get_ic, get_with, h_get_with.
    destruct (get_loop (sm_get_ic ceq) kvs key keys) as [v|e]; exact S.
Qed.

Lemma h_get_at_spec h a l i : holds h a (JArray l) ->
  match array_get_at l i with
  | ROk v => exists x n, h_get_at h a i = Some (ROk (Some x)) /\ holds h x v /\ leads h a [Idx n] x /\
               Z.of_nat n = (if i <? 0 then Z.of_nat (length l) + i else i)
  | RErr e => h_get_at h a i = Some (RErr e)
  end.
Proof.
  intros H. apply holds_array in H as (rs & G & F). unfold h_get_at, array_get_at. rewrite (get_arr_of _ _ _ G).
  rewrite (forall2_length _ _ _ F). set (i' := if i <? 0 then _ else _).
  destruct (Z.leb_spec 0 i'), (Z.ltb_spec i' (Z.of_nat (length l))); simpl; try reflexivity.
  destruct (nth_lt_some l (Z.to_nat i')) as [v E]; [lia|]. rewrite E.
  destruct (nth_forall2_r _ _ _ _ _ F E) as (r & Er & b & -> & Hb). rewrite Er.
  exists b, (Z.to_nat i'). repeat split; [exact Hb| |lia]. eapply leads_element; [exact G|exact Er|constructor].
Qed.

(** ** Add with a path *)

Lemma holds_app h new a j : holds h a j -> holds (h ++ new) a j.
Proof. intros [n R]. exists n. apply read_app, R. Qed.

Lemma reaches_lt h a j b : holds h a j -> reaches h a b -> (b < length h)%nat.
Proof. intros H R. destruct (reaches_holds _ _ _ _ H R) as [jb Hb]. eapply holds_lt, Hb. Qed.

Lemma leads_same h h' a p b : leads h' a p b -> (forall y, reaches h a y -> nth_error h' y = nth_error h y) -> leads h a p b.
Proof.
  induction 1 as [a|a nid kvs k b p c E I _ IH|a rs i b p c E I _ IH]; intros S; [constructor| |].
  - rewrite (S a (reaches_refl _ _)) in E. eapply leads_member; [exact E|exact I|]. apply IH.
    intros y R. apply S. eapply reaches_trans; [|exact R]. exists [Key k]. eapply leads_member; [exact E|exact I|constructor].
  - rewrite (S a (reaches_refl _ _)) in E. eapply leads_element; [exact E|exact I|]. apply IH.
    intros y R. apply S. eapply reaches_trans; [|exact R]. exists [Idx i]. eapply leads_element; [exact E|exact I|constructor].
Qed.

Lemma mholds_add_existing h h' rs kvs k b j : sm_ok rs ->
  Forall2 (mholds h) rs kvs -> sm_get rs k = Some (Some b) -> holds h' b j ->
  (forall k1 y jy, In (k1, Some y) rs -> k1 <> k -> holds h y jy -> holds h' y jy) ->
  Forall2 (mholds h') rs (sm_add kvs k j).
Proof.
  intros O F G Hb K. induction F as [|[k1 r1] [k2 j2] rs kvs [E M] F IH]; [discriminate|].
  simpl in E. subst k2. apply sm_ok_cons in O as [O LT]. simpl in *.
  assert (forall rs0 kvs0, Forall2 (mholds h) rs0 kvs0 -> (forall x, In x rs0 -> In x rs) -> Forall (fun kv => blt k1 (fst kv)) rs0 -> k = k1 ->
     Forall2 (mholds h') rs0 kvs0) as REST.
  { intros rs0 kvs0 F0 I0 L0 ->. clear - F0 I0 L0 K. induction F0 as [|[k3 r3] [k4 j4] rs0 kvs0 [E3 (b3 & Eb3 & M3)] F0 IH]; constructor.
    - simpl in *. subst k4 r3. split; [reflexivity|]. exists b3. split; [reflexivity|]. eapply K; [right; apply I0; left; reflexivity| |exact M3].
      inversion L0 as [|? ? H3]; subst. simpl in H3. intros ->. exact (blt_irrefl _ H3).
    - apply IH; [|inversion L0; assumption]. intros x Hx. apply I0. right. exact Hx. }
  destruct (bseq_spec k k1) as [->|NE].
  - injection G as ->. rewrite bcmp_refl. constructor; [split; [reflexivity|exists b; auto]|].
    apply REST; auto.
  - destruct (bcmp k k1) eqn:C.
    + apply bcmp_eq in C. contradiction.
    + exfalso. apply sm_get_some_in in G. rewrite Forall_forall in LT. specialize (LT _ G). simpl in LT.
      apply (blt_irrefl k). eapply blt_trans; [exact C|exact LT].
    + constructor.
      * split; [reflexivity|]. destruct M as (b1 & -> & M). exists b1. split; [reflexivity|]. eapply K; [left; reflexivity| |exact M]. congruence.
      * apply IH; [exact O|exact G|]. intros k3 y jy I3. apply K. right. exact I3.
Qed.

Section AddPath.
Context (isnull : addr -> bool).

Lemma h_add_path_spec keys : forall h a o nid kvs key jo,
  (forall x, nth_error h x = Some CNull -> isnull x = true) ->
  holds h a (JDict nid kvs) -> json_ok (JDict nid kvs) -> holds h o jo -> along h a o (key :: keys) ->
  exists h' e kvs' ks y, h_add_path isnull h a (Some o) key keys = Some (h', e) /\
    add_path kvs jo key keys = (kvs', e) /\
    holds h' a (JDict nid kvs') /\
    leads h a (map Key ks) y /\ (exists k ks', key :: keys = ks ++ k :: ks') /\
    (forall b c, b <> y -> nth_error h b = Some c -> nth_error h' b = Some c) /\
    (exists jy, holds h' y jy) /\
    (forall x, nth_error h' x = Some CNull -> nth_error h x = Some CNull).
Proof.
  induction keys as [|key' keys IH]; intros h a o nid kvs key jo NUL H O Ho AL; pose proof H as H0;
    apply holds_dict in H as (rs & G & F); cbn [h_add_path add_path]; rewrite (get_dict_of _ _ _ _ G).
  - destruct (AL [] a) as [_ NR]; [exists key, []; reflexivity|constructor|].
    assert (B : becomes h a (JDict nid (dict_set kvs key jo)) (hwrite h a (CDict nid (sm_add rs key (Some o))))).
    { eapply write_dict; [exact H0|apply mholds_add; [exact F|exists o; auto]|].
      intros k' y I. apply in_sm_add in I as [[-> E]|I]; [injection E as ->; exact NR|]. eapply members_not_back; eassumption. }
    do 5 eexists. split; [reflexivity|]. split; [reflexivity|]. split; [apply B|].
    split; [apply (leads_here h a : leads h a (map Key []) a)|]. split; [exists key, []; reflexivity|].
    split; [apply hwrite_same_others|]. split; [eexists; apply B|].
    intros x E. destruct (Nat.eq_dec x a) as [->|N]; [rewrite hwrite_same in E by (eapply nth_error_lt, G); discriminate|].
    rewrite hwrite_other in E by exact N. exact E.
  - destruct (AL [] a) as [_ NR]; [exists key, (key' :: keys); reflexivity|constructor|].
    assert (La : (a < length h)%nat) by (eapply nth_error_lt, G).
    pose proof (json_ok_dict _ _ O) as [KI OM]. pose proof (proj2 (sm_ok_strong _) KI) as SOK.
    assert (KEYS : map fst rs = map fst kvs).
    { clear - F. induction F as [|[k r] [k' y] rs kvs [E _] _ IH]; simpl in *; [reflexivity|]. congruence. }
    assert (SOR : sm_ok rs) by (apply sm_ok_strong; unfold sm_keys; rewrite KEYS; exact KI).
    (* a new dict under [key] *)
    assert (FRESH : forall kvs1 : smap json, (kvs1 = dict_set kvs key (JDict 0 [])) ->
      exists h' e kvs' ks y, h_add_path isnull (hwrite (h ++ [CDict 0 []]) a (CDict nid (sm_add rs key (Some (length h))))) (length h) (Some o) key' keys = Some (h', e) /\
        (let '(sub', e) := add_path [] jo key' keys in (sm_add kvs1 key (JDict 0 sub'), e)) = (kvs', e) /\
        holds h' a (JDict nid kvs') /\
        leads h a (map Key ks) y /\ (exists k ks', key :: key' :: keys = ks ++ k :: ks') /\
        (forall b c, b <> y -> nth_error h b = Some c -> nth_error h' b = Some c) /\
        (exists jy, holds h' y jy) /\
        (forall x, nth_error h' x = Some CNull -> nth_error h x = Some CNull)).
    { intros kvs1 ->. set (b := length h). set (h2 := hwrite _ a _).
      assert (L1 : length (h ++ [CDict 0 []]) = S (length h)) by (rewrite app_length; simpl; lia).
      assert (Gb : nth_error h2 b = Some (CDict 0 [])) by (unfold h2; rewrite hwrite_other by (unfold b; lia); apply halloc_new).
      assert (Ga : nth_error h2 a = Some (CDict nid (sm_add rs key (Some b)))) by (apply hwrite_same; lia).
      assert (OLD : forall y c, y <> a -> nth_error h y = Some c -> nth_error h2 y = Some c).
      { intros y c N E. unfold h2. rewrite hwrite_other by exact N. rewrite halloc_old by (eapply nth_error_lt, E). exact E. }
      assert (NEW : forall y, y <> a -> y <> b -> nth_error h2 y = nth_error h y).
      { intros y N1 N2. unfold h2. rewrite hwrite_other by exact N1. destruct (Nat.lt_trichotomy y (length h)) as [L|[->|L]]; [apply halloc_old, L|contradiction|].
        rewrite (proj2 (nth_error_None _ _)) by lia. symmetry. apply nth_error_None. lia. }
      assert (FR : forall y jy, holds h y jy -> ~ reaches h y a -> forall z, reaches h y z -> nth_error h2 z = nth_error h z).
      { intros y jy Hy NRy z Rz. apply NEW; [intros ->; exact (NRy Rz)|]. pose proof (reaches_lt _ _ _ _ Hy Rz). unfold b. lia. }
      assert (NBL : forall p y, leads h2 b p y -> p = [] /\ y = b).
      { intros p y L. inversion L as [|? ? ? ? ? ? ? E I|? ? ? ? ? ? E I]; subst; [auto| |]; rewrite Gb in E; [|discriminate].
        injection E as <- <-. destruct I. }
      destruct (IH h2 b o 0 [] key' jo) as (h' & e & kvs' & ks & y & E1 & E2 & H' & L & EK & S' & HY & NU).
      - intros x E. apply NUL. destruct (Nat.eq_dec x a) as [->|N1]; [congruence|]. destruct (Nat.eq_dec x b) as [->|N2]; [congruence|].
        rewrite NEW in E by assumption. exact E.
      - apply holds_dict. exists []. split; [exact Gb|constructor].
      - constructor; [constructor|constructor|reflexivity].
      - eapply holds_frame; [apply (FR _ _ Ho NR)|exact Ho].
      - intros ks y _ L. apply NBL in L as [E ->]. rewrite E. split; [split; [constructor|]|].
        + intros q L. apply NBL in L. tauto.
        + intros [p L]. apply (leads_same h) in L; [|apply (FR _ _ Ho NR)].
          assert (b < length h)%nat by (eapply (reaches_lt h o); [exact Ho|exists p; exact L]). unfold b in *. lia.
      - apply NBL in L as [EKS ->]. exists h', e, (sm_add kvs key (JDict 0 kvs')), [], a.
        split; [exact E1|]. split.
        { rewrite E2. f_equal. apply sm_add_twice. }
        assert (Ha' : nth_error h' a = Some (CDict nid (sm_add rs key (Some b)))) by (apply S'; [unfold b; lia|exact Ga]).
        assert (HA : holds h' a (JDict nid (sm_add kvs key (JDict 0 kvs')))).
        { apply holds_dict. exists (sm_add rs key (Some b)). split; [exact Ha'|]. apply mholds_add; [|exists b; auto].
          pose proof (members_not_back _ _ _ _ _ H0 G) as NB. clearbody h2. clear - F S' FR OLD NB.
          induction F as [|[k1 r1] [k2 j2] rs kvs [E (x & Ex & Hx)] F IHF]; constructor.
          - split; [exact E|]. exists x. split; [exact Ex|]. simpl in *. subst r1. specialize (NB k1 x (or_introl eq_refl)).
            eapply (holds_frame h); [|exact Hx]. intros z Rz.
            pose proof (reaches_lt _ _ _ _ Hx Rz) as Lz. destruct (nth_lt_some h z Lz) as [c Ec]. rewrite Ec.
            apply S'; [unfold b; lia|]. apply OLD; [|exact Ec]. intros ->. exact (NB Rz).
          - apply IHF. intros k y I. apply (NB k y). right. exact I. }
        split; [exact HA|]. split; [constructor|]. split; [exists key, (key' :: keys); reflexivity|]. split.
        { intros z c N Ec. apply S'; [apply nth_error_lt in Ec; unfold b; lia|]. apply OLD; assumption. }
        split; [eexists; exact HA|].
        intros x Ex. apply NU in Ex. destruct (Nat.eq_dec x a) as [->|N1]; [congruence|]. destruct (Nat.eq_dec x b) as [->|N2]; [congruence|].
        rewrite NEW in Ex by assumption. exact Ex. }
    assert (STOP : forall kvs1 : smap json, kvs1 = kvs -> exists h' e kvs' ks y,
      Some (h, Some ErrInvalidJsonDict) = Some (h', e) /\ (kvs1, Some ErrInvalidJsonDict) = (kvs', e) /\
        holds h' a (JDict nid kvs') /\
        leads h a (map Key ks) y /\ (exists k ks', key :: key' :: keys = ks ++ k :: ks') /\
        (forall b c, b <> y -> nth_error h b = Some c -> nth_error h' b = Some c) /\
        (exists jy, holds h' y jy) /\
        (forall x, nth_error h' x = Some CNull -> nth_error h x = Some CNull)).
    { intros kvs1 ->. exists h, (Some ErrInvalidJsonDict), kvs, [], a. repeat split; auto; [constructor|exists key, (key' :: keys); reflexivity|eexists; exact H0]. }
    pose proof (mholds_get h rs kvs key F) as M. cbv zeta. cbn [fst snd halloc].
    destruct (sm_get rs key) as [r|] eqn:Gr, (sm_get kvs key) as [j|] eqn:Gj; try contradiction.
    + destruct M as (b & -> & Hb). pose proof (holds_is_dict _ _ _ Hb) as D. unfold get_dict in D.
      destruct (nth_error h b) as [c|] eqn:Gb; [|apply holds_lt in Hb; apply nth_error_None in Gb; lia].
      assert (j = JNull <-> c = CNull) as JN.
      { destruct Hb as [n R]. destruct n; [discriminate|]. cbn [read] in R. cbv zeta in R. rewrite Gb in R.
        split; intros ->; [|congruence]. destruct c; try discriminate; [reflexivity| |];
        destruct (map_opt _ _) in R; discriminate. }
      destruct c as [| | | | |rs2|nid2 rs2|];
        try (assert (j <> JNull) by (rewrite JN; discriminate); destruct j; try congruence;
             try (exfalso; eapply D; reflexivity); rewrite Gj; apply STOP; reflexivity).
      * pose proof (proj2 JN eq_refl) as ->. rewrite (NUL _ Gb). unfold dict_set at 1. rewrite sm_get_add, bseq_refl. apply FRESH. reflexivity.
      * destruct D as (kvs2 & -> & F2). rewrite Gj.
        assert (INB : In (key, Some b) rs) by (apply sm_get_some_in, Gr).
        assert (INJ : In (key, JDict nid2 kvs2) kvs) by (apply sm_get_some_in, Gj).
        assert (LB : forall p y, leads h b p y -> leads h a (Key key :: p) y).
        { intros p y L. eapply leads_member; [exact G|exact INB|exact L]. }
        destruct (IH h b o nid2 kvs2 key' jo) as (h' & e & kvs' & ks & y & E1 & E2 & H' & L & (k0 & ks0 & EK) & S' & HY & NU);
          [exact NUL|exact Hb|rewrite Forall_forall in OM; apply (OM _ INJ)|exact Ho| |].
        { intros ks y (k0 & ks0 & EK) L. destruct (AL (key :: ks) y) as [[_ U] NRy]; [exists k0, ks0; simpl; congruence|simpl; apply LB, L|].
          split; [|exact NRy]. split; [exact L|]. intros q Lq. apply LB in Lq. apply U in Lq. simpl in Lq. congruence. }
        destruct (AL (key :: ks) y) as [[LY U] NRy]; [exists k0, ks0; simpl; congruence|simpl; apply LB, L|].
        exists h', e, (sm_add kvs key (JDict nid2 kvs')), (key :: ks), y.
        split; [exact E1|]. split; [rewrite E2; reflexivity|].
        assert (NAY : a <> y). { intros <-. specialize (U [] (leads_here _ _)). discriminate. }
        split.
        { apply holds_dict. exists rs. split; [apply S'; assumption|].
          eapply (mholds_add_existing h h'); [exact SOR|exact F|exact Gr|exact H'|].
          intros k1 z jz I1 NK Hz. eapply holds_frame; [|exact Hz]. intros w Rw.
          pose proof (reaches_lt _ _ _ _ Hz Rw) as Lw. destruct (nth_lt_some h w Lw) as [c Ec]. rewrite Ec. apply S'; [|exact Ec].
          intros ->. destruct Rw as [p Lp]. assert (leads h a (Key k1 :: p) y) as LK by (eapply leads_member; eassumption).
          apply U in LK. simpl in LK. congruence. }
        split; [exact LY|]. split; [exists k0, ks0; simpl; congruence|]. split; [exact S'|]. split; [exact HY|exact NU].
    + unfold dict_set at 1. rewrite sm_get_add, bseq_refl. apply FRESH. reflexivity.
Qed.
End AddPath.
