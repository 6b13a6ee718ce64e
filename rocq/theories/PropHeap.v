(** C22: copies of values as objects. *)
From Coq Require Import Sorting.Permutation Sorting.Sorted.
From Verif Require Import Base Strconv SortedMap SortedMapFacts Json SpecJson SpecEquals Access RfcFacts AccessFacts Heap SpecHeap HeapFacts HeapFacts2.

(** Go may range over a map in any order, each time in another. *)
Definition any_order (ord : heap -> list (bytes * ref) -> list (bytes * ref)) : Prop := forall h l, Permutation (ord h l) l.

(** DeepCopy of a value without unresolved references succeeds, whatever the
    order of Go's map iteration; the copy holds the same value but for node
    ids; no existing object has changed. *)
Theorem C22_deep_copy_content : forall ord h a j, any_order ord -> holds h a j -> json_ok j -> no_reference j ->
  exists steps, forall fuel, (steps <= fuel)%nat ->
  exists h' b, deep_copy ord fuel h a = DOk h' (Some b) /\ holds h' b (drop_ids j)
    /\ (forall x c, nth_error h x = Some c -> nth_error h' x = Some c).
Proof.
  intros ord h a j P [n R] O NR. exists n. intros fuel L.
  destruct (deep_copy_ok ord P fuel h a j (read_mono n fuel h a j L R) O NR) as (h' & b & E & A & R').
  exists h', b. split; [exact E|]. split; [exists fuel; exact R'|].
  intros x c G. rewrite (adds_old _ _ _ A); [exact G|]. eapply nth_error_lt, G.
Qed.

(** A value without node ids comes back exactly. *)
Theorem C22_deep_copy_exact : forall j, (forall nid kvs, subvalue (JDict nid kvs) j -> nid = 0) -> drop_ids j = j.
Proof.
  induction j as [| | | | |l IH|nid kvs IH|] using json_ind'; intros H; try reflexivity; cbn [drop_ids].
  - f_equal. rewrite <- (map_id l) at 2. apply map_ext_in. intros x I. rewrite Forall_forall in IH. apply IH; [exact I|].
    intros n kv S. apply (H n kv). eapply sub_elem; eassumption.
  - rewrite (H nid kvs (sub_refl _)). f_equal. rewrite <- (map_id kvs) at 2. apply map_ext_in. intros [k x] I.
    rewrite Forall_forall in IH. specialize (IH _ I). simpl in *. f_equal. apply IH.
    intros n kv S. apply (H n kv). eapply sub_member; eassumption.
Qed.

(** Whatever a client that holds only the copy does with it - any number of
    calls, on any object it can get at - no object that was there before the
    copy has changed, and every address still stands for the same value. *)
Theorem C22_mutating_the_copy : forall ord fuel h a h1 b ord' fuel' ops h2 held,
  deep_copy ord fuel h a = DOk h1 (Some b) ->
  crun ord' fuel' (h1, [b]) ops = Some (h2, held) ->
  (forall x c, nth_error h x = Some c -> nth_error h2 x = Some c) /\
  (forall x j, holds h x j -> holds h2 x j).
Proof.
  intros ord fuel h a h1 b ord' fuel' ops h2 held D CR.
  destruct (deep_copy_adds _ _ _ _ _ _ D) as [A B]. specialize (B b eq_refl).
  pose proof (adds_length _ _ A) as L.
  assert (conf (fun x => (length h <= x)%nat) h1 h2) as (_ & _ & K).
  { eapply crun_conf; [| |constructor; [|constructor]|exact CR]; [intros x; lia| |simpl; lia].
    intros x c y Rx E I. destruct A as (new & -> & F). rewrite nth_error_app2 in E by exact Rx. apply nth_error_In in E.
    rewrite Forall_forall in F. apply (F _ E y I). }
  assert (forall x c, nth_error h x = Some c -> nth_error h2 x = Some c) as SAME.
  { intros x c G. pose proof (nth_error_lt _ _ _ G). rewrite K by lia. rewrite (adds_old _ _ _ A) by lia. exact G. }
  split; [exact SAME|]. intros x j [n R]. exists n. eapply read_ext; eassumption.
Qed.

(** Vice versa: whatever a client that holds only objects from before the copy
    does, no object of the copy has changed. *)
Theorem C22_mutating_the_original : forall ord fuel h a h1 b roots ord' fuel' ops h2 held j,
  heap_wf h -> (forall r, In r roots -> (r < length h)%nat) ->
  deep_copy ord fuel h a = DOk h1 (Some b) ->
  crun ord' fuel' (h1, roots) ops = Some (h2, held) ->
  holds h1 b j -> holds h2 b j.
Proof.
  intros ord fuel h a h1 b roots ord' fuel' ops h2 held j W HR D CR [n R].
  destruct (deep_copy_adds _ _ _ _ _ _ D) as [A B]. specialize (B b eq_refl).
  pose proof (adds_length _ _ A) as L.
  assert (conf (fun x => (x < length h)%nat \/ (length h1 <= x)%nat) h1 h2) as (_ & _ & K).
  { eapply crun_conf; [| | |exact CR].
    - intros x Hx; right; exact Hx.
    - intros x c y [Rx|Rx] E I.
      + rewrite (adds_old _ _ _ A Rx) in E. left. apply (W c); [eapply nth_error_In, E|exact I].
      + apply nth_error_lt in E. lia.
    - apply Forall_forall. intros r I. left. apply HR, I. }
  exists n. rewrite <- R. apply (read_frame (fun x => (length h <= x < length h1)%nat)).
  - intros x c y Rx E I. destruct A as (new & -> & F). rewrite nth_error_app2 in E by lia. apply nth_error_In in E.
    rewrite Forall_forall in F. apply (F _ E y I).
  - intros x Hx. apply K. lia.
  - exact B.
Qed.

(** Copy() of a dict has the same members - the very same objects - in a new
    dict; setting or removing a member of the copy leaves the original as it
    is, and vice versa. *)
Theorem C22_copy_top_level : forall h a nid kvs h1 b,
  nth_error h a = Some (CDict nid kvs) -> StronglySorted blt (map fst kvs) ->
  h_copy h a (fun _ => true) = Some (h1, b) ->
  nth_error h1 b = Some (CDict 0 kvs) /\ nth_error h1 a = Some (CDict nid kvs) /\
  (forall k v h2, h_set h1 b k v = Some h2 -> nth_error h2 a = Some (CDict nid kvs)) /\
  (forall k h2, h_remove h1 b k = Some h2 -> nth_error h2 a = Some (CDict nid kvs)) /\
  (forall k v h2, h_set h1 a k v = Some h2 -> nth_error h2 b = Some (CDict 0 kvs)) /\
  (forall k h2, h_remove h1 a k = Some h2 -> nth_error h2 b = Some (CDict 0 kvs)).
Proof.
  intros h a nid kvs h1 b G S E. unfold h_copy in E. rewrite G in E. cbv zeta in E.
  match type of E with (if ?t then _ else _) = _ => destruct t; [discriminate|] end.
  assert (filter (fun kv : bytes * ref => (fun _ => true) (fst kv)) kvs = kvs) as EF.
  { clear. induction kvs as [|x l IH]; [reflexivity|]. simpl. f_equal. exact IH. }
  assert (sm_of_list (filter (fun kv : bytes * ref => (fun _ => true) (fst kv)) kvs) [] = kvs) as EM.
  { rewrite EF. apply sm_of_list_perm; [apply Permutation_refl|]. apply sm_ok_strong. exact S. }
  simpl in E, EM. rewrite EM in E. injection E as <- <-.
  pose proof (nth_error_lt _ _ _ G) as L.
  assert (nth_error (h ++ [CDict 0 kvs]) a = Some (CDict nid kvs)) as Ga by (rewrite halloc_old by exact L; exact G).
  pose proof (halloc_new h (CDict 0 kvs)) as Gb.
  repeat (split; [assumption|]).
  unfold h_set, h_remove, get_dict. rewrite Ga, Gb.
  repeat split; intros; match goal with H : Some _ = Some _ |- _ => injection H as <- end; rewrite hwrite_other by lia; assumption.
Qed.

(** ... but only at the top level: a change to a member object made through
    the copy is a change to the original's member. *)
Theorem C22_copy_shares_members : forall h a nid kvs h1 b k x k' v h2,
  nth_error h a = Some (CDict nid kvs) -> StronglySorted blt (map fst kvs) ->
  h_copy h a (fun _ => true) = Some (h1, b) -> (forall y, In (Some y) (map snd kvs) -> y <> a /\ y < length h)%nat ->
  sm_get kvs k = Some (Some x) ->
  h_set h1 x k' v = Some h2 ->
  exists nid' kvs', nth_error h2 x = Some (CDict nid' kvs') /\ sm_get kvs' k' = Some v
    /\ nth_error h2 a = Some (CDict nid kvs) /\ nth_error h2 b = Some (CDict 0 kvs).
Proof.
  intros h a nid kvs h1 b k x k' v h2 G S E W Gk HS.
  destruct (C22_copy_top_level _ _ _ _ _ _ G S E) as (Gb & Ga & _).
  assert (b = length h) as Eb.
  { unfold h_copy in E. rewrite G in E. cbv zeta in E.
    match type of E with (if ?t then _ else _) = _ => destruct t; [discriminate|] end. injection E as _ <-. reflexivity. }
  destruct (W x) as [Nx Lx]; [eapply in_sm_get, Gk|].
  unfold h_set in HS. destruct (get_dict h1 x) as [[nid' kvs']|] eqn:Gx; [|discriminate]. apply get_dict_spec in Gx. injection HS as <-.
  exists nid', (sm_add kvs' k' v). pose proof (nth_error_lt _ _ _ Gx).
  rewrite hwrite_same by assumption. rewrite !hwrite_other by lia. rewrite sm_get_add, bseq_refl. auto.
Qed.

(** ** What the property excludes *)

(** A value with an unresolved reference: the reference is copied to nil, and
    the copy cannot be copied again. *)
Theorem C22_references_become_nil_refuted : forall ord, any_order ord ->
  let h := [CDict 0 [(B "a", Some 1%nat)]; CPtr 7] in
  holds h 0%nat (JDict 0 [(B "a", JPtr 7)]) /\
  (exists h' b, deep_copy ord 2 h 0%nat = DOk h' (Some b) /\ nth_error h' b = Some (CDict 0 [(B "a", None)]) /\
     deep_copy ord 2 h' b = DPanic).
Proof.
  intros ord P h. split; [exists 2%nat; reflexivity|].
  assert (forall h x, ord h [x] = [x]) as P1.
  { intros h0 x. specialize (P h0 [x]). apply Permutation_sym, Permutation_length_1_inv in P. exact P. }
  exists (h ++ [CDict 0 [(B "a", None)]]), 2%nat. subst h. cbn [deep_copy nth_error existsb snd is_nil orb]. rewrite P1. 
  split; [reflexivity|]. split; [reflexivity|]. reflexivity.
Qed.

(** Node ids are lost. *)
Theorem C22_node_ids_are_dropped_refuted : forall ord, any_order ord ->
  exists h' b, deep_copy ord 1 [CDict 5 []] 0%nat = DOk h' (Some b) /\ holds h' b (JDict 0 []) /\ holds [CDict 5 []] 0%nat (JDict 5 []).
Proof.
  intros ord P. assert (forall h, ord h [] = []) as P1.
  { intros h0. specialize (P h0 []). apply Permutation_sym, Permutation_nil in P. exact P. }
  exists [CDict 5 []; CDict 0 []], 1%nat. cbn [deep_copy nth_error existsb]. rewrite P1. split; [reflexivity|].
  split; exists 1%nat; reflexivity.
Qed.

(** DeepCopy of an object that contains itself never returns. *)
Theorem C22_cyclic_objects_refuted : forall ord fuel, any_order ord ->
  deep_copy ord fuel [CArray [Some 0%nat]] 0%nat = DFuel /\ deep_copy ord fuel [CDict 0 [(B "a", Some 0%nat)]] 0%nat = DFuel.
Proof.
  intros ord fuel P. assert (forall h x, ord h [x] = [x]) as P1.
  { intros h0 x. specialize (P h0 [x]). apply Permutation_sym, Permutation_length_1_inv in P. exact P. }
  induction fuel as [|n [IH1 IH2]]; [split; reflexivity|]. split.
  - cbn [deep_copy nth_error copy_elems]. rewrite IH1. reflexivity.
  - cbn [deep_copy nth_error existsb snd is_nil orb]. rewrite P1. cbn [copy_members]. rewrite IH2. reflexivity.
Qed.

(** ** The hypotheses are met *)

Definition ex_heap : heap :=
  [CDict 3 [(B "a", Some 1%nat); (B "b", Some 2%nat)]; CDict 0 [(B "x", Some 2%nat)]; CInt 7].

Example C22_example :
  holds ex_heap 0%nat (JDict 3 [(B "a", JDict 0 [(B "x", JInt 7)]); (B "b", JInt 7)]) /\
  heap_wf ex_heap /\ any_order (fun _ l => rev l) /\
  exists h1 b h2 held, deep_copy (fun _ l => rev l) 3 ex_heap 0%nat = DOk h1 (Some b) /\
    (* copy.Get("a").Set("x", "new"); copy.Remove("b") *)
    crun (fun _ l => l) 5 (h1, [b]) [KGet 0 (B "a"); KNew (CString (B "new")); KSet 1 (B "x") 2; KRemove 0 (B "b")] = Some (h2, held) /\
    holds h2 b (JDict 0 [(B "a", JDict 0 [(B "x", JString (B "new"))])]) /\
    holds h2 0%nat (JDict 3 [(B "a", JDict 0 [(B "x", JInt 7)]); (B "b", JInt 7)]).
Proof.
  split; [exists 3%nat; reflexivity|]. split.
  - intros c x I J. simpl in I. destruct I as [<-|[<-|[<-|[]]]]; simpl in J; intuition congruence || (injection J as <-; simpl; lia) || idtac.
    all: match goal with H : Some _ = Some _ |- _ => injection H as <- end; simpl; lia.
  - split; [intros h l; apply Permutation_sym, Permutation_rev|].
    do 4 eexists. split; [reflexivity|]. split; [reflexivity|]. split; exists 4%nat; reflexivity.
Qed.

Example C22_copy_example : exists h1 b h2,
  h_copy ex_heap 0%nat (fun _ => true) = Some (h1, b) /\
  h_set h1 1%nat (B "x") None = Some h2 /\ StronglySorted blt (map fst [(B "a", Some 1%nat); (B "b", Some 2%nat)]).
Proof. do 3 eexists. split; [reflexivity|]. split; [reflexivity|]. repeat constructor. Qed.
