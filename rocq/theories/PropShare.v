(** C52: JSON values as objects that contain each other.  The mutating methods
    change an object in place: they do to it what the value-level functions of
    Access.v do to a value, and every document that contains the object shows
    the change, in every place where it contains it - and no other change. *)
From Coq Require Import Sorting.Permutation Sorting.Sorted.
From Verif Require Import Base Strconv SortedMap SortedMapFacts Json SpecJson Access Heap SpecHeap HeapFacts HeapFacts2 SpecShare ShareFacts.

(** ** Each method *)

(** Set.  The value put in must not contain the dict itself. *)
Theorem C52_set : forall h x k v nid kvs jv, holds h x (JDict nid kvs) -> holds h v jv -> ~ reaches h v x ->
  exists h', h_set h x k (Some v) = Some h' /\ becomes h x (JDict nid (dict_set kvs k jv)) h'.
Proof. exact h_set_becomes. Qed.

(** Remove, RemoveIgnoreCase. *)
Theorem C52_remove : forall h x k nid kvs, holds h x (JDict nid kvs) ->
  exists h', h_remove h x k = Some h' /\ becomes h x (JDict nid (fst (dict_remove kvs k))) h'.
Proof. exact h_remove_becomes. Qed.

Theorem C52_remove_ignore_case : forall ceq h x k nid kvs kvs' b,
  holds h x (JDict nid kvs) -> dict_remove_ic ceq kvs k = Some (kvs', b) ->
  exists h', h_remove_ic ceq h x k = Some h' /\ becomes h x (JDict nid kvs') h'.
Proof. exact h_remove_ic_becomes. Qed.

(** Update, UpdateDefault; the other object may be the dict itself, but must
    not contain it. *)
Theorem C52_update : forall h x y nid kvs jo, holds h x (JDict nid kvs) -> holds h y jo ->
  (forall p, leads h y p x -> p = []) ->
  exists h', h_update h x y = Some h' /\ becomes h x (JDict nid (dict_update kvs jo)) h'.
Proof. exact h_update_becomes. Qed.

Theorem C52_update_default : forall h x y nid kvs jo, holds h x (JDict nid kvs) -> holds h y jo ->
  (forall p, leads h y p x -> p = []) ->
  exists h', h_update_default h x y = Some h' /\ becomes h x (JDict nid (dict_update_default kvs jo)) h'.
Proof. exact h_update_default_becomes. Qed.

(** Array Add (any number of objects) and SetAt; SetAt outside the array
    panics in both readings. *)
Theorem C52_append : forall h x vs l js, holds h x (JArray l) -> Forall2 (holds h) vs js ->
  (forall v, In v vs -> ~ reaches h v x) ->
  exists h', h_append h x (map Some vs) = Some h' /\ becomes h x (JArray (array_add l js)) h'.
Proof. exact h_append_becomes. Qed.

Theorem C52_set_at : forall h x i v l jv, holds h x (JArray l) -> holds h v jv -> ~ reaches h v x ->
  match array_set_at l (Z.of_nat i) jv with
  | Some l' => exists h', h_set_at h x i (Some v) = Some h' /\ becomes h x (JArray l') h'
  | None => h_set_at h x i (Some v) = None
  end.
Proof. exact h_set_at_becomes. Qed.

(** Get hands out the member itself: the object in the place the keys name. *)
Theorem C52_get : forall h a nid kvs keys, holds h a (JDict nid kvs) ->
  match Get (JDict nid kvs) keys with
  | ROk v => exists x, h_get h a keys = Some (ROk x) /\ holds h x v /\ leads h a (map Key keys) x
  | RErr e => h_get h a keys = Some (RErr e)
  end.
Proof. exact h_get_spec. Qed.

Theorem C52_get_ignore_cases : forall ceq h a nid kvs keys, holds h a (JDict nid kvs) ->
  match GetIgnoreCases ceq (JDict nid kvs) keys with
  | ROk v => exists x ks, h_get_ic ceq h a keys = Some (ROk x) /\ holds h x v /\
               Forall2 (fun k k' => ceq k k' = true) keys ks /\ leads h a (map Key ks) x
  | RErr e => h_get_ic ceq h a keys = Some (RErr e)
  end.
Proof. exact h_get_ic_spec. Qed.

(** GetAt hands out the element itself; a negative index counts from the end. *)
Theorem C52_get_at : forall h a l i, holds h a (JArray l) ->
  match array_get_at l i with
  | ROk v => exists x n, h_get_at h a i = Some (ROk (Some x)) /\ holds h x v /\ leads h a [Idx n] x /\
               Z.of_nat n = (if i <? 0 then Z.of_nat (length l) + i else i)
  | RErr e => h_get_at h a i = Some (RErr e)
  end.
Proof. exact h_get_at_spec. Qed.

(** Add with a path of keys, in a document without sharing on the way: the
    result and the error are those of the value-level Add; exactly one object,
    on the way, has changed.  (Every null is taken to be the JSONNull pointer;
    see C52_null_identity for the others.) *)
Theorem C52_add : forall isnull h a o nid kvs jo keys,
  (forall x, nth_error h x = Some CNull -> isnull x = true) ->
  holds h a (JDict nid kvs) -> json_ok (JDict nid kvs) -> holds h o jo -> along h a o keys ->
  exists h' e kvs', h_add isnull h a (Some o) keys = Some (h', e) /\
    dict_add kvs jo keys = (kvs', e) /\ holds h' a (JDict nid kvs') /\
    exists ks y vy, leads h a (map Key ks) y /\ becomes h y vy h'.
Proof.
  intros isnull h a o nid kvs jo keys NUL H O Ho AL. destruct keys as [|key keys].
  - exists h, None, kvs. repeat split; [exact H|]. exists [], a, (JDict nid kvs). split; [constructor|].
    apply write_becomes; [auto|exact H].
  - destruct (h_add_path_spec isnull keys h a o nid kvs key jo NUL H O Ho AL) as (h' & e & kvs' & ks & y & E1 & E2 & H' & L & _ & S & (vy & HY) & _).
    exists h', e, kvs'. repeat split; [exact E1|exact E2|exact H'|]. exists ks, y, vy. split; [exact L|].
    apply write_becomes; assumption.
Qed.

(** A null that is not the JSONNull pointer - DeepCopy makes such - is in the
    way of Add: the call fails and changes nothing. *)
Theorem C52_null_identity : forall isnull h a o nid rs key key' keys x,
  nth_error h a = Some (CDict nid rs) -> sm_get rs key = Some (Some x) -> nth_error h x = Some CNull -> isnull x = false ->
  h_add isnull h a o (key :: key' :: keys) = Some (h, Some ErrInvalidJsonDict).
Proof.
  intros isnull h a o nid rs key key' keys x G Gk Gx N. unfold h_add. cbn [h_add_path]. rewrite (get_dict_of _ _ _ _ G), Gk, Gx, N. reflexivity.
Qed.

(** So is a nil member - Set(key, nil) makes such. *)
Theorem C52_nil_in_the_way : forall isnull h a o nid rs key key' keys,
  nth_error h a = Some (CDict nid rs) -> sm_get rs key = Some None ->
  h_add isnull h a o (key :: key' :: keys) = Some (h, Some ErrInvalidJsonDict).
Proof.
  intros isnull h a o nid rs key key' keys G Gk. unfold h_add. cbn [h_add_path]. rewrite (get_dict_of _ _ _ _ G), Gk. reflexivity.
Qed.

(** ** What others see of it *)

(** A document that contains the changed object once is that document with
    the new value in that one place. *)
Theorem C52_seen_once : forall h x v h' a j p, becomes h x v h' -> json_ok j -> holds h a j -> only_at h a p x ->
  exists j', put_at j p v = Some j' /\ holds h' a j'.
Proof.
  intros h x v h' a j p [_ B] O H [L U]. destruct (B a j O H) as (j' & H' & R). exists j'. split; [|exact H'].
  destruct (leads_holds _ _ _ _ L _ H) as (jx & _ & V). eapply replaced_put; [exact V|exact O|exact R|].
  intros q. split; [apply U|intros ->; exact L].
Qed.

(** A document that contains it in several places shows the new value in
    every one of them. *)
Theorem C52_seen_everywhere : forall h x v h' a j, becomes h x v h' -> json_ok j -> holds h a j ->
  exists j', holds h' a j' /\ forall p, leads h a p x -> value_at j' p v.
Proof.
  intros h x v h' a j [_ B] O H. destruct (B a j O H) as (j' & H' & R). exists j'. split; [exact H'|].
  intros p L. destruct (leads_holds _ _ _ _ L _ H) as (jx & Hx & V). eapply replaced_visible; [exact V|exact R|exact L|].
  intros q r Lq Lr. destruct (leads_holds _ _ _ _ Lq _ H) as (jx' & Hx' & _).
  (* the rest of the way leads from x to x *)
  assert (exists y, leads h a q y /\ leads h y r x) as (y & L1 & L2).
  { clear - Lr. revert a Lr. induction q as [|s q IH]; intros a Lr; simpl in Lr; [exists a; split; [constructor|exact Lr]|].
    inversion Lr as [|? ? ? ? b ? ? E I L|? ? ? b ? ? E I L]; subst; apply IH in L as (y & L1 & L2); exists y; (split; [|exact L2]).
    - eapply leads_member; eassumption.
    - eapply leads_element; eassumption. }
  assert (y = x) as ->.
  { clear - L1 Lq O H. revert a j O H L1 Lq. induction q as [|s q IH]; intros a j O H L1 Lq; [inversion L1; inversion Lq; congruence|].
    inversion L1 as [|? nid kvs k b ? ? E I L|? rs i b ? ? E I L]; subst; inversion Lq as [|? nid' kvs' k' b' ? ? E' I' L'|? rs' i' b' ? ? E' I' L']; subst;
      rewrite E in E'; try discriminate.
    - injection E' as <- <-. assert (leads h a [Key k] b) as Lb by (eapply leads_member; [exact E|exact I|constructor]).
      destruct (leads_holds _ _ _ _ Lb _ H) as (jb & Hb & Vb). inversion Vb as [|? kj ? xj ? ? Ij Vj|]; subst. inversion Vj; subst.
      apply json_ok_dict in O as [KI OM]. rewrite Forall_forall in OM.
      assert (Some b' = Some b) as EB.
      { apply holds_dict in H as (rs & G & F). rewrite E in G. injection G as <- <-.
        assert (NoDup (map fst kvs)) as ND.
        { assert (map fst kvs = map fst kj) as ->.
          { clear - F. induction F as [|[k r] [k' y] rs kvs [E _] _ IH]; simpl in *; [reflexivity|]. congruence. }
          apply sm_ok_nodup. apply sm_ok_strong. exact KI. }
        pose proof (last_binding_in kvs k (Some b) ND I). pose proof (last_binding_in kvs k (Some b') ND I'). congruence. }
      injection EB as ->. eapply (IH b jb); [apply (OM _ Ij)|exact Hb|exact L|exact L'].
    - injection E' as <-. rewrite I in I'. injection I' as <-.
      assert (leads h a [Idx i] b) as Lb by (eapply leads_element; [exact E|exact I|constructor]).
      destruct (leads_holds _ _ _ _ Lb _ H) as (jb & Hb & Vb). inversion Vb as [| |lj ? xj ? ? Ij Vj]; subst. inversion Vj; subst.
      apply json_ok_array in O. rewrite Forall_forall in O. eapply (IH b jb); [apply O; eapply nth_error_In, Ij|exact Hb|exact L|exact L']. }
  eapply acyclic; [exact Hx'|exact L2].
Qed.

(** A document that does not contain it is as before. *)
Theorem C52_not_seen_elsewhere : forall h x v h' a j, becomes h x v h' -> json_ok j -> holds h a j -> ~ reaches h a x ->
  holds h' a j.
Proof.
  intros h x v h' a j [_ B] O H N. destruct (B a j O H) as (j' & H' & R).
  rewrite (replaced_none v _ j j' (fun p L => N (ex_intro _ p L)) R). exact H'.
Qed.

(** Together: fetch a member by path and set one of its members; if the
    document contains it there only, the document is the old one with the new
    dict put in that place. *)
Theorem C52_get_then_set : forall h d nid kvs keys x nid' sub k v jv,
  holds h d (JDict nid kvs) -> json_ok (JDict nid kvs) ->
  h_get h d keys = Some (ROk x) -> (forall q, leads h d q x -> q = map Key keys) ->
  holds h x (JDict nid' sub) -> holds h v jv -> ~ reaches h v x ->
  exists h' j', h_set h x k (Some v) = Some h' /\
    put_at (JDict nid kvs) (map Key keys) (JDict nid' (dict_set sub k jv)) = Some j' /\ holds h' d j'.
Proof.
  intros h d nid kvs keys x nid' sub k v jv H O E0 U Hx Hv N.
  assert (L : leads h d (map Key keys) x).
  { pose proof (C52_get h d nid kvs keys H) as G. destruct (Get (JDict nid kvs) keys) as [w|e]; [|congruence].
    destruct G as (x' & E1 & _ & L). congruence. }
  destruct (C52_set h x k v nid' sub jv Hx Hv N) as (h' & E & B). 
  destruct (C52_seen_once h x _ h' d _ _ B O H (conj L U)) as (j' & P & H'). exists h', j'. auto.
Qed.

(** ** What the conditions exclude *)

(** With sharing the value-level reading is wrong: one Set, two changes. *)
Theorem C52_sharing_refuted : exists h d x h',
  holds h d (JDict 0 [(B "a", JDict 0 []); (B "b", JDict 0 [])]) /\ h_get h d [B "a"] = Some (ROk x) /\
  h_set h x (B "k") (Some 2%nat) = Some h' /\
  holds h' d (JDict 0 [(B "a", JDict 0 [(B "k", JInt 7)]); (B "b", JDict 0 [(B "k", JInt 7)])]).
Proof.
  exists [CDict 0 [(B "a", Some 1%nat); (B "b", Some 1%nat)]; CDict 0 []; CInt 7], 0%nat, 1%nat. eexists.
  split; [exists 3%nat; reflexivity|]. split; [reflexivity|]. split; [reflexivity|]. exists 4%nat. reflexivity.
Qed.

(** A dict set into itself stands for no value any more. *)
Theorem C52_cycle_refuted : forall h x k nid kvs h', holds h x (JDict nid kvs) ->
  h_set h x k (Some x) = Some h' -> forall j, ~ holds h' x j.
Proof.
  intros h x k nid kvs h' H E j H'. apply holds_dict in H as (rs & G & _). unfold h_set in E. rewrite (get_dict_of _ _ _ _ G) in E. injection E as <-.
  assert (G' : nth_error (hwrite h x (CDict nid (sm_add rs k (Some x)))) x = Some (CDict nid (sm_add rs k (Some x))))
    by (apply hwrite_same; eapply nth_error_lt, G).
  assert (L : leads (hwrite h x (CDict nid (sm_add rs k (Some x)))) x [Key k] x).
  { eapply leads_member; [exact G'| |constructor]. apply sm_get_some_in. rewrite sm_get_add, bseq_refl. reflexivity. }
  apply (acyclic _ _ _ _ H') in L. discriminate.
Qed.

(** After Update the two dicts share members: a later change through one is
    seen through the other. *)
Theorem C52_update_shares_refuted : exists h h1 h2,
  holds h 0%nat (JDict 0 []) /\ holds h 1%nat (JDict 0 [(B "a", JArray [])]) /\
  h_update h 0%nat 1%nat = Some h1 /\ h_append h1 2%nat [Some 3%nat] = Some h2 /\ h_get h1 1%nat [B "a"] = Some (ROk 2%nat) /\
  holds h2 0%nat (JDict 0 [(B "a", JArray [JInt 7])]).
Proof.
  exists [CDict 0 []; CDict 0 [(B "a", Some 2%nat)]; CArray []; CInt 7]. do 2 eexists.
  split; [exists 1%nat; reflexivity|]. split; [exists 2%nat; reflexivity|]. split; [reflexivity|]. split; [reflexivity|].
  split; [reflexivity|]. exists 4%nat. reflexivity.
Qed.

(** ** The hypotheses are met *)

Definition share_heap : heap :=
  [CDict 0 [(B "a", Some 1%nat); (B "l", Some 2%nat)]; CDict 0 [(B "x", Some 3%nat)]; CArray [Some 3%nat; Some 4%nat]; CInt 7; CNull; CString (B "new")].

Example C52_example :
  holds share_heap 0%nat (JDict 0 [(B "a", JDict 0 [(B "x", JInt 7)]); (B "l", JArray [JInt 7; JNull])]) /\
  only_at share_heap 0%nat [Key (B "a")] 1%nat /\ ~ reaches share_heap 5%nat 1%nat /\
  along share_heap 0%nat 5%nat [B "a"; B "y"; B "z"] /\
  exists h' , h_add (fun _ => true) share_heap 0%nat (Some 5%nat) [B "a"; B "y"; B "z"] = Some (h', None) /\
    holds h' 0%nat (JDict 0 [(B "a", JDict 0 [(B "x", JInt 7); (B "y", JDict 0 [(B "z", JString (B "new"))])]); (B "l", JArray [JInt 7; JNull])]).
Proof.
  assert (N5 : forall p y, leads share_heap 5%nat p y -> y = 5%nat).
  { intros p y L. inversion L as [|? ? ? ? ? ? ? E|? ? ? ? ? ? E]; [reflexivity|discriminate|discriminate]. }
  assert (U1 : forall q, leads share_heap 0%nat q 1%nat -> q = [Key (B "a")]).
  { intros q L. inversion L as [|? ? ? ? ? ? ? E I L1|? ? ? ? ? ? E]; subst; [|discriminate]. injection E as <- <-.
    destruct I as [I|[I|[]]]; injection I as E1 <-; subst.
    - inversion L1 as [|? ? ? ? ? ? ? E I L2|? ? ? ? ? ? E]; subst; [reflexivity| |discriminate]. injection E as <- <-.
      destruct I as [I|[]]; injection I as E1 <-; subst. inversion L2; discriminate.
    - inversion L1 as [|? ? ? ? ? ? ? E I L2|? ? i b ? ? E I L2]; subst; [discriminate|]. injection E as <-.
      destruct i as [|[|[|i]]]; simpl in I; try discriminate; injection I as <-; inversion L2; discriminate. }
  assert (L1 : leads share_heap 0%nat [Key (B "a")] 1%nat) by (eapply leads_member; [reflexivity|left; reflexivity|constructor]).
  split; [exists 3%nat; reflexivity|]. split; [split; [exact L1|exact U1]|]. split; [intros [p L]; apply N5 in L; discriminate|].
  split.
  - intros ks y (k & ks' & EK) L.
    assert (~ reaches share_heap 5%nat y) as NR.
    { intros [p Lp]. apply N5 in Lp. subst y.
      inversion L as [|? ? ? ? ? ? ? E I L2|? ? ? ? ? ? E]; subst; [|discriminate]. injection E as <- <-.
      destruct I as [I|[I|[]]]; injection I as E1 <-; subst.
      - inversion L2 as [|? ? ? ? ? ? ? E I L3|? ? ? ? ? ? E]; subst; [|discriminate]. injection E as <- <-.
        destruct I as [I|[]]; injection I as E1' <-. inversion L3; discriminate.
      - inversion L2 as [|? ? ? ? ? ? ? E I L3|? ? ? ? ? ? E]; subst; [discriminate|]. destruct ks as [|? [|? ?]]; simpl in *; try discriminate. }
    split; [|exact NR]. split; [exact L|].
    destruct ks as [|k0 [|k1 ks]]; simpl in *.
    + inversion L; subst. intros q Lq. eapply acyclic; [|exact Lq]. exists 3%nat. reflexivity.
    + injection EK as EK0 EK. subst k0. assert (y = 1%nat) as ->.
      { inversion L as [|? ? ? ? ? ? ? E I L2|]; subst. injection E as <- <-. destruct I as [I|[I|[]]]; [injection I as <-|discriminate].
        inversion L2; reflexivity. }
      exact U1.
    + injection EK as EK0 EK1 EK. subst k0 k1. exfalso. inversion L as [|? ? ? ? ? ? ? E I L2|]; subst. injection E as <- <-. destruct I as [I|[I|[]]]; [injection I as <-|discriminate].
      inversion L2 as [|? ? ? ? ? ? ? E I L3|]; subst. injection E as <- <-. destruct I as [I|[]]; discriminate.
  - eexists. split; [reflexivity|]. exists 6%nat. reflexivity.
Qed.
