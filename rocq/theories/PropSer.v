(** Dicts into interfaces with the methods of gotypes.ISerializable: C67. *)
From Coq Require Import Lia.
From Verif Require Import Base Strconv SortedMap Json SpecJson Heap Gotypes Marshal Access JErrors Unmarshal SpecUnmarshal SpecConvert SpecSame UnmFacts UnmFrame UnmSame UnmTwin
  ZeroFacts PropUnmarshal2 PropConvert PropConvert2 PropContain PropSame.
Open Scope Z_scope.

(** Correspondences between what is new. *)
Definition from (k k' : nat) (R : correspondence) : correspondence := fun x y => R x y /\ (k <= x)%nat /\ (k' <= y)%nat.
Lemma F2_both {A C} (P Q : A -> C -> Prop) l : forall l', Forall2 P l l' -> (forall x y, In x l -> In y l' -> P x y -> Q x y) -> Forall2 Q l l'.
Proof. induction 1 as [|x y l l' H F IH]; intros K; constructor; [apply K; [left; reflexivity..|exact H]|apply IH; intros; apply K; [right; assumption..|assumption]]. Qed.
Lemma from_like k k' R c c' : like R c c' -> (forall y, In y (mentions c) -> (k <= y)%nat) -> (forall y, In y (mentions c') -> (k' <= y)%nat) -> like (from k k' R) c c'.
Proof.
  intros H M M'. unfold from.
  destruct c as [| | | | |[[l i]|]|l|[d|]|kvs|[b|]|l|[[]|]| | |], c' as [| | | | |[[l' i']|]|l'|[d'|]|kvs'|[b'|]|l'|[[]|]| | |]; cbn [like mentions] in *; try exact H; try discriminate H.
  - destruct H as [H ->]. split; [|reflexivity]. eapply F2_both; [exact H|]. intros x y X Y Q. split; [exact Q|split; auto].
  - eapply F2_both; [exact H|]. intros x y X Y Q. split; [exact Q|split; auto].
  - split; [exact H|]. split; [apply M|apply M']; left; reflexivity.
  - eapply F2_both; [exact H|]. intros x y X Y [Q1 Q2]. split; [exact Q1|]. split; [exact Q2|]. split; [apply M|apply M']; apply in_map; assumption.
  - split; [exact H|]. split; [apply M|apply M']; left; reflexivity.
  - eapply F2_both; [exact H|]. intros x y X Y Q. split; [exact Q|split; auto].
  - destruct H as [H ->]. split; [|reflexivity]. split; [exact H|]. split; [apply M|apply M']; left; reflexivity.
Qed.
Lemma from_corresponds k k' R m m' : corresponds R m m' ->
  (forall x d y, (k <= x)%nat -> nth_error m x = Some d -> In y (mentions d) -> (k <= y)%nat) ->
  (forall x d y, (k' <= x)%nat -> nth_error m' x = Some d -> In y (mentions d) -> (k' <= y)%nat) -> corresponds (from k k' R) m m'.
Proof.
  intros [H1 H2] M M'. split; [intros a b a' b' [A _] [C _]; apply H1; assumption|].
  intros a a' (A & La & La'). destruct (H2 a a' A) as (c & c' & E & E' & L). exists c, c'. split; [exact E|]. split; [exact E'|].
  apply from_like; [exact L|intros y; apply (M a c y La E)|intros y; apply (M' a' c' y La' E')].
Qed.
Lemma write_new R m m' a a' c c' : corresponds R m m' -> (a < length m)%nat -> (a' < length m')%nat -> (forall x y, R x y -> x <> a /\ y <> a') ->
  like (plus R a a') c c' -> corresponds (plus R a a') (mwrite m a c) (mwrite m' a' c').
Proof.
  intros [H1 H2] La La' N L. split.
  - intros x y x' y' [X|[-> ->]] [Y|[-> ->]]; [apply H1; assumption|..|tauto].
    + destruct (N _ _ X). tauto.
    + destruct (N _ _ Y). split; congruence.
  - intros x x' [X|[-> ->]].
    + destruct (N _ _ X) as [Nx Nx'], (H2 _ _ X) as (d & d' & E & E' & D). exists d, d'. rewrite !mwrite_other by congruence. split; [exact E|]. split; [exact E'|]. eapply like_ext; [apply plus_ext|exact D].
    + exists c, c'. rewrite !mwrite_same by assumption. auto.
Qed.
Lemma new_at t m : (length m <= snd (zalloc t m))%nat.
Proof.
  destruct (zalloc_step (fun _ => False) (length m) t m) as [_ [[]|I]]; [|exact I].
  split; [reflexivity|]. intros x d y [[]|Hx] Ex. apply nth_error_lt in Ex. lia.
Qed.

Section C67.
Context (env : nat -> list (finfo * gty)) (locate : list (finfo * gty) -> bytes -> list nat).
Context (match_us match_eu : bytes -> bool) (to_bool : bytes -> bool)
  (parse_time : bytes -> option bytes) (time_json : bytes -> option (option bytes)) (std_ok : bytes -> bool).
Notation Unmarshal := (Unmarshal env locate match_us match_eu to_bool parse_time time_json std_ok).
Notation unm := (unm env locate match_us match_eu to_bool parse_time time_json std_ok).
Notation start m := {| u_mem := m; u_sess := [] |}.
Notation top := (selected_top env locate match_us match_eu to_bool parse_time time_json std_ok).

(** The object that is made for an interface, and what is read into it. *)
Notation object c := (TStruct c (env c)).

Lemma ser_top n m i c a doc keys nid kvs : selected doc keys (JDict nid kvs) ->
  Unmarshal (S n) m (TSer i (Makes c)) a doc keys
  = match Unmarshal n (fst (zalloc (object c) m)) (object c) (snd (zalloc (object c) m)) doc keys with
    | TopOk m2 => TopOk (mwrite m2 a (VIface (Some (DynPtr (snd (zalloc (object c) m)) (object c)))))
    | r => r
    end.
Proof.
  intros Sel. rewrite !(top _ _ _ _ _ _ _ Sel). cbn [resolve].
  pose (st1 := if 0 <? nid then {| u_mem := m; u_sess := put_node [] nid {| nv_value := Some (a, TSer i (Makes c)); nv_targets := [] |} |} else start m).
  assert (E1 : unm (S n) (start m) (TSer i (Makes c)) a (JDict nid kvs) = un_serial env (unm n) st1 (Makes c) a (JDict nid kvs)).
  { cbn [Unmarshal.unm]. unfold st1. destruct (0 <? nid); reflexivity. }
  rewrite E1. clear E1. cbn [un_serial]. replace (u_mem st1) with m by (unfold st1; destruct (0 <? nid); reflexivity).
  destruct (zalloc (object c) m) as [m1 b]. cbn [fst snd].
  assert (A : alike (unm n (with_mem st1 m1) (object c) b (JDict nid kvs)) (unm n (start m1) (object c) b (JDict nid kvs))).
  { destruct n as [|n]; [exact Logic.I|]. cbn [Unmarshal.unm].
    assert (S1 : twins (with_mem st1 m1) (start m1) \/ 0 < nid) by (unfold st1; destruct (Z.ltb_spec 0 nid); [right; assumption|left; split; reflexivity]).
    pose proof (fun st st' => unm_alike env locate match_us match_eu to_bool parse_time time_json std_ok (S n) (JDict 0 kvs) st st' (object c) b) as W. cbn [Unmarshal.unm] in W.
    unfold st1. destruct (Z.ltb_spec 0 nid) as [P|P].
    - unfold save_node_value. cbn [u_sess with_mem find_node put_node u_mem]. rewrite Z.eqb_refl. cbn [set_targets nv_targets ubind].
      assert (T : twins {| u_mem := m1; u_sess := put_node (put_node [] nid {| nv_value := Some (a, TSer i (Makes c)); nv_targets := [] |}) nid {| nv_value := Some (b, object c); nv_targets := [] |} |}
                        {| u_mem := m1; u_sess := put_node [] nid {| nv_value := Some (b, object c); nv_targets := [] |} |}).
      { split; [reflexivity|]. intros k. unfold put_node. cbn [u_sess find_node]. destruct (nid =? k); reflexivity. }
      exact (W _ _ T).
    - exact (W (with_mem (start m) m1) (start m1) (conj eq_refl (fun _ => eq_refl))). }
  destruct (unm n (with_mem st1 m1) (object c) b (JDict nid kvs)) as [s [e|]| |], (unm n {| u_mem := m1; u_sess := [] |} (object c) b (JDict nid kvs)) as [s' [e'|]| |]; try contradiction; cbn [ubind outcome u_mem with_mem]; try reflexivity.
  - destruct A as [[-> _] A]. injection A as ->. reflexivity.
  - destruct A as [_ A]. discriminate A.
  - destruct A as [_ A]. discriminate A.
  - destruct A as [[<- _] _]. reflexivity.
Qed.

(** A new object is made, with the zero value; the dict is read into it as into
    any variable of that type; the interface is then set to a pointer to it.  An
    error is returned as it is, and the interface is left alone. *)
Theorem C67_new_object : env_ok env -> forall n m i c a doc keys nid kvs, selected doc keys (JDict nid kvs) ->
  exists m1 b, new_variable m (object c) b m1 /\
    Unmarshal (S n) m (TSer i (Makes c)) a doc keys
    = match Unmarshal n m1 (object c) b doc keys with
      | TopOk m2 => TopOk (mwrite m2 a (VIface (Some (DynPtr b (object c)))))
      | r => r
      end.
Proof.
  intros Ok n m i c a doc keys nid kvs Sel. exists (fst (zalloc (object c) m)), (snd (zalloc (object c) m)).
  split; [|apply (ser_top _ _ _ _ _ _ _ _ _ Sel)]. destruct (zalloc_zero env (object c) (Ok c) m) as (E & Z & L). split; [exact E|]. split; [apply L|exact Z].
Qed.

Lemma object_frame n m c doc keys m' : leaves (Unmarshal n (fst (zalloc (object c) m)) (object c) (snd (zalloc (object c) m)) doc keys) m' ->
  (length m <= length m')%nat /\ (forall x, (x < length m)%nat -> nth_error m' x = nth_error m x) /\
  (forall x d y, (length m <= x)%nat -> nth_error m' x = Some d -> In y (mentions d) -> (length m <= y)%nat).
Proof.
  intros Lv. pose (P := fun _ : addr => False). pose (L := length m).
  assert (C0 : UnmFrame.closed P L m) by (split; [reflexivity|]; intros x d y [[]|Hx] Ex; apply nth_error_lt in Ex; unfold L in Hx; lia).
  destruct (zalloc_step P L (object c) m C0) as [[C1 S1] I1].
  destruct (zalloc (object c) m) as [m1 b]. cbn [fst snd] in *.
  assert (F : forall jo, UnmFrame.framed P L (start m1) (unm n (start m1) (object c) b jo)).
  { intros jo. apply unm_framed; [|exact I1]. split; [exact C1|intros k nv D; discriminate D]. }
  unfold Unmarshal.Unmarshal in Lv. destruct (match keys with [] => _ | _ => _ end) as [jo|e]; [|destruct Lv as [Lv|[? Lv]]; discriminate Lv].
  cbn [resolve] in Lv. specialize (F jo). destruct (unm n {| u_mem := m1; u_sess := [] |} (object c) b jo) as [st [e|]| |]; destruct Lv as [Lv|[e' Lv]]; try discriminate Lv; injection Lv as <-;
  destruct F as [[[F0 F1] _] F2]; (split; [exact F0|]); (split; [intros x Lx; rewrite (F2 x Lx (fun f => f)); cbn [u_mem]; apply (S1 x Lx (fun f => f))|]);
  intros x d y Lx Ex Iy; destruct (F1 x d y (or_intror Lx) Ex Iy) as [[]|I]; exact I.
Qed.

(** Nothing that there was before is changed, but for the interface where there
    is no error.  So the object that it pointed to is replaced and not merged
    with; what shares it does not see the new one. *)
Theorem C67_others_kept : forall n m i c a doc keys nid kvs m', selected doc keys (JDict nid kvs) ->
  leaves (Unmarshal n m (TSer i (Makes c)) a doc keys) m' -> forall x, (x < length m)%nat ->
  x <> a \/ (forall m1, Unmarshal n m (TSer i (Makes c)) a doc keys <> TopOk m1) -> nth_error m' x = nth_error m x.
Proof.
  intros [|n] m i c a doc keys nid kvs m' Sel Lv x Lx Nx.
  { rewrite (top _ _ _ _ _ _ _ Sel) in Lv. destruct Lv as [Lv|[? Lv]]; discriminate Lv. }
  rewrite (ser_top _ _ _ _ _ _ _ _ _ Sel) in *. pose proof (fun m' => object_frame n m c doc keys m') as F.
  destruct (Unmarshal n (fst _) _ _ doc keys) as [m2|m2 e|e| |]; destruct Lv as [Lv|[e' Lv]]; try discriminate Lv; injection Lv as <-.
  - destruct Nx as [Nx|Nx]; [|destruct (Nx _ eq_refl)]. rewrite mwrite_other by congruence. apply (F m2 (or_introl eq_refl)), Lx.
  - apply (F m2 (or_intror (ex_intro _ e eq_refl))), Lx.
Qed.

(** Where it succeeds the interface holds a pointer to an object that there was
    not before. *)
Theorem C67_points_to_new : forall n m i c a doc keys nid kvs m', selected doc keys (JDict nid kvs) -> (a < length m)%nat ->
  Unmarshal n m (TSer i (Makes c)) a doc keys = TopOk m' -> exists b, (length m <= b)%nat /\ nth_error m' a = Some (VIface (Some (DynPtr b (object c)))).
Proof.
  intros [|n] m i c a doc keys nid kvs m' Sel La E; [rewrite (top _ _ _ _ _ _ _ Sel) in E; discriminate E|].
  rewrite (ser_top _ _ _ _ _ _ _ _ _ Sel) in E. pose proof (fun m' => object_frame n m c doc keys m') as F.
  destruct (Unmarshal n (fst _) _ _ doc keys) as [m2|m2 e|e| |]; try discriminate E. injection E as <-. specialize (F m2 (or_introl eq_refl)).
  exists (snd (zalloc (object c) m)). split; [apply new_at|apply mwrite_same; lia].
Qed.

(** What the interface held, and all other variables, make no difference to
    the outcome. *)
Theorem C67_before_ignored : forall n m m' i i' c a a' doc keys nid kvs, selected doc keys (JDict nid kvs) -> (a < length m)%nat -> (a' < length m')%nat ->
  match Unmarshal n m (TSer i (Makes c)) a doc keys, Unmarshal n m' (TSer i' (Makes c)) a' doc keys with
  | TopOk m1, TopOk m1' => exists R, R a a' /\ corresponds R m1 m1'
  | TopErr _ e, TopErr _ e' => e = e'
  | TopPanic, TopPanic | TopFuel, TopFuel => True
  | _, _ => False
  end.
Proof.
  intros [|n] m m' i i' c a a' doc keys nid kvs Sel La La'; [rewrite !(top _ _ _ _ _ _ _ Sel); exact Logic.I|].
  assert (NG : forall n m t a e, Unmarshal n m t a doc keys <> TopGet e).
  { intros k m0 t a0 e. rewrite (top _ _ _ _ _ _ _ Sel). destruct (unm _ _ _ _ _) as [? [?|]| |]; discriminate. }
  rewrite !(ser_top _ _ _ _ _ _ _ _ _ Sel).
  destruct (zalloc_made (object c) (fun _ _ => False) m m') as (R & _ & H & Ha); [split; intros; contradiction|].
  pose proof (C59_determined env locate match_us match_eu to_bool parse_time time_json std_ok R n _ _ (object c) _ _ doc keys H Ha) as O.
  pose proof (fun m2 => object_frame n m c doc keys m2) as F. pose proof (fun m2 => object_frame n m' c doc keys m2) as F'.
  specialize (NG n (fst (zalloc (object c) m)) (object c) (snd (zalloc (object c) m))).
  pose proof (new_at (object c) m) as Nb. pose proof (new_at (object c) m') as Nb'.
  destruct (zalloc (object c) m) as [m1 b], (zalloc (object c) m') as [m1' b']. cbn [fst snd] in *.
  destruct (Unmarshal n m1 (object c) b doc keys) as [m2|m2 e|e| |], (Unmarshal n m1' (object c) b' doc keys) as [m2'|m2' e'|e'| |]; try contradiction O; try exact Logic.I; try exact O.
  - destruct O as (R' & E & O). destruct (F m2 (or_introl eq_refl)) as (F1 & _ & F3), (F' m2' (or_introl eq_refl)) as (F1' & _ & F3').
    exists (plus (from (length m) (length m') R') a a'). split; [right; split; reflexivity|].
    apply write_new; [apply from_corresponds; assumption|lia|lia| |].
    + intros x y (_ & X & Y). lia.
    + split; [|reflexivity]. left. split; [apply E, Ha|]. split; assumption.
  - apply O.
  - destruct (NG _ eq_refl).
Qed.

(** An interface for which no factory is registered: an error, and nothing is
    changed.  A factory that makes nothing: reflect panics. *)
Theorem C67_no_factory : forall n m i a doc keys nid kvs, selected doc keys (JDict nid kvs) ->
  Unmarshal (S n) m (TSer i NoFactory) a doc keys = TopErr m EFactory.
Proof.
  intros n m i a doc keys nid kvs Sel. rewrite (top _ _ _ _ _ _ _ Sel). cbn [resolve Unmarshal.unm]. destruct (0 <? nid); reflexivity.
Qed.
Theorem C67_nil_factory : forall n m i a doc keys nid kvs, selected doc keys (JDict nid kvs) ->
  Unmarshal (S n) m (TSer i NilFactory) a doc keys = TopPanic.
Proof.
  intros n m i a doc keys nid kvs Sel. rewrite (top _ _ _ _ _ _ _ Sel). cbn [resolve Unmarshal.unm]. destruct (0 <? nid); reflexivity.
Qed.

(** Anything that is no dict: null makes it nil, whatever the factory; scalars
    and arrays panic. *)
Theorem C67_null : forall n m i f a doc keys, counts_as_null doc keys -> Unmarshal (S n) m (TSer i f) a doc keys = TopOk (mwrite m a (VIface None)).
Proof.
  intros n m i f a doc keys Sel. unfold Unmarshal.Unmarshal. destruct Sel as [[Nk Sel]|[-> Sel]].
  - destruct keys as [|k keys]; [congruence|]. destruct doc; try discriminate Sel. cbn [receiver]. rewrite Sel. reflexivity.
  - destruct doc; try contradiction; reflexivity.
Qed.
Theorem C67_no_dict : forall n m i f a doc keys j, selected doc keys j -> match j with JBool _ | JInt _ | JFloat _ _ | JString _ | JArray _ => True | _ => False end ->
  Unmarshal (S n) m (TSer i f) a doc keys = TopPanic.
Proof. intros n m i f a doc keys j Sel H. rewrite (top _ _ _ _ _ _ _ Sel). destruct j; try destruct H; reflexivity. Qed.

(** A pointer to the struct itself, in contrast, keeps what it points to: the
    dict is read into the old object. *)
Theorem C67_pointer_merges : forall n m c a b doc keys nid kvs, selected doc keys (JDict nid kvs) -> references_lead_out (JDict nid kvs) ->
  nth_error m a = Some (VPtr (Some b)) -> Unmarshal (S n) m (TPtr (TNamed c)) a doc keys = Unmarshal n m (TNamed c) b doc keys.
Proof.
  intros n m c a b doc keys nid kvs Sel R E.
  apply (C44_pointer env locate match_us match_eu to_bool parse_time time_json std_ok n m (TNamed c) a b doc keys (JDict nid kvs) E Sel R). reflexivity.
Qed.
End C67.

(** ** Examples *)

(** An interface that holds a pointer to the struct {n: 7, s: "x"}, and a
    pointer to the same struct. *)
Definition s_mem : mem := [VInt 7; VString (B"x"); VStruct [0%nat; 1%nat]; VIface (Some (DynPtr 2%nat (TStruct 1 (c_env 1)))); VPtr (Some 2%nat)].
Notation s_type := (TSer 5 (Makes 1)).
Definition s_doc : json := JDict 3 [(B"n", JInt 300)].
Lemma s_sel : selected s_doc [] s_doc. Proof. right. repeat split. Qed.
(** The new object has the zero value for s; through the pointer the old one
    keeps "x". *)
Example C67_new_object_example :
  c_unm 4%nat s_mem s_type 3%nat s_doc []
  = TopOk [VInt 7; VString (B"x"); VStruct [0%nat; 1%nat]; VIface (Some (DynPtr 7%nat (TStruct 1 (c_env 1)))); VPtr (Some 2%nat); VInt 44; VString []; VStruct [5%nat; 6%nat]]
  /\ c_unm 4%nat s_mem (TPtr (TNamed 1)) 4%nat s_doc [] = TopOk [VInt 44; VString (B"x"); VStruct [0%nat; 1%nat]; VIface (Some (DynPtr 2%nat (TStruct 1 (c_env 1)))); VPtr (Some 2%nat)].
Proof. split; reflexivity. Qed.
Example C67_new_object_case : exists m1 b, new_variable s_mem (TStruct 1 (c_env 1)) b m1 /\
    c_unm 4%nat s_mem s_type 3%nat s_doc [] = match c_unm 3%nat m1 (TStruct 1 (c_env 1)) b s_doc [] with
      | TopOk m2 => TopOk (mwrite m2 3%nat (VIface (Some (DynPtr b (TStruct 1 (c_env 1)))))) | r => r end.
Proof. apply (c_case C67_new_object c_env_ok 3%nat s_mem 5%nat 1%nat 3%nat s_doc [] 3 _ s_sel). Qed.
Example C67_others_kept_example : exists m', leaves (c_unm 4%nat s_mem s_type 3%nat s_doc []) m' /\ nth_error m' 0%nat = Some (VInt 7) /\ nth_error m' 4%nat = Some (VPtr (Some 2%nat)).
Proof.
  eexists. assert (L : leaves (c_unm 4%nat s_mem s_type 3%nat s_doc []) _) by (left; reflexivity). split; [exact L|].
  split; rewrite (c_case C67_others_kept 4%nat s_mem 5%nat 1%nat 3%nat s_doc [] 3 _ _ s_sel L); try reflexivity; try (cbn; lia); left; discriminate.
Qed.
(** With an error the interface keeps its object *)
Example C67_error_example : exists m' e, c_unm 4%nat s_mem s_type 3%nat (JDict 0 [(B"s", JInt 1); (B"n", JString (B"x"))]) [] = TopErr m' e /\ nth_error m' 3%nat = nth_error s_mem 3%nat.
Proof.
  eexists _, _. assert (E : c_unm 4%nat s_mem s_type 3%nat (JDict 0 [(B"s", JInt 1); (B"n", JString (B"x"))]) [] = TopErr _ _) by reflexivity. split; [exact E|].
  apply (c_case C67_others_kept 4%nat s_mem 5%nat 1%nat 3%nat (JDict 0 [(B"s", JInt 1); (B"n", JString (B"x"))]) [] 0 [(B"s", JInt 1); (B"n", JString (B"x"))]); [right; repeat split|right; eexists; exact E|cbn; lia|].
  right. intros m1. rewrite E. discriminate.
Qed.
Example C67_points_to_new_example : exists m' b, c_unm 4%nat s_mem s_type 3%nat s_doc [] = TopOk m' /\ (5 <= b)%nat /\ nth_error m' 3%nat = Some (VIface (Some (DynPtr b (TStruct 1 (c_env 1))))).
Proof.
  assert (E : c_unm 4%nat s_mem s_type 3%nat s_doc [] = TopOk _) by reflexivity. eexists. 
  destruct (c_case C67_points_to_new 4%nat s_mem 5%nat 1%nat 3%nat s_doc [] 3 _ _ s_sel ltac:(cbn; lia) E) as (b & L & P). exists b. split; [exact E|]. split; [exact L|exact P].
Qed.
(** The same outcome as for a nil interface elsewhere *)
Example C67_before_ignored_example : exists R m1 m1', c_unm 4%nat s_mem s_type 3%nat s_doc [] = TopOk m1 /\ c_unm 4%nat [VIface None] (TSer 6 (Makes 1)) 0%nat s_doc [] = TopOk m1' /\ R 3%nat 0%nat /\ corresponds R m1 m1'.
Proof.
  pose proof (c_case C67_before_ignored 4%nat s_mem [VIface None] 5%nat 6%nat 1%nat 3%nat 0%nat s_doc [] 3 _ s_sel ltac:(cbn; lia) ltac:(cbn; lia)) as P.
  assert (E : c_unm 4%nat s_mem s_type 3%nat s_doc [] = TopOk _) by reflexivity. assert (E' : c_unm 4%nat [VIface None] (TSer 6 (Makes 1)) 0%nat s_doc [] = TopOk _) by reflexivity.
  rewrite E, E' in P. destruct P as (R & Ra & C). exists R. eexists _, _. split; [exact E|]. split; [exact E'|]. split; assumption.
Qed.
Example C67_no_factory_example : c_unm 1%nat s_mem (TSer 5 NoFactory) 3%nat s_doc [] = TopErr s_mem EFactory /\ c_unm 1%nat s_mem (TSer 5 NilFactory) 3%nat s_doc [] = TopPanic.
Proof. split; [apply (c_case C67_no_factory 0%nat s_mem 5%nat 3%nat s_doc [] 3 _ s_sel)|apply (c_case C67_nil_factory 0%nat s_mem 5%nat 3%nat s_doc [] 3 _ s_sel)]. Qed.
Example C67_null_example : c_unm 1%nat s_mem s_type 3%nat (JDict 0 [(B"x", JNull)]) [B"x"] = TopOk (mwrite s_mem 3%nat (VIface None)).
Proof. apply (c_case C67_null 0%nat). left. split; [discriminate|reflexivity]. Qed.
Example C67_no_dict_example : c_unm 1%nat s_mem s_type 3%nat (JArray []) [] = TopPanic /\ c_unm 1%nat s_mem s_type 3%nat (JString (B"x")) [] = TopPanic.
Proof. split; eapply (c_case C67_no_dict 0%nat); try (right; repeat split); exact Logic.I. Qed.
Example C67_pointer_merges_example : c_unm 4%nat s_mem (TPtr (TNamed 1)) 4%nat s_doc [] = c_unm 3%nat s_mem (TNamed 1) 2%nat s_doc [].
Proof.
  apply (c_case C67_pointer_merges 3%nat s_mem 1%nat 4%nat 2%nat s_doc [] 3 _ s_sel); [|reflexivity].
  intros p kvs P Sp. exfalso. inversion Sp; subst. destruct H1 as [H|[]]. injection H as <- <-. inversion H2.
Qed.
