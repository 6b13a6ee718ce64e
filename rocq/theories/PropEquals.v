(** Properties of Equals, Diff on equal dicts, IsZero: C20, C21, C36. *)
From Coq Require Import Sorting.Sorted.
From Verif Require Import Base Strconv StrconvFacts SortedMap SortedMapFacts Json SpecJson SpecEquals Access Equals AccessFacts
  EqualsFacts PropRoundtrip PropDict.

(** * C21 *)

(** Equals is identity of content. *)
Theorem C21_equals_iff_same_content : forall a b, json_ok a -> json_ok b -> no_reference a ->
  equals a b = true <-> same_content a b.
Proof. exact equals_spec. Qed.

Theorem C21_symmetric : forall a b, json_ok a -> json_ok b -> no_reference a -> no_reference b ->
  equals a b = equals b a.
Proof.
  intros a b Ha Hb Ra Rb. destruct (equals a b) eqn:E, (equals b a) eqn:E'; try reflexivity.
  - apply equals_spec in E; try assumption. apply same_content_sym in E. apply equals_spec in E; try assumption. congruence.
  - apply equals_spec in E'; try assumption. apply same_content_sym in E'. apply equals_spec in E'; try assumption. congruence.
Qed.

Theorem C21_transitive : forall a b c, json_ok a -> json_ok b -> json_ok c -> no_reference a -> no_reference b ->
  equals a b = true -> equals b c = true -> equals a c = true.
Proof.
  intros a b c Ha Hb Hc Ra Rb H1 H2. apply equals_spec in H1, H2; try assumption.
  apply equals_spec; try assumption. eapply same_content_trans; eassumption.
Qed.

(** Reflexive exactly on values without NaN. *)
Theorem C21_reflexive_iff_no_nan : forall a, json_ok a -> no_reference a -> equals a a = true <-> no_nan a.
Proof.
  intros a Ha Ra. rewrite equals_spec by assumption. split.
  - apply same_content_nan. exact Ha.
  - apply same_content_refl. exact Ra.
Qed.

(** Two dicts with the same members are equal however they were built: what
    was inserted in which order does not show. *)
Theorem C21_order_irrelevant : forall nid nid' kvs kvs', json_ok (JDict nid kvs) -> json_ok (JDict nid' kvs') ->
  no_reference (JDict nid kvs) -> no_nan (JDict nid kvs) ->
  (forall k v, In (k, v) kvs <-> In (k, v) kvs') -> equals (JDict nid kvs) (JDict nid' kvs') = true.
Proof.
  intros nid nid' kvs kvs' H H' R N E. inversion H; subst. inversion H'; subst.
  assert (kvs = kvs') as <-.
  { apply increasing_ext; try assumption. intros k.
    destruct (lookup k kvs) as [v|] eqn:L.
    - symmetry. apply lookup_in; try assumption. apply E. apply lookup_some_in. exact L.
    - destruct (lookup k kvs') as [v|] eqn:L2; [|reflexivity]. apply lookup_some_in in L2. apply E in L2.
      apply lookup_in in L2; congruence. }
  apply equals_spec; try assumption. pose proof (same_content_refl _ R N) as S. inversion S; subst. constructor; assumption.
Qed.

(** Different kinds are never equal; in particular 1 and 1.0 are not. *)
Theorem C21_kinds : forall z f bit s b, equals (JInt z) (JFloat f bit) = false
  /\ equals (JInt z) (JString s) = false /\ equals (JInt z) (JBool b) = false /\ equals (JString s) JNull = false
  /\ equals (JFloat f bit) (JInt z) = false /\ equals (JBool b) (JString s) = false.
Proof. repeat split. Qed.

(** NaN is not equal to itself. *)
Theorem C21_reflexive_refuted : exists a, json_ok a /\ no_reference a /\ equals a a = false.
Proof.
  exists (JArray [JFloat FNaN 64]). repeat split.
  - repeat constructor.
  - intros n S. inversion S; subst. match goal with H : In _ _ |- _ => destruct H as [<-|[]] end.
    match goal with H : subvalue _ _ |- _ => inversion H end.
Qed.

(** An unresolved reference: not symmetric, not reflexive. *)
Theorem C21_reference_refuted :
  equals (JPtr 1) JNull = true /\ equals JNull (JPtr 1) = false /\ equals (JPtr 1) (JPtr 1) = false.
Proof. repeat split. Qed.

Definition e1 : json := JDict 0 [(ka, JArray [JInt 1; JFloat (FFin false 0 (-1074)) 64]); (kb, JDict 0 [(kc, JNull)])].
Definition e2 : json := JDict 5 [(ka, JArray [JInt 1; JFloat (FFin true 0 (-1074)) 32]); (kb, JDict 0 [(kc, JNull)])].
Example e1_ok : json_ok e1.
Proof.
  unfold e1. constructor; [|constructor; [|constructor; [|constructor]]|reflexivity].
  - unfold keys_increasing. cbn. constructor; [constructor; [constructor|constructor]|constructor; [reflexivity|constructor]].
  - constructor. constructor; [constructor; reflexivity|]. constructor; [constructor; reflexivity|constructor].
  - cbn. constructor; [|constructor; [constructor|constructor]|reflexivity].
    unfold keys_increasing. cbn. constructor; constructor.
Qed.
Example e1_no_reference : no_reference e1.
Proof.
  intros n S. unfold e1 in S. subs S.
Qed.
Example e1_equals_e2 : equals e1 e2 = true.
Proof. vm_compute. reflexivity. Qed.

(** * C20 for a dict and itself *)

Theorem C20_diff_self : forall nid a, json_ok (JDict nid a) -> no_reference (JDict nid a) -> no_nan (JDict nid a) ->
  Diff a a = ([], [], a, []).
Proof.
  intros nid a H R N. destruct (C20_diff nid nid a a H H) as (p & q & r & s & -> & I1 & I2 & I3 & I4 & L).
  inversion H as [| | | | | |? ? Ka Fa Na|]; subst.
  assert (X : forall k, (lookup k p, lookup k q, lookup k r, lookup k s) = (None, None, lookup k a, None)).
  { intros k. rewrite L. destruct (lookup k a) as [v|] eqn:E; [|reflexivity].
    pose proof (lookup_some_in _ _ _ E) as Hin.
    assert (equals v v = true) as ->; [|reflexivity].
    apply C21_reflexive_iff_no_nan.
    - rewrite Forall_forall in Fa. exact (Fa _ Hin).
    - intros n S. apply (R n). econstructor; eassumption.
    - intros n S. apply (N n). econstructor; eassumption. }
  assert (forall k, lookup k p = None /\ lookup k q = None /\ lookup k r = lookup k a /\ lookup k s = None) as Y.
  { intros k. specialize (X k). injection X as -> -> -> ->. auto. }
  assert (Inil : @keys_increasing []) by constructor.
  f_equal; [f_equal; [f_equal|]|]; apply increasing_ext; try assumption; intros k; apply Y.
Qed.

(** * C36, the zero test *)

(** IsZero: null, false, the integer and float zeros of either sign, and
    what is empty; and nothing else (an unresolved reference counts as null). *)
Theorem C36_is_zero : forall j, IsZero j = true <->
  j = JNull \/ j = JBool false \/ j = JInt 0 \/ (exists n e bit, j = JFloat (FFin n 0 e) bit) \/ j = JString []
  \/ j = JArray [] \/ (exists nid, j = JDict nid []) \/ (exists n, j = JPtr n).
Proof.
  intros j. split.
  - destruct j as [|b|z|f bit|s|l|nid kvs|n]; cbn [IsZero]; intros H.
    + auto.
    + destruct b; [discriminate | auto].
    + apply Z.eqb_eq in H. subst. auto.
    + destruct f as [| |n m e]; try discriminate. apply Z.eqb_eq in H. subst. do 3 right. left. eauto.
    + destruct s; [|discriminate]. tauto.
    + destruct l; [|discriminate]. tauto.
    + destruct kvs; [|discriminate]. do 6 right. left. eauto.
    + do 7 right. eauto.
  - intros [->|[->|[->|[(n & e & bit & ->)|[->|[->|[(nid & ->)|(n & ->)]]]]]]]; reflexivity.
Qed.

Print Assumptions C21_equals_iff_same_content.
Print Assumptions C21_symmetric.
Print Assumptions C21_transitive.
Print Assumptions C21_reflexive_iff_no_nan.
Print Assumptions C21_order_irrelevant.
Print Assumptions C21_kinds.
Print Assumptions C21_reflexive_refuted.
Print Assumptions C21_reference_refuted.
Print Assumptions C20_diff_self.
Print Assumptions C36_is_zero.
