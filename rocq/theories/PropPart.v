(** C58: unmarshalling a part of a document, and references that lead out of it. *)
From Coq Require Import Lia.
From Verif Require Import Base Strconv SortedMap SortedMapFacts Json SpecJson Printer Access AccessFacts JErrors Heap Gotypes Marshal
  Unmarshal SpecUnmarshal UnmFacts UnmTotal UnmMono UnmAlike SpecConvert ZeroFacts PropUnmarshal PropUnmarshal2 PropConvert SpecContain PropConvert2 PropContain Linked LinkedUnm.
Open Scope Z_scope.

Section C58.
Context (env : nat -> list (finfo * gty)) (locate : list (finfo * gty) -> bytes -> list nat).
Context (match_us match_eu : bytes -> bool) (to_bool : bytes -> bool)
  (parse_time : bytes -> option bytes) (time_json : bytes -> option (option bytes)) (std_ok : bytes -> bool).
Notation Unmarshal := (Unmarshal env locate match_us match_eu to_bool parse_time time_json std_ok).
Notation Unmarshal_l := (Unmarshal_l env locate match_us match_eu to_bool parse_time time_json std_ok).
Notation unm := (unm env locate match_us match_eu to_bool parse_time time_json std_ok).
Notation set_field := (set_field locate).
Notation start m := {| u_mem := m; u_sess := [] |}.
Notation top := (selected_top env locate match_us match_eu to_bool parse_time time_json std_ok).

(** ** Keys *)

(** Keys, or Get with the keys and then Unmarshal without: the same for dicts,
    arrays, strings and null. *)
Theorem C58_keys : forall n m t a doc keys v, keys <> [] -> Get doc keys = ROk v ->
  match v with JDict _ _ | JArray _ | JString _ | JNull => True | _ => False end ->
  Unmarshal n m t a doc keys = Unmarshal n m t a v [].
Proof.
  intros n m t a doc keys v N G V. rewrite (top n m t a doc keys v) by (left; split; assumption).
  destruct v; try contradiction; try (rewrite (top n m t a _ [] _) by (right; repeat split); reflexivity). reflexivity.
Qed.

(** Not so for numbers and booleans: Get and Unmarshal then set the variable to
    zero, without error. *)
Theorem C58_keys_scalar : forall n m t a v, match v with JInt _ | JFloat _ _ | JBool _ | JPtr _ => True | _ => False end ->
  Unmarshal n m t a v [] = Unmarshal n m t a JNull [].
Proof. intros n m t a v V. destruct v; try contradiction; reflexivity. Qed.

(** The keys in two parts: the same, also if they lead nowhere. *)
Theorem C58_keys_in_parts : forall n m t a doc k1 k2 nid kvs, k1 <> [] -> k2 <> [] -> Get doc k1 = ROk (JDict nid kvs) ->
  Unmarshal n m t a doc (k1 ++ k2) = Unmarshal n m t a (JDict nid kvs) k2.
Proof.
  intros n m t a doc k1 k2 nid kvs N1 N2 G.
  assert (E : Get doc (k1 ++ k2) = Get (JDict nid kvs) k2).
  { destruct doc as [| | | | | |nid0 kvs0|]; try discriminate G. destruct k1 as [|k k1]; [congruence|]. unfold Get, get_with in *. cbn [app]. clear N1. revert k kvs0 G.
    induction k1 as [|k' k1 IH]; intros k kvs0 G; cbn [get_loop app] in *.
    - destruct k2 as [|k2 ks]; [congruence|]. cbn [get_loop]. destruct (sm_get kvs0 k) as [v|]; [|discriminate G]. injection G as ->. reflexivity.
    - destruct (sm_get kvs0 k) as [v|]; [|discriminate G]. destruct v; try discriminate G. apply IH, G. }
  assert (D : exists nid0 kvs0, doc = JDict nid0 kvs0) by (destruct doc; try discriminate G; eauto). destruct D as (nid0 & kvs0 & ->).
  unfold Unmarshal.Unmarshal. cbn [receiver]. rewrite E. destruct k1; [congruence|]. cbn [app]. destruct k2; [congruence|]. reflexivity.
Qed.

(** ** References *)

(** Keys that lead to a reference: nil, and nothing is changed. *)
Theorem C58_reference : forall n m t a doc keys p, selected doc keys (JPtr p) -> Unmarshal (S n) m t a doc keys = TopOk m.
Proof. intros n m t a doc keys p Sel. rewrite (top _ _ _ _ _ _ _ Sel). reflexivity. Qed.

(** But Get of a linked reference and then Unmarshal is Unmarshal of the dict. *)
Theorem C58_linked : forall links n m t a p keys d, links p = Some d -> Unmarshal_l links n m t a (JPtr p) keys = Unmarshal n m t a d keys.
Proof. intros links n m t a p keys d L. unfold LinkedUnm.Unmarshal_l, recv, get_node. rewrite L. reflexivity. Qed.
(** One that is not linked: as null. *)
Theorem C58_not_linked : forall links n m t a p keys, links p = None -> Unmarshal_l links n m t a (JPtr p) keys = Unmarshal n m t a JNull keys.
Proof. intros links n m t a p keys L. unfold LinkedUnm.Unmarshal_l, recv, get_node. rewrite L. reflexivity. Qed.

Lemma field_ref (D : Z -> Prop) p n fs l : D p -> (forall k i, In i (locate fs k) -> (i < length fs)%nat) -> length l = length fs ->
  forall fuel key visited st, quiet D (u_sess st) ->
  (In key (tags fs) /\ (1 + left fs visited <= fuel)%nat \/ (2 + left fs visited <= fuel)%nat) ->
  exists s v, set_field (unm (S n)) fuel st visited fs l key (JPtr p) = UOk {| u_mem := u_mem st; u_sess := s |} (v, None) /\ quiet D s /\ incl visited v.
Proof.
  intros Dp Hloc Hl. induction fuel as [|fuel IH]; intros key visited st Q Hf; [lia|]. cbn [Unmarshal.set_field].
  destruct (in_strings key visited) eqn:V; [exists (u_sess st), visited; destruct st; split; [reflexivity|split; [exact Q|apply incl_refl]]|].
  assert (Hf' : (1 + left fs (key :: visited) <= fuel)%nat).
  { destruct Hf as [[I Hf]|Hf]; [pose proof (left_lt fs visited key I V); lia|]. pose proof (left_le fs visited (key :: visited) ltac:(intros x Ix; right; exact Ix)). lia. }
  clear Hf V.
  assert (Hi : forall i, In i (locate fs key) -> (i < length fs)%nat) by (intros; eapply Hloc; eassumption).
  revert Hi Hf' st Q. generalize (incl_tl key (incl_refl visited)). generalize (key :: visited). generalize (locate fs key). intros idx.
  induction idx as [|i idx IHi]; intros v Iv Hi Hf' st Q; [exists (u_sess st), v; destruct st; split; [reflexivity|split; assumption]|].
  destruct (nth_error fs i) as [[info t]|] eqn:Ei; [|apply nth_error_None in Ei; specialize (Hi i (or_introl eq_refl)); lia].
  destruct (nth_error l i) as [b|] eqn:El; [|apply nth_error_None in El; specialize (Hi i (or_introl eq_refl)); lia].
  cbn [Unmarshal.unm]. destruct (set_pointer_loose D st p b t Q Dp) as (s1 & -> & Q1). cbn [ubind].
  destruct (fi_deprecated_by info) as [other|] eqn:Ed.
  - destruct (IH other v {| u_mem := u_mem st; u_sess := s1 |} Q1) as (s2 & v2 & E2 & Q2 & I2).
    { left. split; [|exact Hf']. unfold tags. apply in_flat_map. exists (info, t). split; [eapply nth_error_In; exact Ei|]. cbn [fst]. rewrite Ed. left. reflexivity. }
    cbn [Unmarshal.unm] in E2. rewrite E2. cbn [ubind snd fst u_mem].
    apply (IHi v2 (incl_tran Iv I2) (fun i I => Hi i (or_intror I))) with (st := {| u_mem := u_mem st; u_sess := s2 |}); [|exact Q2]. pose proof (left_le fs v v2 I2). lia.
  - apply (IHi v Iv (fun i I => Hi i (or_intror I)) Hf') with (st := {| u_mem := u_mem st; u_sess := s1 |}). exact Q1.
Qed.

Lemma fields_ref (D : Z -> Prop) p k n fs l kvs1 kvs2 : D p -> (forall k i, In i (locate fs k) -> (i < length fs)%nat) -> length l = length fs ->
  (forall k j, In (k, j) (kvs1 ++ kvs2) -> loose D j) ->
  forall st st' errs, twins D st st' ->
  alike D (un_fields locate (unm (S n)) st fs l (kvs1 ++ (k, JPtr p) :: kvs2) errs) (un_fields locate (unm (S n)) st' fs l (kvs1 ++ kvs2) errs).
Proof.
  intros Dp Hloc Hl. induction kvs1 as [|[k1 j1] kvs1 IH]; intros HL st st' errs Tw; cbn [app].
  - cbn [Unmarshal.un_fields]. destruct (field_ref D p n fs l Dp Hloc Hl (S (S (length fs))) k [] st (proj1 (proj2 Tw))) as (s & v & E & Q & _); [right; pose proof (left_all fs []); lia|].
    rewrite E. cbn [ubind snd]. apply un_fields_alike; [intros k0 j0 I; apply unm_alike, (HL k0 j0 I)|]. split; [apply Tw|split; [exact Q|apply Tw]].
  - cbn [Unmarshal.un_fields]. apply alike_bind.
    + apply set_field_alike; [apply unm_alike, (HL k1 j1 (or_introl eq_refl))|exact Tw].
    + intros s s' r Hs. apply IH; [intros k0 j0 I; exact (HL k0 j0 (or_intror I))|exact Hs].
Qed.

(** A struct: a member whose value is a reference to a dict that is not in what
    is unmarshalled (be it around it) is passed over, as if it were not there. *)
Theorem C58_passed_over : forall n m nm fs a l doc keys nid kvs1 k p kvs2,
  (forall k i, In i (locate fs k) -> (i < length fs)%nat) -> nth_error m a = Some (VStruct l) -> length l = length fs ->
  references_lead_out (JDict nid (kvs1 ++ (k, JPtr p) :: kvs2)) -> selected doc keys (JDict nid (kvs1 ++ (k, JPtr p) :: kvs2)) ->
  Unmarshal (S (S n)) m (TStruct nm fs) a doc keys = Unmarshal (S (S n)) m (TStruct nm fs) a (JDict nid (kvs1 ++ kvs2)) [].
Proof.
  intros n m nm fs a l doc keys nid kvs1 k p kvs2 Hloc Ea Hl R Sel.
  rewrite (top _ _ _ _ _ _ _ Sel), (top _ _ _ _ _ [] (JDict nid (kvs1 ++ kvs2))) by (right; repeat split). cbn [resolve].
  set (j := JDict nid (kvs1 ++ (k, JPtr p) :: kvs2)) in *. apply loose_out in R. apply (outcome_alike (outer_of j)).
  assert (Hn : 0 < nid -> ~ outer_of j nid) by (intros P; apply (proj2 R) with (kvs := kvs1 ++ (k, JPtr p) :: kvs2); [exact P|constructor]).
  assert (Ip : In (k, JPtr p) (kvs1 ++ (k, JPtr p) :: kvs2)) by (apply in_or_app; right; left; reflexivity).
  assert (Hp : outer_of j p) by (apply R; econstructor; [exact Ip|constructor]).
  assert (HL : forall k j0, In (k, j0) (kvs1 ++ kvs2) -> loose (outer_of j) j0).
  { intros k0 j0 I. eapply loose_member; [exact R|]. apply in_app_or in I as [I|I]; apply in_or_app; [left; exact I|right; right; exact I]. }
  assert (G : forall st st', twins (outer_of j) st st' -> nth_error (u_mem st) a = Some (VStruct l) ->
    alike (outer_of j) (un_fields locate (unm (S n)) st fs (fields_of a (u_mem st)) (kvs1 ++ (k, JPtr p) :: kvs2) []) (un_fields locate (unm (S n)) st' fs (fields_of a (u_mem st')) (kvs1 ++ kvs2) [])).
  { intros st st' Tw Ec. unfold fields_of. rewrite <- (proj1 Tw), Ec. apply fields_ref; assumption. }
  unfold j at 2. change (unm (S (S n)) (start m) (TStruct nm fs) a (JDict nid (kvs1 ++ (k, JPtr p) :: kvs2)))
    with (ubind (if 0 <? nid then save_node_value (start m) nid a (TStruct nm fs) else UOk (start m) tt) (fun st _ => un_fields locate (unm (S n)) (with_mem st (u_mem st)) fs (fields_of a (u_mem (with_mem st (u_mem st)))) (kvs1 ++ (k, JPtr p) :: kvs2) [])).
  change (unm (S (S n)) (start m) (TStruct nm fs) a (JDict nid (kvs1 ++ kvs2)))
    with (ubind (if 0 <? nid then save_node_value (start m) nid a (TStruct nm fs) else UOk (start m) tt) (fun st _ => un_fields locate (unm (S n)) (with_mem st (u_mem st)) fs (fields_of a (u_mem (with_mem st (u_mem st)))) (kvs1 ++ kvs2) [])).
  destruct (0 <? nid) eqn:Pn.
  - unfold save_node_value. cbn [u_sess find_node u_mem ubind].
    match goal with |- alike _ (un_fields _ _ ?s _ _ _ _) _ => apply (G s s) end; [|exact Ea].
    split; [reflexivity|]. split; apply quiet_node, Hn, Z.ltb_lt, Pn.
  - cbn [ubind]. apply (G (start m) (start m)); [|exact Ea]. split; [reflexivity|]. split; apply quiet_nil.
Qed.
End C58.

(** ** Not the same *)

(** Get and Unmarshal is not Unmarshal with keys, for a number ... *)
Theorem C58_keys_refuted : exists doc key v m m1 m2, Get doc [key] = ROk v /\
  c_unm 2%nat m (TInt (Signed 8)) 0%nat doc [key] = TopOk m1 /\ c_unm 2%nat m (TInt (Signed 8)) 0%nat v [] = TopOk m2 /\ m1 = [VInt 5] /\ m2 = [VInt 0].
Proof. exists (JDict 0 [(B"k", JInt 5)]), (B"k"), (JInt 5), [VInt 7], [VInt 5], [VInt 0]. repeat split; vm_compute; reflexivity. Qed.

(** ... and for a linked reference: {"k":{"n":5}<1>,"r":<1>}, of which "r" is
    unmarshalled into a struct. *)
Definition r_dict : json := JDict 1 [(B"n", JInt 5)].
Definition r_doc : json := JDict 0 [(B"k", r_dict); (B"r", JPtr 1)].
Definition r_links (p : Z) : option json := if p =? 1 then Some r_dict else None.
Definition r_mem : mem := [VInt 7; VString (B"x"); VStruct [0%nat; 1%nat]].
Notation c_unm_l := (c_case Unmarshal_l).
Theorem C58_linked_refuted : Get_l r_links r_doc [B"r"] = ROk (JPtr 1) /\ c_unm_l r_links 3%nat r_mem (TStruct 1 (c_env 1)) 2%nat r_doc [B"r"] = TopOk r_mem
  /\ c_unm_l r_links 3%nat r_mem (TStruct 1 (c_env 1)) 2%nat (JPtr 1) [] = TopOk [VInt 5; VString (B"x"); VStruct [0%nat; 1%nat]].
Proof. repeat split; vm_compute; reflexivity. Qed.

(** ** Examples *)

Example C58_keys_example : c_unm 3%nat r_mem (TStruct 1 (c_env 1)) 2%nat r_doc [B"k"] = c_unm 3%nat r_mem (TStruct 1 (c_env 1)) 2%nat r_dict [].
Proof. apply (c_case C58_keys); [discriminate|reflexivity|exact Logic.I]. Qed.
Example C58_keys_scalar_example : c_unm 3%nat r_mem TString 1%nat (JInt 3) [] = c_unm 3%nat r_mem TString 1%nat JNull [].
Proof. apply (c_case C58_keys_scalar). exact Logic.I. Qed.
Example C58_keys_in_parts_example : c_unm 3%nat r_mem (TInt (Signed 8)) 0%nat r_doc [B"k"; B"n"] = c_unm 3%nat r_mem (TInt (Signed 8)) 0%nat r_dict [B"n"]
  /\ c_unm 3%nat r_mem (TInt (Signed 8)) 0%nat r_doc [B"k"; B"m"; B"x"] = c_unm 3%nat r_mem (TInt (Signed 8)) 0%nat r_dict [B"m"; B"x"].
Proof. split; [apply (c_case C58_keys_in_parts 3%nat r_mem (TInt (Signed 8)) 0%nat r_doc [B"k"] [B"n"])|apply (c_case C58_keys_in_parts 3%nat r_mem (TInt (Signed 8)) 0%nat r_doc [B"k"] [B"m"; B"x"])]; reflexivity || discriminate. Qed.
Example C58_reference_example : c_unm 3%nat r_mem (TStruct 1 (c_env 1)) 2%nat r_doc [B"r"] = TopOk r_mem.
Proof. apply (c_case C58_reference 2%nat) with (p := 1). left. split; [discriminate|reflexivity]. Qed.
Example C58_linked_example : c_unm_l r_links 3%nat r_mem (TInt (Signed 8)) 0%nat (JPtr 1) [B"n"] = c_unm 3%nat r_mem (TInt (Signed 8)) 0%nat r_dict [B"n"].
Proof. apply (c_case C58_linked). reflexivity. Qed.
Example C58_not_linked_example : c_unm_l r_links 3%nat r_mem TString 1%nat (JPtr 2) [] = c_unm 3%nat r_mem TString 1%nat JNull [].
Proof. apply (c_case C58_not_linked). reflexivity. Qed.
(** {"part":{"n":5,"s":<1>}}<1>: the part has a reference to the dict around it;
    s stays. *)
Definition o_part : json := JDict 0 [(B"n", JInt 5); (B"s", JPtr 1)].
Definition o_doc : json := JDict 1 [(B"part", o_part)].
Lemma o_out : references_lead_out o_part.
Proof.
  intros n kvs P _ S. inversion S as [| |k v nid kvs0 I S1]; subst; [lia|]. destruct I as [I|[I|[]]]; injection I as <- <-; inversion S1.
Qed.
Example C58_passed_over_example : c_unm 3%nat r_mem (TStruct 1 (c_env 1)) 2%nat o_doc [B"part"] = c_unm 3%nat r_mem (TStruct 1 (c_env 1)) 2%nat (JDict 0 [(B"n", JInt 5)]) []
  /\ c_unm 3%nat r_mem (TStruct 1 (c_env 1)) 2%nat o_doc [B"part"] = TopOk [VInt 5; VString (B"x"); VStruct [0%nat; 1%nat]].
Proof.
  split; [|vm_compute; reflexivity].
  apply (c_case C58_passed_over 1%nat r_mem 1%nat (c_env 1) 2%nat [0%nat; 1%nat] o_doc [B"part"] 0 [(B"n", JInt 5)] (B"s") 1 []);
    [apply by_name_ok|reflexivity|reflexivity|exact o_out|left; split; [discriminate|reflexivity]].
Qed.
(** The hypotheses of C34 for it: *)
Example C34_references_example : forall jo, selected o_doc [B"part"] jo -> references_lead_out jo.
Proof. intros jo [[_ G]|[D _]]; [injection G as <-; exact o_out|discriminate D]. Qed.
