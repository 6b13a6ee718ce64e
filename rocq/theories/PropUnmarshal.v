(** C34: Unmarshal ends with nil or an error.  C40: what it touches. *)
From Verif Require Import Base Strconv SortedMap SortedMapFacts Json SpecJson SpecDict Heap Gotypes Marshal Access AccessFacts Unmarshal SpecUnmarshal UnmFacts UnmTotal UnmMono SpecConvert.

Lemma at_path_sub j ks v : at_path j ks v -> subvalue v j.
Proof.
  induction 1 as [v|nid kvs k ks v w L A IH]; [constructor|]. apply (sub_member _ k v); [|exact IH].
  clear - L. induction kvs as [|[k' v'] kvs IH]; [discriminate|]. cbn [lookup] in L. destruct (bseq k k') eqn:E; [|right; apply IH, L].
  injection L as ->. apply bseq_eq in E as ->. left. reflexivity.
Qed.

Lemma subvalue_trans a b c : subvalue a b -> subvalue b c -> subvalue a c.
Proof. intros S K. revert S. induction K; intros S; [exact S| |]; econstructor; eauto. Qed.

Section C34.
Context (env : nat -> list (finfo * gty)) (locate : list (finfo * gty) -> bytes -> list nat).
Context (match_us match_eu : bytes -> bool) (to_bool : bytes -> bool)
  (parse_time : bytes -> option bytes) (time_json : bytes -> option (option bytes)) (std_ok : bytes -> bool).
Notation Unmarshal := (Unmarshal env locate match_us match_eu to_bool parse_time time_json std_ok).
Notation unm := (unm env locate match_us match_eu to_bool parse_time time_json std_ok).
Notation named := (SpecUnmarshal.named env).
Notation mem_ok := (mem_ok env).
Notation proper := (proper env).

(** For every JSON value (the one that the keys select) whose references, if
    there are any, lead out of it, and every well-typed target that
    has no interfaces with methods, and has no unsigned integers unless the
    value has no booleans and fractions: Unmarshal ends, with nil or an error,
    and memory is well typed again.  The outcome does not depend on how deep
    the model is allowed to recurse. *)
Theorem C34_nil_or_error :
  env_ok env -> (forall fs k i, In i (locate fs k) -> (i < length fs)%nat) ->
  forall j keys, (forall jo, selected j keys jo -> references_lead_out jo) ->
  forall t, proper t -> no_methods t -> (forall n, no_methods (TStruct n (env n))) ->
  without_bools_and_floats j \/ (no_unsigned t /\ forall n, no_unsigned (TStruct n (env n))) ->
  forall T m a, mem_ok T m -> nth_error T a = Some (Var t) ->
  exists N r, (forall n, (N <= n)%nat -> Unmarshal n m t a j keys = r) /\
    match r with
    | TopOk m' | TopErr m' _ => exists T', mem_ok (T ++ T') m'
    | TopGet _ => True
    | TopPanic | TopFuel => False
    end.
Proof.
  intros Henv Hloc j keys Hr t Hp Hm Hme Hu T m a H E. unfold Unmarshal.Unmarshal.
  set (x := match keys with [] => ROk (receiver j) | _ => Get (receiver j) keys end).
  assert (Hx : forall jo, x = ROk jo -> jo = JNull \/ (subvalue jo j /\ selected j keys jo)).
  { intros jo. subst x. destruct keys as [|k ks]; [intros D; injection D as <-|intros D].
    - destruct j; try (left; reflexivity); (right; split; [constructor|right; repeat split]).
    - destruct j; try discriminate D. cbn [receiver] in D. right. split; [eapply at_path_sub, Get_path, D|]. left. split; [discriminate|exact D]. }
  destruct x as [jo|e]; [|exists 0%nat, (TopGet e); split; [reflexivity|exact Logic.I]].
  set (D := outer_of jo).
  assert (Hb : exists u, calm D u jo /\ fits u t /\ forall n, fits u (TStruct n (env n))).
  { assert (R : loose D jo).
    { apply loose_out. destruct (Hx jo eq_refl) as [->|[_ S2]]; [intros n kvs _ S; inversion S|exact (Hr jo S2)]. }
    destruct Hu as [[B1 B2]|[U1 U2]].
    - exists false. split; [split; [exact R|]|split; [split; [exact Hm|discriminate]|intros n; split; [apply Hme|discriminate]]].
      intros _. split; [intros b S|intros f bit S]; (destruct (Hx jo eq_refl) as [->|[S2 _]]; [inversion S|]); [exact (B1 b (subvalue_trans _ _ _ S S2))|exact (B2 f bit (subvalue_trans _ _ _ S S2))].
    - exists true. split; [split; [exact R|discriminate]|split; [split; auto|intros n; split; [apply Hme|intros _; apply U2]]]. }
  destruct Hb as (u & C & F1 & F2).
  destruct (unm_good env locate match_us match_eu to_bool parse_time time_json std_ok (fun _ _ => False) D Henv Hloc u F2 jo C t Hp F1) as [N HN].
  destruct (HN N (Nat.le_refl N) T {| u_mem := m; u_sess := [] |} a) as (st & e & T' & Er & [[H' _] _] & _); [split; [split; [exact H|intros ? ? []]|apply quiet_nil]|exact E|].
  assert (Rt : resolve env t = t) by (destruct t; try reflexivity; destruct Hp). rewrite Rt.
  exists N, (match e with None => TopOk (u_mem st) | Some e => TopErr (u_mem st) e end). split.
  - intros n L. rewrite (unm_mono env locate match_us match_eu to_bool parse_time time_json std_ok N n _ t a jo L ltac:(rewrite Er; discriminate)), Er. destruct e; reflexivity.
  - destruct e; exists T'; exact H'.
Qed.

(** The excluded cases do panic: a boolean or a fraction into any unsigned
    integer variable, any scalar into an interface with methods. *)
Theorem C34_bool_or_float_into_unsigned_refuted : forall n st a b j,
  (exists x, j = JBool x) \/ (exists f bit, j = JFloat f bit) -> unm (S n) st (TInt (Unsigned b)) a j = UPanic.
Proof. intros n st a b j [[x ->]|(f & bit & ->)]; reflexivity. Qed.

Theorem C34_scalar_into_methods_refuted : forall n st a j,
  match j with JBool _ | JInt _ | JFloat _ _ | JString _ | JArray _ => True | _ => False end -> unm (S n) st TMethods a j = UPanic /\ forall i f, unm (S n) st (TSer i f) a j = UPanic.
Proof. intros n st a j H. destruct j; try destruct H; split; reflexivity. Qed.
End C34.

(** ** Examples *)

(** type node struct { Val int; Next *node; Tags []string; Kids map[string]*node; In struct { X [2]float64 } } *)
Definition ex_env (n : nat) : list (finfo * gty) :=
  match n with
  | 0%nat => [(plain (B"val"), TInt (Signed 64)); (plain (B"next"), TPtr (TNamed 0)); (plain (B"tags"), TSlice TString);
              (plain (B"kids"), TMap (TPtr (TNamed 0))); (plain (B"in"), TStruct 1 [(plain (B"x"), TArray 2 (TFloat 64))])]
  | 1%nat => [(plain (B"x"), TArray 2 (TFloat 64))]
  | _ => []
  end.
Definition ex_t : gty := TStruct 0 (ex_env 0).
Definition ex_json : json :=
  JDict 0 [(B"in", JDict 0 [(B"x", JArray [JInt 1; JString (B"2.5")])]);
           (B"kids", JDict 0 [(B"k", JDict 0 [(B"val", JBool true)]); (B"n", JNull)]);
           (B"next", JDict 0 [(B"next", JDict 0 [(B"val", JString (B"12"))]); (B"tags", JInt 3)]);
           (B"tags", JArray [JString (B"a"); JInt 7]); (B"val", JFloat (float_of_int 5) 64)].
Definition ex_unm := Unmarshal ex_env by_name (fun _ => false) (fun _ => false) (fun _ => true) (fun _ => None) (fun _ => None) (fun _ => true).

Lemma ex_env_ok : env_ok ex_env.
Proof. intros [|[|n]]; cbn; repeat split. Qed.

Lemma by_name_ok : forall fs k i, In i (by_name fs k) -> (i < length fs)%nat.
Proof. intros fs k i H. unfold by_name in H. apply filter_In in H as [H _]. apply in_seq in H. lia. Qed.

(** Checks for concrete values and types. *)
Fixpoint jall (p : json -> bool) (j : json) : bool :=
  p j && match j with
         | JArray l => forallb (jall p) l
         | JDict _ kvs => forallb (fun kv => jall p (snd kv)) kvs
         | _ => true
         end.
Lemma jall_sub p x j : subvalue x j -> jall p j = true -> p x = true.
Proof.
  induction 1 as [|v l I S IH|k v nid kvs I S IH]; intros A.
  - destruct x; apply andb_prop in A; apply A.
  - cbn [jall] in A. apply andb_prop in A as [_ A]. apply IH. rewrite forallb_forall in A. apply A, I.
  - cbn [jall] in A. apply andb_prop in A as [_ A]. apply IH. rewrite forallb_forall in A. exact (A _ I).
Qed.

Fixpoint tall (p : gty -> bool) (t : gty) : bool :=
  p t && match t with
         | TSlice t | TArray _ t | TMap t | TMapOther t | TPtr t => tall p t
         | TStruct _ fs => forallb (fun f => tall p (snd f)) fs
         | _ => true
         end.
Lemma tall_part p x t : part x t -> tall p t = true -> p x = true.
Proof.
  induction 1 as [|t S IH|n t S IH|t S IH|t S IH|t S IH|n i t fs I S IH]; intros A;
    try (apply IH; cbn [tall] in A; apply andb_prop in A; apply A).
  - destruct x; apply andb_prop in A; apply A.
  - cbn [tall] in A. apply andb_prop in A as [_ A]. apply IH. rewrite forallb_forall in A. exact (A _ I).
Qed.
Definition is_methods t := match t with TMethods | TSer _ _ => true | _ => false end.
Lemma no_methods_check t : tall (fun t => negb (is_methods t)) t = true -> no_methods t.
Proof. intros A. split; [intros P|intros n f P]; discriminate (tall_part _ _ _ P A). Qed.
Definition is_unsigned t := match t with TInt (Unsigned _) => true | _ => false end.

Example C34_example :
  exists N r, (forall n, (N <= n)%nat -> ex_unm n (fst (zalloc ex_t [])) ex_t (snd (zalloc ex_t [])) ex_json [] = r) /\
    match r with TopOk _ | TopErr _ _ | TopGet _ => True | _ => False end.
Proof.
  destruct (zalloc_ok ex_env (fun _ _ => False) ex_t (ex_env_ok 0%nat) [] []) as (T & [M _] & E); [split; [constructor|intros ? ? []]|].
  destruct (C34_nil_or_error ex_env by_name (fun _ => false) (fun _ => false) (fun _ => true) (fun _ => None) (fun _ => None) (fun _ => true)
    ex_env_ok by_name_ok ex_json) with (t := ex_t) (T := [] ++ T) (m := fst (zalloc ex_t [])) (a := snd (zalloc ex_t [])) (keys := @nil bytes) as (N & r & Hr & K).
  - intros jo [[[] _]|(_ & -> & _)]; [reflexivity|]. apply without_out. intros n S. pose proof (jall_sub (fun j => match j with JPtr _ => false | _ => true end) _ _ S eq_refl). discriminate.
  - apply (ex_env_ok 0%nat).
  - apply no_methods_check. reflexivity.
  - intros n. apply no_methods_check. destruct n as [|[|n]]; reflexivity.
  - right. split.
    + intros b P. pose proof (tall_part (fun t => negb (is_unsigned t)) _ _ P eq_refl). discriminate.
    + intros n b P. assert (A : tall (fun t => negb (is_unsigned t)) (TStruct n (ex_env n)) = true) by (destruct n as [|[|n]]; reflexivity).
      pose proof (tall_part _ _ _ P A). discriminate.
  - exact M.
  - exact E.
  - exists N, r. split; [exact Hr|]. destruct r; exact Logic.I || destruct K.
Qed.

(** The same, computed: all is set but the tags of next, which cannot be 3. *)
Definition fld (m : mem) (a : addr) (i : nat) : addr := nth i (fields_of a m) 0%nat.
Example C34_example_value :
  match ex_unm 20 (fst (zalloc ex_t [])) ex_t (snd (zalloc ex_t [])) ex_json [] with
  | TopErr m e =>
      let a := snd (zalloc ex_t []) in
      e = EMany [(B"next", EMany [(B"tags", EMismatch)])]
      /\ nth_error m (fld m a 0) = Some (VInt 5)
      /\ match nth_error m (fld m a 1) with
         | Some (VPtr (Some b)) =>
             match nth_error m (fld m b 1) with
             | Some (VPtr (Some c)) => nth_error m (fld m c 0) = Some (VInt 12)
             | _ => False
             end
         | _ => False
         end
  | _ => False
  end.
Proof. vm_compute. repeat split; reflexivity. Qed.

(** {"big": true} into struct { Big uint } panics. *)
Example C34_bool_into_unsigned_example_refuted : forall n, (3 <= n)%nat ->
  let t := TStruct 2 [(plain (B"big"), TInt (Unsigned 64))] in
  ex_unm n (fst (zalloc t [])) t (snd (zalloc t [])) (JDict 0 [(B"big", JBool true)]) [] = TopPanic.
Proof. intros [|[|[|n]]] L; try lia. reflexivity. Qed.

(** A reference before its node, into a pointer: {"kids": {"k": <1>}, "next": node 1}. *)
Example C34_forward_reference_refuted : forall n, (8 <= n)%nat ->
  ex_unm n (fst (zalloc ex_t [])) ex_t (snd (zalloc ex_t []))
    (JDict 0 [(B"kids", JDict 0 [(B"k", JPtr 1)]); (B"next", JDict 1 [(B"val", JInt 1)])]) [] = TopPanic.
Proof. intros n L. do 8 (destruct n as [|n]; [lia|]). reflexivity. Qed.
