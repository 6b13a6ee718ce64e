(** C69: types with their own MarshalJSON and UnmarshalJSON. *)
From Coq Require Import Lia List.
From Verif Require Import Base Strconv SortedMap Json SpecJson Printer Heap Gotypes Marshal SpecMarshal SpecEncode Unmarshal SpecUnmarshal SpecMethods
  MarshalFacts MarshalPlain PropMarshal UnmFacts RestoreMem PropRestore.
Import ListNotations.
Open Scope Z_scope.

(** ** Marshal *)

(** Such a value gives what its method's text parses to: it is never left
    out. *)
Theorem C69_marshal omit st j r : marshals omit st (GStd j) r <-> r = j.
Proof.
  split.
  - intros M. apply C30_result_encodes_value in M as [(_ & D & _)|[_ [f E]]].
    + inversion D; subst; cbn in *; tauto.
    + inversion E; subst; cbn in *; try tauto; reflexivity.
  - intros ->. exists hd, 1%nat. split; [exact hd_chooses|reflexivity].
Qed.

(** In a struct field too, whatever the field's tag says: no omitempty,
    omitzero or string option has an effect. *)
Theorem C69_marshal_field omit st fs nid kvs x j :
  marshals omit st (GStruct fs) (JDict nid kvs) -> NoDup (emitted_names fs) ->
  In (x, GStd j) fs -> fi_ignore x = false -> fi_deprecated_by x = None ->
  sm_get kvs (fi_name x) = Some j.
Proof.
  intros M N I Ig Dp. destruct (C30_field_dropped_iff _ _ _ _ _ _ _ M N I Ig Dp) as [A [f B]].
  destruct (sm_get kvs (fi_name x)) as [r|].
  - specialize (B r eq_refl). inversion B; subst; cbn in *; try tauto; reflexivity.
  - exfalso. destruct (proj1 A eq_refl) as [_ D]. inversion D; subst; cbn in *; tauto.
Qed.

(** ** Unmarshal *)

Section C69.
Context (env : nat -> list (finfo * gty)) (locate : list (finfo * gty) -> bytes -> list nat).
Context (match_us match_eu : bytes -> bool) (to_bool : bytes -> bool)
  (parse_time : bytes -> option bytes) (time_json : bytes -> option (option bytes)) (std_ok : bytes -> bool).
Notation Unmarshal := (Unmarshal env locate match_us match_eu to_bool parse_time time_json std_ok).
Notation unm := (unm env locate match_us match_eu to_bool parse_time time_json std_ok).
Notation method_result := (method_result time_json std_ok).

(** The variable that UnmarshalJSON is called for, and the memory at that
    time: it is the one that the pointers lead to; if a nil pointer is met, a
    new one with the zero value. *)
Definition called_for (m : mem) (e t : gty) (a : addr) (m1 : mem) (c : addr) : Prop :=
  leads m1 e t a c /\ only_nil_pointers_set m m1 /\ (length m <= length m1)%nat /\
  ((m1 = m /\ (c < length m)%nat) \/ ((length m <= c)%nat /\ nth_error m1 c = Some (zero_cell e))).

Lemma pt_resolve e t : has_method e -> pointers_to e t -> resolve env t = t.
Proof. intros [->| ->] P; destruct P; reflexivity. Qed.

Lemma pt_zalloc e t m : has_method e -> pointers_to e t -> zalloc (resolve env t) m = (m ++ [zero_cell t], length m).
Proof. intros H P. rewrite (pt_resolve _ _ H P). destruct H as [->| ->]; destruct P; reflexivity. Qed.

Lemma nil_set_refl m : only_nil_pointers_set m m.
Proof. intros x c E. left. exact E. Qed.

(* From a variable with the zero value. *)
Lemma indirect_zero e t : has_method e -> pointers_to e t -> forall a m, nth_error m a = Some (zero_cell t) ->
  exists m1 c, indirect env t a m = (m1, Some c) /\ leads m1 e t a c /\ (length m <= length m1)%nat /\
    nth_error m1 c = Some (zero_cell e) /\ ((t = e /\ m1 = m /\ c = a) \/ (length m <= c)%nat) /\
    (forall x, x <> a -> (x < length m)%nat -> nth_error m1 x = nth_error m x) /\
    (t = e \/ exists b, nth_error m1 a = Some (VPtr (Some b)) /\ (length m <= b)%nat).
Proof.
  intros He P. induction P as [|t P IH]; intros a m E.
  - exists m, a. split; [destruct He as [->| ->]; reflexivity|]. repeat split; try constructor; auto.
  - assert (La : (a < length m)%nat) by (apply nth_error_Some; rewrite E; discriminate).
    set (m0 := mwrite (m ++ [zero_cell t]) a (VPtr (Some (length m)))).
    assert (Eb : nth_error m0 (length m) = Some (zero_cell t)).
    { subst m0. rewrite mwrite_other by lia. rewrite nth_error_app2 by lia. rewrite Nat.sub_diag. reflexivity. }
    assert (L0 : length m0 = S (length m)) by (subst m0; rewrite mwrite_length, app_length; cbn; lia).
    assert (Ea : nth_error m0 a = Some (VPtr (Some (length m)))) by (subst m0; apply mwrite_same; rewrite app_length; lia).
    destruct (IH (length m) m0 Eb) as (m1 & c & Ei & Le & Ll & Ec & Cc & K & _). exists m1, c.
    assert (Ea1 : nth_error m1 a = Some (VPtr (Some (length m)))) by (rewrite K by lia; exact Ea).
    split; [|split; [|split; [|split; [|split; [|split]]]]].
    + cbn [indirect]. rewrite E. cbn [zero_cell]. rewrite (pt_zalloc e t m He P). exact Ei.
    + eapply ld_more; eassumption.
    + lia.
    + exact Ec.
    + right. destruct Cc as [(_ & _ & ->)|Cc]; lia.
    + intros x Nx Lx. rewrite K by lia. subst m0. rewrite mwrite_other by congruence. apply nth_error_app1, Lx.
    + right. exists (length m). split; [exact Ea1|lia].
Qed.

(* What a variable of such a type holds. *)
Definition of_type (e : gty) (c : vcell) : Prop := match e with TTime => exists x, c = VTime x | _ => exists x, c = VStd x end.

Lemma indirect_called e t T : has_method e -> pointers_to e t -> forall a m, mem_ok env T m -> nth_error T a = Some (Var t) ->
  exists m1 c, indirect env t a m = (m1, Some c) /\ called_for m e t a m1 c /\ exists old, nth_error m1 c = Some old /\ of_type e old.
Proof.
  intros He P. induction P as [|t P IH]; intros a m Ok Ta; destruct (mem_ok_cell _ _ _ _ _ Ok Ta) as (old & E & C).
  - assert (La : (a < length m)%nat) by (apply nth_error_Some; rewrite E; discriminate).
    exists m, a. split; [destruct He as [->| ->]; reflexivity|]. split.
    + split; [constructor|]. split; [apply nil_set_refl|]. split; [lia|]. left. split; [reflexivity|exact La].
    + exists old. split; [exact E|]. destruct He as [->| ->]; inversion C; subst; cbn; eexists; reflexivity.
  - assert (La : (a < length m)%nat) by (apply nth_error_Some; rewrite E; discriminate).
    inversion C as [| | | | | | | | | | | | | | |b t' Tb| | | | | | | | |]; subst.
    + destruct (indirect_zero e (TPtr t) He (pt_more _ _ P) a m E) as (m1 & c & Ei & Le & Ll & Ec & Cc & K & N).
      assert (Nt : TPtr t <> e) by (destruct He as [->| ->]; discriminate).
      exists m1, c. split; [exact Ei|]. split; [|exists (zero_cell e); split; [exact Ec|destruct He as [->| ->]; cbn; eexists; reflexivity]].
      split; [exact Le|]. split; [|split; [exact Ll|]].
      * intros x v Ex. destruct (Nat.eq_dec x a) as [->|Nx].
        -- right. rewrite E in Ex. injection Ex as <-. split; [reflexivity|]. destruct N as [N|N]; [contradiction|exact N].
        -- left. rewrite K; [exact Ex|exact Nx|]. apply nth_error_Some. rewrite Ex. discriminate.
      * right. split; [|exact Ec]. destruct Cc as [(N' & _)|Cc]; [contradiction|exact Cc].
    + assert (Tb' : nth_error T b = Some (Var t)).
      { rewrite Tb. do 2 f_equal. exact (pt_resolve e t He P). }
      destruct (IH b m Ok Tb') as (m1 & c & Ei & (Le & Ns & Ll & Cc) & O). exists m1, c. split; [cbn [indirect]; rewrite E; exact Ei|]. split; [|exact O].
      split; [|split; [exact Ns|split; [exact Ll|exact Cc]]].
      eapply ld_more; [|exact Le]. destruct (Ns a (VPtr (Some b)) E) as [X|[X _]]; [exact X|discriminate].
Qed.

Lemma call_result e m c old text : has_method e -> nth_error m c = Some old -> of_type e old ->
  call_std time_json std_ok m c text = match method_result e text with Some new => (mwrite m c new, None) | None => (m, Some EStd) end.
Proof.
  intros [->| ->] E O; unfold call_std; rewrite E; destruct O as [x ->]; cbn [SpecMethods.method_result].
  - destruct (std_ok text); reflexivity.
  - destruct (time_json text); reflexivity.
Qed.

(** Wherever a value meets a variable of such a type, or a pointer (to a
    pointer ...) to one: UnmarshalJSON is called once, with the value's text,
    for the variable that the pointers lead to; what it does to that variable,
    and its error, is what happens.  Nothing else changes, but that nil
    pointers on the way are set. *)
Lemma unm_called n st T t a j e : has_method e -> pointers_to e t -> mem_ok env T (u_mem st) -> nth_error T a = Some (Var t) ->
  ordinary j -> ~ (t = TTime /\ exists s, j = JString s) ->
  exists m1 c, called_for (u_mem st) e t a m1 c /\
    unm (Datatypes.S n) st t a j = match method_result e (String_ j) with
                                   | Some new => UOk (with_mem st (mwrite m1 c new)) None
                                   | None => UOk (with_mem st m1) (Some EStd)
                                   end.
Proof.
  intros He P Ok Ta Oj Nt. destruct (indirect_called e t T He P a (u_mem st) Ok Ta) as (m1 & c & Ei & Cf & old & Eo & O).
  exists m1, c. split; [exact Cf|]. pose proof (call_result e m1 c old (String_ j) He Eo O) as Cr.
  destruct j; cbn in Oj; try contradiction; cbn [Unmarshal.unm].
  - rewrite Ei, Cr. destruct (method_result _ _); reflexivity.
  - rewrite Ei, Cr. destruct (method_result _ _); reflexivity.
  - rewrite Ei, Cr. destruct (method_result _ _); reflexivity.
  - assert (N : t <> TTime) by (intros ->; apply Nt; split; [reflexivity|eexists; reflexivity]).
    destruct t; try congruence; rewrite Ei, Cr; destruct (method_result _ _); reflexivity.
  - rewrite Ei, Cr. destruct (method_result _ _); reflexivity.
  - replace (0 <? nid) with false by (symmetry; apply Z.ltb_ge; exact Oj). cbn [ubind]. rewrite Ei, Cr. destruct (method_result _ _); reflexivity.
Qed.

Theorem C69_unmarshal n m T t a j e : has_method e -> pointers_to e t -> mem_ok env T m -> nth_error T a = Some (Var t) ->
  ordinary j -> ~ (t = TTime /\ exists s, j = JString s) -> receiver j = j ->
  exists m1 c, called_for m e t a m1 c /\
    Unmarshal (Datatypes.S n) m t a j [] = match method_result e (String_ j) with
                                           | Some new => TopOk (mwrite m1 c new)
                                           | None => TopErr m1 EStd
                                           end.
Proof.
  intros He P Ok Ta Oj Nt Rj. destruct (unm_called n {| u_mem := m; u_sess := [] |} T t a j e He P Ok Ta Oj Nt) as (m1 & c & Cf & U).
  exists m1, c. split; [exact Cf|]. unfold Unmarshal.Unmarshal. rewrite Rj, (pt_resolve e t He P), U. destruct (method_result e (String_ j)); reflexivity.
Qed.

(** The member of a struct field of such a type: any value, also a number or a
    boolean; an error of the method is reported with the name of the member. *)
Theorem C69_unmarshal_field n m T name fs a l k j i x t b e :
  has_method e -> pointers_to e t -> mem_ok env T m ->
  nth_error m a = Some (VStruct l) -> locate fs k = [i] -> nth_error fs i = Some (x, t) -> fi_deprecated_by x = None ->
  nth_error l i = Some b -> nth_error T b = Some (Var t) ->
  ordinary j -> ~ (t = TTime /\ exists s, j = JString s) ->
  exists m1 c, called_for m e t b m1 c /\
    Unmarshal (Datatypes.S (Datatypes.S n)) m (TStruct name fs) a (JDict 0 [(k, j)]) [] =
      match method_result e (String_ j) with
      | Some new => TopOk (mwrite m1 c new)
      | None => TopErr m1 (EMany [(k, EStd)])
      end.
Proof.
  intros He P Ok Ea Lo Ef Dp Eb Tb Oj Nt. destruct (unm_called n {| u_mem := m; u_sess := [] |} T t b j e He P Ok Tb Oj Nt) as (m1 & c & Cf & U).
  exists m1, c. split; [exact Cf|]. remember (Datatypes.S n) as n1 eqn:En. unfold Unmarshal.Unmarshal. cbn [receiver resolve]. cbn [Unmarshal.unm u_mem]. cbn [Z.ltb Z.compare ubind indirect].
  cbn [u_mem with_mem u_sess]. unfold fields_of at 1. cbn [u_mem]. rewrite Ea.
  change (with_mem {| u_mem := m; u_sess := [] |} m) with {| u_mem := m; u_sess := [] |}. unfold un_fields, set_field. unfold Access.in_strings. cbn [existsb]. rewrite Lo, Ef, Eb, U.
  destruct (method_result e (String_ j)); cbn [ubind snd app]; rewrite ?Dp; reflexivity.
Qed.

(** null never reaches the method: the variable gets its zero value. *)
Theorem C69_null n m t a j e : has_method e -> pointers_to e t -> receiver j = JNull ->
  Unmarshal (Datatypes.S n) m t a j [] = TopOk (mwrite m a (zero_cell t)).
Proof.
  intros He P R. unfold Unmarshal.Unmarshal. rewrite R, (pt_resolve e t He P). cbn [Unmarshal.unm with_mem u_mem].
  destruct He as [->| ->]; destruct P; reflexivity.
Qed.

(** A string into a time.Time variable is read by the time parser of the
    library instead; into a *time.Time it goes to UnmarshalJSON. *)
Theorem C69_time_by_value n m a s :
  Unmarshal (Datatypes.S n) m TTime a (JString s) [] = TopOk (mwrite m a (VTime (match s with [] => None | _ => parse_time s end))).
Proof. reflexivity. Qed.
End C69.

(** ** Examples *)

(** struct { At **state; By *state; On time.Time } where At is nil and By is
    not; state accepts texts of at most four bytes. *)
Definition me_fields : list (finfo * gty) := [(plain (nm "at"), TPtr (TPtr TStd)); (plain (nm "by"), TPtr TStd); (plain (nm "on"), TTime)].
Definition me_env (n : nat) : list (finfo * gty) := match n with 0%nat => me_fields | _ => [] end.
Definition me_types : list vty := [Var (TPtr (TPtr TStd)); Var (TPtr TStd); Var TTime; Var (TStruct 0 me_fields); Var TStd].
Definition me_mem : mem := [VPtr None; VPtr (Some 4%nat); VTime None; VStruct [0%nat; 1%nat; 2%nat]; VStd (Some (nm "old"))].
Definition me_ok (s : bytes) : bool := (length s <=? 4)%nat.
Definition me_time (s : bytes) : option (option bytes) := if me_ok s then Some (Some s) else None.
Definition me_unm := Unmarshal me_env by_name (fun _ => false) (fun _ => false) (fun _ => true) (fun s => Some s) me_time me_ok.

Lemma me_mem_ok : mem_ok me_env me_types me_mem.
Proof. repeat constructor. Qed.

(** A number into a nil **state, as the theorem says, and by running it. *)
Example C69_nil_pointers : exists m1 c, called_for me_mem TStd (TPtr (TPtr TStd)) 0 m1 c /\
  me_unm 20 me_mem (TStruct 0 me_fields) 3 (JDict 0 [(nm "at", JInt 12)]) [] = TopOk (mwrite m1 c (VStd (Some (nm "12")))).
Proof.
  exact (C69_unmarshal_field me_env by_name _ _ _ _ me_time me_ok 18 me_mem me_types 0 me_fields 3 [0%nat; 1%nat; 2%nat] (nm "at") (JInt 12) 0
    (plain (nm "at")) (TPtr (TPtr TStd)) 0 TStd (or_introl eq_refl) (pt_more _ _ (pt_more _ _ (pt_here _))) me_mem_ok eq_refl eq_refl eq_refl eq_refl eq_refl eq_refl Logic.I
    ltac:(intros [X _]; discriminate)).
Qed.
Example C69_nil_pointers_run : me_unm 20 me_mem (TStruct 0 me_fields) 3 (JDict 0 [(nm "at", JInt 12)]) [] =
  TopOk [VPtr (Some 5%nat); VPtr (Some 4%nat); VTime None; VStruct [0%nat; 1%nat; 2%nat]; VStd (Some (nm "old")); VPtr (Some 6%nat); VStd (Some (nm "12"))].
Proof. vm_compute. reflexivity. Qed.
(** A string that By's method refuses; null; a date by value. *)
Example C69_refused : me_unm 20 me_mem (TStruct 0 me_fields) 3 (JDict 0 [(nm "by", JString (nm "more"))]) [] = TopErr me_mem (EMany [(nm "by", EStd)]).
Proof. vm_compute. reflexivity. Qed.
Example C69_null_run : me_unm 20 me_mem (TPtr TStd) 1 JNull [] = TopOk (mwrite me_mem 1 (VPtr None)).
Proof. apply (C69_null me_env by_name _ _ _ _ me_time me_ok 19 me_mem (TPtr TStd) 1 JNull TStd (or_introl eq_refl) (pt_more _ _ (pt_here _)) eq_refl). Qed.
Example C69_time_run : me_unm 20 me_mem TTime 2 (JString (nm "today")) [] = TopOk (mwrite me_mem 2 (VTime (Some (nm "today")))).
Proof. reflexivity. Qed.
(** A field with the string option and omitempty is written as the method says. *)
Example C69_field_run : Marshal hd 5 [] (Some (GStruct
    [({| fi_name := nm "a"; fi_ignore := false; fi_omit_empty := true; fi_omit_zero := true; fi_omit_false := true; fi_force_string := true; fi_deprecated_by := None |}, GStd (JInt 0))])) =
  Some (JDict 0 [(nm "a", JInt 0)]).
Proof. vm_compute. reflexivity. Qed.
