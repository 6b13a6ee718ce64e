(** C53, continued: AfterUnmarshal methods within a run of Unmarshal. *)
From Verif Require Import Base Strconv SortedMap Json Printer Heap Gotypes Marshal Access Unmarshal SpecUnmarshal UnmHook SpecHookRun PropMarshal PropUnmarshal.

Definition erase {A} (r : hres A) : ures A :=
  match r with HOk st _ a => UOk st a | HPanic => UPanic | HFuel => UFuel end.
Definition log_of {A} (r : hres A) : list hcall := match r with HOk _ log _ => log | _ => [] end.

Lemma erase_bind {A C} (r : hres A) (k : ustate -> A -> hres C) : erase (hbind r k) = ubind (erase r) (fun st a => erase (k st a)).
Proof. destruct r as [st log a| |]; [|reflexivity|reflexivity]. cbn. destruct (k st a); reflexivity. Qed.
Lemma erase_lift {A} (r : ures A) : erase (lift r) = r.
Proof. destruct r; reflexivity. Qed.

Section C53.
Context (env : nat -> list (finfo * gty)) (locate : list (finfo * gty) -> bytes -> list nat).
Context (match_us match_eu : bytes -> bool) (to_bool : bytes -> bool)
  (parse_time : bytes -> option bytes) (time_json : bytes -> option (option bytes)) (std_ok : bytes -> bool).
Context (hook : nat -> mem -> addr -> option mem).
Notation unm := (unm env locate match_us match_eu to_bool parse_time time_json std_ok).
Notation Unmarshal := (Unmarshal env locate match_us match_eu to_bool parse_time time_json std_ok).
Notation unm_h := (unm_h env locate match_us match_eu to_bool parse_time time_json std_ok hook).
Notation Unmarshal_h := (Unmarshal_h env locate match_us match_eu to_bool parse_time time_json std_ok hook).

Section Erase.
Context (idle : forall name m a, hook name m a = Some m).
Context (uh : ustate -> gty -> addr -> json -> hres (option uerr)) (u : ustate -> gty -> addr -> json -> ures (option uerr)).
Context (U : forall st t a j, erase (uh st t a j) = u st t a j).

Lemma erase_elems t : forall js st l, erase (un_elems_h uh st t l js) = un_elems u st t l js.
Proof.
  induction js as [|j js IH]; intros st l; [destruct l; reflexivity|]. destruct l as [|a l]; [reflexivity|]. cbn [un_elems_h un_elems]. rewrite erase_bind, U.
  destruct (u st t a j) as [st1 e| |]; [|reflexivity|reflexivity]. cbn. destruct e; [reflexivity|apply IH].
Qed.
Lemma erase_members t d : forall kvs st, erase (un_members_h uh st t d kvs) = un_members u st t d kvs.
Proof.
  induction kvs as [|[k j] kvs IH]; intros st; [reflexivity|]. cbn [un_members_h un_members]. destruct (zalloc t (u_mem st)) as [m1 tmp]. rewrite erase_bind, U.
  destruct (u (with_mem st m1) t tmp j) as [st1 e| |]; [|reflexivity|reflexivity]. cbn [ubind]. destruct e; [reflexivity|]. destruct (vcopy t tmp (u_mem st1)) as [m2 b]. apply IH.
Qed.
Lemma erase_field fuel : forall st visited fs l key j, erase (set_field_h locate uh fuel st visited fs l key j) = set_field locate u fuel st visited fs l key j.
Proof.
  induction fuel as [|n IH]; intros st visited fs l key j; [reflexivity|]. cbn [set_field_h set_field]. destruct (in_strings key visited); [reflexivity|].
  generalize (key :: visited). clear visited. revert st. induction (locate fs key) as [|i idx IHi]; intros st visited; [reflexivity|].
  destruct (nth_error fs i) as [[info t]|]; [|reflexivity]. destruct (nth_error l i) as [a|]; [|reflexivity]. rewrite erase_bind, U.
  destruct (u st t a j) as [st1 e| |]; [|reflexivity|reflexivity]. cbn [ubind]. destruct e; [reflexivity|]. destruct (fi_deprecated_by info) as [other|]; [|apply IHi].
  rewrite erase_bind, IH. destruct (set_field locate u n st1 visited fs l other j) as [st2 r| |]; [|reflexivity|reflexivity]. cbn [ubind]. destruct (snd r); [reflexivity|apply IHi].
Qed.
Lemma erase_fields name a fs l : forall kvs st errs, erase (un_fields_h locate hook uh st name a fs l kvs errs) = un_fields locate u st fs l kvs errs.
Proof.
  induction kvs as [|[k j] kvs IH]; intros st errs; cbn [un_fields_h un_fields].
  - unfold call_hook. rewrite idle. cbn. destruct st; reflexivity.
  - rewrite erase_bind, erase_field. destruct (set_field locate u _ st [] fs l k j) as [st1 r| |]; [|reflexivity|reflexivity]. cbn [ubind]. apply IH.
Qed.
Lemma erase_serial f a j st : erase (un_serial_h env uh st f a j) = un_serial env u st f a j.
Proof.
  destruct f as [| |name]; [reflexivity|reflexivity|]. cbn [un_serial_h un_serial]. destruct (zalloc (TStruct name (env name)) (u_mem st)) as [m1 b]. rewrite erase_bind, U.
  destruct (u (with_mem st m1) _ b j) as [st1 e| |]; [|reflexivity|reflexivity]. cbn [ubind]. destruct e; reflexivity.
Qed.
End Erase.

Lemma erase_unm (idle : forall name m a, hook name m a = Some m) fuel : forall st t a j, erase (unm_h fuel st t a j) = unm fuel st t a j.
Proof.
  induction fuel as [|n IH]; intros st t a j; [reflexivity|]. cbn [UnmHook.unm_h Unmarshal.unm].
  assert (Std : forall st kh k, (forall st, erase (kh st) = k st) ->
    erase (let '(m1, v) := indirect env t a (u_mem st) in match v with Some b => let '(m2, e) := call_std time_json std_ok m1 b (String_ j) in HOk (with_mem st m2) [] e | None => kh (with_mem st m1) end)
    = (let '(m1, v) := indirect env t a (u_mem st) in match v with Some b => let '(m2, e) := call_std time_json std_ok m1 b (String_ j) in UOk (with_mem st m2) e | None => k (with_mem st m1) end)).
  { intros st0 kh k Hk. destruct (indirect env t a (u_mem st0)) as [m1 [b|]]; [|apply Hk]. destruct (call_std time_json std_ok m1 b (String_ j)); reflexivity. }
  assert (Elem : forall st t', erase (match nth_error (u_mem st) a with Some (VPtr (Some b)) => unm_h n st (resolve env t') b j | _ => HPanic end)
    = match nth_error (u_mem st) a with Some (VPtr (Some b)) => unm n st (resolve env t') b j | _ => UPanic end).
  { intros st0 t'. destruct (nth_error (u_mem st0) a) as [[]|]; try reflexivity. match goal with o : option addr |- _ => destruct o; [apply IH|reflexivity] end. }
  assert (Sc : forall st, erase (match step_scalar match_us match_eu to_bool parse_time j t with
        | Write c => HOk (with_mem st (mwrite (u_mem st) a c)) [] None
        | Keep => HOk st [] None
        | Into t' => match nth_error (u_mem st) a with Some (VPtr (Some b)) => unm_h n st (resolve env t') b j | _ => HPanic end
        | First t' => let '(m1, l) := resize 1 (resolve env t') a (u_mem st) false in match l with b :: _ => unm_h n (with_mem st m1) (resolve env t') b j | [] => HPanic end
        | Fail e => HOk st [] (Some e)
        | Panic => HPanic
        end) = match step_scalar match_us match_eu to_bool parse_time j t with
        | Write c => UOk (with_mem st (mwrite (u_mem st) a c)) None
        | Keep => UOk st None
        | Into t' => match nth_error (u_mem st) a with Some (VPtr (Some b)) => unm n st (resolve env t') b j | _ => UPanic end
        | First t' => let '(m1, l) := resize 1 (resolve env t') a (u_mem st) false in match l with b :: _ => unm n (with_mem st m1) (resolve env t') b j | [] => UPanic end
        | Fail e => UOk st (Some e)
        | Panic => UPanic
        end).
  { intros st0. destruct (step_scalar match_us match_eu to_bool parse_time j t); try reflexivity; [apply Elem|].
    destruct (resize 1 (resolve env t0) a (u_mem st0) false) as [m1 [|b l]]; [reflexivity|apply IH]. }
  cbv zeta. destruct j; try exact (Std _ _ _ Sc).
  - reflexivity.
  - pose proof (Std st _ _ Sc) as H1. cbv beta in H1. destruct t; first [exact H1|exact (Sc st)].
  - destruct (indirect env t a (u_mem st)) as [m1 [b|]]; [destruct (call_std time_json std_ok m1 b (String_ (JArray l))); reflexivity|].
    generalize (with_mem st m1). clear m1. intros st0. destruct t; try reflexivity.
    + destruct (resize (length l) (resolve env t) a (u_mem st0) true) as [m1 vars]. apply erase_elems, IH.
    + destruct (negb (n0 =? length l)%nat); [reflexivity|]. apply erase_elems, IH.
    + destruct (is_list_kind t); [apply Elem|reflexivity].
    + destruct k; reflexivity.
    + destruct k; try reflexivity. destruct (nth_error (u_mem st0) a) as [[]|]; try reflexivity. match goal with o : option json |- _ => destruct o as [[]|]; reflexivity end.
  - rewrite erase_bind, erase_lift. match goal with |- ubind ?x _ = ubind ?x _ => destruct x as [st0 ?| |]; [|reflexivity|reflexivity] end. cbn [ubind].
    destruct (indirect env t a (u_mem st0)) as [m1 [b|]]; [destruct (call_std time_json std_ok m1 b (String_ (JDict nid kvs))); reflexivity|].
    generalize (with_mem st0 m1). clear m1. intros st1. destruct t; try reflexivity.
    + destruct (map_data a (u_mem st1)) as [m1 d]. apply erase_members, IH.
    + destruct (map_data a (u_mem st1)) as [m1 d]. reflexivity.
    + destruct (is_dict_kind t); [apply Elem|reflexivity].
    + apply erase_fields; [exact idle|exact IH].
    + destruct k; reflexivity.
    + destruct k; try reflexivity. destruct (nth_error (u_mem st1) a) as [[]|]; try reflexivity. match goal with o : option json |- _ => destruct o as [[]|]; reflexivity end.
    + apply erase_serial, IH.
  - apply erase_lift.
Qed.

(** AfterUnmarshal methods that change nothing change nothing: everything said
    about Unmarshal without them holds with them. *)
Theorem C53_idle_hooks : (forall name m a, hook name m a = Some m) ->
  forall fuel m t a j keys, fst (Unmarshal_h fuel m t a j keys) = Unmarshal fuel m t a j keys.
Proof.
  intros idle fuel m t a j keys. unfold UnmHook.Unmarshal_h, Unmarshal.Unmarshal.
  destruct (match keys with [] => ROk (receiver j) | _ :: _ => Get (receiver j) keys end) as [jo|e]; [|reflexivity].
  rewrite <- (erase_unm idle). destruct (unm_h fuel _ (resolve env t) a jo) as [st log [e|]| |]; reflexivity.
Qed.

(** ** The order *)

Lemma hbind_ok {A C} (r : hres A) (k : ustate -> A -> hres C) st log c : hbind r k = HOk st log c ->
  exists st1 log1 x log2, r = HOk st1 log1 x /\ k st1 x = HOk st log2 c /\ log = log1 ++ log2.
Proof.
  destruct r as [st1 log1 x| |]; cbn; try discriminate. destruct (k st1 x) as [st2 log2 y| |] eqn:E; try discriminate. intros H. injection H as -> <- ->.
  exists st1, log1, x, log2. auto.
Qed.

Lemma fields_last uh name a fs l : forall kvs st errs st' log e, un_fields_h locate hook uh st name a fs l kvs errs = HOk st' log e ->
  exists log0 m0, log = log0 ++ [{| hk_type := name; hk_var := a; hk_mem := m0 |}] /\ hook name m0 a = Some (u_mem st').
Proof.
  induction kvs as [|[k j] kvs IH]; intros st errs st' log e E; cbn [un_fields_h] in E.
  - apply hbind_ok in E as (st1 & log1 & x & log2 & E1 & E2 & ->). injection E2 as -> <- <-. unfold call_hook in E1.
    destruct (hook name (u_mem st) a) as [m|] eqn:H; [|discriminate]. injection E1 as <- <-. exists [], (u_mem st). split; [reflexivity|exact H].
  - apply hbind_ok in E as (st1 & log1 & x & log2 & E1 & E2 & ->). apply IH in E2 as (log0 & m0 & -> & H). exists (log1 ++ log0), m0. rewrite app_assoc. auto.
Qed.

(** Reading a dict into a struct variable ends with that struct's
    AfterUnmarshal, whether or not members failed: nothing is changed after it.
    So what it sees is what the caller gets, but for its own changes. *)
Theorem C53_runs_last : forall fuel m t name fs a j keys nid kvs r log, resolve env t = TStruct name fs ->
  (match keys with [] => ROk (receiver j) | _ => Get (receiver j) keys end) = ROk (JDict nid kvs) ->
  Unmarshal_h fuel m t a j keys = (r, log) ->
  match r with
  | TopOk m' | TopErr m' _ => exists earlier m0, log = earlier ++ [{| hk_type := name; hk_var := a; hk_mem := m0 |}] /\ hook name m0 a = Some m'
  | TopPanic | TopFuel => True
  | TopGet _ => False
  end.
Proof.
  intros fuel m t name fs a j keys nid kvs r log Rt G E. unfold UnmHook.Unmarshal_h in E. rewrite G, Rt in E.
  destruct (unm_h fuel {| u_mem := m; u_sess := [] |} (TStruct name fs) a (JDict nid kvs)) as [st lg x| |] eqn:U.
  2-3: injection E as <- <-; exact Logic.I.
  assert (L : exists earlier m0, lg = earlier ++ [{| hk_type := name; hk_var := a; hk_mem := m0 |}] /\ hook name m0 a = Some (u_mem st)).
  { destruct fuel as [|n]; [discriminate|]. cbn [UnmHook.unm_h] in U. apply hbind_ok in U as (st1 & log1 & y & log2 & _ & U & ->). cbn [indirect] in U.
    apply fields_last in U as (log0 & m0 & -> & H). exists (log1 ++ log0), m0. rewrite app_assoc. auto. }
  destruct x as [e|]; injection E as <- <-; exact L.
Qed.

(** ** At most one call for every dict *)

Section Count.
Notation single_targets := (single_targets locate).
Context (env_nodep : forall n, single_targets (TStruct n (env n))).

Lemma nodep_resolve t : single_targets t -> single_targets (resolve env t).
Proof. destruct t; try exact (fun H => H). intros _. apply env_nodep. Qed.
Lemma nodep_field n fs : single_targets (TStruct n fs) -> forall i info t, nth_error fs i = Some (info, t) -> fi_deprecated_by info = None /\ single_targets t.
Proof.
  intros [_ H]. induction fs as [|[inf ty] fs IH]; intros i info t E; [destruct i; discriminate|]. destruct H as (H1 & H2 & H3).
  destruct i as [|i]; [injection E as <- <-; auto|]. apply (IH H3 i). exact E.
Qed.

Definition few (n : nat) {A} (r : hres A) : Prop := match r with HOk _ log _ => (length log <= n)%nat | _ => True end.
Lemma few_bind {A C} (r : hres A) (k : ustate -> A -> hres C) n n' : few n r -> (forall st a, few n' (k st a)) -> few (n + n') (hbind r k).
Proof.
  intros H K. destruct r as [st log a| |]; [|exact Logic.I|exact Logic.I]. cbn in *. specialize (K st a). destruct (k st a); try exact Logic.I. cbn in *. rewrite app_length. lia.
Qed.
Lemma few_le {A} (r : hres A) n n' : few n r -> (n <= n')%nat -> few n' r.
Proof. destruct r; cbn; try tauto. lia. Qed.
Lemma few_lift {A} (r : ures A) : few 0 (lift r).
Proof. destruct r; cbn; try exact Logic.I. lia. Qed.
Lemma few_ret {A} st (a : A) n : few n (HOk st [] a).
Proof. cbn. lia. Qed.

Section Loops.
Context (uh : ustate -> gty -> addr -> json -> hres (option uerr)).
Context (U : forall st t a j, single_targets t -> few (ndicts j) (uh st t a j)).

Lemma few_elems t : single_targets t -> forall js st l, few (ndicts (JArray js)) (un_elems_h uh st t l js).
Proof.
  intros N. induction js as [|j js IH]; intros st l; [destruct l; apply few_ret|]. destruct l as [|a l]; [exact Logic.I|]. cbn [un_elems_h].
  apply (few_bind _ _ (ndicts j) (ndicts (JArray js))); [apply U, N|]. intros st1 [e|]; [apply few_ret|apply IH].
Qed.
Fixpoint sum_members (l : list (bytes * json)) : nat := match l with [] => 0 | (_, x) :: l' => ndicts x + sum_members l' end%nat.
Lemma few_members t d : single_targets t -> forall kvs st, few (sum_members kvs) (un_members_h uh st t d kvs).
Proof.
  intros N. induction kvs as [|[k j] kvs IH]; intros st; [apply few_ret|]. cbn [un_members_h sum_members]. destruct (zalloc t (u_mem st)) as [m1 tmp].
  apply few_bind; [apply U, N|]. intros st1 [e|]; [apply few_ret|]. destruct (vcopy t tmp (u_mem st1)) as [m2 b]. apply IH.
Qed.
Lemma few_field fuel st visited fs l key j : single_targets (TStruct 0 fs) -> few (ndicts j) (set_field_h locate uh fuel st visited fs l key j).
Proof.
  intros N. destruct fuel as [|n]; [exact Logic.I|]. cbn [set_field_h]. destruct (in_strings key visited); [apply few_ret|].
  pose proof (proj1 N key) as L1. destruct (locate fs key) as [|i [|i' idx]]; [apply few_ret| |cbn in L1; lia].
  destruct (nth_error fs i) as [[info t]|] eqn:F; [|exact Logic.I]. destruct (nth_error l i) as [a|]; [|exact Logic.I].
  destruct (nodep_field _ fs N i info t F) as [D Nt]. apply (few_le _ (ndicts j + 0)); [|lia]. apply few_bind; [apply U, Nt|].
  intros st1 [e|]; [apply few_ret|]. rewrite D. apply few_ret.
Qed.
Lemma few_fields name a fs l : single_targets (TStruct 0 fs) -> forall kvs st errs, few (S (sum_members kvs)) (un_fields_h locate hook uh st name a fs l kvs errs).
Proof.
  intros N. induction kvs as [|[k j] kvs IH]; intros st errs; cbn [un_fields_h sum_members].
  - apply (few_bind _ _ 1 0); [|intros; apply few_ret]. unfold call_hook. destruct (hook name (u_mem st) a); cbn; [lia|exact Logic.I].
  - apply (few_le _ (ndicts j + S (sum_members kvs))); [|lia]. apply few_bind; [apply few_field, N|]. intros st1 r. apply IH.
Qed.
Lemma few_serial f a j st : few (ndicts j) (un_serial_h env uh st f a j).
Proof.
  destruct f as [| |name]; [apply few_ret|exact Logic.I|]. cbn [un_serial_h]. destruct (zalloc (TStruct name (env name)) (u_mem st)) as [m1 b].
  apply (few_le _ (ndicts j + 0)); [|lia]. apply few_bind; [apply U, env_nodep|]. intros st1 [e|]; apply few_ret.
Qed.
End Loops.

Lemma sum_members_ndicts nid kvs : ndicts (JDict nid kvs) = S (sum_members kvs).
Proof. reflexivity. Qed.

Lemma few_unm fuel : forall st t a j, single_targets t -> few (ndicts j) (unm_h fuel st t a j).
Proof.
  induction fuel as [|n IH]; intros st t a j N; [exact Logic.I|]. cbn [UnmHook.unm_h].
  assert (Std : forall st kh b, (forall st, few b (kh st)) ->
    few b (let '(m1, v) := indirect env t a (u_mem st) in match v with Some b => let '(m2, e) := call_std time_json std_ok m1 b (String_ j) in HOk (with_mem st m2) [] e | None => kh (with_mem st m1) end)).
  { intros st0 kh b Hk. destruct (indirect env t a (u_mem st0)) as [m1 [x|]]; [|apply Hk]. destruct (call_std time_json std_ok m1 x (String_ j)); apply few_ret. }
  assert (Elem : forall st t', single_targets t' -> few (ndicts j) (match nth_error (u_mem st) a with Some (VPtr (Some b)) => unm_h n st (resolve env t') b j | _ => HPanic end)).
  { intros st0 t' N'. destruct (nth_error (u_mem st0) a) as [[]|]; try exact Logic.I. match goal with o : option addr |- _ => destruct o; [apply IH, nodep_resolve, N'|exact Logic.I] end. }
  assert (Sc : forall st, few (ndicts j) (match step_scalar match_us match_eu to_bool parse_time j t with
        | Write c => HOk (with_mem st (mwrite (u_mem st) a c)) [] None
        | Keep => HOk st [] None
        | Into t' => match nth_error (u_mem st) a with Some (VPtr (Some b)) => unm_h n st (resolve env t') b j | _ => HPanic end
        | First t' => let '(m1, l) := resize 1 (resolve env t') a (u_mem st) false in match l with b :: _ => unm_h n (with_mem st m1) (resolve env t') b j | [] => HPanic end
        | Fail e => HOk st [] (Some e)
        | Panic => HPanic
        end)).
  { intros st0.
    assert (Sub : forall t', step_scalar match_us match_eu to_bool parse_time j t = Into t' \/ step_scalar match_us match_eu to_bool parse_time j t = First t' -> single_targets t').
    { intros t' H. destruct j, t; cbn in H; unfold step_string in H; destruct H as [H|H];
        repeat match type of H with
        | (match ?x with _ => _ end) = _ => destruct x; try discriminate
        | _ => idtac
        end; try discriminate; injection H as <-; exact N. }
    destruct (step_scalar match_us match_eu to_bool parse_time j t); try apply few_ret; try exact Logic.I; [apply Elem, Sub; auto|].
    destruct (resize 1 (resolve env t0) a (u_mem st0) false) as [m1 [|b l]]; [exact Logic.I|apply IH, nodep_resolve, Sub; auto]. }
  cbv zeta. destruct j; try exact (Std _ _ _ Sc).
  - apply few_ret.
  - pose proof (Std st _ _ Sc) as H1. cbv beta in H1. destruct t; first [exact H1|exact (Sc st)].
  - destruct (indirect env t a (u_mem st)) as [m1 [b|]]; [destruct (call_std time_json std_ok m1 b (String_ (JArray l))); apply few_ret|].
    generalize (with_mem st m1). clear m1. intros st0. destruct t; try apply few_ret; try exact Logic.I.
    + destruct (resize (length l) (resolve env t) a (u_mem st0) true) as [m1 vars]. apply few_elems; [exact IH|apply nodep_resolve, N].
    + destruct (negb (n0 =? length l)%nat); [apply few_ret|]. apply few_elems; [exact IH|exact N].
    + destruct (is_list_kind t); [apply Elem, N|apply few_ret].
    + destruct k; apply few_ret.
    + destruct k; try apply few_ret. destruct (nth_error (u_mem st0) a) as [[]|]; try exact Logic.I. match goal with o : option json |- _ => destruct o as [[]|]; try exact Logic.I; apply few_ret end.
  - apply (few_bind _ _ 0 (ndicts (JDict nid kvs))); [apply few_lift|]. intros st0 _.
    destruct (indirect env t a (u_mem st0)) as [m1 [b|]]; [destruct (call_std time_json std_ok m1 b (String_ (JDict nid kvs))); apply few_ret|].
    generalize (with_mem st0 m1). clear m1. intros st1. destruct t; try apply few_ret.
    + destruct (map_data a (u_mem st1)) as [m1 d]. eapply few_le; [apply few_members; [exact IH|apply nodep_resolve, N]|]. rewrite sum_members_ndicts. lia.
    + destruct (map_data a (u_mem st1)) as [m1 d]. apply few_ret.
    + destruct (is_dict_kind t); [apply Elem, N|apply few_ret].
    + rewrite sum_members_ndicts. apply few_fields; [exact IH|exact N].
    + destruct k; apply few_ret.
    + destruct k; try apply few_ret. destruct (nth_error (u_mem st1) a) as [[]|]; try exact Logic.I. match goal with o : option json |- _ => destruct o as [[]|]; try exact Logic.I; apply few_ret end.
    + apply few_serial, IH.
  - eapply few_le; [apply few_lift|lia].
Qed.
End Count.

(** Without deprecated-by tags, and when a name is that of one field at most,
    every dict leads to at most one call. *)
Theorem C53_one_call_per_dict : (forall n, single_targets locate (TStruct n (env n))) ->
  forall fuel m t a j keys doc, single_targets locate t ->
  (match keys with [] => ROk (receiver j) | _ => Get (receiver j) keys end) = ROk doc ->
  (length (snd (Unmarshal_h fuel m t a j keys)) <= ndicts doc)%nat.
Proof.
  intros En fuel m t a j keys doc N G. unfold UnmHook.Unmarshal_h. rewrite G.
  pose proof (few_unm En fuel {| u_mem := m; u_sess := [] |} (resolve env t) a doc (nodep_resolve En t N)) as F.
  destruct (unm_h fuel _ (resolve env t) a doc) as [st log [e|]| |]; cbn in *; try lia; exact F.
Qed.

(** Where no dict is read, nothing is called - so not for null, which clears a
    struct, and not for a reference. *)
Section None.
Definition silent {A} (r : hres A) : Prop := match r with HOk _ log _ => log = [] | _ => True end.
Lemma silent_bind {A C} (r : hres A) (k : ustate -> A -> hres C) : silent r -> (forall st a, silent (k st a)) -> silent (hbind r k).
Proof.
  intros H K. destruct r as [st log a| |]; [|exact Logic.I|exact Logic.I]. cbn in *. subst log. specialize (K st a). destruct (k st a); exact K.
Qed.
Lemma silent_elems uh t : (forall st t a j, ndicts j = O -> silent (uh st t a j)) ->
  forall js st l, ndicts (JArray js) = O -> silent (un_elems_h uh st t l js).
Proof.
  intros U. induction js as [|j js IH]; intros st l Z; [destruct l; reflexivity|]. destruct l as [|a l]; [exact Logic.I|]. cbn [un_elems_h].
  change (ndicts (JArray (j :: js))) with (ndicts j + ndicts (JArray js))%nat in Z.
  apply silent_bind; [apply U; lia|]. intros st1 [e|]; [reflexivity|apply IH; lia].
Qed.
Lemma silent_unm fuel : forall st t a j, ndicts j = O -> silent (unm_h fuel st t a j).
Proof.
  induction fuel as [|n IH]; intros st t a j Z; [exact Logic.I|]. cbn [UnmHook.unm_h].
  assert (Elem : forall st t', silent (match nth_error (u_mem st) a with Some (VPtr (Some b)) => unm_h n st (resolve env t') b j | _ => HPanic end)).
  { intros st0 t'. destruct (nth_error (u_mem st0) a) as [[]|]; try exact Logic.I. match goal with o : option addr |- _ => destruct o; [apply IH, Z|exact Logic.I] end. }
  assert (Sc : forall st, silent (match step_scalar match_us match_eu to_bool parse_time j t with
        | Write c => HOk (with_mem st (mwrite (u_mem st) a c)) [] None
        | Keep => HOk st [] None
        | Into t' => match nth_error (u_mem st) a with Some (VPtr (Some b)) => unm_h n st (resolve env t') b j | _ => HPanic end
        | First t' => let '(m1, l) := resize 1 (resolve env t') a (u_mem st) false in match l with b :: _ => unm_h n (with_mem st m1) (resolve env t') b j | [] => HPanic end
        | Fail e => HOk st [] (Some e)
        | Panic => HPanic
        end)).
  { intros st0. destruct (step_scalar match_us match_eu to_bool parse_time j t); try reflexivity; try exact Logic.I; [apply Elem|].
    destruct (resize 1 (resolve env t0) a (u_mem st0) false) as [m1 [|b l]]; [exact Logic.I|apply IH, Z]. }
  assert (Std : forall st kh, (forall st, silent (kh st)) ->
    silent (let '(m1, v) := indirect env t a (u_mem st) in match v with Some b => let '(m2, e) := call_std time_json std_ok m1 b (String_ j) in HOk (with_mem st m2) [] e | None => kh (with_mem st m1) end)).
  { intros st0 kh Hk. destruct (indirect env t a (u_mem st0)) as [m1 [x|]]; [|apply Hk]. destruct (call_std time_json std_ok m1 x (String_ j)); reflexivity. }
  cbv zeta. destruct j; try exact (Std _ _ Sc).
  - reflexivity.
  - pose proof (Std st _ Sc) as H1. cbv beta in H1. destruct t; first [exact H1|exact (Sc st)].
  - destruct (indirect env t a (u_mem st)) as [m1 [b|]]; [destruct (call_std time_json std_ok m1 b (String_ (JArray l))); reflexivity|].
    generalize (with_mem st m1). clear m1. intros st0. destruct t; try reflexivity; try exact Logic.I.
    + destruct (resize (length l) (resolve env t) a (u_mem st0) true) as [m1 vars]. apply silent_elems; [exact IH|exact Z].
    + destruct (negb (n0 =? length l)%nat); [reflexivity|]. apply silent_elems; [exact IH|exact Z].
    + destruct (is_list_kind t); [apply Elem|reflexivity].
    + destruct k; reflexivity.
    + destruct k; try reflexivity. destruct (nth_error (u_mem st0) a) as [[]|]; try exact Logic.I. match goal with o : option json |- _ => destruct o as [[]|]; try exact Logic.I; reflexivity end.
  - discriminate Z.
  - destruct (set_pointer_value st nid a t); [reflexivity|exact Logic.I|exact Logic.I].
Qed.
End None.

Theorem C53_no_dict_no_call : forall fuel m t a j keys doc,
  (match keys with [] => ROk (receiver j) | _ => Get (receiver j) keys end) = ROk doc -> ndicts doc = O ->
  snd (Unmarshal_h fuel m t a j keys) = [].
Proof.
  intros fuel m t a j keys doc G Z. unfold UnmHook.Unmarshal_h. rewrite G.
  pose proof (silent_unm fuel {| u_mem := m; u_sess := [] |} (resolve env t) a doc Z) as S.
  destruct (unm_h fuel _ (resolve env t) a doc) as [st log [e|]| |]; cbn in *; try reflexivity; exact S.
Qed.
End C53.

(** ** Examples *)

(** type T struct { X int } (0); type Inner struct { P *T } (1);
    type Outer struct { A Inner; B T } (2); type Obs struct { Old, New int } (3). *)
Definition hx_env (n : nat) : list (finfo * gty) :=
  match n with
  | 0%nat => [(plain (nm "x"), TInt (Signed 64))]
  | 1%nat => [(plain (nm "p"), TPtr (TNamed 0))]
  | 2%nat => [(plain (nm "a"), TStruct 1 [(plain (nm "p"), TPtr (TNamed 0))]); (plain (nm "b"), TStruct 0 [(plain (nm "x"), TInt (Signed 64))])]
  | 3%nat => [(plain (nm "old"), TInt (Signed 64)); (plain (nm "new"), TInt (Signed 64))]
  | _ => []
  end.
Definition hx_type (n : nat) : gty := TStruct n (hx_env n).
(** The AfterUnmarshal of Obs: if New is 0 it becomes Old. *)
Definition hx_hook (n : nat) (m : mem) (a : addr) : option mem :=
  match n with
  | 3%nat => match nth_error m a with
             | Some (VStruct [o; w]) => match nth_error m o, nth_error m w with
                                        | Some (VInt z), Some (VInt 0) => Some (mwrite m w (VInt z))
                                        | _, _ => Some m
                                        end
             | _ => Some m
             end
  | _ => Some m
  end.
Notation hx_unm := (Unmarshal_h hx_env by_name (fun _ => false) (fun _ => false) (fun _ => true) (fun _ => None) (fun _ => None) (fun _ => true) hx_hook).

(** Its changes are in the result; and it runs although a member failed. *)
Example C53_obsolete_example :
  let m := fst (zalloc (hx_type 3) []) in let a := snd (zalloc (hx_type 3) []) in
  hx_unm 9 m (hx_type 3) a (JDict 0 [(nm "old", JInt 5)]) [] =
    (TopOk [VInt 5; VInt 5; VStruct [0; 1]]%nat, [{| hk_type := 3; hk_var := 2; hk_mem := [VInt 5; VInt 0; VStruct [0; 1]] |}]%nat)
  /\ hx_unm 9 m (hx_type 3) a (JDict 0 [(nm "new", JString (nm "many")); (nm "old", JInt 5)]) [] =
    (TopErr [VInt 5; VInt 5; VStruct [0; 1]]%nat (EMany [(nm "new", ENumber)]), [{| hk_type := 3; hk_var := 2; hk_mem := [VInt 5; VInt 0; VStruct [0; 1]] |}]%nat).
Proof. split; vm_compute; reflexivity. Qed.

(** These types have no deprecated-by tags and no names twice. *)
Example C53_hypotheses_run_example : forall n, single_targets by_name (TStruct n (hx_env n)).
Proof.
  assert (Two : forall k x y, x <> y -> bseq x k = true -> bseq y k = true -> False).
  { intros k x y N E1 E2. apply bseq_eq in E1. apply bseq_eq in E2. congruence. }
  assert (One : forall i t k, (Datatypes.length (by_name [(i, t)] k) <= 1)%nat).
  { intros i t k. unfold by_name. cbn. destruct (bseq _ k); cbn; lia. }
  assert (Pair : forall i t i' t' k, fi_name i <> fi_name i' -> (Datatypes.length (by_name [(i, t); (i', t')] k) <= 1)%nat).
  { intros i t i' t' k N. unfold by_name. cbn. destruct (bseq (fi_name i) k) eqn:E1, (bseq (fi_name i') k) eqn:E2; cbn; try lia. destruct (Two _ _ _ N E1 E2). }
  intros [|[|[|[|n]]]]; cbn [hx_env single_targets]; repeat split; try (intros k; apply One); try (intros k; apply Pair; discriminate).
  intros k. cbn. lia.
Qed.

(** FALSE that the AfterUnmarshal of a struct inside sees
    everything: a reference to a node that comes later is still nil when the
    method of the struct with the reference runs; the method of the struct
    around sees the pointer. *)
Theorem C53_sees_everything_refuted : exists kvs m', let t := hx_type 2 in
  let m := fst (zalloc t []) in let a := snd (zalloc t []) in
  nth_error m a = Some (VStruct [1; 3]%nat) /\ nth_error m 1 = Some (VStruct [0]%nat) /\
  exists inner b outer, hx_unm 9 m t a (JDict 0 kvs) [] = (TopOk m', [inner; b; outer]) /\
  hk_type inner = 1%nat /\ hk_var inner = 1%nat /\ nth_error (hk_mem inner) 0 = Some (VPtr None) /\
  hk_type outer = 2%nat /\ nth_error (hk_mem outer) 0 = Some (VPtr (Some 3%nat)) /\ nth_error m' 0 = Some (VPtr (Some 3%nat)).
Proof.
  exists [(nm "a", JDict 0 [(nm "p", JPtr 1)]); (nm "b", JDict 1 [(nm "x", JInt 7)])]. eexists. cbv zeta. split; [reflexivity|]. split; [reflexivity|].
  eexists _, _, _. split; [vm_compute; reflexivity|]. repeat split.
Qed.

(** FALSE that the receiver is the variable that the caller gets: the values of
    a map are read into variables of their own and copied. *)
Theorem C53_receiver_in_map_refuted : exists kvs m' c d b, let t := TMap (TNamed 3) in
  let m := fst (zalloc t []) in let a := snd (zalloc t []) in
  hx_unm 9 m t a (JDict 0 kvs) [] = (TopOk m', [c]) /\
  nth_error m' a = Some (VMap (Some d)) /\ nth_error m' d = Some (VMapData [(nm "k", b)]) /\ hk_var c <> b.
Proof.
  exists [(nm "k", JDict 0 [(nm "old", JInt 5)])]. eexists _, _, _, _. cbv zeta. split; [vm_compute; reflexivity|]. split; [reflexivity|]. split; [reflexivity|]. discriminate.
Qed.

Print Assumptions C53_idle_hooks.
Print Assumptions C53_one_call_per_dict.
