(** Of the session only what is found in it matters. *)
From Verif Require Import Base Strconv SortedMap Json SpecJson Heap Gotypes Marshal Access Unmarshal SpecUnmarshal UnmTotal.

Section Twin.
Context (env : nat -> list (finfo * gty)) (locate : list (finfo * gty) -> bytes -> list nat).
Context (match_us match_eu : bytes -> bool) (to_bool : bytes -> bool)
  (parse_time : bytes -> option bytes) (time_json : bytes -> option (option bytes)) (std_ok : bytes -> bool).
Notation unm := (unm env locate match_us match_eu to_bool parse_time time_json std_ok).

Definition twins (st st' : ustate) : Prop := u_mem st = u_mem st' /\ forall n, find_node (u_sess st) n = find_node (u_sess st') n.
Definition alike {A} (r r' : ures A) : Prop :=
  match r, r' with
  | UOk st x, UOk st' x' => twins st st' /\ x = x'
  | UPanic, UPanic | UFuel, UFuel => True
  | _, _ => False
  end.

Lemma alike_ok {A} st st' (x : A) : twins st st' -> alike (UOk st x) (UOk st' x).
Proof. intros H. split; [exact H|reflexivity]. Qed.
Lemma twins_with st st' m : twins st st' -> twins (with_mem st m) (with_mem st' m).
Proof. intros (_ & Q). split; [reflexivity|exact Q]. Qed.
Lemma alike_bind {A C} (r r' : ures A) (k k' : ustate -> A -> ures C) :
  alike r r' -> (forall st st' x, twins st st' -> alike (k st x) (k' st' x)) -> alike (ubind r k) (ubind r' k').
Proof. intros H K. destruct r, r'; try exact H; try destruct H. subst. apply K. assumption. Qed.

Section Loops.
Context (un : ustate -> gty -> addr -> json -> ures (option uerr)).
Definition indifferent (j : json) : Prop := forall st st' t a, twins st st' -> alike (un st t a j) (un st' t a j).

Lemma un_elems_alike t js : (forall j, In j js -> indifferent j) -> forall l st st', twins st st' -> alike (un_elems un st t l js) (un_elems un st' t l js).
Proof.
  induction js as [|j js IH]; intros Hi l st st' H; [destruct l; apply alike_ok, H|]. destruct l as [|a l]; [exact Logic.I|]. cbn [un_elems].
  apply alike_bind; [apply Hi; [left; reflexivity|exact H]|]. intros s s' [e|] H1; [apply alike_ok, H1|apply IH; [intros; apply Hi; right; assumption|exact H1]].
Qed.

Lemma un_members_alike t kvs : (forall k j, In (k, j) kvs -> indifferent j) -> forall d st st', twins st st' -> alike (un_members un st t d kvs) (un_members un st' t d kvs).
Proof.
  induction kvs as [|[k j] kvs IH]; intros Hi d st st' H; [apply alike_ok, H|]. cbn [un_members]. rewrite <- (proj1 H). destruct (zalloc t (u_mem st)) as [m1 tmp].
  apply alike_bind; [apply (Hi k); [left; reflexivity|apply twins_with, H]|]. intros s s' [e|] H1; [apply alike_ok, H1|].
  rewrite <- (proj1 H1). destruct (vcopy t tmp (u_mem s)) as [m2 b]. apply IH; [intros; eapply Hi; right; eassumption|apply twins_with, H1].
Qed.

Lemma set_field_alike fs l j : indifferent j -> forall fuel st st' v key, twins st st' ->
  alike (set_field locate un fuel st v fs l key j) (set_field locate un fuel st' v fs l key j).
Proof.
  intros Hi. induction fuel as [|fuel IH]; intros st st' v key H; [exact Logic.I|]. cbn [set_field]. destruct (in_strings key v); [apply alike_ok, H|].
  generalize (key :: v). revert st st' H. induction (locate fs key) as [|i idx IHi]; intros st st' H v'; [apply alike_ok, H|].
  destruct (nth_error fs i) as [[info t]|]; [|exact Logic.I]. destruct (nth_error l i) as [a|]; [|exact Logic.I].
  apply alike_bind; [apply Hi, H|]. intros s s' [e|] H1; [apply alike_ok, H1|]. destruct (fi_deprecated_by info) as [other|]; [|apply IHi, H1].
  apply alike_bind; [apply IH, H1|]. intros s2 s2' [v2 [e|]] H2; [apply alike_ok, H2|]. apply IHi, H2.
Qed.

Lemma un_fields_alike fs l kvs : (forall k j, In (k, j) kvs -> indifferent j) -> forall st st' errs, twins st st' ->
  alike (un_fields locate un st fs l kvs errs) (un_fields locate un st' fs l kvs errs).
Proof.
  induction kvs as [|[k j] kvs IH]; intros Hi st st' errs H; [apply alike_ok, H|]. cbn [un_fields].
  apply alike_bind; [apply set_field_alike; [apply (Hi k); left; reflexivity|exact H]|]. intros s s' r H1. apply IH; [intros; eapply Hi; right; eassumption|exact H1].
Qed.

Lemma un_serial_alike f a j : indifferent j -> forall st st', twins st st' -> alike (un_serial env un st f a j) (un_serial env un st' f a j).
Proof.
  intros Hi st st' H. destruct f as [| |name]; cbn [un_serial]; [apply alike_ok, H|exact Logic.I|]. rewrite <- (proj1 H).
  destruct (zalloc (TStruct name (env name)) (u_mem st)) as [m1 b].
  apply alike_bind; [apply Hi, twins_with, H|]. intros s s' [e|] H1; [apply alike_ok, H1|].
  rewrite <- (proj1 H1). apply alike_ok, twins_with, H1.
Qed.
End Loops.

Lemma put_same s s' n v : (forall i, find_node s i = find_node s' i) -> forall i, find_node (put_node s n v) i = find_node (put_node s' n v) i.
Proof. intros H i. cbn [put_node find_node]. destruct (_ =? _); [reflexivity|apply H]. Qed.
Lemma save_alike st st' n b tb : twins st st' -> alike (save_node_value st n b tb) (save_node_value st' n b tb).
Proof.
  intros (E & Q). unfold save_node_value. rewrite <- Q, <- E. destruct (find_node (u_sess st) n) as [nv|].
  - destruct (set_targets (u_mem st) (nv_targets nv) b tb) as [m|]; [|exact Logic.I]. apply alike_ok. split; [reflexivity|apply put_same, Q].
  - apply alike_ok. split; [reflexivity|apply put_same, Q].
Qed.
Lemma set_value_alike st st' n a t : twins st st' -> alike (set_pointer_value st n a t) (set_pointer_value st' n a t).
Proof.
  intros (E & Q). unfold set_pointer_value. rewrite <- Q, <- E. destruct (find_node (u_sess st) n) as [[[[b tb]|] l]|].
  - destruct (set_pointer (u_mem st) a t b tb); [|exact Logic.I]. apply alike_ok. split; [reflexivity|exact Q].
  - apply alike_ok. split; [reflexivity|apply put_same, Q].
  - apply alike_ok. split; [reflexivity|apply put_same, Q].
Qed.

Lemma unm_alike n : forall j, indifferent (unm n) j.
Proof.
  induction n as [|n IH]; intros j st st' t a H; [exact Logic.I|].
  cbn [Unmarshal.unm].
  assert (Std : forall k k', (forall s s', twins s s' -> alike (k s) (k' s')) -> forall st st', twins st st' ->
    alike (let '(m1, d) := indirect env t a (u_mem st) in
             match d with
             | Some b => let '(m2, e) := call_std time_json std_ok m1 b (Printer.String_ j) in UOk (with_mem st m2) e
             | None => k (with_mem st m1)
             end)
          (let '(m1, d) := indirect env t a (u_mem st') in
             match d with
             | Some b => let '(m2, e) := call_std time_json std_ok m1 b (Printer.String_ j) in UOk (with_mem st' m2) e
             | None => k' (with_mem st' m1)
             end)).
  { clear st st' H. intros k k' Hk st st' H. rewrite <- (proj1 H). destruct (indirect env t a (u_mem st)) as [m1 [b|]].
    - destruct (call_std _ _ m1 b _) as [m2 e]. apply alike_ok, twins_with, H.
    - apply Hk, twins_with, H. }
  assert (Elem : forall t' s s', twins s s' -> alike
     (match nth_error (u_mem s) a with Some (VPtr (Some b)) => unm n s (resolve env t') b j | _ => UPanic end)
     (match nth_error (u_mem s') a with Some (VPtr (Some b)) => unm n s' (resolve env t') b j | _ => UPanic end)).
  { intros t' s s' Hs. rewrite <- (proj1 Hs). destruct (nth_error (u_mem s) a) as [c|]; [destruct c as [| | | | | | | | |[b|]| | | | |]|]; try exact Logic.I. apply IH; assumption. }
  assert (Scal : forall s s', twins s s' -> alike
      (match step_scalar match_us match_eu to_bool parse_time j t with
        | Write c => UOk (with_mem s (mwrite (u_mem s) a c)) None
        | Keep => UOk s None
        | Into t' => match nth_error (u_mem s) a with Some (VPtr (Some b)) => unm n s (resolve env t') b j | _ => UPanic end
        | First t' => let '(m1, l) := resize 1 (resolve env t') a (u_mem s) false in
            match l with b :: _ => unm n (with_mem s m1) (resolve env t') b j | [] => UPanic end
        | Fail e => UOk s (Some e)
        | Panic => UPanic
        end)
      (match step_scalar match_us match_eu to_bool parse_time j t with
        | Write c => UOk (with_mem s' (mwrite (u_mem s') a c)) None
        | Keep => UOk s' None
        | Into t' => match nth_error (u_mem s') a with Some (VPtr (Some b)) => unm n s' (resolve env t') b j | _ => UPanic end
        | First t' => let '(m1, l) := resize 1 (resolve env t') a (u_mem s') false in
            match l with b :: _ => unm n (with_mem s' m1) (resolve env t') b j | [] => UPanic end
        | Fail e => UOk s' (Some e)
        | Panic => UPanic
        end)).
  { intros s s' Hs. destruct (step_scalar _ _ _ _ j t) as [c| |t'|t'|e|]; try exact Logic.I; try apply alike_ok, Hs.
    - rewrite <- (proj1 Hs). apply alike_ok, twins_with, Hs.
    - apply Elem, Hs.
    - rewrite <- (proj1 Hs). destruct (resize 1 (resolve env t') a (u_mem s) false) as [m1 [|b l]]; [exact Logic.I|]. apply IH, twins_with, Hs. }
  destruct j.
  - rewrite <- (proj1 H). apply alike_ok, twins_with, H.
  - apply (Std _ _ Scal st st' H).
  - apply (Std _ _ Scal st st' H).
  - apply (Std _ _ Scal st st' H).
  - pose proof (Std _ _ Scal st st' H) as Z. specialize (Scal st st' H). destruct t; first [exact Scal|exact Z].
  - clear Scal.
    assert (G : forall s s', twins s s' -> forall r r',
       r = match t with
            | TJsonVal KArray =>
                match nth_error (u_mem s) a with
                | Some (VJson (Some (JArray old))) => UOk (with_mem s (mwrite (u_mem s) a (VJson (Some (JArray (array_add old l)))))) None
                | _ => UPanic
                end
            | TJsonPtr KArray | TJsonObj => UOk (with_mem s (mwrite (u_mem s) a (VJson (Some (JArray l))))) None
            | TJsonVal _ | TJsonPtr _ => UOk s (Some EMismatch)
            | TString | TTri => UOk (with_mem s (mwrite (u_mem s) a (VString (Printer.String_ (JArray l))))) None
            | TPtr t' => if is_list_kind t' then match nth_error (u_mem s) a with
                                            | Some (VPtr (Some b)) => unm n s (resolve env t') b (JArray l)
                                            | _ => UPanic
                                            end else UOk s (Some EMismatch)
            | TIface => UOk (with_mem s (mwrite (u_mem s) a (VIface (Some (DynJsons l))))) None
            | TMethods | TSer _ _ => UPanic
            | TArray size t' =>
                if negb (Nat.eqb size (length l)) then UOk s (Some EArrayLength)
                else un_elems (unm n) s t' (elems_of a (u_mem s)) l
            | TSlice t' =>
                let '(m1, vars) := resize (length l) (resolve env t') a (u_mem s) true in
                un_elems (unm n) (with_mem s m1) (resolve env t') vars l
            | _ => UOk s (Some EMismatch)
            end ->
       r' = match t with
            | TJsonVal KArray =>
                match nth_error (u_mem s') a with
                | Some (VJson (Some (JArray old))) => UOk (with_mem s' (mwrite (u_mem s') a (VJson (Some (JArray (array_add old l)))))) None
                | _ => UPanic
                end
            | TJsonPtr KArray | TJsonObj => UOk (with_mem s' (mwrite (u_mem s') a (VJson (Some (JArray l))))) None
            | TJsonVal _ | TJsonPtr _ => UOk s' (Some EMismatch)
            | TString | TTri => UOk (with_mem s' (mwrite (u_mem s') a (VString (Printer.String_ (JArray l))))) None
            | TPtr t' => if is_list_kind t' then match nth_error (u_mem s') a with
                                            | Some (VPtr (Some b)) => unm n s' (resolve env t') b (JArray l)
                                            | _ => UPanic
                                            end else UOk s' (Some EMismatch)
            | TIface => UOk (with_mem s' (mwrite (u_mem s') a (VIface (Some (DynJsons l))))) None
            | TMethods | TSer _ _ => UPanic
            | TArray size t' =>
                if negb (Nat.eqb size (length l)) then UOk s' (Some EArrayLength)
                else un_elems (unm n) s' t' (elems_of a (u_mem s')) l
            | TSlice t' =>
                let '(m1, vars) := resize (length l) (resolve env t') a (u_mem s') true in
                un_elems (unm n) (with_mem s' m1) (resolve env t') vars l
            | _ => UOk s' (Some EMismatch)
            end -> alike r r').
    { intros s s' Hs r r' -> ->. destruct t; try exact Logic.I; try apply alike_ok, Hs; try (rewrite <- (proj1 Hs); apply alike_ok, twins_with, Hs).
      - rewrite <- (proj1 Hs). destruct (resize _ _ a (u_mem s) true) as [m1 vars]. apply un_elems_alike; [intros; apply IH|apply twins_with, Hs].
      - destruct (negb _); [apply alike_ok, Hs|]. rewrite <- (proj1 Hs). apply un_elems_alike; [intros; apply IH|exact Hs].
      - destruct (is_list_kind t); [apply Elem, Hs|apply alike_ok, Hs].
      - destruct k; try apply alike_ok, Hs. rewrite <- (proj1 Hs). apply alike_ok, twins_with, Hs.
      - destruct k; try apply alike_ok, Hs. rewrite <- (proj1 Hs). destruct (nth_error (u_mem s) a) as [c|]; [destruct c as [| | | | | | | | | | | |[j|]| |]|]; try exact Logic.I.
        destruct j; try exact Logic.I. apply alike_ok, twins_with, Hs. }
    exact (Std _ _ (fun s s' Hs => G s s' Hs _ _ eq_refl eq_refl) st st' H).
  - clear Scal. apply alike_bind; [destruct (Z.ltb_spec 0 nid) as [Pn|_]; [apply save_alike, H|apply alike_ok, H]|]. clear st st' H. intros st st' _ H.
    assert (G : forall s s', twins s s' -> forall r r',
       r = match t with
            | TJsonVal KDict =>
                match nth_error (u_mem s) a with
                | Some (VJson (Some (JDict id old))) => UOk (with_mem s (mwrite (u_mem s) a (VJson (Some (JDict id (dict_update old (JDict nid kvs))))))) None
                | _ => UPanic
                end
            | TJsonPtr KDict | TJsonObj => UOk (with_mem s (mwrite (u_mem s) a (VJson (Some (JDict nid kvs))))) None
            | TJsonVal _ | TJsonPtr _ => UOk s (Some EMismatch)
            | TString | TTri => UOk (with_mem s (mwrite (u_mem s) a (VString (Printer.String_ (JDict nid kvs))))) None
            | TMap t' =>
                let '(m1, d) := map_data a (u_mem s) in
                un_members (unm n) (with_mem s m1) (resolve env t') d kvs
            | TMapOther _ => let '(m1, _) := map_data a (u_mem s) in UOk (with_mem s m1) (Some EMapKey)
            | TStruct _ fs => un_fields locate (unm n) s fs (fields_of a (u_mem s)) kvs []
            | TIface | TMethods => UOk s (Some EInterface)
            | TSer _ f => un_serial env (unm n) s f a (JDict nid kvs)
            | TPtr t' => if is_dict_kind t' then match nth_error (u_mem s) a with
                                            | Some (VPtr (Some b)) => unm n s (resolve env t') b (JDict nid kvs)
                                            | _ => UPanic
                                            end else UOk s (Some EMismatch)
            | _ => UOk s (Some EMismatch)
            end ->
       r' = match t with
            | TJsonVal KDict =>
                match nth_error (u_mem s') a with
                | Some (VJson (Some (JDict id old))) => UOk (with_mem s' (mwrite (u_mem s') a (VJson (Some (JDict id (dict_update old (JDict nid kvs))))))) None
                | _ => UPanic
                end
            | TJsonPtr KDict | TJsonObj => UOk (with_mem s' (mwrite (u_mem s') a (VJson (Some (JDict nid kvs))))) None
            | TJsonVal _ | TJsonPtr _ => UOk s' (Some EMismatch)
            | TString | TTri => UOk (with_mem s' (mwrite (u_mem s') a (VString (Printer.String_ (JDict nid kvs))))) None
            | TMap t' =>
                let '(m1, d) := map_data a (u_mem s') in
                un_members (unm n) (with_mem s' m1) (resolve env t') d kvs
            | TMapOther _ => let '(m1, _) := map_data a (u_mem s') in UOk (with_mem s' m1) (Some EMapKey)
            | TStruct _ fs => un_fields locate (unm n) s' fs (fields_of a (u_mem s')) kvs []
            | TIface | TMethods => UOk s' (Some EInterface)
            | TSer _ f => un_serial env (unm n) s' f a (JDict nid kvs)
            | TPtr t' => if is_dict_kind t' then match nth_error (u_mem s') a with
                                            | Some (VPtr (Some b)) => unm n s' (resolve env t') b (JDict nid kvs)
                                            | _ => UPanic
                                            end else UOk s' (Some EMismatch)
            | _ => UOk s' (Some EMismatch)
            end -> alike r r').
    { intros s s' Hs r r' -> ->. destruct t; try exact Logic.I; try apply alike_ok, Hs; try (rewrite <- (proj1 Hs); apply alike_ok, twins_with, Hs).
      - rewrite <- (proj1 Hs). destruct (map_data a (u_mem s)) as [m1 d]. apply un_members_alike; [intros; apply IH|apply twins_with, Hs].
      - rewrite <- (proj1 Hs). destruct (map_data a (u_mem s)) as [m1 d]. apply alike_ok, twins_with, Hs.
      - destruct (is_dict_kind t); [apply Elem, Hs|apply alike_ok, Hs].
      - rewrite <- (proj1 Hs). apply un_fields_alike; [intros; apply IH|exact Hs].
      - destruct k; try apply alike_ok, Hs. rewrite <- (proj1 Hs). apply alike_ok, twins_with, Hs.
      - destruct k; try apply alike_ok, Hs. rewrite <- (proj1 Hs). destruct (nth_error (u_mem s) a) as [c|]; [destruct c as [| | | | | | | | | | | |[j|]| |]|]; try exact Logic.I.
        destruct j; try exact Logic.I. apply alike_ok, twins_with, Hs.
      - apply un_serial_alike; [intros x x' t' a' Hx; apply IH; assumption|exact Hs]. }
    exact (Std _ _ (fun s s' Hs => G s s' Hs _ _ eq_refl eq_refl) st st' H).
  - apply set_value_alike, H.
Qed.
End Twin.
