(** Without references and nodes the session does not matter and stays as it is. *)
From Verif Require Import Base Strconv SortedMap Json SpecJson Heap Gotypes Marshal Access Unmarshal SpecUnmarshal SpecSession.

Section Plain.
Context (env : nat -> list (finfo * gty)) (locate : list (finfo * gty) -> bytes -> list nat).
Context (match_us match_eu : bytes -> bool) (to_bool : bytes -> bool)
  (parse_time : bytes -> option bytes) (time_json : bytes -> option (option bytes)) (std_ok : bytes -> bool).
Notation unm := (unm env locate match_us match_eu to_bool parse_time time_json std_ok).

Context (sl sr : session).
Definition plain_twins (st st' : ustate) : Prop := u_mem st = u_mem st' /\ u_sess st = sl /\ u_sess st' = sr.
Definition plain_same {A} (r r' : ures A) : Prop :=
  match r, r' with
  | UOk st x, UOk st' x' => plain_twins st st' /\ x = x'
  | UPanic, UPanic | UFuel, UFuel => True
  | _, _ => False
  end.

Lemma plain_same_ok {A} st st' (x : A) : plain_twins st st' -> plain_same (UOk st x) (UOk st' x).
Proof. intros H. split; [exact H|reflexivity]. Qed.
Lemma plain_twins_with st st' m : plain_twins st st' -> plain_twins (with_mem st m) (with_mem st' m).
Proof. intros (_ & Q & Q'). split; [reflexivity|split; assumption]. Qed.
Lemma plain_same_bind {A C} (r r' : ures A) (k k' : ustate -> A -> ures C) :
  plain_same r r' -> (forall st st' x, plain_twins st st' -> plain_same (k st x) (k' st' x)) -> plain_same (ubind r k) (ubind r' k').
Proof. intros H K. destruct r, r'; try exact H; try destruct H. subst. apply K. assumption. Qed.

Section Loops.
Context (un : ustate -> gty -> addr -> json -> ures (option uerr)).
Definition indifferent (j : json) : Prop := forall st st' t a, plain_twins st st' -> plain_same (un st t a j) (un st' t a j).

Lemma un_elems_plain_same t js : (forall j, In j js -> indifferent j) -> forall l st st', plain_twins st st' -> plain_same (un_elems un st t l js) (un_elems un st' t l js).
Proof.
  induction js as [|j js IH]; intros Hi l st st' H; [destruct l; apply plain_same_ok, H|]. destruct l as [|a l]; [exact Logic.I|]. cbn [un_elems].
  apply plain_same_bind; [apply Hi; [left; reflexivity|exact H]|]. intros s s' [e|] H1; [apply plain_same_ok, H1|apply IH; [intros; apply Hi; right; assumption|exact H1]].
Qed.

Lemma un_members_plain_same t kvs : (forall k j, In (k, j) kvs -> indifferent j) -> forall d st st', plain_twins st st' -> plain_same (un_members un st t d kvs) (un_members un st' t d kvs).
Proof.
  induction kvs as [|[k j] kvs IH]; intros Hi d st st' H; [apply plain_same_ok, H|]. cbn [un_members]. rewrite <- (proj1 H). destruct (zalloc t (u_mem st)) as [m1 tmp].
  apply plain_same_bind; [apply (Hi k); [left; reflexivity|apply plain_twins_with, H]|]. intros s s' [e|] H1; [apply plain_same_ok, H1|].
  rewrite <- (proj1 H1). destruct (vcopy t tmp (u_mem s)) as [m2 b]. apply IH; [intros; eapply Hi; right; eassumption|apply plain_twins_with, H1].
Qed.

Lemma set_field_plain_same fs l j : indifferent j -> forall fuel st st' v key, plain_twins st st' ->
  plain_same (set_field locate un fuel st v fs l key j) (set_field locate un fuel st' v fs l key j).
Proof.
  intros Hi. induction fuel as [|fuel IH]; intros st st' v key H; [exact Logic.I|]. cbn [set_field]. destruct (in_strings key v); [apply plain_same_ok, H|].
  generalize (key :: v). revert st st' H. induction (locate fs key) as [|i idx IHi]; intros st st' H v'; [apply plain_same_ok, H|].
  destruct (nth_error fs i) as [[info t]|]; [|exact Logic.I]. destruct (nth_error l i) as [a|]; [|exact Logic.I].
  apply plain_same_bind; [apply Hi, H|]. intros s s' [e|] H1; [apply plain_same_ok, H1|]. destruct (fi_deprecated_by info) as [other|]; [|apply IHi, H1].
  apply plain_same_bind; [apply IH, H1|]. intros s2 s2' [v2 [e|]] H2; [apply plain_same_ok, H2|]. apply IHi, H2.
Qed.

Lemma un_fields_plain_same fs l kvs : (forall k j, In (k, j) kvs -> indifferent j) -> forall st st' errs, plain_twins st st' ->
  plain_same (un_fields locate un st fs l kvs errs) (un_fields locate un st' fs l kvs errs).
Proof.
  induction kvs as [|[k j] kvs IH]; intros Hi st st' errs H; [apply plain_same_ok, H|]. cbn [un_fields].
  apply plain_same_bind; [apply set_field_plain_same; [apply (Hi k); left; reflexivity|exact H]|]. intros s s' r H1. apply IH; [intros; eapply Hi; right; eassumption|exact H1].
Qed.

Lemma un_serial_plain_same f a j : indifferent j -> forall st st', plain_twins st st' -> plain_same (un_serial env un st f a j) (un_serial env un st' f a j).
Proof.
  intros Hi st st' H. destruct f as [| |name]; cbn [un_serial]; [apply plain_same_ok, H|exact Logic.I|]. rewrite <- (proj1 H).
  destruct (zalloc (TStruct name (env name)) (u_mem st)) as [m1 b].
  apply plain_same_bind; [apply Hi, plain_twins_with, H|]. intros s s' [e|] H1; [apply plain_same_ok, H1|].
  rewrite <- (proj1 H1). apply plain_same_ok, plain_twins_with, H1.
Qed.
End Loops.

Lemma plain_elem l j : no_marks (JArray l) -> In j l -> no_marks j.
Proof. intros [H H'] I. split; [intros n S; apply (H n); econstructor; eassumption|]. intros n kvs S. apply (H' n kvs). econstructor; eassumption. Qed.
Lemma plain_member nid kvs k j : no_marks (JDict nid kvs) -> In (k, j) kvs -> no_marks j.
Proof. intros [H H'] I. split; [intros n S; apply (H n); econstructor; eassumption|]. intros n kvs' S. apply (H' n kvs'). econstructor; eassumption. Qed.

Lemma unm_plain_same n : forall j, no_marks j -> indifferent (unm n) j.
Proof.
  induction n as [|n IH]; intros j Hj st st' t a H; [exact Logic.I|].
  cbn [Unmarshal.unm].
  assert (Std : forall k k', (forall s s', plain_twins s s' -> plain_same (k s) (k' s')) -> forall st st', plain_twins st st' ->
    plain_same (let '(m1, d) := indirect env t a (u_mem st) in
             match d with
             | Some b => let '(m2, e) := call_std time_json std_ok m1 b (Printer.String_ j) in UOk (with_mem st m2) e
             | None => k (with_mem st m1)
             end)
          (let '(m1, d) := indirect env t a (u_mem st') in
             match d with
             | Some b => let '(m2, e) := call_std time_json std_ok m1 b (Printer.String_ j) in UOk (with_mem st' m2) e
             | None => k' (with_mem st' m1)
             end)).
  { clear st st' H. intros k k' Hk st st' H. rewrite <- (proj1 H). destruct (indirect env t a (u_mem st)) as [m1 [b|]].
    - destruct (call_std _ _ m1 b _) as [m2 e]. apply plain_same_ok, plain_twins_with, H.
    - apply Hk, plain_twins_with, H. }
  assert (Elem : forall t' s s', plain_twins s s' -> plain_same
     (match nth_error (u_mem s) a with Some (VPtr (Some b)) => unm n s (resolve env t') b j | _ => UPanic end)
     (match nth_error (u_mem s') a with Some (VPtr (Some b)) => unm n s' (resolve env t') b j | _ => UPanic end)).
  { intros t' s s' Hs. rewrite <- (proj1 Hs). destruct (nth_error (u_mem s) a) as [c|]; [destruct c as [| | | | | | | | |[b|]| | | | |]|]; try exact Logic.I. apply IH; assumption. }
  assert (Scal : forall s s', plain_twins s s' -> plain_same
      (match step_scalar match_us match_eu to_bool parse_time j t with
        | Write c => UOk (with_mem s (mwrite (u_mem s) a c)) None
        | Keep => UOk s None
        | Into t' => match nth_error (u_mem s) a with Some (VPtr (Some b)) => unm n s (resolve env t') b j | _ => UPanic end
        | First t' => let '(m1, l) := resize 1 (resolve env t') a (u_mem s) false in
            match l with b :: _ => unm n (with_mem s m1) (resolve env t') b j | [] => UPanic end
        | Fail e => UOk s (Some e)
        | Panic => UPanic
        end)
      (match step_scalar match_us match_eu to_bool parse_time j t with
        | Write c => UOk (with_mem s' (mwrite (u_mem s') a c)) None
        | Keep => UOk s' None
        | Into t' => match nth_error (u_mem s') a with Some (VPtr (Some b)) => unm n s' (resolve env t') b j | _ => UPanic end
        | First t' => let '(m1, l) := resize 1 (resolve env t') a (u_mem s') false in
            match l with b :: _ => unm n (with_mem s' m1) (resolve env t') b j | [] => UPanic end
        | Fail e => UOk s' (Some e)
        | Panic => UPanic
        end)).
  { intros s s' Hs. destruct (step_scalar _ _ _ _ j t) as [c| |t'|t'|e|]; try exact Logic.I; try apply plain_same_ok, Hs.
    - rewrite <- (proj1 Hs). apply plain_same_ok, plain_twins_with, Hs.
    - apply Elem, Hs.
    - rewrite <- (proj1 Hs). destruct (resize 1 (resolve env t') a (u_mem s) false) as [m1 [|b l]]; [exact Logic.I|]. apply IH; [exact Hj|apply plain_twins_with, Hs]. }
  destruct j.
  - rewrite <- (proj1 H). apply plain_same_ok, plain_twins_with, H.
  - apply (Std _ _ Scal st st' H).
  - apply (Std _ _ Scal st st' H).
  - apply (Std _ _ Scal st st' H).
  - pose proof (Std _ _ Scal st st' H) as Z. specialize (Scal st st' H). destruct t; first [exact Scal|exact Z].
  - clear Scal.
    assert (G : forall s s', plain_twins s s' -> forall r r',
       r = match t with
            | TJsonVal KArray =>
                match nth_error (u_mem s) a with
                | Some (VJson (Some (JArray old))) => UOk (with_mem s (mwrite (u_mem s) a (VJson (Some (JArray (array_add old l)))))) None
                | _ => UPanic
                end
            | TJsonPtr KArray | TJsonObj => UOk (with_mem s (mwrite (u_mem s) a (VJson (Some (JArray l))))) None
            | TJsonVal _ | TJsonPtr _ => UOk s (Some EMismatch)
            | TString | TTri => UOk (with_mem s (mwrite (u_mem s) a (VString (Printer.String_ (JArray l))))) None
            | TPtr t' => if is_list_kind t' then match nth_error (u_mem s) a with
                                            | Some (VPtr (Some b)) => unm n s (resolve env t') b (JArray l)
                                            | _ => UPanic
                                            end else UOk s (Some EMismatch)
            | TIface => UOk (with_mem s (mwrite (u_mem s) a (VIface (Some (DynJsons l))))) None
            | TMethods | TSer _ _ => UPanic
            | TArray size t' =>
                if negb (Nat.eqb size (length l)) then UOk s (Some EArrayLength)
                else un_elems (unm n) s t' (elems_of a (u_mem s)) l
            | TSlice t' =>
                let '(m1, vars) := resize (length l) (resolve env t') a (u_mem s) true in
                un_elems (unm n) (with_mem s m1) (resolve env t') vars l
            | _ => UOk s (Some EMismatch)
            end ->
       r' = match t with
            | TJsonVal KArray =>
                match nth_error (u_mem s') a with
                | Some (VJson (Some (JArray old))) => UOk (with_mem s' (mwrite (u_mem s') a (VJson (Some (JArray (array_add old l)))))) None
                | _ => UPanic
                end
            | TJsonPtr KArray | TJsonObj => UOk (with_mem s' (mwrite (u_mem s') a (VJson (Some (JArray l))))) None
            | TJsonVal _ | TJsonPtr _ => UOk s' (Some EMismatch)
            | TString | TTri => UOk (with_mem s' (mwrite (u_mem s') a (VString (Printer.String_ (JArray l))))) None
            | TPtr t' => if is_list_kind t' then match nth_error (u_mem s') a with
                                            | Some (VPtr (Some b)) => unm n s' (resolve env t') b (JArray l)
                                            | _ => UPanic
                                            end else UOk s' (Some EMismatch)
            | TIface => UOk (with_mem s' (mwrite (u_mem s') a (VIface (Some (DynJsons l))))) None
            | TMethods | TSer _ _ => UPanic
            | TArray size t' =>
                if negb (Nat.eqb size (length l)) then UOk s' (Some EArrayLength)
                else un_elems (unm n) s' t' (elems_of a (u_mem s')) l
            | TSlice t' =>
                let '(m1, vars) := resize (length l) (resolve env t') a (u_mem s') true in
                un_elems (unm n) (with_mem s' m1) (resolve env t') vars l
            | _ => UOk s' (Some EMismatch)
            end -> plain_same r r').
    { intros s s' Hs r r' -> ->. destruct t; try exact Logic.I; try apply plain_same_ok, Hs; try (rewrite <- (proj1 Hs); apply plain_same_ok, plain_twins_with, Hs).
      - rewrite <- (proj1 Hs). destruct (resize _ _ a (u_mem s) true) as [m1 vars]. apply un_elems_plain_same; [intros; apply IH; eapply plain_elem; eassumption|apply plain_twins_with, Hs].
      - destruct (negb _); [apply plain_same_ok, Hs|]. rewrite <- (proj1 Hs). apply un_elems_plain_same; [intros; apply IH; eapply plain_elem; eassumption|exact Hs].
      - destruct (is_list_kind t); [apply Elem, Hs|apply plain_same_ok, Hs].
      - destruct k; try apply plain_same_ok, Hs. rewrite <- (proj1 Hs). apply plain_same_ok, plain_twins_with, Hs.
      - destruct k; try apply plain_same_ok, Hs. rewrite <- (proj1 Hs). destruct (nth_error (u_mem s) a) as [c|]; [destruct c as [| | | | | | | | | | | |[j|]| |]|]; try exact Logic.I.
        destruct j; try exact Logic.I. apply plain_same_ok, plain_twins_with, Hs. }
    exact (Std _ _ (fun s s' Hs => G s s' Hs _ _ eq_refl eq_refl) st st' H).
  - clear Scal. apply plain_same_bind; [destruct (0 <? nid) eqn:E0; [exfalso; apply Z.ltb_lt in E0; pose proof (proj2 Hj nid kvs (sub_refl _)); lia|apply plain_same_ok, H]|]. clear st st' H. intros st st' _ H.
    assert (G : forall s s', plain_twins s s' -> forall r r',
       r = match t with
            | TJsonVal KDict =>
                match nth_error (u_mem s) a with
                | Some (VJson (Some (JDict id old))) => UOk (with_mem s (mwrite (u_mem s) a (VJson (Some (JDict id (dict_update old (JDict nid kvs))))))) None
                | _ => UPanic
                end
            | TJsonPtr KDict | TJsonObj => UOk (with_mem s (mwrite (u_mem s) a (VJson (Some (JDict nid kvs))))) None
            | TJsonVal _ | TJsonPtr _ => UOk s (Some EMismatch)
            | TString | TTri => UOk (with_mem s (mwrite (u_mem s) a (VString (Printer.String_ (JDict nid kvs))))) None
            | TMap t' =>
                let '(m1, d) := map_data a (u_mem s) in
                un_members (unm n) (with_mem s m1) (resolve env t') d kvs
            | TMapOther _ => let '(m1, _) := map_data a (u_mem s) in UOk (with_mem s m1) (Some EMapKey)
            | TStruct _ fs => un_fields locate (unm n) s fs (fields_of a (u_mem s)) kvs []
            | TIface | TMethods => UOk s (Some EInterface)
            | TSer _ f => un_serial env (unm n) s f a (JDict nid kvs)
            | TPtr t' => if is_dict_kind t' then match nth_error (u_mem s) a with
                                            | Some (VPtr (Some b)) => unm n s (resolve env t') b (JDict nid kvs)
                                            | _ => UPanic
                                            end else UOk s (Some EMismatch)
            | _ => UOk s (Some EMismatch)
            end ->
       r' = match t with
            | TJsonVal KDict =>
                match nth_error (u_mem s') a with
                | Some (VJson (Some (JDict id old))) => UOk (with_mem s' (mwrite (u_mem s') a (VJson (Some (JDict id (dict_update old (JDict nid kvs))))))) None
                | _ => UPanic
                end
            | TJsonPtr KDict | TJsonObj => UOk (with_mem s' (mwrite (u_mem s') a (VJson (Some (JDict nid kvs))))) None
            | TJsonVal _ | TJsonPtr _ => UOk s' (Some EMismatch)
            | TString | TTri => UOk (with_mem s' (mwrite (u_mem s') a (VString (Printer.String_ (JDict nid kvs))))) None
            | TMap t' =>
                let '(m1, d) := map_data a (u_mem s') in
                un_members (unm n) (with_mem s' m1) (resolve env t') d kvs
            | TMapOther _ => let '(m1, _) := map_data a (u_mem s') in UOk (with_mem s' m1) (Some EMapKey)
            | TStruct _ fs => un_fields locate (unm n) s' fs (fields_of a (u_mem s')) kvs []
            | TIface | TMethods => UOk s' (Some EInterface)
            | TSer _ f => un_serial env (unm n) s' f a (JDict nid kvs)
            | TPtr t' => if is_dict_kind t' then match nth_error (u_mem s') a with
                                            | Some (VPtr (Some b)) => unm n s' (resolve env t') b (JDict nid kvs)
                                            | _ => UPanic
                                            end else UOk s' (Some EMismatch)
            | _ => UOk s' (Some EMismatch)
            end -> plain_same r r').
    { intros s s' Hs r r' -> ->. destruct t; try exact Logic.I; try apply plain_same_ok, Hs; try (rewrite <- (proj1 Hs); apply plain_same_ok, plain_twins_with, Hs).
      - rewrite <- (proj1 Hs). destruct (map_data a (u_mem s)) as [m1 d]. apply un_members_plain_same; [intros; apply IH; eapply plain_member; eassumption|apply plain_twins_with, Hs].
      - rewrite <- (proj1 Hs). destruct (map_data a (u_mem s)) as [m1 d]. apply plain_same_ok, plain_twins_with, Hs.
      - destruct (is_dict_kind t); [apply Elem, Hs|apply plain_same_ok, Hs].
      - rewrite <- (proj1 Hs). apply un_fields_plain_same; [intros; apply IH; eapply plain_member; eassumption|exact Hs].
      - destruct k; try apply plain_same_ok, Hs. rewrite <- (proj1 Hs). apply plain_same_ok, plain_twins_with, Hs.
      - destruct k; try apply plain_same_ok, Hs. rewrite <- (proj1 Hs). destruct (nth_error (u_mem s) a) as [c|]; [destruct c as [| | | | | | | | | | | |[j|]| |]|]; try exact Logic.I.
        destruct j; try exact Logic.I. apply plain_same_ok, plain_twins_with, Hs.
      - apply un_serial_plain_same; [intros x x' t' a' Hx; apply IH; assumption|exact Hs]. }
    exact (Std _ _ (fun s s' Hs => G s s' Hs _ _ eq_refl eq_refl) st st' H).
  - exfalso. exact (proj1 Hj nid (sub_refl _)).
Qed.
End Plain.
