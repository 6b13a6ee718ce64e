(** Without interface{} variables that hold pointers to pointer variables,
    UnmIface.v does what Unmarshal.v does. *)
From Verif Require Import Base Strconv SortedMap Json SpecJson Heap Gotypes Printer Marshal Access Unmarshal SpecMarshal SpecUnmarshal UnmFacts UnmIface SpecIface.

Definition cok (c : vcell) : Prop := match c with VIface (Some (DynPtr _ t)) => pointer_kind t = false | _ => True end.
Notation mok m := (Forall cok m).

Lemma no_chains_mok m : no_iface_chains m <-> mok m.
Proof.
  split.
  - intros H. apply Forall_forall. intros c I. apply In_nth_error in I as [a E]. destruct c as [| | | | | | | | | | |[[| | | | |b t]|]| | |]; try exact Logic.I.
    specialize (H a b t E). cbn. destruct t; try reflexivity; destruct H; exact Logic.I.
  - intros H a b t E P. rewrite Forall_forall in H. specialize (H _ (nth_error_In _ _ E)). cbn in H. destruct t; try destruct P; discriminate.
Qed.

Lemma mok_mwrite m : forall a c, mok m -> cok c -> mok (mwrite m a c).
Proof. induction m as [|x m IH]; intros [|a] c H C; cbn [mwrite]; inversion H; subst; constructor; auto. Qed.
Lemma mok_add m c : mok m -> cok c -> mok (m ++ [c]).
Proof. intros H C. apply Forall_app. split; [exact H|]. constructor; [exact C|constructor]. Qed.
Lemma zero_cok t : cok (zero_cell t). Proof. destruct t; exact Logic.I. Qed.

Lemma times_mok f n : (forall m, mok m -> mok (fst (f m))) -> forall m, mok m -> mok (fst (times n f m)).
Proof.
  intros Hf. induction n as [|n IH]; intros m H; [exact H|]. cbn [times]. specialize (Hf m H). destruct (f m) as [m1 a]. cbn [fst] in Hf.
  specialize (IH m1 Hf). destruct (times n f m1) as [m2 l]. exact IH.
Qed.

Lemma zalloc_mok t : forall m, mok m -> mok (fst (zalloc t m)).
Proof.
  induction t as [t Ht|t IH|k t IH|t IH|t IH|t IH|n fs IH] using gty_ind'; intros m H; try (apply mok_add; [exact H|exact Logic.I]).
  - destruct t; try destruct Ht; cbn [zalloc fst]; apply mok_add; first [exact H|exact Logic.I].
  - cbn [zalloc]. pose proof (times_mok (zalloc t) k IH m H) as G. destruct (times k (zalloc t) m) as [m1 l]. apply mok_add; [exact G|exact Logic.I].
  - cbn [zalloc]. fold zfields. assert (G : mok (fst (zfields fs m))).
    { revert m H. induction IH as [|[i t] fs Ht _ IHfs]; intros m H; [exact H|]. cbn [zfields]. cbn [snd] in Ht. specialize (Ht m H). destruct (zalloc t m) as [m1 a]. cbn [fst] in Ht.
      specialize (IHfs m1 Ht). fold zfields. destruct (zfields fs m1) as [m2 l]. exact IHfs. }
    destruct (zfields fs m) as [m1 l]. apply mok_add; [exact G|exact Logic.I].
Qed.

Lemma set_zero_mok t : forall a m, mok m -> mok (set_zero t a m).
Proof.
  induction t as [t Ht|t IH|k t IH|t IH|t IH|t IH|n fs IH] using gty_ind'; intros a m H; try (apply mok_mwrite; [exact H|exact Logic.I]).
  - destruct t; try destruct Ht; cbn [set_zero]; apply mok_mwrite; first [exact H|exact Logic.I].
  - cbn [set_zero]. destruct (nth_error m a) as [[| | | | | |l| | | | | | | |]|]; try exact H. clear a. revert m H. induction l as [|x l IHl]; intros m H; [exact H|]. cbn [fold_left]. apply IHl, IH, H.
  - cbn [set_zero]. destruct (nth_error m a) as [[| | | | | | | | | |l| | | |]|]; try exact H. clear a. revert l m H. induction IH as [|[i t] fs Ht _ IHfs]; intros [|x l] m H; try exact H. apply IHfs. apply Ht, H.
Qed.

Lemma vcopy_mok t : forall a m, mok m -> mok (fst (vcopy t a m)).
Proof.
  assert (Cell : forall a m, mok m -> cok (match nth_error m a with Some c => c | None => VOther end)).
  { intros a m H. destruct (nth_error m a) as [c|] eqn:E; [|exact Logic.I]. rewrite Forall_forall in H. apply H. eapply nth_error_In, E. }
  induction t as [t Ht|t IH|k t IH|t IH|t IH|t IH|n fs IH] using gty_ind'; intros a m H; try (cbn [vcopy fst]; apply mok_add; [exact H|apply Cell, H]).
  - destruct t; try destruct Ht; cbn [vcopy fst]; (apply mok_add; [exact H|apply Cell, H]).
  - cbn [vcopy]. destruct (nth_error m a) as [[| | | | | |l| | | | | | | |]|]; try (apply mok_add; [exact H|exact Logic.I]).
    set (go := fix go (l : list addr) (m : mem) : mem * list addr :=
                 match l with [] => (m, []) | x :: l1 => let '(m1, y) := vcopy t x m in let '(m2, r) := go l1 m1 in (m2, y :: r) end).
    assert (G : mok (fst (go l m))).
    { clear a. revert m H. induction l as [|x l IHl]; intros m H; [exact H|]. cbn [go]. specialize (IH x m H). destruct (vcopy t x m) as [m1 y]. cbn [fst] in IH. specialize (IHl m1 IH). fold go. destruct (go l m1) as [m2 r]. exact IHl. }
    destruct (go l m) as [m1 l']. apply mok_add; [exact G|exact Logic.I].
  - cbn [vcopy]. destruct (nth_error m a) as [[| | | | | | | | | |l| | | |]|]; try (apply mok_add; [exact H|exact Logic.I]).
    set (go := fix go (fs : list (finfo * gty)) (l : list addr) (m : mem) : mem * list addr :=
                 match fs, l with (_, t') :: fs', x :: l1 => let '(m1, y) := vcopy t' x m in let '(m2, r) := go fs' l1 m1 in (m2, y :: r) | _, _ => (m, []) end).
    assert (G : mok (fst (go fs l m))).
    { clear a. revert l m H. induction IH as [|[i t] fs Ht _ IHfs]; intros l m H; [exact H|]. destruct l as [|x l]; [exact H|]. cbn [go]. cbn [snd] in Ht. specialize (Ht x m H). destruct (vcopy t x m) as [m1 y]. cbn [fst] in Ht.
      specialize (IHfs l m1 Ht). fold go. destruct (go fs l m1) as [m2 r]. exact IHfs. }
    destruct (go fs l m) as [m1 l']. apply mok_add; [exact G|exact Logic.I].
Qed.

Lemma resize_mok n t a m b : mok m -> mok (fst (resize n t a m b)).
Proof.
  intros H. assert (F : mok (fst (let '(m1, l) := times n (zalloc t) m in (mwrite m1 a (VSlice (Some (l, n))), l)))).
  { pose proof (times_mok (zalloc t) n (zalloc_mok t) m H) as G. destruct (times n (zalloc t) m) as [m1 l]. apply mok_mwrite; [exact G|exact Logic.I]. }
  unfold resize. destruct (nth_error m a) as [[| | | | |[[l k]|]| | | | | | | | |]|]; try (destruct (b || (0 <? n)%nat); [exact F|exact H]).
  destruct (length l <? n)%nat; [exact F|]. apply mok_mwrite; [exact H|exact Logic.I].
Qed.

Lemma map_data_mok a m : mok m -> mok (fst (map_data a m)).
Proof.
  intros H. unfold map_data. destruct (nth_error m a) as [[| | | | | | |[d|]| | | | | | |]|]; try exact H; cbn [fst]; apply mok_mwrite; try exact Logic.I; apply mok_add; try exact H; exact Logic.I.
Qed.

Section Agree.
Context (env : nat -> list (finfo * gty)) (locate : list (finfo * gty) -> bytes -> list nat).
Context (match_us match_eu : bytes -> bool) (to_bool : bytes -> bool)
  (parse_time : bytes -> option bytes) (time_json : bytes -> option (option bytes)) (std_ok : bytes -> bool).
Notation unm := (unm env locate match_us match_eu to_bool parse_time time_json std_ok).
Notation unmx := (unmx env locate match_us match_eu to_bool parse_time time_json std_ok).

Lemma chase_ptr h t a m : chase env h (TPtr t) a m =
  match nth_error m a with
  | Some (VPtr (Some b)) => chase env h t b m
  | _ => let '(m1, b) := zalloc (resolve env t) m in chase env h t b (mwrite m1 a (VPtr (Some b)))
  end.
Proof. destruct h; reflexivity. Qed.
Lemma chase_iface h a m : chase env h TIface a m =
  match nth_error m a with
  | Some (VIface (Some (DynPtr b t))) => if pointer_kind t then match h with O => None | S h' => chase env h' t b m end else Some (m, None)
  | _ => Some (m, None)
  end.
Proof. destruct h; reflexivity. Qed.

Lemma indirect_mok t : forall a m, mok m -> mok (fst (indirect env t a m)).
Proof.
  induction t as [t Ht|t IH|k t IH|t IH|t IH|t IH|n fs IH] using gty_ind'; intros a m H; try exact H.
  - destruct t; try destruct Ht; try exact H. cbn [indirect]. destruct (nth_error m a) as [[| | | | | | | | | | | |[j|]| |]|]; try exact H; cbn [fst]; apply mok_mwrite; try exact H; exact Logic.I.
  - cbn [indirect]. assert (Z : mok (fst (let '(m1, b) := zalloc (resolve env t) m in indirect env t b (mwrite m1 a (VPtr (Some b)))))).
    { pose proof (zalloc_mok (resolve env t) m H) as G. destruct (zalloc (resolve env t) m) as [m1 b]. apply IH. apply mok_mwrite; [exact G|exact Logic.I]. }
    destruct (nth_error m a) as [[| | | | | | | | |[b|]| | | | |]|]; try exact Z. apply IH, H.
Qed.

Lemma chase_same h t : forall a m, mok m -> chase env h t a m = Some (indirect env t a m).
Proof.
  induction t as [t Ht|t IH|k t IH|t IH|t IH|t IH|n fs IH] using gty_ind'; intros a m H; try (destruct h; reflexivity).
  - destruct t; try destruct Ht; try (destruct h; reflexivity).
    + rewrite chase_iface. destruct (nth_error m a) as [[| | | | | | | | | | |[[| | | | |b t]|]| | |]|] eqn:E; try reflexivity.
      rewrite Forall_forall in H. specialize (H _ (nth_error_In _ _ E)). cbn in H. rewrite H. reflexivity.
    + destruct h; cbn [chase indirect]; (destruct (nth_error m a) as [[| | | | | | | | | | | |[j|]| |]|]; reflexivity).
  - rewrite chase_ptr. cbn [indirect]. assert (Z : (let '(m1, b) := zalloc (resolve env t) m in chase env h t b (mwrite m1 a (VPtr (Some b)))) =
      Some (let '(m1, b) := zalloc (resolve env t) m in indirect env t b (mwrite m1 a (VPtr (Some b))))).
    { pose proof (zalloc_mok (resolve env t) m H) as G. destruct (zalloc (resolve env t) m) as [m1 b]. apply IH. apply mok_mwrite; [exact G|exact Logic.I]. }
    destruct (nth_error m a) as [[| | | | | | | | |[b|]| | | | |]|]; try exact Z. apply IH, H.
Qed.

(** ** The invariant, and agreement *)

Definition idle (ss : session) : Prop := forall n nv, find_node ss n = Some nv -> nv_targets nv = [].
Definition inv (st : ustate) : Prop := mok (u_mem st) /\ idle (u_sess st).
Definition same {A} (r r' : ures A) : Prop := r' = r /\ match r with UOk st _ => inv st | _ => True end.

Lemma same_ok {A} st (x : A) : inv st -> same (UOk st x) (UOk st x). Proof. split; [reflexivity|assumption]. Qed.
Lemma same_panic {A} : @same A UPanic UPanic. Proof. split; [reflexivity|exact Logic.I]. Qed.
Lemma same_fuel {A} : @same A UFuel UFuel. Proof. split; [reflexivity|exact Logic.I]. Qed.
Lemma inv_with st m : inv st -> mok m -> inv (with_mem st m). Proof. intros [_ H] M. split; assumption. Qed.
Lemma same_bind {A C} (r r' : ures A) (k k' : ustate -> A -> ures C) :
  same r r' -> (forall st x, inv st -> same (k st x) (k' st x)) -> same (ubind r k) (ubind r' k').
Proof. intros [-> H] K. destruct r; cbn [ubind]; [apply K, H|apply same_panic|apply same_fuel]. Qed.

Section Loops.
Context (un un' : ustate -> gty -> addr -> json -> ures (option uerr)).
Definition agrees (j : json) : Prop := forall st t a, inv st -> same (un st t a j) (un' st t a j).

Lemma un_elems_same t js : (forall j, In j js -> agrees j) -> forall l st, inv st -> same (un_elems un st t l js) (un_elems un' st t l js).
Proof.
  induction js as [|j js IH]; intros Hi l st H; [destruct l; apply same_ok, H|]. destruct l as [|a l]; [apply same_panic|]. cbn [un_elems].
  apply same_bind; [apply Hi; [left; reflexivity|exact H]|]. intros s [e|] H1; [apply same_ok, H1|apply IH; [intros; apply Hi; right; assumption|exact H1]].
Qed.

Lemma un_members_same t kvs : (forall k j, In (k, j) kvs -> agrees j) -> forall d st, inv st -> same (un_members un st t d kvs) (un_members un' st t d kvs).
Proof.
  induction kvs as [|[k j] kvs IH]; intros Hi d st H; [apply same_ok, H|]. cbn [un_members]. pose proof (zalloc_mok t (u_mem st) (proj1 H)) as Z. destruct (zalloc t (u_mem st)) as [m1 tmp]. cbn [fst] in Z.
  apply same_bind; [apply (Hi k); [left; reflexivity|apply inv_with; assumption]|]. intros s [e|] H1; [apply same_ok, H1|].
  pose proof (vcopy_mok t tmp (u_mem s) (proj1 H1)) as V. destruct (vcopy t tmp (u_mem s)) as [m2 b]. cbn [fst] in V. apply IH; [intros; eapply Hi; right; eassumption|apply inv_with; [exact H1|]].
  destruct (nth_error m2 d) as [[| | | | | | | |old| | | | | |]|]; try exact V. apply mok_mwrite; [exact V|exact Logic.I].
Qed.

Lemma set_field_same fs l j : agrees j -> forall fuel st v key, inv st ->
  same (set_field locate un fuel st v fs l key j) (set_field locate un' fuel st v fs l key j).
Proof.
  intros Hi. induction fuel as [|fuel IH]; intros st v key H; [apply same_fuel|]. cbn [set_field]. destruct (in_strings key v); [apply same_ok, H|].
  generalize (key :: v). revert st H. induction (locate fs key) as [|i idx IHi]; intros st H v'; [apply same_ok, H|].
  destruct (nth_error fs i) as [[info t]|]; [|apply same_panic]. destruct (nth_error l i) as [a|]; [|apply same_panic].
  apply same_bind; [apply Hi, H|]. intros s [e|] H1; [apply same_ok, H1|]. destruct (fi_deprecated_by info) as [other|]; [|apply IHi, H1].
  apply same_bind; [apply IH, H1|]. intros s2 [v2 [e|]] H2; [apply same_ok, H2|]. apply IHi, H2.
Qed.

Lemma un_fields_same fs l kvs : (forall k j, In (k, j) kvs -> agrees j) -> forall st errs, inv st ->
  same (un_fields locate un st fs l kvs errs) (un_fields locate un' st fs l kvs errs).
Proof.
  induction kvs as [|[k j] kvs IH]; intros Hi st errs H; [apply same_ok, H|]. cbn [un_fields].
  apply same_bind; [apply set_field_same; [apply (Hi k); left; reflexivity|exact H]|]. intros s r H1. apply IH; [intros; eapply Hi; right; eassumption|exact H1].
Qed.

Lemma un_serial_same f a j : agrees j -> forall st, inv st -> same (un_serial env un st f a j) (un_serial env un' st f a j).
Proof.
  intros Hi st H. destruct f as [| |name]; [apply same_ok, H|apply same_panic|]. unfold un_serial.
  pose proof (zalloc_mok (TStruct name (env name)) (u_mem st) (proj1 H)) as Z. destruct (zalloc (TStruct name (env name)) (u_mem st)) as [m1 b]. cbn [fst] in Z.
  apply same_bind; [apply Hi, inv_with; assumption|]. intros s [e|] H1; [apply same_ok, H1|]. apply same_ok, inv_with; [exact H1|]. apply mok_mwrite; [apply H1|reflexivity].
Qed.
End Loops.

Lemma call_std_mok m b s : mok m -> mok (fst (call_std time_json std_ok m b s)).
Proof.
  intros H. unfold call_std. destruct (nth_error m b) as [[]|]; try (destruct (std_ok s); [apply mok_mwrite; [exact H|exact Logic.I]|exact H]).
  destruct (time_json s); [apply mok_mwrite; [exact H|exact Logic.I]|exact H].
Qed.

Lemma step_cok j t c : step_scalar match_us match_eu to_bool parse_time j t = Write c -> cok c.
Proof.
  destruct j; try discriminate; cbn [step_scalar].
  - destruct t; cbn [step_bool]; intros E; try discriminate; try (injection E as <-; exact Logic.I); repeat match type of E with context [match ?x with _ => _ end] => destruct x; try discriminate end; injection E as <-; exact Logic.I.
  - destruct t; cbn [step_int]; intros E; try discriminate; try (injection E as <-; exact Logic.I); repeat match type of E with context [match ?x with _ => _ end] => destruct x; try discriminate end; injection E as <-; exact Logic.I.
  - destruct t; cbn [step_float]; intros E; try discriminate; try (injection E as <-; exact Logic.I); repeat match type of E with context [match ?x with _ => _ end] => destruct x; try discriminate end; injection E as <-; exact Logic.I.
  - destruct t; cbn [step_string]; intros E; try discriminate; try (injection E as <-; exact Logic.I); repeat match type of E with context [match ?x with _ => _ end] => destruct x; try discriminate end; injection E as <-; exact Logic.I.
Qed.

Lemma refs_elem l j : ref_ids (JArray l) = [] -> In j l -> ref_ids j = [].
Proof. cbn. intros H I. destruct (ref_ids j) as [|z zs] eqn:E; [reflexivity|]. assert (X : In z (flat_map ref_ids l)) by (apply in_flat_map; exists j; split; [exact I|rewrite E; left; reflexivity]). rewrite H in X. destruct X. Qed.
Lemma refs_member nid kvs k j : ref_ids (JDict nid kvs) = [] -> In (k, j) kvs -> ref_ids j = [].
Proof. cbn. intros H I. destruct (ref_ids j) as [|z zs] eqn:E; [reflexivity|]. assert (X : In z (flat_map (fun kv => ref_ids (snd kv)) kvs)) by (apply in_flat_map; exists (k, j); split; [exact I|cbn [snd]; rewrite E; left; reflexivity]). rewrite H in X. destruct X. Qed.

Lemma save_inv st n a t : inv st -> match save_node_value st n a t with UOk st1 _ => inv st1 | _ => False end.
Proof.
  intros [M H]. assert (P : idle (put_node (u_sess st) n {| nv_value := Some (a, t); nv_targets := [] |})).
  { intros n' nv. unfold put_node. cbn [find_node]. destruct (n =? n'); [intros E; injection E as <-; reflexivity|apply H]. }
  unfold save_node_value. destruct (find_node (u_sess st) n) as [nv|] eqn:E; [|split; assumption]. rewrite (H n nv E). split; assumption.
Qed.

Lemma unm_same n : forall j, ref_ids j = [] -> agrees (unm n) (unmx n) j.
Proof.
  induction n as [|n IH]; intros j Hj st t a H; [apply same_fuel|].
  assert (Std : forall st, inv st -> forall k k', (forall m1, inv (with_mem st m1) -> same (k m1) (k' m1)) ->
    same (let '(m1, d) := indirect env t a (u_mem st) in
          match d with Some b => let '(m2, e) := call_std time_json std_ok m1 b (String_ j) in UOk (with_mem st m2) e | None => k m1 end)
         (match chase env n t a (u_mem st) with
          | None => UFuel
          | Some (m1, Some b) => let '(m2, e) := call_std time_json std_ok m1 b (String_ j) in UOk (with_mem st m2) e
          | Some (m1, None) => k' m1
          end)).
  { clear st H. intros st H k k' Hk. rewrite (chase_same n t a (u_mem st) (proj1 H)). pose proof (indirect_mok t a (u_mem st) (proj1 H)) as I. destruct (indirect env t a (u_mem st)) as [m1 [b|]]; cbn [fst] in I.
    - pose proof (call_std_mok m1 b (String_ j) I) as C. destruct (call_std time_json std_ok m1 b _) as [m2 e]. apply same_ok, inv_with; assumption.
    - apply Hk, inv_with; assumption. }
  assert (Elem : forall t' s, inv s -> same
     (match nth_error (u_mem s) a with Some (VPtr (Some b)) => unm n s (resolve env t') b j | _ => UPanic end)
     (match nth_error (u_mem s) a with Some (VPtr (Some b)) => unmx n s (resolve env t') b j | _ => UPanic end)).
  { intros t' s Hs. destruct (nth_error (u_mem s) a) as [c|]; [destruct c as [| | | | | | | | |[b|]| | | | |]|]; try apply same_panic. apply IH; assumption. }
  assert (W : forall s c, inv s -> cok c -> forall e : option uerr, same (UOk (with_mem s (mwrite (u_mem s) a c)) e) (UOk (with_mem s (mwrite (u_mem s) a c)) e)).
  { intros s c Hs C e. apply same_ok, inv_with; [exact Hs|]. apply mok_mwrite; [apply Hs|exact C]. }
  assert (Scal : forall s, inv s -> same
      (match step_scalar match_us match_eu to_bool parse_time j t with
        | Write c => UOk (with_mem s (mwrite (u_mem s) a c)) None
        | Keep => UOk s None
        | Into t' => match nth_error (u_mem s) a with Some (VPtr (Some b)) => unm n s (resolve env t') b j | _ => UPanic end
        | First t' => let '(m1, l) := resize 1 (resolve env t') a (u_mem s) false in
            match l with b :: _ => unm n (with_mem s m1) (resolve env t') b j | [] => UPanic end
        | Fail e => UOk s (Some e)
        | Panic => UPanic
        end)
      (match step_scalar match_us match_eu to_bool parse_time j t with
        | Write c => UOk (with_mem s (mwrite (u_mem s) a c)) None
        | Keep => UOk s None
        | Into t' => match nth_error (u_mem s) a with Some (VPtr (Some b)) => unmx n s (resolve env t') b j | _ => UPanic end
        | First t' => let '(m1, l) := resize 1 (resolve env t') a (u_mem s) false in
            match l with b :: _ => unmx n (with_mem s m1) (resolve env t') b j | [] => UPanic end
        | Fail e => UOk s (Some e)
        | Panic => UPanic
        end)).
  { intros s Hs. pose proof (step_cok j t) as C. destruct (step_scalar _ _ _ _ j t) as [c| |t'|t'|e|]; try apply same_panic; try apply same_ok, Hs.
    - apply W; [exact Hs|apply C; reflexivity].
    - apply Elem, Hs.
    - pose proof (resize_mok 1 (resolve env t') a (u_mem s) false (proj1 Hs)) as R. destruct (resize 1 (resolve env t') a (u_mem s) false) as [m1 [|b l]]; [apply same_panic|]. apply IH; [exact Hj|apply inv_with; assumption]. }
  cbn [Unmarshal.unm UnmIface.unmx]. destruct j.
  - apply same_ok, inv_with; [exact H|]. apply set_zero_mok, H.
  - apply (Std st H). intros m1 H1. exact (Scal _ H1).
  - apply (Std st H). intros m1 H1. exact (Scal _ H1).
  - apply (Std st H). intros m1 H1. exact (Scal _ H1).
  - pose proof (Std st H _ _ (fun m1 H1 => Scal _ H1)) as Z. specialize (Scal st H). destruct t; first [exact Scal|exact Z].
  - apply (Std st H). intros m1 Hs. cbv zeta beta. clear Std Scal. generalize dependent (with_mem st m1). intros s Hs.
    destruct t as [|k|bit| | | |t|k t|t|t|t|nm fs|nm| | | |k|k| | |nm f]; try (apply same_ok, Hs); try apply same_panic; try (apply W; [exact Hs|exact Logic.I]).
    + pose proof (resize_mok (length l) (resolve env t) a (u_mem s) true (proj1 Hs)) as R. destruct (resize (length l) (resolve env t) a (u_mem s) true) as [m2 vars]. cbn [fst] in R.
      apply un_elems_same; [intros j I; apply IH; eapply refs_elem; eassumption|apply inv_with; assumption].
    + destruct (negb (Nat.eqb k (length l))); [apply same_ok, Hs|]. apply un_elems_same; [intros j I; apply IH; eapply refs_elem; eassumption|exact Hs].
    + destruct (is_list_kind t); [apply Elem, Hs|apply same_ok, Hs].
    + destruct k; try (apply same_ok, Hs). apply W; [exact Hs|exact Logic.I].
    + destruct k; try (apply same_ok, Hs). destruct (nth_error (u_mem s) a) as [[| | | | | | | | | | | |[[]|]| |]|]; try apply same_panic. apply W; [exact Hs|exact Logic.I].
  - assert (Sv : same (if 0 <? nid then save_node_value st nid a t else UOk st tt) (if 0 <? nid then save_node_value st nid a t else UOk st tt)).
    { split; [reflexivity|]. destruct (0 <? nid); [|exact H]. pose proof (save_inv st nid a t H). destruct (save_node_value st nid a t); tauto. }
    apply same_bind; [exact Sv|]. clear Sv. intros s0 _ H0. apply (Std s0 H0). intros m1 Hs. clear Std Scal. generalize dependent (with_mem s0 m1). intros s Hs.
    destruct t as [|k|bit| | | |t|k t|t|t|t|nm fs|nm| | | |k|k| | |nm f]; try (apply same_ok, Hs); try apply same_panic; try (apply W; [exact Hs|exact Logic.I]).
    + pose proof (map_data_mok a (u_mem s) (proj1 Hs)) as R. destruct (map_data a (u_mem s)) as [m2 d]. cbn [fst] in R.
      apply un_members_same; [intros k j I; apply IH; eapply refs_member; eassumption|apply inv_with; assumption].
    + pose proof (map_data_mok a (u_mem s) (proj1 Hs)) as R. destruct (map_data a (u_mem s)) as [m2 d]. cbn [fst] in R. apply same_ok, inv_with; assumption.
    + destruct (is_dict_kind t); [apply Elem, Hs|apply same_ok, Hs].
    + apply un_fields_same; [intros k j I; apply IH; eapply refs_member; eassumption|exact Hs].
    + destruct k; try (apply same_ok, Hs). apply W; [exact Hs|exact Logic.I].
    + destruct k; try (apply same_ok, Hs). destruct (nth_error (u_mem s) a) as [[| | | | | | | | | | | |[[]|]| |]|]; try apply same_panic. apply W; [exact Hs|exact Logic.I].
    + apply un_serial_same; [apply IH; exact Hj|exact Hs].
  - discriminate.
Qed.
End Agree.
