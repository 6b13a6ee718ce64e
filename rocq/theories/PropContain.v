(** C44: what Unmarshal makes of arrays and dicts. *)
From Coq Require Import Lia.
From Verif Require Import Base Strconv SpecFloat SortedMap SortedMapFacts Json SpecJson Printer Access AccessFacts JErrors Heap Gotypes Marshal
  Unmarshal SpecUnmarshal UnmFacts UnmTotal UnmMono UnmFrame UnmAlike SpecConvert ZeroFacts PropUnmarshal PropUnmarshal2 PropConvert SpecContain PropConvert2.
From Verif Require PropDict.
Open Scope Z_scope.

(** ** Copies *)

Section Copy.
Context (env : nat -> list (finfo * gty)).
Notation mok := (mok env (fun _ _ => False)).
Notation proper := (proper env).

Lemma vcopy_same T m t : proper t -> mok T m -> forall a, nth_error T a = Some (Var t) -> forall e,
  exists d b, vcopy t a (m ++ e) = ((m ++ e) ++ d, b) /\ (length (m ++ e) <= b < length ((m ++ e) ++ d))%nat
    /\ forall M, (forall x, (length (m ++ e) <= x < length ((m ++ e) ++ d))%nat -> nth_error M x = nth_error ((m ++ e) ++ d) x) -> same_var m M t a b.
Proof.
  intros Hp M. revert Hp.
  assert (L0 : forall t a e, match t with TArray _ _ | TStruct _ _ => False | _ => True end -> nth_error T a = Some (Var t) -> exists d b, vcopy t a (m ++ e) = ((m ++ e) ++ d, b) /\ (length (m ++ e) <= b < length ((m ++ e) ++ d))%nat
    /\ forall M, (forall x, (length (m ++ e) <= x < length ((m ++ e) ++ d))%nat -> nth_error M x = nth_error ((m ++ e) ++ d) x) -> same_var m M t a b).
  { clear t. intros t a e Ht Ta. destruct (mok_cell _ _ _ _ _ _ M Ta) as (c & Ec & _). pose proof (nth_error_app_l _ e _ _ Ec) as Ec'. exists [c], (length (m ++ e)). split; [|split].
    - destruct t; try contradiction; cbn [vcopy]; rewrite Ec'; reflexivity.
    - rewrite (app_length (m ++ e)). cbn. lia.
    - intros M' H. apply sv_cell with (c := c); [exact Ht|exact Ec|]. rewrite H; [apply nth_error_last|]. rewrite (app_length (m ++ e)). cbn. lia. }
  induction t as [t Ht|t IH|k t IH|t IH|t IH|t IH|n fs IH] using gty_ind'; intros Hp a Ta e; try (apply L0; [exact Logic.I|exact Ta]).
  - apply L0; [|exact Ta]. destruct t; try contradiction; exact Logic.I.
  - cbn [SpecUnmarshal.proper] in Hp. cbn [vcopy]. destruct (mok_cell _ _ _ _ _ _ M Ta) as (c & Ec & C). rewrite (nth_error_app_l _ e _ _ Ec). inversion C as [| | | | | | | |l ? F1| | | | | | | | | | | | | | | |]; subst.
    set (go := fix go (l : list addr) (m : mem) : mem * list addr :=
                              match l with
                              | [] => (m, [])
                              | x :: l1 => let '(m1, y) := vcopy t x m in let '(m2, r) := go l1 m1 in (m2, y :: r)
                              end).
    assert (G : forall l e, Forall (fun a => nth_error T a = Some (Var t)) l -> exists d l', go l (m ++ e) = ((m ++ e) ++ d, l') /\
      forall M, (forall x, (length (m ++ e) <= x < length ((m ++ e) ++ d))%nat -> nth_error M x = nth_error ((m ++ e) ++ d) x) -> Forall2 (same_var m M t) l l').
    { clear - IH Hp. induction l as [|x l IHl]; intros e F1; [exists [], []; rewrite app_nil_r; split; [reflexivity|constructor]|]. inversion F1 as [|? ? Ex F2]; subst.
      destruct (IH Hp x Ex e) as (d1 & b & E1 & B1 & S1). destruct (IHl (e ++ d1) F2) as (d2 & l' & E2 & S2). rewrite app_assoc in E2, S2.
      exists (d1 ++ d2), (b :: l'). cbn [go]. rewrite E1, E2. rewrite (app_assoc (m ++ e)). split; [reflexivity|]. intros M H. rewrite (app_length ((m ++ e) ++ d1)) in H. constructor.
      - apply S1. intros y Ly. rewrite H by lia. apply nth_error_app1. lia.
      - apply S2. intros y Ly. apply H. rewrite (app_length ((m ++ e) ++ d1)) in Ly. lia. }
    destruct (G l e F1) as (d & l' & E & S). rewrite E. exists (d ++ [VArray l']), (length ((m ++ e) ++ d)). rewrite (app_assoc (m ++ e)). split; [reflexivity|].
    rewrite (app_length ((m ++ e) ++ d)). cbn [length]. split; [rewrite (app_length (m ++ e)); lia|]. intros M' H. eapply sv_array; [exact Ec| |].
    + rewrite H; [apply nth_error_last|]. rewrite (app_length (m ++ e)). lia.
    + apply S. intros y Ly. rewrite H by lia. apply nth_error_app1. lia.
  - assert (Hall : forall i t, In (i, t) fs -> proper t) by (intros i t I; eapply proper_fields; eassumption). clear Hp.
    cbn [vcopy]. destruct (mok_cell _ _ _ _ _ _ M Ta) as (c & Ec & C). rewrite (nth_error_app_l _ e _ _ Ec). inversion C as [| | | | | | | | | | | | | | | |l ? ? F1| | | | | | | |]; subst.
    set (go := fix go (fs : list (finfo * gty)) (l : list addr) (m : mem) : mem * list addr :=
                              match fs, l with
                              | (_, t') :: fs', x :: l1 => let '(m1, y) := vcopy t' x m in let '(m2, r) := go fs' l1 m1 in (m2, y :: r)
                              | _, _ => (m, [])
                              end).
    assert (G : forall fs l e, Forall (fun f => proper (snd f) -> forall a, nth_error T a = Some (Var (snd f)) -> forall e, exists d b, vcopy (snd f) a (m ++ e) = ((m ++ e) ++ d, b) /\ (length (m ++ e) <= b < length ((m ++ e) ++ d))%nat
        /\ forall M, (forall x, (length (m ++ e) <= x < length ((m ++ e) ++ d))%nat -> nth_error M x = nth_error ((m ++ e) ++ d) x) -> same_var m M (snd f) a b) fs ->
      (forall i t, In (i, t) fs -> proper t) -> Forall2 (fun a f => nth_error T a = Some (Var (snd f))) l fs -> exists d l', go fs l (m ++ e) = ((m ++ e) ++ d, l') /\
      forall M, (forall x, (length (m ++ e) <= x < length ((m ++ e) ++ d))%nat -> nth_error M x = nth_error ((m ++ e) ++ d) x) -> same_fields m M fs l l').
    { clear. induction fs as [|[i t] fs IHf]; intros l e IH Hall F1; inversion F1 as [|x ? l0 ? Ex F2]; subst; [exists [], []; rewrite app_nil_r; split; [reflexivity|constructor]|]. inversion IH as [|? ? I1 I2]; subst. cbn [snd] in *.
      destruct (I1 (Hall i t (or_introl eq_refl)) x Ex e) as (d1 & b & E1 & B1 & S1). destruct (IHf l0 (e ++ d1) I2 (fun i t I => Hall i t (or_intror I)) F2) as (d2 & l' & E2 & S2). rewrite app_assoc in E2, S2.
      exists (d1 ++ d2), (b :: l'). cbn [go]. rewrite E1, E2. rewrite (app_assoc (m ++ e)). split; [reflexivity|]. intros M H. rewrite (app_length ((m ++ e) ++ d1)) in H. constructor.
      - apply S1. intros y Ly. rewrite H by lia. apply nth_error_app1. lia.
      - apply S2. intros y Ly. apply H. rewrite (app_length ((m ++ e) ++ d1)) in Ly. lia. }
    destruct (G fs l e IH Hall F1) as (d & l' & E & S). rewrite E. exists (d ++ [VStruct l']), (length ((m ++ e) ++ d)). rewrite (app_assoc (m ++ e)). split; [reflexivity|].
    rewrite (app_length ((m ++ e) ++ d)). cbn [length]. split; [rewrite (app_length (m ++ e)); lia|]. intros M' H. eapply sv_struct; [exact Ec| |].
    + rewrite H; [apply nth_error_last|]. rewrite (app_length (m ++ e)). lia.
    + apply S. intros y Ly. rewrite H by lia. apply nth_error_app1. lia.
Qed.
End Copy.

Section C44.
Context (env : nat -> list (finfo * gty)) (locate : list (finfo * gty) -> bytes -> list nat).
Context (match_us match_eu : bytes -> bool) (to_bool : bytes -> bool)
  (parse_time : bytes -> option bytes) (time_json : bytes -> option (option bytes)) (std_ok : bytes -> bool).
Notation Unmarshal := (Unmarshal env locate match_us match_eu to_bool parse_time time_json std_ok).
Notation unm := (unm env locate match_us match_eu to_bool parse_time time_json std_ok).
Notation start m := {| u_mem := m; u_sess := [] |}.
Notation named := (named env).
Notation mok := (mok env (fun _ _ => False)).
Notation top := (selected_top env locate match_us match_eu to_bool parse_time time_json std_ok).

(** The value j by itself: the only member of a dict, selected by its key. *)
Notation into n t := (fun m b j => Unmarshal n m t b (JDict 0 [([], j)]) [[]]).

Lemma into_unm n m t b j : into n t m b j = outcome (unm n (start m) (resolve env t) b j).
Proof. apply top. left. split; [discriminate|reflexivity]. Qed.

Lemma twins_start D st : quiet D (u_sess st) -> twins D st (start (u_mem st)).
Proof. intros Q. split; [reflexivity|]. split; [exact Q|apply quiet_nil]. Qed.

Lemma quiet_node D n x : ~ D n -> quiet D (put_node [] n {| nv_value := Some x; nv_targets := [] |}).
Proof. intros H. apply quiet_put_value; [apply quiet_nil|exact H]. Qed.

Lemma outcome_alike D r r' : alike D r r' -> outcome r = outcome r'.
Proof. destruct r as [st e| |], r' as [st' e'| |]; try reflexivity; intros H; try destruct H. subst. destruct H as [E _]. cbn. rewrite E. reflexivity. Qed.

(** ** Arrays *)

Lemma elems_in_turn D n t js : (forall j, In j js -> loose D j) -> forall l st, length l = length js -> quiet D (u_sess st) ->
  resolve env t = t -> in_turn (into n t) (u_mem st) l js (outcome (un_elems (unm n) st t l js)).
Proof.
  intros R l st E Q Et. revert l st E Q. induction js as [|j js IH]; intros [|b l] st E Q; try discriminate; [constructor|].
  cbn [un_elems]. assert (A : alike D (unm n st t b j) (unm n (start (u_mem st)) t b j)) by (apply unm_alike; [apply R; left; reflexivity|apply twins_start, Q]).
  pose proof (into_unm n (u_mem st) t b j) as I. rewrite Et in I.
  destruct (unm n st t b j) as [st1 e| |], (unm n (start (u_mem st)) t b j) as [st2 e'| |]; try contradiction; cbn [ubind].
  - destruct A as [(Em & Q1 & _) <-]. destruct e as [e|].
    + apply it_stop; [rewrite I; cbn; rewrite Em; reflexivity|intros ?; discriminate].
    + eapply it_next; [rewrite I; cbn; rewrite <- Em; reflexivity|]. apply IH; [intros; apply R; right; assumption|injection E as E; exact E|exact Q1].
  - apply it_stop; [exact I|intros ?; discriminate].
  - apply it_stop; [exact I|intros ?; discriminate].
Qed.

Lemma resolve_idem t : resolve env (resolve env t) = resolve env t. Proof. destruct t; reflexivity. Qed.

(** An array for a slice whose capacity is enough: the slice gets the length of
    the array, and the values go into the variables it had, one after the
    other, until the first error. *)
Theorem C44_array_into_slice : forall n m t a doc keys js l k, references_lead_out (JArray js) -> selected doc keys (JArray js) ->
  nth_error m a = Some (VSlice (Some (l, k))) -> (length js <= length l)%nat ->
  exists m1, written m a (VSlice (Some (l, length js))) m1
    /\ in_turn (into n (named t)) m1 (firstn (length js) l) js (Unmarshal (S n) m (TSlice t) a doc keys).
Proof.
  intros n m t a doc keys js l k R Sel Ea L. exists (mwrite m a (VSlice (Some (l, length js)))). split; [apply written_mwrite; eapply nth_error_lt; eassumption|].
  rewrite (top _ _ _ _ _ _ _ Sel). cbn [resolve]. cbn [Unmarshal.unm indirect]. unfold resize. cbn [u_mem with_mem]. rewrite Ea.
  replace (length l <? length js)%nat with false by (symmetry; apply Nat.ltb_ge; exact L).
  apply (elems_in_turn _ n (resolve env t) js (fun j I => loose_elem _ _ _ (loose_out _ R) I) _ (start (mwrite m a (VSlice (Some (l, length js)))))); [apply firstn_length_le; exact L|apply quiet_nil|apply resolve_idem].
Qed.

(** An array for a nil or smaller slice: it goes into a new slice of zero
    values. *)
Theorem C44_array_into_new_slice : env_ok env -> forall n m t a doc keys js sl, references_lead_out (JArray js) -> selected doc keys (JArray js) -> proper env (TSlice t) ->
  nth_error m a = Some (VSlice sl) -> match sl with None => True | Some (l, _) => (length l < length js)%nat end ->
  exists m1 l, length l = length js /\ nth_error m1 a = Some (VSlice (Some (l, length js)))
    /\ (forall x, (x < length m)%nat -> x <> a -> nth_error m1 x = nth_error m x)
    /\ Forall (fun b => (length m <= b)%nat /\ zero_var m1 (named t) b) l
    /\ in_turn (into n (named t)) m1 l js (Unmarshal (S n) m (TSlice t) a doc keys).
Proof.
  intros Henv n m t a doc keys js sl R Sel Hp Ea Hs. pose proof (inner_named _ Henv t (proper_slice _ _ Hp)) as Hn. assert (La : (a < length m)%nat) by (eapply nth_error_lt; eassumption).
  destruct (times_placed _ (length js) (zalloc_placed (named t)) m m eq_refl) as (d & l & E & _).
  assert (E' : forall c, times (length js) (zalloc (named t)) (mwrite m a c) = (mwrite m a c ++ d, l)).
  { intros c. destruct (times_placed _ (length js) (zalloc_placed (named t)) m (mwrite m a c)) as (d' & l' & E1 & E2); [rewrite mwrite_length; reflexivity|]. rewrite E in E1. injection E1 as E1 <-. apply app_inv_head in E1 as <-. exact E2. }
  set (c := VSlice (Some (l, length js))). exists (mwrite (m ++ d) a c), l.
  destruct (times_zero (zalloc (named t)) (length js) (named t) (zalloc_zero env _ Hn) (mwrite m a c)) as (_ & Z & L & Bd). rewrite E' in Z, L, Bd. cbn [fst snd] in *. rewrite mwrite_length in Bd.
  split; [exact L|]. assert (La1 : (a < length (m ++ d))%nat) by (rewrite app_length; lia). split; [apply mwrite_same; exact La1|]. split; [|split].
  - intros x Lx N. rewrite mwrite_other by congruence. apply nth_error_app1. exact Lx.
  - rewrite mwrite_app by exact La. rewrite Forall_forall in *. intros b I. split; [apply (Bd b I)|apply Z, I].
  - rewrite (top _ _ _ _ _ _ _ Sel). cbn [resolve]. cbn [Unmarshal.unm indirect]. unfold resize. cbn [u_mem with_mem]. rewrite Ea.
    change (resolve env t) with (named t). rewrite E. cbn [orb].
    assert (G : in_turn (into n (named t)) (mwrite (m ++ d) a c) l js (outcome (un_elems (unm n) (start (mwrite (m ++ d) a c)) (named t) l js))).
    { apply (elems_in_turn _ n (resolve env t) js (fun j I => loose_elem _ _ _ (loose_out _ R) I) l (start (mwrite (m ++ d) a c))); [exact L|apply quiet_nil|apply resolve_idem]. }
    destruct sl as [[l0 k0]|]; [|exact G]. replace (length l0 <? length js)%nat with true by (symmetry; apply Nat.ltb_lt; exact Hs). exact G.
Qed.

(** An array for a Go array: the lengths must agree. *)
Theorem C44_array_into_array : forall n m t a doc keys js l k, references_lead_out (JArray js) -> selected doc keys (JArray js) -> proper env t ->
  nth_error m a = Some (VArray l) -> length l = k ->
  (length js = k -> in_turn (into n t) m l js (Unmarshal (S n) m (TArray k t) a doc keys))
  /\ (length js <> k -> Unmarshal (S n) m (TArray k t) a doc keys = TopErr m EArrayLength).
Proof.
  intros n m t a doc keys js l k R Sel Hp Ea Hk. rewrite (top _ _ _ _ _ _ _ Sel). cbn [resolve Unmarshal.unm indirect]. split; intros E.
  - replace (Nat.eqb k (length js)) with true by (symmetry; apply Nat.eqb_eq; congruence). cbn [negb]. unfold elems_of. cbn [u_mem with_mem]. rewrite Ea.
    apply (elems_in_turn _ n t js (fun j I => loose_elem _ _ _ (loose_out _ R) I) l (start m)); [congruence|apply quiet_nil|]. destruct t; try reflexivity. contradiction.
  - replace (Nat.eqb k (length js)) with false by (symmetry; apply Nat.eqb_neq; congruence). reflexivity.
Qed.

(** An array for a string, interface{} or JSON variable. *)
Theorem C44_array_elsewhere : forall n m a doc keys js, (a < length m)%nat -> selected doc keys (JArray js) ->
  (forall t, t = TString \/ t = TTri -> exists m', Unmarshal (S n) m t a doc keys = TopOk m' /\ written m a (VString (String_ (JArray js))) m')
  /\ (exists m', Unmarshal (S n) m TIface a doc keys = TopOk m' /\ written m a (VIface (Some (DynJsons js))) m')
  /\ (forall t, t = TJsonObj \/ t = TJsonPtr KArray -> exists m', Unmarshal (S n) m t a doc keys = TopOk m' /\ written m a (VJson (Some (JArray js))) m')
  /\ (forall old, nth_error m a = Some (VJson (Some (JArray old))) -> exists m', Unmarshal (S n) m (TJsonVal KArray) a doc keys = TopOk m' /\ written m a (VJson (Some (JArray (old ++ js)))) m')
  /\ (forall t, not_for_arrays t -> Unmarshal (S n) m t a doc keys = TopErr m EMismatch)
  /\ Unmarshal (S n) m TMethods a doc keys = TopPanic.
Proof.
  intros n m a doc keys js La Sel. repeat split.
  - intros t Ht. rewrite (top _ _ _ _ _ _ _ Sel). eexists. split; [|apply written_mwrite; exact La]. destruct Ht as [->| ->]; reflexivity.
  - rewrite (top _ _ _ _ _ _ _ Sel). eexists. split; [|apply written_mwrite; exact La]. reflexivity.
  - intros t Ht. rewrite (top _ _ _ _ _ _ _ Sel). eexists. split; [|apply written_mwrite; exact La]. destruct Ht as [->| ->]; [reflexivity|].
    cbn [resolve Unmarshal.unm indirect u_mem]. destruct (nth_error m a) as [[| | | | | | | | | | | |[]| |]|]; cbn [with_mem u_mem outcome]; rewrite ?mwrite_twice; reflexivity.
  - intros old Ea. rewrite (top _ _ _ _ _ _ _ Sel). eexists. split; [|apply written_mwrite; exact La]. cbn [resolve Unmarshal.unm indirect u_mem with_mem]. rewrite Ea. cbn [outcome u_mem with_mem].
    rewrite PropDict.array_add_app. reflexivity.
  - intros t Ht. rewrite (top _ _ _ _ _ _ _ Sel). destruct t; try contradiction; try reflexivity. destruct k; try reflexivity. exfalso. apply Ht. reflexivity.
  - rewrite (top _ _ _ _ _ _ _ Sel). reflexivity.
Qed.

(** ** Dicts *)

(** What unmarshalling keeps and preserves. *)
Lemma typed_after D n T m t a j st e u : env_ok env -> (forall fs k i, In i (locate fs k) -> (i < length fs)%nat) ->
  (forall n, fits u (TStruct n (env n))) -> calm D u j -> proper env t -> fits u t -> mok T m -> nth_error T a = Some (Var t) ->
  unm n (start m) t a j = UOk st e -> exists T', mok (T ++ T') (u_mem st).
Proof.
  intros Henv Hloc F2 C Hp F1 M Ta E.
  destruct (unm_good env locate match_us match_eu to_bool parse_time time_json std_ok (fun _ _ => False) D Henv Hloc u F2 _ C _ Hp F1) as [N HN].
  destruct (HN (N + n)%nat ltac:(lia) T (start m) a) as (st' & e' & T' & Er & [M' _] & _); [split; [exact M|apply quiet_nil]|exact Ta|].
  pose proof (unm_mono env locate match_us match_eu to_bool parse_time time_json std_ok n (N + n) (start m) t a j ltac:(lia) ltac:(rewrite E; discriminate)) as E3.
  rewrite Er, E in E3. injection E3 as -> _. exists T'. exact M'.
Qed.

Lemma fresh_frame n m t b d j st e : zalloc t m = (m ++ d, b) -> unm n (start (m ++ d)) t b j = UOk st e -> forall x, (x < length m)%nat -> nth_error (u_mem st) x = nth_error m x.
Proof.
  intros Ez E x Lx. pose proof (unm_framed env locate match_us match_eu to_bool parse_time time_json std_ok (fun _ => False) (length m) n (start (m ++ d)) t b j) as F.
  assert (C : closed (fun _ => False) (length m) m). { split; [lia|]. intros y c z [[]|Ly] Ey. apply nth_error_lt in Ey. lia. }
  destruct (zalloc_step (fun _ => False) (length m) t m C) as [[C1 _] I1]. rewrite Ez in C1, I1. cbn [fst snd] in *.
  rewrite E in F. destruct F as [_ F]; [split; [exact C1|intros k nv D; discriminate D]|exact I1|]. rewrite F by (exact Lx || exact (fun X => X)). apply nth_error_app1. exact Lx.
Qed.

Lemma length_after n m t b d j st e : zalloc t m = (m ++ d, b) -> unm n (start (m ++ d)) t b j = UOk st e -> (length m <= length (u_mem st))%nat.
Proof.
  intros Ez E. pose proof (unm_framed env locate match_us match_eu to_bool parse_time time_json std_ok (fun _ => False) (length m) n (start (m ++ d)) t b j) as F.
  assert (C : closed (fun _ => False) (length m) m). { split; [lia|]. intros y c z [[]|Ly] Ey. apply nth_error_lt in Ey. lia. }
  destruct (zalloc_step (fun _ => False) (length m) t m C) as [[C1 _] I1]. rewrite Ez in C1, I1. cbn [fst snd] in *.
  rewrite E in F. destruct F as [[[F _] _] _]; [split; [exact C1|intros k nv D; discriminate D]|exact I1|]. exact F.
Qed.

Lemma members_turn (Henv : env_ok env) (Hloc : forall fs k i, In i (locate fs k) -> (i < length fs)%nat) D n t d u : (forall n, fits u (TStruct n (env n))) -> proper env t -> fits u t -> resolve env t = t ->
  forall kvs, (forall k j, In (k, j) kvs -> calm D u j) -> forall T st, mok T (u_mem st) -> quiet D (u_sess st) -> nth_error T d = Some (Data t) ->
  members_in_turn (into n t) t d (u_mem st) kvs (outcome (un_members (unm n) st t d kvs)).
Proof.
  intros F2 Hp F1 Et kvs. induction kvs as [|[k j] kvs IH]; intros Cs T st M Q Td; [constructor|]. cbn [un_members].
  destruct (zalloc_zero env t Hp (u_mem st)) as ([d1 Ed] & Z & L). destruct (zalloc_ok env (fun _ _ => False) t Hp T (u_mem st) M) as (T1 & M1 & E1).
  destruct (zalloc t (u_mem st)) as [m1 tmp] eqn:Ez. cbn [fst snd] in *. subst m1. set (m := u_mem st) in *.
  assert (NZ : new_zero m t tmp (m ++ d1)) by (split; [exists d1; reflexivity|split; [lia|exact Z]]).
  assert (Cj : calm D u j) by (eapply Cs; left; reflexivity).
  assert (A : alike D (unm n (with_mem st (m ++ d1)) t tmp j) (unm n (start (m ++ d1)) t tmp j)).
  { apply unm_alike; [apply Cj|]. split; [reflexivity|]. split; [exact Q|apply quiet_nil]. }
  pose proof (into_unm n (m ++ d1) t tmp j) as I. rewrite Et in I.
  destruct (unm n (with_mem st (m ++ d1)) t tmp j) as [st1 e| |] eqn:Eu, (unm n (start (m ++ d1)) t tmp j) as [st2 e'| |] eqn:Eu2; try contradiction; cbn [ubind].
  2,3: eapply mt_stop; [exact NZ|exact I|intros ?; discriminate].
  destruct A as [(Em & Q1 & _) <-]. destruct e as [e|].
  { eapply mt_stop; [exact NZ|rewrite I; cbn; rewrite Em; reflexivity|intros ?; discriminate]. }
  pose proof (fresh_frame n m t tmp d1 j st2 None Ez Eu2) as Fr. pose proof (length_after n m t tmp d1 j st2 None Ez Eu2) as Ln.
  destruct (typed_after D n (T ++ T1) (m ++ d1) t tmp j st2 None u Henv Hloc F2 Cj Hp F1 M1 E1 Eu2) as [T2 M2]. rewrite <- Em in *. set (m2 := u_mem st1) in *.
  assert (Ttmp : nth_error ((T ++ T1) ++ T2) tmp = Some (Var t)) by (apply nth_error_app_l; exact E1).
  assert (Td2 : nth_error ((T ++ T1) ++ T2) d = Some (Data t)) by (apply nth_error_app_l, nth_error_app_l; exact Td).
  destruct (mok_cell _ _ _ _ _ _ M Td) as (c & Ec & C). inversion C as [| | | | | | | | | | | | |old ? F3| | | | | | | | | | |]; subst.
  assert (Ld : (d < length m)%nat) by (eapply nth_error_lt; exact Ec).
  destruct (vcopy_same env ((T ++ T1) ++ T2) m2 t Hp M2 tmp Ttmp []) as (d2 & b & Ev & Bb & Sv). rewrite !app_nil_r in *.
  destruct (vcopy_ok env (fun _ _ => False) t Hp ((T ++ T1) ++ T2) m2 tmp M2 Ttmp) as (T3 & M3 & E3). rewrite Ev in M3, E3 |- *. cbn [fst snd] in M3, E3.
  assert (Ed2 : nth_error (m2 ++ d2) d = Some (VMapData old)) by (apply nth_error_app_l; rewrite Fr by exact Ld; exact Ec). rewrite Ed2.
  assert (Ld2 : (d < length (m2 ++ d2))%nat) by (eapply nth_error_lt; exact Ed2).
  eapply mt_next with (m2 := m2) (b := b) (m3 := mwrite (m2 ++ d2) d (VMapData (sm_add old k b))); [exact NZ|rewrite I; cbn; rewrite Em; reflexivity|exact Fr|exact Ec|lia| | | |].
  - apply Sv. intros x Lx. apply mwrite_other. lia.
  - apply mwrite_same. exact Ld2.
  - intros x Lx N. rewrite mwrite_other by congruence. apply nth_error_app1. exact Lx.
  - refine (IH (fun k j I => Cs k j (or_intror I)) (((T ++ T1) ++ T2) ++ T3) (with_mem st1 (mwrite (m2 ++ d2) d (VMapData (sm_add old k b)))) _ Q1 _).
    + eapply mok_write; [exact M3|apply nth_error_app_l; exact Td2|exact Logic.I|]. constructor. apply Forall_forall. intros x Ix.
      apply sm_add_in in Ix as [->|Ix]; [exact E3|]. rewrite Forall_forall in F3. do 3 apply nth_error_app_l. apply F3, Ix.
    + apply nth_error_app_l. exact Td2.
Qed.

(** A dict for a map: each member becomes an element, one after the other,
    until the first error; other elements stay. *)
Theorem C44_dict_into_map : env_ok env -> (forall fs k i, In i (locate fs k) -> (i < length fs)%nat) ->
  forall n T m t a doc keys nid kvs d, suitable env (JDict nid kvs) (TMap t) -> selected doc keys (JDict nid kvs) ->
  mem_ok env T m -> nth_error T a = Some (Var (TMap t)) -> nth_error m a = Some (VMap (Some d)) ->
  members_in_turn (into n (named t)) (named t) d m kvs (Unmarshal (S n) m (TMap t) a doc keys).
Proof.
  intros Henv Hloc n T m t a doc keys nid kvs d Su Sel HT Ta Ea. destruct (suitable_more _ _ _ Su) as (u & C & F1 & F2).
  rewrite (top _ _ _ _ _ _ _ Sel). cbn [resolve]. assert (M : mok T m) by (apply mok_of, HT).
  assert (Td : nth_error T d = Some (Data (named t))).
  { destruct (mok_cell _ _ _ _ _ _ M Ta) as (c & Ec & Cc). rewrite Ea in Ec. injection Ec as <-. inversion Cc. assumption. }
  destruct Su as (R & Hp & _). pose proof (inner_named _ Henv t (proper_map _ _ Hp)) as Hn.
  assert (G : forall st, u_mem st = m -> quiet (outer_of (JDict nid kvs)) (u_sess st) -> members_in_turn (into n (named t)) (named t) d m kvs (outcome (let '(m1, d0) := map_data a (u_mem st) in un_members (unm n) (with_mem st m1) (resolve env t) d0 kvs))).
  { intros st Em Q. unfold map_data. rewrite Em, Ea. change m with (u_mem (with_mem st m)) at 1.
    refine (members_turn Henv Hloc _ n (named t) d u F2 Hn (fits_map env u F2 t F1) (resolve_idem t) kvs _ T (with_mem st m) M Q Td). intros k j I. eapply calm_member; eassumption. }
  cbn [Unmarshal.unm indirect]. destruct (0 <? nid) eqn:Pn.
  - refine (G {| u_mem := m; u_sess := put_node [] nid {| nv_value := Some (a, TMap t); nv_targets := [] |} |} eq_refl _).
    apply quiet_node. apply (proj2 (loose_out _ R)) with (kvs := kvs); [apply Z.ltb_lt, Pn|constructor].
  - exact (G (start m) eq_refl (quiet_nil _)).
Qed.

(** If the map is nil, a new one is made first. *)
Theorem C44_dict_into_nil_map : env_ok env -> (forall fs k i, In i (locate fs k) -> (i < length fs)%nat) ->
  forall n T m t a doc keys nid kvs, suitable env (JDict nid kvs) (TMap t) -> selected doc keys (JDict nid kvs) ->
  mem_ok env T m -> nth_error T a = Some (Var (TMap t)) -> nth_error m a = Some (VMap None) ->
  exists m1 d, (length m <= d)%nat /\ nth_error m1 d = Some (VMapData []) /\ nth_error m1 a = Some (VMap (Some d))
    /\ (forall x, (x < length m)%nat -> x <> a -> nth_error m1 x = nth_error m x)
    /\ members_in_turn (into n (named t)) (named t) d m1 kvs (Unmarshal (S n) m (TMap t) a doc keys).
Proof.
  intros Henv Hloc n T m t a doc keys nid kvs Su Sel HT Ta Ea. destruct (suitable_more _ _ _ Su) as (u & C & F1 & F2).
  rewrite (top _ _ _ _ _ _ _ Sel). cbn [resolve]. assert (M : mok T m) by (apply mok_of, HT). assert (La : (a < length m)%nat) by (eapply nth_error_lt; eassumption).
  destruct Su as (R & Hp & _). pose proof (inner_named _ Henv t (proper_map _ _ Hp)) as Hn.
  set (m1 := mwrite (m ++ [VMapData []]) a (VMap (Some (length m)))).
  assert (La1 : (a < length (m ++ [VMapData []]))%nat) by (rewrite app_length; cbn; lia).
  assert (M1 : mok (T ++ [Data (named t)]) m1).
  { eapply mok_write; [apply mok_snoc; [exact M|constructor; constructor]|apply nth_error_app_l; exact Ta|exact Logic.I|]. constructor. rewrite <- (mok_length _ _ _ _ M). apply nth_error_last. }
  exists m1, (length m). split; [lia|]. split; [unfold m1; rewrite mwrite_other by lia; apply nth_error_last|]. split; [apply mwrite_same; exact La1|].
  split; [intros x Lx N; unfold m1; rewrite mwrite_other by congruence; apply nth_error_app1; exact Lx|].
  assert (G : forall st, u_mem st = m -> quiet (outer_of (JDict nid kvs)) (u_sess st) -> members_in_turn (into n (named t)) (named t) (length m) m1 kvs (outcome (let '(m1, d0) := map_data a (u_mem st) in un_members (unm n) (with_mem st m1) (resolve env t) d0 kvs))).
  { intros st Em Q. unfold map_data. rewrite Em, Ea. fold m1. change m1 with (u_mem (with_mem st m1)) at 1.
    refine (members_turn Henv Hloc _ n (named t) (length m) u F2 Hn (fits_map env u F2 t F1) (resolve_idem t) kvs _ (T ++ [Data (named t)]) (with_mem st m1) M1 Q _); [intros k j I; eapply calm_member; eassumption|].
    rewrite <- (mok_length _ _ _ _ M). apply nth_error_last. }
  cbn [Unmarshal.unm indirect]. destruct (0 <? nid) eqn:Pn.
  - refine (G {| u_mem := m; u_sess := put_node [] nid {| nv_value := Some (a, TMap t); nv_targets := [] |} |} eq_refl _).
    apply quiet_node. apply (proj2 (loose_out _ R)) with (kvs := kvs); [apply Z.ltb_lt, Pn|constructor].
  - exact (G (start m) eq_refl (quiet_nil _)).
Qed.

(** A dict for a string or JSON variable; for interface{} it is an error. *)
Theorem C44_dict_elsewhere : forall n m a doc keys nid kvs, (a < length m)%nat -> selected doc keys (JDict nid kvs) ->
  (forall t, t = TString \/ t = TTri -> exists m', Unmarshal (S n) m t a doc keys = TopOk m' /\ written m a (VString (String_ (JDict nid kvs))) m')
  /\ (forall t, t = TJsonObj \/ t = TJsonPtr KDict -> exists m', Unmarshal (S n) m t a doc keys = TopOk m' /\ written m a (VJson (Some (JDict nid kvs))) m')
  /\ (forall id old, nth_error m a = Some (VJson (Some (JDict id old))) -> exists m', Unmarshal (S n) m (TJsonVal KDict) a doc keys = TopOk m'
        /\ written m a (VJson (Some (JDict id (dict_update old (JDict nid kvs))))) m')
  /\ (forall t, t = TIface \/ t = TMethods -> Unmarshal (S n) m t a doc keys = TopErr m EInterface)
  /\ (forall t, not_for_dicts t -> Unmarshal (S n) m t a doc keys = TopErr m EMismatch).
Proof.
  intros n m a doc keys nid kvs La Sel.
  repeat split.
  - intros t Ht. rewrite (top _ _ _ _ _ _ _ Sel). eexists. split; [|apply written_mwrite; exact La]. destruct Ht as [->| ->]; cbn [resolve Unmarshal.unm indirect]; destruct (0 <? nid); reflexivity.
  - intros t Ht. rewrite (top _ _ _ _ _ _ _ Sel). eexists. split; [|apply written_mwrite; exact La]. destruct Ht as [->| ->]; cbn [resolve Unmarshal.unm indirect]; [destruct (0 <? nid); reflexivity|].
    destruct (0 <? nid); cbn [ubind save_node_value find_node u_sess u_mem]; destruct (nth_error m a) as [[| | | | | | | | | | | |[]| |]|]; cbn [with_mem u_mem outcome]; rewrite ?mwrite_twice; reflexivity.
  - intros id old Ea. rewrite (top _ _ _ _ _ _ _ Sel). eexists. split; [|apply written_mwrite; exact La]. cbn [resolve Unmarshal.unm indirect].
    destruct (0 <? nid); cbn [ubind save_node_value find_node u_sess u_mem with_mem]; rewrite Ea; reflexivity.
  - intros t Ht. rewrite (top _ _ _ _ _ _ _ Sel). destruct Ht as [->| ->]; cbn [resolve Unmarshal.unm indirect]; destruct (0 <? nid); reflexivity.
  - intros t Ht. rewrite (top _ _ _ _ _ _ _ Sel). destruct t; try contradiction; cbn [resolve Unmarshal.unm indirect]; destruct (0 <? nid); try reflexivity; (destruct k; try reflexivity; exfalso; apply Ht; reflexivity).
Qed.

(** A dict for a map whose keys are not strings is an error; a nil map becomes
    an empty one. *)
Theorem C44_dict_into_other_map : forall n m t a doc keys nid kvs x, selected doc keys (JDict nid kvs) -> nth_error m a = Some (VMap x) ->
  exists m', Unmarshal (S n) m (TMapOther t) a doc keys = TopErr m' EMapKey
    /\ match x with Some _ => m' = m | None => exists d, nth_error m' a = Some (VMap (Some d)) /\ nth_error m' d = Some (VMapData []) end.
Proof.
  intros n m t a doc keys nid kvs x Sel Ea. rewrite (top _ _ _ _ _ _ _ Sel). assert (La : (a < length m)%nat) by (eapply nth_error_lt; eassumption).
  exists (fst (map_data a m)). split.
  - cbn [resolve Unmarshal.unm indirect]. destruct (0 <? nid); cbn [ubind save_node_value find_node u_sess u_mem with_mem]; destruct (map_data a m); reflexivity.
  - unfold map_data. rewrite Ea. destruct x as [d|]; [reflexivity|]. exists (length m). cbn [fst]. split.
    + apply mwrite_same. rewrite app_length. cbn. lia.
    + rewrite mwrite_other by lia. apply nth_error_last.
Qed.

(** ** Pointers *)

(** An array goes through a pointer to a slice or array, a dict through a
    pointer to a struct or map. *)
Theorem C44_pointer : forall n m t a b doc keys j, nth_error m a = Some (VPtr (Some b)) -> selected doc keys j -> references_lead_out j ->
  match j, t with JArray _, (TSlice _ | TArray _ _) | JDict _ _, (TNamed _ | TMap _ | TMapOther _) => True | _, _ => False end ->
  Unmarshal (S n) m (TPtr t) a doc keys = Unmarshal n m t b doc keys.
Proof.
  intros n m t a b doc keys j Ea Sel R Ht. rewrite !(top _ _ _ _ _ _ _ Sel). cbn [resolve]. apply (outcome_alike (outer_of j)). apply loose_out in R.
  assert (Tw : forall s, quiet (outer_of j) s -> twins (outer_of j) {| u_mem := m; u_sess := s |} (start m)) by (intros s Q; split; [reflexivity|split; [exact Q|apply quiet_nil]]).
  destruct j; try contradiction; destruct t; try contradiction; cbn [Unmarshal.unm indirect]; try (destruct (0 <? nid) eqn:Pn); cbn [ubind save_node_value find_node u_sess u_mem with_mem]; rewrite Ea; cbn [u_mem is_list_kind is_dict_kind]; rewrite ?Ea;
    try (apply unm_alike; [exact R|apply Tw, quiet_nil]);
    (apply unm_alike; [exact R|apply Tw, quiet_node; apply (proj2 R) with (kvs := kvs); [apply Z.ltb_lt, Pn|constructor]]).
Qed.

(** Any other pointer, unless it leads to a type with UnmarshalJSON: an error,
    after new variables are made for nil pointers. *)
Theorem C44_other_pointer : forall n m t a doc keys j, selected doc keys j -> match j with JArray _ => is_list_kind t = false | JDict _ _ => is_dict_kind t = false | _ => False end ->
  (forall t', t <> TPtr t') -> t <> TStd -> t <> TTime -> (forall k, t <> TJsonPtr k) ->
  exists m', Unmarshal (S n) m (TPtr t) a doc keys = TopErr m' EMismatch /\ ((exists b, nth_error m a = Some (VPtr (Some b))) -> m' = m).
Proof.
  intros n m t a doc keys j Sel H N1 N2 N3 N4. rewrite (top _ _ _ _ _ _ _ Sel). cbn [resolve].
  assert (In : forall b m, indirect env t b m = (m, None)) by (intros b0 m0; destruct t; try reflexivity; try congruence; exfalso; first [eapply N1; reflexivity|eapply N4; reflexivity]).
  exists (fst (indirect env (TPtr t) a m)). split.
  - destruct j; try contradiction; cbn [Unmarshal.unm]; try (destruct (0 <? nid)); cbn [ubind save_node_value find_node u_sess u_mem indirect];
      destruct (nth_error m a) as [[| | | | | | | | |[b|]| | | | |]|]; try destruct (zalloc (resolve env t) m); rewrite ?In; rewrite H; reflexivity.
  - intros [b Eb]. cbn [indirect]. rewrite Eb, In. reflexivity.
Qed.
End C44.

(** ** Examples *)

Notation i8 := (TInt (Signed 8)).
Definition d_mem : mem :=
  [VInt 7; VInt 8; VSlice (Some ([0%nat; 1%nat], 2%nat)); VMap (Some 4%nat); VMapData [(B"old", 5%nat)]; VInt 9; VMap None; VArray [0%nat; 1%nat]; VSlice None;
   VJson (Some (JArray [JInt 1])); VPtr (Some 2%nat); VPtr None; VMap None].
Definition d_types : list vty :=
  [Var i8; Var i8; Var (TSlice i8); Var (TMap i8); Data i8; Var i8; Var (TMap i8); Var (TArray 2 i8); Var (TSlice i8); Var (TJsonVal KArray); Var (TPtr (TSlice i8)); Var (TPtr i8); Var (TMapOther i8)].
Lemma d_mem_ok : mem_ok c_env d_types d_mem.
Proof. unfold mem_ok, d_mem, d_types. repeat (constructor; try reflexivity; try (cbn; lia)). Qed.
Definition d_array : json := JArray [JInt 1; JString (B"2")].
Definition d_dict : json := JDict 0 [(B"a", JInt 1); (B"old", JString (B"x"))].
Lemma d_refs j : jall (fun j => match j with JPtr _ => false | _ => true end) j = true -> without_references j.
Proof. intros H n S. pose proof (jall_sub _ _ _ S H). discriminate. Qed.
Lemma d_suitable : suitable c_env d_dict (TMap i8).
Proof.
  split; [apply without_out, d_refs; reflexivity|]. split; [exact Logic.I|]. split; [|split].
  - apply no_methods_check. reflexivity.
  - intros n. apply no_methods_check. destruct n as [|[|n]]; reflexivity.
  - right. split.
    + intros b P. pose proof (tall_part (fun t => negb (is_unsigned t)) _ _ P eq_refl). discriminate.
    + intros n b P. assert (A : tall (fun t => negb (is_unsigned t)) (TStruct n (c_env n)) = true) by (destruct n as [|[|n]]; reflexivity). pose proof (tall_part _ _ _ P A). discriminate.
Qed.
Lemma d_here j : match j with JDict _ _ | JArray _ | JString _ => True | _ => False end -> selected j [] j.
Proof. intros H. right. repeat split. exact H. Qed.

Example C44_array_into_slice_example : exists m1, written d_mem 2%nat (VSlice (Some ([0%nat; 1%nat], 2%nat))) m1
  /\ in_turn (fun m b j => c_unm 3%nat m i8 b (JDict 0 [([], j)]) [[]]) m1 [0%nat; 1%nat] [JInt 1; JString (B"2")] (c_unm 4%nat d_mem (TSlice i8) 2%nat d_array []).
Proof. apply (c_case C44_array_into_slice 3%nat d_mem i8 2%nat d_array [] [JInt 1; JString (B"2")] [0%nat; 1%nat] 2%nat); [apply without_out, d_refs; reflexivity|apply d_here; exact Logic.I|reflexivity|cbn; lia]. Qed.
Example C44_array_into_new_slice_example : exists m1 l, length l = 2%nat /\ nth_error m1 8%nat = Some (VSlice (Some (l, 2%nat)))
  /\ (forall x, (x < 13)%nat -> x <> 8%nat -> nth_error m1 x = nth_error d_mem x) /\ Forall (fun b => (13 <= b)%nat /\ zero_var m1 i8 b) l
  /\ in_turn (fun m b j => c_unm 3%nat m i8 b (JDict 0 [([], j)]) [[]]) m1 l [JInt 1; JString (B"2")] (c_unm 4%nat d_mem (TSlice i8) 8%nat d_array []).
Proof. apply (c_case C44_array_into_new_slice c_env_ok 3%nat d_mem i8 8%nat d_array [] [JInt 1; JString (B"2")] None); [apply without_out, d_refs; reflexivity|apply d_here; exact Logic.I|exact Logic.I|reflexivity|exact Logic.I]. Qed.
Example C44_array_into_array_example :
  in_turn (fun m b j => c_unm 3%nat m i8 b (JDict 0 [([], j)]) [[]]) d_mem [0%nat; 1%nat] [JInt 1; JString (B"2")] (c_unm 4%nat d_mem (TArray 2 i8) 7%nat d_array [])
  /\ c_unm 4%nat d_mem (TArray 2 i8) 7%nat (JArray [JNull]) [] = TopErr d_mem EArrayLength.
Proof.
  split; [apply (c_case C44_array_into_array 3%nat d_mem i8 7%nat d_array [] [JInt 1; JString (B"2")] [0%nat; 1%nat] 2%nat)|
          apply (c_case C44_array_into_array 3%nat d_mem i8 7%nat (JArray [JNull]) [] [JNull] [0%nat; 1%nat] 2%nat)];
    try reflexivity; try discriminate; try (apply without_out, d_refs; reflexivity); try (apply d_here; exact Logic.I); exact Logic.I.
Qed.
Example C44_array_elsewhere_example : exists m', c_unm 1%nat d_mem (TJsonVal KArray) 9%nat d_array [] = TopOk m' /\ written d_mem 9%nat (VJson (Some (JArray [JInt 1; JInt 1; JString (B"2")]))) m'.
Proof. apply (c_case C44_array_elsewhere 0%nat d_mem 9%nat d_array [] [JInt 1; JString (B"2")]) with (old := [JInt 1]); [cbn; lia|apply d_here; exact Logic.I|reflexivity]. Qed.
Example C44_dict_into_map_example :
  members_in_turn (fun m b j => c_unm 3%nat m i8 b (JDict 0 [([], j)]) [[]]) i8 4%nat d_mem [(B"a", JInt 1); (B"old", JString (B"x"))] (c_unm 4%nat d_mem (TMap i8) 3%nat d_dict []).
Proof. apply (c_case C44_dict_into_map c_env_ok by_name_ok 3%nat d_types d_mem i8 3%nat d_dict [] 0 [(B"a", JInt 1); (B"old", JString (B"x"))] 4%nat); [exact d_suitable|apply d_here; exact Logic.I|exact d_mem_ok|reflexivity|reflexivity]. Qed.
(** "a" is put into the map, "x" is no number. *)
Example C44_dict_into_map_outcome : exists m', c_unm 4%nat d_mem (TMap i8) 3%nat d_dict [] = TopErr m' ENumber /\ nth_error m' 4%nat = Some (VMapData [(B"a", 14%nat); (B"old", 5%nat)]) /\ nth_error m' 14%nat = Some (VInt 1).
Proof. eexists. split; [vm_compute; reflexivity|]. split; reflexivity. Qed.
Example C44_dict_into_nil_map_example : exists m1 d, (13 <= d)%nat /\ nth_error m1 d = Some (VMapData []) /\ nth_error m1 6%nat = Some (VMap (Some d))
  /\ (forall x, (x < 13)%nat -> x <> 6%nat -> nth_error m1 x = nth_error d_mem x)
  /\ members_in_turn (fun m b j => c_unm 3%nat m i8 b (JDict 0 [([], j)]) [[]]) i8 d m1 [(B"a", JInt 1); (B"old", JString (B"x"))] (c_unm 4%nat d_mem (TMap i8) 6%nat d_dict []).
Proof. apply (c_case C44_dict_into_nil_map c_env_ok by_name_ok 3%nat d_types d_mem i8 6%nat d_dict [] 0 [(B"a", JInt 1); (B"old", JString (B"x"))]); [exact d_suitable|apply d_here; exact Logic.I|exact d_mem_ok|reflexivity|reflexivity]. Qed.
Example C44_dict_elsewhere_example : c_unm 1%nat d_mem TIface 0%nat d_dict [] = TopErr d_mem EInterface.
Proof. apply (c_case C44_dict_elsewhere 0%nat d_mem 0%nat d_dict [] 0 [(B"a", JInt 1); (B"old", JString (B"x"))]); [cbn; lia|apply d_here; exact Logic.I|left; reflexivity]. Qed.
Example C44_dict_into_other_map_example : exists m', c_unm 1%nat d_mem (TMapOther i8) 12%nat d_dict [] = TopErr m' EMapKey
    /\ exists d, nth_error m' 12%nat = Some (VMap (Some d)) /\ nth_error m' d = Some (VMapData []).
Proof. apply (c_case C44_dict_into_other_map 0%nat d_mem i8 12%nat d_dict [] 0 [(B"a", JInt 1); (B"old", JString (B"x"))] None); [apply d_here; exact Logic.I|reflexivity]. Qed.
Example C44_pointer_example : c_unm 4%nat d_mem (TPtr (TSlice i8)) 10%nat d_array [] = c_unm 3%nat d_mem (TSlice i8) 2%nat d_array [].
Proof. apply (c_case C44_pointer 3%nat d_mem (TSlice i8) 10%nat 2%nat d_array [] d_array); [reflexivity|apply d_here; exact Logic.I|apply without_out, d_refs; reflexivity|exact Logic.I]. Qed.
Example C44_other_pointer_example : exists m', c_unm 4%nat d_mem (TPtr i8) 11%nat d_array [] = TopErr m' EMismatch.
Proof.
  destruct (c_case C44_other_pointer 3%nat d_mem i8 11%nat d_array [] d_array) as (m' & E & _); try discriminate; [apply d_here; exact Logic.I|reflexivity|]. exists m'. exact E.
Qed.
