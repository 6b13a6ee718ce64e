(** * C73: interface{} variables that hold pointers, as targets of Unmarshal *)
From Verif Require Import Base Strconv SortedMap Json SpecJson Heap Gotypes Printer Marshal Access AccessFacts SpecDict Unmarshal SpecMarshal SpecUnmarshal UnmFacts UnmIface SpecIface UnmIfaceFacts HeapReadFacts.

Section C73.
Context (env : nat -> list (finfo * gty)) (locate : list (finfo * gty) -> bytes -> list nat).
Context (match_us match_eu : bytes -> bool) (to_bool : bytes -> bool)
  (parse_time : bytes -> option bytes) (time_json : bytes -> option (option bytes)) (std_ok : bytes -> bool).
Notation unmx := (unmx env locate match_us match_eu to_bool parse_time time_json std_ok).
Notation Unmarshal := (Unmarshal env locate match_us match_eu to_bool parse_time time_json std_ok).
Notation UnmarshalX := (UnmarshalX env locate match_us match_eu to_bool parse_time time_json std_ok).
Notation chase := (chase env).

(** ** Without such variables *)

Lemma lookup_member k (kvs : list (bytes * json)) (v : json) : lookup k kvs = Some v -> In (k, v) kvs.
Proof.
  induction kvs as [|[k' x] kvs IH]; intros L; [discriminate|]. cbn [lookup] in L.
  destruct (bseq k k') eqn:E; [injection L as ->; apply bseq_eq in E; subst; left; reflexivity|right; apply IH, L].
Qed.

Lemma at_path_refs v ks w : at_path v ks w -> ref_ids v = [] -> ref_ids w = [].
Proof.
  induction 1 as [v|nid kvs k ks v w L P IH]; intros H; [exact H|]. apply IH. eapply refs_member; [exact H|apply lookup_member, L].
Qed.

(** If no interface{} variable holds a pointer to a pointer variable, and there
    are no references in the document, Unmarshal does what the other theorems
    about it say, which take no such pointer to be followed. *)
Theorem C73_agrees fuel m t a j keys : no_iface_chains m -> ref_ids j = [] ->
  UnmarshalX fuel m t a j keys = Unmarshal fuel m t a j keys.
Proof.
  intros N R. apply no_chains_mok in N. unfold UnmIface.UnmarshalX, Unmarshal.Unmarshal.
  assert (Rr : ref_ids (receiver j) = []) by (destruct j; try reflexivity; exact R).
  assert (G : forall jo, match keys with [] => ROk (receiver j) | _ => Get (receiver j) keys end = ROk jo -> ref_ids jo = []).
  { intros jo E. destruct keys as [|k ks]; [injection E as <-; exact Rr|].
    destruct j; try discriminate E. cbn [receiver] in *. apply Get_path in E. eapply at_path_refs; eassumption. }
  destruct (match keys with [] => ROk (receiver j) | _ => Get (receiver j) keys end) as [jo|e]; [|reflexivity].
  destruct (unm_same env locate match_us match_eu to_bool parse_time time_json std_ok fuel jo (G jo eq_refl) {| u_mem := m; u_sess := [] |} (resolve env t) a) as [E _].
  - split; [exact N|]. intros n nv X. discriminate X.
  - rewrite E. reflexivity.
Qed.

(** ** The way *)

Lemma is_pointer_kind t : is_pointer t <-> pointer_kind t = true.
Proof. destruct t; cbn; split; try tauto; discriminate. Qed.

Lemma chase_leads m n t a u c : leads m n t a u c -> forall h, (n <= h)%nat -> chase h t a m = chase (h - n) u c m.
Proof.
  induction 1 as [t a|n t a b u c E L IH|n t a b u c E P L IH]; intros h Hh.
  - rewrite Nat.sub_0_r. reflexivity.
  - rewrite chase_ptr, E. apply IH, Hh.
  - rewrite chase_iface, E. apply is_pointer_kind in P. rewrite P. destruct h as [|h]; [lia|]. rewrite IH by lia. reflexivity.
Qed.

Lemma chase_short m n t a u c : leads m n t a u c -> forall h, (h < n)%nat -> chase h t a m = None.
Proof.
  induction 1 as [t a|n t a b u c E L IH|n t a b u c E P L IH]; intros h Hh.
  - lia.
  - rewrite chase_ptr, E. apply IH, Hh.
  - rewrite chase_iface, E. apply is_pointer_kind in P. rewrite P. destruct h as [|h]; [reflexivity|]. apply IH. lia.
Qed.

Lemma chase_dead m h t a : dead_end m t a -> chase h t a m = Some (m, None).
Proof.
  intros D. destruct t; try destruct D; try (destruct h; reflexivity). rewrite chase_iface. cbn in D.
  destruct (nth_error m a) as [[| | | | | | | | | | |[[| | | | |b t]|]| | |]|] eqn:E; try reflexivity.
  specialize (D b t eq_refl). destruct (pointer_kind t) eqn:K; [|reflexivity]. destruct D. apply is_pointer_kind, K.
Qed.

Definition outcome (r : ures (option uerr)) : utop :=
  match r with
  | UOk st None => TopOk (u_mem st)
  | UOk st (Some e) => TopErr (u_mem st) e
  | UPanic => TopPanic
  | UFuel => TopFuel
  end.
Notation start m := {| u_mem := m; u_sess := [] |}.

Lemma asked_top fuel m t a j keys jo : asked j keys jo ->
  UnmarshalX fuel m t a j keys = outcome (unmx fuel (start m) (resolve env t) a jo).
Proof.
  unfold UnmIface.UnmarshalX. destruct 1 as [l|nid kvs|s|nid kvs k ks jo P]; try reflexivity.
  apply Get_path in P. cbn [receiver]. rewrite P. reflexivity.
Qed.

Ltac by_dict C := cbn [UnmIface.unmx]; match goal with |- context [0 <? ?n] => destruct (0 <? n) end; cbn [ubind save_node_value u_sess find_node]; cbn [u_mem with_mem]; rewrite C; cbn [u_mem with_mem].

Lemma outcome_std n m t a j m1 b : wayfaring t -> readable j -> chase n t a m = Some (m1, Some b) ->
  outcome (unmx (S n) (start m) t a j) = let '(m2, e) := call_std time_json std_ok m1 b (String_ j) in match e with None => TopOk m2 | Some e => TopErr m2 e end.
Proof.
  intros W R C. assert (G : forall s, outcome (let '(m2, e) := call_std time_json std_ok m1 b (String_ j) in UOk (with_mem s m2) e) =
    let '(m2, e) := call_std time_json std_ok m1 b (String_ j) in match e with None => TopOk m2 | Some e => TopErr m2 e end).
  { intros s. destruct (call_std time_json std_ok m1 b (String_ j)) as [m2 [e|]]; reflexivity. }
  destruct j; try destruct R; try (destruct t; try destruct W; cbn [UnmIface.unmx u_mem]; rewrite C; apply G).
  by_dict C; apply G.
Qed.

Lemma outcome_end n m a j m1 d : iface_gets j d -> chase n TIface a m = Some (m1, None) ->
  outcome (unmx (S n) (start m) TIface a j) = TopOk (mwrite m1 a (VIface (Some d))).
Proof. intros R C. destruct j; cbn in R; try contradiction; subst d; cbn [UnmIface.unmx u_mem]; rewrite C; reflexivity. Qed.

Lemma outcome_end_dict n m a nid kvs m1 : chase n TIface a m = Some (m1, None) ->
  outcome (unmx (S n) (start m) TIface a (JDict nid kvs)) = TopErr m1 EInterface.
Proof. intros C. by_dict C; reflexivity. Qed.

Lemma outcome_none n m t a j : wayfaring t -> readable j -> chase n t a m = None -> outcome (unmx (S n) (start m) t a j) = TopFuel.
Proof.
  intros W R C. destruct j; try destruct R; try (destruct t; try destruct W; cbn [UnmIface.unmx u_mem]; rewrite C; reflexivity).
  by_dict C; reflexivity.
Qed.

Lemma leads_chase m n t x u c fuel : leads m n t x u c -> (n < fuel)%nat -> exists f, fuel = S f /\ chase f t x m = chase (f - n) u c m.
Proof. intros L H. destruct fuel as [|f]; [lia|]. exists f. split; [reflexivity|]. apply chase_leads; [exact L|lia]. Qed.

(** If the way from the interface{} or pointer variable [x] ends at a variable [c] of a type
    with UnmarshalJSON, that is called on it, and [x] is left as it is. *)
Theorem C73_unmarshaler fuel m t x n c old j keys jo :
  wayfaring t -> leads m n t x TStd c -> nth_error m c = Some (VStd old) -> (n < fuel)%nat ->
  asked j keys jo -> readable jo ->
  UnmarshalX fuel m t x j keys = if std_ok (String_ jo) then TopOk (mwrite m c (VStd (Some (String_ jo)))) else TopErr m EStd.
Proof.
  intros W L E F A R. rewrite (asked_top _ _ _ _ _ _ _ A). destruct (leads_chase _ _ _ _ _ _ _ L F) as (f & -> & C). replace (resolve env t) with t by (destruct t; try destruct W; reflexivity).
  assert (C' : chase f t x m = Some (m, Some c)) by (rewrite C; destruct (f - n)%nat; reflexivity).
  rewrite (outcome_std _ _ t _ _ _ _ W R C'). unfold call_std. rewrite E. destruct (std_ok (String_ jo)); reflexivity.
Qed.

Theorem C73_time fuel m t x n c old j keys jo :
  wayfaring t -> leads m n t x TTime c -> nth_error m c = Some (VTime old) -> (n < fuel)%nat ->
  asked j keys jo -> readable jo ->
  UnmarshalX fuel m t x j keys = match time_json (String_ jo) with Some t => TopOk (mwrite m c (VTime t)) | None => TopErr m EStd end.
Proof.
  intros W L E F A R. rewrite (asked_top _ _ _ _ _ _ _ A). destruct (leads_chase _ _ _ _ _ _ _ L F) as (f & -> & C). replace (resolve env t) with t by (destruct t; try destruct W; reflexivity).
  assert (C' : chase f t x m = Some (m, Some c)) by (rewrite C; destruct (f - n)%nat; reflexivity).
  rewrite (outcome_std _ _ t _ _ _ _ W R C'). unfold call_std. rewrite E. destruct (time_json (String_ jo)); reflexivity.
Qed.

(** If it ends elsewhere, [x] gets the value that it would have got had it been
    nil, and what the pointer that was in it leads to is not changed. *)
Theorem C73_replaced fuel m x n u c j keys jo d :
  leads m n TIface x u c -> dead_end m u c -> (n < fuel)%nat -> asked j keys jo -> iface_gets jo d ->
  UnmarshalX fuel m TIface x j keys = TopOk (mwrite m x (VIface (Some d))).
Proof.
  intros L E F A R. rewrite (asked_top _ _ _ _ _ _ _ A). destruct (leads_chase _ _ _ _ _ _ _ L F) as (f & -> & C). cbn [resolve].
  rewrite (chase_dead _ _ _ _ E) in C. apply outcome_end; assumption.
Qed.

(** and for a dict there is an error, and nothing changes. *)
Theorem C73_dict fuel m x n u c j keys nid kvs :
  leads m n TIface x u c -> dead_end m u c -> (n < fuel)%nat -> asked j keys (JDict nid kvs) ->
  UnmarshalX fuel m TIface x j keys = TopErr m EInterface.
Proof.
  intros L E F A. rewrite (asked_top _ _ _ _ _ _ _ A). destruct (leads_chase _ _ _ _ _ _ _ L F) as (f & -> & C). cbn [resolve].
  rewrite (chase_dead _ _ _ _ E) in C. apply outcome_end_dict; assumption.
Qed.

(** A nil pointer on the way is made to point to a new variable; that stays, even
    though [x] is then overwritten if the new variable has no UnmarshalJSON. *)
Theorem C73_allocates fuel m x n u c j keys jo d :
  leads m n TIface x (TPtr u) c -> nth_error m c = Some (VPtr None) -> plain u -> (n < fuel)%nat ->
  asked j keys jo -> iface_gets jo d ->
  UnmarshalX fuel m TIface x j keys =
    TopOk (mwrite (mwrite (m ++ [zero_cell u]) c (VPtr (Some (length m)))) x (VIface (Some d))).
Proof.
  intros L E P F A R. rewrite (asked_top _ _ _ _ _ _ _ A). destruct (leads_chase _ _ _ _ _ _ _ L F) as (f & -> & C). cbn [resolve].
  rewrite chase_ptr, E in C. apply outcome_end; [exact R|]. rewrite C.
  assert (Z : zalloc (resolve env u) m = (m ++ [zero_cell u], length m)) by (destruct u; try destruct P; reflexivity). rewrite Z.
  assert (Hc : (c < length m)%nat) by (apply nth_error_Some; rewrite E; discriminate).
  destruct u; try destruct P; try (destruct (f - n)%nat; reflexivity).
  rewrite chase_iface. rewrite (mwrite_other _ c (length m)) by lia. rewrite nth_error_app2, Nat.sub_diag by lia. reflexivity.
Qed.

Lemma mwrite_app1 (m l : mem) (x : vcell) : forall c, (c < length m)%nat -> mwrite (m ++ l) c x = mwrite m c x ++ l.
Proof. induction m as [|y m IH]; intros [|c] H; cbn in *; try lia; [reflexivity|]. rewrite IH by lia. reflexivity. Qed.
Lemma mwrite_end (m : mem) (x y : vcell) : mwrite (m ++ [y]) (length m) x = m ++ [x].
Proof. induction m as [|z m IH]; [reflexivity|]. cbn. rewrite IH. reflexivity. Qed.

Theorem C73_allocates_unmarshaler fuel m t x n c j keys jo :
  wayfaring t -> leads m n t x (TPtr TStd) c -> nth_error m c = Some (VPtr None) -> (n < fuel)%nat ->
  asked j keys jo -> readable jo ->
  UnmarshalX fuel m t x j keys =
    if std_ok (String_ jo) then TopOk (mwrite m c (VPtr (Some (length m))) ++ [VStd (Some (String_ jo))])
    else TopErr (mwrite m c (VPtr (Some (length m))) ++ [VStd None]) EStd.
Proof.
  intros W L E F A R. rewrite (asked_top _ _ _ _ _ _ _ A). destruct (leads_chase _ _ _ _ _ _ _ L F) as (f & -> & C). replace (resolve env t) with t by (destruct t; try destruct W; reflexivity).
  rewrite chase_ptr, E in C. cbn [resolve zalloc] in C.
  assert (Hc : (c < length m)%nat) by (apply nth_error_Some; rewrite E; discriminate).
  assert (M : mwrite (m ++ [zero_cell TStd]) c (VPtr (Some (length m))) = mwrite m c (VPtr (Some (length m))) ++ [VStd None]).
  { apply mwrite_app1, Hc. }
  rewrite M in C.
  assert (C' : chase f t x m = Some (mwrite m c (VPtr (Some (length m))) ++ [VStd None], Some (length m))) by (rewrite C; destruct (f - n)%nat; reflexivity).
  rewrite (outcome_std _ _ t _ _ _ _ W R C'). unfold call_std.
  assert (Lm : length (mwrite m c (VPtr (Some (length m)))) = length m) by apply mwrite_length.
  rewrite nth_error_app2 by lia. rewrite Lm, Nat.sub_diag. cbn [nth_error]. destruct (std_ok (String_ jo)); [|reflexivity].
  rewrite <- Lm at 2. rewrite mwrite_end. reflexivity.
Qed.

(** null makes [x] nil, whatever it holds. *)
Theorem C73_null fuel m x j keys : (0 < fuel)%nat -> asked j keys JNull -> UnmarshalX fuel m TIface x j keys = TopOk (mwrite m x (VIface None)).
Proof. intros F A. rewrite (asked_top _ _ _ _ _ _ _ A). destruct fuel; [lia|]. reflexivity. Qed.

(** ** Ways without end *)

Inductive ichain (m : mem) : gty -> addr -> list addr -> Prop :=
| ic_nil t a : ichain m t a []
| ic_ptr t a b l : nth_error m a = Some (VPtr (Some b)) -> ichain m t b l -> ichain m (TPtr t) a l
| ic_iface a b t l : nth_error m a = Some (VIface (Some (DynPtr b t))) -> is_pointer t -> ichain m t b l -> ichain m TIface a (a :: l).

Definition blank (b : addr) (c : vcell) : Prop := match c with VIface (Some _) => False | VPtr (Some x) => x = b | _ => True end.

Lemma zalloc_blank t m : exists c, nth_error (fst (zalloc t m)) (snd (zalloc t m)) = Some c /\ forall b, blank b c.
Proof.
  assert (L : forall (m : mem) c, nth_error (m ++ [c]) (length m) = Some c) by (intros; rewrite nth_error_app2, Nat.sub_diag by lia; reflexivity).
  destruct t; try (cbn [zalloc fst snd]; rewrite L; eexists; split; [reflexivity|intros b; exact Logic.I]).
  - cbn [zalloc]. destruct (times _ _ _) as [m1 l]. cbn [fst snd]. rewrite L. eexists. split; [reflexivity|intros b; exact Logic.I].
  - cbn [zalloc]. match goal with |- context [let '(_, _) := ?x in _] => destruct x as [m1 l] end. cbn [fst snd]. rewrite L. eexists. split; [reflexivity|intros b; exact Logic.I].
Qed.

Lemma alloc_blank t a m : exists c, nth_error (mwrite (fst (zalloc t m)) a (VPtr (Some (snd (zalloc t m))))) (snd (zalloc t m)) = Some c /\ blank (snd (zalloc t m)) c.
Proof.
  destruct (zalloc_blank t m) as (c & E & Bl). destruct (Nat.eq_dec (snd (zalloc t m)) a) as [Ea|Ea].
  - exists (VPtr (Some (snd (zalloc t m)))). split; [|reflexivity]. rewrite <- Ea. apply mwrite_same. apply nth_error_Some. rewrite E. discriminate.
  - exists c. split; [|apply Bl]. rewrite mwrite_other by congruence. exact E.
Qed.

Lemma chase_blank h t : forall b m c, nth_error m b = Some c -> blank b c -> chase h t b m <> None.
Proof.
  induction t as [t Ht|t IH|k t IH|t IH|t IH|t IH|n fs IH] using gty_ind'; intros b m c E Bl; try (destruct h; discriminate).
  - destruct t; try destruct Ht; try (destruct h; discriminate).
    + rewrite chase_iface, E. destruct c as [| | | | | | | | | | |[d|]| | |]; try discriminate. destruct Bl.
    + destruct h; cbn [UnmIface.chase]; rewrite E; destruct c as [| | | | | | | | | | | |[jj|]| |]; discriminate.
  - rewrite chase_ptr, E. assert (Z : (let '(m1, b0) := zalloc (resolve env t) m in chase h t b0 (mwrite m1 b (VPtr (Some b0)))) <> None).
    { destruct (alloc_blank (resolve env t) b m) as (c' & E' & Bl'). destruct (zalloc (resolve env t) m) as [m1 b0]. cbn [fst snd] in *. eapply IH; eassumption. }
    destruct c as [| | | | | | | | |[y|]| | | | |]; try exact Z. cbn in Bl. subst y. eapply IH; [exact E|reflexivity].
Qed.

Lemma chase_ichain h : forall t a m, chase h t a m = None -> exists l, ichain m t a l /\ length l = S h.
Proof.
  induction h as [|h IHh]; (induction t as [t Ht|t IH|k t IH|t IH|t IH|t IH|n fs IH] using gty_ind'; intros a m E; try discriminate E).
  - destruct t; try destruct Ht; try discriminate E.
    + rewrite chase_iface in E. destruct (nth_error m a) as [[| | | | | | | | | | |[[| | | | |b t]|]| | |]|] eqn:Ea; try discriminate E.
      destruct (pointer_kind t) eqn:K; [|discriminate E]. exists [a]. split; [|reflexivity]. econstructor; [exact Ea|apply is_pointer_kind, K|constructor].
    + cbn [UnmIface.chase] in E. destruct (nth_error m a) as [[| | | | | | | | | | | |[jj|]| |]|]; discriminate E.
  - rewrite chase_ptr in E. assert (Z : (let '(m1, b0) := zalloc (resolve env t) m in chase 0 t b0 (mwrite m1 a (VPtr (Some b0)))) <> None).
    { destruct (alloc_blank (resolve env t) a m) as (c' & E' & Bl'). destruct (zalloc (resolve env t) m) as [m1 b0]. cbn [fst snd] in *. eapply chase_blank; eassumption. }
    destruct (nth_error m a) as [[| | | | | | | | |[b|]| | | | |]|] eqn:Ea; try (destruct (Z E)). destruct (IH b m E) as (l & C & Ln). exists l. split; [econstructor; eassumption|exact Ln].
  - destruct t; try destruct Ht; try discriminate E.
    + rewrite chase_iface in E. destruct (nth_error m a) as [[| | | | | | | | | | |[[| | | | |b t]|]| | |]|] eqn:Ea; try discriminate E.
      destruct (pointer_kind t) eqn:K; [|discriminate E]. destruct (IHh t b m E) as (l & C & Ln). exists (a :: l). split; [|cbn; rewrite Ln; reflexivity]. econstructor; [exact Ea|apply is_pointer_kind, K|exact C].
    + cbn [UnmIface.chase] in E. destruct (nth_error m a) as [[| | | | | | | | | | | |[jj|]| |]|]; discriminate E.
  - rewrite chase_ptr in E. assert (Z : (let '(m1, b0) := zalloc (resolve env t) m in chase (S h) t b0 (mwrite m1 a (VPtr (Some b0)))) <> None).
    { destruct (alloc_blank (resolve env t) a m) as (c' & E' & Bl'). destruct (zalloc (resolve env t) m) as [m1 b0]. cbn [fst snd] in *. eapply chase_blank; eassumption. }
    destruct (nth_error m a) as [[| | | | | | | | |[b|]| | | | |]|] eqn:Ea; try (destruct (Z E)). destruct (IH b m E) as (l & C & Ln). exists l. split; [econstructor; eassumption|exact Ln].
Qed.

Lemma ichain_in m t a l : ichain m t a l -> forall b, In b l -> (b < length m)%nat.
Proof. induction 1 as [|t a b l E C IH|a b t l E P C IH]; intros x I; [destruct I|apply IH, I|]. destruct I as [<-|I]; [apply nth_error_Some; rewrite E; discriminate|apply IH, I]. Qed.

Lemma ichain_split m t a l : ichain m t a l -> forall l1 b l2, l = l1 ++ b :: l2 -> leads m (length l1) t a TIface b /\ ichain m TIface b (b :: l2).
Proof.
  induction 1 as [t a|t a b l E C IH|a b t l E P C IH]; intros l1 x l2 H.
  - destruct l1; discriminate.
  - destruct (IH _ _ _ H) as [L R]. split; [econstructor; eassumption|exact R].
  - destruct l1 as [|y l1]; cbn in H; injection H as -> H.
    + subst l2. split; [constructor|econstructor; eassumption].
    + destruct (IH _ _ _ H) as [L R]. split; [econstructor; eassumption|exact R].
Qed.

Lemma chase_trapped m t a : chase (length m) t a m = None -> trapped m t a.
Proof.
  intros E. destruct (chase_ichain _ _ _ _ E) as (l & C & Ln). assert (D : ~ NoDup l).
  { intros N. assert (length l <= length (seq 0 (length m)))%nat; [|rewrite seq_length in *; lia]. apply NoDup_incl_length; [exact N|].
    intros b I. apply in_seq. pose proof (ichain_in _ _ _ _ C b I). lia. }
  apply not_nodup_nat in D as (b & l1 & l2 & l3 & ->). destruct (ichain_split _ _ _ _ C _ _ _ eq_refl) as [L1 C2].
  destruct (ichain_split _ _ _ _ C2 (b :: l2) b l3 eq_refl) as [L2 _]. exists (length l1), b. split; [exact L1|]. exists (length l2). exact L2.
Qed.

Lemma chase_cycle m b : on_cycle m b -> forall h, chase h TIface b m = None.
Proof.
  intros [n L] h. induction h as [h IH] using (well_founded_induction lt_wf). destruct (le_lt_dec (S n) h) as [Hl|Hl]; [|eapply chase_short; eassumption].
  rewrite (chase_leads _ _ _ _ _ _ L h Hl). apply IH. lia.
Qed.

Lemma trapped_chase m t a : trapped m t a -> forall h, chase h t a m = None.
Proof.
  intros (n & b & L & C) h. destruct (le_lt_dec n h) as [Hl|Hl]; [|eapply chase_short; eassumption].
  rewrite (chase_leads _ _ _ _ _ _ L h Hl). apply chase_cycle, C.
Qed.

(** Unmarshal does not return exactly when the way leads back to an interface{}
    variable that it has come by. *)
Theorem C73_never_returns m x j keys jo : asked j keys jo -> readable jo ->
  (forall fuel, UnmarshalX fuel m TIface x j keys = TopFuel) <-> trapped m TIface x.
Proof.
  intros A R. split.
  - intros H. specialize (H (S (length m))). rewrite (asked_top _ _ _ _ _ _ _ A) in H. cbn [resolve] in H. apply chase_trapped.
    destruct (chase (length m) TIface x m) as [[m1 [b|]]|] eqn:C; [exfalso|exfalso|reflexivity].
    + rewrite (outcome_std _ _ TIface _ _ _ _ Logic.I R C) in H. destruct (call_std time_json std_ok m1 b (String_ jo)) as [m2 [e|]]; discriminate H.
    + destruct jo; try destruct R; try (erewrite outcome_end in H by (try exact C; reflexivity); discriminate H). rewrite (outcome_end_dict _ _ _ _ _ _ C) in H. discriminate H.
  - intros T fuel. rewrite (asked_top _ _ _ _ _ _ _ A). destruct fuel as [|f]; [reflexivity|]. apply outcome_none; [exact Logic.I|exact R|]. apply trapped_chase, T.
Qed.

(** From a pointer variable, too, it does not return then. *)
Theorem C73_trapped_pointer m t x j keys jo : asked j keys jo -> readable jo -> trapped m (TPtr t) x ->
  forall fuel, UnmarshalX fuel m (TPtr t) x j keys = TopFuel.
Proof.
  intros A R T fuel. rewrite (asked_top _ _ _ _ _ _ _ A). destruct fuel as [|f]; [reflexivity|]. apply outcome_none; [exact Logic.I|exact R|]. apply trapped_chase, T.
Qed.

(** ** Instances *)

(* var x, p: x = &p, p = &x, p of type *interface{} *)
Theorem C73_ends_refuted : exists m x j, forall fuel, UnmarshalX fuel m TIface x j [] = TopFuel.
Proof.
  exists [VIface (Some (DynPtr 1%nat (TPtr TIface))); VPtr (Some 0%nat)], 0%nat, (JArray []).
  apply (proj2 (C73_never_returns _ _ _ _ _ (asked_list []) Logic.I)). exists 0%nat, 0%nat. split; [constructor|]. exists 0%nat.
  eapply leads_iface; [reflexivity|exact Logic.I|]. eapply leads_ptr; [reflexivity|constructor].
Qed.

(* var n = 1; p = &n; x = &p: n is not what is set *)
Theorem C73_follows_refuted : exists m x n kvs k j, leads m 1 TIface x (TInt (Signed 64)) n /\ nth_error m n = Some (VInt 1) /\ at_path (JDict 0 kvs) [k] j /\ j = JInt 5 /\
  forall fuel, (1 < fuel)%nat -> exists m', UnmarshalX fuel m TIface x (JDict 0 kvs) [k] = TopOk m' /\ nth_error m' n = Some (VInt 1) /\ nth_error m' x = Some (VIface (Some (DynInt 5))).
Proof.
  exists [VIface (Some (DynPtr 1%nat (TPtr (TInt (Signed 64))))); VPtr (Some 2%nat); VInt 1], 0%nat, 2%nat, [(B "k", JInt 5)], (B "k"), (JInt 5).
  assert (L : leads [VIface (Some (DynPtr 1%nat (TPtr (TInt (Signed 64))))); VPtr (Some 2%nat); VInt 1] 1 TIface 0%nat (TInt (Signed 64)) 2%nat)
    by (eapply leads_iface; [reflexivity|exact Logic.I|]; eapply leads_ptr; [reflexivity|constructor]).
  assert (P : at_path (JDict 0 [(B "k", JInt 5)]) [B "k"] (JInt 5)) by (econstructor; [reflexivity|constructor]).
  split; [exact L|]. split; [reflexivity|]. split; [exact P|]. split; [reflexivity|]. intros fuel F.
  pose proof (C73_replaced fuel _ _ _ _ _ _ _ (JInt 5) (DynInt 5) L Logic.I F (asked_keys _ _ _ _ _ P) eq_refl) as E.
  eexists. split; [exact E|]. split; reflexivity.
Qed.
End C73.

(* x = &p, p = &y, y = &q, q a nil pointer to a type with UnmarshalJSON: it is allocated *)
Example C73_example :
  UnmarshalX (fun _ => []) (fun _ _ => []) (fun _ => false) (fun _ => false) (fun _ => false) (fun _ => None) (fun _ => None) (fun _ => true) 3
    [VIface (Some (DynPtr 1%nat (TPtr TIface))); VPtr (Some 2%nat); VIface (Some (DynPtr 3%nat (TPtr TStd))); VPtr None] TIface 0%nat (JArray [JInt 1]) []
  = TopOk [VIface (Some (DynPtr 1%nat (TPtr TIface))); VPtr (Some 2%nat); VIface (Some (DynPtr 3%nat (TPtr TStd))); VPtr (Some 4%nat); VStd (Some (B "[1]"))].
Proof.
  rewrite (C73_allocates_unmarshaler _ _ _ _ _ _ _ _ 3 _ TIface 0%nat 2 3%nat (JArray [JInt 1]) [] (JArray [JInt 1])).
  - reflexivity.
  - exact Logic.I.
  - eapply leads_iface; [reflexivity|exact Logic.I|]. eapply leads_ptr; [reflexivity|]. eapply leads_iface; [reflexivity|exact Logic.I|]. constructor.
  - reflexivity.
  - lia.
  - constructor.
  - exact Logic.I.
Qed.
