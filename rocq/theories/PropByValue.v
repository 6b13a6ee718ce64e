(** Unmarshal into something that is not a pointer, or is nil: C57. *)
From Coq Require Import Lia.
From Verif Require Import Base Strconv StrconvFacts SortedMap Json SpecJson SpecRFC SpecScalar ScalarFacts Heap Gotypes Marshal Access JErrors Unmarshal SpecUnmarshal UnmFacts UnmFrame UnmTotal UnmAlike
  SpecFloatText SpecConvert ConvertFacts FloatSyntax SpecContain PropConvert PropConvert2 PropContain PropUnmarshal2 ByValue SpecByValue RfcFacts Printer.
Open Scope Z_scope.

Section C57.
Context (env : nat -> list (finfo * gty)) (locate : list (finfo * gty) -> bytes -> list nat).
Context (match_us match_eu : bytes -> bool) (to_bool : bytes -> bool)
  (parse_time : bytes -> option bytes) (time_json : bytes -> option (option bytes)) (std_ok : bytes -> bool).
Notation Unmarshal := (Unmarshal env locate match_us match_eu to_bool parse_time time_json std_ok).
Notation Unmarshal_passed := (Unmarshal_passed env locate match_us match_eu to_bool parse_time time_json std_ok).
Notation unm := (unm env locate match_us match_eu to_bool parse_time time_json std_ok).
Notation unm_value := (unm_value env locate match_us match_eu to_bool parse_time time_json std_ok).
Notation amount := (normalize_currency match_us match_eu).
Notation converts := (converts amount to_bool parse_time).
Notation step_scalar := (step_scalar match_us match_eu to_bool parse_time).
Notation start m := {| u_mem := m; u_sess := [] |}.
Notation top := (selected_top env locate match_us match_eu to_bool parse_time time_json std_ok).
Notation gives_up := (gives_up amount).
Notation would_set := (would_set amount).

Lemma passed_top n m x doc keys j : selected doc keys j -> Unmarshal_passed n m x doc keys =
  match x with Nil => match j with JNull | JPtr _ => TopOk m | _ => TopPanic end | Copy t a => outcome (unm_value n (start m) (resolve env t) a j) end.
Proof.
  intros [[N E]|(-> & -> & H)]; unfold ByValue.Unmarshal_passed.
  - destruct keys as [|k keys]; [congruence|]. destruct doc; try discriminate E. cbn [receiver]. rewrite E. reflexivity.
  - destruct doc; try contradiction; reflexivity.
Qed.

(** Null, and a number or boolean by itself, do nothing and give nil, whatever
    is passed. *)
Theorem C57_null : forall n m x doc keys, counts_as_null doc keys -> Unmarshal_passed (S n) m x doc keys = TopOk m.
Proof.
  intros n m x doc keys H. unfold ByValue.Unmarshal_passed.
  assert (E : match keys with [] => ROk (receiver doc) | _ => Get (receiver doc) keys end = ROk JNull).
  { destruct H as [[N E]|(-> & H)]; [|destruct doc; try contradiction; reflexivity].
    destruct keys; [congruence|]. destruct doc; try discriminate E; exact E. }
  rewrite E. destruct x; reflexivity.
Qed.

(** Into nil, or a nil pointer, anything else panics (a reference that keys lead
    to is ignored). *)
Theorem C57_nil : forall n m doc keys j, selected doc keys j ->
  match j with
  | JPtr _ | JNull => Unmarshal_passed n m Nil doc keys = TopOk m
  | _ => Unmarshal_passed n m Nil doc keys = TopPanic
  end.
Proof. intros n m doc keys j Sel. rewrite (passed_top _ _ _ _ _ _ Sel). destruct j; reflexivity. Qed.

(** Keys that lead nowhere give the error of Get. *)
Theorem C57_keys : forall n m x t a doc keys e, Get doc keys = RErr e -> keys <> [] -> match doc with JDict _ _ | JArray _ | JString _ => True | _ => False end ->
  Unmarshal_passed n m x doc keys = TopGet e /\ Unmarshal n m t a doc keys = TopGet e.
Proof.
  intros n m x t a doc keys e E N D. unfold ByValue.Unmarshal_passed, Unmarshal.Unmarshal. destruct keys as [|k keys]; [congruence|].
  destruct doc; try contradiction; cbn [receiver]; rewrite E; split; reflexivity.
Qed.

(** ** Where the value itself would have to be set *)

Lemma no_number_step s t : s <> [] -> match t with TInt _ | TFloat _ => True | _ => False end ->
  no_number amount s t <-> step_scalar (JString s) t = Fail ENumber.
Proof.
  intros N T. split.
  - intros [_ H]. destruct t; try contradiction.
    + destruct s as [|c s]; [congruence|]. set (s0 := c :: s) in *. destruct k as [b|b]; cbn [Unmarshal.step_scalar step_string].
      * destruct (parse_int (amount s0)) as [z|] eqn:P; [|reflexivity]. exfalso. apply parse_int_iff in P as [P1 P2]. apply (H z P1). apply in_int64_spec. exact P2.
      * unfold parse_uint. destruct (parse_digits (amount s0)) as [z|] eqn:P; [|reflexivity]. apply parse_digits_iff in P as [P ->]. specialize (H P).
        destruct (Z.leb_spec (dec_value (amount s0)) uint64_max) as [L|L]; [|reflexivity]. exfalso. unfold uint64_max in L. lia.
    + destruct s as [|c s]; [congruence|]. set (s0 := c :: s) in *. cbn [Unmarshal.step_scalar step_string]. destruct (parse_float F64 (amount s0)) as [g|] eqn:P; [|reflexivity].
      exfalso. apply (H g). apply parse_float_iff. exact P.
  - intros E. split; [exact N|]. destruct t; try contradiction; destruct s as [|c s]; try congruence; set (s0 := c :: s) in *.
    + destruct k as [b|b]; cbn [Unmarshal.step_scalar step_string] in E.
      * intros z Z1 Z2. assert (P : parse_int (amount s0) = Some z) by (apply parse_int_iff; split; [exact Z1|apply in_int64_spec; exact Z2]). rewrite P in E. discriminate E.
      * intros D. unfold parse_uint in E. assert (P : parse_digits (amount s0) = Some (dec_value (amount s0))) by (apply parse_digits_iff; auto). rewrite P in E.
        destruct (Z.leb_spec (dec_value (amount s0)) uint64_max) as [L|L]; [discriminate E|]. unfold uint64_max in L. lia.
    + cbn [Unmarshal.step_scalar step_string] in E. intros g G. apply parse_float_iff in G. rewrite G in E. discriminate E.
Qed.

Definition stops (e : option uerr) : Unmarshal.step := match e with None => Keep | Some e => Fail e end.
Lemma up_step j t e : scalar j -> by_itself t -> match j, t with JString _, TSlice _ => False | _, _ => True end ->
  gives_up t j e <-> step_scalar j t = stops e.
Proof.
  intros Sc T NS. destruct j; try contradiction; cbn [SpecByValue.gives_up].
  1-3: unfold plain_struct; destruct t as [|[w|w]|tw| | | |t'|k t'|t'|t'|t'|nm fs|nm| | | |k|[]| | |]; try contradiction; cbn [Unmarshal.step_scalar step_bool step_int step_float ignored mismatched]; destruct e as [e|]; cbn [stops];
    (split; [intros H; first [reflexivity|exfalso; intuition congruence|f_equal; intuition congruence|intuition congruence]|
      intros H; first [discriminate H|try injection H as <-; intuition (congruence || discriminate)]]).
  assert (NN : forall t0, match t0 with TInt _ | TFloat _ => False | _ => True end -> ~ no_number amount s t0).
  { intros t0 X [_ Y]. destruct t0; contradiction. }
  destruct t as [|w|tw| | | |t'|k t'|t'|t'|t'|nm fs|nm| | | |k|[]| | |]; try contradiction.
  2-3: destruct s as [|c s]; [|set (s0 := c :: s) in *; assert (N : s0 <> []) by discriminate].
  2,4: cbn [Unmarshal.step_scalar step_string ignored mismatched]; try destruct w; destruct e as [e|]; cbn [stops]; split; intros H; try discriminate H; try reflexivity; try (left; split; [exact Logic.I|reflexivity]);
    destruct H as [[_ H]|[[[[]|H] _]|[[H _] _]]]; congruence.
  2: { assert (Y : step_scalar (JString s0) (TInt w) = Fail ENumber \/ exists c, step_scalar (JString s0) (TInt w) = Write c).
       { cbn [Unmarshal.step_scalar step_string]. unfold s0. cbv iota beta. fold s0. destruct w; [destruct (parse_int _)|destruct (parse_uint _)]; eauto. }
       pose proof (no_number_step s0 (TInt w) N Logic.I) as Q. cbn [ignored mismatched]. unfold s0 at 1. split.
       - intros [[[] _]|[[[[]|H] _]|[H ->]]]; [discriminate H|]. apply Q, H.
       - intros E. destruct Y as [Y|[c' Y]]; rewrite Y in E; destruct e; try discriminate E. injection E as <-. right. right. split; [apply Q, Y|reflexivity]. }
  2: { assert (Y : step_scalar (JString s0) (TFloat tw) = Fail ENumber \/ exists c, step_scalar (JString s0) (TFloat tw) = Write c).
       { cbn [Unmarshal.step_scalar step_string]. unfold s0. cbv iota beta. fold s0. destruct (parse_float _ _); eauto. }
       pose proof (no_number_step s0 (TFloat tw) N Logic.I) as Q. cbn [ignored mismatched]. unfold s0 at 1. split.
       - intros [[[] _]|[[[[]|H] _]|[H ->]]]; [discriminate H|]. apply Q, H.
       - intros E. destruct Y as [Y|[c' Y]]; rewrite Y in E; destruct e; try discriminate E. injection E as <-. right. right. split; [apply Q, Y|reflexivity]. }
  all: match goal with |- context [no_number _ _ ?t0] => pose proof (NN t0 Logic.I) as NX end; cbn [Unmarshal.step_scalar step_string ignored mismatched]; destruct e as [e|]; cbn [stops];
    destruct s as [|c s]; (split; [intros H; first [reflexivity|exfalso; intuition congruence|f_equal; intuition congruence|intuition congruence]|
      intros H; first [discriminate H|try injection H as <-; intuition (congruence || discriminate)]]).
Qed.

Lemma value_direct t a m : by_itself t -> indirect_value env t a m = Some (m, None).
Proof. destruct t; try contradiction; reflexivity. Qed.

Lemma value_scalar n m t a j : scalar j -> by_itself t -> match j, t with JString _, TSlice _ => False | _, _ => True end ->
  outcome (unm_value (S n) (start m) t a j) = match step_scalar j t with Keep => TopOk m | Fail e => TopErr m e | _ => TopPanic end.
Proof.
  intros Sc T NS. assert (P : in_place j t = false) by (destruct j; try contradiction; destruct t; try contradiction; reflexivity).
  assert (NI : forall t', step_scalar j t <> Into t') by (intros t' E; destruct j; try contradiction; destruct t as [|[]| | | | | | | | | | | | | | | |[]| | |]; try contradiction; cbn [Unmarshal.step_scalar step_int step_bool step_float step_string] in E;
    repeat match type of E with context [match ?x with _ => _ end] => destruct x; try discriminate E end; discriminate E).
  assert (NF : forall t', step_scalar j t <> First t') by (intros t' E; destruct j; try contradiction; destruct t as [|[]| | | | | | | | | | | | | | | |[]| | |]; try contradiction; cbn [Unmarshal.step_scalar step_int step_bool step_float step_string] in E;
    repeat match type of E with context [match ?x with _ => _ end] => destruct x; try discriminate E end; discriminate E).
  assert (X : outcome (unm_value (S n) (start m) t a j) = outcome (match step_scalar j t with
        | Write c => if in_place j t then UOk (with_mem (start m) (mwrite m a c)) None else UPanic
        | Keep => UOk (start m) None
        | Fail e => UOk (start m) (Some e)
        | _ => UPanic
        end)).
  { destruct (step_scalar j t) as [c| |t'|t'|e|] eqn:E; try (exfalso; eapply NI; reflexivity); try (exfalso; eapply NF; reflexivity);
      destruct j; try contradiction; cbn [ByValue.unm_value]; try rewrite (value_direct t a (u_mem (start m)) T); cbn [u_mem with_mem]; rewrite ?E; try reflexivity; destruct t; reflexivity. }
  rewrite X, P. destruct (step_scalar j t) as [c| |t'|t'|e|] eqn:E; reflexivity.
Qed.

Lemma itself_resolved t : by_itself t -> resolve env t = t. Proof. destruct t; try contradiction; reflexivity. Qed.

(** Nothing to do, or types that do not fit: nil or the error, and nothing has
    changed. *)
Theorem C57_gives_up : forall n m t a doc keys j e, by_itself t -> selected doc keys j -> gives_up t j e ->
  Unmarshal_passed (S n) m (Copy t a) doc keys = match e with None => TopOk m | Some e => TopErr m e end.
Proof.
  intros n m t a doc keys j e T Sel G. rewrite (passed_top _ _ _ _ _ _ Sel), (itself_resolved _ T).
  assert (Scal : scalar j -> outcome (unm_value (S n) (start m) t a j) = match e with None => TopOk m | Some e => TopErr m e end).
  { intros Sc. assert (NS : match j, t with JString _, TSlice _ => False | _, _ => True end).
    { destruct j; try exact Logic.I. destruct t; try exact Logic.I. destruct G as [[G _]|[[[G|G] _]|[[_ G] _]]]; [destruct s; contradiction|contradiction|discriminate G|contradiction]. }
    rewrite value_scalar by assumption. apply up_step in G; try assumption. rewrite G. destruct e; reflexivity. }
  destruct j as [| | | | |js|nid kvs|]; try contradiction G; try (apply Scal; exact Logic.I).
  - destruct G as [[[G|[G|G]] ->]|[(k & t' & -> & N) ->]]; subst; try reflexivity.
    + destruct t; try contradiction; try reflexivity. cbn in G. destruct k; try reflexivity. congruence.
    + cbn [ByValue.unm_value indirect_value u_mem]. destruct (Nat.eqb_spec k (length js)); [contradiction|]. reflexivity.
  - destruct G as [G ->]. destruct t; try contradiction; try reflexivity. cbn in G. destruct k; try reflexivity. congruence.
Qed.

(** Where the value itself would have to be set, Unmarshal panics; so does every
    dict into a struct. *)
Theorem C57_would_set : forall n m t a doc keys j, by_itself t -> selected doc keys j -> would_set m t a j ->
  Unmarshal_passed (S n) m (Copy t a) doc keys = TopPanic.
Proof.
  intros n m t a doc keys j T Sel W. rewrite (passed_top _ _ _ _ _ _ Sel), (itself_resolved _ T).
  assert (Scal : scalar j -> match j, t with JString _, TSlice _ => False | _, _ => True end -> (forall e, ~ gives_up t j e) -> outcome (unm_value (S n) (start m) t a j) = TopPanic).
  { intros Sc NS NG. rewrite value_scalar by assumption. destruct (step_scalar j t) as [c| |t'|t'|e|] eqn:E; try reflexivity.
    - destruct (NG None). apply up_step; assumption.
    - destruct (NG (Some e)). apply up_step; assumption. }
  destruct j as [| | | |s|js|nid kvs|]; try contradiction W; try (apply Scal; [exact Logic.I|exact Logic.I|exact W]).
  - destruct t; try (apply Scal; [exact Logic.I|exact Logic.I|exact W]).
    cbn [ByValue.unm_value indirect_value u_mem with_mem Unmarshal.step_scalar step_string]. cbn [SpecByValue.would_set] in W.
    destruct (nth_error m a) as [[| | | | |[[[|b l] k]|]| | | | | | | | |]|] eqn:E; try reflexivity.
    destruct (Nat.eqb_spec k 1) as [->|N]; [|reflexivity]. destruct W. exists (b :: l). exact E.
  - destruct t; try (exfalso; exact W); cbn [ByValue.unm_value indirect_value u_mem with_mem]; try reflexivity.
    + cbn [SpecByValue.would_set] in W. destruct (nth_error m a) as [[| | | | |[[l k]|]| | | | | | | | |]|] eqn:E; try reflexivity.
      destruct (Nat.eqb_spec k (length js)) as [->|N]; [|reflexivity]. destruct W. exists l. exact E.
    + cbn in W. subst. reflexivity.
  - destruct t; try (exfalso; exact W); cbn [ByValue.unm_value indirect_value u_mem with_mem]; try reflexivity.
    + cbn [SpecByValue.would_set] in W. destruct (nth_error m a) as [[| | | | | | |[d|]| | | | | | |]|] eqn:E; try reflexivity. destruct W. exists d. exact E.
    + cbn [SpecByValue.would_set] in W. destruct (nth_error m a) as [[| | | | | | |[d|]| | | | | | |]|] eqn:E; try reflexivity. destruct W. exists d. exact E.
    + cbn in W. subst. reflexivity.
Qed.

(** ** Where it works *)

Lemma node_alike D (t : gty) a nid (k : ustate -> ures (option uerr)) m :
  (0 < nid -> ~ D nid) -> (forall s s', twins D s s' -> alike D (k s) (k s')) ->
  alike D (k (start m)) (ubind (if 0 <? nid then save_node_value (start m) nid a t else UOk (start m) tt) (fun st _ => k st)).
Proof.
  intros P K. destruct (0 <? nid) eqn:Pn; [|apply K; split; [reflexivity|split; apply quiet_nil]].
  unfold save_node_value. cbn [u_sess find_node u_mem ubind]. apply K. split; [reflexivity|]. split; [apply quiet_nil|].
  cbn [u_sess]. apply quiet_node, P, Z.ltb_lt, Pn.
Qed.

(** A map that is not nil takes a dict as it does by a pointer to it. *)
Theorem C57_map : forall n m t a doc keys nid kvs, references_lead_out (JDict nid kvs) -> selected doc keys (JDict nid kvs) ->
  real_map m a -> Unmarshal_passed (S n) m (Copy (TMap t) a) doc keys = Unmarshal (S n) m (TMap t) a doc keys.
Proof.
  intros n m t a doc keys nid kvs R Sel [d E]. rewrite (passed_top _ _ _ _ _ _ Sel), (top _ _ _ _ _ _ _ Sel). cbn [resolve].
  pose (k := fun st : ustate => let '(m1, d0) := map_data a (u_mem st) in un_members (unm n) (with_mem st m1) (resolve env t) d0 kvs).
  transitivity (outcome (k (start m))).
  { unfold k. cbn [ByValue.unm_value indirect_value u_mem with_mem u_sess]. unfold map_data. rewrite E. reflexivity. }
  apply loose_out in R. apply (outcome_alike (outer_of (JDict nid kvs))). apply (node_alike _ (TMap t) a nid k m); [intros P; apply (proj2 R) with (kvs := kvs); [exact P|constructor]|].
  intros s s' Hs. unfold k. rewrite <- (proj1 Hs). destruct (map_data a (u_mem s)) as [m1 d1].
  apply un_members_alike; [intros; apply unm_alike; eapply loose_member; eassumption|apply twins_with, Hs].
Qed.

(** A map with keys of another type gives the error of the keys, also by itself. *)
Theorem C57_other_map : forall n m t a doc keys nid kvs, selected doc keys (JDict nid kvs) -> real_map m a ->
  Unmarshal_passed (S n) m (Copy (TMapOther t) a) doc keys = TopErr m EMapKey.
Proof.
  intros n m t a doc keys nid kvs Sel [d E]. rewrite (passed_top _ _ _ _ _ _ Sel). cbn [ByValue.unm_value resolve indirect_value u_mem with_mem]. rewrite E. reflexivity.
Qed.

(** A slice takes an array of its own length as it does by a pointer to it, and
    one of length 1 a string. *)
Lemma same_written m a c : nth_error m a = Some c -> mwrite m a c = m.
Proof.
  revert a. induction m as [|x m IH]; intros [|a] E; try discriminate E; cbn in *; [congruence|]. f_equal. apply IH, E.
Qed.

Theorem C57_slice : forall n m t a doc keys js, selected doc keys (JArray js) ->
  has_length m a (length js) -> (forall l, nth_error m a = Some (VSlice (Some (l, length js))) -> (length js <= length l)%nat) ->
  Unmarshal_passed (S n) m (Copy (TSlice t) a) doc keys = Unmarshal (S n) m (TSlice t) a doc keys.
Proof.
  intros n m t a doc keys js Sel [l E] C. rewrite (passed_top _ _ _ _ _ _ Sel), (top _ _ _ _ _ _ _ Sel). cbn [resolve]. specialize (C l E).
  cbn [ByValue.unm_value indirect_value Unmarshal.unm indirect u_mem with_mem u_sess]. unfold resize. rewrite E, Nat.eqb_refl.
  replace (length l <? length js)%nat with false by (symmetry; apply Nat.ltb_ge; exact C). rewrite (same_written _ _ _ E). reflexivity.
Qed.

Theorem C57_string_slice : forall n m t a doc keys s, selected doc keys (JString s) ->
  has_length m a 1 -> (forall l, nth_error m a = Some (VSlice (Some (l, 1%nat))) -> l <> []) ->
  Unmarshal_passed (S n) m (Copy (TSlice t) a) doc keys = Unmarshal (S n) m (TSlice t) a doc keys.
Proof.
  intros n m t a doc keys s Sel [l E] C. rewrite (passed_top _ _ _ _ _ _ Sel), (top _ _ _ _ _ _ _ Sel). cbn [resolve]. specialize (C l E).
  destruct l as [|b l]; [congruence|].
  cbn [ByValue.unm_value indirect_value Unmarshal.unm indirect u_mem with_mem u_sess Unmarshal.step_scalar step_string]. unfold resize. rewrite E. cbn [length Nat.eqb Nat.ltb Nat.leb firstn]. rewrite (same_written _ _ _ E). reflexivity.
Qed.

(** A pointer that a value holds is followed. *)
Theorem C57_pointer : forall n m t a b doc keys j, nth_error m a = Some (VPtr (Some b)) -> references_lead_out j -> j <> JNull -> (forall p, j <> JPtr p) -> selected doc keys j ->
  Unmarshal_passed (S n) m (Copy (TPtr t) a) doc keys = Unmarshal (S n) m (TPtr t) a doc keys.
Proof.
  intros n m t a b doc keys j E R N NP Sel. rewrite (passed_top _ _ _ _ _ _ Sel), (top _ _ _ _ _ _ _ Sel). cbn [resolve].
  assert (I : indirect_value env (TPtr t) a m = Some (indirect env (TPtr t) a m)).
  { cbn [indirect_value indirect]. rewrite E. reflexivity. }
  destruct j as [|bb|z|f w|s|js|nid kvs|p]; [congruence| | | | | | |destruct (NP p); reflexivity].
  1-4: cbn [ByValue.unm_value Unmarshal.unm u_mem]; rewrite I; cbn [indirect]; rewrite E; destruct (indirect env t b m) as [m1 [c|]]; cbn [Unmarshal.step_scalar step_int step_bool step_float step_string in_place]; reflexivity.
  - cbn [ByValue.unm_value Unmarshal.unm u_mem]; rewrite I; destruct (indirect env (TPtr t) a m) as [m1 [c|]]; reflexivity.
  - cbn [ByValue.unm_value u_mem]. rewrite I. apply loose_out in R. apply (outcome_alike (outer_of (JDict nid kvs))). cbn [Unmarshal.unm].
    pose (k := fun st : ustate => let '(m1, u) := indirect env (TPtr t) a (u_mem st) in
        match u with
        | Some b => let '(m2, e) := call_std time_json std_ok m1 b (String_ (JDict nid kvs)) in UOk (with_mem st m2) e
        | None => if is_dict_kind t then match nth_error m1 a with Some (VPtr (Some b)) => unm n (with_mem st m1) (resolve env t) b (JDict nid kvs) | _ => UPanic end
                  else UOk (with_mem st m1) (Some EMismatch)
        end).
    assert (K : alike (outer_of (JDict nid kvs)) (k (start m)) (ubind (if 0 <? nid then save_node_value (start m) nid a (TPtr t) else UOk (start m) tt) (fun st _ => k st))).
    { apply node_alike; [intros P; apply (proj2 R) with (kvs := kvs); [exact P|constructor]|]. intros s s' Hs. unfold k. rewrite <- (proj1 Hs). destruct (indirect env (TPtr t) a (u_mem s)) as [m1 [c|]].
      - destruct (call_std _ _ _ _ _) as [m2 e]. apply alike_ok, twins_with, Hs.
      - destruct (is_dict_kind t); [|apply alike_ok, twins_with, Hs]. destruct (nth_error m1 a) as [[| | | | | | | | |[b'|]| | | | |]|]; try exact Logic.I.
        apply unm_alike; [exact R|apply twins_with, Hs]. }
    unfold k in K. cbn [u_mem] in K.
    match goal with |- alike _ ?x ?y => match type of K with alike _ ?x' ?y' => replace x with x'; [replace y with y'; [exact K|]|] end end.
    + reflexivity.
    + destruct (indirect env (TPtr t) a m) as [m1 [c|]]; reflexivity.
Qed.

(** ** Arrays *)

Lemma value_alike D n : forall j, loose D j -> indifferent D (unm_value n) j.
Proof.
  induction n as [|n IH]; intros j R st st' t a H; [exact Logic.I|].
  assert (Elem : forall t' s s', twins D s s' -> alike D (match nth_error (u_mem s) a with Some (VPtr (Some b)) => unm n s (resolve env t') b j | _ => UPanic end)
                                        (match nth_error (u_mem s') a with Some (VPtr (Some b)) => unm n s' (resolve env t') b j | _ => UPanic end)).
  { intros t' s s' Hs. rewrite <- (proj1 Hs). destruct (nth_error (u_mem s) a) as [[| | | | | | | | |[b'|]| | | | |]|]; try exact Logic.I. apply unm_alike; assumption. }
  pose (std := fun (st : ustate) (k : ustate -> ures (option uerr)) =>
        match indirect_value env t a (u_mem st) with
        | None => UPanic
        | Some (m1, Some b) => let '(m2, e) := call_std time_json std_ok m1 b (String_ j) in UOk (with_mem st m2) e
        | Some (m1, None) => k (with_mem st m1)
        end).
  assert (Std : forall k, (forall s s', twins D s s' -> alike D (k s) (k s')) -> alike D (std st k) (std st' k)).
  { intros k K. unfold std. rewrite <- (proj1 H). destruct (indirect_value env t a (u_mem st)) as [[m1 [b|]]|]; [|apply K, twins_with, H|exact Logic.I].
    destruct (call_std _ _ _ _ _) as [m2 e]. apply alike_ok, twins_with, H. }
  pose (scal := fun (st : ustate) =>
        match step_scalar j t with
        | Write c => if in_place j t then UOk (with_mem st (mwrite (u_mem st) a c)) None else UPanic
        | Keep => UOk st None
        | Into t' => match nth_error (u_mem st) a with Some (VPtr (Some b)) => unm n st (resolve env t') b j | _ => UPanic end
        | First t' =>
            match nth_error (u_mem st) a with
            | Some (VSlice (Some (b :: _, len))) => if Nat.eqb len 1 then unm n st (resolve env t') b j else UPanic
            | _ => UPanic
            end
        | Fail e => UOk st (Some e)
        | Panic => UPanic
        end).
  assert (Scal : forall s s', twins D s s' -> alike D (scal s) (scal s')).
  { intros s s' Hs. unfold scal. destruct (step_scalar j t) as [c| |t'|t'|e|]; try exact Logic.I; try (apply alike_ok, Hs).
    - rewrite <- (proj1 Hs). destruct (in_place j t); [apply alike_ok, twins_with, Hs|exact Logic.I].
    - apply Elem, Hs.
    - rewrite <- (proj1 Hs). destruct (nth_error (u_mem s) a) as [[| | | | |[[[|b l] k]|]| | | | | | | | |]|]; try exact Logic.I.
      destruct (Nat.eqb k 1); [apply unm_alike; assumption|exact Logic.I]. }
  destruct j as [|bb|z|f w|s|js|nid kvs|p].
  - apply alike_ok, H.
  - apply (Std scal Scal).
  - apply (Std scal Scal).
  - apply (Std scal Scal).
  - destruct t; first [apply (Scal st st' H)|apply (Std scal Scal)].
  - cbn [ByValue.unm_value]. rewrite <- (proj1 H). destruct (indirect_value env t a (u_mem st)) as [[m1 [b|]]|]; [destruct (call_std _ _ _ _ _) as [m2 e]; apply alike_ok, twins_with, H| |exact Logic.I].
    generalize (twins_with D st st' m1 H). generalize (with_mem st m1) (with_mem st' m1). intros s s' Hs.
    destruct t; try exact Logic.I; try (apply alike_ok, Hs).
    + rewrite <- (proj1 Hs). destruct (nth_error (u_mem s) a) as [[| | | | |[[l k]|]| | | | | | | | |]|]; try exact Logic.I. destruct (Nat.eqb k (length js)); [|exact Logic.I].
      apply un_elems_alike; [intros; apply unm_alike; eapply loose_elem; eassumption|exact Hs].
    + destruct (negb _); [apply alike_ok, Hs|]. rewrite <- (proj1 Hs). apply un_elems_alike; [intros; apply IH; eapply loose_elem; eassumption|exact Hs].
    + destruct (is_list_kind t); [apply Elem, Hs|apply alike_ok, Hs].
    + destruct k; try exact Logic.I; apply alike_ok, Hs.
    + destruct k; try exact Logic.I; apply alike_ok, Hs.
  - cbn [ByValue.unm_value]. rewrite <- (proj1 H). destruct (indirect_value env t a (u_mem st)) as [[m1 [b|]]|]; [destruct (call_std _ _ _ _ _) as [m2 e]; apply alike_ok, twins_with, H| |exact Logic.I].
    generalize (twins_with D st st' m1 H). generalize (with_mem st m1) (with_mem st' m1). intros s s' Hs.
    destruct t; try exact Logic.I; try (apply alike_ok, Hs).
    + rewrite <- (proj1 Hs). destruct (nth_error (u_mem s) a) as [[| | | | | | |[d|]| | | | | | |]|]; try exact Logic.I.
      apply un_members_alike; [intros; apply unm_alike; eapply loose_member; eassumption|exact Hs].
    + rewrite <- (proj1 Hs). destruct (nth_error (u_mem s) a) as [[| | | | | | |[d|]| | | | | | |]|]; try exact Logic.I. apply alike_ok, Hs.
    + destruct (is_dict_kind t); [apply Elem, Hs|apply alike_ok, Hs].
    + destruct k; try exact Logic.I; apply alike_ok, Hs.
    + destruct k; try exact Logic.I; apply alike_ok, Hs.
    + assert (A : alike D (un_serial env (unm n) s f a (JDict nid kvs)) (un_serial env (unm n) s' f a (JDict nid kvs)))
        by (apply un_serial_alike; [intros x x' t' a' Hx; apply unm_alike; [exact R|exact Hx]|exact Hs]).
      destruct (un_serial env (unm n) s f a (JDict nid kvs)) as [s1 [e1|]| |], (un_serial env (unm n) s' f a (JDict nid kvs)) as [s2 [e2|]| |]; try contradiction; try exact A; try exact Logic.I; destruct A as [_ A]; discriminate A.
  - cbn [ByValue.unm_value]. assert (Dp : D p) by (apply R; constructor).
    destruct (set_pointer_loose D st p a TOther (proj1 (proj2 H)) Dp) as (s & -> & Qs), (set_pointer_loose D st' p a TOther (proj2 (proj2 H)) Dp) as (s' & -> & Qs').
    apply alike_ok. split; [apply H|split; assumption].
Qed.

Notation into0 n t := (fun m b j => Unmarshal_passed n m (Copy t b) (JDict 0 [([], j)]) [[]]).

(** An array takes a JSON array of its own length, element by element; the
    elements cannot be set either. *)
Theorem C57_array : forall n m t a doc keys js l, resolve env t = t -> references_lead_out (JArray js) -> selected doc keys (JArray js) ->
  nth_error m a = Some (VArray l) -> length l = length js ->
  in_turn (into0 n t) m l js (Unmarshal_passed (S n) m (Copy (TArray (length js) t) a) doc keys).
Proof.
  intros n m t a doc keys js l Et R Sel E L. rewrite (passed_top _ _ _ _ _ _ Sel). cbn [resolve ByValue.unm_value indirect_value u_mem with_mem]. rewrite Nat.eqb_refl. cbn [negb].
  unfold elems_of. rewrite E.
  assert (I : forall m b j, into0 n t m b j = outcome (unm_value n (start m) t b j)).
  { intros m0 b j. rewrite (passed_top n m0 (Copy t b) _ _ j), Et; [reflexivity|]. left. split; [discriminate|reflexivity]. }
  assert (G : forall l st, length l = length js -> quiet (outer_of (JArray js)) (u_sess st) -> in_turn (into0 n t) (u_mem st) l js (outcome (un_elems (unm_value n) st t l js))).
  { clear l E L Sel. assert (R' : forall j, In j js -> loose (outer_of (JArray js)) j) by (intros j J; eapply loose_elem; [apply loose_out, R|exact J]). clear R. revert R'. generalize (outer_of (JArray js)). intros D R'.
    induction js as [|j js IH]; intros [|b l] st L Q; try discriminate; [constructor|].
    cbn [un_elems]. assert (A : alike D (unm_value n st t b j) (unm_value n (start (u_mem st)) t b j)) by (apply value_alike; [apply R'; left; reflexivity|apply twins_start, Q]).
    specialize (I (u_mem st) b j).
    destruct (unm_value n st t b j) as [st1 e| |], (unm_value n (start (u_mem st)) t b j) as [st2 e'| |]; try contradiction; cbn [ubind].
    - destruct A as [(Em & Q1 & _) <-]. destruct e as [e|].
      + apply it_stop; [rewrite I; cbn; rewrite Em; reflexivity|intros ?; discriminate].
      + eapply it_next; [rewrite I; cbn; rewrite <- Em; reflexivity|]. apply IH; [intros; apply R'; right; assumption|injection L as L; exact L|exact Q1].
    - apply it_stop; [exact I|intros ?; discriminate].
    - apply it_stop; [exact I|intros ?; discriminate]. }
  apply (G l (with_mem (start m) m)); [exact L|apply quiet_nil].
Qed.

(** A nil pointer in it would have to be set, and so would an interface; only a
    dict is refused by one without a panic. *)
Theorem C57_nil_pointer : forall n m t a doc keys j, nth_error m a = Some (VPtr None) -> (forall p, j <> JPtr p) -> j <> JNull -> selected doc keys j ->
  Unmarshal_passed (S n) m (Copy (TPtr t) a) doc keys = TopPanic.
Proof.
  intros n m t a doc keys j E R N Sel. rewrite (passed_top _ _ _ _ _ _ Sel). cbn [resolve].
  destruct j; try congruence; try (cbn [ByValue.unm_value indirect_value u_mem]; rewrite E; reflexivity).
Qed.
Theorem C57_interface : forall n m t a doc keys j, t = TIface \/ t = TMethods \/ t = TJsonObj -> (forall p, j <> JPtr p) -> j <> JNull -> selected doc keys j ->
  Unmarshal_passed (S n) m (Copy t a) doc keys = match j with JDict _ _ => if is_json_interface t then TopPanic else TopErr m EInterface | _ => TopPanic end.
Proof.
  intros n m t a doc keys j T R N Sel. rewrite (passed_top _ _ _ _ _ _ Sel).
  destruct j; try congruence; destruct T as [->|[->| ->]]; reflexivity.
Qed.
(** An interface with the methods of ISerializable: an error at best. *)
Theorem C57_serializable : forall n m i f a doc keys j m', (forall p, j <> JPtr p) -> j <> JNull -> selected doc keys j ->
  Unmarshal_passed n m (Copy (TSer i f) a) doc keys <> TopOk m'.
Proof.
  intros [|n] m i f a doc keys j m' R N Sel; rewrite (passed_top _ _ _ _ _ _ Sel); [discriminate|].
  destruct j; try congruence; try discriminate; try (specialize (R nid); congruence). cbn [resolve ByValue.unm_value indirect_value u_mem].
  destruct (un_serial _ _ _ f a _) as [st [e|]| |]; discriminate.
Qed.

(** A pointer to JSON in it: a scalar of another kind is written, converted, into
    what it points to; a value of its own kind would replace the pointer. *)
Theorem C57_json_pointer : forall n m k a old doc keys j, nth_error m a = Some (VJson (Some old)) -> selected doc keys j -> ~ of_kind k j ->
  (forall c, converts j (TJsonPtr k) c -> Unmarshal_passed (S n) m (Copy (TJsonPtr k) a) doc keys = TopOk (mwrite m a c)) /\
  (match j with JArray _ | JDict _ _ => True | _ => mismatched_json j k end -> Unmarshal_passed (S n) m (Copy (TJsonPtr k) a) doc keys = TopErr m EMismatch).
Proof.
  intros n m k a old doc keys j E Sel K. rewrite (passed_top _ _ _ _ _ _ Sel). cbn [resolve]. split.
  - intros c C. pose proof (converts_step _ _ _ _ _ _ _ C) as S. pose proof (converts_scalar _ _ _ _ _ _ _ C) as Sc.
    assert (P : in_place j (TJsonPtr k) = true).
    { inversion C; subst; try reflexivity; try (destruct H as [H|H]; inversion H; subst; exfalso; apply K; exact Logic.I); try (destruct H0 as [H0|H0]; discriminate H0); destruct H1; discriminate. }
    destruct j; try contradiction; cbn [ByValue.unm_value indirect_value u_mem]; rewrite E; cbv iota beta; rewrite S, P; reflexivity.
  - intros M. destruct j; try contradiction; try (cbn [ByValue.unm_value indirect_value u_mem]; rewrite E; destruct k; cbn [mismatched_json of_kind] in *; intuition congruence).
    all: cbn [ByValue.unm_value indirect_value u_mem]; rewrite E; destruct k; try reflexivity; exfalso; apply K; exact Logic.I.
Qed.
Theorem C57_json_pointer_panics : forall n m k a doc keys j, nth_error m a = Some (VJson None) \/ of_kind k j ->
  j <> JNull -> (forall p, j <> JPtr p) -> selected doc keys j ->
  Unmarshal_passed (S n) m (Copy (TJsonPtr k) a) doc keys = TopPanic.
Proof.
  intros n m k a doc keys j H N R Sel. rewrite (passed_top _ _ _ _ _ _ Sel). cbn [resolve].
  destruct H as [E|K].
  - destruct j; try congruence; cbn [ByValue.unm_value indirect_value u_mem]; rewrite E; reflexivity.
  - destruct k, j; try contradiction; cbn [ByValue.unm_value indirect_value u_mem];
      (destruct (nth_error m a) as [c|]; [destruct c as [| | | | | | | | | | | |[?|]| |]|]; reflexivity).
Qed.

(** A reference that the keys lead to is passed over. *)
Theorem C57_reference : forall n m t a doc keys p, selected doc keys (JPtr p) -> Unmarshal_passed (S n) m (Copy t a) doc keys = TopOk m.
Proof. intros n m t a doc keys p Sel. rewrite (passed_top _ _ _ _ _ _ Sel). reflexivity. Qed.

(** That was all: *)
Theorem C57_cases : forall m t a j, by_itself t -> j <> JNull -> (forall p, j <> JPtr p) ->
  (exists e, gives_up t j e) \/ would_set m t a j \/ takes m t a j.
Proof.
  intros m t a j T N R.
  assert (Scal : scalar j -> match j, t with JString _, TSlice _ => False | _, _ => True end -> (exists e, gives_up t j e) \/ (forall e, ~ gives_up t j e)).
  { intros Sc NS. assert (D : (exists e, step_scalar j t = stops e) \/ (forall e, step_scalar j t <> stops e)).
    { destruct (step_scalar j t) as [c| |t'|t'|e|]; try (right; intros [?|]; discriminate); left; [exists None|exists (Some e)]; reflexivity. }
    destruct D as [[e D]|D]; [left; exists e; apply up_step; assumption|right; intros e G; apply (D e); apply up_step; assumption]. }
  assert (Len : forall k, has_length m a k \/ ~ has_length m a k).
  { intros k. unfold has_length. destruct (nth_error m a) as [[| | | | |[[l k']|]| | | | | | | | |]|]; try (right; intros [? ?]; discriminate).
    destruct (Nat.eq_dec k' k) as [->|Nk]; [left; eauto|right; intros [l' [= -> ->]]; contradiction]. }
  assert (Map : real_map m a \/ ~ real_map m a).
  { unfold real_map. destruct (nth_error m a) as [[| | | | | | |[d|]| | | | | | |]|]; try (right; intros [? ?]; discriminate). left. eauto. }
  destruct j as [| | | |s|js|nid kvs|p]; [congruence| | | | | | |eapply False_ind, R; reflexivity].
  1-3: destruct (Scal Logic.I Logic.I) as [G|G]; [left; exact G|right; left; exact G].
  - destruct t; try contradiction T; try (destruct (Scal Logic.I Logic.I) as [G|G]; [left; exact G|right; left; exact G]).
    destruct (Len 1%nat) as [G|G]; [right; right|right; left]; exact G.
  - unfold plain_struct. destruct t as [|w|tw| | | |t'|sz t'|t'|t'|t'|nm fs|nm| | | |k|k| | |]; try contradiction T; cbn [SpecByValue.would_set takes SpecByValue.gives_up not_for_arrays].
    all: try (left; exists (Some EMismatch); left; split; [|reflexivity]; first [left; exact Logic.I|right; unfold plain_struct; auto]; fail).
    all: try (right; left; exact Logic.I).
    + destruct (Len (length js)) as [G|G]; [right; right|right; left]; exact G.
    + destruct (Nat.eq_dec sz (length js)) as [->|Nk]; [right; right; reflexivity|]. left. exists (Some EArrayLength). right. split; [eauto|reflexivity].
    + destruct k; try (left; exists (Some EMismatch); left; split; [left; discriminate|reflexivity]). right. left. reflexivity.
  - destruct t as [|w|tw| | | |t'|sz t'|t'|t'|t'|nm fs|nm| | | |k|k| | |]; try contradiction T; cbn [SpecByValue.would_set takes SpecByValue.gives_up not_for_dicts].
    all: try (left; exists (Some EMismatch); split; [exact Logic.I|reflexivity]).
    all: try (right; left; exact Logic.I).
    + destruct Map as [G|G]; [right; right|right; left]; exact G.
    + destruct Map as [G|G]; [right; right|right; left]; exact G.
    + destruct k; try (left; exists (Some EMismatch); split; [discriminate|reflexivity]). right. left. reflexivity.
Qed.

(** ** Nothing else is changed *)

Lemma piece_deep m a p l e : piece m a p -> nth_error m p = Some (VArray l) -> In e l -> piece m a e.
Proof.
  induction 1 as [a|a l' e' x E I _ IH|a l' e' x E I _ IH]; intros E1 I1.
  - eapply piece_elem; [exact E1|exact I1|constructor].
  - eapply piece_elem; [exact E|exact I|]. apply IH; assumption.
  - eapply piece_field; [exact E|exact I|]. apply IH; assumption.
Qed.

Section Changed.
Context (m0 : mem) (a0 : addr) (own : own_copy m0 a0).
Let P (x : addr) : Prop := exists y, held m0 a0 y /\ reaches m0 y x.
Let L := length m0.
Notation inn := (UnmFrame.inn P L).
Notation same := (UnmFrame.same P L).
Notation state_in := (UnmFrame.state_in P L).
Notation framed := (UnmFrame.framed P L).

Definition either (p : addr) : Prop := inn p \/ piece m0 a0 p.
Lemma either_cell st p : same m0 (u_mem st) -> either p -> inn p \/ (piece m0 a0 p /\ nth_error (u_mem st) p = nth_error m0 p).
Proof.
  intros H [I|Pp]; [left; exact I|]. destruct (nth_error m0 p) as [c|] eqn:E.
  - assert (Lp : (p < L)%nat) by (eapply nth_error_lt; exact E).
    assert (D : (exists j, c = VJson (Some j)) \/ ~ exists j, c = VJson (Some j)) by (destruct c as [| | | | | | | | | | | |[j|]| |]; try (right; intros [? ?]; discriminate); left; eauto).
    destruct D as [[j ->]|D].
    + left. left. exists p. split; [|constructor]. exists p. split; [exact Pp|]. right. right. right. split; [reflexivity|]. eauto.
    + right. split; [exact Pp|]. rewrite <- E. apply H; [exact Lp|]. intros (y & Hy & Ry). destruct (own y p Hy Ry Pp) as [j Ej]. apply D. exists j. congruence.
  - left. right. apply nth_error_None. exact E.
Qed.
Lemma held_in p y c : piece m0 a0 p -> nth_error m0 p = Some c -> match c with VSlice _ | VMap _ | VPtr _ => True | _ => False end -> In y (mentions c) -> inn y.
Proof.
  intros Pp E C I. left. exists y. split; [|constructor]. exists p. split; [exact Pp|].
  destruct c as [| | | | |[[l n]|]| |[d|]| |[b|]| | | | |]; try contradiction; cbn [mentions] in I; try contradiction.
  - left. exists l, n. split; [exact E|exact I].
  - right. left. destruct I as [<-|[]]. exact E.
  - right. right. left. destruct I as [<-|[]]. exact E.
Qed.
Lemma either_mentions st p y c : state_in st -> same m0 (u_mem st) -> either p -> nth_error (u_mem st) p = Some c ->
  match c with VSlice _ | VMap _ | VPtr _ => True | _ => False end -> In y (mentions c) -> inn y.
Proof.
  intros H Sm Ep E C I. destruct (either_cell st p Sm Ep) as [Ip|[Pp Eq]]; [eapply closed_cell; [apply H|exact Ip|exact E|exact I]|].
  eapply held_in; [exact Pp|rewrite <- Eq; exact E|exact C|exact I].
Qed.
Lemma either_json st p j : same m0 (u_mem st) -> either p -> nth_error (u_mem st) p = Some (VJson (Some j)) -> inn p.
Proof.
  intros Sm Ep E. destruct (either_cell st p Sm Ep) as [Ip|[Pp Eq]]; [exact Ip|]. left. exists p. split; [|constructor]. exists p. split; [exact Pp|]. right. right. right.
  split; [reflexivity|]. exists j. congruence.
Qed.
Lemma either_elems st p l : state_in st -> same m0 (u_mem st) -> either p -> nth_error (u_mem st) p = Some (VArray l) -> Forall either l.
Proof.
  intros H Sm Ep E. apply Forall_forall. intros y I. destruct (either_cell st p Sm Ep) as [Ip|[Pp Eq]].
  - left. eapply closed_cell; [apply H|exact Ip|exact E|exact I].
  - right. eapply piece_deep; [exact Pp|rewrite <- Eq; exact E|exact I].
Qed.

Lemma same_trans m1 m2 m3 : same m1 m2 -> same m2 m3 -> same m1 m3.
Proof. intros H1 H2 x Lx Nx. rewrite H2, H1 by assumption. reflexivity. Qed.
Let unm_fr := UnmFrame.unm_framed env locate match_us match_eu to_bool parse_time time_json std_ok P L.

Lemma elems_framed n t js : (forall st p j, In j js -> state_in st -> same m0 (u_mem st) -> either p -> framed st (unm_value n st t p j)) ->
  forall l st, state_in st -> same m0 (u_mem st) -> Forall either l -> framed st (un_elems (unm_value n) st t l js).
Proof.
  induction js as [|j js IH]; intros Hj l st H Sm F; [destruct l; apply framed_same, H|]. destruct l as [|b l]; [exact Logic.I|]. inversion F; subst. cbn [un_elems].
  pose proof (Hj st b j (or_introl eq_refl) H Sm ltac:(assumption)) as R. destruct (unm_value n st t b j) as [st1 e| |]; try exact Logic.I. cbn [ubind].
  assert (Sm1 : same m0 (u_mem st1)) by (eapply same_trans; [exact Sm|apply R]).
  destruct e as [e|]; [exact R|]. specialize (IH (fun st p j I => Hj st p j (or_intror I)) l st1 (proj1 R) Sm1 ltac:(assumption)).
  destruct (un_elems (unm_value n) st1 t l js) as [st2 e| |]; try exact Logic.I. split; [apply IH|eapply same_trans; [apply R|apply IH]].
Qed.

Lemma value_framed n : forall st t p j, without_references j -> state_in st -> same m0 (u_mem st) -> either p -> framed st (unm_value n st t p j).
Proof.
  induction n as [|n IH]; intros st t p j R H Sm Ep; [exact Logic.I|].
  assert (Elem : forall t' s, state_in s -> same m0 (u_mem s) -> framed s (match nth_error (u_mem s) p with Some (VPtr (Some b)) => unm n s (resolve env t') b j | _ => UPanic end)).
  { intros t' s Hs Ss. destruct (nth_error (u_mem s) p) as [[| | | | | | | | |[b'|]| | | | |]|] eqn:E; try exact Logic.I. apply unm_fr; [exact Hs|].
    eapply either_mentions; [exact Hs|exact Ss|exact Ep|exact E|exact Logic.I|left; reflexivity]. }
  assert (Std : forall k : ustate -> ures (option uerr), (forall s, state_in s -> same m0 (u_mem s) -> u_mem s = u_mem st \/ (exists t', t = TPtr t') -> framed s (k s)) ->
        framed st (match indirect_value env t p (u_mem st) with
        | None => UPanic
        | Some (m1, Some b) => let '(m2, e) := call_std time_json std_ok m1 b (String_ j) in UOk (with_mem st m2) e
        | Some (m1, None) => k (with_mem st m1)
        end)).
  { intros k K. assert (D : forall m1, m1 = u_mem st -> framed st (k (with_mem st m1))) by (intros m1 ->; apply (K (with_mem st (u_mem st))); [exact H|exact Sm|left; reflexivity]).
    destruct t; try (apply D; reflexivity).
    - cbn [indirect_value]. destruct (nth_error (u_mem st) p) as [[| | | | | | | | |[b|]| | | | |]|] eqn:E; try exact Logic.I.
      assert (Ib : inn b) by (eapply either_mentions; [exact H|exact Sm|exact Ep|exact E|exact Logic.I|left; reflexivity]).
      destruct (indirect_step env P L t (u_mem st) b (proj1 H) Ib) as [S1 I1]. destruct (indirect env t b (u_mem st)) as [m1 [c|]]; cbn [fst snd] in *.
      + pose proof (call_std_step time_json std_ok P L m1 c (String_ j) (proj1 S1) (I1 c eq_refl)) as S2. destruct (call_std _ _ m1 c _) as [m2 e]. cbn [fst] in S2.
        apply framed_step; [exact H|eapply step_trans; eassumption].
      + apply (framed_after P L st m1); [exact S1|]. apply K; [split; [apply S1|apply H]|eapply same_trans; [exact Sm|apply S1]|right; eauto].
    - cbn [indirect_value]. destruct (nth_error (u_mem st) p) as [[| | | | | | | | | | | |[j0|]| |]|]; try exact Logic.I. apply D. reflexivity. }
  assert (JsonIn : forall k, t = TJsonPtr k -> indirect_value env t p (u_mem st) <> None -> inn p).
  { intros k -> N. cbn [indirect_value] in N. destruct (nth_error (u_mem st) p) as [[| | | | | | | | | | | |[j0|]| |]|] eqn:E; try congruence. eapply either_json; [exact Sm|exact Ep|exact E]. }
  pose (scal := fun (st : ustate) =>
        match step_scalar j t with
        | Write c => if in_place j t then UOk (with_mem st (mwrite (u_mem st) p c)) None else UPanic
        | Keep => UOk st None
        | Into t' => match nth_error (u_mem st) p with Some (VPtr (Some b)) => unm n st (resolve env t') b j | _ => UPanic end
        | First t' =>
            match nth_error (u_mem st) p with
            | Some (VSlice (Some (b :: _, len))) => if Nat.eqb len 1 then unm n st (resolve env t') b j else UPanic
            | _ => UPanic
            end
        | Fail e => UOk st (Some e)
        | Panic => UPanic
        end).
  assert (Scal : forall s, state_in s -> same m0 (u_mem s) -> (in_place j t = true -> inn p) -> framed s (scal s)).
  { intros s Hs Ss Ip. unfold scal. destruct (step_scalar j t) as [c| |t'|t'|e|] eqn:St; try exact Logic.I; try (apply framed_same, Hs).
    - destruct (in_place j t); [|exact Logic.I]. apply put_framed; [exact Hs|apply Ip; reflexivity|eapply step_mentions; exact St].
    - apply Elem; assumption.
    - destruct (nth_error (u_mem s) p) as [[| | | | |[[[|b l] k]|]| | | | | | | | |]|] eqn:E; try exact Logic.I.
      destruct (Nat.eqb k 1); [|exact Logic.I]. apply unm_fr; [exact Hs|]. eapply either_mentions; [exact Hs|exact Ss|exact Ep|exact E|exact Logic.I|left; reflexivity]. }
  assert (Place : in_place j t = true -> exists k, t = TJsonPtr k) by (destruct j, t; try discriminate; eauto).
  assert (StdScal : framed st (match indirect_value env t p (u_mem st) with
        | None => UPanic
        | Some (m1, Some b) => let '(m2, e) := call_std time_json std_ok m1 b (String_ j) in UOk (with_mem st m2) e
        | Some (m1, None) => scal (with_mem st m1)
        end)).
  { assert (Ei : indirect_value env t p (u_mem st) = None \/ indirect_value env t p (u_mem st) <> None) by (destruct (indirect_value env t p (u_mem st)); [right; discriminate|left; reflexivity]).
    destruct Ei as [Ei|Ei]; [rewrite Ei; exact Logic.I|]. apply Std. intros s Hs Ss _. apply Scal; [exact Hs|exact Ss|].
    intros Q. destruct (Place Q) as [k Ek]. exact (JsonIn k Ek Ei). }
  destruct j as [|bb|z|f w|s|js|nid kvs|q].
  - apply framed_same, H.
  - exact StdScal.
  - exact StdScal.
  - exact StdScal.
  - destruct t; try exact StdScal.
  - apply Std. intros s Hs Ss _. destruct t; try exact Logic.I; try (apply framed_same, Hs).
    + destruct (nth_error (u_mem s) p) as [[| | | | |[[l k]|]| | | | | | | | |]|] eqn:E; try exact Logic.I. destruct (Nat.eqb k (length js)); [|exact Logic.I].
      apply un_elems_framed; [intros; apply unm_fr; assumption|exact Hs|]. apply Forall_forall. intros y Iy.
      eapply either_mentions; [exact Hs|exact Ss|exact Ep|exact E|exact Logic.I|]. cbn [mentions]. rewrite <- (firstn_skipn k l). apply in_or_app. left. exact Iy.
    + destruct (negb _); [apply framed_same, Hs|]. apply elems_framed; [intros; apply IH; try assumption; intros q Sq; eapply R; econstructor; eassumption|exact Hs|exact Ss|].
      unfold elems_of. destruct (nth_error (u_mem s) p) as [[| | | | | | | | | |l| | | |]|] eqn:E; try constructor; try (eapply either_elems; eassumption).
    + destruct (is_list_kind t); [apply Elem; assumption|apply framed_same, Hs].
    + destruct k; try exact Logic.I; apply framed_same, Hs.
    + destruct k; try exact Logic.I; apply framed_same, Hs.
  - apply Std. intros s Hs Ss _. destruct t; try exact Logic.I; try (apply framed_same, Hs).
    + destruct (nth_error (u_mem s) p) as [[| | | | | | |[d|]| | | | | | |]|] eqn:E; try exact Logic.I.
      apply un_members_framed; [intros; apply unm_fr; assumption|exact Hs|]. eapply either_mentions; [exact Hs|exact Ss|exact Ep|exact E|exact Logic.I|left; reflexivity].
    + destruct (nth_error (u_mem s) p) as [[| | | | | | |[d|]| | | | | | |]|] eqn:E; try exact Logic.I. apply framed_same, Hs.
    + destruct (is_dict_kind t); [apply Elem; assumption|apply framed_same, Hs].
    + destruct k; try exact Logic.I; apply framed_same, Hs.
    + destruct k; try exact Logic.I; apply framed_same, Hs.
    + destruct f as [| |c]; cbn [un_serial]; [apply framed_same, Hs|exact Logic.I|].
      destruct (zalloc_step P L (TStruct c (env c)) (u_mem s) (proj1 Hs)) as [S1 I1]. destruct (zalloc _ (u_mem s)) as [m1 b]. cbn [fst snd] in *.
      assert (F : framed s (unm n (with_mem s m1) (TStruct c (env c)) b (JDict nid kvs))) by (apply (framed_after P L s m1); [exact S1|]; apply unm_fr; [split; [apply S1|apply Hs]|exact I1]).
      destruct (unm n (with_mem s m1) (TStruct c (env c)) b (JDict nid kvs)) as [s1 [e|]| |]; cbn [ubind]; try exact Logic.I. exact F.
  - exfalso. eapply R. constructor.
Qed.
End Changed.

(** Whatever Unmarshal returns: of the variables that there were, it has changed
    only those that the slices, maps and pointers in the value lead to. *)
Theorem C57_unchanged : forall n m t a doc keys j m', selected doc keys j -> without_references j -> own_copy m a ->
  Unmarshal_passed n m (Copy t a) doc keys = TopOk m' \/ (exists e, Unmarshal_passed n m (Copy t a) doc keys = TopErr m' e) ->
  forall x, (x < length m)%nat -> (forall y, held m a y -> ~ reaches m y x) -> nth_error m' x = nth_error m x.
Proof.
  intros n m t a doc keys j m' Sel R O Res x Lx Nx. rewrite (passed_top _ _ _ _ _ _ Sel) in Res.
  pose proof (value_framed m a O n (start m) (resolve env t) a j R) as F.
  assert (F1 : forall st e, unm_value n (start m) (resolve env t) a j = UOk st e -> nth_error (u_mem st) x = nth_error m x).
  { intros st e E. rewrite E in F. apply F; [|intros y _ _; reflexivity|right; constructor|exact Lx|intros (y & Hy & Ry); exact (Nx y Hy Ry)].
    split; [|intros k nv D; discriminate D]. split; [cbn [u_mem]; lia|]. intros y c z Iy Ey Iz. left. destruct Iy as [(h & Hh & Rh)|Iy]; [|apply nth_error_lt in Ey; cbn [u_mem] in Ey; lia].
    exists h. split; [exact Hh|]. eapply reach_step; eassumption. }
  destruct (unm_value n (start m) (resolve env t) a j) as [st [e|]| |]; destruct Res as [Res|[e' Res]]; try discriminate; injection Res as <-; eapply F1; reflexivity.
Qed.
End C57.

(** ** Examples *)

Notation c_by := (c_case ByValue.Unmarshal_passed).
Example C57_null_example : c_by 1%nat d_mem Nil JNull [] = TopOk d_mem /\ c_by 1%nat d_mem (Copy TBool 0%nat) (JBool true) [] = TopOk d_mem.
Proof. split; apply (c_case C57_null 0%nat); right; split; reflexivity || exact Logic.I. Qed.
Example C57_nil_example : c_by 1%nat d_mem Nil d_dict [] = TopPanic.
Proof. apply (c_case C57_nil 1%nat d_mem d_dict [] d_dict), d_here. exact Logic.I. Qed.
Example C57_keys_example : c_by 1%nat d_mem Nil d_dict [B"no"] = TopGet ErrJsonDictKeyNotFound.
Proof. apply (c_case C57_keys 1%nat d_mem Nil TBool 0%nat d_dict [B"no"]); [reflexivity|discriminate|exact Logic.I]. Qed.
Example C57_gives_up_example : c_by 1%nat d_mem (Copy i8 0%nat) (JString (B"x")) [] = TopErr d_mem ENumber /\ c_by 1%nat d_mem (Copy i8 0%nat) (JString []) [] = TopOk d_mem
  /\ c_by 1%nat d_mem (Copy (TArray 2 i8) 7%nat) (JArray [JNull]) [] = TopErr d_mem EArrayLength /\ c_by 1%nat d_mem (Copy i8 0%nat) d_dict [] = TopErr d_mem EMismatch.
Proof.
  split; [|split; [|split]].
  - apply (c_case C57_gives_up 0%nat d_mem i8 0%nat (JString (B"x")) [] (JString (B"x")) (Some ENumber)); [exact Logic.I|apply d_here; exact Logic.I|].
    right. right. split; [|reflexivity]. split; [discriminate|]. intros z Z1 Z2. assert (P := proj2 (parse_int_iff (B"x") z) (conj Z1 (proj2 (in_int64_spec z) Z2))). discriminate P.
  - apply (c_case C57_gives_up 0%nat d_mem i8 0%nat (JString []) [] (JString []) None); [exact Logic.I|apply d_here; exact Logic.I|]. left. split; [exact Logic.I|reflexivity].
  - apply (c_case C57_gives_up 0%nat d_mem (TArray 2 i8) 7%nat (JArray [JNull]) [] (JArray [JNull]) (Some EArrayLength)); [exact Logic.I|apply d_here; exact Logic.I|].
    right. split; [exists 2%nat, i8; split; [reflexivity|discriminate]|reflexivity].
  - apply (c_case C57_gives_up 0%nat d_mem i8 0%nat d_dict [] d_dict (Some EMismatch)); [exact Logic.I|apply d_here; exact Logic.I|]. split; [exact Logic.I|reflexivity].
Qed.
(** {} into a struct by itself panics, "abc" into a string, an array into a
    shorter slice. *)
Example C57_would_set_example : c_by 1%nat d_mem (Copy (TStruct 1 (c_env 1)) 0%nat) (JDict 0 []) [] = TopPanic /\ c_by 1%nat d_mem (Copy TString 0%nat) (JString (B"abc")) [] = TopPanic
  /\ c_by 1%nat d_mem (Copy (TSlice i8) 2%nat) (JArray [JNull]) [] = TopPanic /\ c_by 1%nat d_mem (Copy (TMap i8) 6%nat) (JDict 0 []) [] = TopPanic.
Proof.
  split; [|split; [|split]].
  - apply (c_case C57_would_set 0%nat d_mem _ _ (JDict 0 []) [] (JDict 0 [])); [exact Logic.I|apply d_here; exact Logic.I|exact Logic.I].
  - apply (c_case C57_would_set 0%nat d_mem _ _ (JString (B"abc")) [] (JString (B"abc"))); [exact Logic.I|apply d_here; exact Logic.I|].
    intros e [[[] _]|[[[[]|H] _]|[[_ []] _]]]. discriminate H.
  - apply (c_case C57_would_set 0%nat d_mem _ _ (JArray [JNull]) [] (JArray [JNull])); [exact Logic.I|apply d_here; exact Logic.I|]. intros [l E]. discriminate E.
  - apply (c_case C57_would_set 0%nat d_mem _ _ (JDict 0 []) [] (JDict 0 [])); [exact Logic.I|apply d_here; exact Logic.I|]. intros [l E]. discriminate E.
Qed.
Example C57_map_example : c_by 4%nat d_mem (Copy (TMap i8) 3%nat) d_dict [] = c_unm 4%nat d_mem (TMap i8) 3%nat d_dict [].
Proof. apply (c_case C57_map 3%nat d_mem i8 3%nat d_dict [] 0 [(B"a", JInt 1); (B"old", JString (B"x"))]); [apply without_out, d_refs; reflexivity|apply d_here; exact Logic.I|exists 4%nat; reflexivity]. Qed.
Example C57_slice_example : c_by 4%nat d_mem (Copy (TSlice i8) 2%nat) d_array [] = c_unm 4%nat d_mem (TSlice i8) 2%nat d_array [] /\ exists m', c_by 4%nat d_mem (Copy (TSlice i8) 2%nat) d_array [] = TopOk m' /\ nth_error m' 0%nat = Some (VInt 1) /\ nth_error m' 1%nat = Some (VInt 2).
Proof.
  split; [|eexists; split; [vm_compute; reflexivity|split; reflexivity]].
  apply (c_case C57_slice 3%nat d_mem i8 2%nat d_array [] [JInt 1; JString (B"2")]); [apply d_here; exact Logic.I|eexists; reflexivity|]. intros l E. injection E as <-. cbn. lia.
Qed.
Definition v_mem : mem := [VInt 7; VSlice (Some ([0%nat], 1%nat)); VPtr (Some 0%nat); VPtr (Some 1%nat); VArray [2%nat; 4%nat]; VPtr None; VMap (Some 7%nat); VMapData []].
Example C57_string_slice_example : c_by 4%nat v_mem (Copy (TSlice i8) 1%nat) (JString (B"5")) [] = c_unm 4%nat v_mem (TSlice i8) 1%nat (JString (B"5")) [].
Proof. apply (c_case C57_string_slice 3%nat v_mem i8 1%nat (JString (B"5")) [] (B"5")); [apply d_here; exact Logic.I|eexists; reflexivity|]. intros l E. injection E as <-. discriminate. Qed.
Example C57_pointer_example : c_by 4%nat v_mem (Copy (TPtr (TSlice i8)) 3%nat) (JArray [JInt 1]) [] = c_unm 4%nat v_mem (TPtr (TSlice i8)) 3%nat (JArray [JInt 1]) [].
Proof. apply (c_case C57_pointer 3%nat v_mem (TSlice i8) 3%nat 1%nat (JArray [JInt 1]) [] (JArray [JInt 1])); [reflexivity|apply without_out, d_refs; reflexivity|discriminate|discriminate|apply d_here; exact Logic.I]. Qed.
Example C57_nil_pointer_example : c_by 4%nat v_mem (Copy (TPtr i8) 5%nat) (JArray [JInt 1]) [] = TopPanic.
Proof. apply (c_case C57_nil_pointer 3%nat v_mem i8 5%nat (JArray [JInt 1]) [] (JArray [JInt 1])); [reflexivity|discriminate|discriminate|apply d_here; exact Logic.I]. Qed.
Example C57_other_map_example : c_by 4%nat v_mem (Copy (TMapOther i8) 6%nat) d_dict [] = TopErr v_mem EMapKey.
Proof. apply (c_case C57_other_map 3%nat v_mem i8 6%nat d_dict [] 0 [(B"a", JInt 1); (B"old", JString (B"x"))]); [apply d_here; exact Logic.I|eexists; reflexivity]. Qed.
Example C57_interface_example : c_by 4%nat v_mem (Copy TIface 0%nat) d_dict [] = TopErr v_mem EInterface.
Proof. apply (c_case C57_interface 3%nat v_mem TIface 0%nat d_dict [] d_dict); [left; reflexivity|discriminate|discriminate|apply d_here; exact Logic.I]. Qed.
Definition j_mem : mem := [VJson (Some (JInt 9)); VJson None].
Example C57_json_pointer_example : c_by 4%nat j_mem (Copy (TJsonPtr KString) 0%nat) (JDict 0 [(B"a", JInt (-12))]) [B"a"] = TopOk [VJson (Some (JString (B"-12"))); VJson None]
  /\ c_by 4%nat j_mem (Copy (TJsonPtr KInt) 0%nat) (JDict 0 [(B"a", JFloat (FFin true (21 * 2 ^ 48) (-50)) 64)]) [B"a"] = TopOk [VJson (Some (JInt (-5))); VJson None]
  /\ c_by 4%nat j_mem (Copy (TJsonPtr KInt) 0%nat) (JArray []) [] = TopErr j_mem EMismatch.
Proof.
  split; [|split].
  - refine (proj1 (c_case C57_json_pointer 3%nat j_mem KString 0%nat (JInt 9) (JDict 0 [(B"a", JInt (-12))]) [B"a"] (JInt (-12)) eq_refl _ (fun x => x)) (VJson (Some (JString (B"-12")))) _).
    + left. split; [discriminate|reflexivity].
    + apply cv_int_jstring. apply (format_decimal_text (-12)).
  - refine (proj1 (c_case C57_json_pointer 3%nat j_mem KInt 0%nat (JInt 9) (JDict 0 [(B"a", JFloat (FFin true (21 * 2 ^ 48) (-50)) 64)]) [B"a"] (JFloat (FFin true (21 * 2 ^ 48) (-50)) 64) eq_refl _ (fun x => x)) (VJson (Some (JInt (-5)))) _).
    + left. split; [discriminate|reflexivity].
    + apply cv_float_jint. exists true, (21 * 2 ^ 48), (-50), 5. split; [reflexivity|]. split; [lia|]. split; [split; vm_compute; congruence|]. split; [reflexivity|lia].
  - refine (proj2 (c_case C57_json_pointer 3%nat j_mem KInt 0%nat (JInt 9) (JArray []) [] (JArray []) eq_refl _ (fun x => x)) Logic.I).
    right. repeat split.
Qed.
Example C57_json_pointer_panics_example : c_by 4%nat j_mem (Copy (TJsonPtr KArray) 0%nat) (JArray []) [] = TopPanic /\ c_by 4%nat j_mem (Copy (TJsonPtr KBool) 1%nat) (JArray []) [] = TopPanic.
Proof.
  split; (apply (c_case C57_json_pointer_panics 3%nat _ _ _ _ _ (JArray [])); [|discriminate|discriminate|right; repeat split]); [right; exact Logic.I|left; reflexivity].
Qed.
Example C57_reference_example : c_by 4%nat v_mem (Copy TIface 0%nat) (JDict 0 [(B"a", JPtr 1)]) [B"a"] = TopOk v_mem.
Proof. apply (c_case C57_reference 3%nat v_mem TIface 0%nat (JDict 0 [(B"a", JPtr 1)]) [B"a"] 1). left. split; [discriminate|reflexivity]. Qed.

(** An array of pointers to numbers: they are set. *)
Definition p_mem : mem := [VInt 7; VInt 8; VPtr (Some 0%nat); VPtr (Some 1%nat); VArray [2%nat; 3%nat]; VInt 9].
Example C57_array_example : in_turn (fun m b j => c_by 3%nat m (Copy (TPtr i8) b) (JDict 0 [([], j)]) [[]]) p_mem [2%nat; 3%nat] [JInt 1; JString (B"2")] (c_by 4%nat p_mem (Copy (TArray 2 (TPtr i8)) 4%nat) d_array [])
  /\ exists m', c_by 4%nat p_mem (Copy (TArray 2 (TPtr i8)) 4%nat) d_array [] = TopOk m' /\ nth_error m' 0%nat = Some (VInt 1) /\ nth_error m' 1%nat = Some (VInt 2).
Proof.
  split; [|eexists; split; [vm_compute; reflexivity|split; reflexivity]].
  apply (c_case C57_array 3%nat p_mem (TPtr i8) 4%nat d_array [] [JInt 1; JString (B"2")] [2%nat; 3%nat]); [reflexivity|apply without_out, d_refs; reflexivity|apply d_here; exact Logic.I|reflexivity|reflexivity].
Qed.
Lemma p_piece p : piece p_mem 4%nat p -> p = 4%nat \/ p = 2%nat \/ p = 3%nat.
Proof.
  assert (Q : forall e x, piece p_mem e x -> e = 2%nat \/ e = 3%nat -> x = e).
  { intros e x H [->| ->]; inversion H; subst; try reflexivity; discriminate. }
  inversion 1 as [|l e x E I H1|l e x E I H1]; subst; [left; reflexivity| |discriminate E]. injection E as <-. destruct I as [<-|[<-|[]]]; apply Q in H1; auto.
Qed.
Lemma p_held y : held p_mem 4%nat y -> y = 0%nat \/ y = 1%nat.
Proof.
  intros (p & Pp & H). destruct (p_piece p Pp) as [->|[->| ->]]; destruct H as [(l & k & E & _)|[E|[E|[_ [j E]]]]]; try discriminate E; injection E as <-; auto.
Qed.
Lemma p_reach y x : reaches p_mem y x -> y = 0%nat \/ y = 1%nat -> x = y.
Proof.
  induction 1 as [|x c z _ IH E I]; intros Y; [reflexivity|]. specialize (IH Y). subst x. destruct Y as [->| ->]; injection E as <-; destruct I.
Qed.
Example C57_unchanged_example : exists m', c_by 4%nat p_mem (Copy (TArray 2 (TPtr i8)) 4%nat) d_array [] = TopOk m' /\ nth_error m' 5%nat = Some (VInt 9).
Proof.
  eexists. split; [vm_compute; reflexivity|].
  rewrite (c_case C57_unchanged 4%nat p_mem (TArray 2 (TPtr i8)) 4%nat d_array [] d_array); [reflexivity|apply d_here; exact Logic.I|apply d_refs; reflexivity| |left; vm_compute; reflexivity|cbn; lia|].
  - intros y p Hy Ry Pp. pose proof (p_reach y p Ry (p_held y Hy)) as ->. destruct (p_held y Hy) as [->| ->]; destruct (p_piece _ Pp) as [D|[D|D]]; discriminate D.
  - intros y Hy Ry. pose proof (p_reach y 5%nat Ry (p_held y Hy)) as D. destruct (p_held y Hy) as [->| ->]; discriminate D.
Qed.
