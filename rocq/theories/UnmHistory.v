(** Every unmarshalling is a history of definitions, references and writes. *)
From Verif Require Import Base Strconv SortedMap SortedMapFacts Json SpecJson Heap Gotypes Marshal Access Unmarshal SpecUnmarshal UnmFacts UnmFrame SpecSession.

(** One step, with the functions that Unmarshal calls. *)
Definition step1 (st : ustate) (op : uop) : option ustate :=
  match op with
  | Define n b tb => match save_node_value st n b tb with UOk st' _ => Some st' | _ => None end
  | Refer n a t => match set_pointer_value st n a t with UOk st' _ => Some st' | _ => None end
  | Store a c => Some (with_mem st (mwrite (u_mem st) a c))
  | Grow l => Some (with_mem st (u_mem st ++ l))
  end.
(** A whole history; [None]: it panics. *)
Fixpoint steps (st : ustate) (h : list uop) : option ustate :=
  match h with
  | [] => Some st
  | op :: h' => match step1 st op with Some st' => steps st' h' | None => None end
  end.
Definition start (m : mem) : ustate := {| u_mem := m; u_sess := [] |}.

Lemma steps_app h1 : forall st h2, steps st (h1 ++ h2) = match steps st h1 with Some st1 => steps st1 h2 | None => None end.
Proof. induction h1 as [|op h1 IH]; intros st h2; cbn; [reflexivity|]. destruct (step1 st op); [apply IH|reflexivity]. Qed.

(** ** Any change of memory is a history of writes *)

Lemma nth_error_ext {A} (l l' : list A) : (forall x, nth_error l x = nth_error l' x) -> l = l'.
Proof.
  revert l'. induction l as [|y l IH]; intros [|y' l'] H; [reflexivity|specialize (H 0%nat); discriminate..|].
  f_equal; [specialize (H 0%nat); injection H; auto|]. apply IH. intros x. exact (H (Datatypes.S x)).
Qed.
Lemma stores m' xs : (forall x, In x xs -> (x < length m')%nat) -> forall m s, length m = length m' ->
  exists M, steps {| u_mem := m; u_sess := s |} (map (fun x => Store x (nth x m' VOther)) xs) = Some {| u_mem := M; u_sess := s |} /\
    length M = length m' /\ forall x, nth_error M x = if in_dec Nat.eq_dec x xs then nth_error m' x else nth_error m x.
Proof.
  induction xs as [|y xs IH]; intros Hx m s L; [exists m; repeat split; exact L|]. cbn [map steps step1 with_mem u_mem u_sess].
  destruct (IH (fun x I => Hx x (or_intror I)) (mwrite m y (nth y m' VOther)) s) as (M & E & LM & F); [rewrite mwrite_length; exact L|].
  exists M. split; [exact E|]. split; [exact LM|]. intros x. rewrite F. destruct (in_dec Nat.eq_dec x xs) as [I|N].
  - destruct (in_dec Nat.eq_dec x (y :: xs)) as [_|N]; [reflexivity|]. destruct N. right. exact I.
  - destruct (in_dec Nat.eq_dec x (y :: xs)) as [I|N'].
    + destruct I as [->|I]; [|contradiction]. pose proof (Hx x (or_introl eq_refl)) as Lx. rewrite mwrite_same by lia. symmetry. apply nth_error_nth'. exact Lx.
    + apply mwrite_other. intros ->. apply N'. left. reflexivity.
Qed.

Lemma realise m m' (keep : addr -> bool) : (length m <= length m')%nat ->
  (forall x, (x < length m)%nat -> keep x = true -> nth_error m' x = nth_error m x) ->
  exists h, (forall s, steps {| u_mem := m; u_sess := s |} h = Some {| u_mem := m'; u_sess := s |}) /\
    (forall op, In op h -> match op with Grow _ => True | Store a _ => keep a = false \/ (length m <= a)%nat | _ => False end).
Proof.
  intros L Hk. set (xs := filter (fun x => negb (keep x) || (length m <=? x)%nat) (seq 0 (length m'))).
  assert (Hx : forall x, In x xs -> (x < length m')%nat) by (intros x I; apply filter_In in I as [I _]; apply in_seq in I; lia).
  exists (Grow (skipn (length m) m') :: map (fun x => Store x (nth x m' VOther)) xs). split.
  - intros s. cbn [steps step1 with_mem u_mem u_sess].
    destruct (stores m' xs Hx (m ++ skipn (length m) m') s) as (M & E & LM & F); [rewrite app_length, skipn_length; lia|].
    etransitivity; [exact E|]. do 2 f_equal. apply nth_error_ext. intros x. rewrite F. destruct (in_dec Nat.eq_dec x xs) as [I|N]; [reflexivity|].
    destruct (Nat.lt_ge_cases x (length m)) as [Lx|Lx].
    + rewrite nth_error_app1 by exact Lx. symmetry. apply Hk; [exact Lx|]. destruct (keep x) eqn:Ek; [reflexivity|]. exfalso. apply N. apply filter_In. split; [apply in_seq; lia|rewrite Ek; reflexivity].
    + destruct (Nat.lt_ge_cases x (length m')) as [Lx'|Lx'].
      * exfalso. apply N. apply filter_In. split; [apply in_seq; lia|]. apply Nat.leb_le in Lx. rewrite Lx. apply orb_true_r.
      * rewrite (proj2 (nth_error_None m' x)) by exact Lx'. apply nth_error_None. rewrite app_length, skipn_length. lia.
  - intros op [<-|I]; [exact Logic.I|]. apply in_map_iff in I as (x & <- & I). apply filter_In in I as [_ I]. apply orb_true_iff in I as [I|I]; [left; destruct (keep x); [discriminate|reflexivity]|right; apply Nat.leb_le, I].
Qed.

Section History.
Context (env : nat -> list (finfo * gty)) (locate : list (finfo * gty) -> bytes -> list nat).
Context (match_us match_eu : bytes -> bool) (to_bool : bytes -> bool)
  (parse_time : bytes -> option bytes) (time_json : bytes -> option (option bytes)) (std_ok : bytes -> bool).
Notation unm := (unm env locate match_us match_eu to_bool parse_time time_json std_ok).
(** The document. *)
Context (doc : json).

Definition hist (st st' : ustate) : Prop := exists h, steps st h = Some st' /\ Forall (marked_in doc) h.
Lemma hist_refl st : hist st st.
Proof. exists []. split; [reflexivity|constructor]. Qed.
Lemma hist_trans a b c : hist a b -> hist b c -> hist a c.
Proof. intros (h & E & F) (h' & E' & F'). exists (h ++ h'). rewrite steps_app, E. split; [exact E'|]. apply Forall_app. split; assumption. Qed.
Lemma hist_mem st m' : (length (u_mem st) <= length m')%nat -> hist st (with_mem st m').
Proof.
  intros L. destruct (realise (u_mem st) m' (fun _ => false) L) as (h & E & H); [discriminate|]. exists h. destruct st as [m s]. split; [apply E|].
  apply Forall_forall. intros op I. specialize (H op I). destruct op; try exact Logic.I; destruct H.
Qed.

Definition framed {A} (st : ustate) (r : ures A) : Prop := match r with UOk st' _ => hist st st' | _ => True end.

(** Frames without a frame: memory only grows. *)
Definition any (_ : addr) : Prop := True.
Lemma any_closed m : closed any (length m) m.
Proof. split; [apply le_n|]. intros. left. exact Logic.I. Qed.
Lemma any_inn m a : inn any m a. Proof. left. exact Logic.I. Qed.

Lemma framed_step {A} st m' (x : A) : step any (length (u_mem st)) (u_mem st) m' -> framed st (UOk (with_mem st m') x).
Proof. intros [C _]. apply hist_mem, C. Qed.
Lemma framed_same {A} st (x : A) : framed st (UOk st x).
Proof. apply hist_refl. Qed.
Lemma framed_after {A} st m' (r : ures A) : step any (length (u_mem st)) (u_mem st) m' -> framed (with_mem st m') r -> framed st r.
Proof. intros [C _] R. destruct r as [st' x| |]; try exact Logic.I. eapply hist_trans; [apply hist_mem, C|exact R]. Qed.
Lemma framed_bind {A C} st (r : ures A) (k : ustate -> A -> ures C) :
  framed st r -> (forall st1 x, r = UOk st1 x -> framed st1 (k st1 x)) -> framed st (ubind r k).
Proof.
  intros R Kf. destruct r as [st1 x| |]; try exact Logic.I. cbn [ubind]. specialize (Kf st1 x eq_refl).
  destruct (k st1 x) as [st2 y| |]; try exact Logic.I. eapply hist_trans; eassumption.
Qed.
Lemma step_any m m1 m2 : step any (length m) m m1 -> step any (length m1) m1 m2 -> step any (length m) m m2.
Proof. intros [[L1 _] _] [[L2 _] _]. split; [split; [lia|intros; left; exact Logic.I]|]. intros x _ N. destruct N. exact Logic.I. Qed.

Lemma save_framed st n b tb kvs : 0 < n -> subvalue (JDict n kvs) doc -> framed st (save_node_value st n b tb).
Proof.
  intros Hn Hs. destruct (save_node_value st n b tb) as [st' u| |] eqn:E; try exact Logic.I. exists [Define n b tb]. cbn. rewrite E. split; [reflexivity|].
  constructor; [exists kvs; split; assumption|constructor].
Qed.
Lemma refer_framed st n a t : subvalue (JPtr n) doc -> framed st (set_pointer_value st n a t).
Proof.
  intros Hs. destruct (set_pointer_value st n a t) as [st' u| |] eqn:E; try exact Logic.I. exists [Refer n a t]. cbn. rewrite E. split; [reflexivity|].
  constructor; [exact Hs|constructor].
Qed.

Lemma sub_trans (x y z : json) : subvalue x y -> subvalue y z -> subvalue x z.
Proof. intros H1 H2. induction H2; [exact H1|econstructor; eassumption..]. Qed.
Lemma doc_elem l j : subvalue (JArray l) doc -> In j l -> subvalue j doc.
Proof. intros H I. eapply sub_trans; [|exact H]. econstructor; [exact I|constructor]. Qed.
Lemma doc_member n kvs k j : subvalue (JDict n kvs) doc -> In (k, j) kvs -> subvalue j doc.
Proof. intros H I. eapply sub_trans; [|exact H]. econstructor; [exact I|constructor]. Qed.

Section Loops.
Context (un : ustate -> gty -> addr -> json -> ures (option uerr)).
Hypothesis Hun : forall st t a j, subvalue j doc -> framed st (un st t a j).

Lemma un_elems_framed t js : (forall j, In j js -> subvalue j doc) -> forall l st, framed st (un_elems un st t l js).
Proof.
  induction js as [|j js IH]; intros Hj l st; [destruct l; apply framed_same|]. destruct l as [|a l]; [exact Logic.I|]. cbn [un_elems].
  apply framed_bind; [apply Hun, Hj; left; reflexivity|]. intros st1 [e|] _; [apply framed_same|apply IH; intros; apply Hj; right; assumption].
Qed.

Lemma un_members_framed t kvs : (forall k j, In (k, j) kvs -> subvalue j doc) -> forall d st, framed st (un_members un st t d kvs).
Proof.
  induction kvs as [|[k j] kvs IH]; intros Hj d st; [apply framed_same|]. cbn [un_members].
  destruct (zalloc_step any (length (u_mem st)) t (u_mem st) (any_closed _)) as [S1 I1]. destruct (zalloc t (u_mem st)) as [m1 tmp]. cbn [fst snd] in *.
  apply (framed_after st m1); [exact S1|]. apply framed_bind; [eapply Hun, Hj; left; reflexivity|].
  intros st1 [e|] _; [apply framed_same|]. destruct (vcopy_step any (length (u_mem st1)) t (u_mem st1) tmp (any_closed _) (any_inn _ _)) as [S2 I2]. destruct (vcopy t tmp (u_mem st1)) as [m2 b]. cbn [fst snd] in *.
  match goal with |- framed st1 (un_members un (with_mem st1 ?m3) t d kvs) => assert (S3 : step any (length m2) m2 m3) end.
  { destruct (nth_error m2 d) as [c|] eqn:E; [destruct c|]; try apply step_refl, any_closed. apply write_step; [apply any_closed|apply any_inn|intros; apply any_inn]. }
  eapply framed_after; [eapply step_any; [exact S2|exact S3]|]. apply IH. intros; eapply Hj; right; eassumption.
Qed.

Lemma set_field_framed fs l j : subvalue j doc -> forall fuel key visited st, framed st (set_field locate un fuel st visited fs l key j).
Proof.
  intros Hj. induction fuel as [|fuel IH]; intros key visited st; [exact Logic.I|]. cbn [set_field]. destruct (in_strings key visited); [apply framed_same|].
  generalize (key :: visited). revert st. induction (locate fs key) as [|i idx IHi]; intros st v; [apply framed_same|].
  destruct (nth_error fs i) as [[info t]|] eqn:Ei; [|exact Logic.I]. destruct (nth_error l i) as [a|] eqn:Ea; [|exact Logic.I].
  apply framed_bind; [apply Hun, Hj|]. intros st1 [e|] _; [apply framed_same|]. destruct (fi_deprecated_by info) as [other|] eqn:D; [|apply IHi].
  apply framed_bind; [apply IH|]. intros st2 [v2 [e|]] _; [apply framed_same|]. apply IHi.
Qed.

Lemma un_fields_framed fs l kvs : (forall k j, In (k, j) kvs -> subvalue j doc) -> forall st errs, framed st (un_fields locate un st fs l kvs errs).
Proof.
  induction kvs as [|[k j] kvs IH]; intros Hj st errs; [apply framed_same|]. cbn [un_fields].
  apply framed_bind; [apply set_field_framed, (Hj k); left; reflexivity|]. intros st1 r _. apply IH. intros; eapply Hj; right; eassumption.
Qed.

Lemma un_serial_framed f a j : subvalue j doc -> forall st, framed st (un_serial env un st f a j).
Proof.
  intros Hj st. destruct f as [| |name]; cbn [un_serial]; [apply framed_same|exact Logic.I|].
  destruct (zalloc_step any (length (u_mem st)) (TStruct name (env name)) (u_mem st) (any_closed _)) as [S1 I1]. destruct (zalloc _ (u_mem st)) as [m1 b]. cbn [fst snd] in *.
  apply (framed_after st m1); [exact S1|]. apply framed_bind; [apply Hun, Hj|].
  intros st1 [e|] _; [apply framed_same|]. apply framed_step. apply write_step; [apply any_closed|apply any_inn|intros; apply any_inn].
Qed.
End Loops.

Lemma std_framed t a j k st : (forall st', framed st' (k st')) ->
  framed st (let '(m1, d) := indirect env t a (u_mem st) in
             match d with
             | Some b => let '(m2, e) := call_std time_json std_ok m1 b (Printer.String_ j) in UOk (with_mem st m2) e
             | None => k (with_mem st m1)
             end).
Proof.
  intros Hk. destruct (indirect_step env any (length (u_mem st)) t (u_mem st) a (any_closed _) (any_inn _ _)) as [S1 _]. destruct (indirect env t a (u_mem st)) as [m1 d]. cbn [fst snd] in *.
  destruct d as [b|].
  - pose proof (call_std_step time_json std_ok any (length m1) m1 b (Printer.String_ j) (any_closed _) (any_inn _ _)) as S2. destruct (call_std _ _ m1 b _) as [m2 e]. cbn [fst] in S2.
    apply framed_step. eapply step_any; eassumption.
  - apply (framed_after st m1); [exact S1|]. apply Hk.
Qed.

Lemma elem_framed n t a j st : (forall st t a j, subvalue j doc -> framed st (unm n st t a j)) -> subvalue j doc ->
  framed st (match nth_error (u_mem st) a with Some (VPtr (Some b)) => unm n st t b j | _ => UPanic end).
Proof.
  intros IH H. destruct (nth_error (u_mem st) a) as [c|] eqn:E; [destruct c as [| | | | | | | | |[b|]| | | | |]|]; try exact Logic.I. apply IH; exact H.
Qed.

Lemma put_framed st a c : framed st (UOk (with_mem st (mwrite (u_mem st) a c)) (@None uerr)).
Proof. apply framed_step. apply write_step; [apply any_closed|apply any_inn|intros; apply any_inn]. Qed.

Lemma unm_framed n : forall st t a j, subvalue j doc -> framed st (unm n st t a j).
Proof.
  induction n as [|n IH]; intros st t a j H; [exact Logic.I|].
  assert (Scal : forall st', framed st' (match step_scalar match_us match_eu to_bool parse_time j t with
        | Write c => UOk (with_mem st' (mwrite (u_mem st') a c)) None
        | Keep => UOk st' None
        | Into t' => match nth_error (u_mem st') a with
                     | Some (VPtr (Some b)) => unm n st' (resolve env t') b j
                     | _ => UPanic
                     end
        | First t' =>
            let '(m1, l) := resize 1 (resolve env t') a (u_mem st') false in
            match l with
            | b :: _ => unm n (with_mem st' m1) (resolve env t') b j
            | [] => UPanic
            end
        | Fail e => UOk st' (Some e)
        | Panic => UPanic
        end)).
  { intros st'. destruct (step_scalar _ _ _ _ j t) as [c| |t'|t'|e|] eqn:E; try exact Logic.I; try apply framed_same.
    - apply put_framed.
    - apply elem_framed; assumption.
    - destruct (resize_step any (length (u_mem st')) 1 (resolve env t') false (u_mem st') a (any_closed _) (any_inn _ _)) as [S1 I1]. destruct (resize 1 (resolve env t') a (u_mem st') false) as [m1 l]. cbn [fst snd] in *.
      destruct l as [|b l]; [exact Logic.I|]. apply (framed_after st' m1); [exact S1|]. apply IH, H. }
  cbn [Unmarshal.unm]. destruct j.
  - apply framed_step. apply set_zero_step; [apply any_closed|apply any_inn].
  - apply (std_framed t a _ (fun st' => _) st Scal).
  - apply (std_framed t a _ (fun st' => _) st Scal).
  - apply (std_framed t a _ (fun st' => _) st Scal).
  - pose proof (std_framed t a (JString s) (fun st' => _) st Scal) as Z. specialize (Scal st). destruct t; first [exact Scal|exact Z].
  - refine (std_framed t a (JArray l) (fun st => match t with
            | TJsonVal KArray =>
                match nth_error (u_mem st) a with
                | Some (VJson (Some (JArray old))) => UOk (with_mem st (mwrite (u_mem st) a (VJson (Some (JArray (array_add old l)))))) None
                | _ => UPanic
                end
            | TJsonPtr KArray | TJsonObj => UOk (with_mem st (mwrite (u_mem st) a (VJson (Some (JArray l))))) None
            | TJsonVal _ | TJsonPtr _ => UOk st (Some EMismatch)
            | TString | TTri => UOk (with_mem st (mwrite (u_mem st) a (VString (Printer.String_ (JArray l))))) None
            | TPtr t' => if is_list_kind t' then match nth_error (u_mem st) a with
                                            | Some (VPtr (Some b)) => unm n st (resolve env t') b (JArray l)
                                            | _ => UPanic
                                            end else UOk st (Some EMismatch)
            | TIface => UOk (with_mem st (mwrite (u_mem st) a (VIface (Some (DynJsons l))))) None
            | TMethods | TSer _ _ => UPanic
            | TArray size t' =>
                if negb (Nat.eqb size (length l)) then UOk st (Some EArrayLength)
                else un_elems (unm n) st t' (elems_of a (u_mem st)) l
            | TSlice t' =>
                let '(m1, vars) := resize (length l) (resolve env t') a (u_mem st) true in
                un_elems (unm n) (with_mem st m1) (resolve env t') vars l
            | _ => UOk st (Some EMismatch)
            end) st _).
    clear Scal. intros st'. destruct t; try exact Logic.I; try apply framed_same; try apply put_framed.
    + destruct (resize_step any (length (u_mem st')) (length l) (resolve env t) true (u_mem st') a (any_closed _) (any_inn _ _)) as [S1 I1]. destruct (resize (length l) (resolve env t) a (u_mem st') true) as [m1 vars]. cbn [fst snd] in *.
      apply (framed_after st' m1); [exact S1|]. apply un_elems_framed; [exact IH|intros; eapply doc_elem; eassumption].
    + destruct (negb _); [apply framed_same|]. apply un_elems_framed; [exact IH|intros; eapply doc_elem; eassumption].
    + destruct (is_list_kind t); [apply elem_framed; assumption|apply framed_same].
    + destruct k; try apply framed_same. apply put_framed.
    + destruct k; try apply framed_same. destruct (nth_error (u_mem st') a) as [c|]; [destruct c as [| | | | | | | | | | | |[j|]| |]|]; try exact Logic.I.
      destruct j; try exact Logic.I. apply put_framed.
  - apply framed_bind; [destruct (0 <? nid) eqn:E0; [eapply save_framed; [apply Z.ltb_lt, E0|exact H]|apply framed_same]|]. clear Scal. intros st1 _ _.
    refine (std_framed t a (JDict nid kvs) (fun st => match t with
            | TJsonVal KDict =>
                match nth_error (u_mem st) a with
                | Some (VJson (Some (JDict id old))) => UOk (with_mem st (mwrite (u_mem st) a (VJson (Some (JDict id (dict_update old (JDict nid kvs))))))) None
                | _ => UPanic
                end
            | TJsonPtr KDict | TJsonObj => UOk (with_mem st (mwrite (u_mem st) a (VJson (Some (JDict nid kvs))))) None
            | TJsonVal _ | TJsonPtr _ => UOk st (Some EMismatch)
            | TString | TTri => UOk (with_mem st (mwrite (u_mem st) a (VString (Printer.String_ (JDict nid kvs))))) None
            | TMap t' =>
                let '(m1, d) := map_data a (u_mem st) in
                un_members (unm n) (with_mem st m1) (resolve env t') d kvs
            | TMapOther _ => let '(m1, _) := map_data a (u_mem st) in UOk (with_mem st m1) (Some EMapKey)
            | TStruct _ fs => un_fields locate (unm n) st fs (fields_of a (u_mem st)) kvs []
            | TIface | TMethods => UOk st (Some EInterface)
            | TSer _ f => un_serial env (unm n) st f a (JDict nid kvs)
            | TPtr t' => if is_dict_kind t' then match nth_error (u_mem st) a with
                                            | Some (VPtr (Some b)) => unm n st (resolve env t') b (JDict nid kvs)
                                            | _ => UPanic
                                            end else UOk st (Some EMismatch)
            | _ => UOk st (Some EMismatch)
            end) st1 _).
    intros st'. destruct t; try exact Logic.I; try apply framed_same; try apply put_framed.
    + destruct (map_data_step any (length (u_mem st')) (u_mem st') a (any_closed _) (any_inn _ _)) as [S1 I1]. destruct (map_data a (u_mem st')) as [m1 d]. cbn [fst snd] in *.
      apply (framed_after st' m1); [exact S1|]. apply un_members_framed; [exact IH|intros; eapply doc_member; eassumption].
    + destruct (map_data_step any (length (u_mem st')) (u_mem st') a (any_closed _) (any_inn _ _)) as [S1 I1]. destruct (map_data a (u_mem st')) as [m1 d]. cbn [fst snd] in *. apply framed_step, S1.
    + destruct (is_dict_kind t); [apply elem_framed; assumption|apply framed_same].
    + apply un_fields_framed; [exact IH|intros; eapply doc_member; eassumption].
    + destruct k; try apply framed_same. apply put_framed.
    + destruct k; try apply framed_same. destruct (nth_error (u_mem st') a) as [c|]; [destruct c as [| | | | | | | | | | | |[j|]| |]|]; try exact Logic.I.
      destruct j; try exact Logic.I. apply put_framed.
    + apply un_serial_framed; [exact IH|assumption].
  - apply refer_framed, H.
Qed.
End History.
