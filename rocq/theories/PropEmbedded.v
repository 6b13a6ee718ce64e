(** Embedded struct pointers: C60. *)
From Coq Require Import Lia.
From Verif Require Import Base Strconv SortedMap Json SpecJson Heap Gotypes Marshal Access JErrors Unmarshal SpecUnmarshal UnmFacts UnmFrame SpecSame UnmSame
  Embedded EmbFacts SpecEmbedded PropConvert2 PropSame.
Open Scope Z_scope.

Section C60.
Context (env : nat -> list (finfo * gty)) (locate : list (finfo * gty) -> bytes -> list nat).
Context (match_us match_eu : bytes -> bool) (to_bool : bytes -> bool)
  (parse_time : bytes -> option bytes) (time_json : bytes -> option (option bytes)) (std_ok : bytes -> bool).
Notation unm := (unm env locate match_us match_eu to_bool parse_time time_json std_ok).
Notation Unmarshal := (Unmarshal env locate match_us match_eu to_bool parse_time time_json std_ok).
Notation Unmarshal_embedded := (Unmarshal_embedded env locate match_us match_eu to_bool parse_time time_json std_ok).

Section At.
Context (m : mem) (a : addr) (ps : list parent) (l : list addr).
Hypothesis HA : all_exist m.
Hypothesis Hl : nth_error m a = Some (VStruct l).
Hypothesis HP : pointers_apart m a ps.
Notation S := (reaches m a).
Notation L := (Datatypes.length m).
Let st0 := {| u_mem := m; u_sess := [] |}.

Lemma e_lt : (a < L)%nat. Proof. eapply nth_error_lt. exact Hl. Qed.
Lemma e_closed : closed S L m.
Proof. split; [lia|]. intros y c z Iy Ey Iz. left. destruct Iy as [Iy|Iy]; [eapply reach_step; eassumption|]. apply nth_error_lt in Ey. lia. Qed.
Lemma e_in : state_in S L st0.
Proof. split; [exact e_closed|]. intros k nv D. discriminate D. Qed.
Lemma e_out i : outside S L (nth i ps None).
Proof.
  destruct (nth_error ps i) as [p|] eqn:E.
  - rewrite (nth_error_nth _ _ _ E). destruct p as [[f b]|]; [|exact Logic.I]. destruct (HP i f b E) as [H1 H2]. intros [H|H]; [exact (H2 H)|lia].
  - rewrite nth_overflow by (apply nth_error_None, E). exact Logic.I.
Qed.
Lemma e_fields : Forall (inn S L) l.
Proof. apply Forall_forall. intros y Iy. left. eapply reach_step; [apply reach_refl|exact Hl|exact Iy]. Qed.
Lemma e_itself : kept S L (itself m a) st0 st0.
Proof.
  split; [split; [|intros n; exact Logic.I]|split; [|exact e_in]].
  - apply (itself_corresponds m m a); [|intros; reflexivity]. intros x. induction 1; [exact e_lt|eapply HA; eassumption].
  - intros x y [<- Rx]. left. exact Rx.
Qed.

(** The first step *)
Lemma e_save nid t : exists st, (if 0 <? nid then save_node_value st0 nid a t else UOk st0 tt) = UOk st tt /\ u_mem st = m /\ state_in S L st /\
  matched (itself m a) st st.
Proof.
  destruct (0 <? nid).
  - cbn [save_node_value find_node u_sess st0]. eexists. split; [reflexivity|]. split; [reflexivity|].
    pose proof (save_framed S L st0 nid a t e_in (or_introl (reach_refl _ _))) as F. destruct F as [F _]. split; [exact F|].
    split; [apply e_itself|]. cbn [u_sess]. apply put_like; [intros n; exact Logic.I|]. split; [|constructor]. split; [split; [reflexivity|apply reach_refl]|reflexivity].
  - exists st0. split; [reflexivity|]. split; [reflexivity|]. split; [exact e_in|apply e_itself].
Qed.

Lemma e_run n name fs nid kvs : exists st, u_mem st = m /\ state_in S L st /\ matched (itself m a) st st /\
  Unmarshal_embedded n m name fs ps a nid kvs = match un_fields_p locate (unm n) st fs l ps kvs [] with
    | UOk st None => TopOk (u_mem st) | UOk st (Some e) => TopErr (u_mem st) e | UPanic => TopPanic | UFuel => TopFuel end /\
  Unmarshal (Datatypes.S n) m (TStruct name fs) a (JDict nid kvs) [] = match un_fields locate (unm n) st fs l kvs [] with
    | UOk st None => TopOk (u_mem st) | UOk st (Some e) => TopErr (u_mem st) e | UPanic => TopPanic | UFuel => TopFuel end.
Proof.
  destruct (e_save nid (TStruct name fs)) as (st & E & Em & I & M). exists st. split; [exact Em|]. split; [exact I|]. split; [exact M|].
  unfold Embedded.Unmarshal_embedded, Unmarshal.Unmarshal. cbn [receiver resolve Unmarshal.unm]. fold st0. rewrite E. cbn [ubind indirect].
  assert (Ef : fields_of a (u_mem st) = l) by (unfold fields_of; rewrite Em, Hl; reflexivity). rewrite Ef.
  split; [reflexivity|]. destruct st as [mm ss]. cbn [with_mem u_mem u_sess] in *. rewrite Ef. reflexivity.
Qed.
End At.

(** Whether the embedded pointers are nil or not makes no difference to what
    happens to the fields: the outcome, a possible error included, is that for
    a struct that has all the fields itself. *)
Theorem C60_as_if_there : forall n m name fs ps a l nid kvs, all_exist m -> nth_error m a = Some (VStruct l) -> pointers_apart m a ps ->
  same_outcome (itself m a) (Unmarshal_embedded n m name fs ps a nid kvs) (Unmarshal (S n) m (TStruct name fs) a (JDict nid kvs) []).
Proof.
  intros n m name fs ps a l nid kvs HA Hl HP. destruct (e_run m a ps l HA Hl n name fs nid kvs) as (st & Em & I & M & -> & ->).
  pose proof (un_fields_kept locate (reaches m a) (length m) (unm n)
    (unm_same env locate match_us match_eu to_bool parse_time time_json std_ok n)
    (unm_framed env locate match_us match_eu to_bool parse_time time_json std_ok (reaches m a) (length m) n)
    fs ps (e_out m a ps HP) kvs (itself m a) l l st st []) as K.
  assert (KK : kept (reaches m a) (length m) (itself m a) st st) by (split; [exact M|split; [intros x y [<- Rx]; left; exact Rx|exact I]]).
  specialize (K KK). assert (F : Forall2 (itself m a) l l).
  { apply F2_diag. intros y Iy. split; [reflexivity|]. eapply reach_step; [apply reach_refl|exact Hl|exact Iy]. }
  specialize (K F). destruct (un_fields_p _ _ _ _ _ _ _ _) as [s e| |], (un_fields _ _ _ _ _ _ _) as [s' e'| |]; try contradiction K; try exact Logic.I.
  destruct K as [<- (R' & E & (M' & _) & _)]. destruct e; [split; [reflexivity|]|]; exists R'; (split; [exact E|exact M']).
Qed.

Lemma chosen_nth (ps : list parent) f b i : pointer_of ps f b -> chosen ps f i <-> exists b', nth_error ps i = Some (Some (f, b')).
Proof.
  intros _. unfold chosen. split; intros [b' E]; exists b'.
  - destruct (nth_error ps i) as [p|] eqn:Ei; [rewrite (nth_error_nth _ _ _ Ei) in E; rewrite E; reflexivity|]. rewrite nth_overflow in E by (apply nth_error_None, Ei). discriminate E.
  - apply (nth_error_nth _ _ None) in E. exact E.
Qed.
Lemma asked_chosen fs ps kvs f b : pointer_of ps f b ->
  asked_for locate fs ps kvs f <-> exists k j i, In (k, j) kvs /\ selects locate fs k i /\ chosen ps f i.
Proof.
  intros P. split.
  - intros (k & j & i & b' & H1 & H2 & H3). exists k, j, i. split; [exact H1|]. split; [exact H2|]. apply (chosen_nth _ _ _ _ P). exists b'. exact H3.
  - intros (k & j & i & H1 & H2 & H3). apply (chosen_nth _ _ _ _ P) in H3 as [b' H3]. exists k, j, i, b'. split; [exact H1|]. split; assumption.
Qed.

Lemma e_apart m a ps f b : pointers_apart m a ps -> pointer_of ps f b -> ~ inn (reaches m a) (length m) f /\ forall i b', nth i ps None = Some (f, b') -> b' = b.
Proof.
  intros HP P. split.
  - destruct P as [[i Ei] _]. destruct (HP i f b Ei) as [H1 H2]. intros [H|H]; [exact (H2 H)|lia].
  - intros i b' Ei. destruct (nth_error ps i) as [p|] eqn:En; [rewrite (nth_error_nth _ _ _ En) in Ei; subst p; exact (proj2 P i b' En)|].
    rewrite nth_overflow in Ei by (apply nth_error_None, En). discriminate Ei.
Qed.

Lemma e_pointer n m name fs ps a l nid kvs f b : all_exist m -> nth_error m a = Some (VStruct l) -> pointers_apart m a ps ->
  pointer_of ps f b -> nth_error m f = Some (VPtr None) ->
  match Unmarshal_embedded n m name fs ps a nid kvs with
  | TopOk m' => (nth_error m' f = Some (VPtr None) /\ ~ asked_for locate fs ps kvs f) \/ (nth_error m' f = Some (VPtr (Some b)) /\ asked_for locate fs ps kvs f)
  | TopErr m' _ => nth_error m' f = Some (VPtr None) \/ (nth_error m' f = Some (VPtr (Some b)) /\ asked_for locate fs ps kvs f)
  | _ => True
  end.
Proof.
  intros HA Hl HP P Ef. destruct (e_run m a ps l HA Hl n name fs nid kvs) as (st & Em & I & M & -> & _).
  destruct (un_fields_p _ _ _ _ _ _ _ _) as [s e| |] eqn:E; try exact Logic.I.
  destruct (e_apart m a ps f b HP P) as [Hf Hb].
  assert (N : nil_f f st) by (unfold nil_f, at_f; rewrite Em; exact Ef).
  pose proof (un_fields_f locate (reaches m a) (length m) (unm n)
    (unm_framed env locate match_us match_eu to_bool parse_time time_json std_ok (reaches m a) (length m) n)
    fs ps (e_out m a ps HP) l (e_fields m a l Hl) f Hf b Hb kvs [] st s e I (or_introl N) E) as (_ & _ & X & Y).
  pose proof (asked_chosen fs ps kvs f b P) as Q. destruct e as [e|].
  - destruct (X N) as [H|[H C]]; [left; exact H|right; split; [exact H|apply Q, C]].
  - destruct (X N) as [H|[H C]]; [|right; split; [exact H|apply Q, C]]. left. split; [exact H|]. intros C. apply Q in C as (k & j & i & H1 & H2 & H3).
    specialize (Y eq_refl k j i H1 H2 H3). unfold nil_f in H. unfold set_f in Y. congruence.
Qed.

(** A nil pointer is set, to its new struct, if some member of the document is
    for a field that comes through it, and it stays nil otherwise. *)
Theorem C60_pointer_set : forall n m name fs ps a l nid kvs f b m', all_exist m -> nth_error m a = Some (VStruct l) -> pointers_apart m a ps ->
  pointer_of ps f b -> nth_error m f = Some (VPtr None) -> Unmarshal_embedded n m name fs ps a nid kvs = TopOk m' ->
  (nth_error m' f = Some (VPtr (Some b)) <-> asked_for locate fs ps kvs f) /\
  (nth_error m' f = Some (VPtr None) <-> ~ asked_for locate fs ps kvs f).
Proof.
  intros n m name fs ps a l nid kvs f b m' HA Hl HP P Ef E. pose proof (e_pointer n m name fs ps a l nid kvs f b HA Hl HP P Ef) as H. rewrite E in H.
  destruct H as [[H1 H2]|[H1 H2]]; rewrite H1; split; split; intros D; try discriminate D; try tauto; reflexivity.
Qed.

(** Where there is an error too, a pointer that no member is for stays nil. *)
Theorem C60_pointer_error : forall n m name fs ps a l nid kvs f b m' e, all_exist m -> nth_error m a = Some (VStruct l) -> pointers_apart m a ps ->
  pointer_of ps f b -> nth_error m f = Some (VPtr None) -> Unmarshal_embedded n m name fs ps a nid kvs = TopErr m' e ->
  nth_error m' f = Some (VPtr None) \/ (nth_error m' f = Some (VPtr (Some b)) /\ asked_for locate fs ps kvs f).
Proof.
  intros n m name fs ps a l nid kvs f b m' e HA Hl HP P Ef E. pose proof (e_pointer n m name fs ps a l nid kvs f b HA Hl HP P Ef) as H. rewrite E in H. exact H.
Qed.

(** A member that is first of all for a field that comes through the pointer
    sets it, even if its value does not fit the field. *)
Theorem C60_pointer_named : forall n m name fs ps a l nid kvs f b m' k j i idx, all_exist m -> nth_error m a = Some (VStruct l) -> pointers_apart m a ps ->
  pointer_of ps f b -> nth_error m f = Some (VPtr None) -> leaves (Unmarshal_embedded n m name fs ps a nid kvs) m' ->
  In (k, j) kvs -> locate fs k = i :: idx -> nth_error ps i = Some (Some (f, b)) -> nth_error m' f = Some (VPtr (Some b)).
Proof.
  intros n m name fs ps a l nid kvs f b m' k j i idx HA Hl HP P Ef E Ik El Ei. destruct (e_run m a ps l HA Hl n name fs nid kvs) as (st & Em & I & M & R & _). rewrite R in E.
  destruct (un_fields_p _ _ _ _ _ _ _ _) as [s r| |] eqn:U; [|destruct E as [E|[e E]]; discriminate E..].
  assert (Es : u_mem s = m') by (destruct r, E as [E|[e E]]; congruence). rewrite <- Es.
  destruct (e_apart m a ps f b HP P) as [Hf Hb].
  apply (un_fields_first locate (reaches m a) (length m) (unm n)
    (unm_framed env locate match_us match_eu to_bool parse_time time_json std_ok (reaches m a) (length m) n)
    fs ps (e_out m a ps HP) l (e_fields m a l Hl) f Hf b Hb kvs [] st s r I) with (k := k) (j := j) (i := i) (idx := idx); try assumption.
  - left. unfold nil_f, at_f. rewrite Em. exact Ef.
  - apply (chosen_nth ps f b i P). exists b. exact Ei.
Qed.

(** Nothing changes a pointer that is not nil, or any other variable that the
    struct's fields do not lead to. *)
Theorem C60_pointer_kept : forall n m name fs ps a l nid kvs m' f c, all_exist m -> nth_error m a = Some (VStruct l) -> pointers_apart m a ps ->
  leaves (Unmarshal_embedded n m name fs ps a nid kvs) m' -> nth_error m f = Some c -> c <> VPtr None -> ~ reaches m a f ->
  nth_error m' f = Some c.
Proof.
  intros n m name fs ps a l nid kvs m' f c HA Hl HP E Ef Nc Nf. destruct (e_run m a ps l HA Hl n name fs nid kvs) as (st & Em & I & M & R & _). rewrite R in E.
  destruct (un_fields_p _ _ _ _ _ _ _ _) as [s r| |] eqn:U; [|destruct E as [E|[e E]]; discriminate E..].
  assert (Es : u_mem s = m') by (destruct r, E as [E|[e E]]; congruence). rewrite <- Es.
  apply (un_fields_stay locate (reaches m a) (length m) (unm n)
    (unm_framed env locate match_us match_eu to_bool parse_time time_json std_ok (reaches m a) (length m) n)
    fs ps (e_out m a ps HP) l (e_fields m a l Hl) f) with (kvs := kvs) (errs := []) (st := st) (e := r); try assumption.
  - intros [H|H]; [exact (Nf H)|]. apply nth_error_lt in Ef. lia.
  - unfold at_f. rewrite Em. exact Ef.
Qed.
End C60.

(** ** Examples *)

(** type E struct { Id int8; Tag string }; x of type struct { *E; Name string },
    whose embedded pointer, variable 3, is nil; 2 is the new E. *)
Definition emb_mem : mem := [VInt 0; VString []; VStruct [0%nat; 1%nat]; VPtr None; VString (B"n"); VStruct [0%nat; 1%nat; 4%nat]].
Definition emb_fields : list (finfo * gty) := [(plain (B"id"), TInt (Signed 8)); (plain (B"tag"), TString); (plain (B"name"), TString)].
Definition emb_parents : list parent := [Some (3%nat, 2%nat); Some (3%nat, 2%nat); None].
Notation c_emb := (Unmarshal_embedded c_env by_name c_us (fun _ => false) (fun s => bseq s (B"si")) (fun s => Some s) c_time (fun s => negb (bseq s (B"[]")))).
Notation emb_run := (fun kvs => c_emb 3%nat emb_mem 0%nat emb_fields emb_parents 5%nat 0 kvs).
Lemma emb_exist : all_exist emb_mem.
Proof. intros x c y E M. do 6 (destruct x as [|x]; [injection E as <-; cbn in M; cbn; intuition lia|]). destruct x; discriminate. Qed.
Lemma emb_reach x : reaches emb_mem 5%nat x -> In x [0%nat; 1%nat; 4%nat; 5%nat].
Proof.
  induction 1 as [|x c y _ I E M]; [cbn; tauto|]. cbn in I. destruct I as [<-|[<-|[<-|[<-|[]]]]]; injection E as <-; cbn in M; cbn; tauto.
Qed.
Lemma emb_apart : pointers_apart emb_mem 5%nat emb_parents.
Proof.
  intros i f b E. do 3 (destruct i as [|i]; [first [discriminate E|injection E as <- <-; split; [cbn; lia|]; intros R; apply emb_reach in R; cbn in R; intuition discriminate]|]). destruct i; discriminate.
Qed.
Lemma emb_of : pointer_of emb_parents 3%nat 2%nat.
Proof. split; [exists 0%nat; reflexivity|]. intros i b' E. do 3 (destruct i as [|i]; [try discriminate E; injection E as <-; reflexivity|]). destruct i; discriminate. Qed.

(** {"name": "x"}: the pointer stays nil *)
Definition emb_name : smap json := [(B"name", JString (B"x"))].
Definition emb_id : smap json := [(B"id", JInt 300); (B"name", JString (B"x"))].
Definition emb_bad : smap json := [(B"id", JString (B"x1"))].
Definition emb_null : smap json := [(B"tag", JNull)].
Example C60_as_if_there_example :
  emb_run emb_id = TopOk [VInt 44; VString []; VStruct [0%nat; 1%nat]; VPtr (Some 2%nat); VString (B"x"); VStruct [0%nat; 1%nat; 4%nat]]
  /\ c_unm 4%nat emb_mem (TStruct 0%nat emb_fields) 5%nat (JDict 0 emb_id) [] = TopOk [VInt 44; VString []; VStruct [0%nat; 1%nat]; VPtr None; VString (B"x"); VStruct [0%nat; 1%nat; 4%nat]]
  /\ same_outcome (itself emb_mem 5%nat) (emb_run emb_id) (c_unm 4%nat emb_mem (TStruct 0%nat emb_fields) 5%nat (JDict 0 emb_id) []).
Proof. split; [reflexivity|]. split; [reflexivity|]. apply (c_case C60_as_if_there 3%nat emb_mem 0%nat emb_fields emb_parents 5%nat [0%nat; 1%nat; 4%nat] 0 emb_id); [apply emb_exist|reflexivity|apply emb_apart]. Qed.
Example C60_pointer_set_example : (asked_for by_name emb_fields emb_parents emb_id 3%nat /\ ~ asked_for by_name emb_fields emb_parents emb_name 3%nat)
  /\ exists m', emb_run emb_name = TopOk m' /\ nth_error m' 3 = Some (VPtr None).
Proof.
  assert (N : forall kvs m', emb_run kvs = TopOk m' -> (nth_error m' 3 = Some (VPtr (Some 2%nat)) <-> asked_for by_name emb_fields emb_parents kvs 3%nat) /\ (nth_error m' 3 = Some (VPtr None) <-> ~ asked_for by_name emb_fields emb_parents kvs 3%nat)).
  { intros kvs m' E. apply (c_case C60_pointer_set 3%nat emb_mem 0%nat emb_fields emb_parents 5%nat [0%nat; 1%nat; 4%nat] 0 kvs 3%nat 2%nat m'); [apply emb_exist|reflexivity|apply emb_apart|apply emb_of|reflexivity|exact E]. }
  split; [split|].
  - apply (proj1 (N emb_id _ eq_refl)). reflexivity.
  - apply (proj2 (N emb_name _ eq_refl)). reflexivity.
  - eexists. split; reflexivity.
Qed.
(** A value that does not fit, or null, sets it too. *)
Example C60_pointer_named_example : exists m' e, emb_run emb_bad = TopErr m' e /\ nth_error m' 3 = Some (VPtr (Some 2%nat)).
Proof.
  eexists. eexists. split; [reflexivity|].
  apply (c_case C60_pointer_named 3%nat emb_mem 0%nat emb_fields emb_parents 5%nat [0%nat; 1%nat; 4%nat] 0 emb_bad 3%nat 2%nat) with (k := B"id") (j := JString (B"x1")) (i := 0%nat) (idx := []);
    [apply emb_exist|reflexivity|apply emb_apart|apply emb_of|reflexivity|right; eexists; reflexivity|left; reflexivity|reflexivity|reflexivity].
Qed.
Example C60_null_example : exists m', emb_run emb_null = TopOk m' /\ nth_error m' 3 = Some (VPtr (Some 2%nat)).
Proof. eexists. split; reflexivity. Qed.
Example C60_pointer_error_example : exists m' e, emb_run [(B"name", JInt 3); (B"id", JString (B"x1"))] = TopErr m' e
  /\ (nth_error m' 3 = Some (VPtr None) \/ (nth_error m' 3 = Some (VPtr (Some 2%nat)) /\ asked_for by_name emb_fields emb_parents [(B"name", JInt 3); (B"id", JString (B"x1"))] 3%nat)).
Proof.
  eexists. eexists. split; [reflexivity|].
  apply (c_case C60_pointer_error 3%nat emb_mem 0%nat emb_fields emb_parents 5%nat [0%nat; 1%nat; 4%nat] 0 [(B"name", JInt 3); (B"id", JString (B"x1"))] 3%nat 2%nat _ (EMany [(B"id", ENumber)]));
    [apply emb_exist|reflexivity|apply emb_apart|apply emb_of|reflexivity|reflexivity].
Qed.
(** The struct that it points to already stays *)
Definition emb_set : mem := mwrite emb_mem 3%nat (VPtr (Some 7%nat)) ++ [VInt 1; VStruct [6%nat]].
Example C60_pointer_kept_example : exists m', c_emb 3%nat emb_set 0%nat emb_fields emb_parents 5%nat 0 emb_id = TopOk m' /\ nth_error m' 3 = Some (VPtr (Some 7%nat)).
Proof.
  eexists. split; [reflexivity|].
  assert (R : forall x, reaches emb_set 5%nat x -> In x [0%nat; 1%nat; 4%nat; 5%nat]).
  { induction 1 as [|x c y _ I E M]; [cbn; tauto|]. cbn in I. destruct I as [<-|[<-|[<-|[<-|[]]]]]; injection E as <-; cbn in M; cbn; tauto. }
  apply (c_case C60_pointer_kept 3%nat emb_set 0%nat emb_fields emb_parents 5%nat [0%nat; 1%nat; 4%nat] 0 emb_id).
  - intros x c y E M. do 8 (destruct x as [|x]; [injection E as <-; cbn in M; cbn; intuition lia|]). destruct x; discriminate.
  - reflexivity.
  - intros i f b E. do 3 (destruct i as [|i]; [first [discriminate E|injection E as <- <-; split; [cbn; lia|]; intros Q; apply R in Q; cbn in Q; intuition discriminate]|]). destruct i; discriminate.
  - left. reflexivity.
  - reflexivity.
  - discriminate.
  - intros Q. apply R in Q. cbn in Q. intuition discriminate.
Qed.
