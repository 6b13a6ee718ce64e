(** C47: which objects change when JSON-typed variables are unmarshalled into. *)
From Verif Require Import Base Strconv SortedMap Json SpecJson Printer Access Heap SpecHeap HeapFacts HeapFacts2 Gotypes Marshal Unmarshal UnmFacts
  SpecConvert ConvertFacts Alias.
Open Scope Z_scope.

(** The type of an object *)
Definition kind_of (c : cell) : option jkind :=
  match c with
  | CBool _ => Some KBool | CInt _ => Some KInt | CFloat _ _ => Some KFloat | CString _ => Some KString
  | CArray _ => Some KArray | CDict _ _ => Some KDict | CNull | CPtr _ => None
  end.

(** A variable of type [t] may refer to [r]: nil, or an object of the type. *)
Definition var_ok (h : heap) (t : vtype) (r : ref) : Prop :=
  match r with
  | None => True
  | Some b => exists c, nth_error h b = Some c /\ (forall k, t = Some k -> kind_of c = Some k)
  end.

(** All objects are as before. *)
Definition unchanged (h h' : heap) : Prop := forall x c, nth_error h x = Some c -> nth_error h' x = Some c.

Lemma indirect_unchanged h t r h1 r1 : indirect_node h t r = (h1, r1) ->
  unchanged h h1 /\ (r1 = r \/ (r = None /\ r1 = Some (length h))) /\
  (length h <= length h1)%nat /\ (t <> None -> r1 <> None).
Proof.
  unfold indirect_node. intros E. destruct t as [k|], r as [b|]; cbn in E; injection E as <- <-.
  1,3,4: split; [intros x c H; exact H|split; [left; reflexivity|split; [lia|congruence]]].
  split; [intros x c H; rewrite halloc_old by (eapply nth_error_lt, H); exact H|].
  split; [right; split; reflexivity|]. split; [rewrite app_length; lia|congruence].
Qed.

Lemma zero_node_kind k : kind_of (zero_node k) = Some k.
Proof. destruct k; reflexivity. Qed.

(** An object of the type of the variable - for a JSONObject variable any
    object but null - is not copied: the variable refers to the very object
    that was unmarshalled, and no object has changed. *)
Theorem C47_same_object h t r src c k :
  nth_error h src = Some c -> kind_of c = Some k -> (t = None \/ t = Some k) ->
  exists h', assign h t r src = Some (h', Some src, None) /\ unchanged h h'.
Proof.
  intros E K T. unfold assign. rewrite E. destruct (indirect_node h t r) as [h1 r1] eqn:I.
  exists h1. pose proof (indirect_unchanged _ _ _ _ _ I) as (U & _). split; [|exact U].
  destruct T as [-> | ->]; destruct c; cbn in K |- *; try discriminate; try reflexivity;
    injection K as <-; cbn; reflexivity.
Qed.

(** Null makes the variable nil. *)
Theorem C47_null h t r src : nth_error h src = Some CNull -> assign h t r src = Some (h, None, None).
Proof. intros E. unfold assign. rewrite E. reflexivity. Qed.

(** An error changes no object (but a nil pointer is nil no more). *)
Theorem C47_error h t r src h' r' e : assign h t r src = Some (h', r', Some e) ->
  e = EMismatch /\ unchanged h h' /\ (r' = r \/ (r = None /\ r' = Some (length h))).
Proof.
  unfold assign. destruct (nth_error h src) as [c|] eqn:E; [|discriminate].
  destruct (indirect_node h t r) as [h1 r1] eqn:I. pose proof (indirect_unchanged _ _ _ _ _ I) as (U & R & _).
  intros H. destruct c; try discriminate; destruct (change_of _ t) as [[|d|]|]; try discriminate.
  all: try (destruct r1; discriminate).
  all: injection H as <- <- <-; repeat split; assumption.
Qed.

(** ** The heap and the variable after a call, case by case *)
Lemma assign_inv h t r src h' r' e : assign h t r src = Some (h', r', e) ->
  exists c, nth_error h src = Some c /\
  ((c = CNull /\ h' = h /\ r' = None /\ e = None) \/
   (unchanged h h' /\ (length h <= length h')%nat /\ r' = Some src /\ e = None /\ kind_of c <> None /\ (t = None \/ t = kind_of c)) \/
   (exists h1 r1, indirect_node h t r = (h1, r1) /\ h' = h1 /\ r' = r1 /\ e = Some EMismatch /\ t <> None) \/
   (exists h1 b k d, indirect_node h t r = (h1, Some b) /\ h' = hwrite h1 b d /\ r' = Some b /\ e = None /\ t = Some k /\
      change_of c t = Some (Store d))).
Proof.
  unfold assign. destruct (nth_error h src) as [c|] eqn:E; [|discriminate]. intros H. exists c. split; [reflexivity|].
  destruct (indirect_node h t r) as [h1 r1] eqn:I. pose proof (indirect_unchanged _ _ _ _ _ I) as (U & R & L & NN).
  destruct (match c with CNull => true | _ => false end) eqn:N.
  { destruct c; try discriminate. injection H as <- <- <-. left. repeat split. }
  right. assert (match change_of c t with None => None | Some ch => match ch with
          | Refer => Some (h1, Some src, None)
          | Store d => match r1 with
                       | Some b => Some (hwrite h1 b d, r1, None)
                       | None => let '(h2, b) := halloc h1 d in Some (h2, Some b, None)
                       end
          | Refuse => Some (h1, r1, Some EMismatch)
          end end = Some (h', r', e)) as H' by (destruct c; [discriminate|exact H..]).
  clear H. destruct (change_of c t) as [[|d|]|] eqn:Ch; [| | |discriminate].
  - injection H' as <- <- <-. left. repeat split; try assumption.
    + destruct c; [discriminate|..|destruct t as [[]|]; discriminate]; cbn; congruence.
    + destruct t as [k|]; [right|left; reflexivity]. destruct c, k; cbn in Ch; try discriminate; reflexivity.
  - destruct t as [k|]; [|destruct c; discriminate]. destruct r1 as [b|]; [|exfalso; apply NN; congruence].
    injection H' as <- <- <-. right. right. exists h1, b, k, d. repeat split.
  - injection H' as <- <- <-. right. left. exists h1, r1. repeat split. destruct t; [congruence|destruct c; discriminate].
Qed.

(** Only the object that the variable referred to may change. *)
Theorem C47_frame h t r src h' r' e : assign h t r src = Some (h', r', e) ->
  forall x c, nth_error h x = Some c -> r <> Some x -> nth_error h' x = Some c.
Proof.
  intros H x c X N. destruct (assign_inv _ _ _ _ _ _ _ H) as (c0 & _ & [(_ & -> & _)|[(U & _)|[(h1 & r1 & I & -> & _)|(h1 & b & k & d & I & -> & _)]]]).
  - exact X.
  - apply U, X.
  - apply (indirect_unchanged _ _ _ _ _ I), X.
  - pose proof (indirect_unchanged _ _ _ _ _ I) as (U & R & _). rewrite hwrite_other; [apply U, X|].
    intros ->. destruct R as [R|[_ [=->]]]; [congruence|]. apply nth_error_lt in X. lia.
Qed.

(** ... and it changes exactly in these cases: a number or boolean for a
    *JSONString, a float for a *JSONInt, a string for a *JSONBool.  The object
    is then overwritten with the converted value, wherever else it is used. *)
Inductive converts : cell -> jkind -> cell -> Prop :=
| conv_int z : converts (CInt z) KString (CString (format_int z))
| conv_bool (b : bool) : converts (CBool b) KString (CString (if b then B "true" else B "false"))
| conv_float f bit : converts (CFloat f bit) KString (CString (format_f6 f))
| conv_trunc f bit : converts (CFloat f bit) KInt (CInt (f2i f))
| conv_yes s : yes_word s -> converts (CString s) KBool (CBool true)
| conv_no s : ~ yes_word s -> converts (CString s) KBool (CBool false).

Lemma converts_change c k d : converts c k d -> change_of c (Some k) = Some (Store d).
Proof.
  intros H. destruct H as [| [] | | |s Y|s Y]; try reflexivity; cbn.
  - apply says_yes_iff in Y. rewrite Y. reflexivity.
  - destruct (says_yes s) eqn:E; [apply says_yes_iff in E; contradiction|reflexivity].
Qed.
Lemma change_converts c t d : change_of c t = Some (Store d) -> exists k, t = Some k /\ converts c k d.
Proof.
  destruct t as [k|]; [|destruct c; discriminate]. intros H. exists k. split; [reflexivity|].
  destruct c, k; try discriminate; cbn in H; injection H as <-.
  - match goal with |- converts (CBool ?b) _ _ => destruct b; [apply (conv_bool true)|apply (conv_bool false)] end.
  - apply conv_int.
  - apply conv_float.
  - apply conv_trunc.
  - destruct (says_yes s) eqn:E; constructor; [|intros Y; apply says_yes_iff in Y; congruence].
    apply says_yes_iff. exact E.
Qed.

Theorem C47_converted h k b src c d : nth_error h src = Some c -> (b < length h)%nat -> converts c k d ->
  assign h (Some k) (Some b) src = Some (hwrite h b d, Some b, None) /\ nth_error (hwrite h b d) b = Some d.
Proof.
  intros E L H. split; [|apply hwrite_same, L]. unfold assign. rewrite E.
  rewrite (converts_change _ _ _ H). destruct H; reflexivity.
Qed.

Theorem C47_converted_nil h k src c d : nth_error h src = Some c -> converts c k d ->
  exists h', assign h (Some k) None src = Some (h', Some (length h), None) /\ nth_error h' (length h) = Some d /\ unchanged h h'.
Proof.
  intros E H. unfold assign. rewrite E, (converts_change _ _ _ H). exists (hwrite (h ++ [zero_node k]) (length h) d).
  split; [destruct H; reflexivity|]. split; [apply hwrite_same; rewrite app_length; cbn; lia|].
  intros x c0 X. pose proof (nth_error_lt _ _ _ X). rewrite hwrite_other by lia. rewrite halloc_old by lia. exact X.
Qed.

Theorem C47_changes_only_in_conversions h t r src h' r' e : assign h t r src = Some (h', r', e) -> ~ unchanged h h' ->
  exists c k b d, nth_error h src = Some c /\ t = Some k /\ r = Some b /\ converts c k d /\ nth_error h' b = Some d.
Proof.
  intros H N. destruct (assign_inv _ _ _ _ _ _ _ H) as (c & E & [(_ & -> & _)|[(U & _)|[(h1 & r1 & I & -> & _)|(h1 & b & k & d & I & -> & _ & _ & T & Ch)]]]).
  - exfalso. apply N. intros x c0 X. exact X.
  - contradiction.
  - exfalso. apply N. apply (indirect_unchanged _ _ _ _ _ I).
  - pose proof (indirect_unchanged _ _ _ _ _ I) as (U & R & _).
    destruct (change_converts _ _ _ Ch) as (k' & T' & CV). rewrite T in T'. injection T' as <-.
    destruct R as [<-|[-> [=->]]].
    + exists c, k, b, d. split; [exact E|]. split; [exact T|]. split; [reflexivity|]. split; [exact CV|].
      rewrite T in I. cbn in I. injection I as <-.
      apply hwrite_same. destruct (nth_error h b) as [c0|] eqn:Eb; [eapply nth_error_lt, Eb|].
      exfalso. apply N. intros x c0 X. rewrite hwrite_other; [exact X|congruence].
    + exfalso. apply N. intros x c0 X. rewrite hwrite_other; [apply U, X|]. apply nth_error_lt in X. lia.
Qed.

(** ** A history of calls *)

Definition vars_ok (h : heap) (vs : vars) : Prop := Forall (fun v => var_ok h (fst v) (snd v)) vs.

Lemma cells_kept_kind h t r src h' r' e : assign h t r src = Some (h', r', e) -> var_ok h t r ->
  forall x c, nth_error h x = Some c -> exists c', nth_error h' x = Some c' /\ kind_of c' = kind_of c /\ (cell_refs c' = cell_refs c).
Proof.
  intros H V x c X. destruct (assign_inv _ _ _ _ _ _ _ H) as (c0 & E & [(_ & -> & _)|[(U & _)|[(h1 & r1 & I & -> & _)|(h1 & b & k & d & I & -> & _ & _ & T & Ch)]]]).
  - exists c. auto.
  - exists c. auto.
  - exists c. split; [apply (indirect_unchanged _ _ _ _ _ I), X|auto].
  - pose proof (indirect_unchanged _ _ _ _ _ I) as (U & R & L & _).
    destruct (Nat.eq_dec x b) as [->|D]; [|exists c; rewrite hwrite_other by exact D; split; [apply U, X|auto]].
    destruct R as [<-|[-> [=->]]]; [|apply nth_error_lt in X; lia].
    destruct V as (c' & E' & K). rewrite X in E'. injection E' as <-. specialize (K k T).
    exists d. rewrite hwrite_same by (apply nth_error_lt in X; lia). split; [reflexivity|].
    subst t. destruct c0, k; try discriminate; cbn in Ch; injection Ch as <-; destruct c; try discriminate; split; reflexivity.
Qed.

(** A call leaves every variable with nil or an object of its type. *)
Theorem C47_variables_typed : forall l h vs h' vs', vars_ok h vs -> assigns h vs l = Some (h', vs') -> vars_ok h' vs'.
Proof.
  induction l as [|[i src] l IH]; intros h vs h' vs' V H; cbn in H; [injection H as <- <-; exact V|].
  destruct (nth_error vs i) as [[t r]|] eqn:Ei; [|discriminate]. destruct (assign h t r src) as [[[h1 r1] e]|] eqn:A; [|discriminate].
  apply (IH _ _ _ _) in H; [exact H|]. clear IH H.
  assert (Vi : var_ok h t r).
  { unfold vars_ok in V. rewrite Forall_forall in V. apply (V (t, r)). eapply nth_error_In, Ei. }
  pose proof (cells_kept_kind _ _ _ _ _ _ _ A Vi) as K.
  assert (M : forall t0 r0, var_ok h t0 r0 -> var_ok h1 t0 r0).
  { intros t0 [b|] [c [X T]] || intros t0 [b|] X; [|exact Logic.I]. destruct X as (c & X & T). destruct (K _ _ X) as (c' & X' & Kc & _).
    exists c'. split; [exact X'|]. intros k Tk. rewrite Kc. apply T, Tk. }
  assert (N : var_ok h1 t r1).
  { destruct (assign_inv _ _ _ _ _ _ _ A) as (c0 & E & [(_ & _ & -> & _)|[(U & _ & -> & _ & NK & T)|[(h2 & r2 & I & -> & -> & _ & T)|(h2 & b & k & d & I & -> & -> & _ & T & Ch)]]]).
    - exact Logic.I.
    - exists c0. split; [apply U, E|]. intros k Tk. destruct T as [->|T]; [discriminate|congruence].
    - destruct t as [k|]; [|congruence]. destruct r as [b|]; cbn in I; injection I as <- <-; [exact Vi|].
      exists (zero_node k). split; [apply halloc_new|]. intros k' [=<-]. apply zero_node_kind.
    - exists d. split.
      + apply hwrite_same. subst t. destruct r as [b'|]; cbn in I; injection I as <- <-.
        * destruct Vi as (c1 & X & _). eapply nth_error_lt, X.
        * rewrite app_length. cbn. lia.
      + intros k' Tk. rewrite T in Tk. injection Tk as <-. subst t. destruct c0, k; try discriminate; cbn in Ch; injection Ch as <-; reflexivity. }
  clear - V M N Ei. revert i Ei. unfold vars_ok in *. induction V as [|[t0 r0] vs V0 V IH]; intros i Ei; [destruct i; discriminate|].
  destruct i as [|i]; cbn in Ei |- *.
  - injection Ei as -> ->. constructor; [exact N|]. eapply Forall_impl; [|exact V]. intros [? ?]. apply M.
  - constructor; [apply M, V0|]. apply IH, Ei.
Qed.

(** Arrays and dicts are never changed by unmarshalling into JSON-typed
    variables, nor are null and references: only scalar objects may be. *)
Theorem C47_containers_kept : forall l h vs h' vs', vars_ok h vs -> assigns h vs l = Some (h', vs') ->
  forall x c, nth_error h x = Some c -> match c with CArray _ | CDict _ _ | CNull | CPtr _ => nth_error h' x = Some c | _ => True end.
Proof.
  induction l as [|[i src] l IH]; intros h vs h' vs' V H x c X; [cbn in H; injection H as <- <-; destruct c; auto|].
  pose proof V as V'. cbn in H. destruct (nth_error vs i) as [[t r]|] eqn:Ei; [|discriminate].
  destruct (assign h t r src) as [[[h1 r1] e]|] eqn:A; [|discriminate].
  assert (V1 : vars_ok h1 (set_var vs i r1)).
  { apply (C47_variables_typed [(i, src)] h vs); [exact V|]. cbn. rewrite Ei, A. reflexivity. }
  assert (Vi : var_ok h t r).
  { unfold vars_ok in V. rewrite Forall_forall in V. apply (V (t, r)). eapply nth_error_In, Ei. }
  assert (S : match c with CArray _ | CDict _ _ | CNull | CPtr _ => nth_error h1 x = Some c | _ => True end).
  { destruct (assign_inv _ _ _ _ _ _ _ A) as (c0 & E & [(_ & -> & _)|[(U & _)|[(h2 & r2 & I & -> & _)|(h2 & b & k & d & I & -> & _ & _ & T & Ch)]]]).
    - destruct c; auto.
    - destruct c; auto.
    - apply (indirect_unchanged _ _ _ _ _ I) in X. destruct c; auto.
    - pose proof (indirect_unchanged _ _ _ _ _ I) as (U & R & _).
      destruct (Nat.eq_dec x b) as [->|D].
      + destruct R as [<-|[-> [=->]]]; [|apply nth_error_lt in X; lia].
        destruct Vi as (c1 & X1 & K). rewrite X in X1. injection X1 as <-. specialize (K _ T). subst t.
        destruct c0, k; try discriminate; destruct c; try exact Logic.I; discriminate K.
      + rewrite hwrite_other by exact D. rewrite (U _ _ X). destruct c; auto. }
  destruct c; try exact Logic.I; exact (IH _ _ _ _ V1 H x _ S).
Qed.

(** FALSE: "unmarshalling into a variable does not change documents read
    before".  After a *JSONString variable was set from a document and then
    from a number, the string in the first document has changed. *)
Theorem C47_earlier_document_refuted h a s i z : nth_error h a = Some (CString s) -> nth_error h i = Some (CInt z) ->
  exists h', assigns h [(Some KString, None)] [(0%nat, a); (0%nat, i)] = Some (h', [(Some KString, Some a)]) /\
    nth_error h' a = Some (CString (format_int z)).
Proof.
  intros A I. destruct (C47_same_object h (Some KString) None a _ _ A eq_refl (or_intror eq_refl)) as (h1 & E & U).
  exists (hwrite h1 a (CString (format_int z))). cbn [assigns nth_error]. rewrite E. cbn [set_var assigns nth_error].
  pose proof (U _ _ A) as A1. pose proof (nth_error_lt _ _ _ A1) as L.
  destruct (C47_converted h1 KString a i _ _ (U _ _ I) L (conv_int z)) as [-> S]. split; [reflexivity|exact S].
Qed.

(** JSONTrue is one object, shared by all documents: after a *JSONBool variable
    was set from true and then from a string other than true, yes, on and 1,
    every true of every document is false. *)
Theorem C47_true_becomes_false_refuted h jtrue i s : nth_error h jtrue = Some (CBool true) -> nth_error h i = Some (CString s) -> ~ yes_word s ->
  exists h', assigns h [(Some KBool, None)] [(0%nat, jtrue); (0%nat, i)] = Some (h', [(Some KBool, Some jtrue)]) /\
    nth_error h' jtrue = Some (CBool false).
Proof.
  intros A I Y. destruct (C47_same_object h (Some KBool) None jtrue _ _ A eq_refl (or_intror eq_refl)) as (h1 & E & U).
  exists (hwrite h1 jtrue (CBool false)). cbn [assigns nth_error]. rewrite E. cbn [set_var assigns nth_error].
  pose proof (U _ _ A) as A1. pose proof (nth_error_lt _ _ _ A1) as L.
  destruct (C47_converted h1 KBool jtrue i _ _ (U _ _ I) L (conv_no s Y)) as [-> S]. split; [reflexivity|exact S].
Qed.

(** ** Agreement with the model of Unmarshal on values *)
Section Agrees.
Context (env : nat -> list (finfo * gty)) (locate : list (finfo * gty) -> bytes -> list nat)
  (match_us match_eu to_bool : bytes -> bool) (parse_time : bytes -> option bytes)
  (time_json : bytes -> option (option bytes)) (std_ok : bytes -> bool).

Definition type_of (t : vtype) : gty := match t with None => TJsonObj | Some k => TJsonPtr k end.

(** The variable reads as this value. *)
Definition reads (h : heap) (r : ref) (v : option json) : Prop :=
  match r, v with None, None => True | Some b, Some j => holds h b j | _, _ => False end.

Lemma holds_cell h x j : holds h x j -> exists c, nth_error h x = Some c /\
  match j with
  | JNull => c = CNull | JBool b => c = CBool b | JInt z => c = CInt z | JFloat f b => c = CFloat f b | JString s => c = CString s
  | JArray _ => exists rs, c = CArray rs | JDict nid _ => exists kvs, c = CDict nid kvs | JPtr n => c = CPtr n
  end.
Proof.
  intros [[|n] R]; [discriminate|]. cbn in R. destruct (nth_error h x) as [c|]; [|discriminate]. exists c. split; [reflexivity|].
  destruct c; try (injection R as <-; reflexivity).
  - destruct (map_opt _ rs); [|discriminate]. injection R as <-. eexists. reflexivity.
  - destruct (map_opt _ kvs); [|discriminate]. injection R as <-. eexists. reflexivity.
Qed.
Lemma holds_unchanged h h' x j : unchanged h h' -> holds h x j -> holds h' x j.
Proof. intros U [n R]. exists n. eapply read_ext; eassumption. Qed.
Lemma holds_zero h k : holds (h ++ [zero_node k]) (length h) (zero_json k).
Proof. exists 1%nat. cbn [read]. rewrite halloc_new. destruct k; reflexivity. Qed.

Theorem C47_agrees n h t r src j v m a :
  holds h src j -> (forall p, j <> JPtr p) -> var_ok h t r -> reads h r v ->
  nth_error m a = Some (VJson v) ->
  exists h' r' e m' s' v',
    assign h t r src = Some (h', r', e) /\
    unm env locate match_us match_eu to_bool parse_time time_json std_ok (S n)
      {| u_mem := m; u_sess := [] |} (type_of t) a j = UOk {| u_mem := m'; u_sess := s' |} e /\
    nth_error m' a = Some (VJson v') /\ reads h' r' v'.
Proof.
  intros H NP V R E. pose proof (nth_error_lt _ _ _ E) as La.
  destruct (holds_cell _ _ _ H) as (c & Ec & Hc).
  destruct (match j with JNull => true | _ => false end) eqn:N.
  { destruct j; try discriminate. subst c. do 6 eexists. split; [apply C47_null, Ec|].
    split; [destruct t; reflexivity|]. split; [destruct t; apply mwrite_same, La|exact Logic.I]. }
  destruct t as [k|].
  - (* a pointer *)
    assert (exists h1 b v1 m1, indirect_node h (Some k) r = (h1, Some b) /\ unchanged h h1 /\ nth_error h1 b <> None /\
              holds h1 b v1 /\ length m1 = length m /\ nth_error m1 a = Some (VJson (Some v1)) /\
              indirect env (TJsonPtr k) a m = (m1, None)) as (h1 & b & v1 & m1 & I & U & Lb & Hb & L1 & E1 & Im).
    { destruct r as [b|], v as [v|]; try contradiction; cbn [indirect]; rewrite E.
      - exists h, b, v, m. cbn. repeat split; auto; [intros x c0 X; exact X|]. destruct V as (c1 & X & _). congruence.
      - exists (h ++ [zero_node k]), (length h), (zero_json k), (mwrite m a (VJson (Some (zero_json k)))).
        split; [reflexivity|]. split; [intros x c0 X; rewrite halloc_old by (eapply nth_error_lt, X); exact X|].
        split; [rewrite halloc_new; congruence|]. split; [apply holds_zero|].
        split; [apply mwrite_length|]. split; [apply mwrite_same, La|reflexivity]. }
    assert (STORE : forall d w, change_of c (Some k) = Some (Store d) -> holds (hwrite h1 b d) b w ->
      exists h' r' e m' s' v', assign h (Some k) r src = Some (h', r', e) /\
        UOk {| u_mem := mwrite m1 a (VJson (Some w)); u_sess := [] |} (None (A := uerr)) = UOk {| u_mem := m'; u_sess := s' |} e /\
        nth_error m' a = Some (VJson v') /\ reads h' r' v').
    { intros d w Ch Hw. do 6 eexists. split; [|split; [reflexivity|split; [apply mwrite_same; rewrite L1; exact La|]]].
      - unfold assign. rewrite Ec, Ch, I. destruct c; [discriminate Ch|reflexivity..].
      - exact Hw. }
    assert (REFER : forall s', change_of c (Some k) = Some Refer ->
      exists h' r' e m' s'' v', assign h (Some k) r src = Some (h', r', e) /\
        UOk {| u_mem := mwrite m1 a (VJson (Some j)); u_sess := s' |} (None (A := uerr)) = UOk {| u_mem := m'; u_sess := s'' |} e /\
        nth_error m' a = Some (VJson v') /\ reads h' r' v').
    { intros s' Ch. do 6 eexists. split; [|split; [reflexivity|split; [apply mwrite_same; rewrite L1; exact La|]]].
      - unfold assign. rewrite Ec, Ch, I. destruct c; [discriminate Ch|reflexivity..].
      - cbn. eapply holds_unchanged; eassumption. }
    assert (REFUSE : forall s', change_of c (Some k) = Some Refuse ->
      exists h' r' e m' s'' v', assign h (Some k) r src = Some (h', r', e) /\
        UOk {| u_mem := m1; u_sess := s' |} (Some EMismatch) = UOk {| u_mem := m'; u_sess := s'' |} e /\
        nth_error m' a = Some (VJson v') /\ reads h' r' v').
    { intros s' Ch. do 6 eexists. split; [|split; [reflexivity|split; [exact E1|]]].
      - unfold assign. rewrite Ec, Ch, I. destruct c; [discriminate Ch|reflexivity..].
      - exact Hb. }
    assert (SC : forall d, match d with CArray _ | CDict _ _ => False | _ => True end ->
       holds (hwrite h1 b d) b (match d with CNull => JNull | CBool x => JBool x | CInt z => JInt z | CFloat f x => JFloat f x
                                | CString s => JString s | CPtr p => JPtr p | _ => JNull end)).
    { intros d D. exists 1%nat. cbn [read]. rewrite hwrite_same by (apply nth_error_Some, Lb). destruct d; try contradiction; reflexivity. }
    destruct j; try discriminate; try (exfalso; eapply NP; reflexivity); cbn [unm type_of].
    1-5: cbn [u_mem with_mem]; rewrite Im.
    6: { destruct (0 <? nid); cbn [save_node_value find_node u_sess ubind u_mem with_mem]; rewrite Im; cbn [u_mem with_mem u_sess];
         destruct Hc as (kvs' & ->); destruct k; solve [apply REFUSE; reflexivity|apply REFER; reflexivity]. }
    5: { destruct Hc as (rs & ->). cbn [with_mem u_mem u_sess]. destruct k; solve [apply REFUSE; reflexivity|apply REFER; reflexivity]. }
    all: subst c; cbn [u_mem with_mem u_sess]; destruct k; cbn [step_scalar step_int step_bool step_float step_string];
      try (apply REFUSE; reflexivity); try (apply REFER; reflexivity).
    all: match goal with |- context[mwrite _ _ (VJson (Some ?w))] =>
           match w with
           | JString ?s => apply (STORE (CString s)); [reflexivity|apply (SC (CString s)); exact Logic.I]
           | JInt ?s => apply (STORE (CInt s)); [reflexivity|apply (SC (CInt s)); exact Logic.I]
           | JBool ?s => apply (STORE (CBool s)); [reflexivity|apply (SC (CBool s)); exact Logic.I]
           end end.
  - (* JSONObject *)
    assert (A : assign h None r src = Some (h, Some src, None)).
    { unfold assign. rewrite Ec. destruct c; try reflexivity; destruct j; try discriminate; try (destruct Hc; discriminate).
      exfalso. eapply NP. reflexivity. }
    exists h, (Some src), None, (mwrite m a (VJson (Some j))).
    destruct j as [| | | | | |nid kvs|]; try discriminate; try (exfalso; eapply NP; reflexivity).
    6: exists (if 0 <? nid then put_node [] nid {| nv_value := Some (a, TJsonObj); nv_targets := [] |} else []), (Some (JDict nid kvs)).
    1-5: do 2 eexists.
    all: split; [exact A|]. all: split; [|split; [apply mwrite_same, La|exact H]].
    all: cbn [unm type_of indirect]; try (destruct (0 <? nid)); reflexivity.
Qed.
End Agrees.

(** ** Instances: {"a":"x","b":true} at 0, JSONTrue at 2, the numbers 5 and 2.5, "off" *)
Definition al_heap : heap :=
  [CDict 0 [(B "a", Some 1%nat); (B "b", Some 2%nat)]; CString (B "x"); CBool true; CInt 5; CFloat (FFin false 5 (-1)) 64; CString (B "off")].
Example al_run : exists h' vs', 
  assigns al_heap [(Some KString, None); (Some KBool, None); (Some KInt, None); (None, None)]
    [(0%nat, 1%nat); (1%nat, 2%nat); (2%nat, 4%nat); (3%nat, 0%nat); (0%nat, 3%nat); (1%nat, 5%nat)] = Some (h', vs')
  /\ vars_ok al_heap [(Some KString, None); (Some KBool, None); (Some KInt, None); (None, None)]
  /\ holds al_heap 0%nat (JDict 0 [(B "a", JString (B "x")); (B "b", JBool true)])
  /\ holds h' 0%nat (JDict 0 [(B "a", JString (B "5")); (B "b", JBool false)])
  /\ vs' = [(Some KString, Some 1%nat); (Some KBool, Some 2%nat); (Some KInt, Some 8%nat); (None, Some 0%nat)]
  /\ nth_error h' 8 = Some (CInt 2).
Proof.
  do 2 eexists. split; [vm_compute; reflexivity|]. split; [repeat constructor|].
  split; [exists 3%nat; reflexivity|]. split; [exists 3%nat; reflexivity|]. split; reflexivity.
Qed.
Example al_not_yes : ~ yes_word (B "off").
Proof. intros H. apply says_yes_iff in H. discriminate. Qed.
Example al_refused : assign al_heap (Some KDict) (Some 0%nat) 1 = Some (al_heap, Some 0%nat, Some EMismatch) /\ var_ok al_heap (Some KDict) (Some 0%nat).
Proof. split; [reflexivity|]. eexists. split; [reflexivity|]. intros k [=<-]. reflexivity. Qed.
