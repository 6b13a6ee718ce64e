(** More fuel does not change the outcome of unmarshalling. *)
From Verif Require Import Base Strconv SortedMap Json Heap Gotypes Marshal Access Unmarshal.

Section Mono.
Context (env : nat -> list (finfo * gty)) (locate : list (finfo * gty) -> bytes -> list nat).
Context (match_us match_eu : bytes -> bool) (to_bool : bytes -> bool)
  (parse_time : bytes -> option bytes) (time_json : bytes -> option (option bytes)) (std_ok : bytes -> bool).
Notation unm := (unm env locate match_us match_eu to_bool parse_time time_json std_ok).

Definition below {A} (r r' : ures A) : Prop := r <> UFuel -> r' = r.

Lemma below_refl {A} (r : ures A) : below r r. Proof. intros _. reflexivity. Qed.
Lemma below_fuel {A} (r' : ures A) : below UFuel r'. Proof. intros H. congruence. Qed.
Lemma below_bind {A C} (r r' : ures A) (k k' : ustate -> A -> ures C) :
  below r r' -> (forall st x, below (k st x) (k' st x)) -> below (ubind r k) (ubind r' k').
Proof. intros H K. destruct r as [st x| |]; [rewrite (H ltac:(discriminate)); apply K|rewrite (H ltac:(discriminate)); apply below_refl|apply below_fuel]. Qed.

Section Loops.
Context (un un' : ustate -> gty -> addr -> json -> ures (option uerr)).
Hypothesis Hun : forall st t a j, below (un st t a j) (un' st t a j).

Lemma un_elems_below t js : forall l st, below (un_elems un st t l js) (un_elems un' st t l js).
Proof.
  induction js as [|j js IH]; intros l st; [destruct l; apply below_refl|]. destruct l as [|a l]; [apply below_refl|]. cbn [un_elems].
  apply below_bind; [apply Hun|]. intros st1 [e|]; [apply below_refl|apply IH].
Qed.

Lemma un_members_below t kvs : forall d st, below (un_members un st t d kvs) (un_members un' st t d kvs).
Proof.
  induction kvs as [|[k j] kvs IH]; intros d st; [apply below_refl|]. cbn [un_members]. destruct (zalloc t (u_mem st)) as [m1 tmp].
  apply below_bind; [apply Hun|]. intros st1 [e|]; [apply below_refl|]. destruct (vcopy t tmp (u_mem st1)) as [m2 b]. apply IH.
Qed.

Lemma set_field_below fs l j : forall fuel st v key, below (set_field locate un fuel st v fs l key j) (set_field locate un' fuel st v fs l key j).
Proof.
  induction fuel as [|fuel IH]; intros st v key; [apply below_refl|]. cbn [set_field]. destruct (in_strings key v); [apply below_refl|].
  generalize (key :: v). revert st. induction (locate fs key) as [|i idx IHi]; intros st v'; [apply below_refl|].
  destruct (nth_error fs i) as [[info t]|]; [|apply below_refl]. destruct (nth_error l i) as [a|]; [|apply below_refl].
  apply below_bind; [apply Hun|]. intros st1 [e|]; [apply below_refl|]. destruct (fi_deprecated_by info) as [other|]; [|apply IHi].
  apply below_bind; [apply IH|]. intros st2 [v2 [e|]]; [apply below_refl|]. apply IHi.
Qed.

Lemma un_fields_below fs l kvs : forall st errs, below (un_fields locate un st fs l kvs errs) (un_fields locate un' st fs l kvs errs).
Proof.
  induction kvs as [|[k j] kvs IH]; intros st errs; [apply below_refl|]. cbn [un_fields].
  apply below_bind; [apply set_field_below|]. intros st1 r. apply IH.
Qed.

Lemma un_serial_below f a j : forall st, below (un_serial env un st f a j) (un_serial env un' st f a j).
Proof.
  intros st. destruct f as [| |name]; cbn [un_serial]; try apply below_refl. destruct (zalloc (TStruct name (env name)) (u_mem st)) as [m1 b].
  apply below_bind; [apply Hun|]. intros st1 [e|]; apply below_refl.
Qed.
End Loops.

Ltac mono IH :=
  repeat first
    [ apply below_refl
    | apply IH
    | apply un_elems_below; assumption
    | apply un_members_below; assumption
    | apply un_fields_below; assumption
    | apply un_serial_below; assumption
    | apply below_bind; [|intros ? ?]
    | match goal with
      | |- below (match ?x with _ => _ end) _ => destruct x
      | |- below (let '(_, _) := ?x in _) _ => destruct x
      end ].

Lemma unm_step n : forall st t a j, below (unm n st t a j) (unm (S n) st t a j).
Proof.
  induction n as [|n IH]; intros st t a j; [apply below_fuel|].
  cbn [Unmarshal.unm]. change (
    below (Unmarshal.unm env locate match_us match_eu to_bool parse_time time_json std_ok (S n) st t a j)
          (Unmarshal.unm env locate match_us match_eu to_bool parse_time time_json std_ok (S (S n)) st t a j)).
  remember (S n) as n1 eqn:E1.
  assert (IH' : forall st t a j, below (unm n st t a j) (unm n1 st t a j)) by (subst; exact IH). clear IH.
  rewrite E1 at 1. cbn [Unmarshal.unm]. clear E1. destruct j; mono IH'.
Qed.

Lemma unm_mono n n' st t a j : (n <= n')%nat -> below (unm n st t a j) (unm n' st t a j).
Proof.
  intros L. induction L as [|n' L IH]; [apply below_refl|]. intros H. rewrite <- (IH H). apply unm_step. rewrite (IH H). exact H.
Qed.
End Mono.
