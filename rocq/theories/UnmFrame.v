(** Unmarshalling changes only variables that the target leads to. *)
From Verif Require Import Base Strconv SortedMap SortedMapFacts Json SpecJson Heap Gotypes Marshal Access Unmarshal SpecUnmarshal UnmFacts.

Section Frame.
Context (env : nat -> list (finfo * gty)) (locate : list (finfo * gty) -> bytes -> list nat).
Context (match_us match_eu : bytes -> bool) (to_bool : bytes -> bool)
  (parse_time : bytes -> option bytes) (time_json : bytes -> option (option bytes)) (std_ok : bytes -> bool).
Notation unm := (unm env locate match_us match_eu to_bool parse_time time_json std_ok).

(** The variables that may change: [S], and those from [L] on. *)
Context (S : addr -> Prop) (L : nat).
Definition inn (x : addr) : Prop := S x \/ (L <= x)%nat.
Definition closed (m : mem) : Prop :=
  (L <= length m)%nat /\ forall x c y, inn x -> nth_error m x = Some c -> In y (mentions c) -> inn y.
Definition same (m m' : mem) : Prop := forall x, (x < L)%nat -> ~ S x -> nth_error m' x = nth_error m x.
Definition step (m m' : mem) : Prop := closed m' /\ same m m'.

Lemma step_refl m : closed m -> step m m.
Proof. intros H. split; [exact H|intros x _ _; reflexivity]. Qed.
Lemma step_trans m1 m2 m3 : step m1 m2 -> step m2 m3 -> step m1 m3.
Proof. intros [_ H1] [H2 H3]. split; [exact H2|]. intros x Lx Nx. rewrite H3, H1 by assumption. reflexivity. Qed.

Lemma write_step m a c : closed m -> inn a -> (forall y, In y (mentions c) -> inn y) -> step m (mwrite m a c).
Proof.
  intros [HL H] Ha Hc. split; [split; [rewrite mwrite_length; exact HL|]|].
  - intros x d y Hx Ex Iy. destruct (Nat.eq_dec a x) as [<-|N].
    + destruct (Nat.lt_ge_cases a (length m)) as [La|La].
      * rewrite mwrite_same in Ex by exact La. injection Ex as <-. apply Hc, Iy.
      * assert (length (mwrite m a c) <= a)%nat as La' by (rewrite mwrite_length; exact La). apply nth_error_None in La'. congruence.
    + rewrite mwrite_other in Ex by exact N. eapply H; eassumption.
  - intros x Lx Nx. apply mwrite_other. intros <-. destruct Ha as [Ha|Ha]; [exact (Nx Ha)|lia].
Qed.

Lemma app_step m d : closed m -> Forall (fun c => forall y, In y (mentions c) -> inn y) d -> step m (m ++ d).
Proof.
  intros [HL H] Hd. split; [split; [rewrite app_length; lia|]|].
  - intros x c y Hx Ex Iy. destruct (Nat.lt_ge_cases x (length m)) as [Lx|Lx].
    + rewrite nth_error_app1 in Ex by exact Lx. eapply H; eassumption.
    + rewrite nth_error_app2 in Ex by exact Lx. apply nth_error_In in Ex. rewrite Forall_forall in Hd. exact (Hd _ Ex y Iy).
  - intros x Lx Nx. apply nth_error_app1. lia.
Qed.

Lemma snoc_step m c : closed m -> (forall y, In y (mentions c) -> inn y) -> step m (m ++ [c]) /\ inn (length m).
Proof. intros H Hc. split; [apply app_step; [exact H|constructor; [exact Hc|constructor]]|right; apply H]. Qed.

Lemma closed_cell m x c y : closed m -> inn x -> nth_error m x = Some c -> In y (mentions c) -> inn y.
Proof. intros [_ H]. apply H. Qed.

(** ** Allocation *)

Lemma times_step f n : (forall m, closed m -> step m (fst (f m)) /\ inn (snd (f m))) ->
  forall m, closed m -> step m (fst (times n f m)) /\ Forall inn (snd (times n f m)).
Proof.
  intros Hf. induction n as [|n IH]; intros m H; [split; [apply step_refl, H|constructor]|]. cbn [times].
  destruct (Hf m H) as [S1 I1]. destruct (f m) as [m1 a]. cbn [fst snd] in *. destruct (IH m1 (proj1 S1)) as [S2 I2]. destruct (times n f m1) as [m2 l]. cbn [fst snd] in *.
  split; [eapply step_trans; eassumption|constructor; assumption].
Qed.

Lemma zero_mentions t y : ~ In y (mentions (zero_cell t)).
Proof. destruct t; intros []. Qed.

Lemma zalloc_step t : forall m, closed m -> step m (fst (zalloc t m)) /\ inn (snd (zalloc t m)).
Proof.
  induction t as [t Ht|t IH|k t IH|t IH|t IH|t IH|n fs IH] using gty_ind'; intros m H;
    try (cbn [zalloc fst snd]; apply snoc_step; [exact H|intros y Iy; destruct (zero_mentions _ _ Iy)]).
  - destruct t; try destruct Ht; cbn [zalloc fst snd]; (apply snoc_step; [exact H|intros y Iy; destruct (zero_mentions _ _ Iy)]).
  - cbn [zalloc]. destruct (times_step (zalloc t) k IH m H) as [S1 I1]. destruct (times k (zalloc t) m) as [m1 l]. cbn [fst snd] in *.
    destruct (snoc_step m1 (VArray l) (proj1 S1)) as [S2 I2]; [cbn [mentions]; rewrite Forall_forall in I1; exact I1|]. split; [eapply step_trans; eassumption|exact I2].
  - cbn [zalloc]. fold zfields.
    assert (G : forall m, closed m -> step m (fst (zfields fs m)) /\ Forall inn (snd (zfields fs m))).
    { clear m H. induction fs as [|[i t] fs IHfs]; intros m H; [split; [apply step_refl, H|constructor]|]. inversion IH as [|? ? I1 I2]; subst. cbn [snd] in I1. cbn [zfields]. fold zfields.
      destruct (I1 m H) as [S1 J1]. destruct (zalloc t m) as [m1 a]. cbn [fst snd] in *. destruct (IHfs I2 m1 (proj1 S1)) as [S2 J2]. destruct (zfields fs m1) as [m2 l]. cbn [fst snd] in *.
      split; [eapply step_trans; eassumption|constructor; assumption]. }
    destruct (G m H) as [S1 I1]. destruct (zfields fs m) as [m1 l]. cbn [fst snd] in *.
    destruct (snoc_step m1 (VStruct l) (proj1 S1)) as [S2 I2]; [cbn [mentions]; rewrite Forall_forall in I1; exact I1|]. split; [eapply step_trans; eassumption|exact I2].
Qed.

Lemma set_zero_step t : forall m a, closed m -> inn a -> step m (set_zero t a m).
Proof.
  assert (W : forall t m a, closed m -> inn a -> step m (mwrite m a (zero_cell t))).
  { clear t. intros t m a H Ha. apply write_step; [exact H|exact Ha|]. intros y Iy. destruct (zero_mentions _ _ Iy). }
  induction t as [t Ht|t IH|k t IH|t IH|t IH|t IH|n fs IH] using gty_ind'; intros m a H Ha; try (apply W; assumption).
  - destruct t; try destruct Ht; apply W; assumption.
  - cbn [set_zero]. destruct (nth_error m a) as [c|] eqn:E; [|apply step_refl, H]. destruct c; try apply step_refl, H.
    assert (Hl : forall x, In x l -> inn x) by (intros x I; eapply closed_cell; [exact H|exact Ha|exact E|exact I]). clear E.
    revert m H Hl. induction l as [|x l IHl]; intros m H Hl; [apply step_refl, H|]. cbn [fold_left].
    pose proof (IH m x H (Hl x (or_introl eq_refl))) as S1. eapply step_trans; [exact S1|]. apply IHl; [apply S1|intros; apply Hl; right; assumption].
  - cbn [set_zero]. destruct (nth_error m a) as [c|] eqn:E; [|apply step_refl, H]. destruct c; try apply step_refl, H.
    assert (Hl : forall x, In x l -> inn x) by (intros x I; eapply closed_cell; [exact H|exact Ha|exact E|exact I]). clear E.
    revert l m H Hl. induction fs as [|[i t] fs IHfs]; intros l m H Hl; [apply step_refl, H|]. destruct l as [|x l]; [apply step_refl, H|].
    inversion IH as [|? ? I1 I2]; subst. cbn [snd] in I1. pose proof (I1 m x H (Hl x (or_introl eq_refl))) as S1.
    eapply step_trans; [exact S1|]. apply (IHfs I2); [apply S1|intros; apply Hl; right; assumption].
Qed.

Lemma vcopy_step t : forall m a, closed m -> inn a -> step m (fst (vcopy t a m)) /\ inn (snd (vcopy t a m)).
Proof.
  assert (W : forall m a, closed m -> inn a -> step m (m ++ [match nth_error m a with Some c => c | None => VOther end]) /\ inn (length m)).
  { intros m a H Ha. apply snoc_step; [exact H|]. destruct (nth_error m a) as [c|] eqn:E; [|intros y []]. intros y. eapply closed_cell; eassumption. }
  induction t as [t Ht|t IH|k t IH|t IH|t IH|t IH|n fs IH] using gty_ind'; intros m a H Ha; try (apply W; assumption).
  - destruct t; try destruct Ht; apply W; assumption.
  - cbn [vcopy]. destruct (nth_error m a) as [c|] eqn:E; [|apply snoc_step; [exact H|intros y []]]. destruct c; try (apply snoc_step; [exact H|intros y []]).
    assert (Hl : forall x, In x l -> inn x) by (intros x I; eapply closed_cell; [exact H|exact Ha|exact E|exact I]). clear E.
    set (go := fix go (l : list addr) (m : mem) : mem * list addr :=
                              match l with
                              | [] => (m, [])
                              | x :: l1 => let '(m1, y) := vcopy t x m in let '(m2, r) := go l1 m1 in (m2, y :: r)
                              end).
    assert (G : forall l m, closed m -> (forall x, In x l -> inn x) -> step m (fst (go l m)) /\ Forall inn (snd (go l m))).
    { clear - IH. induction l as [|x l IHl]; intros m H Hl; [split; [apply step_refl, H|constructor]|]. cbn [go].
      destruct (IH m x H (Hl x (or_introl eq_refl))) as [S1 J1]. destruct (vcopy t x m) as [m1 y]. cbn [fst snd] in *.
      destruct (IHl m1 (proj1 S1) (fun x I => Hl x (or_intror I))) as [S2 J2]. destruct (go l m1) as [m2 r]. cbn [fst snd] in *. split; [eapply step_trans; eassumption|constructor; assumption]. }
    destruct (G l m H Hl) as [S1 I1]. destruct (go l m) as [m1 l']. cbn [fst snd] in *.
    destruct (snoc_step m1 (VArray l') (proj1 S1)) as [S2 I2]; [cbn [mentions]; rewrite Forall_forall in I1; exact I1|]. split; [eapply step_trans; eassumption|exact I2].
  - cbn [vcopy]. destruct (nth_error m a) as [c|] eqn:E; [|apply snoc_step; [exact H|intros y []]]. destruct c; try (apply snoc_step; [exact H|intros y []]).
    assert (Hl : forall x, In x l -> inn x) by (intros x I; eapply closed_cell; [exact H|exact Ha|exact E|exact I]). clear E.
    set (go := fix go (fs : list (finfo * gty)) (l : list addr) (m : mem) : mem * list addr :=
                              match fs, l with
                              | (_, t') :: fs', x :: l1 => let '(m1, y) := vcopy t' x m in let '(m2, r) := go fs' l1 m1 in (m2, y :: r)
                              | _, _ => (m, [])
                              end).
    assert (G : forall l m, closed m -> (forall x, In x l -> inn x) -> step m (fst (go fs l m)) /\ Forall inn (snd (go fs l m))).
    { clear - IH. induction fs as [|[i t] fs IHfs]; intros l m H Hl; [split; [apply step_refl, H|constructor]|].
      destruct l as [|x l]; [split; [apply step_refl, H|constructor]|]. inversion IH as [|? ? I1 I2]; subst. cbn [snd] in I1. cbn [go].
      destruct (I1 m x H (Hl x (or_introl eq_refl))) as [S1 J1]. destruct (vcopy t x m) as [m1 y]. cbn [fst snd] in *.
      destruct (IHfs I2 l m1 (proj1 S1) (fun x I => Hl x (or_intror I))) as [S2 J2]. destruct (go fs l m1) as [m2 r]. cbn [fst snd] in *. split; [eapply step_trans; eassumption|constructor; assumption]. }
    destruct (G l m H Hl) as [S1 I1]. destruct (go fs l m) as [m1 l']. cbn [fst snd] in *.
    destruct (snoc_step m1 (VStruct l') (proj1 S1)) as [S2 I2]; [cbn [mentions]; rewrite Forall_forall in I1; exact I1|]. split; [eapply step_trans; eassumption|exact I2].
Qed.

Lemma indirect_step t : forall m a, closed m -> inn a ->
  step m (fst (indirect env t a m)) /\ forall b, snd (indirect env t a m) = Some b -> inn b.
Proof.
  induction t as [t Ht|t IH|k t IH|t IH|t IH|t IH|n fs IH] using gty_ind'; intros m a H Ha;
    try (cbn [indirect fst snd]; split; [apply step_refl, H|discriminate]).
  - destruct t; try destruct Ht; try (cbn [indirect fst snd]; split; [apply step_refl, H|try discriminate; intros b D; injection D as <-; exact Ha]).
    cbn [indirect]. destruct (nth_error m a) as [c|]; [destruct c as [| | | | | | | | | | | |[j|]| |]|]; cbn [fst snd]; (split; [|discriminate]);
      first [apply step_refl; exact H|apply write_step; [exact H|exact Ha|intros y []]].
  - cbn [indirect].
    assert (N : let '(m1, b) := zalloc (resolve env t) m in
       step m (fst (indirect env t b (mwrite m1 a (VPtr (Some b))))) /\ (forall x, snd (indirect env t b (mwrite m1 a (VPtr (Some b)))) = Some x -> inn x)).
    { destruct (zalloc_step (resolve env t) m H) as [S1 I1]. destruct (zalloc (resolve env t) m) as [m1 b]. cbn [fst snd] in *.
      assert (S2 : step m1 (mwrite m1 a (VPtr (Some b)))) by (apply write_step; [apply S1|exact Ha|intros y [<-|[]]; exact I1]).
      destruct (IH _ b (proj1 S2) I1) as [S3 I3]. split; [|exact I3]. eapply step_trans; [exact S1|]. eapply step_trans; [exact S2|exact S3]. }
    destruct (nth_error m a) as [c|] eqn:E; [destruct c as [| | | | | | | | |[b|]| | | | |]|];
      try (destruct (zalloc (resolve env t) m) as [m1 b']; exact N).
    apply IH; [exact H|]. eapply closed_cell; [exact H|exact Ha|exact E|left; reflexivity].
Qed.

Lemma call_std_step m a text : closed m -> inn a -> step m (fst (call_std time_json std_ok m a text)).
Proof.
  intros H Ha. unfold call_std. destruct (nth_error m a) as [c|]; [destruct c|];
    destruct (std_ok text), (time_json text); first [apply step_refl; exact H|apply write_step; [exact H|exact Ha|intros y []]].
Qed.

Lemma resize_step n t make m a : closed m -> inn a -> step m (fst (resize n t a m make)) /\ Forall inn (snd (resize n t a m make)).
Proof.
  intros H Ha.
  assert (Fr : step m (fst (let '(m1, l) := times n (zalloc t) m in (mwrite m1 a (VSlice (Some (l, n))), l)))
    /\ Forall inn (snd (let '(m1, l) := times n (zalloc t) m in (mwrite m1 a (VSlice (Some (l, n))), l)))).
  { destruct (times_step (zalloc t) n (zalloc_step t) m H) as [S1 I1]. destruct (times n (zalloc t) m) as [m1 l]. cbn [fst snd] in *.
    split; [|exact I1]. eapply step_trans; [exact S1|]. apply write_step; [apply S1|exact Ha|]. cbn [mentions]. rewrite Forall_forall in I1. exact I1. }
  assert (Nl : step m (fst (if make || (0 <? n)%nat then (let '(m1, l) := times n (zalloc t) m in (mwrite m1 a (VSlice (Some (l, n))), l)) else (m, [])))
    /\ Forall inn (snd (if make || (0 <? n)%nat then (let '(m1, l) := times n (zalloc t) m in (mwrite m1 a (VSlice (Some (l, n))), l)) else (m, [])))).
  { destruct (make || (0 <? n)%nat); [exact Fr|]. split; [apply step_refl, H|constructor]. }
  unfold resize. destruct (nth_error m a) as [c|] eqn:E; [destruct c as [| | | | |[[l n']|]| | | | | | | | |]|]; try exact Nl.
  destruct (length l <? n)%nat; [exact Fr|]. cbn [fst snd].
  assert (Hl : Forall inn l) by (apply Forall_forall; intros y Iy; eapply closed_cell; [exact H|exact Ha|exact E|exact Iy]).
  split; [apply write_step; [exact H|exact Ha|cbn [mentions]; rewrite Forall_forall in Hl; exact Hl]|].
  rewrite <- (firstn_skipn n l) in Hl. apply Forall_app in Hl. apply Hl.
Qed.

Lemma map_data_step m a : closed m -> inn a -> step m (fst (map_data a m)) /\ inn (snd (map_data a m)).
Proof.
  intros H Ha. unfold map_data.
  assert (N : step m (mwrite (m ++ [VMapData []]) a (VMap (Some (length m)))) /\ inn (length m)).
  { destruct (snoc_step m (VMapData []) H) as [S1 I1]; [intros y []|]. split; [|exact I1]. eapply step_trans; [exact S1|].
    apply write_step; [apply S1|exact Ha|intros y [<-|[]]; exact I1]. }
  destruct (nth_error m a) as [c|] eqn:E; [destruct c as [| | | | | | |[d|]| | | | | | |]|]; try exact N.
  cbn [fst snd]. split; [apply step_refl, H|]. eapply closed_cell; [exact H|exact Ha|exact E|left; reflexivity].
Qed.

(** ** The session *)

Definition sess_in (s : session) : Prop := forall n nv, find_node s n = Some nv ->
  (forall b t, nv_value nv = Some (b, t) -> inn b) /\ (forall b t, In (b, t) (nv_targets nv) -> inn b).
Definition state_in (st : ustate) : Prop := closed (u_mem st) /\ sess_in (u_sess st).
Definition framed {A} (st : ustate) (r : ures A) : Prop :=
  match r with UOk st' _ => state_in st' /\ same (u_mem st) (u_mem st') | _ => True end.

Lemma framed_step {A} st m' (x : A) : state_in st -> step (u_mem st) m' -> framed st (UOk (with_mem st m') x).
Proof. intros [H Q] [C F]. split; [split; [exact C|exact Q]|exact F]. Qed.
Lemma framed_same {A} st (x : A) : state_in st -> framed st (UOk st x).
Proof. intros H. split; [exact H|intros y _ _; reflexivity]. Qed.
Lemma framed_after {A} st m' (r : ures A) : step (u_mem st) m' -> framed (with_mem st m') r -> framed st r.
Proof. intros [C F] R. destruct r as [st' x| |]; try exact Logic.I. destruct R as [R1 R2]. split; [exact R1|]. intros y Ly Ny. rewrite R2, <- F by assumption. reflexivity. Qed.
Lemma framed_bind {A C} st (r : ures A) (k : ustate -> A -> ures C) :
  framed st r -> (forall st1 x, r = UOk st1 x -> state_in st1 -> framed st1 (k st1 x)) -> framed st (ubind r k).
Proof.
  intros R Kf. destruct r as [st1 x| |]; try exact Logic.I. cbn [ubind]. destruct R as [R1 R2]. specialize (Kf st1 x eq_refl R1).
  destruct (k st1 x) as [st2 y| |]; try exact Logic.I. destruct Kf as [K1 K2]. split; [exact K1|]. intros z Lz Nz. rewrite K2, R2 by assumption. reflexivity.
Qed.

Lemma put_in s n nv : sess_in s -> (forall b t, nv_value nv = Some (b, t) -> inn b) -> (forall b t, In (b, t) (nv_targets nv) -> inn b) -> sess_in (put_node s n nv).
Proof. intros H H1 H2 n' nv'. unfold put_node. cbn [find_node]. destruct (n =? n'); [intros D; injection D as <-; split; assumption|apply H]. Qed.

Lemma set_pointer_step m a t b tb m' : closed m -> inn a -> inn b -> set_pointer m a t b tb = Some m' -> step m m'.
Proof.
  intros H Ha Hb. unfold set_pointer. destruct t; try discriminate.
  - destruct (ty_eqb t tb); [|discriminate]. intros D. injection D as <-. apply write_step; [exact H|exact Ha|intros y [<-|[]]; exact Hb].
  - intros D. injection D as <-. apply write_step; [exact H|exact Ha|intros y [<-|[]]; exact Hb].
  - destruct f; try discriminate. destruct (ty_eqb _ tb); [|discriminate]. intros D. injection D as <-. apply write_step; [exact H|exact Ha|intros y [<-|[]]; exact Hb].
Qed.

Lemma save_framed st n b tb : state_in st -> inn b -> framed st (save_node_value st n b tb).
Proof.
  intros [H Q] Hb. unfold save_node_value.
  assert (P : sess_in (put_node (u_sess st) n {| nv_value := Some (b, tb); nv_targets := [] |})).
  { apply put_in; [exact Q|intros b' t' D; injection D as <- <-; exact Hb|intros ? ? []]. }
  destruct (find_node (u_sess st) n) as [nv|] eqn:F.
  - destruct (set_targets (u_mem st) (nv_targets nv) b tb) as [m|] eqn:E; [|exact Logic.I].
    assert (G : step (u_mem st) m).
    { pose proof (proj2 (Q _ _ F)) as Ht. revert H E Ht. generalize (u_mem st). induction (nv_targets nv) as [|[a t] l IH]; intros m0 H E Ht.
      - injection E as <-. apply step_refl, H.
      - cbn [set_targets] in E. destruct (set_pointer m0 a t b tb) as [m1|] eqn:E1; [|discriminate].
        pose proof (set_pointer_step _ _ _ _ _ _ H (Ht a t (or_introl eq_refl)) Hb E1) as S1. eapply step_trans; [exact S1|].
        apply IH; [apply S1|exact E|intros; eapply Ht; right; eassumption]. }
    destruct G as [G1 G2]. split; [split; [exact G1|exact P]|exact G2].
  - split; [split; [exact H|exact P]|intros x _ _; reflexivity].
Qed.

Lemma set_pointer_value_framed st n a t : state_in st -> inn a -> framed st (set_pointer_value st n a t).
Proof.
  intros [H Q] Ha. unfold set_pointer_value. destruct (find_node (u_sess st) n) as [[[[b tb]|] ts]|] eqn:F; cbn [nv_targets].
  - destruct (set_pointer (u_mem st) a t b tb) as [m|] eqn:E; [|exact Logic.I]. apply framed_step; [split; assumption|].
    eapply set_pointer_step; [exact H|exact Ha| |exact E]. destruct (Q _ _ F) as [Q1 _]. eapply Q1. reflexivity.
  - split; [|intros x _ _; reflexivity]. split; [exact H|]. apply put_in; [exact Q|discriminate|].
    intros b t' I. apply in_app_or in I as [I|[I|[]]]; [eapply (proj2 (Q _ _ F)); exact I|injection I as <- <-; exact Ha].
  - split; [|intros x _ _; reflexivity]. split; [exact H|]. apply put_in; [exact Q|discriminate|]. intros b t' [I|[]]. injection I as <- <-. exact Ha.
Qed.

(** ** The loops *)

Section Loops.
Context (un : ustate -> gty -> addr -> json -> ures (option uerr)).
Hypothesis Hun : forall st t a j, state_in st -> inn a -> framed st (un st t a j).

Lemma un_elems_framed t js : forall l st, state_in st -> Forall inn l -> framed st (un_elems un st t l js).
Proof.
  induction js as [|j js IH]; intros l st H F; [destruct l; apply framed_same, H|]. destruct l as [|a l]; [exact Logic.I|]. inversion F; subst. cbn [un_elems].
  apply framed_bind; [apply Hun; assumption|]. intros st1 [e|] _ H1; [apply framed_same, H1|apply IH; assumption].
Qed.

Lemma un_members_framed t kvs : forall d st, state_in st -> inn d -> framed st (un_members un st t d kvs).
Proof.
  induction kvs as [|[k j] kvs IH]; intros d st H Hd; [apply framed_same, H|]. cbn [un_members].
  destruct (zalloc_step t (u_mem st) (proj1 H)) as [S1 I1]. destruct (zalloc t (u_mem st)) as [m1 tmp]. cbn [fst snd] in *.
  apply (framed_after st m1); [exact S1|]. apply framed_bind; [apply Hun; [split; [apply S1|apply H]|exact I1]|].
  intros st1 [e|] _ H1; [apply framed_same, H1|]. destruct (vcopy_step t (u_mem st1) tmp (proj1 H1) I1) as [S2 I2]. destruct (vcopy t tmp (u_mem st1)) as [m2 b]. cbn [fst snd] in *.
  match goal with |- framed st1 (un_members un (with_mem st1 ?m3) t d kvs) => assert (S3 : step m2 m3) end.
  { destruct (nth_error m2 d) as [c|] eqn:E; [destruct c|]; try apply step_refl, S2. apply write_step; [apply S2|exact Hd|]. cbn [mentions].
    intros y Iy. apply in_map_iff in Iy as ([k' y'] & <- & I). cbn [snd]. apply sm_add_in in I as [I|I]; [injection I as <- <-; exact I2|].
    eapply closed_cell; [apply S2|exact Hd|exact E|]. cbn [mentions]. apply in_map_iff. exists (k', y'). split; [reflexivity|exact I]. }
  eapply framed_after; [eapply step_trans; [exact S2|exact S3]|]. apply IH; [split; [apply S3|apply H1]|exact Hd].
Qed.

Lemma set_field_framed fs l j : forall fuel key visited st, state_in st ->
  (forall i a, selects locate fs key i -> nth_error l i = Some a -> inn a) ->
  framed st (set_field locate un fuel st visited fs l key j).
Proof.
  induction fuel as [|fuel IH]; intros key visited st H Hs; [exact Logic.I|]. cbn [set_field]. destruct (in_strings key visited); [apply framed_same, H|].
  assert (Hi : forall i, In i (locate fs key) -> In i (locate fs key)) by auto. revert Hi.
  generalize (locate fs key) at 1 3. intros idx. generalize (key :: visited). revert st H.
  induction idx as [|i idx IHi]; intros st H v Hi; [apply framed_same, H|].
  destruct (nth_error fs i) as [[info t]|] eqn:Ei; [|exact Logic.I]. destruct (nth_error l i) as [a|] eqn:Ea; [|exact Logic.I].
  apply framed_bind; [apply Hun; [exact H|eapply Hs; [apply sel_here, Hi; left; reflexivity|exact Ea]]|].
  intros st1 [e|] _ H1; [apply framed_same, H1|]. destruct (fi_deprecated_by info) as [other|] eqn:D.
  - apply framed_bind.
    + apply IH; [exact H1|]. intros i' a' Sl Ea'. eapply Hs; [|exact Ea']. eapply sel_next; [apply Hi; left; reflexivity|exact Ei|exact D|exact Sl].
    + intros st2 [v2 [e|]] _ H2; [apply framed_same, H2|]. apply IHi; [exact H2|intros; apply Hi; right; assumption].
  - apply IHi; [exact H1|intros; apply Hi; right; assumption].
Qed.

Lemma un_fields_framed fs l kvs : forall st errs, state_in st ->
  (forall k j i a, In (k, j) kvs -> selects locate fs k i -> nth_error l i = Some a -> inn a) ->
  framed st (un_fields locate un st fs l kvs errs).
Proof.
  induction kvs as [|[k j] kvs IH]; intros st errs H Hs; [apply framed_same, H|]. cbn [un_fields].
  apply framed_bind; [apply set_field_framed; [exact H|intros i a; apply (Hs k j); left; reflexivity]|].
  intros st1 r _ H1. apply IH; [exact H1|]. intros k' j' i a I. apply (Hs k' j'). right. exact I.
Qed.

Lemma un_serial_framed f a j : forall st, state_in st -> inn a -> framed st (un_serial env un st f a j).
Proof.
  intros st H Ha. destruct f as [| |name]; cbn [un_serial]; [apply framed_same, H|exact Logic.I|].
  destruct (zalloc_step (TStruct name (env name)) (u_mem st) (proj1 H)) as [S1 I1]. destruct (zalloc _ (u_mem st)) as [m1 b]. cbn [fst snd] in *.
  apply (framed_after st m1); [exact S1|]. apply framed_bind; [apply Hun; [split; [apply S1|apply H]|exact I1]|].
  intros st1 [e|] _ H1; [apply framed_same, H1|]. apply framed_step; [exact H1|]. apply write_step; [apply H1|exact Ha|]. intros y [<-|[]]. exact I1.
Qed.
End Loops.

(** ** unmarshalValue *)

Lemma std_framed t a j k st : state_in st -> inn a ->
  (forall st', state_in st' -> framed st' (k st')) ->
  framed st (let '(m1, d) := indirect env t a (u_mem st) in
             match d with
             | Some b => let '(m2, e) := call_std time_json std_ok m1 b (Printer.String_ j) in UOk (with_mem st m2) e
             | None => k (with_mem st m1)
             end).
Proof.
  intros H Ha Hk. destruct (indirect_step t (u_mem st) a (proj1 H) Ha) as [S1 I1]. destruct (indirect env t a (u_mem st)) as [m1 d]. cbn [fst snd] in *.
  destruct d as [b|].
  - pose proof (call_std_step m1 b (Printer.String_ j) (proj1 S1) (I1 b eq_refl)) as S2. destruct (call_std _ _ m1 b _) as [m2 e]. cbn [fst] in S2.
    apply framed_step; [exact H|eapply step_trans; eassumption].
  - apply (framed_after st m1); [exact S1|]. apply Hk. split; [apply S1|apply H].
Qed.

Lemma elem_framed n t a j st : (forall st t a j, state_in st -> inn a -> framed st (unm n st t a j)) -> state_in st -> inn a ->
  framed st (match nth_error (u_mem st) a with Some (VPtr (Some b)) => unm n st t b j | _ => UPanic end).
Proof.
  intros IH H Ha. destruct (nth_error (u_mem st) a) as [c|] eqn:E; [destruct c as [| | | | | | | | |[b|]| | | | |]|]; try exact Logic.I.
  apply IH; [exact H|]. eapply closed_cell; [apply H|exact Ha|exact E|left; reflexivity].
Qed.

Lemma put_framed st a c : state_in st -> inn a -> mentions c = [] -> framed st (UOk (with_mem st (mwrite (u_mem st) a c)) (@None uerr)).
Proof. intros H Ha E. apply framed_step; [exact H|]. apply write_step; [apply H|exact Ha|]. rewrite E. intros y []. Qed.

Lemma step_mentions j t c : step_scalar match_us match_eu to_bool parse_time j t = Write c -> mentions c = [].
Proof.
  destruct j; cbn [step_scalar]; try discriminate; unfold step_int, step_bool, step_float, step_string; intros D;
    repeat match type of D with context [match ?x with _ => _ end] => destruct x; try discriminate end; injection D as <-; reflexivity.
Qed.

Lemma unm_framed n : forall st t a j, state_in st -> inn a -> framed st (unm n st t a j).
Proof.
  induction n as [|n IH]; intros st t a j H Ha; [exact Logic.I|].
  assert (Scal : forall st', state_in st' -> framed st' (match step_scalar match_us match_eu to_bool parse_time j t with
        | Write c => UOk (with_mem st' (mwrite (u_mem st') a c)) None
        | Keep => UOk st' None
        | Into t' => match nth_error (u_mem st') a with
                     | Some (VPtr (Some b)) => unm n st' (resolve env t') b j
                     | _ => UPanic
                     end
        | First t' =>
            let '(m1, l) := resize 1 (resolve env t') a (u_mem st') false in
            match l with
            | b :: _ => unm n (with_mem st' m1) (resolve env t') b j
            | [] => UPanic
            end
        | Fail e => UOk st' (Some e)
        | Panic => UPanic
        end)).
  { intros st' H'. destruct (step_scalar _ _ _ _ j t) as [c| |t'|t'|e|] eqn:E; try exact Logic.I; try apply framed_same, H'.
    - apply put_framed; [exact H'|exact Ha|eapply step_mentions; exact E].
    - apply elem_framed; assumption.
    - destruct (resize_step 1 (resolve env t') false (u_mem st') a (proj1 H') Ha) as [S1 I1]. destruct (resize 1 (resolve env t') a (u_mem st') false) as [m1 l]. cbn [fst snd] in *.
      destruct l as [|b l]; [exact Logic.I|]. inversion I1; subst. apply (framed_after st' m1); [exact S1|]. apply IH; [split; [apply S1|apply H']|assumption]. }
  cbn [Unmarshal.unm]. destruct j.
  - apply framed_step; [exact H|]. apply set_zero_step; [apply H|exact Ha].
  - apply (std_framed t a _ (fun st' => _) st H Ha Scal).
  - apply (std_framed t a _ (fun st' => _) st H Ha Scal).
  - apply (std_framed t a _ (fun st' => _) st H Ha Scal).
  - pose proof (std_framed t a (JString s) (fun st' => _) st H Ha Scal) as Z. specialize (Scal st H). destruct t; first [exact Scal|exact Z].
  - refine (std_framed t a (JArray l) (fun st => match t with
            | TJsonVal KArray =>
                match nth_error (u_mem st) a with
                | Some (VJson (Some (JArray old))) => UOk (with_mem st (mwrite (u_mem st) a (VJson (Some (JArray (array_add old l)))))) None
                | _ => UPanic
                end
            | TJsonPtr KArray | TJsonObj => UOk (with_mem st (mwrite (u_mem st) a (VJson (Some (JArray l))))) None
            | TJsonVal _ | TJsonPtr _ => UOk st (Some EMismatch)
            | TString | TTri => UOk (with_mem st (mwrite (u_mem st) a (VString (Printer.String_ (JArray l))))) None
            | TPtr t' => if is_list_kind t' then match nth_error (u_mem st) a with
                                            | Some (VPtr (Some b)) => unm n st (resolve env t') b (JArray l)
                                            | _ => UPanic
                                            end else UOk st (Some EMismatch)
            | TIface => UOk (with_mem st (mwrite (u_mem st) a (VIface (Some (DynJsons l))))) None
            | TMethods | TSer _ _ => UPanic
            | TArray size t' =>
                if negb (Nat.eqb size (length l)) then UOk st (Some EArrayLength)
                else un_elems (unm n) st t' (elems_of a (u_mem st)) l
            | TSlice t' =>
                let '(m1, vars) := resize (length l) (resolve env t') a (u_mem st) true in
                un_elems (unm n) (with_mem st m1) (resolve env t') vars l
            | _ => UOk st (Some EMismatch)
            end) st H Ha _).
    clear Scal. intros st' H'. destruct t; try exact Logic.I; try apply framed_same, H'; try (apply put_framed; [exact H'|exact Ha|reflexivity]).
    + destruct (resize_step (length l) (resolve env t) true (u_mem st') a (proj1 H') Ha) as [S1 I1]. destruct (resize (length l) (resolve env t) a (u_mem st') true) as [m1 vars]. cbn [fst snd] in *.
      apply (framed_after st' m1); [exact S1|]. apply un_elems_framed; [exact IH|split; [apply S1|apply H']|exact I1].
    + destruct (negb _); [apply framed_same, H'|]. apply un_elems_framed; [exact IH|exact H'|]. unfold elems_of.
      destruct (nth_error (u_mem st') a) as [c|] eqn:E; [|constructor]. destruct c; try constructor. apply Forall_forall. intros y Iy. eapply closed_cell; [apply H'|exact Ha|exact E|exact Iy].
    + destruct (is_list_kind t); [apply elem_framed; assumption|apply framed_same, H'].
    + destruct k; try apply framed_same, H'. apply put_framed; [exact H'|exact Ha|reflexivity].
    + destruct k; try apply framed_same, H'. destruct (nth_error (u_mem st') a) as [c|]; [destruct c as [| | | | | | | | | | | |[j|]| |]|]; try exact Logic.I.
      destruct j; try exact Logic.I. apply put_framed; [exact H'|exact Ha|reflexivity].
  - apply framed_bind; [destruct (0 <? nid); [apply save_framed; assumption|apply framed_same, H]|]. clear Scal. intros st1 _ _ H1.
    refine (std_framed t a (JDict nid kvs) (fun st => match t with
            | TJsonVal KDict =>
                match nth_error (u_mem st) a with
                | Some (VJson (Some (JDict id old))) => UOk (with_mem st (mwrite (u_mem st) a (VJson (Some (JDict id (dict_update old (JDict nid kvs))))))) None
                | _ => UPanic
                end
            | TJsonPtr KDict | TJsonObj => UOk (with_mem st (mwrite (u_mem st) a (VJson (Some (JDict nid kvs))))) None
            | TJsonVal _ | TJsonPtr _ => UOk st (Some EMismatch)
            | TString | TTri => UOk (with_mem st (mwrite (u_mem st) a (VString (Printer.String_ (JDict nid kvs))))) None
            | TMap t' =>
                let '(m1, d) := map_data a (u_mem st) in
                un_members (unm n) (with_mem st m1) (resolve env t') d kvs
            | TMapOther _ => let '(m1, _) := map_data a (u_mem st) in UOk (with_mem st m1) (Some EMapKey)
            | TStruct _ fs => un_fields locate (unm n) st fs (fields_of a (u_mem st)) kvs []
            | TIface | TMethods => UOk st (Some EInterface)
            | TSer _ f => un_serial env (unm n) st f a (JDict nid kvs)
            | TPtr t' => if is_dict_kind t' then match nth_error (u_mem st) a with
                                            | Some (VPtr (Some b)) => unm n st (resolve env t') b (JDict nid kvs)
                                            | _ => UPanic
                                            end else UOk st (Some EMismatch)
            | _ => UOk st (Some EMismatch)
            end) st1 H1 Ha _).
    intros st' H'. destruct t; try exact Logic.I; try apply framed_same, H'; try (apply put_framed; [exact H'|exact Ha|reflexivity]).
    + destruct (map_data_step (u_mem st') a (proj1 H') Ha) as [S1 I1]. destruct (map_data a (u_mem st')) as [m1 d]. cbn [fst snd] in *.
      apply (framed_after st' m1); [exact S1|]. apply un_members_framed; [exact IH|split; [apply S1|apply H']|exact I1].
    + destruct (map_data_step (u_mem st') a (proj1 H') Ha) as [S1 I1]. destruct (map_data a (u_mem st')) as [m1 d]. cbn [fst snd] in *. apply framed_step; [exact H'|exact S1].
    + destruct (is_dict_kind t); [apply elem_framed; assumption|apply framed_same, H'].
    + apply un_fields_framed; [exact IH|exact H'|]. intros k j i x _ _ Ex. unfold fields_of in Ex.
      destruct (nth_error (u_mem st') a) as [c|] eqn:E; [|destruct i; discriminate]. destruct c; try (destruct i; discriminate). eapply closed_cell; [apply H'|exact Ha|exact E|].
      cbn [mentions]. eapply nth_error_In. exact Ex.
    + destruct k; try apply framed_same, H'. apply put_framed; [exact H'|exact Ha|reflexivity].
    + destruct k; try apply framed_same, H'. destruct (nth_error (u_mem st') a) as [c|]; [destruct c as [| | | | | | | | | | | |[j|]| |]|]; try exact Logic.I.
      destruct j; try exact Logic.I. apply put_framed; [exact H'|exact Ha|reflexivity].
    + apply un_serial_framed; [exact IH|exact H'|exact Ha].
  - apply set_pointer_value_framed; assumption.
Qed.
End Frame.
