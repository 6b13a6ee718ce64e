(** Fresh variables, parts of memory, and how far a value seen in one part can
    be disturbed by changes elsewhere. *)
From Verif Require Import Base Strconv SortedMap SortedMapFacts Json SpecJson Heap Gotypes SpecMarshal SpecEncode Printer Marshal Unmarshal SpecUnmarshal UnmFacts SpecRestore.

Lemma Forall2_impl_in {A C} (P Q : A -> C -> Prop) l l' : Forall (fun x => forall y, P x y -> Q x y) l -> Forall2 P l l' -> Forall2 Q l l'.
Proof. intros H F. induction F; inversion H; subst; constructor; auto. Qed.

Section Mono.
Context {time_json : bytes -> option (option bytes)}.
Notation shows := (SpecRestore.shows time_json).

Lemma shows_mono (R R' : addr -> addr -> Prop) (g g' : addr -> option vcell) :
  (forall s b, R s b -> R' s b) -> (forall x c, g x = Some c -> g' x = Some c) -> forall v a, shows R g v a -> shows R' g' v a.
Proof.
  intros HR Hg v. induction v as [b|k z|bit f|s|t|t| |l IH|l IH| |m IH|fs IH|a0| |v IH|j|j|j|j|] using gval_ind'; intros a H; inversion H; subst;
    try (econstructor; eauto; fail).
  - eapply sh_slice; [eauto|]. eapply Forall2_impl_in; eassumption.
  - eapply sh_array; [eauto|]. eapply Forall2_impl_in; eassumption.
  - eapply sh_map; [eauto..|]. eapply Forall2_impl_in; [|eassumption]. eapply Forall_impl; [|exact IH]. intros kv K y [E S]. split; [exact E|apply K, S].
  - eapply sh_struct; [eauto|]. eapply Forall2_impl_in; [|eassumption]. eapply Forall_impl; [|exact IH]. intros fv K y S. apply K, S.
Qed.

(** ** Parts of memory: the cells from [lo] to [hi], and those from [L] on *)

Definition part_of (lo hi L : nat) (m : mem) (x : addr) : option vcell :=
  if (((lo <=? x) && (x <? hi)) || (L <=? x))%nat then nth_error m x else None.

Lemma part_in lo hi L m x c : (lo <= x < hi \/ L <= x)%nat -> nth_error m x = Some c -> part_of lo hi L m x = Some c.
Proof.
  intros H E. unfold part_of. destruct ((lo <=? x) && (x <? hi) || (L <=? x))%nat eqn:B; [exact E|].
  apply orb_false_iff in B as [B1 B2]. apply Nat.leb_gt in B2. destruct H as [[H1 H2]|H]; [|lia].
  apply Nat.leb_le in H1. apply Nat.ltb_lt in H2. rewrite H1, H2 in B1. discriminate.
Qed.
Lemma part_out lo hi L m x c : part_of lo hi L m x = Some c -> (lo <= x < hi \/ L <= x)%nat /\ nth_error m x = Some c.
Proof.
  unfold part_of. destruct ((lo <=? x) && (x <? hi) || (L <=? x))%nat eqn:B; [|discriminate]. intros E. split; [|exact E].
  apply orb_prop in B as [B|B]; [apply andb_prop in B as [B1 B2]; apply Nat.leb_le in B1; apply Nat.ltb_lt in B2; left; lia|apply Nat.leb_le in B; right; lia].
Qed.

(** Changed at most in [lo, hi), and grown. *)
Definition kept (lo hi : nat) (m m' : mem) : Prop :=
  (length m <= length m')%nat /\ forall x, (x < length m)%nat -> ~ (lo <= x < hi)%nat -> nth_error m' x = nth_error m x.

Lemma kept_refl lo hi m : kept lo hi m m.
Proof. split; [lia|reflexivity]. Qed.
Lemma kept_trans lo hi m1 m2 m3 : kept lo hi m1 m2 -> kept lo hi m2 m3 -> kept lo hi m1 m3.
Proof. intros [L1 H1] [L2 H2]. split; [lia|]. intros x Lx N. rewrite H2, H1 by (assumption || lia). reflexivity. Qed.
Lemma kept_more lo hi lo' hi' m m' : (lo' <= lo)%nat -> (hi <= hi')%nat -> kept lo hi m m' -> kept lo' hi' m m'.
Proof. intros A C [L H]. split; [exact L|]. intros x Lx N. apply H; [exact Lx|lia]. Qed.
(* Changes beyond the end of the first memory do not count. *)
Lemma kept_new lo hi lo' hi' m1 m2 m3 : kept lo hi m1 m2 -> kept lo' hi' m2 m3 -> (length m1 <= lo')%nat -> kept lo hi m1 m3.
Proof. intros [L1 H1] [L2 H2] C. split; [lia|]. intros x Lx N. rewrite H2, H1 by (assumption || lia). reflexivity. Qed.
Lemma kept_app lo hi m d : kept lo hi m (m ++ d).
Proof. split; [rewrite app_length; lia|]. intros x Lx _. apply nth_error_app1, Lx. Qed.
Lemma kept_write lo hi m a c : (lo <= a < hi)%nat -> kept lo hi m (mwrite m a c).
Proof. intros H. split; [rewrite mwrite_length; lia|]. intros x Lx N. apply mwrite_other. intros <-. apply N, H. Qed.

(** What is seen in one part does not change with another part. *)
Lemma part_kept lo hi L m lo' hi' m' lo2 hi2 L2 : kept lo' hi' m m' -> (forall x, (lo' <= x < hi')%nat -> (lo <= x < hi \/ L <= x)%nat -> False) ->
  (forall x, (lo <= x < hi)%nat -> (lo2 <= x < hi2 \/ L2 <= x)%nat) -> (L2 <= L)%nat ->
  forall x c, part_of lo hi L m x = Some c -> part_of lo2 hi2 L2 m' x = Some c.
Proof.
  intros [HL H] D I1 I2 x c E. apply part_out in E as [Hx E]. assert (Lx : (x < length m)%nat) by (eapply nth_error_lt; exact E).
  apply part_in; [destruct Hx as [Hx|Hx]; [apply I1, Hx|right; lia]|]. rewrite H; [exact E|exact Lx|]. intros N. exact (D x N Hx).
Qed.

Lemma shows_kept (R R' : addr -> addr -> Prop) lo hi L m lo' hi' m' lo2 hi2 L2 v a : kept lo' hi' m m' -> (forall s b, R s b -> R' s b) ->
  (forall x, (lo' <= x < hi')%nat -> (lo <= x < hi \/ L <= x)%nat -> False) ->
  (forall x, (lo <= x < hi)%nat -> (lo2 <= x < hi2 \/ L2 <= x)%nat) -> (L2 <= L)%nat ->
  shows R (part_of lo hi L m) v a -> shows R' (part_of lo2 hi2 L2 m') v a.
Proof. intros K HR D I1 I2. apply shows_mono; [exact HR|]. eapply part_kept; eassumption. Qed.

End Mono.

(** ** Fresh variables: [fresh t lo a], a zero variable [a] of type [t] whose
    cells are those from [lo] to [a] *)

Definition simple (t : gty) : Prop := match t with TArray _ _ | TStruct _ _ => False | _ => True end.

Inductive fresh (m : mem) : gty -> addr -> addr -> Prop :=
| fr_array n t l lo a : nth_error m a = Some (VArray l) -> fresh_run m (repeat t n) l lo a -> fresh m (TArray n t) lo a
| fr_struct n fs l lo a : nth_error m a = Some (VStruct l) -> fresh_run m (map snd fs) l lo a -> fresh m (TStruct n fs) lo a
| fr_cell t a : simple t -> nth_error m a = Some (zero_cell t) -> fresh m t a a
with fresh_run (m : mem) : list gty -> list addr -> addr -> addr -> Prop :=
| run_nil lo : fresh_run m [] [] lo lo
| run_cons t ts x l lo hi : fresh m t lo x -> fresh_run m ts l (S x) hi -> fresh_run m (t :: ts) (x :: l) lo hi.
Scheme fresh_ind2 := Minimality for fresh Sort Prop
  with fresh_run_ind2 := Minimality for fresh_run Sort Prop.
Combined Scheme fresh_mut from fresh_ind2, fresh_run_ind2.

Lemma fresh_bounds m : (forall t lo a, fresh m t lo a -> (lo <= a < length m)%nat) /\ (forall ts l lo hi, fresh_run m ts l lo hi -> (lo <= hi)%nat).
Proof.
  apply fresh_mut.
  - intros n t l lo a E _ H. apply nth_error_lt in E. lia.
  - intros n fs l lo a E _ H. apply nth_error_lt in E. lia.
  - intros t a _ E. apply nth_error_lt in E. lia.
  - intros lo. lia.
  - intros t ts x l lo hi _ H1 _ H2. lia.
Qed.

Lemma fresh_kept m m' : (forall t lo a, fresh m t lo a -> (forall x, (lo <= x <= a)%nat -> nth_error m' x = nth_error m x) -> fresh m' t lo a) /\
  (forall ts l lo hi, fresh_run m ts l lo hi -> (forall x, (lo <= x < hi)%nat -> nth_error m' x = nth_error m x) -> fresh_run m' ts l lo hi).
Proof.
  assert (G : (forall t lo a, fresh m t lo a -> (lo <= a)%nat /\ ((forall x, (lo <= x <= a)%nat -> nth_error m' x = nth_error m x) -> fresh m' t lo a)) /\
    (forall ts l lo hi, fresh_run m ts l lo hi -> (lo <= hi)%nat /\ ((forall x, (lo <= x < hi)%nat -> nth_error m' x = nth_error m x) -> fresh_run m' ts l lo hi))).
  { apply fresh_mut.
    - intros n t l lo a E _ [L H]. split; [exact L|]. intros K. econstructor; [rewrite K by lia; exact E|]. apply H. intros x Hx. apply K. lia.
    - intros n fs l lo a E _ [L H]. split; [exact L|]. intros K. econstructor; [rewrite K by lia; exact E|]. apply H. intros x Hx. apply K. lia.
    - intros t a S E. split; [lia|]. intros K. apply fr_cell; [exact S|]. rewrite K by lia. exact E.
    - intros lo. split; [lia|]. intros _. constructor.
    - intros t ts x l lo hi _ [L1 H1] _ [L2 H2]. split; [lia|]. intros K. constructor; [apply H1; intros y Hy; apply K; lia|apply H2; intros y Hy; apply K; lia]. }
  split; intros; apply G; assumption.
Qed.

(** The variables of a run *)
Definition start (l : list addr) (lo : addr) (i : nat) : addr := match i with O => lo | S i' => S (nth i' l 0%nat) end.

Lemma run_nth m ts l lo hi : fresh_run m ts l lo hi -> forall i t, nth_error ts i = Some t ->
  exists x, nth_error l i = Some x /\ fresh m t (start l lo i) x /\ (lo <= start l lo i <= x)%nat /\ (x < hi)%nat.
Proof.
  induction 1 as [lo|t ts x l lo hi F R IH]; intros i t0 E; [destruct i; discriminate|].
  destruct (fresh_bounds m) as [Bf Br]. pose proof (Bf _ _ _ F). pose proof (Br _ _ _ _ R).
  destruct i as [|i].
  - injection E as ->. exists x. cbn [start nth_error]. split; [reflexivity|]. split; [exact F|]. lia.
  - cbn [nth_error] in E. destruct (IH i t0 E) as (y & Ey & Fy & Ly & Hy). exists y. split; [exact Ey|].
    assert (Es : start (x :: l) lo (S i) = start l (S x) i) by (destruct i; reflexivity). rewrite Es. split; [exact Fy|]. lia.
Qed.

Lemma run_apart m ts l lo hi : fresh_run m ts l lo hi -> forall i i' x x', nth_error l i = Some x -> nth_error l i' = Some x' -> (i < i')%nat -> (x < start l lo i')%nat.
Proof.
  induction 1 as [lo|t ts y l lo hi F R IH]; intros i i' x x' E E' Lt; [destruct i; discriminate|].
  destruct i' as [|i']; [lia|]. cbn [nth_error] in E'.
  assert (Es : start (y :: l) lo (S i') = start l (S y) i') by (destruct i'; reflexivity). rewrite Es.
  destruct i as [|i].
  - injection E as ->. assert (G : nth_error ts i' <> None).
    { apply nth_error_Some. assert (length ts = length l) as ->. { clear - R. induction R; simpl; congruence. } apply nth_error_Some. congruence. }
    destruct (nth_error ts i') as [t'|] eqn:Et; [|congruence]. destruct (run_nth _ _ _ _ _ R i' t' Et) as (z & _ & _ & Lz & _). lia.
  - cbn [nth_error] in E. apply (IH i i' x x' E E'). lia.
Qed.

Lemma run_length m ts l lo hi : fresh_run m ts l lo hi -> length l = length ts.
Proof. induction 1; simpl; congruence. Qed.

(** ** Allocation gives fresh variables *)

Lemma fresh_app m m' : (forall t lo a, fresh m t lo a -> fresh (m ++ m') t lo a) /\ (forall ts l lo hi, fresh_run m ts l lo hi -> fresh_run (m ++ m') ts l lo hi).
Proof.
  apply fresh_mut; intros; try (econstructor; eauto; fail).
  - econstructor; [apply nth_error_app_l; eassumption|assumption].
  - econstructor; [apply nth_error_app_l; eassumption|assumption].
  - apply fr_cell; [assumption|apply nth_error_app_l; assumption].
Qed.

Lemma zalloc_fresh t : forall m, exists d, fst (zalloc t m) = m ++ d /\ S (snd (zalloc t m)) = length (m ++ d) /\ fresh (m ++ d) t (length m) (snd (zalloc t m)).
Proof.
  assert (Simple : forall t, simple t -> zalloc t = (fun m => (m ++ [zero_cell t], length m)) -> forall m, exists d, fst (zalloc t m) = m ++ d /\ S (snd (zalloc t m)) = length (m ++ d) /\ fresh (m ++ d) t (length m) (snd (zalloc t m))).
  { intros t0 S E m. rewrite E. exists [zero_cell t0]. cbn [fst snd]. split; [reflexivity|]. split; [rewrite app_length; simpl; lia|]. apply fr_cell; [exact S|apply nth_error_last]. }
  induction t as [t Ht|t IH|k t IH|t IH|t IH|t IH|n fs IH] using gty_ind'; try (apply Simple; [exact Logic.I|reflexivity]).
  - destruct t; try destruct Ht; (apply Simple; [exact Logic.I|reflexivity]).
  - intros m.
    assert (G : exists d, fst (times k (zalloc t) m) = m ++ d /\ fresh_run (m ++ d) (repeat t k) (snd (times k (zalloc t) m)) (length m) (length (m ++ d))).
    { revert m. induction k as [|k IHk]; intros m; [exists []; rewrite app_nil_r; split; [reflexivity|constructor]|]. cbn [times repeat].
      destruct (IH m) as (d1 & E1 & L1 & F1). destruct (zalloc t m) as [m1 a]. cbn [fst snd] in *. subst m1.
      destruct (IHk (m ++ d1)) as (d2 & E2 & F2). destruct (times k (zalloc t) (m ++ d1)) as [m2 l]. cbn [fst snd] in *. subst m2.
      exists (d1 ++ d2). rewrite app_assoc. split; [reflexivity|]. econstructor; [apply fresh_app, F1|rewrite L1; exact F2]. }
    cbn [zalloc]. destruct G as (d & E & F). destruct (times k (zalloc t) m) as [m1 l]. cbn [fst snd] in *. subst m1.
    exists (d ++ [VArray l]). rewrite app_assoc. split; [reflexivity|]. split; [rewrite (app_length (m ++ d)); simpl; lia|].
    econstructor; [apply nth_error_last|apply fresh_app, F].
  - intros m.
    assert (G : exists d, fst (zfields fs m) = m ++ d /\ fresh_run (m ++ d) (map snd fs) (snd (zfields fs m)) (length m) (length (m ++ d))).
    { revert m. induction fs as [|[f t] fs IHfs]; intros m; [exists []; rewrite app_nil_r; split; [reflexivity|constructor]|]. cbn [zfields map snd]. fold zfields.
      inversion IH as [|? ? I1 I2]; subst. cbn [snd] in I1.
      destruct (I1 m) as (d1 & E1 & L1 & F1). destruct (zalloc t m) as [m1 a]. cbn [fst snd] in *. subst m1.
      destruct (IHfs I2 (m ++ d1)) as (d2 & E2 & F2). destruct (zfields fs (m ++ d1)) as [m2 l]. cbn [fst snd] in *. subst m2.
      exists (d1 ++ d2). rewrite app_assoc. split; [reflexivity|]. econstructor; [apply fresh_app, F1|rewrite L1; exact F2]. }
    cbn [zalloc]. fold zfields. destruct G as (d & E & F). destruct (zfields fs m) as [m1 l]. cbn [fst snd] in *. subst m1.
    exists (d ++ [VStruct l]). rewrite app_assoc. split; [reflexivity|]. split; [rewrite (app_length (m ++ d)); simpl; lia|].
    econstructor; [apply nth_error_last|apply fresh_app, F].
Qed.

Lemma times_fresh t k : forall m, exists d, fst (times k (zalloc t) m) = m ++ d /\ fresh_run (m ++ d) (repeat t k) (snd (times k (zalloc t) m)) (length m) (length (m ++ d)).
Proof.
  induction k as [|k IHk]; intros m; [exists []; rewrite app_nil_r; split; [reflexivity|constructor]|]. cbn [times repeat].
  destruct (zalloc_fresh t m) as (d1 & E1 & L1 & F1). destruct (zalloc t m) as [m1 a]. cbn [fst snd] in *. subst m1.
  destruct (IHk (m ++ d1)) as (d2 & E2 & F2). destruct (times k (zalloc t) (m ++ d1)) as [m2 l]. cbn [fst snd] in *. subst m2.
  exists (d1 ++ d2). rewrite app_assoc. split; [reflexivity|]. econstructor; [apply fresh_app, F1|rewrite L1; exact F2].
Qed.

Lemma mwrite_id m : forall a c, nth_error m a = Some c -> mwrite m a c = m.
Proof. induction m as [|x m IH]; intros [|a] c E; try discriminate; cbn [mwrite]; [injection E as ->; reflexivity|]. f_equal. apply IH, E. Qed.

(** ** Copies *)

Section Copy.
Context {time_json : bytes -> option (option bytes)}.
Notation shows := (SpecRestore.shows time_json).
Context (env : nat -> list (finfo * gty)) (parse_time : bytes -> option bytes) (types : list gty) (R : addr -> addr -> Prop).
Notation holds := (holds env parse_time time_json types).

Lemma holds_simple v t : holds v t -> match v with GArray _ | GStruct _ => True | _ => simple t end.
Proof. destruct v, t; try exact (fun _ => Logic.I); cbn; try tauto; repeat match goal with |- context [match ?o with _ => _ end] => is_var o; destruct o end; tauto. Qed.

Lemma vcopy_shows lo hi L v : forall t m a, holds v t -> shows R (part_of lo hi L m) v a -> (L <= length m)%nat ->
  exists d, fst (vcopy t a m) = m ++ d /\ (length m <= snd (vcopy t a m))%nat /\ shows R (part_of lo hi L (m ++ d)) v (snd (vcopy t a m)).
Proof.
  assert (Cell : forall v t m a c, simple t -> nth_error m a = Some c -> (L <= length m)%nat ->
    (forall d, shows R (part_of lo hi L (m ++ [d])) v a -> d = c -> shows R (part_of lo hi L (m ++ [d])) v (length m)) ->
    shows R (part_of lo hi L m) v a ->
    exists d, fst (vcopy t a m) = m ++ d /\ (length m <= snd (vcopy t a m))%nat /\ shows R (part_of lo hi L (m ++ d)) v (snd (vcopy t a m))).
  { intros v0 t m a c S E HL K Sh. exists [c]. assert (V : vcopy t a m = (m ++ [c], length m)) by (destruct t; try destruct S; cbn [vcopy]; rewrite E; reflexivity).
    rewrite V. cbn [fst snd]. split; [reflexivity|]. split; [lia|]. apply K; [|reflexivity].
    eapply shows_kept; [apply (kept_app 0 0)| |intros x Hx; lia|intros x Hx; left; exact Hx|apply Nat.le_refl|exact Sh]. auto. }
  assert (Last : forall m c, (L <= length m)%nat -> part_of lo hi L (m ++ [c]) (length m) = Some c) by (intros m c HL; apply part_in; [right; exact HL|apply nth_error_last]).
  induction v as [b|k z|bit f|s|t0|t0| |l IH|l IH| |kvs IH|fs IH|a0| |v IH|j|j|j|j|] using gval_ind'; intros t m a Ht H HL; inversion H; subst;
    try (match goal with E : part_of _ _ _ m a = Some ?c |- _ => apply part_out in E as [_ E'];
      apply (Cell _ t m a c (holds_simple _ _ Ht) E' HL); [|exact H]; intros d Sh ->; inversion Sh; subst;
      match goal with E2 : part_of _ _ _ (m ++ [_]) a = Some _ |- _ => apply part_out in E2 as [_ E2]; rewrite (nth_error_app_l _ _ _ _ E') in E2; try (injection E2; intros; subst) end;
      econstructor; eauto; fail end).
  (* arrays and structs *)
  - destruct t as [| | | | | | |n t| | | | | | | | | | | | |]; try (exfalso; exact Ht). destruct Ht as [Len Hl].
    apply part_out in H1 as [Pa E]. rename H2 into F1.
    cbn [vcopy]. rewrite E.
    set (go := fix go (l : list addr) (m : mem) : mem * list addr :=
                 match l with [] => (m, []) | x :: l1 => let '(m1, y) := vcopy t x m in let '(m2, r) := go l1 m1 in (m2, y :: r) end).
    assert (G : forall m0, (L <= length m0)%nat -> Forall2 (shows R (part_of lo hi L m0)) l vars ->
      exists d, fst (go vars m0) = m0 ++ d /\ Forall2 (shows R (part_of lo hi L (m0 ++ d))) l (snd (go vars m0))).
    { clear E Pa Len H HL. revert vars F1 Hl. induction IH as [|v l Hv Hall IHl]; intros vars F1 Hl m0 L0 F0; inversion F0 as [|? x ? vars' S1 S2]; subst.
      - exists []. rewrite app_nil_r. split; [reflexivity|constructor].
      - cbn [go]. fold go. destruct Hl as [Hl1 Hl2]. destruct (Hv t m0 x Hl1 S1 L0) as (d1 & E1 & Lb & S1'). destruct (vcopy t x m0) as [m1 y]. cbn [fst snd] in *. subst m1.
        assert (K : forall v a, shows R (part_of lo hi L m0) v a -> shows R (part_of lo hi L (m0 ++ d1)) v a).
        { intros v0 a0. eapply shows_kept; [apply (kept_app 0 0)| |intros z Hz; lia|intros z Hz; left; exact Hz|apply Nat.le_refl]. auto. }
        destruct (IHl vars' ltac:(inversion F1; assumption) Hl2 (m0 ++ d1)) as (d2 & E2 & S2'); [rewrite app_length; lia|eapply Forall2_impl_in; [|exact S2]; apply Forall_forall; intros; apply K; assumption|].
        destruct (go vars' (m0 ++ d1)) as [m2 r]. cbn [fst snd] in *. subst m2. exists (d1 ++ d2). rewrite app_assoc. split; [reflexivity|]. constructor; [|exact S2'].
        eapply shows_kept; [apply (kept_app 0 0)| |intros z Hz; lia|intros z Hz; left; exact Hz|apply Nat.le_refl|exact S1']. auto. }
    destruct (G m HL F1) as (d & Ed & Fd). destruct (go vars m) as [m1 l']. cbn [fst snd] in *. subst m1.
    exists (d ++ [VArray l']). rewrite app_assoc. split; [reflexivity|]. split; [rewrite app_length; lia|]. eapply sh_array; [apply Last; rewrite app_length; lia|].
    eapply Forall2_impl_in; [|exact Fd]. apply Forall_forall. intros v _ x. eapply shows_kept; [apply (kept_app 0 0)| |intros z Hz; lia|intros z Hz; left; exact Hz|apply Nat.le_refl]. auto.
  - apply part_out in H1 as [_ E']. apply (Cell _ t m a _ (holds_simple _ _ Ht) E' HL); [|exact H]. intros c Sh ->. inversion Sh as [| | | | | | | | | |kvs' d' vars' a' E1 E2 F| | | | | | | | | |]; subst.
    apply part_out in E1 as [_ E1]. rewrite (nth_error_app_l _ _ _ _ E') in E1. injection E1 as <-. eapply sh_map; [apply Last, HL|exact E2|exact F].
  - destruct t as [| | | | | | | | | | |n ts| | | | | | | | |]; try (exfalso; exact Ht).
    apply part_out in H1 as [Pa E]. rename H2 into F1.
    cbn [vcopy]. rewrite E.
    set (go := fix go (ts : list (finfo * gty)) (l : list addr) (m : mem) : mem * list addr :=
                 match ts, l with (_, t') :: ts', x :: l1 => let '(m1, y) := vcopy t' x m in let '(m2, r) := go ts' l1 m1 in (m2, y :: r) | _, _ => (m, []) end).
    assert (G : forall m0, (L <= length m0)%nat -> Forall2 (fun fv x => shows R (part_of lo hi L m0) (snd fv) x) fs vars ->
      exists d, fst (go ts vars m0) = m0 ++ d /\ Forall2 (fun fv x => shows R (part_of lo hi L (m0 ++ d)) (snd fv) x) fs (snd (go ts vars m0))).
    { clear E Pa H HL. cbn [SpecRestore.holds] in Ht. revert ts Ht vars F1. induction IH as [|[f v] fs Hv Hall IHl]; intros ts Ht vars F1 m0 L0 F0; inversion F0 as [|? x ? vars' S1 S2]; subst.
      - exists []. rewrite app_nil_r. destruct ts as [|[f t] ts]; split; try reflexivity; constructor.
      - destruct ts as [|[f' t] ts]; [destruct Ht|]. destruct Ht as (-> & Hl1 & Hl2). cbn [go]. fold go. cbn [snd] in *. destruct (Hv t m0 x Hl1 S1 L0) as (d1 & E1 & Lb & S1'). destruct (vcopy t x m0) as [m1 y]. cbn [fst snd] in *. subst m1.
        assert (K : forall v a, shows R (part_of lo hi L m0) v a -> shows R (part_of lo hi L (m0 ++ d1)) v a).
        { intros v0 a0. eapply shows_kept; [apply (kept_app 0 0)| |intros z Hz; lia|intros z Hz; left; exact Hz|apply Nat.le_refl]. auto. }
        destruct (IHl ts Hl2 vars' ltac:(inversion F1; assumption) (m0 ++ d1)) as (d2 & E2 & S2'); [rewrite app_length; lia|eapply Forall2_impl_in; [|exact S2]; apply Forall_forall; intros; apply K; assumption|].
        destruct (go ts vars' (m0 ++ d1)) as [m2 r]. cbn [fst snd] in *. subst m2. exists (d1 ++ d2). rewrite app_assoc. split; [reflexivity|]. constructor; [|exact S2'].
        eapply shows_kept; [apply (kept_app 0 0)| |intros z Hz; lia|intros z Hz; left; exact Hz|apply Nat.le_refl|exact S1']. auto. }
    destruct (G m HL F1) as (d & Ed & Fd). destruct (go ts vars m) as [m1 l']. cbn [fst snd] in *. subst m1.
    exists (d ++ [VStruct l']). rewrite app_assoc. split; [reflexivity|]. split; [rewrite app_length; lia|]. eapply sh_struct; [apply Last; rewrite app_length; lia|].
    eapply Forall2_impl_in; [|exact Fd]. apply Forall_forall. intros v _ x. eapply shows_kept; [apply (kept_app 0 0)| |intros z Hz; lia|intros z Hz; left; exact Hz|apply Nat.le_refl]. auto.
  - apply part_out in H1 as [_ E']. apply (Cell _ t m a _ (holds_simple _ _ Ht) E' HL); [|exact H]. intros c Sh ->. eapply sh_std_ptr; [apply Last, HL|].
    apply part_out in H2 as [Pb Eb]. apply part_in; [exact Pb|]. rewrite (nth_error_app_l _ _ _ _ Eb). reflexivity.
  - apply part_out in H1 as [_ E']. apply (Cell _ t m a _ (holds_simple _ _ Ht) E' HL); [|exact H]. intros c Sh ->. eapply sh_std_time; [apply Last, HL| |eassumption].
    apply part_out in H2 as [Pb Eb]. apply part_in; [exact Pb|]. rewrite (nth_error_app_l _ _ _ _ Eb). reflexivity.
Qed.
End Copy.
