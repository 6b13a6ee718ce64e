(** Unmarshalling into corresponding variables. *)
From Coq Require Import Lia.
From Verif Require Import Base Strconv SortedMap SortedMapFacts Json SpecJson Printer Heap Gotypes Marshal Access Unmarshal SpecUnmarshal UnmFacts SpecSame UnmFrame.

Lemma ext_refl R : extended R R. Proof. intros a a' H. exact H. Qed.
Lemma ext_trans R1 R2 R3 : extended R1 R2 -> extended R2 R3 -> extended R1 R3. Proof. intros H1 H2 a a' H. apply H2, H1, H. Qed.
Lemma F2_ext {A B} (P Q : A -> B -> Prop) l l' : (forall x y, P x y -> Q x y) -> Forall2 P l l' -> Forall2 Q l l'.
Proof. intros H. induction 1; constructor; auto. Qed.
Lemma like_ext R R' c c' : extended R R' -> like R c c' -> like R' c c'.
Proof.
  intros E. unfold like. destruct c as [| | | | |[[? ?]|]| |[?|]| |[?|]| |[[]|]| | |], c' as [| | | | |[[? ?]|]| |[?|]| |[?|]| |[[]|]| | |]; try tauto; try discriminate;
    try (apply F2_ext; exact E); try apply E.
  - intros [H ->]. split; [eapply F2_ext; [exact E|exact H]|reflexivity].
  - apply F2_ext. intros x y [H1 H2]. split; [exact H1|apply E, H2].
  - intros [H ->]. split; [apply E, H|reflexivity].
Qed.
Lemma like_plain R c : mentions c = [] -> like R c c.
Proof. destruct c as [| | | | |[[[] ?]|]|[]|[?|]|[]|[?|]|[]|[[]|]| | |]; cbn; try reflexivity; try discriminate; try constructor; reflexivity || constructor. Qed.

Ltac both c c' L := destruct c as [| | | | |[[? ?]|]| |[?|]| |[?|]| |[[]|]| | |], c' as [| | | | |[[? ?]|]| |[?|]| |[?|]| |[[]|]| | |]; cbn [like] in L; try discriminate L.

Lemma at_cell R m m' a a' : corresponds R m m' -> R a a' -> exists c c', nth_error m a = Some c /\ nth_error m' a' = Some c' /\ like R c c'.
Proof. intros H. apply H. Qed.
Lemma bound R m m' a a' : corresponds R m m' -> R a a' -> (a < length m)%nat /\ (a' < length m')%nat.
Proof. intros H Ra. destruct (at_cell _ _ _ _ _ H Ra) as (c & c' & E & E' & _). split; eapply nth_error_lt; eassumption. Qed.

Lemma write_same R m m' a a' c c' : corresponds R m m' -> R a a' -> like R c c' -> corresponds R (mwrite m a c) (mwrite m' a' c').
Proof.
  intros H Ra Hc. split; [apply H|]. intros b b' Rb. pose proof (proj1 H a b a' b' Ra Rb) as I. destruct (bound _ _ _ _ _ H Ra) as [La La'].
  destruct (Nat.eq_dec a b) as [<-|N].
  - pose proof (proj1 I eq_refl) as <-. exists c, c'. rewrite !mwrite_same by assumption. auto.
  - assert (N' : a' <> b') by (intros E; apply N, I, E). rewrite !mwrite_other by assumption. apply H, Rb.
Qed.

Definition plus (R : correspondence) (n n' : addr) : correspondence := fun a a' => R a a' \/ (a = n /\ a' = n').
Lemma plus_ext R n n' : extended R (plus R n n'). Proof. intros a a' H. left. exact H. Qed.
Lemma snoc_same R m m' c c' : corresponds R m m' -> like R c c' ->
  corresponds (plus R (length m) (length m')) (m ++ [c]) (m' ++ [c']).
Proof.
  intros H Hc. split.
  - intros a b a' b' Ra Rb. destruct Ra as [Ra|[-> ->]], Rb as [Rb|[-> ->]]; [apply H; assumption|..|tauto].
    + pose proof (bound _ _ _ _ _ H Ra). split; intros; subst; lia.
    + pose proof (bound _ _ _ _ _ H Rb). split; intros; subst; lia.
  - intros a a' [Ra|[-> ->]].
    + destruct (at_cell _ _ _ _ _ H Ra) as (d & d' & E & E' & L). exists d, d'. split; [apply nth_error_app_l, E|]. split; [apply nth_error_app_l, E'|]. eapply like_ext; [apply plus_ext|exact L].
    + exists c, c'. rewrite !nth_error_last. split; [reflexivity|]. split; [reflexivity|]. eapply like_ext; [apply plus_ext|exact Hc].
Qed.

(** An allocation: related memories and results. *)
Definition made {A} (Q : correspondence -> A -> A -> Prop) (R : correspondence) (x x' : mem * A) : Prop :=
  exists R', extended R R' /\ corresponds R' (fst x) (fst x') /\ Q R' (snd x) (snd x').
Definition R1 (R : correspondence) (a a' : addr) := R a a'.
Definition R2 (R : correspondence) (l l' : list addr) := Forall2 R l l'.

Lemma snoc_made R m m' c c' : corresponds R m m' -> like R c c' -> made R1 R (m ++ [c], length m) (m' ++ [c'], length m').
Proof. intros H L. exists (plus R (length m) (length m')). split; [apply plus_ext|]. split; [apply snoc_same; assumption|]. right. split; reflexivity. Qed.
Lemma made_ext {A} (Q : correspondence -> A -> A -> Prop) R R' x x' : extended R R' -> made Q R' x x' -> made Q R x x'.
Proof. intros E (R2 & E2 & H). exists R2. split; [eapply ext_trans; eassumption|exact H]. Qed.

Lemma times_made f n : (forall R m m', corresponds R m m' -> made R1 R (f m) (f m')) -> forall R m m', corresponds R m m' -> made R2 R (times n f m) (times n f m').
Proof.
  intros Hf. induction n as [|n IH]; intros R m m' H; [exists R; split; [apply ext_refl|]; split; [exact H|constructor]|]. cbn [times].
  destruct (Hf R m m' H) as (Ra & E1 & H1 & A1). destruct (f m) as [m1 a], (f m') as [m1' a']. cbn [fst snd] in *.
  destruct (IH Ra m1 m1' H1) as (Rb & E2 & H2 & A2). destruct (times n f m1) as [m2 l], (times n f m1') as [m2' l']. cbn [fst snd] in *.
  exists Rb. split; [eapply ext_trans; eassumption|]. split; [exact H2|]. constructor; [apply E2, A1|exact A2].
Qed.

Lemma zero_like R t : like R (zero_cell t) (zero_cell t).
Proof. apply like_plain. destruct t; reflexivity. Qed.

Lemma zalloc_made t : forall R m m', corresponds R m m' -> made R1 R (zalloc t m) (zalloc t m').
Proof.
  induction t as [t Ht|t IH|k t IH|t IH|t IH|t IH|n fs IH] using gty_ind'; intros R m m' H; try (apply snoc_made; [exact H|apply zero_like]).
  - destruct t; try destruct Ht; (apply snoc_made; [exact H|apply zero_like]).
  - cbn [zalloc]. destruct (times_made (zalloc t) k IH R m m' H) as (Ra & E1 & H1 & A1). destruct (times k (zalloc t) m) as [m1 l], (times k (zalloc t) m') as [m1' l']. cbn [fst snd] in *.
    eapply made_ext; [exact E1|]. apply snoc_made; [exact H1|exact A1].
  - cbn [zalloc]. fold zfields.
    assert (G : forall R m m', corresponds R m m' -> made R2 R (zfields fs m) (zfields fs m')).
    { clear R m m' H. induction fs as [|[i t] fs IHfs]; intros R m m' H; [exists R; split; [apply ext_refl|]; split; [exact H|constructor]|]. inversion IH as [|? ? I1 I2]; subst. cbn [snd] in I1. cbn [zfields]. fold zfields.
      destruct (I1 R m m' H) as (Ra & E1 & H1 & A1). destruct (zalloc t m) as [m1 a], (zalloc t m') as [m1' a']. cbn [fst snd] in *.
      destruct (IHfs I2 Ra m1 m1' H1) as (Rb & E2 & H2 & A2). destruct (zfields fs m1) as [m2 l], (zfields fs m1') as [m2' l']. cbn [fst snd] in *.
      exists Rb. split; [eapply ext_trans; eassumption|]. split; [exact H2|]. constructor; [apply E2, A1|exact A2]. }
    destruct (G R m m' H) as (Ra & E1 & H1 & A1). destruct (zfields fs m) as [m1 l], (zfields fs m') as [m1' l']. cbn [fst snd] in *.
    eapply made_ext; [exact E1|]. apply snoc_made; [exact H1|exact A1].
Qed.

Lemma set_zero_same t : forall R m m' a a', corresponds R m m' -> R a a' -> corresponds R (set_zero t a m) (set_zero t a' m').
Proof.
  assert (W : forall t R m m' a a', corresponds R m m' -> R a a' -> corresponds R (mwrite m a (zero_cell t)) (mwrite m' a' (zero_cell t))).
  { clear t. intros t R m m' a a' H Ha. apply write_same; [exact H|exact Ha|apply zero_like]. }
  induction t as [t Ht|t IH|k t IH|t IH|t IH|t IH|n fs IH] using gty_ind'; intros R m m' a a' H Ha; try (apply W; assumption).
  - destruct t; try destruct Ht; apply W; assumption.
  - cbn [set_zero]. destruct (at_cell _ _ _ _ _ H Ha) as (c & c' & -> & -> & L).
    both c c' L; try exact H.
    revert m m' H. induction L as [|x y l l' Rx _ IHl]; intros m m' H; [exact H|]. cbn [fold_left]. apply IHl, IH; assumption.
  - cbn [set_zero]. destruct (at_cell _ _ _ _ _ H Ha) as (c & c' & -> & -> & L).
    both c c' L; try exact H.
    revert l l0 m m' H L. induction fs as [|[i t] fs IHfs]; intros l0 l0' m m' H L; [exact H|]. destruct L as [|x y l l' Rx L]; [exact H|].
    inversion IH as [|? ? I1 I2]; subst. cbn [snd] in I1. apply (IHfs I2); [apply I1; assumption|exact L].
Qed.

Lemma vcopy_made t : forall R m m' a a', corresponds R m m' -> R a a' -> made R1 R (vcopy t a m) (vcopy t a' m').
Proof.
  assert (W : forall R m m' a a', corresponds R m m' -> R a a' ->
    made R1 R (m ++ [match nth_error m a with Some c => c | None => VOther end], length m) (m' ++ [match nth_error m' a' with Some c => c | None => VOther end], length m')).
  { intros R m m' a a' H Ha. destruct (at_cell _ _ _ _ _ H Ha) as (c & c' & -> & -> & L). apply snoc_made; assumption. }
  induction t as [t Ht|t IH|k t IH|t IH|t IH|t IH|n fs IH] using gty_ind'; intros R m m' a a' H Ha; try (apply W; assumption).
  - destruct t; try destruct Ht; apply W; assumption.
  - cbn [vcopy]. destruct (at_cell _ _ _ _ _ H Ha) as (c & c' & -> & -> & L). both c c' L; try (apply snoc_made; [exact H|reflexivity]).
    match goal with |- made _ _ (let '(m1, l') := ?g l m in _) (let '(m1', l1') := _ l0 m' in _) => set (go := g) end.
    assert (G : forall l l' R m m', corresponds R m m' -> Forall2 R l l' -> made R2 R (go l m) (go l' m')).
    { clear - IH. induction l as [|x l IHl]; intros l' R m m' H L; inversion L as [|? y ? l1 Rx L1]; subst; [exists R; split; [apply ext_refl|]; split; [exact H|constructor]|]. cbn.
      destruct (IH R m m' x y H Rx) as (Ra & E1 & H1 & A1). destruct (vcopy t x m) as [m1 b], (vcopy t y m') as [m1' b']. cbn [fst snd] in *.
      destruct (IHl l1 Ra m1 m1' H1 (F2_ext _ _ _ _ E1 L1)) as (Rb & E2 & H2 & A2). destruct (go l m1) as [m2 r], (go l1 m1') as [m2' r']. cbn [fst snd] in *.
      exists Rb. split; [eapply ext_trans; eassumption|]. split; [exact H2|]. constructor; [apply E2, A1|exact A2]. }
    destruct (G l l0 R m m' H L) as (Ra & E1 & H1 & A1). destruct (go l m) as [m1 r], (go l0 m') as [m1' r']. cbn [fst snd] in *.
    eapply made_ext; [exact E1|]. apply snoc_made; [exact H1|exact A1].
  - cbn [vcopy]. destruct (at_cell _ _ _ _ _ H Ha) as (c & c' & -> & -> & L). both c c' L; try (apply snoc_made; [exact H|reflexivity]).
    match goal with |- made _ _ (let '(m1, l') := ?g fs l m in _) (let '(m1', l1') := _ fs l0 m' in _) => set (go := g) end.
    assert (G : forall fs, Forall (fun f => forall R m m' a a', corresponds R m m' -> R a a' -> made R1 R (vcopy (snd f) a m) (vcopy (snd f) a' m')) fs ->
      forall l l' R m m', corresponds R m m' -> Forall2 R l l' -> made R2 R (go fs l m) (go fs l' m')).
    { clear. induction fs as [|[i t] fs IHfs]; intros IH l l' R m m' H L; [exists R; split; [apply ext_refl|]; split; [exact H|constructor]|].
      destruct L as [|x y l l' Rx L1]; [exists R; split; [apply ext_refl|]; split; [exact H|constructor]|]. inversion IH as [|? ? I1 I2]; subst. cbn [snd] in I1. cbn.
      destruct (I1 R m m' x y H Rx) as (Ra & E1 & H1 & A1). destruct (vcopy t x m) as [m1 b], (vcopy t y m') as [m1' b']. cbn [fst snd] in *.
      destruct (IHfs I2 l l' Ra m1 m1' H1 (F2_ext _ _ _ _ E1 L1)) as (Rb & E2 & H2 & A2). destruct (go fs l m1) as [m2 r], (go fs l' m1') as [m2' r']. cbn [fst snd] in *.
      exists Rb. split; [eapply ext_trans; eassumption|]. split; [exact H2|]. constructor; [apply E2, A1|exact A2]. }
    destruct (G fs IH l l0 R m m' H L) as (Ra & E1 & H1 & A1). destruct (go fs l m) as [m1 r], (go fs l0 m') as [m1' r']. cbn [fst snd] in *.
    eapply made_ext; [exact E1|]. apply snoc_made; [exact H1|exact A1].
Qed.

Section Same.
Context (env : nat -> list (finfo * gty)) (locate : list (finfo * gty) -> bytes -> list nat).
Context (match_us match_eu : bytes -> bool) (to_bool : bytes -> bool)
  (parse_time : bytes -> option bytes) (time_json : bytes -> option (option bytes)) (std_ok : bytes -> bool).
Notation unm := (unm env locate match_us match_eu to_bool parse_time time_json std_ok).

Definition RO (R : correspondence) (o o' : option addr) : Prop :=
  match o, o' with Some b, Some b' => R b b' | None, None => True | _, _ => False end.

Lemma made_same {A} (Q : correspondence -> A -> A -> Prop) R m m' x x' : corresponds R m m' -> Q R x x' -> made Q R (m, x) (m', x').
Proof. intros H Hq. exists R. split; [apply ext_refl|]. split; assumption. Qed.

Lemma indirect_made t : forall R m m' a a', corresponds R m m' -> R a a' -> made RO R (indirect env t a m) (indirect env t a' m').
Proof.
  induction t as [t Ht|t IH|k t IH|t IH|t IH|t IH|n fs IH] using gty_ind'; intros R m m' a a' H Ha; try (apply made_same; [exact H|exact Logic.I]).
  - destruct t; try destruct Ht; try (apply made_same; [exact H|exact Logic.I]); try (apply made_same; [exact H|exact Ha]).
    cbn [indirect]. destruct (at_cell _ _ _ _ _ H Ha) as (c & c' & -> & -> & L).
    assert (W : made RO R (mwrite m a (VJson (Some (zero_json k))), None) (mwrite m' a' (VJson (Some (zero_json k))), None)) by (apply made_same; [apply write_same; [exact H|exact Ha|reflexivity]|exact Logic.I]).
    both c c' L; try exact W. injection L as <-. destruct j; [apply made_same; [exact H|exact Logic.I]|exact W].
  - cbn [indirect]. destruct (at_cell _ _ _ _ _ H Ha) as (c & c' & -> & -> & L).
    destruct (zalloc_made (resolve env t) R m m' H) as (Ra & E1 & H1 & A1). destruct (zalloc (resolve env t) m) as [m1 b], (zalloc (resolve env t) m') as [m1' b']. cbn [fst snd] in *.
    assert (W : made RO R (indirect env t b (mwrite m1 a (VPtr (Some b)))) (indirect env t b' (mwrite m1' a' (VPtr (Some b'))))).
    { eapply made_ext; [exact E1|]. apply IH; [|exact A1]. apply write_same; [exact H1|apply E1, Ha|exact A1]. }
    both c c' L; try exact W. apply IH; assumption.
Qed.

Lemma call_std_same R m m' b b' s : corresponds R m m' -> R b b' ->
  corresponds R (fst (call_std time_json std_ok m b s)) (fst (call_std time_json std_ok m' b' s)) /\ snd (call_std time_json std_ok m b s) = snd (call_std time_json std_ok m' b' s).
Proof.
  intros H Hb. unfold call_std. destruct (at_cell _ _ _ _ _ H Hb) as (c & c' & -> & -> & L).
  assert (W : corresponds R (fst (if std_ok s then (mwrite m b (VStd (Some s)), None) else (m, Some EStd))) (fst (if std_ok s then (mwrite m' b' (VStd (Some s)), None) else (m', Some EStd)))
     /\ snd (if std_ok s then (mwrite m b (VStd (Some s)), @None uerr) else (m, Some EStd)) = snd (if std_ok s then (mwrite m' b' (VStd (Some s)), None) else (m', Some EStd))).
  { destruct (std_ok s); (split; [|reflexivity]); [apply write_same; [exact H|exact Hb|reflexivity]|exact H]. }
  both c c' L; try exact W. destruct (time_json s); (split; [|reflexivity]); [apply write_same; [exact H|exact Hb|reflexivity]|exact H].
Qed.

Lemma F2_length {A B} (P : A -> B -> Prop) l l' : Forall2 P l l' -> length l = length l'.
Proof. induction 1; cbn [length]; congruence. Qed.
Lemma F2_firstn {A B} (P : A -> B -> Prop) n l l' : Forall2 P l l' -> Forall2 P (firstn n l) (firstn n l').
Proof. intros H. revert n. induction H; intros [|n]; constructor; auto. Qed.

Lemma resize_made n t mk R m m' a a' : corresponds R m m' -> R a a' -> made R2 R (resize n t a m mk) (resize n t a' m' mk).
Proof.
  intros H Ha. unfold resize. destruct (at_cell _ _ _ _ _ H Ha) as (c & c' & -> & -> & L).
  assert (W : made R2 R (let '(m1, l) := times n (zalloc t) m in (mwrite m1 a (VSlice (Some (l, n))), l)) (let '(m1, l) := times n (zalloc t) m' in (mwrite m1 a' (VSlice (Some (l, n))), l))).
  { destruct (times_made (zalloc t) n (zalloc_made t) R m m' H) as (Ra & E1 & H1 & A1). destruct (times n (zalloc t) m) as [m1 l], (times n (zalloc t) m') as [m1' l']. cbn [fst snd] in *.
    eapply made_ext; [exact E1|]. apply made_same; [|exact A1]. apply write_same; [exact H1|apply E1, Ha|]. split; [exact A1|reflexivity]. }
  assert (V : made R2 R (if mk || (0 <? n)%nat then let '(m1, l) := times n (zalloc t) m in (mwrite m1 a (VSlice (Some (l, n))), l) else (m, []))
                       (if mk || (0 <? n)%nat then let '(m1, l) := times n (zalloc t) m' in (mwrite m1 a' (VSlice (Some (l, n))), l) else (m', []))).
  { destruct (mk || (0 <? n)%nat); [exact W|]. apply made_same; [exact H|constructor]. }
  both c c' L; try exact V. destruct L as [L ->].
  rewrite <- (F2_length _ _ _ L). destruct (length l <? n)%nat; [exact W|]. apply made_same; [|apply F2_firstn, L].
  apply write_same; [exact H|exact Ha|]. split; [exact L|reflexivity].
Qed.

Lemma map_data_made R m m' a a' : corresponds R m m' -> R a a' -> made R1 R (map_data a m) (map_data a' m').
Proof.
  intros H Ha. unfold map_data. destruct (at_cell _ _ _ _ _ H Ha) as (c & c' & -> & -> & L).
  assert (W : made R1 R (mwrite (m ++ [VMapData []]) a (VMap (Some (length m))), length m) (mwrite (m' ++ [VMapData []]) a' (VMap (Some (length m'))), length m')).
  { destruct (snoc_made R m m' (VMapData []) (VMapData []) H (Forall2_nil _)) as (Ra & E1 & H1 & A1). cbn [fst snd] in *.
    eapply made_ext; [exact E1|]. apply made_same; [|exact A1]. apply write_same; [exact H1|apply E1, Ha|exact A1]. }
  both c c' L; try exact W. apply made_same; assumption.
Qed.

(** ** The session *)

Definition pt_like (R : correspondence) (x y : addr * gty) : Prop := R (fst x) (fst y) /\ snd x = snd y.
Definition nv_like (R : correspondence) (v v' : nodeval) : Prop :=
  match nv_value v, nv_value v' with Some x, Some y => pt_like R x y | None, None => True | _, _ => False end /\ Forall2 (pt_like R) (nv_targets v) (nv_targets v').
Definition sess_like (R : correspondence) (s s' : session) : Prop := forall n,
  match find_node s n, find_node s' n with Some v, Some v' => nv_like R v v' | None, None => True | _, _ => False end.

Lemma pt_ext R R' x y : extended R R' -> pt_like R x y -> pt_like R' x y.
Proof. intros E [H1 H2]. split; [apply E, H1|exact H2]. Qed.
Lemma nv_ext R R' x y : extended R R' -> nv_like R x y -> nv_like R' x y.
Proof.
  intros E [H1 H2]. split; [|eapply F2_ext; [|exact H2]; intros; eapply pt_ext; eassumption].
  destruct (nv_value x), (nv_value y); try exact H1. eapply pt_ext; eassumption.
Qed.
Lemma sess_ext R R' s s' : extended R R' -> sess_like R s s' -> sess_like R' s s'.
Proof. intros E H n. specialize (H n). destruct (find_node s n), (find_node s' n); try exact H. eapply nv_ext; eassumption. Qed.

Definition matched (R : correspondence) (st st' : ustate) : Prop := corresponds R (u_mem st) (u_mem st') /\ sess_like R (u_sess st) (u_sess st').
Definition same {A} (R : correspondence) (r r' : ures A) : Prop :=
  match r, r' with
  | UOk st x, UOk st' x' => x = x' /\ exists R', extended R R' /\ matched R' st st'
  | UPanic, UPanic | UFuel, UFuel => True
  | _, _ => False
  end.

Lemma same_ok {A} R st st' (x : A) : matched R st st' -> same R (UOk st x) (UOk st' x).
Proof. intros H. split; [reflexivity|]. exists R. split; [apply ext_refl|exact H]. Qed.
Lemma same_ext {A} R R' (r r' : ures A) : extended R R' -> same R' r r' -> same R r r'.
Proof. intros E H. destruct r, r'; try exact H. destruct H as [-> (R2 & E2 & H)]. split; [reflexivity|]. exists R2. split; [eapply ext_trans; eassumption|exact H]. Qed.
Lemma same_bind {A C} R (r r' : ures A) (k k' : ustate -> A -> ures C) :
  same R r r' -> (forall R' st st' x, extended R R' -> matched R' st st' -> same R' (k st x) (k' st' x)) -> same R (ubind r k) (ubind r' k').
Proof. intros H K. destruct r, r'; try exact H; try destruct H. destruct H0 as (R' & E & M). subst. cbn [ubind]. eapply same_ext; [exact E|]. apply K; assumption. Qed.
Lemma matched_ext R R' st st' m m' : matched R st st' -> extended R R' -> corresponds R' m m' -> matched R' (with_mem st m) (with_mem st' m').
Proof. intros [_ S] E H. split; [exact H|eapply sess_ext; eassumption]. Qed.
Lemma matched_with R st st' m m' : matched R st st' -> corresponds R m m' -> matched R (with_mem st m) (with_mem st' m').
Proof. intros H. apply (matched_ext R R); [exact H|apply ext_refl]. Qed.

Lemma set_pointer_same (R : correspondence) m m' a a' t b b' tb : corresponds R m m' -> R a a' -> R b b' ->
  match set_pointer m a t b tb, set_pointer m' a' t b' tb with Some m1, Some m1' => corresponds R m1 m1' | None, None => True | _, _ => False end.
Proof.
  intros H Ha Hb. unfold set_pointer. destruct t; try exact Logic.I.
  - destruct (ty_eqb t tb); [|exact Logic.I]. apply write_same; assumption.
  - apply write_same; [exact H|exact Ha|]. split; [exact Hb|reflexivity].
  - destruct f; try exact Logic.I. destruct (ty_eqb _ tb); [|exact Logic.I]. apply write_same; [exact H|exact Ha|]. split; [exact Hb|reflexivity].
Qed.

Lemma set_targets_same (R : correspondence) b b' tb l l' : R b b' -> Forall2 (pt_like R) l l' -> forall m m', corresponds R m m' ->
  match set_targets m l b tb, set_targets m' l' b' tb with Some m1, Some m1' => corresponds R m1 m1' | None, None => True | _, _ => False end.
Proof.
  intros Hb. induction 1 as [|[a t] [a' t'] l l' [Ra E] _ IH]; intros m m' H; [exact H|]. cbn [fst snd] in *. subst t'. cbn [set_targets].
  pose proof (set_pointer_same R m m' a a' t b b' tb H Ra Hb) as S. destruct (set_pointer m a t b tb), (set_pointer m' a' t b' tb); try contradiction; [apply IH, S|exact Logic.I].
Qed.

Lemma put_like R s s' n v v' : sess_like R s s' -> nv_like R v v' -> sess_like R (put_node s n v) (put_node s' n v').
Proof. intros S V k. unfold put_node. cbn [find_node]. destruct (n =? k)%Z; [exact V|apply S]. Qed.

Lemma save_same R st st' n b b' tb : matched R st st' -> R b b' -> same R (save_node_value st n b tb) (save_node_value st' n b' tb).
Proof.
  intros [H S] Hb. unfold save_node_value. pose proof (S n) as F.
  assert (V : nv_like R {| nv_value := Some (b, tb); nv_targets := [] |} {| nv_value := Some (b', tb); nv_targets := [] |}) by (split; [split; [exact Hb|reflexivity]|constructor]).
  destruct (find_node (u_sess st) n) as [v|], (find_node (u_sess st') n) as [v'|]; try contradiction.
  - pose proof (set_targets_same R b b' tb _ _ Hb (proj2 F) _ _ H) as T.
    destruct (set_targets (u_mem st) (nv_targets v) b tb), (set_targets (u_mem st') (nv_targets v') b' tb); try contradiction; [|exact Logic.I].
    apply same_ok. split; [exact T|apply put_like; assumption].
  - apply same_ok. split; [exact H|apply put_like; assumption].
Qed.

Lemma set_pointer_value_same R st st' n a a' t : matched R st st' -> R a a' -> same R (set_pointer_value st n a t) (set_pointer_value st' n a' t).
Proof.
  intros [H S] Ha. unfold set_pointer_value. pose proof (S n) as F.
  destruct (find_node (u_sess st) n) as [[[[b tb]|] ts]|], (find_node (u_sess st') n) as [[[[b' tb']|] ts']|]; try contradiction; try (destruct F; contradiction).
  - destruct F as [[Hb E] _]. cbn [fst snd] in *. subst tb'. pose proof (set_pointer_same R _ _ a a' t b b' tb H Ha Hb) as T.
    destruct (set_pointer (u_mem st) a t b tb), (set_pointer (u_mem st') a' t b' tb); try contradiction; [|exact Logic.I]. apply same_ok. split; [exact T|exact S].
  - apply same_ok. split; [exact H|]. apply put_like; [exact S|]. split; [exact Logic.I|]. cbn [nv_targets]. apply Forall2_app; [apply F|]. constructor; [split; [exact Ha|reflexivity]|constructor].
  - apply same_ok. split; [exact H|]. apply put_like; [exact S|]. split; [exact Logic.I|]. constructor; [split; [exact Ha|reflexivity]|constructor].
Qed.

(** ** The loops *)

Lemma sm_add_same (R : correspondence) k b b' l l' : Forall2 (fun x y => fst x = fst y /\ R (snd x) (snd y)) l l' -> R b b' ->
  Forall2 (fun x y => fst x = fst y /\ R (snd x) (snd y)) (sm_add l k b) (sm_add l' k b').
Proof.
  intros H Hb. induction H as [|[k1 b1] [k2 b2] l l' [E Rb] H IH]; [repeat constructor; assumption|]. cbn [fst snd] in *. subst k2. cbn [sm_add].
  destruct (bcmp k k1); repeat constructor; assumption.
Qed.

Section Loops.
Context (un : ustate -> gty -> addr -> json -> ures (option uerr)).
Hypothesis Hun : forall R st st' t a a' j, matched R st st' -> R a a' -> same R (un st t a j) (un st' t a' j).

Lemma un_elems_same t js : forall R l l' st st', matched R st st' -> Forall2 R l l' -> same R (un_elems un st t l js) (un_elems un st' t l' js).
Proof.
  induction js as [|j js IH]; intros R l l' st st' H F; [destruct F; apply same_ok, H|]. destruct F as [|a a' l l' Ra F]; [exact Logic.I|]. cbn [un_elems].
  apply same_bind; [apply Hun; assumption|]. intros R' s s' [e|] E H1; [apply same_ok, H1|apply IH; [exact H1|eapply F2_ext; eassumption]].
Qed.

Lemma un_members_same t kvs : forall R d d' st st', matched R st st' -> R d d' -> same R (un_members un st t d kvs) (un_members un st' t d' kvs).
Proof.
  induction kvs as [|[k j] kvs IH]; intros R d d' st st' H Hd; [apply same_ok, H|]. cbn [un_members].
  destruct (zalloc_made t R _ _ (proj1 H)) as (Ra & E1 & H1 & A1). destruct (zalloc t (u_mem st)) as [m1 tmp], (zalloc t (u_mem st')) as [m1' tmp']. cbn [fst snd] in *.
  eapply same_ext; [exact E1|]. apply same_bind; [apply Hun; [eapply matched_ext; eassumption|exact A1]|].
  intros Rb s s' [e|] E2 H2; [apply same_ok, H2|].
  destruct (vcopy_made t Rb (u_mem s) (u_mem s') tmp tmp' (proj1 H2) (E2 _ _ A1)) as (Rc & E3 & H3 & A3). destruct (vcopy t tmp (u_mem s)) as [m2 b], (vcopy t tmp' (u_mem s')) as [m2' b']. cbn [fst snd] in *.
  assert (Hd' : Rc d d') by (apply E3, E2, E1, Hd).
  eapply same_ext; [exact E3|]. apply IH; [|exact Hd'].
  eapply matched_ext; [exact H2|exact E3|]. destruct (at_cell _ _ _ _ _ H3 Hd') as (c & c' & -> & -> & L).
  both c c' L; try exact H3. apply write_same; [exact H3|exact Hd'|]. apply sm_add_same; assumption.
Qed.

Lemma F2_nth {A B} (P : A -> B -> Prop) l l' : Forall2 P l l' -> forall i, match nth_error l i, nth_error l' i with Some x, Some y => P x y | None, None => True | _, _ => False end.
Proof. induction 1 as [|x y l l' Pxy _ IH]; intros [|i]; cbn [nth_error]; try exact Logic.I; [exact Pxy|apply IH]. Qed.

Lemma set_field_same fs j : forall fuel key visited R l l' st st', matched R st st' -> Forall2 R l l' ->
  same R (set_field locate un fuel st visited fs l key j) (set_field locate un fuel st' visited fs l' key j).
Proof.
  induction fuel as [|fuel IH]; intros key visited R l l' st st' H F; [exact Logic.I|]. cbn [set_field]. destruct (in_strings key visited); [apply same_ok, H|].
  generalize (key :: visited). revert R st st' H F. induction (locate fs key) as [|i idx IHi]; intros R st st' H F v; [apply same_ok, H|].
  destruct (nth_error fs i) as [[info t]|]; [|exact Logic.I]. pose proof (F2_nth _ _ _ F i) as N.
  destruct (nth_error l i) as [a|], (nth_error l' i) as [a'|]; try contradiction; [|exact Logic.I].
  apply same_bind; [apply Hun; assumption|]. intros R' s s' [e|] E H1; [apply same_ok, H1|].
  pose proof (F2_ext _ _ _ _ E F) as F1. destruct (fi_deprecated_by info) as [other|]; [|apply IHi; assumption].
  apply same_bind; [apply IH; assumption|]. intros R2 s2 s2' [v2 [e|]] E2 H2; [apply same_ok, H2|]. apply IHi; [exact H2|]. eapply F2_ext; eassumption.
Qed.

Lemma un_fields_same fs kvs : forall R l l' st st' errs, matched R st st' -> Forall2 R l l' ->
  same R (un_fields locate un st fs l kvs errs) (un_fields locate un st' fs l' kvs errs).
Proof.
  induction kvs as [|[k j] kvs IH]; intros R l l' st st' errs H F; [apply same_ok, H|]. cbn [un_fields].
  apply same_bind; [apply set_field_same; assumption|]. intros R' s s' r E H1. apply IH; [exact H1|eapply F2_ext; eassumption].
Qed.

Lemma un_serial_same f j : forall (R : correspondence) a a' st st', matched R st st' -> R a a' -> same R (un_serial env un st f a j) (un_serial env un st' f a' j).
Proof.
  intros R a a' st st' H Ha. destruct f as [| |name]; cbn [un_serial]; [apply same_ok, H|exact Logic.I|].
  destruct (zalloc_made (TStruct name (env name)) R _ _ (proj1 H)) as (Ra & E1 & H1 & A1).
  destruct (zalloc _ (u_mem st)) as [m1 b], (zalloc _ (u_mem st')) as [m1' b']. cbn [fst snd] in *.
  eapply same_ext; [exact E1|]. apply same_bind; [apply Hun; [eapply matched_ext; eassumption|exact A1]|].
  intros Rb s s' [e|] E2 H2; [apply same_ok, H2|]. apply same_ok. apply matched_with; [exact H2|].
  apply write_same; [apply H2|apply E2, E1, Ha|]. split; [apply E2, A1|reflexivity].
Qed.
End Loops.

(** ** unmarshalValue *)

Lemma elem_same n t (R : correspondence) a a' j st st' : (forall R st st' t a a' j, matched R st st' -> R a a' -> same R (unm n st t a j) (unm n st' t a' j)) -> matched R st st' -> R a a' ->
  same R (match nth_error (u_mem st) a with Some (VPtr (Some b)) => unm n st t b j | _ => UPanic end)
         (match nth_error (u_mem st') a' with Some (VPtr (Some b)) => unm n st' t b j | _ => UPanic end).
Proof.
  intros IH H Ha. destruct (at_cell _ _ _ _ _ (proj1 H) Ha) as (c & c' & -> & -> & L). both c c' L; try exact Logic.I. apply IH; assumption.
Qed.

Lemma put_same R st st' a a' c : matched R st st' -> R a a' -> mentions c = [] ->
  same R (UOk (with_mem st (mwrite (u_mem st) a c)) (@None uerr)) (UOk (with_mem st' (mwrite (u_mem st') a' c)) None).
Proof. intros H Ha E. apply same_ok, matched_with; [exact H|]. apply write_same; [apply H|exact Ha|apply like_plain, E]. Qed.

Lemma scalar_same n t (R : correspondence) a a' j : (forall R st st' t a a' j, matched R st st' -> R a a' -> same R (unm n st t a j) (unm n st' t a' j)) -> R a a' ->
  forall s s', matched R s s' -> same R
      (match step_scalar match_us match_eu to_bool parse_time j t with
        | Write c => UOk (with_mem s (mwrite (u_mem s) a c)) None
        | Keep => UOk s None
        | Into t' => match nth_error (u_mem s) a with Some (VPtr (Some b)) => unm n s (resolve env t') b j | _ => UPanic end
        | First t' => let '(m1, l) := resize 1 (resolve env t') a (u_mem s) false in
            match l with b :: _ => unm n (with_mem s m1) (resolve env t') b j | [] => UPanic end
        | Fail e => UOk s (Some e)
        | Panic => UPanic
        end)
      (match step_scalar match_us match_eu to_bool parse_time j t with
        | Write c => UOk (with_mem s' (mwrite (u_mem s') a' c)) None
        | Keep => UOk s' None
        | Into t' => match nth_error (u_mem s') a' with Some (VPtr (Some b)) => unm n s' (resolve env t') b j | _ => UPanic end
        | First t' => let '(m1, l) := resize 1 (resolve env t') a' (u_mem s') false in
            match l with b :: _ => unm n (with_mem s' m1) (resolve env t') b j | [] => UPanic end
        | Fail e => UOk s' (Some e)
        | Panic => UPanic
        end).
Proof.
  intros IH Ha s s' Hs. destruct (step_scalar _ _ _ _ j t) as [c| |t'|t'|e|] eqn:E; try exact Logic.I; try apply same_ok, Hs.
  - apply put_same; [exact Hs|exact Ha|eapply step_mentions; exact E].
  - apply elem_same; assumption.
  - destruct (resize_made 1 (resolve env t') false R _ _ a a' (proj1 Hs) Ha) as (Ra & E1 & H1 & A1).
    destruct (resize 1 (resolve env t') a (u_mem s) false) as [m1 l], (resize 1 (resolve env t') a' (u_mem s') false) as [m1' l']. cbn [fst snd] in *.
    destruct A1 as [|b b' l l' Rb _]; [exact Logic.I|]. eapply same_ext; [exact E1|]. apply IH; [eapply matched_ext; eassumption|exact Rb].
Qed.

Lemma unm_same n : forall R st st' t a a' j, matched R st st' -> R a a' -> same R (unm n st t a j) (unm n st' t a' j).
Proof.
  induction n as [|n IH]; intros R st st' t a a' j H Ha; [exact Logic.I|].
  pose proof (fun R0 Ha0 => scalar_same n t R0 a a' j IH Ha0) as Scal.
  assert (Call : forall R st st' b b' m m', matched R st st' -> corresponds R m m' -> R b b' ->
    same R (let '(m2, e) := call_std time_json std_ok m b (Printer.String_ j) in UOk (with_mem st m2) e) (let '(m2, e) := call_std time_json std_ok m' b' (Printer.String_ j) in UOk (with_mem st' m2) e)).
  { clear. intros R st st' b b' m m' H H1 A1. destruct (call_std_same R m m' b b' (Printer.String_ j) H1 A1) as [H2 E2].
    destruct (call_std _ _ m b _) as [m2 e], (call_std _ _ m' b' _) as [m2' e']. cbn [fst snd] in *. subst e'. apply same_ok. apply matched_with; assumption. }
  Ltac std_tac t R H Ha Call := match type of H with matched _ ?st ?st' => match type of Ha with _ ?a ?a' =>
    let Ra := fresh "Ra" in let E1 := fresh "E" in let H1 := fresh "H" in let A1 := fresh "A" in
    destruct (indirect_made t R _ _ a a' (proj1 H) Ha) as (Ra & E1 & H1 & A1);
    destruct (indirect env t a (u_mem st)) as [? [?b|]], (indirect env t a' (u_mem st')) as [? [?b|]]; cbn [fst snd RO] in *; try contradiction A1;
    (eapply same_ext; [exact E1|]; apply E1 in Ha; apply (fun X => matched_ext R Ra _ _ _ _ X E1 H1) in H);
    [exact (Call _ _ _ _ _ _ _ H H1 A1)|clear R E1 H1 A1]
    end end.
  cbn [Unmarshal.unm]. destruct j.
  - apply same_ok, matched_with; [exact H|]. apply set_zero_same; [apply H|exact Ha].
  - std_tac t R H Ha Call. exact (Scal _ Ha _ _ H).
  - std_tac t R H Ha Call. exact (Scal _ Ha _ _ H).
  - std_tac t R H Ha Call. exact (Scal _ Ha _ _ H).
  - pose proof (Scal _ Ha _ _ H) as Y. destruct t; try exact Y; clear Y; match goal with |- context [indirect env ?t a _] => std_tac t R H Ha Call end; exact (Scal _ Ha _ _ H).
  - std_tac t R H Ha Call. clear - IH H Ha. rename Ra into R. revert H. generalize (with_mem st m) (with_mem st' m0). intros s s' H.
    destruct t; try exact Logic.I; try apply same_ok, H; try (apply put_same; [exact H|exact Ha|reflexivity]).
    + destruct (resize_made (length l) (resolve env t) true R _ _ a a' (proj1 H) Ha) as (Ra & E1 & H1 & A1).
      destruct (resize (length l) (resolve env t) a (u_mem s) true) as [m1 v], (resize (length l) (resolve env t) a' (u_mem s') true) as [m1' v']. cbn [fst snd] in *.
      eapply same_ext; [exact E1|]. apply un_elems_same; [exact IH|eapply matched_ext; eassumption|exact A1].
    + destruct (negb _); [apply same_ok, H|]. apply un_elems_same; [exact IH|exact H|]. unfold elems_of.
      destruct (at_cell _ _ _ _ _ (proj1 H) Ha) as (c & c' & -> & -> & L). both c c' L; try constructor. exact L.
    + destruct (is_list_kind t); [apply elem_same; assumption|apply same_ok, H].
    + destruct k; try apply same_ok, H. apply put_same; [exact H|exact Ha|reflexivity].
    + destruct k; try apply same_ok, H. destruct (at_cell _ _ _ _ _ (proj1 H) Ha) as (c & c' & -> & -> & L). both c c' L; try exact Logic.I.
      injection L as <-. destruct j as [[]|]; try exact Logic.I. apply put_same; [exact H|exact Ha|reflexivity].
  - apply same_bind; [destruct (0 <? nid); [apply save_same; assumption|apply same_ok, H]|]. intros R1 st1 st1' _ E H1.
    assert (Ha1 : R1 a a') by (apply E, Ha). clear E H Ha R. std_tac t R1 H1 Ha1 Call. rename Ra into R. clear - IH H1 Ha1. revert H1. generalize (with_mem st1 m) (with_mem st1' m0). intros s s' H. rename Ha1 into Ha.
    destruct t; try exact Logic.I; try apply same_ok, H; try (apply put_same; [exact H|exact Ha|reflexivity]).
    + destruct (map_data_made R _ _ a a' (proj1 H) Ha) as (Ra & E1 & H1 & A1).
      destruct (map_data a (u_mem s)) as [m1 d], (map_data a' (u_mem s')) as [m1' d']. cbn [fst snd] in *.
      eapply same_ext; [exact E1|]. apply un_members_same; [exact IH|eapply matched_ext; eassumption|exact A1].
    + destruct (map_data_made R _ _ a a' (proj1 H) Ha) as (Ra & E1 & H1 & A1).
      destruct (map_data a (u_mem s)) as [m1 d], (map_data a' (u_mem s')) as [m1' d']. cbn [fst snd] in *.
      eapply same_ext; [exact E1|]. apply same_ok. eapply matched_ext; eassumption.
    + destruct (is_dict_kind t); [apply elem_same; assumption|apply same_ok, H].
    + apply un_fields_same; [exact IH|exact H|]. unfold fields_of.
      destruct (at_cell _ _ _ _ _ (proj1 H) Ha) as (c & c' & -> & -> & L). both c c' L; try constructor. exact L.
    + destruct k; try apply same_ok, H. apply put_same; [exact H|exact Ha|reflexivity].
    + destruct k; try apply same_ok, H. destruct (at_cell _ _ _ _ _ (proj1 H) Ha) as (c & c' & -> & -> & L). both c c' L; try exact Logic.I.
      injection L as <-. destruct j as [[]|]; try exact Logic.I. apply put_same; [exact H|exact Ha|reflexivity].
    + apply un_serial_same; [exact IH|exact H|exact Ha].
  - apply set_pointer_value_same; assumption.
Qed.
End Same.
