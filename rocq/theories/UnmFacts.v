(** Memory, allocation and typing facts for Unmarshal.v. *)
From Verif Require Import Base Strconv SortedMap SortedMapFacts Json SpecJson Heap Gotypes Marshal Access Unmarshal SpecUnmarshal.

(** ** mwrite *)

Lemma mwrite_length m : forall a c, length (mwrite m a c) = length m.
Proof. induction m as [|x m IH]; intros [|a] c; simpl; auto. Qed.

Lemma mwrite_same m : forall a c, (a < length m)%nat -> nth_error (mwrite m a c) a = Some c.
Proof. induction m as [|x m IH]; intros [|a] c H; simpl in *; try lia; [reflexivity|]. apply IH. lia. Qed.

Lemma mwrite_other m : forall a b c, a <> b -> nth_error (mwrite m a c) b = nth_error m b.
Proof. induction m as [|x m IH]; intros [|a] [|b] c H; simpl; try reflexivity; try lia. apply IH. lia. Qed.

Lemma mwrite_app m m' : forall a c, (a < length m)%nat -> mwrite (m ++ m') a c = mwrite m a c ++ m'.
Proof. induction m as [|x m IH]; intros [|a] c H; simpl in *; try lia; [reflexivity|]. f_equal. apply IH. lia. Qed.

Lemma nth_error_app_l {A} (l l' : list A) a x : nth_error l a = Some x -> nth_error (l ++ l') a = Some x.
Proof. intros H. rewrite nth_error_app1; [exact H|]. apply nth_error_Some. congruence. Qed.

Lemma nth_error_lt {A} (l : list A) a x : nth_error l a = Some x -> (a < length l)%nat.
Proof. intros H. apply nth_error_Some. congruence. Qed.

Lemma nth_error_last {A} (l : list A) x : nth_error (l ++ [x]) (length l) = Some x.
Proof. rewrite nth_error_app2 by lia. rewrite Nat.sub_diag. reflexivity. Qed.

Lemma F2_app_l {I} (T T' : list vty) (l : list addr) (fs : list (I * gty)) :
  Forall2 (fun a f => nth_error T a = Some (Var (snd f))) l fs -> Forall2 (fun a f => nth_error (T ++ T') a = Some (Var (snd f))) l fs.
Proof. intros F. induction F as [|? ? ? ? E F IH]; [constructor|constructor; [apply nth_error_app_l, E|exact IH]]. Qed.

Lemma sm_add_in {V} (m : smap V) k v x : In x (sm_add m k v) -> x = (k, v) \/ In x m.
Proof.
  induction m as [|[k' v'] m IH]; cbn [sm_add]; [intros [<-|[]]; auto|].
  destruct (bcmp k k'); cbn [In]; intros [H|H]; auto. destruct (IH H); auto.
Qed.

Section Typing.
Context (env : nat -> list (finfo * gty)).
Notation named := (named env).
Notation cell_ok := (cell_ok env).
Notation mem_ok := (mem_ok env).
Notation proper := (proper env).

Lemma cell_ok_more T T' c v : cell_ok T c v -> cell_ok (T ++ T') c v.
Proof.
  intros H. inversion H; subst; try (constructor; fail).
  - constructor; [|assumption]. eapply Forall_impl; [|eassumption]. intros a E. apply nth_error_app_l, E.
  - constructor. eapply Forall_impl; [|eassumption]. intros a E. apply nth_error_app_l, E.
  - constructor. apply nth_error_app_l. assumption.
  - constructor. apply nth_error_app_l. assumption.
  - constructor. eapply Forall_impl; [|eassumption]. intros a E. apply nth_error_app_l, E.
  - constructor. apply nth_error_app_l. assumption.
  - constructor. clear H. match goal with F : Forall2 _ _ _ |- _ => induction F as [|? ? ? ? E F IH]; [constructor|constructor; [apply nth_error_app_l, E|exact IH]] end.
  - constructor; assumption.
Qed.

Lemma mem_ok_length T m : mem_ok T m -> length T = length m.
Proof. intros H. unfold SpecUnmarshal.mem_ok in H. revert H. generalize T at 1. intros T0 H. induction H; simpl; congruence. Qed.

Lemma Forall2_nth {A B} (R : A -> B -> Prop) l l' a y : Forall2 R l l' -> nth_error l' a = Some y -> exists x, nth_error l a = Some x /\ R x y.
Proof.
  intros F. revert a. induction F as [|x y' l l' H F IH]; intros [|a] E; try discriminate; simpl in *.
  - injection E as <-. eauto.
  - apply IH, E.
Qed.

Lemma mem_ok_cell T m a v : mem_ok T m -> nth_error T a = Some v -> exists c, nth_error m a = Some c /\ cell_ok T c v.
Proof. intros H E. exact (Forall2_nth _ _ _ _ _ H E). Qed.

Lemma mem_ok_write T m a c v : mem_ok T m -> nth_error T a = Some v -> cell_ok T c v -> mem_ok T (mwrite m a c).
Proof.
  unfold SpecUnmarshal.mem_ok. intros H E C. assert (G : forall T0 m T1, Forall2 (cell_ok T0) m T1 -> forall a, nth_error T1 a = Some v -> cell_ok T0 c v -> Forall2 (cell_ok T0) (mwrite m a c) T1).
  { clear. intros T0 m T1 F. induction F as [|x y m T1 H F IH]; intros [|a] E C; simpl in *; try discriminate.
    - injection E as ->. constructor; assumption.
    - constructor; [assumption|]. apply IH; assumption. }
  eapply G; eassumption.
Qed.

Lemma mem_ok_app T m T' m' : mem_ok T m -> Forall2 (cell_ok (T ++ T')) m' T' -> mem_ok (T ++ T') (m ++ m').
Proof.
  intros H H'. apply Forall2_app; [|exact H']. clear H'.
  unfold SpecUnmarshal.mem_ok in H. revert H. generalize T at 1 3. intros T0 H. induction H; constructor; auto. apply cell_ok_more. assumption.
Qed.

Lemma mem_ok_snoc T m c v : mem_ok T m -> cell_ok (T ++ [v]) c v -> mem_ok (T ++ [v]) (m ++ [c]).
Proof. intros H C. apply mem_ok_app; [exact H|]. repeat constructor. exact C. Qed.

Lemma mem_ok_end T m v : mem_ok T m -> nth_error (T ++ [v]) (length m) = Some v.
Proof. intros H. rewrite <- (mem_ok_length _ _ H). apply nth_error_last. Qed.

(** ** Memory whose structs [K] stay where they are *)

Context (K : addr -> list addr -> Prop).
Definition mok (T : list vty) (m : mem) : Prop := mem_ok T m /\ forall x l, K x l -> nth_error m x = Some (VStruct l).
Definition not_struct (c : vcell) : Prop := match c with VStruct _ => False | _ => True end.

Lemma mok_length T m : mok T m -> length T = length m.
Proof. intros [H _]. apply mem_ok_length, H. Qed.
Lemma mok_cell T m a v : mok T m -> nth_error T a = Some v -> exists c, nth_error m a = Some c /\ cell_ok T c v.
Proof. intros [H _]. apply mem_ok_cell, H. Qed.
Lemma mok_write T m a c v : mok T m -> nth_error T a = Some v -> not_struct c -> cell_ok T c v -> mok T (mwrite m a c).
Proof.
  intros [H HK] E N C. split; [eapply mem_ok_write; eassumption|]. intros x l X. destruct (Nat.eq_dec a x) as [<-|D]; [|rewrite mwrite_other by exact D; apply HK, X].
  exfalso. destruct (mem_ok_cell _ _ _ _ H E) as (c' & E' & C'). rewrite (HK _ _ X) in E'. injection E' as <-. inversion C'; subst. inversion C; subst. exact N.
Qed.
Lemma mok_app T m T' m' : mok T m -> Forall2 (cell_ok (T ++ T')) m' T' -> mok (T ++ T') (m ++ m').
Proof. intros [H HK] H'. split; [apply mem_ok_app; assumption|]. intros x l X. apply nth_error_app_l, HK, X. Qed.
Lemma mok_snoc T m c v : mok T m -> cell_ok (T ++ [v]) c v -> mok (T ++ [v]) (m ++ [c]).
Proof. intros H C. apply mok_app; [exact H|]. repeat constructor. exact C. Qed.
Lemma mok_end T m v : mok T m -> nth_error (T ++ [v]) (length m) = Some v.
Proof. intros [H _]. apply mem_ok_end, H. Qed.

Lemma proper_fields n fs i t : proper (TStruct n fs) -> In (i, t) fs -> proper t.
Proof.
  cbn [SpecUnmarshal.proper]. intros [_ H]. induction fs as [|[i' t'] fs IH]; [intros []|]. destruct H as [H1 H2].
  intros [E|I]; [injection E as <- <-; exact H1|apply IH; assumption].
Qed.

(** ** Allocation *)

Lemma times_ok T m n f t :
  (forall T m, mok T m -> exists T', mok (T ++ T') (fst (f m)) /\ nth_error (T ++ T') (snd (f m)) = Some (Var t)) ->
  mok T m -> exists T', mok (T ++ T') (fst (times n f m))
     /\ Forall (fun a => nth_error (T ++ T') a = Some (Var t)) (snd (times n f m)) /\ length (snd (times n f m)) = n.
Proof.
  intros Hf. revert T m. induction n as [|n IH]; intros T m H.
  - exists []. rewrite app_nil_r. cbn. auto.
  - destruct (Hf T m H) as (T1 & H1 & E1). cbn [times]. destruct (f m) as [m1 a]. cbn [fst snd] in *.
    destruct (IH _ _ H1) as (T2 & H2 & F2 & L2). destruct (times n f m1) as [m2 l]. cbn [fst snd] in *.
    exists (T1 ++ T2). rewrite app_assoc. split; [exact H2|split]; [|simpl; congruence].
    constructor; [|exact F2]. apply nth_error_app_l, E1.
Qed.

Lemma zero_cell_ns t : not_struct (zero_cell t).
Proof. destruct t; exact Logic.I. Qed.

Lemma zero_cell_ok T t : match t with TArray _ _ | TStruct _ _ | TNamed _ => False | _ => True end -> cell_ok T (zero_cell t) (Var t).
Proof. destruct t; intros H; try destruct H; cbn [zero_cell]; constructor. destruct k; reflexivity. Qed.

Section GtyInd.
Variable P : gty -> Prop.
Hypothesis Hbase : forall t, match t with TArray _ _ | TStruct _ _ | TSlice _ | TMap _ | TMapOther _ | TPtr _ => False | _ => True end -> P t.
Hypothesis Hslice : forall t, P t -> P (TSlice t).
Hypothesis Harray : forall n t, P t -> P (TArray n t).
Hypothesis Hmap : forall t, P t -> P (TMap t).
Hypothesis Hmapo : forall t, P t -> P (TMapOther t).
Hypothesis Hptr : forall t, P t -> P (TPtr t).
Hypothesis Hstruct : forall n fs, Forall (fun f => P (snd f)) fs -> P (TStruct n fs).
Fixpoint gty_ind' (t : gty) : P t :=
  match t return P t with
  | TSlice t => Hslice t (gty_ind' t)
  | TArray n t => Harray n t (gty_ind' t)
  | TMap t => Hmap t (gty_ind' t)
  | TMapOther t => Hmapo t (gty_ind' t)
  | TPtr t => Hptr t (gty_ind' t)
  | TStruct n fs => Hstruct n fs ((fix go (fs : list (finfo * gty)) : Forall (fun f => P (snd f)) fs :=
      match fs with [] => Forall_nil _ | f :: fs' => Forall_cons f (gty_ind' (snd f)) (go fs') end) fs)
  | t => Hbase t Logic.I
  end.
End GtyInd.

Definition zfields := (fix go (fs : list (finfo * gty)) (m : mem) : mem * list addr :=
                         match fs with
                         | [] => (m, [])
                         | (_, t') :: fs' => let '(m1, a) := zalloc t' m in let '(m2, l) := go fs' m1 in (m2, a :: l)
                         end).

Lemma zalloc_ok t : proper t -> forall T m, mok T m ->
  exists T', mok (T ++ T') (fst (zalloc t m)) /\ nth_error (T ++ T') (snd (zalloc t m)) = Some (Var t).
Proof.
  induction t as [t Ht|t IH|k t IH|t IH|t IH|t IH|n fs IH] using gty_ind'; intros Hp T m H;
    try (exists [Var (TSlice t)]; cbn [zalloc fst snd]; split; [apply mok_snoc; [exact H|apply zero_cell_ok; exact Logic.I]|apply mok_end, H]);
    try (exists [Var (TMap t)]; cbn [zalloc fst snd]; split; [apply mok_snoc; [exact H|apply zero_cell_ok; exact Logic.I]|apply mok_end, H]);
    try (exists [Var (TMapOther t)]; cbn [zalloc fst snd]; split; [apply mok_snoc; [exact H|apply zero_cell_ok; exact Logic.I]|apply mok_end, H]);
    try (exists [Var (TPtr t)]; cbn [zalloc fst snd]; split; [apply mok_snoc; [exact H|apply zero_cell_ok; exact Logic.I]|apply mok_end, H]).
  - destruct t; try destruct Ht; try destruct Hp;
      (match goal with |- context [zalloc ?t _] => exists [Var t] end); cbn [zalloc fst snd];
      (split; [apply mok_snoc; [exact H|apply zero_cell_ok; exact Logic.I]|apply mok_end, H]).
  - cbn [SpecUnmarshal.proper] in Hp. cbn [zalloc].
    destruct (times_ok T m k (zalloc t) t (IH Hp) H) as (T1 & H1 & F1 & L1).
    destruct (times k (zalloc t) m) as [m1 l]. cbn [fst snd] in *. subst k.
    exists (T1 ++ [Var (TArray (length l) t)]). rewrite app_assoc. split; [|apply mok_end, H1].
    apply mok_snoc; [exact H1|]. constructor. eapply Forall_impl; [|exact F1]. intros a E. apply nth_error_app_l, E.
  - assert (Hall : forall i t, In (i, t) fs -> proper t) by (intros i t I; eapply proper_fields; eassumption). clear Hp.
    assert (G : exists T', mok (T ++ T') (fst (zfields fs m)) /\ Forall2 (fun a f => nth_error (T ++ T') a = Some (Var (snd f))) (snd (zfields fs m)) fs).
    { revert T m H. induction fs as [|[i t'] fs IHfs]; intros T m H.
      - exists []. rewrite app_nil_r. split; [exact H|constructor].
      - inversion IH as [|? ? I1 I2]; subst. cbn [snd] in I1. cbn [zfields].
        destruct (I1 (Hall i t' (or_introl eq_refl)) T m H) as (T1 & H1 & E1). destruct (zalloc t' m) as [m1 a]. cbn [fst snd] in *.
        destruct (IHfs I2 (fun i t I => Hall i t (or_intror I)) _ _ H1) as (T2 & H2 & F2). fold zfields. destruct (zfields fs m1) as [m2 l]. cbn [fst snd] in *.
        exists (T1 ++ T2). rewrite app_assoc. split; [exact H2|]. constructor; [cbn [snd]; apply nth_error_app_l, E1|exact F2]. }
    destruct G as (T1 & H1 & F1). cbn [zalloc]. fold zfields. destruct (zfields fs m) as [m1 l]. cbn [fst snd] in *.
    exists (T1 ++ [Var (TStruct n fs)]). rewrite app_assoc. split; [|apply mok_end, H1].
    apply mok_snoc; [exact H1|]. constructor. apply F2_app_l, F1.
Qed.

(** Allocation leaves the old cells alone. *)
Lemma times_keeps f n : (forall m, exists m', fst (f m) = m ++ m') -> forall m, exists m', fst (times n f m) = m ++ m'.
Proof.
  intros Hf. induction n as [|n IH]; intros m; [exists []; rewrite app_nil_r; reflexivity|]. cbn [times].
  destruct (Hf m) as [m1 E1]. destruct (f m) as [m1' a]. cbn [fst] in E1. subst m1'. destruct (IH (m ++ m1)) as [m2 E2]. destruct (times n f (m ++ m1)) as [m2' l]. cbn [fst] in *. subst.
  exists (m1 ++ m2). rewrite app_assoc. reflexivity.
Qed.

Lemma zalloc_keeps t : forall m, exists m', fst (zalloc t m) = m ++ m'.
Proof.
  induction t as [t Ht|t IH|k t IH|t IH|t IH|t IH|n fs IH] using gty_ind'; intros m;
    try (cbn [zalloc fst]; eexists; reflexivity).
  - destruct t; try destruct Ht; cbn [zalloc fst]; eexists; reflexivity.
  - cbn [zalloc]. destruct (times_keeps (zalloc t) k IH m) as [m' E]. destruct (times k (zalloc t) m) as [m1 l]. cbn [fst] in *. subst. eexists. rewrite <- app_assoc. reflexivity.
  - cbn [zalloc]. fold zfields.
    assert (G : exists m', fst (zfields fs m) = m ++ m').
    { revert m. induction fs as [|[i t'] fs IHfs]; intros m; [exists []; rewrite app_nil_r; reflexivity|]. cbn [zfields]. fold zfields.
      inversion IH as [|? ? I1 I2]; subst. cbn [snd] in I1. destruct (I1 m) as [m1 E1]. destruct (zalloc t' m) as [m1' a]. cbn [fst] in E1. subst m1'.
      destruct (IHfs I2 (m ++ m1)) as [m2 E2]. destruct (zfields fs (m ++ m1)) as [m2' l]. cbn [fst] in *. subst. exists (m1 ++ m2). rewrite app_assoc. reflexivity. }
    destruct G as [m' E]. destruct (zfields fs m) as [m1 l]. cbn [fst] in *. subst. eexists. rewrite <- app_assoc. reflexivity.
Qed.

(** ** Zeroing and copying *)

Lemma fold_ok T (f : mem -> addr -> mem) l : (forall m x, In x l -> mok T m -> mok T (f m x)) -> forall m, mok T m -> mok T (fold_left f l m).
Proof.
  induction l as [|x l IH]; intros Hf m H; [exact H|]. cbn [fold_left]. apply IH; [intros; apply Hf; [right; assumption|assumption]|].
  apply Hf; [left; reflexivity|exact H].
Qed.

Lemma set_zero_ok t : proper t -> forall T m a, mok T m -> nth_error T a = Some (Var t) -> mok T (set_zero t a m).
Proof.
  induction t as [t Ht|t IH|k t IH|t IH|t IH|t IH|n fs IH] using gty_ind'; intros Hp T m a H E;
    try (cbn [set_zero]; eapply mok_write; [exact H|exact E|apply zero_cell_ns|apply zero_cell_ok; exact Logic.I]).
  - destruct t; try destruct Ht; try destruct Hp; cbn [set_zero]; (eapply mok_write; [exact H|exact E|apply zero_cell_ns|apply zero_cell_ok; exact Logic.I]).
  - cbn [SpecUnmarshal.proper] in Hp. cbn [set_zero]. destruct (mok_cell _ _ _ _ H E) as (c & -> & C). inversion C; subst.
    apply fold_ok; [|exact H]. intros m' x I H'. apply IH; [exact Hp|exact H'|]. rewrite Forall_forall in *. auto.
  - assert (Hall : forall i t, In (i, t) fs -> proper t) by (intros i t I; eapply proper_fields; eassumption). clear Hp.
    cbn [set_zero]. destruct (mok_cell _ _ _ _ H E) as (c & -> & C). inversion C; subst. clear C E.
    match goal with F : Forall2 _ _ _ |- _ => rename F into F1 end. revert l F1 m H.
    induction fs as [|[i t'] fs IHfs]; intros l F1 m H; [exact H|]. inversion F1 as [|x ? l' ? Ex F2]; subst. inversion IH as [|? ? I1 I2]; subst.
    apply (IHfs I2); [intros; eapply Hall; right; eassumption|exact F2|]. apply I1; [eapply Hall; left; reflexivity|exact H|exact Ex].
Qed.

Lemma vcopy_ok t : proper t -> forall T m a, mok T m -> nth_error T a = Some (Var t) ->
  exists T', mok (T ++ T') (fst (vcopy t a m)) /\ nth_error (T ++ T') (snd (vcopy t a m)) = Some (Var t).
Proof.
  assert (S : forall t T m a, mok T m -> nth_error T a = Some (Var t) ->
     mok (T ++ [Var t]) (m ++ [match nth_error m a with Some c => c | None => VOther end]) /\ nth_error (T ++ [Var t]) (length m) = Some (Var t)).
  { clear t. intros t T m a H E. destruct (mok_cell _ _ _ _ H E) as (c & -> & C). split; [|apply mok_end, H].
    apply mok_snoc; [exact H|]. apply cell_ok_more, C. }
  induction t as [t Ht|t IH|k t IH|t IH|t IH|t IH|n fs IH] using gty_ind'; intros Hp T m a H E;
    try (exists [Var (TSlice t)]; cbn [vcopy fst snd]; apply S; assumption);
    try (exists [Var (TMap t)]; cbn [vcopy fst snd]; apply S; assumption);
    try (exists [Var (TMapOther t)]; cbn [vcopy fst snd]; apply S; assumption);
    try (exists [Var (TPtr t)]; cbn [vcopy fst snd]; apply S; assumption).
  - destruct t; try destruct Ht; try destruct Hp;
      (match goal with |- context [vcopy ?t _ _] => exists [Var t] end); cbn [vcopy fst snd]; apply S; assumption.
  - cbn [SpecUnmarshal.proper] in Hp. cbn [vcopy]. destruct (mok_cell _ _ _ _ H E) as (c & -> & C). inversion C as [| | | | | | | |l ? F1| | | | | | | | | | | | | | | |]; subst. clear C E.
    set (go := fix go (l : list addr) (m : mem) : mem * list addr :=
                              match l with
                              | [] => (m, [])
                              | x :: l1 => let '(m1, y) := vcopy t x m in let '(m2, r) := go l1 m1 in (m2, y :: r)
                              end).
    assert (G : exists T', mok (T ++ T') (fst (go l m)) /\ Forall (fun a => nth_error (T ++ T') a = Some (Var t)) (snd (go l m)) /\ length (snd (go l m)) = length l).
    { revert T m H F1. induction l as [|x l IHl]; intros T m H F1.
      - exists []. rewrite app_nil_r. split; [exact H|split; [constructor|reflexivity]].
      - inversion F1 as [|? ? E1 E2]; subst. cbn [go]. destruct (IH Hp T m x H E1) as (T1 & H1 & Y1). destruct (vcopy t x m) as [m1 y]. cbn [fst snd] in *.
        destruct (IHl (T ++ T1) m1 H1) as (T2 & H2 & F2 & L2).
        { eapply Forall_impl; [|exact E2]. intros z Ez. apply nth_error_app_l, Ez. }
        destruct (go l m1) as [m2 r]. cbn [fst snd] in *. exists (T1 ++ T2). rewrite app_assoc. split; [exact H2|]. split; [constructor; [apply nth_error_app_l, Y1|exact F2]|simpl; congruence]. }
    destruct G as (T1 & H1 & F2 & L). destruct (go l m) as [m1 l']. cbn [fst snd] in *.
    exists (T1 ++ [Var (TArray (length l) t)]). rewrite app_assoc. split; [|apply mok_end, H1].
    apply mok_snoc; [exact H1|]. rewrite <- L. constructor. eapply Forall_impl; [|exact F2]. intros z Ez. apply nth_error_app_l, Ez.
  - assert (Hall : forall i t, In (i, t) fs -> proper t) by (intros i t I; eapply proper_fields; eassumption). clear Hp.
    cbn [vcopy]. destruct (mok_cell _ _ _ _ H E) as (c & -> & C). inversion C as [| | | | | | | | | | | | | | | |l ? ? F1| | | | | | | |]; subst. clear C E.
    set (go := fix go (fs : list (finfo * gty)) (l : list addr) (m : mem) : mem * list addr :=
                              match fs, l with
                              | (_, t') :: fs', x :: l1 => let '(m1, y) := vcopy t' x m in let '(m2, r) := go fs' l1 m1 in (m2, y :: r)
                              | _, _ => (m, [])
                              end).
    assert (G : exists T', mok (T ++ T') (fst (go fs l m)) /\ Forall2 (fun a f => nth_error (T ++ T') a = Some (Var (snd f))) (snd (go fs l m)) fs).
    { revert l T m H F1. induction fs as [|[i t'] fs IHfs]; intros l T m H F1.
      - exists []. rewrite app_nil_r. destruct l; (split; [exact H|constructor]).
      - inversion F1 as [|x ? l' ? E1 E2]; subst. inversion IH as [|? ? I1 I2]; subst. cbn [snd] in *. cbn [go].
        destruct (I1 (Hall i t' (or_introl eq_refl)) T m x H E1) as (T1 & H1 & Y1). destruct (vcopy t' x m) as [m1 y]. cbn [fst snd] in *.
        destruct (IHfs I2 (fun i t I => Hall i t (or_intror I)) l' (T ++ T1) m1 H1) as (T2 & H2 & F2).
        { apply F2_app_l, E2. }
        destruct (go fs l' m1) as [m2 r]. cbn [fst snd] in *. exists (T1 ++ T2). rewrite app_assoc. split; [exact H2|].
        constructor; [cbn [snd]; apply nth_error_app_l, Y1|exact F2]. }
    destruct G as (T1 & H1 & F2). destruct (go fs l m) as [m1 l']. cbn [fst snd] in *.
    exists (T1 ++ [Var (TStruct n fs)]). rewrite app_assoc. split; [|apply mok_end, H1].
    apply mok_snoc; [exact H1|]. constructor. apply F2_app_l, F2.
Qed.
End Typing.
